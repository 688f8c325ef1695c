(** * SYMMLQ in exact arithmetic: what [anorm] and [acond] (symmlq.py:236-276) are. *)
From Coq Require Import List ZArith QArith Qreals Reals Lia Lra Bool.
From Verif Require Import Base Num ToolsModel ToolsProof CgModel CgProof MinresProof SpanMath GkProof LsqrMath AnormLs AcondLs
  SymmlqModel SymmlqProof.
Import ListNotations.
Local Open Scope R_scope.

Arguments si_len {E A b beta1 j V u y x w be gb c snp rh e yn2} _.
Arguments si_uu {E A b beta1 j V u y x w be gb c snp rh e yn2} _.
Arguments si_uV {E A b beta1 j V u y x w be gb c snp rh e yn2} _.
Arguments si_V1 {E A b beta1 j V u y x w be gb c snp rh e yn2} _.
Arguments si_Vo {E A b beta1 j V u y x w be gb c snp rh e yn2} _.
Arguments si_be {E A b beta1 j V u y x w be gb c snp rh e yn2} _.
Arguments si_yu {E A b beta1 j V u y x w be gb c snp rh e yn2} _.
Arguments si_ku {E A b beta1 j V u y x w be gb c snp rh e yn2} _.
Arguments si_kd {E A b beta1 j V u y x w be gb c snp rh e yn2} _.
Arguments si_Aw {E A b beta1 j V u y x w be gb c snp rh e yn2} _.
Arguments si_ww {E A b beta1 j V u y x w be gb c snp rh e yn2} _.
Arguments si_kw {E A b beta1 j V u y x w be gb c snp rh e yn2} _.
Arguments si_xx {E A b beta1 j V u y x w be gb c snp rh e yn2} _.
Arguments si_xw {E A b beta1 j V u y x w be gb c snp rh e yn2} _.
Arguments si_I {E A b beta1 j V u y x w be gb c snp rh e yn2} _.

(** ** The diagonal entries of the LQ factorisation. *)
Section Gamma.
Context {E : IPS}.
Variables (A : iv E -> iv E) (b : iv E) (beta1 : R).
Hypothesis SA : selfadj A.
Hypothesis B1 : 0 < beta1.
Variables (j : nat) (V : list (iv E)) (u y x w : iv E) (be gb c snp rh e yn2 : R).
Hypothesis I : SI A b beta1 j V u y x w be gb c snp rh e yn2.
Let LA : lin A := adjoint_lin A A SA.

(** [gamma] is the distance of [A u] to [A K_j]. *)
Lemma sg_dist : exists z, kry A b j z /\ ip (A (isub u z)) (A (isub u z)) = gb * gb + be * be /\
  ip (A u) (A u) = ip (A z) (A z) + (gb * gb + be * be).
Proof.
  destruct (si_I I) as (z & K & Q). exists z. split; [exact K|].
  pose proof (si_k A b beta1 _ _ _ _ _ _ _ _ _ _ _ _ _ I) as YK.
  pose proof (si_k0 A b beta1 _ _ _ _ _ _ _ _ _ _ _ _ _ I) as UK.
  assert (K1 : kry A b (S j) z) by (apply kry_S; [exact SA|exact K]).
  assert (K2 : kry A b (S j) (A z)) by (apply kry_A; exact K).
  pose proof (YK _ K2) as H1. pose proof (YK _ (si_kw I)) as H2.
  assert (H3 : ip (A z) w = 0).
  { rewrite <- (SA z w), (si_Aw I), ip_add, !ip_scale, (YK _ K1), (UK _ K). ring. }
  assert (YY : ip y y = be * be) by (rewrite (si_be I); symmetry; apply inorm_sq).
  split.
  - assert (D : A (isub u z) = iadd (iscale gb w) y).
    { rewrite (lin_sub A LA). apply ip_ext. intro t. assert (Q' := f_equal (ip t) Q). ipx_in Q'. ipx. lra. }
    rewrite D. ipx. rewrite (ip_sym y w), H2, YY, (si_ww I). ring.
  - rewrite Q. ipx. rewrite (ip_sym y w), (ip_sym w (A z)), (ip_sym y (A z)), H1, H2, H3, YY, (si_ww I). ring.
Qed.

Lemma sg_hi : forall l, inorm (A u) <= l * inorm u -> sqrt (gb * gb + be * be) <= l.
Proof.
  intros l H. assert (U1 : inorm u = 1) by (unfold inorm; rewrite (si_uu I); apply sqrt_1). rewrite U1 in H.
  apply Rle_trans with (inorm (A u)); [|lra]. unfold inorm. apply sqrt_le_1_alt.
  destruct sg_dist as (z & _ & _ & ->). pose proof (ip_pos (A z)). lra.
Qed.

Lemma sg_lo : forall s, 0 <= s -> (forall k z, kry A b k z -> s * inorm z <= inorm (A z)) -> s <= sqrt (gb * gb + be * be).
Proof.
  intros s S0 H. destruct sg_dist as (z & K & D & _).
  pose proof (si_k0 A b beta1 _ _ _ _ _ _ _ _ _ _ _ _ _ I z K) as UK.
  assert (K1 : kry A b (S j) (isub u z)).
  { apply kry_sub; [exact SA|apply (si_ku I)|apply kry_S; [exact SA|exact K]]. }
  specialize (H _ _ K1).
  assert (N : inorm (A (isub u z)) = sqrt (gb * gb + be * be)) by (unfold inorm; rewrite D; reflexivity).
  rewrite N in H. apply Rle_trans with (s * inorm (isub u z)); [|exact H].
  assert (1 <= inorm (isub u z)).
  { rewrite <- sqrt_1. unfold inorm. apply sqrt_le_1_alt. ipx. rewrite (ip_sym u z), UK, (si_uu I).
    pose proof (ip_pos z). lra. }
  nra.
Qed.

(** On a definite operator the last diagonal entry is bounded below as well. *)
Lemma sg_def : forall s, 0 <= s -> (forall k z, kry A b k z -> s * ip z z <= Rabs (ip z (A z))) -> s <= Rabs gb.
Proof.
  intros s S0 H. pose proof (si_uw A b beta1 SA _ _ _ _ _ _ _ _ _ _ _ _ _ I) as UW.
  pose proof (si_k A b beta1 _ _ _ _ _ _ _ _ _ _ _ _ _ I _ (si_kw I)) as WY.
  specialize (H _ _ (si_kw I)). rewrite (si_Aw I), ip_add, !ip_scale, WY, (si_ww I), (ip_sym w u), UW in H.
  replace (gb * c + c * 0) with (gb * c) in H by ring. rewrite Rabs_mult in H.
  assert (C : Rabs c <= 1).
  { pose proof (cauchy_norm u w) as CN. pose proof (cauchy_norm (ineg u) w) as CM. unfold ineg in CM.
    rewrite inorm_scale, ip_scalel in CM. replace (Rabs (-1)) with 1 in CM by (rewrite Rabs_left; lra).
    rewrite UW in CN, CM. unfold inorm in CN, CM. rewrite (si_uu I), (si_ww I), sqrt_1 in CN, CM. apply Rabs_le. lra. }
  pose proof (Rabs_pos gb). pose proof (Rabs_pos c). nra.
Qed.
End Gamma.

Section Exact.
Variables (dv : R -> R -> R) (sq : R -> R).
Hypothesis DV : dv_ok dv.
Hypothesis SQ : sq_ok sq.
Variable E : IPS.
Local Notation KK := (exactK dv sq).
Local Notation WW := (exactV dv sq E).
Variables (q : kprob WW) (kw : @sy_kw KK) (b : iv E).
Hypothesis NP : q_P q = None.
Hypothesis SA : selfadj (q_A q : iv E -> iv E).
Local Notation eps := (@machine_eps KK).
Local Notation sh := (sy_sh dv sq kw).
Local Notation At := (shifted E (q_A q) sh).
Let SAt : selfadj At := sy_At_sym dv sq E q kw SA.
Let LAt : lin At := adjoint_lin At At SAt.
Variable it0 : list (iv E).
Local Notation beta1 := (inorm b).
Hypothesis B1 : 0 < beta1.
Hypothesis AB : At b <> izero.
Local Notation live := (sy_live dv sq E q kw b beta1 it0).
Local Notation top := (@sy_top KK WW kw beta1).
Let EP : 0 < eps := sy_eps_pos dv sq.

(** The value [gmax] and [gmin] start from, and the first [gamma]. *)
Definition se_a1 : R := Rabs (ip b (At b)) / ip b b + eps.
Definition se_g1 : R := inorm (At b) / inorm b.

Lemma se_a1_pos : 0 < se_a1.
Proof.
  unfold se_a1. pose proof (Rabs_pos (ip b (At b))). assert (0 < ip b b) by (rewrite <- inorm_sq; nra).
  assert (0 <= Rabs (ip b (At b)) / ip b b) by (apply Rmult_le_pos; [lra|apply Rlt_le, Rinv_0_lt_compat; lra]). lra.
Qed.
Lemma se_g1_pos : 0 < se_g1.
Proof.
  unfold se_g1. apply Rdiv_lt_0_compat; [|exact B1]. unfold inorm. apply sqrt_lt_R0. apply ip_nz. exact AB.
Qed.

(** Bounds of the operator on the Krylov spaces. *)
Definition b_up (l : R) : Prop := forall k z, kry At b k z -> inorm (At z) <= l * inorm z.
Definition b_lo (s : R) : Prop := 0 <= s /\ forall k z, kry At b k z -> s * inorm z <= inorm (At z).
Definition b_def (s : R) : Prop := 0 <= s /\ forall k z, kry At b k z -> s * ip z z <= Rabs (ip z (At z)).

Lemma def_lo : forall s, b_def s -> b_lo s.
Proof.
  intros s [S0 H]. split; [exact S0|]. intros k z K. specialize (H k z K).
  assert (CA : Rabs (ip z (At z)) <= inorm z * inorm (At z)).
  { apply Rabs_le. split; [|apply cauchy_norm]. pose proof (cauchy_norm (ineg z) (At z)) as C. unfold ineg in C.
    rewrite inorm_scale, ip_scalel in C. replace (Rabs (-1)) with 1 in C by (rewrite Rabs_left; lra). lra. }
  rewrite <- inorm_sq in H. pose proof (inorm_pos z) as ZP.
  destruct (Rle_lt_or_eq_dec _ _ ZP) as [ZZ|ZZ].
  - apply Rmult_le_reg_l with (inorm z); [exact ZZ|]. lra.
  - rewrite <- ZZ, Rmult_0_r. apply inorm_pos.
Qed.

(** What is known of [acond] after the tests of iteration [k]. *)
Definition ac_ok (k : nat) (ac : R) : Prop := exists gx gm gn,
  ac = gx / gn /\ 0 < gn /\ gn <= gm /\ gm <= se_a1 /\ se_a1 <= gx /\ ((2 <= k)%nat -> se_g1 <= gx) /\
  (forall l, b_up l -> gx <= Rmax se_a1 l) /\ (forall s, b_lo s -> Rmin se_a1 s <= gm) /\
  (forall s, 0 < s -> b_def s -> Rmin se_a1 s <= gn).

Record se_live (j : nat) (st : sy_st WW) : Prop := {
  se_ex : exists V u c e,
    SI At b beta1 j V u (y_y st) (sy_X dv sq E b beta1 st) (sy_W dv sq E b beta1 st) (y_beta st) (y_gbar st) c (y_snprod st) (y_rhs1 st) e (y_ynorm2 st) /\
    y_dbar st = c * y_beta st /\ y_rhs2 st = e * y_beta st /\ (y_r1 st : iv E) = iscale (y_oldb st) u /\
    y_tnorm st = wsum At (u :: V) /\ ((1 <= j)%nat -> y_anorm st = sqrt (wsum At V)) /\
    (forall v, In v (u :: V) -> kry At b (S j) v);
  se_l : live j st;
  se_0 : j = 0%nat -> y_gbar st * y_gbar st + y_beta st * y_beta st = se_g1 * se_g1;
  se_gx1 : se_a1 <= y_gmax st;
  se_gx2 : (1 <= j)%nat -> se_g1 <= y_gmax st;
  se_gxl : forall l, b_up l -> y_gmax st <= Rmax se_a1 l;
  se_gn0 : 0 < y_gmin st;
  se_gn1 : y_gmin st <= se_a1;
  se_gns : forall s, b_lo s -> Rmin se_a1 s <= y_gmin st;
  se_ac : (1 <= j)%nat -> ac_ok j (y_acond st) /\ y_acond st < 1 / 10 / eps }.

Lemma se_tn : forall j st, se_live j st -> 0 < y_tnorm st.
Proof.
  intros j st L. destruct (sl_tn1 _ _ _ _ _ _ _ _ _ _ (se_l _ _ L)) as [J|T]; [|exact T].
  pose proof (se_0 _ _ L J) as G. destruct (se_ex _ _ L) as (V & u & c & e & I & _ & _ & _ & T & _).
  destruct (sg_dist At b beta1 SAt _ _ _ _ _ _ _ _ _ _ _ _ _ I) as (z & _ & _ & D).
  rewrite T, wsum_cons, D, G. pose proof (wsum_pos At V). pose proof (ip_pos (At z)). pose proof se_g1_pos. nra.
Qed.

(** The tests at the top of the loop. *)
Lemma se_top_ac : forall j lim st, se_live j st -> ac_ok (S j) (y_acond (top lim st)).
Proof.
  intros j lim st L. pose proof (se_tn _ _ L) as TP. destruct (se_ex _ _ L) as (V & u & c & e & I & _).
  cbn [sy_top y_acond].
  change (@seqb KK (y_gbar st) s0) with (Reqb (y_gbar st) 0).
  set (dg := if Reqb (y_gbar st) 0 then _ else _).
  set (ln := @ssqrt KK _). set (cn := @sdiv KK _ (sabs dg)). clearbody ln cn.
  assert (AP : 0 < sq (y_tnorm st)) by (rewrite SQ by lra; apply sqrt_lt_R0; exact TP).
  assert (DP : 0 < Rabs dg).
  { apply Rabs_pos_lt. unfold dg. destruct (Reqb (y_gbar st) 0) eqn:G; [|apply Reqb_false; exact G].
    change (sq (y_tnorm st) * eps <> 0). nra. }
  assert (DD : forall s, 0 < s -> b_def s -> s <= Rabs dg).
  { intros s S0 [S1 H]. pose proof (sg_def At b beta1 SAt _ _ _ _ _ _ _ _ _ _ _ _ _ I s S1 H) as G.
    unfold dg. destruct (Reqb (y_gbar st) 0) eqn:Z; [|exact G].
    apply Reqb_true in Z. rewrite Z, Rabs_R0 in G. lra. }
  clearbody dg.
  assert (QM : @pymin KK (y_gmin st) (@sabs KK dg) = Rmin (y_gmin st) (Rabs dg)).
  { unfold pymin. cbn. unfold Rltb, Rmin. destruct (Rlt_dec (Rabs dg) (y_gmin st)), (Rle_dec (y_gmin st) (Rabs dg)); lra. }
  rewrite QM. pose proof (se_gn0 _ _ L) as G0.
  assert (RP : 0 < Rmin (y_gmin st) (Rabs dg)) by (apply Rmin_glb_lt; assumption).
  exists (y_gmax st), (y_gmin st), (if @sltb KK ln cn then y_gmin st else Rmin (y_gmin st) (Rabs dg)).
  split; [|split; [|split; [|split; [|split; [|split; [|split; [|split]]]]]]].
  - destruct (@sltb KK ln cn); apply DV; lra.
  - destruct (@sltb KK ln cn); assumption.
  - destruct (@sltb KK ln cn); [apply Rle_refl|apply Rmin_l].
  - apply (se_gn1 _ _ L).
  - apply (se_gx1 _ _ L).
  - intro H. apply (se_gx2 _ _ L). lia.
  - apply (se_gxl _ _ L).
  - apply (se_gns _ _ L).
  - intros s S0 D. pose proof (se_gns _ _ L s (def_lo s D)) as Q1. specialize (DD s S0 D).
    destruct (@sltb KK ln cn); [exact Q1|]. apply Rmin_glb; [exact Q1|].
    apply Rle_trans with s; [apply Rmin_r|exact DD].
Qed.

Lemma se_top_an : forall lim st, y_anorm (top lim st) = sq (y_tnorm st).
Proof. reflexivity. Qed.

Lemma se_top_4 : forall lim st, y_istop st <> 4%Z -> y_istop (top lim st) = 4%Z -> 1 / 10 / eps <= y_acond (top lim st).
Proof.
  intros lim st N. cbn [sy_top y_acond y_istop]. set (ac := if sltb _ _ then _ else _). clearbody ac.
  destruct (y_istop st =? 0)%Z; [|intro; contradiction]. unfold sy_tests, sgeb. change (@sleb KK) with Rleb.
  change (@sdiv KK (slit (1 # 10)) eps) with (dv (Q2R (1 # 10)) eps).
  assert (T : Q2R (1 # 10) = 1 / 10) by (unfold Q2R; cbn; lra). rewrite T, (DV (1 / 10) eps) by lra.
  repeat match goal with |- context [if ?c then _ else _] => destruct c eqn:?; try discriminate end.
  intros _. apply Rleb_true. assumption.
Qed.

Lemma se_top_run : forall lim st, y_istop (top lim st) = 0%Z -> y_acond (top lim st) < 1 / 10 / eps.
Proof.
  intros lim st. cbn [sy_top y_acond y_istop]. set (ac := if sltb _ _ then _ else _). clearbody ac.
  destruct (y_istop st =? 0)%Z eqn:Z0; [|intro H; rewrite H in Z0; discriminate]. unfold sy_tests, sgeb. change (@sleb KK) with Rleb.
  change (@sdiv KK (slit (1 # 10)) eps) with (dv (Q2R (1 # 10)) eps).
  assert (T : Q2R (1 # 10) = 1 / 10) by (unfold Q2R; cbn; lra). rewrite T, (DV (1 / 10) eps) by lra.
  destruct (Rleb (1 / 10 / eps) ac) eqn:C; [|intros _; apply Rleb_false; exact C].
  repeat match goal with |- context [if ?c then _ else _] => destruct c eqn:?; try discriminate end.
Qed.

Lemma se_step : forall j lim (st st' : sy_st WW), se_live j st ->
  @sy_body KK WW q kw beta1 lim st = Ok st' -> y_brk (top lim st) = false ->
  se_live (S j) st' /\ y_brk st' = false.
Proof.
  intros j lim st st' SL H B. pose proof (se_l _ _ SL) as L0.
  destruct (sy_step dv sq DV SQ E q kw b NP SA beta1 B1 it0 j lim st st' L0 H B) as [L1 B']. split; [|exact B'].
  pose proof (sy_live_beta dv sq DV SQ E q kw b beta1 it0 _ _ _ L0 B) as BP.
  pose proof (sy_live_top dv sq E q kw b beta1 it0 _ _ _ L0 B) as L.
  pose proof (se_top_ac j lim st SL) as TAC.
  assert (TA : y_anorm (top lim st) = sq (y_tnorm (top lim st))) by reflexivity.
  assert (TR : y_acond (top lim st) < 1 / 10 / eps).
  { apply se_top_run. cbn [sy_top y_brk y_istop] in B |- *. apply Z.eqb_eq. destruct (_ =? 0)%Z; [reflexivity|discriminate]. }
  assert (TN : 0 < y_tnorm (top lim st)) by exact (se_tn _ _ SL).
  unfold sy_body in H. rewrite B in H.
  change (0 < y_beta (top lim st)) in BP.
  destruct SL as [EX _ Z0 GX1 GX2 GXL GN0 GN1 GNS _].
  change (j = 0%nat -> y_gbar (top lim st) * y_gbar (top lim st) + y_beta (top lim st) * y_beta (top lim st) = se_g1 * se_g1) in Z0.
  change (se_a1 <= y_gmax (top lim st)) in GX1. change ((1 <= j)%nat -> se_g1 <= y_gmax (top lim st)) in GX2.
  change (forall l, b_up l -> y_gmax (top lim st) <= Rmax se_a1 l) in GXL.
  change (0 < y_gmin (top lim st)) in GN0. change (y_gmin (top lim st) <= se_a1) in GN1.
  change (forall s, b_lo s -> Rmin se_a1 s <= y_gmin (top lim st)) in GNS.
  assert (EX' : exists V u c e,
    SI At b beta1 j V u (y_y (top lim st)) (sy_X dv sq E b beta1 (top lim st)) (sy_W dv sq E b beta1 (top lim st)) (y_beta (top lim st))
      (y_gbar (top lim st)) c (y_snprod (top lim st)) (y_rhs1 (top lim st)) e (y_ynorm2 (top lim st)) /\
    y_dbar (top lim st) = c * y_beta (top lim st) /\ y_rhs2 (top lim st) = e * y_beta (top lim st) /\ (y_r1 (top lim st) : iv E) = iscale (y_oldb (top lim st)) u /\
    y_tnorm (top lim st) = wsum At (u :: V) /\ (forall v, In v (u :: V) -> kry At b (S j) v)).
  { destruct EX as (V & u & c & e & I1 & I2 & I3 & I4 & I5 & _ & I6). exists V, u, c, e.
    split; [exact I1|]. split; [exact I2|]. split; [exact I3|]. split; [exact I4|]. split; [exact I5|exact I6]. }
  clear EX. rename EX' into EX.
  set (t := top lim st) in *. clearbody t. clear L0 B st.
  destruct EX as (V & u & c & e & I & HD & HR2 & HR1 & HT & HK). pose proof (sl_oldb _ _ _ _ _ _ _ _ _ _ L) as OB.
  unfold sy_lan, opmul in H. cbv beta iota zeta in H.
  set (v := vscale _ (y_y t)) in H.
  rewrite (sy_shift_eq dv sq E q kw) in H. unfold sy_prec in H. rewrite NP in H.
  set (u' := iscale (1 / y_beta t) (y_y t : iv E)).
  assert (Ev : v = u').
  { unfold v, u'. change (iscale (dv 1 (y_beta t)) (y_y t : iv E) = iscale (1 / y_beta t) (y_y t : iv E)).
    rewrite DV by lra. reflexivity. }
  rewrite Ev in H. clearbody v. clear Ev.
  set (p := @vsub KK WW (At u') _) in H.
  set (p0 := isub (At u') (iscale (y_beta t) u)).
  assert (Ep : p = p0).
  { unfold p, p0. change (isub (At u') (iscale (dv (y_beta t) (y_oldb t)) (y_r1 t : iv E)) = isub (At u') (iscale (y_beta t) u)).
    f_equal. rewrite HR1, DV by lra. apply ip_ext. intro z. ipx. field. lra. }
  rewrite Ep in H. clearbody p. clear Ep.
  set (al := @vdot KK WW u' p0) in H. change (@vdot KK WW u' p0) with (ip u' p0) in al.
  set (r2 := @vsub KK WW p0 _) in H. set (y' := isub p0 (iscale al u')).
  assert (Er : r2 = y').
  { unfold r2, y'. change (isub p0 (iscale (dv al (y_beta t)) (y_r2 t : iv E)) = isub p0 (iscale al u')).
    f_equal. rewrite (sl_r2 _ _ _ _ _ _ _ _ _ _ L), DV by lra. unfold u'. apply ip_ext. intro z. ipx. field. lra. }
  rewrite Er in H. clearbody r2. clear Er.
  assert (NN : @sltb KK (@vdot KK WW y' y') (@s0 KK) = false) by (apply Rltb_false, ip_pos).
  rewrite NN in H. clear NN.
  assert (Eb : @ssqrt KK (@vdot KK WW y' y') = inorm y') by (apply SQ, ip_pos).
  rewrite Eb in H. clear Eb. injection H as H.
  pose proof (ss_step At b beta1 SAt _ _ _ _ _ _ _ _ _ _ _ _ _ I BP) as MS.
  fold u' p0 in MS. change (ip u' p0) with al in MS. fold y' in MS.
  assert (AU1 : At u' = iadd (iadd (iscale (y_beta t) u) (iscale al u')) y') by (unfold y', p0; apply ip_ext; intro z; ipx; ring).
  pose proof (sg_hi At b beta1 SAt _ _ _ _ _ _ _ _ _ _ _ _ _ I) as GHI.
  pose proof (sg_lo At b beta1 SAt _ _ _ _ _ _ _ _ _ _ _ _ _ I) as GLO.
  assert (KU : kry At b (S j) u) by (apply HK; left; reflexivity).
  set (be := y_beta t) in *. set (gb := y_gbar t) in *.
  set (ga := sqrt (gb * gb + be * be)) in *.
  assert (GA : 0 < ga) by (apply sqrt_lt_R0; nra).
  assert (G1 : j = 0%nat -> ga = se_g1).
  { intro J. unfold ga. rewrite (Z0 J). apply sqrt_square. pose proof se_g1_pos. lra. }
  set (be' := inorm y') in *. 
  assert (GX : @ssqrt KK (@sadd KK (@smul KK (y_gbar t) (y_gbar t)) (@smul KK (y_beta t) (y_beta t))) = ga) by (change (sq (gb * gb + be * be) = ga); apply SQ; nra).
  assert (UX : sy_X dv sq E b beta1 st' = iadd (sy_X dv sq E b beta1 t) (iscale (y_rhs1 t / ga) (iadd (iscale (gb / ga) (sy_W dv sq E b beta1 t)) (iscale (be / ga) u')))).
  { rewrite <- H. unfold sy_X, sy_W. cbn [sy_upd y_x y_bstep]. rewrite GX.
    change (@smul KK) with Rmult. change (@sdiv KK) with dv. change (@sadd KK) with Rplus.
    change (@vadd KK WW) with (@iadd E). change (@vscale KK WW) with (@iscale E).
    rewrite !(DV _ ga) by lra. fold gb be. apply ip_ext. intro z. ipx. field. lra. }
  assert (UW : sy_W dv sq E b beta1 st' = isub (iscale (be / ga) (sy_W dv sq E b beta1 t)) (iscale (gb / ga) u')).
  { rewrite <- H. unfold sy_W. cbn [sy_upd y_w y_snprod]. rewrite GX.
    change (@smul KK) with Rmult. change (@sdiv KK) with dv.
    change (@vsub KK WW) with (@isub E). change (@vscale KK WW) with (@iscale E).
    rewrite !(DV _ ga) by lra. fold gb be. apply ip_ext. intro z. ipx. field. lra. }
  assert (UF : (y_y st' : iv E) = y' /\ y_beta st' = be' /\ y_gbar st' = be / ga * (y_dbar t) - gb / ga * al /\
     y_snprod st' = y_snprod t * (be / ga) /\ y_rhs1 st' = y_rhs2 t - (gb / ga * y_dbar t + be / ga * al) * (y_rhs1 t / ga) /\
     y_ynorm2 st' = y_rhs1 t / ga * (y_rhs1 t / ga) + y_ynorm2 t /\
     y_dbar st' = - (gb / ga) * be' /\ y_rhs2 st' = - (be / ga * be') * (y_rhs1 t / ga) /\
     y_r1 st' = y_r2 t /\ y_oldb st' = be /\
     y_tnorm st' = y_tnorm t + al * al + be * be + be' * be').
  { rewrite <- H. cbn [sy_upd y_y y_beta y_gbar y_snprod y_rhs1 y_ynorm2 y_dbar y_rhs2 y_r1 y_r2 y_oldb y_tnorm y_brk].
    rewrite GX.
    change (@smul KK) with Rmult. change (@sdiv KK) with dv. change (@sadd KK) with Rplus. change (@ssub KK) with Rminus.
    change (@sneg KK) with Ropp.
    rewrite !(DV _ ga) by lra. fold gb be.
    repeat split; reflexivity. }
  assert (UG : y_gmax st' = Rmax (y_gmax t) ga /\ y_gmin st' = Rmin (y_gmin t) ga /\ y_acond st' = y_acond t /\ y_anorm st' = y_anorm t).
  { rewrite <- H. cbn [sy_upd y_gmax y_gmin y_acond y_anorm]. rewrite GX. split; [|split; [|split; reflexivity]].
    - unfold pymax. cbn. unfold Rltb, Rmax. destruct (Rlt_dec (y_gmax t) ga), (Rle_dec (y_gmax t) ga); lra.
    - unfold pymin. cbn. unfold Rltb, Rmin. destruct (Rlt_dec ga (y_gmin t)), (Rle_dec (y_gmin t) ga); lra. }
  clear H GX. destruct UF as (U1 & U2 & U3 & U4 & U5 & U6 & U7 & U8 & U9 & U11 & U12).
  destruct UG as (UG1 & UG2 & UG3 & UG4).
  split.
  - exists (u :: V), u', (- (gb / ga)), (- (be / ga) * (y_rhs1 t / ga)). split; [|split; [|split; [|split; [|split; [|split]]]]].
    + rewrite U1, UX, UW, U2, U3, U4, U5, U6, HD, HR2. exact MS.
    + rewrite U7, U2. reflexivity.
    + rewrite U8, U2. rring.
    + rewrite U9, U11, (sl_r2 _ _ _ _ _ _ _ _ _ _ L). unfold u'. apply ip_ext. intro z. ipx. field. lra.
    + rewrite U12, (wsum_cons At u'), HT.
      assert (C : ip (At u') (At u') = al * al + be * be + be' * be').
      { rewrite AU1.
        assert (Q1 : ip u u' = 0) by (apply (si_uV MS); left; reflexivity).
        assert (Q2 : ip u' y' = 0) by (apply (si_yu MS)).
        assert (Q3 : ip u y' = 0) by (apply (si_yV _ _ _ _ _ _ _ _ _ _ _ _ _ _ _ _ MS); left; reflexivity).
        assert (Q4 : ip y' y' = be' * be') by (unfold be'; symmetry; apply inorm_sq).
        ipx. rewrite (ip_sym u' u), (ip_sym y' u), (ip_sym y' u'), Q1, Q2, Q3, Q4, (si_uu I), (si_uu MS). ring. }
      rewrite C. rring.
    + intros _. rewrite UG4, TA, SQ by lra. rewrite HT. reflexivity.
    + intros v0 [<-|Hv]; [apply (si_ku MS)|]. apply kry_S; [exact SAt|]. apply HK. exact Hv.
  - exact L1.
  - discriminate.
  - rewrite UG1. apply Rle_trans with (y_gmax t); [exact GX1|apply Rmax_l].
  - intros _. rewrite UG1. destruct j as [|j'].
    + rewrite <- (G1 eq_refl). apply Rmax_r.
    + apply Rle_trans with (y_gmax t); [apply GX2; lia|apply Rmax_l].
  - intros l UP. rewrite UG1. apply Rmax_lub; [apply GXL; exact UP|].
    apply Rle_trans with l; [|apply Rmax_r]. apply GHI. apply (UP (S j)). exact KU.
  - rewrite UG2. apply Rmin_glb_lt; assumption.
  - rewrite UG2. apply Rle_trans with (y_gmin t); [apply Rmin_l|exact GN1].
  - intros s LO. rewrite UG2. apply Rmin_glb; [apply GNS; exact LO|].
    apply Rle_trans with s; [apply Rmin_r|]. destruct LO as [S0 LO]. apply GLO; [exact S0|exact LO].
  - intros _. rewrite UG3. split; [exact TAC|exact TR].
Qed.

Lemma se_init : forall its cnt st d, @sy_first KK WW q kw (opmul (q_A q)) b b (beta1 : sc KK) 0%Z false its cnt = (st, d) ->
  live 0 st -> se_live 0 st.
Proof.
  intros its cnt st d H L.
  set (v := @vscale KK WW (@sdiv KK (@s1 KK) (beta1 : sc KK)) b).
  assert (F : y_gbar st = @vdot KK WW v (@sy_shift KK WW kw (q_A q v) v) /\
    y_tnorm st = y_gbar st * y_gbar st + y_beta st * y_beta st /\ y_gmax st = Rabs (y_gbar st) + eps /\
    y_gmin st = y_gmax st /\ (y_r1 st : iv E) = b /\ y_oldb st = beta1).
  { unfold sy_first, opmul in H. cbv beta iota zeta in H. fold v in H.
    set (i3 := if y_check kw then _ else _) in H. destruct i3 as [[i1 i2] ct].
    set (i4 := if sltb _ s0 then _ else _) in H. destruct i4 as [i5 i6].
    injection H as H _. rewrite <- H. cbn [y_gbar y_tnorm y_beta y_gmax y_gmin y_r1 y_oldb].
    repeat split; reflexivity. }
  destruct F as (F1 & F2 & F3 & F4 & F5 & F6). clear H.
  assert (Ev : v = iscale (1 / beta1) b) by (unfold v; change (iscale (dv 1 beta1) b = iscale (1 / beta1) b); rewrite DV by lra; reflexivity).
  rewrite (sy_shift_eq dv sq E q kw v) in F1. rewrite Ev in F1. change (y_gbar st = ip (iscale (1 / beta1) b) (At (iscale (1 / beta1) b))) in F1.
  assert (BB : ip b b = beta1 * beta1) by (symmetry; apply inorm_sq).
  assert (G : Rabs (y_gbar st) = Rabs (ip b (At b)) / ip b b).
  { rewrite F1, (lin_scale At LAt), ip_scale, ip_scalel.
    replace (1 / beta1 * (1 / beta1 * ip b (At b))) with (ip b (At b) * / ip b b) by (rewrite BB; field; lra).
    rewrite Rabs_mult. rewrite (Rabs_right (/ ip b b)); [reflexivity|]. apply Rle_ge, Rlt_le, Rinv_0_lt_compat. nra. }
  assert (GM : y_gmax st = se_a1) by (rewrite F3, G; reflexivity).
  destruct (sl_ex _ _ _ _ _ _ _ _ _ _ L) as (V & u & c & e & I & I2 & I3 & I4).
  pose proof (si_len I) as VL. destruct V as [|v0 V]; [|discriminate].
  assert (BU : b = iscale beta1 u) by (rewrite F5, F6 in I4; exact I4).
  destruct (sg_dist At b beta1 SAt _ _ _ _ _ _ _ _ _ _ _ _ _ I) as (z & KZ & _ & D). cbn in KZ. subst z.
  rewrite (lin_zero At LAt), ip_zero, Rplus_0_l in D.
  assert (D2 : ip (At u) (At u) = se_g1 * se_g1).
  { unfold se_g1. assert (U : u = iscale (1 / beta1) b) by (apply ip_ext; intro z; pose proof (f_equal (ip z) BU) as Q; rewrite ip_scale in Q; rewrite ip_scale, Q; field; lra).
    rewrite U, (lin_scale At LAt), ip_scale, ip_scalel, <- inorm_sq. field. lra. }
  split.
  - exists [], u, c, e. split; [exact I|]. split; [exact I2|]. split; [exact I3|]. split; [exact I4|]. split.
    + rewrite F2, <- D, wsum_cons. unfold wsum. cbn. ring.
    + split; [lia|]. intros v0 [<-|[]]. apply (si_ku I).
  - exact L.
  - intros _. rewrite <- D. exact D2.
  - rewrite GM. apply Rle_refl.
  - lia.
  - intros l _. rewrite GM. apply Rmax_l.
  - rewrite F4, GM. apply se_a1_pos.
  - rewrite F4, GM. apply Rle_refl.
  - intros s _. rewrite F4, GM. apply Rmin_l.
  - lia.
Qed.

(** The state when the loop is left. *)
Definition se_left (lim : nat) (st : sy_st WW) : Prop :=
  (y_brk st = false /\ se_live (y_itn st) st) \/
  (exists s0, se_live (y_itn s0) s0 /\ sy_run kw lim (length it0 + stored kw 1) s0 /\ st = top lim s0 /\ y_brk st = true).

Lemma se_loop : forall lim cnt st st', se_live 0 st -> y_itn st = 0%nat ->
  sy_flow kw lim cnt (length it0 + stored kw 1) st ->
  forall fuel, while fuel (sy_cond lim) (@sy_body KK WW q kw beta1 lim) st = Ok st' ->
  se_left lim st' /\ sy_flow kw lim cnt (length it0 + stored kw 1) st' /\ sy_cond lim st' = false.
Proof.
  intros lim cnt st st' L I0 F fuel H.
  assert (RB : y_brk st = false).
  { destruct F as [_ [F|[F|F]]]; [apply F| |]; destruct F as (_ & F & _); lia. }
  apply while_inv with (I := fun s => se_left lim s /\ sy_flow kw lim cnt (length it0 + stored kw 1) s) in H.
  - destruct H as [[H1 H2] H3]. auto.
  - intros s s' [LS FS] C HB. split; [|eapply sy_flow_step; eassumption].
    destruct LS as [[B LS]|(s0 & _ & _ & _ & B)]; [|unfold sy_cond in C; rewrite B in C; discriminate].
    assert (RN : sy_run kw lim (length it0 + stored kw 1) s).
    { destruct FS as [_ [FS|[FS|FS]]]; [exact FS| |]; destruct FS as [FS _]; congruence. }
    destruct (y_brk (top lim s)) eqn:BT.
    + right. exists s. unfold sy_body in HB. rewrite BT in HB. injection HB as <-. auto.
    + left. destruct (se_step _ _ _ _ LS HB BT) as [LS' B']. split; [exact B'|].
      replace (y_itn s') with (S (y_itn s)); [exact LS'|].
      clear - HB. unfold sy_body in HB. remember (top lim s) as t eqn:Et.
      assert (T3 : y_itn t = S (y_itn s)) by (rewrite Et; cbn; lia).
      clear Et. destruct (y_brk t); [injection HB as <-; congruence|].
      destruct (sy_lan q kw t) as [[[[[v al] r2] y] be] ct]. destruct (sltb be _); injection HB as <-; symmetry; exact T3.
  - split; [|exact F]. left. split; [exact RB|]. rewrite I0. exact L.
Qed.

Hypothesis CB : y_check kw = true -> 0 <= q_cbrt q eps.
Hypothesis LB : (1 <= ilen b)%nat.
Local Notation lim := (@sy_lim KK WW kw b).

(** What [solve] reports. *)
Theorem se_solve : forall fuel cnt o cnt', (lim < fuel)%nat ->
  @sy_solve KK WW fuel (Some (opmul (q_A q))) q it0 b kw cnt = Ok (o, cnt') ->
  (exists V, onl V /\ length V = u_itn o /\ (forall v, In v V -> kry At b (u_itn o) v) /\ u_anorm o = sqrt (wsum At V)) /\
  ac_ok (u_itn o) (u_acond o) /\
  (u_istop o = 4%Z -> 1 / 10 / eps <= u_acond o) /\
  (se_a1 <= 10 * eps * se_g1 -> (3 <= lim)%nat -> (u_itn o <= 2)%nat /\ In (u_istop o) [-1; 1; 2; 3; 4]%Z) /\
  (u_istop o <> 0%Z -> forall s, 0 < s -> b_def s -> exists xc, cg_point At b (u_itn o) xc).
Proof.
  intros fuel cnt o cnt' LF H.
  assert (PB : 0 < ip b b) by (rewrite <- inorm_sq; nra).
  pose proof (sy_solve_flow q kw fuel b it0 cnt LF) as HF. rewrite H in HF.
  destruct HF as (_ & _ & L2 & IT1 & _).
  destruct (sy_init_live dv sq DV SQ E q kw b NP SA beta1 B1 it0 eq_refl CB cnt) as (st & S1 & L1).
  pose proof (se_init _ _ _ _ S1 L1) as SL.
  assert (ES : @sy_solve KK WW fuel (Some (opmul (q_A q))) q it0 b kw cnt =
    match while fuel (sy_cond lim) (@sy_body KK WW q kw beta1 lim) st with
    | Ok st => @sy_final KK WW q kw b beta1 st
    | Err e => Err e
    end).
  { unfold sy_solve, sy_prec. rewrite NP.
    change (@vlen KK WW b) with (ilen b). destruct (ilen b =? 0)%nat eqn:Z; [apply Nat.eqb_eq in Z; lia|].
    assert (N1 : @sltb KK (@vdot KK WW b b) (@s0 KK) = false) by (apply Rltb_false, ip_pos).
    assert (N2 : @seqb KK (@vdot KK WW b b) (@s0 KK) = false) by (apply Reqb_false; change (ip b b <> 0); lra).
    assert (N3 : @sgtb KK (@vdot KK WW b b) (@s0 KK) = true) by (apply Rltb_true; exact PB).
    assert (N4 : @ssqrt KK (@vdot KK WW b b) = inorm b) by (apply SQ; change (0 <= ip b b); lra).
    rewrite N1, N2, N3, N4. cbn [orb].
    match goal with |- context [sy_first ?a ?b ?c ?d ?e ?f ?g ?h ?i ?j] =>
      assert (S2 : sy_first a b c d e f g h i j = (st, false)) by exact S1; rewrite S2 end.
    reflexivity. }
  rewrite ES in H. clear ES.
  assert (F1 : sy_flow kw lim cnt (List.length it0 + stored kw 1) st /\ y_nmv st = 1%nat /\ y_itn st = 0%nat).
  { assert (LL : (List.length it0 + stored kw 1)%nat = List.length (if y_sit kw then it0 ++ [(izero : iv E)] else it0)).
    { unfold stored. destruct (y_sit kw); [rewrite app_length; reflexivity|lia]. }
    rewrite LL. apply (sy_first_flow q kw _ _ _ _ lim _ _ S1). }
  destruct F1 as (F1 & N1 & I1).
  destruct (while fuel (sy_cond lim) (@sy_body KK WW q kw beta1 lim) st) as [st'|er] eqn:EW; [|discriminate].
  destruct (se_loop lim cnt st st' SL I1 F1 fuel EW) as (HL & HF & HC).
  unfold sy_final in H. destruct (y_lqdiag st') as [[lqn dg]|] eqn:ELQ; [|discriminate].
  unfold opmul in H. cbv beta iota zeta in H.
  assert (O : u_istop o = y_istop st' /\ u_itn o = y_itn st' /\ u_anorm o = y_anorm st' /\ u_acond o = y_acond st')
    by (injection H as <- _; repeat split; reflexivity).
  clear H. destruct O as (O1 & O2 & O3 & O4). rewrite O1, O2, O3, O4. rewrite O2 in IT1.
  (* the condition estimate is large from the second iteration on *)
  assert (BIG : se_a1 <= 10 * eps * se_g1 -> forall k ac, (2 <= k)%nat -> ac_ok k ac -> 1 / 10 / eps <= ac).
  { intros HB k ac K2 (gx & gm & gn & -> & A2 & A3 & A4 & A5 & A6 & _). specialize (A6 K2).
    apply Rmult_le_reg_r with (gn * eps); [nra|].
    replace (1 / 10 / eps * (gn * eps)) with (gn / 10) by (field; lra).
    replace (gx / gn * (gn * eps)) with (gx * eps) by (field; lra). nra. }
  destruct HL as [[BF SL']|(s0 & SL' & RN & -> & BT)].
  - (* left at the limit *)
    destruct HF as [_ [HF|[HF|HF]]]; [|destruct HF; congruence|destruct HF; congruence].
    destruct HF as (_ & F2 & _ & F3 & F4 & _).
    assert (IS0 : y_istop st' = 0%Z).
    { destruct F3 as [F3|[_ F3]]; [exact F3|]. lia. }
    destruct (se_ex _ _ SL') as (V & u & c & e & I & _ & _ & _ & _ & AN & KV).
    destruct (se_ac _ _ SL' IT1) as [AC1 AC2].
    assert (KJ : forall v, In v V -> kry At b (y_itn st') v).
    { assert (KJ := sl_ex _ _ _ _ _ _ _ _ _ _ (se_l _ _ SL')). clear KJ.
      intros v Hv. specialize (KV v (or_intror Hv)).
      destruct (si_dec _ _ _ _ _ _ _ _ _ _ _ _ _ _ _ _ I v KV) as (a & z0 & K0 & Q).
      assert (Z : ip v u = 0) by (apply (si_uV I); exact Hv).
      rewrite Q, ip_addl, ip_scalel, (si_uu I), (si_k0 At b beta1 _ _ _ _ _ _ _ _ _ _ _ _ _ I z0 K0) in Z.
      assert (A0 : a = 0) by lra. rewrite Q, A0. replace (iadd (iscale 0 u) z0) with z0 by veq. exact K0. }
    split.
    { exists V. split; [split; [apply (si_Vo I)|apply (si_V1 I)]|]. split; [apply (si_len I)|]. split; [exact KJ|apply AN; exact IT1]. }
    split; [exact AC1|]. split; [rewrite IS0; discriminate|]. split; [|intro; contradiction].
    intros HB L3. exfalso. unfold sy_cond in HC. rewrite BF in HC. cbn in HC. apply Nat.ltb_ge in HC.
    pose proof (BIG HB (y_itn st') (y_acond st') ltac:(lia) AC1). lra.
  - (* left by a test *)
    assert (EI : y_itn (top lim s0) = S (y_itn s0)) by (cbn; lia). rewrite EI.
    pose proof (se_top_ac _ lim _ SL') as AC.
    destruct RN as (_ & RN1 & _ & RN2 & _).
    assert (I4 : y_istop s0 <> 4%Z) by (destruct RN2 as [Q|[Q _]]; rewrite Q; discriminate).
    destruct (se_ex _ _ SL') as (V & u & c & e & I & _ & _ & _ & TN & AN & KV).
    split.
    { exists (u :: V). split.
      { apply onl_cons; [split; [apply (si_Vo I)|apply (si_V1 I)]|apply (si_uu I)|]. intros z Hz. apply (si_uV I). exact Hz. }
      split; [cbn; rewrite (si_len I); reflexivity|]. split; [exact KV|].
      rewrite se_top_an, TN. apply SQ. apply wsum_pos. }
    split; [exact AC|]. split; [apply se_top_4; exact I4|]. split.
    2:{ intros _ s S0 [S1' D]. pose proof (sg_def At b beta1 SAt _ _ _ _ _ _ _ _ _ _ _ _ _ I s S1' D) as G.
      eexists. apply (si_cg At b beta1 SAt _ _ _ _ _ _ _ _ _ _ _ _ _ I). intro Z. rewrite Z, Rabs_R0 in G. lra. }
    intros HB L3. split.
    + destruct (le_lt_dec (S (y_itn s0)) 2) as [LE|GT]; [exact LE|exfalso].
      destruct (se_ac _ _ SL' ltac:(lia)) as [AC1 AC2].
      pose proof (BIG HB (y_itn s0) (y_acond s0) ltac:(lia) AC1). lra.
    + destruct HF as [_ [HF|[HF|HF]]]; [destruct HF; congruence| |].
      * apply HF.
      * exfalso. destruct HF as (_ & _ & F2 & _). rewrite EI in F2. change (y_nmv (top lim s0)) with (y_nmv s0) in F2. lia.
Qed.
End Exact.
