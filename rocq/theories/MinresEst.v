(** * MINRES in exact arithmetic: what [Anorm], [Acond] and [ynorm] (minres.py:256-344) are. *)
From Coq Require Import List ZArith QArith Qreals Reals Lia Lra Bool.
From Verif Require Import Base Num ToolsModel ToolsProof CgModel CgProof MinresModel MinresProof SpanMath GkProof LsqrMath AnormLs AcondLs.
Import ListNotations.
Local Open Scope R_scope.

Section Exact.
Variables (dv : R -> R -> R) (sq : R -> R).
Hypothesis DV : dv_ok dv.
Hypothesis SQ : sq_ok sq.
Variable E : IPS.
Local Notation KK := (exactK dv sq).
Local Notation WW := (exactV dv sq E).
Variables (q : kprob WW) (kw : mr_kw WW) (b : iv E).
Hypothesis NP : m_precon kw = None.
Hypothesis SA : selfadj (q_A q : iv E -> iv E).
Local Notation At := (shifted E (q_A q) (m_shift kw)).
Local Notation eps := (@machine_eps KK).
Local Notation lim := (@mr_lim KK WW kw b).
Local Notation res z := (inorm (isub b (At z))).
Let SAt : selfadj At := shifted_sym dv sq E q kw SA.
Let LAt : lin At := adjoint_lin At At SAt.
Let EP : 0 < eps := eps_pos dv sq.

Lemma Rmin_pymin : forall a c : R, @pymin KK a c = Rmin a c.
Proof.
  intros. unfold pymin. cbn. unfold Rltb, Rmin. destruct (Rlt_dec c a), (Rle_dec a c); lra.
Qed.

(** The norm and condition fields and [istop] after one iteration; [c] is the outcome of the window test. *)
Lemma me_body : forall beta1 (st st' : mr_st WW),
  @mr_body KK WW q kw eps beta1 lim st = Ok st' ->
  let itn := (r_itn st + 1)%nat in
  let v : iv E := iscale (dv 1 (r_beta st)) (r_y st) in
  let rt : iv E := iscale (dv (r_beta st) (r_oldb st)) (r_r1 st) in
  let p : iv E := if (2 <=? itn)%nat then isub (At v) rt else At v in
  let al := ip v p in
  let y2 : iv E := iadd (iscale (dv (- al) (r_beta st)) (r_r2 st)) p in
  let be := sq (ip y2 y2) in
  let de := r_cs st * r_dbar st + r_sn st * al in
  let gb := r_sn st * r_dbar st - r_cs st * al in
  let ga := Rmax (sq (gb * gb + be * be)) eps in
  let root := sq (gb * gb + (- r_cs st * be) * (- r_cs st * be)) in
  let z := dv (r_rhs1 st) ga in
  let istop := if ((itn =? 1)%nat && Rleb (dv be beta1) (Q2R 10 * eps))%bool then (-1)%Z else r_istop st in
  r_tnorm2 st' = r_tnorm2 st + al * al + r_beta st * r_beta st + be * be /\
  r_ynorm2 st' = z * z + r_ynorm2 st /\
  r_Anorm st' = sq (r_tnorm2 st') /\ r_ynorm st' = sq (r_ynorm2 st') /\
  r_rhs1 st' = r_rhs2 st - de * z /\ r_rhs2 st' = - (r_sn st * be) * z /\
  r_gmax st' = Rmax (if (itn =? 1)%nat then Rabs al else r_gmax st) ga /\
  r_gmin st' = Rmin (if (itn =? 1)%nat then Rabs al else r_gmin st) ga /\
  r_Acond st' = dv (r_gmax st') (r_gmin st') /\
  (exists c : bool, let i2 := if c then 10%Z else istop in r_istop st' = (if (i2 =? 0)%Z
    then @mr_tests KK eps beta1 (m_rtol kw) itn lim (dv (r_rnorm st') (r_Anorm st' * r_ynorm st'))
           (dv root (r_Anorm st')) (r_Acond st') (r_Anorm st' * r_ynorm st' * eps) else i2)) /\
  r_brk st' = (0 <? r_istop st')%Z.
Proof.
  intros beta1 st st' H.
  intros itn v rt p al y2 be de gb ga root z istop.
  assert (U : st' = @mr_upd KK WW kw eps beta1 lim st v al y2 y2 (r_cnt st + 1) be de gb root ga).
  { unfold mr_body in H.
    destruct (mr_lan q kw st) as [[[[[v0 al0] r20] y0] be20] cnt0] eqn:EL. unfold mr_lan, opmul in EL.
    rewrite NP in EL. cbv beta iota zeta in EL. injection EL as Ev Ea Er Ey Eb Ec.
    assert (P : sltb be20 (s0 : sc KK) = false) by (apply Rltb_false; rewrite <- Eb; apply ip_pos).
    rewrite P in H. destruct (m_window kw =? 0)%nat; [discriminate|].
    assert (V0 : v0 = v) by (symmetry; exact Ev). rewrite V0 in H. clear Ev.
    assert (A0 : al0 = al) by (symmetry; exact Ea). rewrite A0 in H. clear Ea.
    assert (R0 : r20 = y2) by (symmetry; exact Er). rewrite R0 in H. clear Er.
    assert (Y0 : y0 = y2) by (symmetry; exact Ey). rewrite Y0 in H. clear Ey.
    assert (B0 : ssqrt be20 = be) by (rewrite <- Eb; reflexivity). clear Eb.
    rewrite B0, <- Ec in H.
    assert (G0 : @mr_gamma KK eps (mr_gbar st al) be = ga) by (apply Rmax_pymax).
    rewrite G0 in H. clear - H. clearbody ga be al v y2. injection H as <-. reflexivity. }
  assert (GM : Rmax (if (itn =? 1)%nat then Rabs al else r_gmax st) ga
    = @pymax KK (if (itn =? 1)%nat then Rabs al else r_gmax st) ga) by (symmetry; apply Rmax_pymax).
  assert (GN : Rmin (if (itn =? 1)%nat then Rabs al else r_gmin st) ga
    = @pymin KK (if (itn =? 1)%nat then Rabs al else r_gmin st) ga) by (symmetry; apply Rmin_pymin).
  rewrite GM, GN. clear GM GN.
  subst istop z. clear H. clearbody root ga gb de be y2 al p rt v. subst st'.
  unfold mr_upd. repeat (split; [reflexivity|]). split; [|reflexivity].
  exists ((m_window kw <? itn)%nat && sltb (m_lnorm kw (lset (r_dErr st) (itn mod m_window kw)%nat
     (@smul KK (@sdiv KK gb ga) (r_phibar st))))
     (@smul KK (m_etol kw) (@ssqrt KK (@sadd KK (r_nrg2 st) (@smul KK (@smul KK (@sdiv KK gb ga) (r_phibar st)) (@smul KK (@sdiv KK gb ga) (r_phibar st)))))))%bool.
  reflexivity.
Qed.

(** The stopping tests read back. *)
Lemma me_tests : forall beta1 (rtol : R) itn l (t1 t2 ac ex : R) i,
  @mr_tests KK eps beta1 rtol itn l t1 t2 ac ex = i ->
  In i [0; 1; 2; 3; 4; 6]%Z /\ (i = 0%Z -> 0 < t1) /\
  (i = 1%Z -> t1 <= Rmax rtol 0) /\ (i = 2%Z -> t2 <= Rmax rtol 0) /\
  (i = 3%Z -> beta1 <= ex) /\ (i = 4%Z -> dv (1 / 10) eps <= ac).
Proof.
  intros beta1 rtol itn l t1 t2 ac ex i <-.
  split; [apply (mr_tests_range (K := KK))|].
  assert (T : Q2R (1 # 10) = 1 / 10) by (unfold Q2R; cbn; lra).
  pose proof (Rmax_l rtol 0) as M1. pose proof (Rmax_r rtol 0) as M2.
  unfold mr_tests, sgeb.
  change (@sleb KK) with Rleb. change (@sadd KK) with Rplus. change (@s1 KK) with 1.
  change (@sdiv KK (slit (1 # 10)) eps) with (dv (Q2R (1 # 10)) eps). rewrite T.
  assert (F : forall a c, Rleb a c = true -> a <= c) by (intros a c H; apply Rleb_true; exact H).
  assert (F' : forall a c, Rleb a c = false -> c < a) by (intros a c H; apply Rleb_false; exact H).
  destruct (Rleb (1 + t2) 1) eqn:C1, (Rleb (1 + t1) 1) eqn:C2, (l <=? itn)%nat, (Rleb (dv (1 / 10) eps) ac) eqn:C3,
    (Rleb beta1 ex) eqn:C4, (Rleb t2 rtol) eqn:C5, (Rleb t1 rtol) eqn:C6;
    repeat match goal with H : Rleb _ _ = true |- _ => apply F in H | H : Rleb _ _ = false |- _ => apply F' in H end;
    repeat split; intro Q; try discriminate Q; lra.
Qed.

(** ** One Lanczos step: the size of [gamma] and of the new column. *)
Section Step.
Variables (k : nat) (V : list (iv E)) (u t rt x w w2 : iv E) (cs sn ep db phib : R).
Hypothesis I : MI At b k V u t rt x w w2 cs sn ep db phib.
Let p := isub (At u) rt.
Let al := ip u p.
Let y2 := isub p (iscale al u).
Let be := inorm y2.
Let gb := sn * db - cs * al.
Let ga := sqrt (gb * gb + be * be).

Lemma me_col : ip (At u) (At u) = al * al + ip rt rt + be * be.
Proof.
  pose proof (ms_y2u At b _ _ _ _ _ _ _ _ _ _ _ _ _ I) as H1. fold p al y2 in H1.
  pose proof (ms_y2 At b SAt _ _ _ _ _ _ _ _ _ _ _ _ _ I rt) as H2. fold p al y2 in H2.
  pose proof (ms_be2 At u rt) as H3. fold p al y2 be in H3.
  assert (H4 : ip rt u = 0) by (apply (mi_rtd I); apply (mi_uV I)).
  assert (D : At u = iadd (iadd y2 rt) (iscale al u)) by (unfold y2, p; apply ip_ext; intro z; ipx; ring).
  assert (H5 : ip rt y2 = 0).
  { apply H2. eapply dp_weak; [apply (mi_rtd I)|]. intros v Hv. right. exact Hv. }
  rewrite D. ipx. rewrite (ip_sym y2 u), (ip_sym y2 rt), (ip_sym u rt), H1, H4, H5, H3, (mi_uu I). ring.
Qed.

Lemma me_ga_le : ga <= inorm (At u).
Proof.
  pose proof (ms_ga2 At u rt cs sn db) as H0. fold p al y2 be gb ga in H0.
  pose proof (ms_nAp At b SAt _ _ _ _ _ _ _ _ _ _ _ _ _ I) as H1. fold p al y2 be gb ga in H1.
  pose proof (ms_Ap At b SAt _ _ _ _ _ _ _ _ _ _ _ _ _ I) as H2. fold p al y2 gb in H2.
  pose proof (ms_tAu At b SAt _ _ _ _ _ _ _ _ _ _ _ _ _ I) as H3. fold p al gb in H3.
  pose proof (ms_y2u At b _ _ _ _ _ _ _ _ _ _ _ _ _ I) as H4. fold p al y2 in H4.
  pose proof (ms_y2 At b SAt _ _ _ _ _ _ _ _ _ _ _ _ _ I rt) as H5. fold p al y2 in H5.
  pose proof (ms_be2 At u rt) as H6. fold p al y2 be in H6.
  assert (H7 : ip rt y2 = 0).
  { apply H5. eapply dp_weak; [apply (mi_rtd I)|]. intros v Hv. right. exact Hv. }
  assert (D : ip y2 (At u) = be * be).
  { assert (D : At u = iadd (iadd y2 rt) (iscale al u)) by (unfold y2, p; apply ip_ext; intro z; ipx; ring).
    rewrite D. ipx. rewrite (ip_sym y2 u), (ip_sym y2 rt), H4, H7, H6. ring. }
  set (p' := isub (isub u (iscale ep w2)) (iscale (cs * db + sn * al) w)) in *.
  assert (C : ip (At p') (At u) = ga * ga).
  { rewrite H2, ip_addl, ip_scalel, D, H3, H0. ring. }
  pose proof (cauchy_norm (At p') (At u)) as CN. rewrite C, H1 in CN.
  assert (G0 : 0 <= ga) by (unfold ga; apply sqrt_pos).
  pose proof (inorm_pos (At u)) as NU.
  destruct (Rle_lt_or_eq_dec _ _ G0) as [G|G]; [|rewrite <- G; exact NU].
  nra.
Qed.
End Step.

(** ** The loop. *)
Hypothesis SG : forall k z, kry At b k z -> eps * inorm z <= inorm (At z).
Hypothesis B0 : b <> izero.
Local Notation rt0 := (Rmax (m_rtol kw) 0).
(** What [ynorm] turns out to be, and the two quotients the condition estimate starts from. *)
Definition me_yn : R := ip b b / inorm (At b).
Definition me_a1 : R := Rabs (ip b (At b)) / ip b b.
Definition me_g1 : R := inorm (At b) / inorm b.

Lemma me_nb : 0 < inorm b.
Proof.
  pose proof (inorm_pos b) as P. destruct (Rle_lt_or_eq_dec _ _ P) as [H|H]; [exact H|].
  exfalso. apply B0. apply inorm_zero. symmetry. exact H.
Qed.
Lemma me_nAb : 0 < inorm (At b).
Proof.
  pose proof me_nb as P. pose proof (SG 1 b (kry_b At b SAt 0)) as H.
  pose proof (Rmult_lt_0_compat _ _ EP P). lra.
Qed.
Lemma me_yn_pos : 0 < me_yn.
Proof.
  unfold me_yn. pose proof me_nb as P. pose proof me_nAb as Q. rewrite <- inorm_sq.
  apply Rdiv_lt_0_compat; nra.
Qed.

(** The condition estimate. *)
Record me_cond (st : mr_st WW) : Prop := {
  mc_min : r_gmin st <= me_a1;
  mc_max : me_g1 <= r_gmax st;
  mc_lo : forall s, 0 <= s -> (forall k z, kry At b k z -> s * inorm z <= inorm (At z)) -> Rmin me_a1 s <= r_gmin st;
  mc_hi : forall l, (forall k z, kry At b k z -> inorm (At z) <= l * inorm z) -> r_gmax st <= l;
  mc_ac : r_Acond st = dv (r_gmax st) (r_gmin st);
  mc_4 : r_istop st = 4%Z -> dv (1 / 10) eps <= r_Acond st }.

(** Holds from the first iteration on. *)
Record me_com (st : mr_st WW) : Prop := {
  mk_rhs1 : r_rhs1 st = 0;
  mk_rhs2 : r_rhs2 st = 0;
  mk_y2 : r_ynorm2 st = me_yn * me_yn;
  mk_yn : r_ynorm st = me_yn;
  mk_an : r_Anorm st = sqrt (r_tnorm2 st);
  mk_1 : r_istop st = 1%Z -> r_rnorm st <= rt0 * (r_Anorm st * me_yn);
  mk_2 : r_istop st = 2%Z -> exists y, kry At b (r_itn st - 1) y /\
    (forall z, kry At b (r_itn st - 1) z -> res y <= res z) /\
    inorm (At (isub b (At y))) <= rt0 * r_Anorm st * res y;
  mk_3 : r_istop st = 3%Z -> inorm (At b) <= eps * r_Anorm st * inorm b;
  mk_r : In (r_istop st) [-1; 0; 1; 2; 3; 4; 6; 10]%Z;
  mk_brk : r_brk st = (0 <? r_istop st)%Z;
  mk_c : r_istop st <> (-1)%Z -> r_istop st <> 10%Z -> me_cond st }.

(** Before the first iteration. *)
Record me_fst (st : mr_st WW) : Prop := {
  mf_rhs1 : r_rhs1 st = inorm b; mf_rhs2 : r_rhs2 st = 0; mf_y2 : r_ynorm2 st = 0;
  mf_sn : r_sn st = 0; mf_db : r_dbar st = 0; mf_cs : r_cs st = -1; mf_i : r_istop st = 0%Z }.

Record me_live (st : mr_st WW) : Prop := {
  me_ex : exists V u t rt,
    MI At b (r_itn st) V u t rt (r_x st) (r_w st) (r_w2 st) (r_cs st) (r_sn st) (r_epsln st) (r_dbar st) (r_phibar st) /\
    (r_y st : iv E) = iscale (r_beta st) u /\
    (if (2 <=? r_itn st + 1)%nat then iscale (dv (r_beta st) (r_oldb st)) (r_r1 st) = rt else rt = izero) /\
    (forall v, In v V -> kry At b (r_itn st) v) /\
    r_tnorm2 st = (if (r_itn st =? 0)%nat then 0 else ip b b) + wsum At V /\
    (r_itn st = 0%nat -> u = iscale (1 / inorm b) b);
  me_beta : 0 < r_beta st;
  me_r2 : r_r2 st = r_y st;
  me_old : (1 <= r_itn st)%nat -> 0 < r_oldb st /\ ip (r_r1 st : iv E) (r_r1 st) = r_oldb st * r_oldb st;
  me_b1 : r_itn st = 0%nat -> r_beta st = inorm b }.

Definition me_sum (st : mr_st WW) : Prop := exists V : list (iv E), onl V /\ (length V <= r_itn st)%nat /\
  (forall v, In v V -> kry At b (length V) v) /\ r_tnorm2 st = ip b b + wsum At V /\
  ((length V < r_itn st)%nat -> At (r_x st) = b).

Definition me_inv (st : mr_st WW) : Prop :=
  (r_itn st = 0%nat /\ me_live st /\ me_fst st) \/
  ((1 <= r_itn st)%nat /\ me_com st /\ me_sum st /\
   (me_live st \/ (mr_dead dv sq E q kw b st /\ r_istop st <> 0%Z))).

Lemma me_step_live : forall (st st' : mr_st WW), me_live st ->
  (r_itn st = 0%nat -> me_fst st) -> ((1 <= r_itn st)%nat -> me_com st) -> r_brk st = false ->
  @mr_body KK WW q kw eps (inorm b) lim st = Ok st' -> me_inv st'.
Proof.
  intros st st' [(V & u & t & rt & I & Y & RT & KV & TN & U1) BP R2 OLD BE1] F0 C1 NB H.
  pose proof (me_body _ _ _ H) as H2. apply (mr_body_eq dv sq E q kw b NP) in H. cbv zeta in H, H2.
  assert (Ev : iscale (dv 1 (r_beta st)) (r_y st) = u).
  { rewrite Y, DV by lra. apply ip_ext. intro z. ipx. field. lra. }
  rewrite Ev in H, H2. clear Ev.
  assert (Ep : (if (2 <=? r_itn st + 1)%nat
       then isub (At u) (iscale (dv (r_beta st) (r_oldb st)) (r_r1 st)) else At u) = isub (At u) rt).
  { destruct (2 <=? r_itn st + 1)%nat; [rewrite RT; reflexivity|]. rewrite RT. veq. }
  rewrite Ep in H, H2. clear Ep.
  set (p := isub (At u) rt) in *. set (al := ip u p) in *.
  assert (Ey : iadd (iscale (dv (- al) (r_beta st)) (r_r2 st)) p = isub p (iscale al u)).
  { rewrite R2, Y, DV by lra. apply ip_ext. intro z. ipx. field. lra. }
  rewrite Ey in H, H2. clear Ey. set (y2 := isub p (iscale al u)) in *.
  assert (Eb : sq (ip y2 y2) = inorm y2) by (rewrite SQ; [reflexivity|apply ip_pos]).
  rewrite Eb in H, H2. clear Eb. set (be := inorm y2) in *.
  set (gb := r_sn st * r_dbar st - r_cs st * al) in *.
  set (de := r_cs st * r_dbar st + r_sn st * al) in *.
  assert (GS : forall s, 0 <= s -> (forall k z, kry At b k z -> s * inorm z <= inorm (At z)) -> s <= sqrt (gb * gb + be * be)).
  { intros s S0 S1. apply (ms_ga_sg At b SAt _ _ _ _ _ _ _ _ _ _ _ _ _ I s (fun z Hz => S1 _ z Hz)). exact S0. }
  assert (Eg : Rmax (sq (gb * gb + be * be)) eps = sqrt (gb * gb + be * be)).
  { rewrite SQ by nra. apply Rmax_left. apply GS; [left; exact EP|exact SG]. }
  rewrite Eg in H, H2.
  assert (GP : 0 < sqrt (gb * gb + be * be)).
  { eapply Rlt_le_trans; [exact EP|]. rewrite <- Eg. apply Rmax_r. }
  clear Eg.
  pose proof (me_ga_le _ _ _ _ _ _ _ _ _ _ _ _ _ I) as GL. fold p al y2 be gb in GL.
  pose proof (me_col _ _ _ _ _ _ _ _ _ _ _ _ _ I) as COL. fold p al y2 be in COL.
  pose proof (ms_ga2 At u rt (r_cs st) (r_sn st) (r_dbar st)) as GA2. fold p al y2 be gb in GA2.
  set (ga := sqrt (gb * gb + be * be)) in *.
  rewrite (SQ (gb * gb + - r_cs st * be * (- r_cs st * be))) in H, H2 by nra.
  rewrite !(DV _ ga) in H by lra. rewrite !(DV _ ga) in H2 by lra.
  set (w' := iscale (1 / ga) (isub (isub u (iscale (r_epsln st) (r_w2 st))) (iscale de (r_w st)))) in *.
  set (x' := iadd (r_x st : iv E) (iscale (gb / ga * r_phibar st) w')) in *.
  destruct H as (X & HY & HR1 & HR2 & HW & HW2 & HO & HB & HD & HE & HPH & HC & HS & HRN & HAR & HN & HH & HI).
  destruct H2 as (T1 & T2 & T3 & T4 & T5 & T6 & T7 & T8 & T9 & (c & T10) & T11).
  pose proof me_nb as NB0. pose proof me_nAb as NAB. pose proof me_yn_pos as YP.
  assert (BB : inorm b * inorm b = ip b b) by apply inorm_sq.
  (* the right-hand side of the column *)
  assert (RR : ip rt rt = if (r_itn st =? 0)%nat then 0 else r_beta st * r_beta st).
  { destruct (Nat.eqb_spec (r_itn st) 0) as [Z|Z].
    - rewrite Z in RT. cbn in RT. rewrite RT. apply ip_zero.
    - replace (2 <=? r_itn st + 1)%nat with true in RT by (symmetry; apply Nat.leb_le; lia).
      destruct OLD as [O1 O2]; [lia|]. rewrite <- RT, ip_scale, ip_scalel, O2, DV by lra. field. lra. }
  (* the sum of squares *)
  assert (TN' : r_tnorm2 st' = ip b b + wsum At (u :: V)).
  { rewrite T1, TN, wsum_cons, COL, RR. destruct (Nat.eqb_spec (r_itn st) 0) as [Z|Z].
    - rewrite (BE1 Z), BB. rring.
    - rring. }
  assert (TP : 0 < r_tnorm2 st').
  { rewrite TN'. pose proof (wsum_pos At (u :: V)). nra. }
  assert (AN : r_Anorm st' = sqrt (r_tnorm2 st')) by (rewrite T3; apply SQ; lra).
  assert (AP : 0 < r_Anorm st') by (rewrite AN; apply sqrt_lt_R0; exact TP).
  (* first iteration *)
  assert (FST : r_itn st = 0%nat -> al = ip b (At b) / ip b b /\ ga = me_g1 /\ de = 0 /\ r_sn st = 0).
  { intro Z. destruct (F0 Z) as [F1 F2 F3 F4 F5 F6 F7]. specialize (U1 Z). rewrite Z in RT. cbn in RT.
    assert (A1 : al = ip b (At b) / ip b b).
    { unfold al, p. rewrite RT, U1, (lin_scale At LAt). ipx. rewrite <- BB. field. lra. }
    split; [exact A1|]. split; [|split; [unfold de; rewrite F4, F5; ring|exact F4]].
    assert (G2 : ga * ga = ip (At u) (At u)).
    { rewrite GA2, COL, RR, Z. cbn. unfold gb. rewrite F4, F5, F6. rring. }
    assert (G3 : ga = inorm (At u)).
    { transitivity (sqrt (ga * ga)); [symmetry; apply sqrt_square; lra|]. rewrite G2. reflexivity. }
    rewrite G3, U1, (lin_scale At LAt), inorm_scale, Rabs_right; [unfold me_g1; field; lra|].
    apply Rle_ge. left. apply Rdiv_lt_0_compat; lra. }
  assert (ZV : r_rhs1 st / ga = if (r_itn st =? 0)%nat then me_yn else 0).
  { destruct (Nat.eqb_spec (r_itn st) 0) as [Z|Z].
    - destruct (FST Z) as (_ & G & _). rewrite (mf_rhs1 _ (F0 Z)), G. unfold me_yn, me_g1. rewrite <- BB. field. lra.
    - rewrite (mk_rhs1 _ (C1 ltac:(lia))). field. lra. }
  assert (R1' : r_rhs1 st' = 0).
  { rewrite T5, ZV. destruct (Nat.eqb_spec (r_itn st) 0) as [Z|Z].
    - destruct (FST Z) as (_ & _ & D & _). rewrite (mf_rhs2 _ (F0 Z)), D. rring.
    - rewrite (mk_rhs2 _ (C1 ltac:(lia))). rring. }
  assert (R2' : r_rhs2 st' = 0).
  { rewrite T6, ZV. destruct (Nat.eqb_spec (r_itn st) 0) as [Z|Z].
    - destruct (FST Z) as (_ & _ & _ & D). rewrite D. rring.
    - rring. }
  assert (Y2' : r_ynorm2 st' = me_yn * me_yn).
  { rewrite T2, ZV. destruct (Nat.eqb_spec (r_itn st) 0) as [Z|Z].
    - rewrite (mf_y2 _ (F0 Z)). rring.
    - rewrite (mk_y2 _ (C1 ltac:(lia))). rring. }
  assert (YN' : r_ynorm st' = me_yn).
  { rewrite T4, Y2', SQ by nra. apply sqrt_square. lra. }
  (* istop *)
  assert (ST : r_istop st = 0%Z \/ (r_istop st = (-1)%Z /\ (1 <= r_itn st)%nat)).
  { destruct (Nat.eq_dec (r_itn st) 0) as [Z|Z]; [left; apply (mf_i _ (F0 Z))|].
    pose proof (mk_r _ (C1 ltac:(lia))) as R. pose proof (mk_brk _ (C1 ltac:(lia))) as BK. rewrite NB in BK.
    symmetry in BK. apply Z.ltb_ge in BK. cbn in R. lia. }
  set (root := sqrt (gb * gb + - r_cs st * be * (- r_cs st * be))) in *.
  assert (RES : r_phibar st = res (r_x st) /\ (forall z, kry At b (r_itn st) z -> res (r_x st) <= res z)).
  { destruct (mi_min dv sq E q kw b SA _ _ _ _ _ _ _ _ _ _ _ _ _ I) as [M1 M2]. split; [symmetry; exact M1|exact M2]. }
  assert (AR : inorm (At (isub b (At (r_x st)))) = r_phibar st * root).
  { rewrite (mi_r I), (lin_scale At LAt), inorm_scale, Rabs_right by (apply Rle_ge, (mi_phib I)).
    f_equal. apply (ms_nAt At b SAt _ _ _ _ _ _ _ _ _ _ _ _ _ I). }
  rewrite YN' in T10. rewrite !(DV _ (r_Anorm st' * me_yn)), (DV _ (r_Anorm st')) in T10 by nra.
  assert (IS : (In (r_istop st') [-1; 10]%Z) \/
    (r_istop st = 0%Z /\ exists i, r_istop st' = i /\
     @mr_tests KK eps (inorm b) (m_rtol kw) (r_itn st + 1) lim (r_rnorm st' / (r_Anorm st' * me_yn)) (root / r_Anorm st')
       (r_Acond st') (r_Anorm st' * me_yn * eps) = i)).
  { destruct c.
    - cbn in T10. left. rewrite T10. cbn. auto.
    - destruct ((r_itn st + 1 =? 1)%nat && Rleb (dv be (inorm b)) (Q2R 10 * eps))%bool.
      + cbn in T10. left. rewrite T10. cbn. auto.
      + destruct ST as [S|[S S1]]; rewrite S in T10; cbn [Z.eqb] in T10.
        * right. split; [exact S|]. eexists. split; [reflexivity|]. symmetry. exact T10.
        * left. rewrite T10. cbn. auto. }
  assert (CD : r_istop st = 0%Z -> (r_istop st' = 4%Z -> dv (1 / 10) eps <= r_Acond st') -> me_cond st').
  { intros S S4.
    assert (GM : me_g1 <= ga \/ ((1 <= r_itn st)%nat /\ me_cond st)).
    { destruct (Nat.eq_dec (r_itn st) 0) as [Z|Z]; [left; destruct (FST Z) as (_ & -> & _); lra|].
      right. split; [lia|]. apply (mk_c _ (C1 ltac:(lia))); rewrite S; discriminate. }
    assert (LU : forall l, (forall k z, kry At b k z -> inorm (At z) <= l * inorm z) -> ga <= l).
    { intros l HL. pose proof (HL _ u (mi_ku I)) as Q. assert (NU : inorm u = 1) by (transitivity (sqrt 1); [apply (f_equal sqrt), (mi_uu I)|apply sqrt_1]).
      rewrite NU in Q. lra. }
    assert (AB : r_itn st = 0%nat -> Rabs al = me_a1).
    { intro Z. destruct (FST Z) as (-> & _). unfold me_a1, Rdiv. rewrite Rabs_mult. f_equal. rewrite <- BB.
      apply Rabs_right. apply Rle_ge. left. apply Rinv_0_lt_compat. nra. }
    assert (AL : forall l, (forall k z, kry At b k z -> inorm (At z) <= l * inorm z) -> me_a1 <= l).
    { intros l HL. pose proof (HL 1%nat b (kry_b At b SAt 0)) as Q. unfold me_a1. rewrite <- BB.
      apply Rmult_le_reg_r with (inorm b * inorm b); [nra|]. unfold Rdiv. rewrite Rmult_assoc, Rinv_l by nra.
      assert (CB : Rabs (ip b (At b)) <= inorm b * inorm (At b)).
      { apply Rabs_le. split; [|apply cauchy_norm]. pose proof (cauchy_norm (iscale (-1) b) (At b)) as CN.
        rewrite inorm_scale, ip_scalel in CN. replace (Rabs (-1)) with 1 in CN by (unfold Rabs; destruct (Rcase_abs (-1)); lra). lra. }
      nra. }
    split.
    - rewrite T8. destruct (Nat.eqb_spec (r_itn st + 1) 1) as [Z|Z].
      + rewrite AB by lia. apply Rmin_l.
      + destruct (Nat.eq_dec (r_itn st) 0); [lia|]. apply Rle_trans with (r_gmin st); [apply Rmin_l|].
        apply mc_min. apply (mk_c _ (C1 ltac:(lia))); rewrite S; discriminate.
    - rewrite T7. destruct GM as [G|[G1 G2]]; [apply Rle_trans with ga; [exact G|apply Rmax_r]|].
      destruct (Nat.eqb_spec (r_itn st + 1) 1) as [Z|Z]; [lia|].
      apply Rle_trans with (r_gmax st); [apply (mc_max _ G2)|apply Rmax_l].
    - intros s S0 S1. rewrite T8. apply Rmin_glb.
      + destruct (Nat.eqb_spec (r_itn st + 1) 1) as [Z|Z].
        * rewrite AB by lia. apply Rmin_l.
        * apply mc_lo; [|exact S0|exact S1]. apply (mk_c _ (C1 ltac:(lia))); rewrite S; discriminate.
      + apply Rle_trans with s; [apply Rmin_r|]. apply GS; assumption.
    - intros l HL. rewrite T7. apply Rmax_lub; [|apply LU; exact HL].
      destruct (Nat.eqb_spec (r_itn st + 1) 1) as [Z|Z].
      + rewrite AB by lia. apply AL. exact HL.
      + apply mc_hi; [|exact HL]. apply (mk_c _ (C1 ltac:(lia))); rewrite S; discriminate.
    - exact T9.
    - exact S4. }
  assert (DL : forall a c d : R, 0 < c -> a / c <= d -> a <= d * c).
  { intros a c0 d C0 Q. apply Rmult_le_compat_r with (r := c0) in Q; [|lra]. unfold Rdiv in Q.
    rewrite Rmult_assoc, Rinv_l in Q by lra. lra. }
  assert (COM : me_com st').
  { destruct IS as [IS|(S0 & i & Ei & TS)].
    - assert (N1 : r_istop st' = (-1)%Z \/ r_istop st' = 10%Z) by (cbn in IS; intuition).
      split; auto; try (intro Q; rewrite Q in N1; destruct N1; discriminate).
      + destruct N1 as [-> | ->]; cbn; auto 10.
      + intros Q1 Q2. destruct N1; congruence.
    - destruct (me_tests _ _ _ _ _ _ _ _ _ TS) as (I1 & I2 & I3 & I4 & I5 & I6). rewrite <- Ei in I1, I2, I3, I4, I5, I6.
      split; auto.
      + intro Q. apply DL; [nra|auto].
      + intro Q. exists (r_x st). rewrite HN, Nat.add_sub. destruct RES as [RS1 RS2].
        split; [apply (mi_kx I)|]. split; [exact RS2|]. rewrite AR, <- RS1.
        pose proof (DL _ _ _ AP (I4 Q)) as Q2. pose proof (mi_phib I) as PH. nra.
      + intro Q. specialize (I5 Q). unfold me_yn in I5. rewrite <- BB in I5.
        replace (r_Anorm st' * (inorm b * inorm b / inorm (At b)) * eps)
          with (eps * r_Anorm st' * inorm b * inorm b / inorm (At b)) in I5 by (field; lra).
        assert (I7 : inorm b * inorm (At b) <= eps * r_Anorm st' * inorm b * inorm b).
        { apply Rmult_le_compat_r with (r := inorm (At b)) in I5; [|lra]. unfold Rdiv in I5.
          rewrite Rmult_assoc, Rinv_l in I5 by lra. lra. }
        apply Rmult_le_reg_l with (inorm b); [exact NB0|]. lra.
      + cbn in I1 |- *. intuition. }
  right. split; [rewrite HN; lia|]. split; [exact COM|].
  assert (OV : onl V) by (split; [apply (mi_Vo I)|apply (mi_V1 I)]).
  assert (OV' : onl (u :: V)) by (apply onl_cons; [exact OV|apply (mi_uu I)|apply (mi_uV I)]).
  assert (KV' : forall v, In v (u :: V) -> kry At b (S (r_itn st)) v).
  { intros v [<-|Hv]; [apply (mi_ku I)|]. apply kry_S; [exact SAt|apply KV; exact Hv]. }
  split.
  { exists (u :: V). cbn [length]. rewrite (mi_len I), HN. split; [exact OV'|]. split; [lia|]. split; [exact KV'|].
    split; [exact TN'|]. intro. lia. }
  destruct (Req_dec be 0) as [Z0|Z0].
  - right.
    destruct (ms_dead At b SAt _ _ _ _ _ _ _ _ _ _ _ _ _ I GP Z0) as [D1 D2].
    fold p al y2 be gb ga de w' x' in D1, D2.
    assert (Y0 : y2 = izero) by (apply inorm_zero; exact Z0).
    split.
    + split.
      * rewrite HY. exact Y0.
      * rewrite HR2. exact Y0.
      * rewrite HB, HO, Z0, DV by lra. apply ip_ext. intro z. ipx. field. lra.
      * rewrite HB. exact Z0.
      * rewrite HPH, D2. apply Rmult_0_l.
      * rewrite HS. exact D2.
      * rewrite X. exact D1.
      * rewrite HN, X, Nat.add_1_r. apply (ms_kx' At b SAt _ _ _ _ _ _ _ _ _ _ _ _ _ I).
    + destruct IS as [IS|(S0 & i & Ei & TS)]; [cbn in IS; intuition congruence|].
      destruct (me_tests _ _ _ _ _ _ _ _ _ TS) as (_ & I2 & _). rewrite <- Ei in I2. intro Q. specialize (I2 Q).
      rewrite HRN, D2, Rmult_0_l in I2. unfold Rdiv in I2. rewrite Rmult_0_l in I2. lra.
  - left. assert (BP' : 0 < be) by (pose proof (inorm_pos y2); unfold be in *; lra).
    pose proof (ms_step At b SAt _ _ _ _ _ _ _ _ _ _ _ _ _ I GP BP') as MS.
    fold p al y2 be gb ga de w' x' in MS.
    split.
    + rewrite TN'. rewrite HN, X, HW, HW2, HC, HS, HE, HD, HPH, HY, HB, HO, HR1, R2, Y, Nat.add_1_r.
      eexists _, _, _, _. split; [exact MS|]. split; [|split; [|split; [exact KV'|split]]].
      * apply ip_ext. intro z. ipx. field. lra.
      * rewrite DV by lra. replace (2 <=? S (r_itn st) + 1)%nat with true by (symmetry; apply Nat.leb_le; lia).
        apply ip_ext. intro z. ipx. field. lra.
      * reflexivity.
      * discriminate.
    + rewrite HB. exact BP'.
    + rewrite HR2, HY. reflexivity.
    + intros _. rewrite HO, HR1, R2, Y, ip_scale, ip_scalel, (mi_uu I). split; [exact BP|ring].
    + rewrite HN. intro. lia.
Qed.

Lemma me_step_dead : forall (st st' : mr_st WW), mr_dead dv sq E q kw b st -> mr_dead dv sq E q kw b st' ->
  (1 <= r_itn st)%nat -> me_com st -> me_sum st -> r_istop st <> 0%Z -> r_brk st = false ->
  @mr_body KK WW q kw eps (inorm b) lim st = Ok st' -> me_inv st'.
Proof.
  intros st st' [D1 D2 D3 D4 D5 D6 D7 D8] DD N C (V & W1 & W2 & W3 & W4 & W5) NI NB H.
  pose proof (me_body _ _ _ H) as H2. apply (mr_body_eq dv sq E q kw b NP) in H. cbv zeta in H, H2.
  assert (IM : r_istop st = (-1)%Z).
  { pose proof (mk_r _ C) as R. pose proof (mk_brk _ C) as BK. rewrite NB in BK.
    symmetry in BK. apply Z.ltb_ge in BK. cbn in R. lia. }
  destruct C as [C1 C2 C3 C4 C5 C6 C7 C8 C9 C10 C11].
  assert (HN : r_itn st' = (r_itn st + 1)%nat) by apply H. clear H.
  rewrite D1, D3 in H2.
  assert (Ev : forall a, iscale a (@izero E) = izero) by (intro; veq).
  rewrite !Ev in H2.
  assert (Ep : (if (2 <=? r_itn st + 1)%nat then isub (At izero) (@izero E) else At izero) = izero).
  { destruct (2 <=? _)%nat; rewrite (lin_zero At LAt); [veq|reflexivity]. }
  rewrite !Ep in H2. clear Ep. rewrite ip_zero in H2.
  assert (Ey : iadd (iscale (dv (- 0) (r_beta st)) (r_r2 st)) izero = (@izero E)) by (rewrite D2; veq).
  rewrite Ey in H2. clear Ey. rewrite ip_zero, D6, (SQ 0), sqrt_0 in H2 by lra.
  assert (Z1 : forall a c, 0 * a - c * 0 = 0) by (intros; ring). rewrite !Z1 in H2.
  rewrite (SQ (0 * 0 + 0 * 0)) in H2 by lra.
  replace (0 * 0 + 0 * 0) with 0 in H2 by ring. rewrite sqrt_0 in H2.
  rewrite (Rmax_right 0) in H2 by lra.
  rewrite C1, D4 in H2. rewrite !(DV 0 eps) in H2 by lra. replace (0 / eps) with 0 in H2 by (field; lra).
  destruct H2 as (T1 & T2 & T3 & T4 & T5 & T6 & _ & _ & _ & (c & T10) & T11).
  replace (r_itn st + 1 =? 1)%nat with false in T10 by (symmetry; apply Nat.eqb_neq; lia).
  cbn [andb] in T10. rewrite IM in T10.
  assert (N1 : r_istop st' = (-1)%Z \/ r_istop st' = 10%Z) by (destruct c; cbn in T10; auto).
  assert (TN : r_tnorm2 st' = r_tnorm2 st) by (rewrite T1; rring).
  assert (TP : 0 <= r_tnorm2 st) by (rewrite W4; pose proof (wsum_pos At V); pose proof (ip_pos b); lra).
  assert (YN : r_ynorm2 st' = me_yn * me_yn) by (rewrite T2, C3; rring).
  pose proof me_yn_pos as YP.
  right. split; [rewrite HN; lia|]. split.
  - split; auto; try (intro Q; rewrite Q in N1; destruct N1; discriminate).
    + rewrite T5, C2. rring.
    + rewrite T6. rring.
    + rewrite T4, YN, SQ by nra. apply sqrt_square. lra.
    + rewrite T3. apply SQ. rewrite TN. exact TP.
    + destruct N1 as [-> | ->]; cbn; auto 10.
    + intros Q1 Q2. destruct N1; congruence.
  - split.
    + exists V. split; [exact W1|]. rewrite HN, TN. split; [lia|]. split; [exact W3|]. split; [exact W4|].
      intros _. apply (md_x _ _ _ _ _ _ _ DD).
    + right. split; [exact DD|]. destruct N1 as [-> | ->]; discriminate.
Qed.

Lemma me_live_of : forall st, me_live st -> mr_live dv sq E q kw b st.
Proof.
  intros st [(V & u & t & rt & I & Y & RT & _) BP R2 _ _]. split; [|exact BP|exact R2].
  exists V, u, t, rt. auto.
Qed.

Lemma me_init : forall hist cnt, me_inv (@mr_init KK WW kw b (inorm b) 0 false hist cnt).
Proof.
  intros hist cnt. left. pose proof me_nb as NB.
  set (st := @mr_init KK WW kw b (inorm b) 0 false hist cnt).
  assert (LV : mr_live dv sq E q kw b st) by (apply mr_init_live; auto).
  split; [reflexivity|]. split.
  - destruct LV as [(V & u & t & rt & I & Y & RT) BP R2]. split.
    + exists V, u, t, rt. split; [exact I|]. split; [exact Y|]. split; [exact RT|].
      assert (VN : V = []) by (pose proof (mi_len I) as L; destruct V; [reflexivity|discriminate]). subst V.
      split; [intros v []|]. split; [cbn; ring|]. intros _.
      assert (Yb : (r_y st : iv E) = b) by (unfold st, mr_init, mr_y0; rewrite NP; reflexivity).
      rewrite Yb in Y. change (r_beta st) with (inorm b) in Y.
      assert (Q : iscale (1 / inorm b) b = iscale (1 / inorm b) (iscale (inorm b) u)) by (f_equal; exact Y).
      rewrite Q. apply ip_ext. intro z. ipx. field. lra.
    + exact BP.
    + exact R2.
    + intro Q. cbn in Q. lia.
    + reflexivity.
  - split; try reflexivity. cbn. unfold Q2R. cbn. lra.
Qed.

Lemma me_while : forall fuel hist cnt st,
  while fuel (mr_cond lim) (@mr_body KK WW q kw eps (inorm b) lim)
    (@mr_init KK WW kw b (inorm b) 0 false hist cnt) = Ok st -> me_inv st.
Proof.
  intros fuel hist cnt st H.
  apply while_inv with (I := fun st => (exists xs, mr_ghost dv sq E q kw b hist xs st) /\ me_inv st) in H.
  - apply H.
  - intros s s' ((xs & G) & I) CD B. unfold mr_cond in CD. apply andb_prop in CD. destruct CD as [NB _].
    apply negb_true_iff in NB. destruct I as [(Z & L & F)|(Z & C & SM & [L|[D NI]])].
    + destruct (mr_step_live dv sq DV SQ E q kw b NP SA SG _ _ _ _ _ (me_live_of _ L) G B) as (x & G' & _).
      split; [eauto|]. apply (me_step_live s s' L); auto. intro. lia.
    + destruct (mr_step_live dv sq DV SQ E q kw b NP SA SG _ _ _ _ _ (me_live_of _ L) G B) as (x & G' & _).
      split; [eauto|]. apply (me_step_live s s' L); auto. intro. lia.
    + destruct (mr_step_dead dv sq DV SQ E q kw b NP SA _ _ _ _ _ D Z G B) as (x & G' & D').
      split; [eauto|]. apply (me_step_dead s s'); auto.
  - split; [exists []; apply mr_init_ghost|apply me_init].
Qed.

(** The returned estimates.  [7]: the operator failed the symmetry check, nothing was done. *)
Lemma me_solve : forall fuel hist cnt o cnt',
  @mr_solve KK WW fuel q hist b kw cnt = Ok (o, cnt') -> (1 <= u_itn o)%nat ->
  (u_ynorm o : R) = me_yn /\
  (exists V : list (iv E), onl V /\ (length V <= u_itn o)%nat /\ (forall v, In v V -> kry At b (length V) v) /\
     ((length V < u_itn o)%nat -> At (u_x o) = b) /\
     (u_Anorm o : R) = sqrt (ip b b + wsum At V)) /\
  (u_istop o = 1%Z -> res (u_x o) <= rt0 * (u_Anorm o * me_yn)) /\
  (u_istop o = 2%Z -> exists y, kry At b (u_itn o - 1) y /\ (forall z, kry At b (u_itn o - 1) z -> res y <= res z) /\
     inorm (At (isub b (At y))) <= rt0 * u_Anorm o * res y) /\
  (u_istop o = 3%Z -> inorm (At b) <= eps * u_Anorm o * inorm b) /\
  In (u_istop o) [-1; 0; 1; 2; 3; 4; 6; 10]%Z /\
  (u_istop o <> (-1)%Z -> u_istop o <> 10%Z -> exists gmax gmin : R,
     gmin <= me_a1 /\ me_g1 <= gmax /\
     (forall s, 0 <= s -> (forall k z, kry At b k z -> s * inorm z <= inorm (At z)) -> Rmin me_a1 s <= gmin) /\
     (forall l, (forall k z, kry At b k z -> inorm (At z) <= l * inorm z) -> gmax <= l) /\
     u_Acond o = dv gmax gmin /\ (u_istop o = 4%Z -> dv (1 / 10) eps <= u_Acond o)).
Proof.
  intros fuel hist cnt o cnt' H N.
  destruct (mr_exact dv sq DV SQ E q kw b NP SA SG _ _ _ _ _ H) as (xs & _ & _ & _ & _ & RN & _).
  specialize (RN ltac:(lia)).
  unfold mr_solve in H. destruct (mr_start q kw b cnt) as [[[beta1 istop] done] c0] eqn:ES.
  assert (S1 : done = false -> istop = 0%Z /\ beta1 = inorm b).
  { clear H. unfold mr_start, mr_y0 in ES. rewrite NP in ES. intros ->.
    destruct (if m_check kw then check_symmetric _ _ _ _ _ _ else _) as [ok c1].
    replace (sltb (@vdot KK WW b b) (@s0 KK)) with false in ES by (symmetry; apply Rltb_false, ip_pos).
    destruct (seqb (@vdot KK WW b b) (@s0 KK)) eqn:EZ; [destruct ok; discriminate|]. destruct ok; [|discriminate].
    cbv beta iota in ES. injection ES as EB <- _.
    assert (NZ : ip b b <> 0) by (apply Reqb_false; exact EZ).
    pose proof (ip_pos b). assert (PB : 0 < ip b b) by lra.
    split; [reflexivity|].
    rewrite <- EB. change ((if Rltb 0 (ip b b) then sq (ip b b) else ip b b) = inorm b).
    rewrite (proj2 (Rltb_true _ _) PB), SQ by lra. reflexivity. }
  destruct (while _ _ _ _) as [st|] eqn:EW; [|discriminate]. injection H as <- <-.
  cbn [u_itn u_x u_rnorm u_istop u_ynorm u_Anorm u_Acond] in *.
  destruct done.
  { destruct fuel as [|fuel]; [discriminate|]. cbn [while mr_cond r_brk mr_init negb andb] in EW. injection EW as <-.
    cbn in N. lia. }
  destruct (S1 eq_refl) as (-> & ->). pose proof (me_while _ _ _ _ EW) as IV.
  destruct IV as [(Z & _)|(_ & C & (V & W1 & W2 & W3 & W4 & W5) & _)]; [lia|].
  destruct C as [C1 C2 C3 C4 C5 C6 C7 C8 C9 C10 C11].
  split; [exact C4|]. split.
  { exists V. rewrite <- W4, <- C5. auto. }
  split; [rewrite <- RN; exact C6|]. split; [exact C7|]. split; [exact C8|]. split; [exact C9|].
  intros Q1 Q2. destruct (C11 Q1 Q2) as [G1 G2 G3 G4 G5 G6]. exists (r_gmax st), (r_gmin st). auto 10.
Qed.
End Exact.
