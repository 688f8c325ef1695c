(** * LSQR in exact arithmetic: bounds of [Acond] (lsqr.py:303, 338). *)
From Coq Require Import List ZArith QArith Reals Lia Lra Bool.
From Verif Require Import Base Num ToolsModel SpanMath MinresModel MinresProof GkProof LsqrModel LsqrFlow LsqrMath LsqrProof AnormLs.
Import ListNotations.
Local Open Scope R_scope.

(** One step of the inequality of Cauchy and Schwarz. *)
Lemma cs_step : forall k P D p e, 0 <= k -> 0 <= P -> 0 <= D -> 0 <= p -> 0 <= e -> k * k <= P * D -> 1 <= p * e ->
  (k + 1) * (k + 1) <= (P + p) * (D + e).
Proof.
  intros k P D p e K0 P0 D0 p0 e0 H1 H2.
  assert (H : 2 * k <= P * e + p * D).
  { apply Rnot_lt_le. intro L. assert (Q : 0 <= P * e) by nra. assert (Q2 : 0 <= p * D) by nra.
    assert (S : (P * e + p * D) * (P * e + p * D) < 2 * k * (2 * k)) by nra.
    assert (S2 : 4 * (P * e * (p * D)) <= (P * e + p * D) * (P * e + p * D)) by (pose proof (Rle_0_sqr (P * e - p * D)) as X; unfold Rsqr in X; lra).
    assert (S3 : k * k * 1 <= P * D * (p * e)) by (apply Rmult_le_compat; nra). nra. }
  nra.
Qed.

Lemma cs_step_m : forall m k P D p e, 0 <= m -> 0 <= k -> 0 <= P -> 0 <= D -> 0 <= p -> 0 <= e ->
  m * m * (k * k) <= P * D -> m * m <= p * e -> m * m * ((k + 1) * (k + 1)) <= (P + p) * (D + e).
Proof.
  intros m k P D p e M0 K0 P0 D0 p0 e0 H1 H2. destruct (Req_dec m 0) as [Z|Z]; [rewrite Z; nra|].
  assert (MM : 0 < m * m) by nra.
  assert (DM : forall t, m * m * (t / (m * m)) = t) by (intro t; field; exact Z).
  assert (IM : 0 < / (m * m)) by (apply Rinv_0_lt_compat; exact MM).
  pose proof (cs_step k P (D / (m * m)) p (e / (m * m)) K0 P0) as H.
  replace ((P + p) * (D + e)) with (m * m * ((P + p) * (D / (m * m) + e / (m * m)))) by (field; exact Z).
  apply Rmult_le_compat_l; [lra|]. apply H.
  - unfold Rdiv. nra.
  - exact p0.
  - unfold Rdiv. nra.
  - apply Rmult_le_reg_l with (m * m); [exact MM|]. replace (m * m * (P * (D / (m * m)))) with (P * D) by (field; exact Z). exact H1.
  - apply Rmult_le_reg_l with (m * m); [exact MM|]. replace (m * m * (p * (e / (m * m)))) with (p * e) by (field; exact Z). lra.
Qed.

Ltac rring := match goal with |- ?l = ?r => change (l = r :> R) end; ring.

Section Exact.
Variables (dv : R -> R -> R) (sq : R -> R).
Hypothesis DV : dv_ok dv.
Hypothesis SQ : sq_ok sq.
Variables E1 E2 : IPS.
Local Notation KK := (exactK dv sq).
Variables (nv1 : iv E1 -> R) (nv2 : iv E2 -> R).
(** [norm(dk)] is equivalent to the norm of the space; without preconditioner it is that norm. *)
Variables (mu nu : R).
Hypothesis MU0 : 0 <= mu.
Hypothesis NI : forall z, mu * mu * ip z z <= nv1 z * nv1 z <= nu * nu * ip z z.
Local Notation WV := (exactVn dv sq E1 nv1).
Local Notation WU := (exactVn dv sq E2 nv2).
Variables (q : lprob WV WU) (kw : ls_kw WV WU) (b : iv E2).
Hypothesis NM : l_M kw = None.
Hypothesis NN : l_N kw = None.
Local Notation A := (lp_A q : iv E1 -> iv E2).
Local Notation At := (lp_At q : iv E2 -> iv E1).
Hypothesis AD : adjoint A At.
Hypothesis HW : (1 <= l_window kw)%nat.
Local Notation d := (l_damp kw : R).
Local Notation lim := (ls_lim q kw).
Local Notation nr := (nres A At b d).
Local Notation St := (ls_st WV WU).
Local Notation pre := (ls_pre dv sq E1 E2 nv1 nv2 kw).

Lemma ac_body : forall (bn : R) (st st' : St) u v w, pre st u v w -> @ls_body KK WV WU q kw bn lim st = Ok st' ->
  let be := inorm (isub (A v) (iscale (s_alpha st) u)) in let rh2 := s_rhobar st * s_rhobar st + d * d + be * be in
  0 < rh2 /\ (exists g, (s_ddnorm st' : R) = s_ddnorm st + g /\ mu * mu * (ip w w / rh2) <= g <= nu * nu * (ip w w / rh2)) /\ (s_Acond st' : R) = s_Anorm st' * sqrt (s_ddnorm st').
Proof.
  intros bn st st' u v w P H be rh2. destruct P as [P1 P2 P3 P4 P5 P6 P7 P8 P9 P10 P11 P12].
  set (r1 := sqrt (s_rhobar st * s_rhobar st + d * d)).
  assert (R1 : 0 < r1) by (apply norm2_pos; exact P5).
  assert (RR : r1 * r1 = s_rhobar st * s_rhobar st + d * d) by apply norm2_sq.
  set (rho := sqrt (r1 * r1 + be * be)).
  assert (R2 : 0 < rho) by (apply norm2_pos; left; lra).
  assert (R2S : rho * rho = rh2) by (unfold rh2; rewrite <- RR; apply norm2_sq).
  split; [rewrite <- R2S; nra|].
  unfold ls_body in H. rewrite P3, P1, P2 in H.
  destruct (ls_bidiag _ _ _ _ _ _ _ _ _) as [[[[[[[[Mu u'] v'] Nv'] al] be'] An] cn]|] eqn:EBI; [|discriminate]. cbn [rbind] in H.
  assert (BE : be' = be :> R).
  { unfold ls_bidiag in EBI. cbv zeta in EBI. rewrite NM in EBI.
    destruct (ex_gk dv sq DV SQ E2 nv2 (isub (A v) (iscale (s_alpha st) u))) as (u2 & G1 & _ & _).
    change (@vsub KK WU (lp_A q v) (@vscale KK WU (s_alpha st) u)) with (isub (A v) (iscale (s_alpha st) u)) in EBI.
    rewrite G1 in EBI. cbn [rbind] in EBI. fold be in EBI.
    destruct (@sgtb KK be (@s0 KK)).
    - match type of EBI with rbind ?X _ = _ => destruct X; [|discriminate]; cbn [rbind] in EBI end.
      match type of EBI with rbind ?X _ = _ => destruct X as [[[a1 a2] a3]|]; [|discriminate]; cbn [rbind] in EBI end.
      injection EBI as _ _ _ _ _ EBE _ _. symmetry. exact EBE.
    - injection EBI as _ _ _ _ _ EBE _ _. symmetry. exact EBE. }
  rewrite BE in H. rewrite (ex_rot dv sq DV SQ E1 E2 nv1 nv2 kw (s_rhobar st) (s_phibar st) al be) in H by (fold r1; lra).
  fold r1 in H. fold rho in H. cbn [rbind] in H. rewrite P4 in H.
  rewrite (ex_upx dv sq DV E1 nv1) in H by lra. cbn [rbind] in H.
  destruct (ls_derr _ _ _ _ _ _ _) as [[[[nrg dE] di] i]|]; [|discriminate]. cbn [rbind] in H.
  destruct (ls_xn _ _ _ _ _ _ _) as [[[[[xn cs2] sn2] z] xx]|]; [|discriminate]. cbn [rbind] in H.
  destruct (ls_norms _ _ _ _ _ _ _ _ _) as [[[[[Ac r2] rn] Ar] r1n]|] eqn:EN; [|discriminate]. cbn [rbind] in H.
  destruct (ls_tests _ _ _ _ _ _ _ _ _) as [i'|]; [|discriminate]. cbn [rbind] in H. injection H as <-.
  cbn [s_ddnorm s_Acond s_Anorm].
  set (g := nv1 (iscale (1 / rho) w) * nv1 (iscale (1 / rho) w)).
  assert (DK : @sadd KK (s_ddnorm st) (@smul KK (nv1 (iscale (1 / rho) w)) (nv1 (iscale (1 / rho) w))) = (s_ddnorm st : R) + g) by reflexivity.
  assert (WE : ip (iscale (1 / rho) w) (iscale (1 / rho) w) = ip w w / rh2).
  { ipx. rewrite <- R2S. unfold Rdiv. rewrite Rinv_mult. rring. }
  assert (GB : mu * mu * (ip w w / rh2) <= g <= nu * nu * (ip w w / rh2)) by (rewrite <- WE; apply NI).
  split; [exists g; split; [exact DK|exact GB]|].
  unfold ls_norms in EN. cbv zeta in EN. rewrite DK in *. rewrite (ex_sqrt dv sq SQ) in EN.
  - cbn [rbind] in EN.
    repeat match type of EN with rbind ?X _ = _ => destruct X; [|discriminate]; cbn [rbind] in EN end.
    injection EN as <- _ _ _ _. reflexivity.
  - pose proof (Rle_0_sqr (nv1 (iscale (1 / rho) w))) as GP. unfold Rsqr in GP. fold g in GP. lra.
Qed.

(** A lower bound of the stacked operator. *)
Variable sg : R.
Hypothesis SG : forall z : iv E1, sg * sg * ip z z <= ip (A z) (A z) + d * d * ip z z.

Definition ac_live (st : St) : Prop :=
  exists U V u v w tu te su se, pre st u v w /\
    LI A At b d (s_itn st) U V u v (s_alpha st) (s_x st) w tu te su se (s_rhobar st) (s_phibar st)
      (s_res2 st) (s_xxnorm st) (s_cs2 st) (s_sn2 st * s_z st) /\
    (s_cs2 st * s_cs2 st : R) <= 1 /\ mu * mu * (INR (s_itn st) * INR (s_itn st)) <= s_Anorm st * s_Anorm st * s_ddnorm st.

Definition ac_dead (st : St) : Prop :=
  exists v, pre st izero v v /\
    ((s_phibar st : R) = 0 /\ (s_res2 st : R) = dres2 A b d (s_x st) /\ nr (s_x st) = izero /\
     (s_xxnorm st : R) = @ip E1 (s_x st) (s_x st) /\ (s_sn2 st : R) * s_z st = 0 /\ d <> 0 /\ @izero E2 = izero /\ A v <> izero) /\
    ip v v = 1 /\ (s_alpha st * s_alpha st : R) = ip (A v) (A v) /\ (s_rhobar st * s_rhobar st : R) = s_alpha st * s_alpha st /\
    (1 <= s_itn st)%nat /\ mu * mu * (INR (s_itn st - 1) * INR (s_itn st - 1)) <= s_Anorm st * s_Anorm st * s_ddnorm st.

Definition ac_ok (itn : nat) (x : iv E1) (An dd Ac : R) : Prop :=
  0 <= An /\ 0 <= dd /\ Ac = An * sqrt dd /\ dd * (sg * sg) <= nu * nu * INR itn /\
  (nr x <> izero -> mu * INR itn <= Ac) /\ mu * (INR itn - 1) <= Ac.

Definition ac_inv (st : St) : Prop :=
  ac_ok (s_itn st) (s_x st) (s_Anorm st) (s_ddnorm st) (s_Acond st) /\ (s_brk st = false -> ac_live st \/ ac_dead st).

Lemma sq_root : forall k P D, 0 <= P -> 0 <= D -> k * k <= P * P * D -> k <= P * sqrt D.
Proof.
  intros k P D P0 D0 H. pose proof (sqrt_pos D). assert (0 <= P * sqrt D) by nra. apply Rnot_lt_le. intro L.
  assert (S : P * sqrt D * (P * sqrt D) = P * P * D) by (transitivity (P * P * (sqrt D * sqrt D)); [ring|rewrite sqrt_sqrt by exact D0; reflexivity]).
  nra.
Qed.

Lemma sq_root_m : forall k P D, 0 <= P -> 0 <= D -> mu * mu * (k * k) <= P * P * D -> mu * k <= P * sqrt D.
Proof. intros k P D P0 D0 H. apply sq_root; [exact P0|exact D0|]. replace (mu * k * (mu * k)) with (mu * mu * (k * k)) by ring. exact H. Qed.

Lemma ac_step : forall bn st, 0 < bn -> ac_inv st -> s_brk st = false -> forall st',
  @ls_body KK WV WU q kw bn lim st = Ok st' -> ac_inv st'.
Proof.
  intros bn st HB [OKS I] NB st' EB. destruct OKS as (AN0 & DD0 & _ & UP & _). destruct (I NB) as [L|L]; clear I.
  - destruct L as (U & V & u & v & w & tu & te & su & se & P & LL & C1 & LO).
    destruct (ex_body dv sq DV SQ E1 E2 nv1 nv2 q kw NM NN HW bn st u v w HB P) as (st2 & u' & v' & al' & EB2 & O).
    rewrite EB in EB2. injection EB2 as <-.
    pose proof (an_body dv sq DV SQ E1 E2 nv1 nv2 q kw NM NN bn st st' u v w P EB) as [A0 A1]. cbv zeta in A0, A1.
    pose proof (ac_body bn st st' u v w P EB) as (RP & (g & ED & GL & GU) & EC). cbv zeta in RP, GL, GU.
    pose proof (li_gk _ _ _ _ _ _ _ _ _ _ _ _ _ _ _ _ _ _ _ _ _ _ LL) as G.
    pose proof (eo_itn _ _ _ _ _ _ _ _ _ _ _ _ _ _ _ _ O) as EI.
    pose proof (eo_An _ _ _ _ _ _ _ _ _ _ _ _ _ _ _ _ O) as AN1. pose proof (eo_dd _ _ _ _ _ _ _ _ _ _ _ _ _ _ _ _ O) as DD1.
    set (y := isub (A v) (iscale (s_alpha st) u)) in *. set (be := inorm y) in *.
    assert (B2 : be * be = ip y y) by apply inorm_sq.
    set (rh2 := s_rhobar st * s_rhobar st + d * d + be * be) in *.
    pose proof (gk_y A At AD G) as YO.
    assert (YT : ip y tu = 0) by (rewrite ip_sym; apply (YO tu); exact (li_tu _ _ _ _ _ _ _ _ _ _ _ _ _ _ _ _ _ _ _ _ _ _ LL)).
    assert (VT : ip v te = 0).
    { rewrite ip_sym. apply (gk_v_dp A At G). exact (li_te _ _ _ _ _ _ _ _ _ _ _ _ _ _ _ _ _ _ _ _ _ _ LL). }
    (* the stacked operator maps w to a vector of norm rho *)
    assert (NW : ip (A w) (A w) + d * d * ip w w = rh2).
    { replace (d * d * ip w w) with (ip (iscale d w) (iscale d w)) by (ipx; ring).
      rewrite (li_Aw _ _ _ _ _ _ _ _ _ _ _ _ _ _ _ _ _ _ _ _ _ _ LL), (li_dw _ _ _ _ _ _ _ _ _ _ _ _ _ _ _ _ _ _ _ _ _ _ LL).
      fold y. ipx. rewrite (ip_sym tu y), (ip_sym te v), YT, VT, (gk_vv _ _ _ _ _ _ _ G), <- B2.
      pose proof (li_t1 _ _ _ _ _ _ _ _ _ _ _ _ _ _ _ _ _ _ _ _ _ _ LL) as T1.
      transitivity (s_rhobar st * s_rhobar st * (ip tu tu + ip te te) + be * be + d * d); [rring|]. rewrite T1. unfold rh2. rring. }
    assert (WW : 1 <= ip w w).
    { pose proof (li_w1 _ _ _ _ _ _ _ _ _ _ _ _ _ _ _ _ _ _ _ _ _ _ LL) as W1. pose proof (ip_pos w). nra. }
    (* |rhobar| <= alpha *)
    assert (RB : (s_rhobar st * s_rhobar st : R) <= s_alpha st * s_alpha st).
    { assert (X : (s_rhobar st : R) = s_alpha st * ip tu u).
      { transitivity (ip (iscale (s_rhobar st) v) v); [ipx; rewrite (gk_vv _ _ _ _ _ _ _ G); symmetry; rring|].
        rewrite <- (li_Att _ _ _ _ _ _ _ _ _ _ _ _ _ _ _ _ _ _ _ _ _ _ LL). ipx. rewrite (ip_sym te v), VT.
        rewrite (ip_sym (At tu) v), (ip_At A At AD). replace (A v) with (iadd y (iscale (s_alpha st) u)) by (unfold y; veq).
        ipx. rewrite YT, (ip_sym u tu). rring. }
      pose proof (cauchy tu u) as CC. rewrite (gk_uu _ _ _ _ _ _ _ G), Rmult_1_r in CC.
      pose proof (li_t1 _ _ _ _ _ _ _ _ _ _ _ _ _ _ _ _ _ _ _ _ _ _ LL) as T1. pose proof (ip_pos te).
      assert (ip tu u * ip tu u <= 1) by lra. pose proof (Rle_0_sqr (s_alpha st : R)) as Q. unfold Rsqr in Q. rewrite X.
      apply Rle_trans with (s_alpha st * s_alpha st * (ip tu u * ip tu u)); [right; rring|]. nra. }
    assert (UP' : (s_ddnorm st' : R) * (sg * sg) <= nu * nu * INR (s_itn st')).
    { rewrite ED, EI, plus_INR. change (INR 1) with 1. rewrite Rmult_plus_distr_r, Rmult_plus_distr_l. apply Rplus_le_compat; [exact UP|].
      apply Rle_trans with (nu * nu * (ip w w / rh2) * (sg * sg)); [apply Rmult_le_compat_r; [nra|exact GU]|].
      rewrite Rmult_assoc. apply Rmult_le_compat_l; [nra|].
      unfold Rdiv. replace (ip w w * / rh2 * (sg * sg)) with (sg * sg * ip w w * / rh2) by rring.
      apply Rmult_le_reg_r with rh2; [exact RP|]. rewrite Rmult_assoc, Rinv_l, Rmult_1_r, Rmult_1_l by lra. rewrite <- NW. apply SG. }
    assert (CS : (s_cs2 st' * s_cs2 st' : R) <= 1).
    { destruct (eo_ga _ _ _ _ _ _ _ _ _ _ _ _ _ _ _ _ O) as (GA & GC & _). rewrite GC. clear GC.
      match type of GA with 0 < sqrt (?g * ?g + ?t * ?t) => set (gg := g) in *; set (tt := t) in *; set (ga := sqrt (gg * gg + tt * tt)) in * end.
      assert (G2 : ga * ga = gg * gg + tt * tt) by apply norm2_sq.
      apply Rmult_le_reg_r with (ga * ga); [nra|]. replace (gg / ga * (gg / ga) * (ga * ga)) with (gg * gg) by (field; lra). nra. }
    assert (IW : 0 <= ip w w / rh2) by (apply Rmult_le_pos; [lra|]; left; apply Rinv_0_lt_compat; exact RP).
    assert (G0 : 0 <= g) by nra.
    assert (LOP : 0 < be -> mu * mu * (INR (s_itn st') * INR (s_itn st')) <= s_Anorm st' * s_Anorm st' * s_ddnorm st').
    { intro B. rewrite (A1 B), ED, EI, plus_INR. change (INR 1) with 1.
      replace (s_Anorm st * s_Anorm st + s_alpha st * s_alpha st + be * be + d * d) with (s_Anorm st * s_Anorm st + (s_alpha st * s_alpha st + be * be + d * d)) by rring.
      apply cs_step_m; [exact MU0|apply pos_INR|nra|exact DD0|nra|lra|exact LO|].
      apply Rle_trans with ((s_alpha st * s_alpha st + be * be + d * d) * (mu * mu * (ip w w / rh2))); [|apply Rmult_le_compat_l; [nra|exact GL]].
      replace ((s_alpha st * s_alpha st + be * be + d * d) * (mu * mu * (ip w w / rh2)))
        with (mu * mu * ((s_alpha st * s_alpha st + be * be + d * d) * (ip w w / rh2))) by rring.
      rewrite <- (Rmult_1_r (mu * mu)) at 1. apply Rmult_le_compat_l; [nra|].
      apply Rmult_le_reg_r with rh2; [exact RP|]. unfold Rdiv. rewrite !Rmult_assoc, Rinv_l, Rmult_1_r, Rmult_1_l by lra.
      assert (rh2 <= s_alpha st * s_alpha st + be * be + d * d) by (unfold rh2; lra). nra. }
    assert (DM : (s_ddnorm st : R) <= s_ddnorm st').
    { rewrite ED. lra. }
    destruct (Req_dec be 0) as [Z|NZ].
    + assert (LOZ : mu * mu * (INR (s_itn st' - 1) * INR (s_itn st' - 1)) <= s_Anorm st' * s_Anorm st' * s_ddnorm st').
      { rewrite (A0 Z), EI. replace (s_itn st + 1 - 1)%nat with (s_itn st) by lia. nra. }
      pose proof (eo_be0 _ _ _ _ _ _ _ _ _ _ _ _ _ _ _ _ O Z) as (EV & EAL & _ & EU).
      destruct (el_next dv sq E1 E2 nv1 nv2 q kw b AD st u v w P LL st' u' v' al' O) as [(N & Q)|(tu' & te' & su' & se' & P' & I' & C')].
      * split.
        { split; [exact AN1|]. split; [exact DD1|]. split; [exact EC|]. split; [exact UP'|]. split; [intro X; contradiction|].
          rewrite EC. replace (INR (s_itn st') - 1) with (INR (s_itn st' - 1)) by (rewrite EI, minus_INR by lia; reflexivity).
          apply sq_root_m; assumption. }
        intro NB'. right. destruct Q as [Q|(u2 & v2 & w2 & P2 & D2)]; [congruence|].
        assert (v2 = v).
        { pose proof (lp_vN _ _ _ _ _ _ _ _ _ _ _ P2) as X. pose proof (eo_vN _ _ _ _ _ _ _ _ _ _ _ _ _ _ _ _ O) as X2.
          rewrite X in X2. injection X2 as X2 _. rewrite X2. exact EV. }
        subst v2. assert (u2 = izero) by apply D2. subst u2.
        assert (w2 = v).
        { pose proof (lp_w _ _ _ _ _ _ _ _ _ _ _ P2) as X. pose proof (eo_w _ _ _ _ _ _ _ _ _ _ _ _ _ _ _ _ O) as X2.
          rewrite X in X2. injection X2 as X2. rewrite X2, EV. fold y. fold be. rewrite Z.
          apply ip_ext. intro z. ipx. unfold Rdiv. rring. }
        subst w2.
        exists v. split; [exact P2|]. split; [exact D2|]. split; [exact (gk_vv _ _ _ _ _ _ _ G)|].
        assert (AL2 : (s_alpha st' * s_alpha st' : R) = ip (A v) (A v)).
        { rewrite (eo_al _ _ _ _ _ _ _ _ _ _ _ _ _ _ _ _ O), EAL.
          replace (A v) with (iadd y (iscale (s_alpha st) u)) by (unfold y; veq).
          assert (YZ : y = izero) by (apply inorm_zero; exact Z). rewrite YZ. ipx. rewrite (gk_uu _ _ _ _ _ _ _ G).
          rring. }
        split; [exact AL2|]. split.
        { rewrite (eo_rb _ _ _ _ _ _ _ _ _ _ _ _ _ _ _ _ O), (eo_al _ _ _ _ _ _ _ _ _ _ _ _ _ _ _ _ O). fold y. fold be. rewrite Z.
          set (r1 := sqrt (s_rhobar st * s_rhobar st + d * d)).
          assert (R1 : 0 < r1) by (apply norm2_pos; exact (lp_r1 _ _ _ _ _ _ _ _ _ _ _ P)).
          replace (sqrt (r1 * r1 + 0 * 0)) with r1 by (symmetry; replace (r1 * r1 + 0 * 0) with (r1 * r1) by rring; apply sqrt_square; lra).
          assert (F : forall a : R, - (r1 / r1) * a * (- (r1 / r1) * a) = a * a) by (intro a; field; lra). apply F. }
        split; [lia|exact LOZ].
      * exfalso. pose proof (li_gk _ _ _ _ _ _ _ _ _ _ _ _ _ _ _ _ _ _ _ _ _ _ I') as G'.
        pose proof (gk_vV _ _ _ _ _ _ _ G' v ltac:(left; reflexivity)) as X. rewrite EV, (gk_vv _ _ _ _ _ _ _ G) in X. lra.
    + assert (B : 0 < be) by (pose proof (inorm_pos y); unfold be in *; lra). specialize (LOP B).
      assert (LC : mu * INR (s_itn st') <= s_Acond st') by (rewrite EC; apply sq_root_m; assumption).
      split.
      { split; [exact AN1|]. split; [exact DD1|]. split; [exact EC|]. split; [exact UP'|]. split; [intros _; exact LC|nra]. }
      intro NB'.
      destruct (el_next dv sq E1 E2 nv1 nv2 q kw b AD st u v w P LL st' u' v' al' O) as [(N & Q)|(tu' & te' & su' & se' & P' & I' & C')].
      * exfalso. pose proof (el_Ar dv sq E1 E2 nv1 nv2 q kw b AD st u v w P LL st' u' v' al' O) as X.
        rewrite N, inorm_izero in X. pose proof (eo_stop2 _ _ _ _ _ _ _ _ _ _ _ _ _ _ _ _ O B X). congruence.
      * left. exists (u :: U), (v :: V), u', v'. eexists _, tu', te', su', se'. split; [exact P'|]. split; [exact I'|].
        split; [exact CS|exact LOP].
  - destruct L as (v & P & D & VV & EAL & ERB & I1 & LO).
    destruct (ex_body dv sq DV SQ E1 E2 nv1 nv2 q kw NM NN HW bn st izero v v HB P) as (st2 & u' & v' & al' & EB2 & O).
    rewrite EB in EB2. injection EB2 as <-.
    destruct (ed_next dv sq E1 E2 nv1 nv2 q kw b st izero v v D st' u' v' al' O) as (OK & N' & BR).
    pose proof (an_body dv sq DV SQ E1 E2 nv1 nv2 q kw NM NN bn st st' izero v v P EB) as [_ A1]. cbv zeta in A1.
    pose proof (ac_body bn st st' izero v v P EB) as (RP & (g & ED & GL & GU) & EC). cbv zeta in RP, GL, GU.
    pose proof (eo_itn _ _ _ _ _ _ _ _ _ _ _ _ _ _ _ _ O) as EI.
    pose proof (eo_An _ _ _ _ _ _ _ _ _ _ _ _ _ _ _ _ O) as AN1. pose proof (eo_dd _ _ _ _ _ _ _ _ _ _ _ _ _ _ _ _ O) as DD1.
    assert (Y : isub (A v) (iscale (s_alpha st) izero) = A v) by veq. rewrite Y in *.
    assert (B : 0 < inorm (A v)).
    { pose proof (inorm_pos (A v)). destruct (Req_dec (inorm (A v)) 0) as [Z|Z]; [|lra]. apply inorm_zero in Z. exfalso. apply D. exact Z. }
    specialize (A1 B). rewrite inorm_sq in A1, RP, GL, GU.
    set (rh2 := s_rhobar st * s_rhobar st + d * d + ip (A v) (A v)) in *.
    split; [|intro; congruence].
    split; [exact AN1|]. split; [exact DD1|]. split; [exact EC|]. split.
    { rewrite ED, EI, plus_INR. change (INR 1) with 1. rewrite Rmult_plus_distr_r, Rmult_plus_distr_l. apply Rplus_le_compat; [exact UP|].
      apply Rle_trans with (nu * nu * (ip v v / rh2) * (sg * sg)); [apply Rmult_le_compat_r; [nra|exact GU]|].
      rewrite Rmult_assoc. apply Rmult_le_compat_l; [nra|].
      unfold Rdiv. replace (ip v v * / rh2 * (sg * sg)) with (sg * sg * ip v v * / rh2) by rring.
      apply Rmult_le_reg_r with rh2; [exact RP|]. rewrite Rmult_assoc, Rinv_l, Rmult_1_r, Rmult_1_l by lra.
      eapply Rle_trans; [apply SG|]. unfold rh2. rewrite VV. pose proof (Rle_0_sqr (s_rhobar st : R)) as Q. unfold Rsqr in Q. lra. }
    split; [intro X; contradiction|].
    rewrite EC. apply sq_root_m; [exact AN1|exact DD1|].
    replace (INR (s_itn st') - 1) with (INR (s_itn st - 1) + 1) by (rewrite EI, minus_INR, plus_INR by lia; change (INR 1) with 1; rring).
    rewrite A1, ED.
    replace (s_Anorm st * s_Anorm st + s_alpha st * s_alpha st + ip (A v) (A v) + d * d) with (s_Anorm st * s_Anorm st + (s_alpha st * s_alpha st + ip (A v) (A v) + d * d)) by rring.
    pose proof (ip_pos (A v)) as AV0.
    assert (IW : 0 <= ip v v / rh2) by (apply Rmult_le_pos; [lra|]; left; apply Rinv_0_lt_compat; exact RP).
    apply cs_step_m; [exact MU0|apply pos_INR|nra|exact DD0|nra|nra|exact LO|].
    apply Rle_trans with ((s_alpha st * s_alpha st + ip (A v) (A v) + d * d) * (mu * mu * (ip v v / rh2))); [|apply Rmult_le_compat_l; [nra|exact GL]].
    replace ((s_alpha st * s_alpha st + ip (A v) (A v) + d * d) * (mu * mu * (ip v v / rh2)))
      with (mu * mu * ((s_alpha st * s_alpha st + ip (A v) (A v) + d * d) * (ip v v / rh2))) by rring.
    rewrite <- (Rmult_1_r (mu * mu)) at 1. apply Rmult_le_compat_l; [nra|].
    apply Rmult_le_reg_r with rh2; [exact RP|]. unfold Rdiv. rewrite !Rmult_assoc, Rinv_l, Rmult_1_r, Rmult_1_l by lra.
      unfold rh2. rewrite VV, ERB. lra.
Qed.

Theorem ac_solve : forall fuel cnt o cnt', @ls_solve KK WV WU fuel q kw b cnt = Ok (o, cnt') ->
  exists dd, ac_ok (o_itn o) (o_x o) (o_Anorm o) dd (o_Acond o).
Proof.
  intros fuel cnt o cnt' H. unfold ls_solve in H. destruct (l_wantvar kw); [discriminate|].
  destruct (ex_init dv sq DV SQ E1 E2 nv1 nv2 q kw b NM NN AD HW cnt) as (st0 & E0 & I0 & G0 & B0 & P0 & BP).
  rewrite E0 in H. cbn [rbind] in H.
  destruct (while fuel (ls_cond lim) (ls_body q kw (s_beta st0) lim) st0) as [st|] eqn:W; [|discriminate].
  cbn [rbind] in H. injection H as <- <-. cbn [o_itn o_x o_Anorm o_Acond]. exists (s_ddnorm st).
  assert (A0 : (s_Anorm st0 : R) = 0 /\ (s_ddnorm st0 : R) = 0 /\ (s_Acond st0 : R) = 0 /\ (s_cs2 st0 : R) = -1 /\ (s_res2 st0 : R) = 0).
  { unfold ls_init in E0. cbv zeta in E0. destruct (gk_norm (l_M kw) b) as [[[Mu u] be]|]; [|discriminate]. cbn [rbind] in E0.
    match type of E0 with rbind ?X _ = _ => destruct X as [[[vN al] c]|] end; [|discriminate]. cbn [rbind] in E0.
    injection E0 as <-. cbn [s_Anorm s_ddnorm s_Acond s_cs2 s_res2]. repeat (split; [reflexivity|]). split; [|reflexivity]. cbn. unfold Q2R. cbn. lra. }
  destruct A0 as (A0 & A1 & A2 & A3 & R2).
  assert (J0 : ac_inv st0).
  { split.
    - rewrite I0, A0, A1, A2. change (INR 0) with 0. split; [apply Rle_refl|]. split; [apply Rle_refl|]. split; [symmetry; apply Rmult_0_l|].
      rewrite !Rmult_0_l, !Rmult_0_r. split; [apply Rle_refl|]. split; [intros _; apply Rle_refl|]. change (mu * (0 - 1) <= 0). nra.
    - intro NB. left. destruct P0 as [(U & V & u & v & w & tu & te & su & se & P & I & EC)|(N0 & [X|DD] & DIM)].
      + exists U, V, u, v, w, tu, te, su, se. split; [exact P|]. split; [exact I|]. rewrite A3, I0, A0, A1. change (INR 0) with 0. lra.
      + congruence.
      + exfalso. destruct DD as (u & v & w & P & D).
        destruct D as (_ & D2 & _). rewrite R2, (gh_x _ _ _ _ _ _ _ _ _ _ _ G0) in D2.
        change (last [] izero) with (@izero E1) in D2. unfold dres2 in D2.
        rewrite (lin_zero A (adjoint_lin A At AD)) in D2.
        assert (X : isub b izero = b) by veq. rewrite X, ip_zero, Rmult_0_r, Rplus_0_r in D2.
        specialize (BP NB). unfold inorm in BP. rewrite <- D2, sqrt_0 in BP. lra. }
  assert (HB : ls_cond lim st0 = true -> 0 < inorm b).
  { intro C. apply BP. unfold ls_cond in C. apply andb_prop in C as [C _]. apply negb_true_iff in C. exact C. }
  destruct (ls_cond lim st0) eqn:C0.
  - specialize (HB eq_refl).
    apply while_inv with (I := ac_inv) in W; [apply W| |exact J0].
    intros s s' I C EB. unfold ls_cond in C. apply andb_prop in C as [C _]. apply negb_true_iff in C.
    apply (ac_step (s_beta st0) s ltac:(rewrite B0; exact HB) I C s' EB).
  - destruct fuel as [|f]; [discriminate|]. cbn [while] in W. rewrite C0 in W. injection W as <-. apply J0.
Qed.
End Exact.
