(** Properties C41-C46: CGS, BiCGSTAB, TFQMR. *)
From Coq Require Import List Arith Lia Bool QArith Reals Lra Qreals.
From Verif Require Import Base Num ToolsModel CgModel CgProof PropCg KrylovModel KrylovProof.
Import ListNotations.

Local Open Scope nat_scope.
(** ** Any arithmetic (no laws are assumed of [K] and [W]). *)
Theorem C41_counts : forall (K : Scal) (W : Vs K) (q : kprob W) (rhs : vc W) (kw : kkw W) fuel cnt,
  let mx := match w_mmax kw with Some m => m | None => 2 * vlen rhs end in
  mx + 1 < fuel ->
  exists o cnt', cgs_solve fuel q rhs kw cnt = Ok (o, cnt') /\
    cnt' = cnt + (match w_guess kw with Some _ => 1 | None => 0 end) + o_nmv o /\
    Nat.Even (o_nmv o) /\ o_nmv o <= mx + 1.
Proof. intros K W q rhs kw fuel cnt mx. exact (cgs_flow_spec q rhs kw fuel cnt). Qed.

Theorem C43_counts : forall (K : Scal) (W : Vs K) (q : kprob W) (rhs : vc W) (kw : kkw W) fuel cnt,
  let mx := match w_mmax kw with Some m => m | None => 2 * vlen rhs end in
  mx + 1 < fuel ->
  exists o cnt', bi_solve fuel q rhs kw cnt = Ok (o, cnt') /\
    cnt' = cnt + o_nmv o /\
    o_nmv o <= Nat.max (match w_guess kw with Some _ => 1 | None => 0 end) mx.
Proof. intros K W q rhs kw fuel cnt mx. exact (bi_flow_spec q rhs kw fuel cnt). Qed.

(** [r0]: the initial residual; [n0]: its norm as computed. *)
Theorem C45_counts : forall (K : Scal) (W : Vs K) (q : kprob W) (rhs : vc W) (kw : kkw W) fuel cnt,
  let mx := match w_mmax kw with Some m => m | None => 2 * vlen rhs end in
  let r0 := match w_guess kw with Some g => vsub rhs (q_A q g) | None => rhs end in
  let n0 := sabs (ssqrt (vdot r0 r0)) in
  let th := pymax (q_abstol q) (smul (q_reltol q) n0) in
  mx + 1 < fuel ->
  if sleb n0 th || (mx =? 0)
  then tf_solve fuel q rhs kw cnt = Err UnboundLocalError
  else exists o cnt', tf_solve fuel q rhs kw cnt = Ok (o, cnt') /\
    cnt' = cnt + (match w_guess kw with Some _ => 1 | None => 0 end) + o_nmv o /\
    1 <= o_nmv o <= mx.
Proof.
  intros K W q rhs kw fuel cnt mx r0 n0 th HF.
  assert (E0 : fst (start_r q kw rhs cnt) = r0)
    by (unfold start_r, opmul, r0; destruct (w_guess kw); reflexivity).
  assert (S := tf_flow_spec q rhs kw fuel cnt HF). unfold rn0 in S. rewrite E0 in S. exact S.
Qed.

(** The loop can neither be skipped with success nor run out of fuel: with fuel
    [matvec_max + 2] the outcome no longer depends on the fuel. *)
Theorem C45_zero_budget : forall (K : Scal) (W : Vs K) (q : kprob W) (rhs : vc W) (kw : kkw W) fuel cnt,
  w_mmax kw = Some 0 -> 1 < fuel -> tf_solve fuel q rhs kw cnt = Err UnboundLocalError.
Proof.
  intros K W q rhs kw fuel cnt M HF.
  assert (S := C45_counts K W q rhs kw fuel cnt). cbv zeta in S. rewrite M in S.
  specialize (S HF). rewrite orb_true_r in S. exact S.
Qed.

(** ** Exact arithmetic; the value of x/0 and of the root of a negative number is arbitrary. *)
Local Open Scope R_scope.
Section Exact.
Context (dv : R -> R -> R) (sq : R -> R) (E : IPS).
Notation KK := (exactK dv sq).
Notation WW := (exactV dv sq E).

(** The starting point. *)
Definition x_start (kw : kkw WW) : iv E := match w_guess kw with Some g => g | None => izero end.

Theorem C42_residual : forall (q : kprob WW) (b : iv E) (kw : kkw WW), sq_ok sq -> lin (q_A q) ->
  forall fuel cnt o cnt', cgs_solve fuel q (b : vc WW) kw cnt = Ok (o, cnt') ->
  let resid (x : iv E) := inorm (isub b (q_A q x)) in
  o_residNorm o = resid (o_x o) /\
  o_residNorm0 o = resid (x_start kw) /\
  (o_conv o = true <-> resid (o_x o) <= Rmax (q_abstol q) (q_reltol q * resid (x_start kw))).
Proof.
  intros q b kw SQ LA fuel cnt o cnt' H. exact (cgs_exact dv sq E SQ q b kw LA fuel cnt o cnt' H).
Qed.

Theorem C44_converged : forall (q : kprob WW) (b : iv E) (kw : kkw WW), sq_ok sq -> lin (q_A q) ->
  forall fuel cnt o cnt', bi_solve fuel q (b : vc WW) kw cnt = Ok (o, cnt') ->
  let resid (x : iv E) := inorm (isub b (q_A q x)) in
  let th := Rmax (q_abstol q) (q_reltol q * resid (x_start kw)) in
  o_residNorm0 o = resid (x_start kw) /\
  (o_conv o = true <-> o_residNorm o <= th) /\
  (o_conv o = true -> o_residNorm o = resid (o_x o) /\ resid (o_x o) <= th) /\
  (* the reported norm can only be wrong when the budget ran out *)
  (o_residNorm o = resid (o_x o) \/ (o_conv o = false /\ (@mmax KK WW (w_mmax kw) b <= o_nmv o)%nat)).
Proof.
  intros q b kw SQ LA fuel cnt o cnt' H resid th.
  destruct (bi_exact dv sq E SQ q b kw LA fuel cnt o cnt' H) as (H1 & H2 & H3 & H4).
  split; [exact H1|]. split; [exact H2|]. split; [|exact H3].
  intro C. split; [|exact (H4 C)]. destruct H3 as [H3|[H3 _]]; [exact H3|congruence].
Qed.

Theorem C46_bound : forall (q : kprob WW) (b : iv E) (kw : kkw WW), dv_ok dv -> sq_ok sq -> lin (q_A q) ->
  forall fuel cnt o cnt',
  let resid (x : iv E) := inorm (isub b (q_A q x)) in
  let th := Rmax (q_abstol q) (q_reltol q * resid (x_start kw)) in
  (* no breakdown: the step length is nonzero in every iteration executed *)
  (forall k st, tf_reach dv sq E q b kw cnt k st -> t_fin st = false ->
     dv (t_rho st) (ip (isub b (q_A q (x_start kw))) (t_v st)) <> 0) ->
  tf_solve fuel q (b : vc WW) kw cnt = Ok (o, cnt') ->
  (0 < th -> resid (o_x o) <= sqrt (INR (o_nmv o) + 1) * o_residNorm o) /\
  (o_conv o = true <-> o_residNorm o * sqrt (INR (o_nmv o) + 1) < th) /\
  (o_conv o = true -> resid (o_x o) < th).
Proof.
  intros q b kw DV SQ LA fuel cnt o cnt' resid th NB H.
  destruct (tf_exact dv sq E SQ q b kw LA DV fuel cnt o cnt' NB H) as (_ & H2 & H3 & H4).
  split; [exact H2|]. split; [exact H3|exact H4].
Qed.
End Exact.

(** ** Witnesses *)
Notation XK := (exactK Rdiv sqrt).
Notation X2 := (exactV Rdiv sqrt (Rn 2)).

(** diag(1,2) x = (1,1), tolerances 0, budget 1. *)
Definition prob2 : kprob X2 :=
  @mkprob XK X2 2 2 (fun v : rv 2 => ((fst v, (2 * fst (snd v), tt)) : rv 2)) None 0 0 (fun x => x) [].
Definition b2 : rv 2 := (1, (1, tt)).

Lemma lin_prob2 : @lin (Rn 2) (Rn 2) (q_A prob2).
Proof.
  split.
  - intros [u0 [u1 []]] [v0 [v1 []]]. cbn. f_equal. f_equal. ring.
  - intros a [u0 [u1 []]]. cbn. f_equal. f_equal. ring.
Qed.

(** The norm reported by BiCGSTAB is not always the norm of the residual of the returned vector. *)
Theorem C44_residNorm_refuted : exists o cnt',
  bi_solve 3 prob2 (b2 : vc X2) (mkkkw None (Some 1%nat)) 0 = Ok (o, cnt') /\
  o_conv o = false /\ o_nmv o = 1%nat /\
  o_residNorm o <> @inorm (Rn 2) (@isub (Rn 2) b2 (q_A prob2 (o_x o))).
Proof.
  unfold bi_solve. cbn [w_guess w_mmax start_r start_x mmax].
  assert (TH : forall r, @thr XK X2 prob2 r = 0 :> R).
  { intro r. unfold thr. rewrite Rmax_pymax. cbn. rewrite Rmult_0_l. apply Rmax_left. lra. }
  rewrite TH.
  assert (N0 : sabs (ssqrt (vdot (b2 : vc X2) b2)) = sqrt 2 :> R).
  { cbn. replace (1 * 1 + (1 * 1 + 0)) with 2 by ring. apply Rabs_pos_eq. apply sqrt_pos. }
  rewrite N0.
  assert (S2 : 1 <= sqrt 2) by (apply sqrt_ge; lra).
  replace (sleb (sqrt 2 : sc XK) (0%R : sc XK)) with false
    by (symmetry; apply Rleb_false; lra).
  cbn [Nat.leb orb]. cbn [while]. cbn [b_fin negb].
  set (st0 := mkbi _ _ _ _ _ _ _ _ _ _ _ _).
  set (p := vadd (vsub (vscale (sdiv (smul (sdiv (b_rhon st0) (b_rho st0)) (b_alpha st0)) (b_omega st0)) (b_p st0))
       (vscale (smul (sdiv (smul (sdiv (b_rhon st0) (b_rho st0)) (b_alpha st0)) (b_omega st0)) (b_omega st0)) (b_v st0))) (b_r st0)).
  assert (P : p = b2 :> rv 2).
  { unfold p, st0, b2. cbn. f_equal; [ring|f_equal; ring]. }
  set (v := q_A prob2 p).
  assert (V : v = (1, (2, tt)) :> rv 2).
  { unfold v. rewrite P. cbn. f_equal. f_equal. ring. }
  set (al := sdiv (b_rhon st0) (vdot (b2 : vc X2) v)).
  assert (AL : al = 2 / 3 :> R).
  { unfold al. rewrite V. cbn. field. }
  set (s := vsub (b_r st0) (vscale al v)).
  assert (S : s = (1 / 3, (- (1 / 3), tt)) :> rv 2).
  { unfold s. rewrite AL, V. unfold st0. cbn. f_equal; [field|]. f_equal. field. }
  assert (NS : vnorm s = sqrt (2 / 9) :> R).
  { rewrite S. cbn. unfold inorm. f_equal. cbn. field. }
  assert (SP : 0 < sqrt (2 / 9)) by (apply sqrt_lt_R0; lra).
  assert (B : bi_body prob2 (b2 : vc X2) (0%R : sc XK) 1 st0 =
     Ok (mkbi (b_x st0) (b_r st0) p v (b_rhon st0) (b_rhon st0) al (b_omega st0) (vnorm s) 1 1 true)).
  { unfold bi_body, opmul. change (prec prob2 ?x) with x. cbv beta iota zeta. fold p. fold v. fold al. fold s.
    replace (sleb (vnorm s) (0%R : sc XK)) with false
      by (symmetry; apply Rleb_false; rewrite NS; exact SP).
    reflexivity. }
  rewrite B. cbn [b_fin negb]. eexists _, _. split; [reflexivity|].
  cbn [o_conv o_nmv o_residNorm o_x b_res b_nmv b_x].
  split; [apply Rleb_false; rewrite NS; exact SP|]. split; [reflexivity|].
  rewrite NS. unfold st0. cbn [b_x]. 
  assert (I : @inorm (Rn 2) (@isub (Rn 2) b2 (q_A prob2 (vzeros (vlen (b2 : vc X2))))) = sqrt 2).
  { unfold inorm. f_equal. cbn. ring. }
  rewrite I. intro C. apply sqrt_inj in C; lra.
Qed.

(** A converging run: 2 x = 1 on the real line. *)
Notation X1 := (exactV Rdiv sqrt R1).
Definition prob1 : kprob X1 :=
  @mkprob XK X1 1 1 (fun x => 2 * x) None (1 / 10) 0 (fun x => x) [].

Lemma lin_prob1 : @lin R1 R1 (q_A prob1).
Proof. split; intros; cbn; ring. Qed.

Lemma thr_prob1 : forall r, @thr XK X1 prob1 r = 1 / 10 :> R.
Proof.
  intro r. unfold thr. rewrite Rmax_pymax. cbn. rewrite Rmult_0_l. apply Rmax_left. lra.
Qed.

Lemma abs_sqrt1 : Rabs (sqrt (1 * 1)) = 1.
Proof. rewrite Rmult_1_r, sqrt_1. apply Rabs_R1. Qed.

Lemma norm1_0 : forall x : R, x = 0 -> @inorm R1 x = 0.
Proof. intros x ->. unfold inorm. cbn. rewrite Rmult_0_r. apply sqrt_0. Qed.

Definition kw1 : kkw X1 := mkkkw None None.

Example ex_C42 : exists o cnt',
  cgs_solve 4 prob1 (1%R : vc X1) kw1 0 = Ok (o, cnt') /\ o_conv o = true /\ o_nmv o = 2%nat.
Proof.
  unfold cgs_solve. cbn [kw1 w_guess w_mmax start_r start_x mmax]. rewrite thr_prob1.
  replace (sleb (sabs (ssqrt (vdot (1%R : vc X1) 1%R))) ((1 / 10)%R : sc XK)) with false
    by (symmetry; apply Rleb_false; cbn; rewrite abs_sqrt1; lra).
  change (2 * vlen (1%R : vc X1) <=? 0)%nat with false. cbn [orb while s_fin negb].
  unfold cgs_body at 1. unfold opmul. change (prec prob1 ?x) with x. cbv beta iota zeta.
  cbn [s_x s_r s_u s_p s_rho s_cnt s_nmv s_res]. cbn [q_A prob1].
  match goal with |- context [sleb (vnorm ?rr) _] => assert (R0 : rr = 0 :> R) by (cbn; unfold isub, ineg; cbn; field) end.
  rewrite R0.
  replace (sleb (vnorm (0%R : vc X1)) ((1 / 10)%R : sc XK)) with true
    by (symmetry; apply Rleb_true; cbn; rewrite norm1_0 by reflexivity; lra).
  cbn [orb s_fin negb]. eexists _, _. split; [reflexivity|]. cbn [o_conv o_nmv s_res s_nmv].
  split; [|reflexivity]. apply Rleb_true. cbn. rewrite norm1_0 by reflexivity. lra.
Qed.

Lemma tf_prob1_step : forall c0,
  let st := @tf_init XK X1 prob1 1%R 0%R 1%R (1%R : sc XK) ((1 / 10)%R : sc XK) 2 c0 in
  exists st', tf_body prob1 (1%R : vc X1) ((1 / 10)%R : sc XK) 2 st = Ok st' /\ t_fin st' = true.
Proof.
  intros c0 st.
  assert (E0 : st = mktf (0%R : vc X1) (1%R : vc X1) (1%R : vc X1) (0%R : vc X1) (1%R : vc X1) ((2 * 1)%R : vc X1) ((2 * 1)%R : vc X1) s0 s0
     ((1 * 1)%R : sc XK) (1%R : sc XK) 0 None 1 (c0 + 1) false).
  { unfold st, tf_init.
    replace (sleb (1%R : sc XK) ((1 / 10)%R : sc XK)) with false by (symmetry; apply Rleb_false; lra).
    reflexivity. }
  rewrite E0. unfold tf_body. cbn [t_k t_v t_rho t_w t_u t_d t_z t_x t_theta t_eta t_res t_nmv].
  unfold tf_pass at 1. cbv beta iota zeta.
  match goal with |- context [vnorm ?w] => assert (W0 : w = 0 :> R) by (cbn; unfold isub, ineg; cbn; field) end.
  rewrite W0.
  match goal with |- context [tf_test _ _ ?rr ?mm _] => assert (T0 : rr = 0 :> R) end.
  { cbn. rewrite norm1_0 by reflexivity. unfold Rdiv at 1. ring. }
  rewrite T0.
  match goal with |- context [@tf_test XK _ _ _ ?mm _] =>
    assert (TT : @tf_test XK (1 / 10)%R 2 0%R mm 1 = true) end.
  { unfold tf_test. apply orb_true_iff. left. cbn. apply Rltb_true. rewrite Rmult_0_l. lra. }
  cbn [t_nmv] in *. rewrite TT. eexists. split; reflexivity.
Qed.

Example ex_C46 : forall cnt k st, tf_reach Rdiv sqrt R1 prob1 (1%R : iv R1) kw1 cnt k st ->
  t_fin st = false ->
  (t_rho st : R) / (ip (isub (1%R : iv R1) (q_A prob1 (x_start Rdiv sqrt R1 kw1))) (t_v st)) <> 0.
Proof.
  intros cnt k st. unfold tf_reach. cbn [start_r kw1 w_guess]. 
  assert (N : sabs (ssqrt (vdot (1%R : vc X1) 1%R)) = 1 :> R) by (cbn; apply abs_sqrt1).
  rewrite N, thr_prob1. change (mmax (w_mmax kw1) (1%R : vc X1)) with 2%nat.
  destruct k as [|k].
  - cbn [rounds]. intro H. injection H as <-. intros _. unfold tf_init.
    replace (sleb (1%R : sc XK) ((1 / 10)%R : sc XK)) with false by (symmetry; apply Rleb_false; lra).
    cbn. unfold isub, ineg. cbn. lra.
  - destruct (tf_prob1_step cnt) as (st' & E & F).
    rewrite rounds_shift.
    match goal with |- context [negb (t_fin ?s)] => destruct (negb (t_fin s)) end; [|discriminate].
    change (start_x kw1 (1%R : vc X1)) with (0%R : vc X1).
    rewrite E. destruct k as [|k].
    + cbn [rounds]. intro H. injection H as <-. congruence.
    + rewrite rounds_shift. rewrite F. discriminate.
Qed.

Print Assumptions C41_counts.
Print Assumptions C42_residual.
Print Assumptions C43_counts.
Print Assumptions C44_converged.
Print Assumptions C44_residNorm_refuted.
Print Assumptions C45_counts.
Print Assumptions C45_zero_budget.
Print Assumptions C46_bound.
