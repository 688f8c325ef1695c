(** C99, continued: CGS on integer data, cgs.py:40-123, where the quotients are floors. *)
From Coq Require Import List ZArith QArith Qreals Reals Lia Lra Psatz Bool.
From Verif Require Import Base Num ToolsModel CgModel KrylovModel PropDtype.
Import ListNotations.

Section Floor.
Local Open Scope R_scope.
Variables (dv : R -> R -> R) (sq : R -> R) (E : IPS).
Hypotheses (FD : floor_ok dv) (SQ : sq_ok sq).
Notation WW := (exactV dv sq E).
Variables (q : kprob WW) (b : iv E) (kw : kkw WW).
Hypotheses (NP : q_P q = None) (NG : w_guess kw = None)
  (HO : forall a, q_A q (iscale a b) = iscale a (q_A q b))
  (B0 : 0 < ip b b) (B1 : ip b b < ip b (q_A q b))
  (T0 : q_abstol q < sqrt (ip b b)) (T1 : q_reltol q < 1).
Let mx := @mmax _ WW (w_mmax kw) b.
Let res0 := sqrt (ip b b).
Let th := thr q res0.

Lemma cgs_thr_lt : th < res0.
Proof.
  assert (P : 0 < res0) by (apply sqrt_lt_R0; exact B0).
  unfold th, thr, pymax. cbn. destruct (Rltb _ _); [nra | exact T0].
Qed.

(** After k passes: the step was always 0, and u, p are growing multiples of b. *)
Definition cgs_stuck (k cnt : nat) (st : cgs_st WW) : Prop :=
  s_x st = izero /\ s_r st = b /\ s_res st = res0 /\ s_nmv st = (2 * k)%nat /\ s_cnt st = (cnt + 2 * k)%nat /\
  s_fin st = (mx <=? 2 * k)%nat /\
  (s_fin st = false -> s_u st = iscale (INR k + 1) b /\ s_p st = iscale ((INR k + 1) * (INR k + 1)) b /\ s_rho st = ip b b).

Lemma cgs_stuck_step : forall k cnt st, s_fin st = false -> cgs_stuck k cnt st ->
  exists st', cgs_body q b th mx st = Ok st' /\ cgs_stuck (S k) cnt st'.
Proof.
  intros k cnt st NF (X & Rr & Rs & Nm & Ct & Fi & UP). destruct (UP NF) as (U & P & Rh). clear UP.
  assert (KP : 1 <= INR k + 1) by (pose proof (pos_INR k); lra).
  set (t := INR k + 1) in *. set (c := ip b (q_A q b)) in *.
  assert (SG : ip b (q_A q (iscale (t * t) b)) = t * t * c) by (rewrite HO; ipx; unfold c; ring).
  assert (PL : ip b b < t * t * c) by (assert (1 <= t * t) by nra; nra).
  assert (AL : dv (ip b b) (t * t * c) = 0).
  { rewrite FD by lra. rewrite (Int_part_is 0); [reflexivity|]. split.
    - apply Rlt_le, Rdiv_lt_0_compat; lra.
    - apply (Rmult_lt_reg_r (t * t * c)); [lra|]. unfold Rdiv. rewrite Rmult_assoc, Rinv_l by lra. lra. }
  assert (BE : dv (ip b b) (ip b b) = 1).
  { rewrite FD by lra. unfold Rdiv. rewrite Rinv_r by lra. rewrite (Int_part_is 1); [reflexivity | lra]. }
  unfold cgs_body, opmul, prec. rewrite NP, U, P, Rh, X, Rr, Nm, Ct.
  cbn [vdot exactVn vscale vadd vsub vnorm sdiv sleb exactK]. rewrite SG, AL.
  match goal with |- context [isub b ?z] => assert (RR : isub b z = b) by veq end. rewrite RR.
  assert (RN : inorm b = res0) by reflexivity. rewrite RN.
  replace (Rleb res0 th) with false by (symmetry; apply Rleb_false; exact cgs_thr_lt). cbn [orb].
  replace (2 * k + 1 + 1)%nat with (2 * S k)%nat by lia.
  match goal with |- context [iadd izero ?z] => assert (XX : iadd izero z = izero) by veq end. rewrite XX.
  destruct (mx <=? 2 * S k)%nat eqn:M.
  - eexists. split; [reflexivity|]. unfold cgs_stuck. cbn. cbn in M. rewrite M. repeat split; try lia; intro HF; discriminate HF.
  - eexists. split; [reflexivity|]. unfold cgs_stuck. cbn [s_x s_r s_res s_nmv s_cnt s_fin s_u s_p s_rho]. rewrite M, BE.
    split; [reflexivity|]. split; [reflexivity|]. split; [reflexivity|]. split; [reflexivity|]. split; [lia|]. split; [reflexivity|].
    intros _. rewrite S_INR. fold t. split; [veq|]. split; [|reflexivity]. veq.
Qed.

Lemma cgs_stuck_while : forall j k cnt st fuel, (mx <= 2 * (k + j) < mx + 2)%nat -> (j < fuel)%nat -> cgs_stuck k cnt st ->
  exists st', while fuel (fun st => negb (s_fin st)) (cgs_body q b th mx) st = Ok st' /\ cgs_stuck (k + j) cnt st'.
Proof.
  induction j; intros k cnt st fuel Hk Hf H; (destruct fuel; [lia|]); cbn [while].
  - exists st. rewrite Nat.add_0_r in *. split; [|exact H]. destruct H as (_ & _ & _ & _ & _ & -> & _).
    replace (mx <=? 2 * k)%nat with true by (symmetry; apply Nat.leb_le; lia). reflexivity.
  - assert (NF : s_fin st = false) by (destruct H as (_ & _ & _ & _ & _ & -> & _); apply Nat.leb_gt; lia).
    rewrite NF. cbn [negb]. destruct (cgs_stuck_step _ _ _ NF H) as (st1 & B & H1). rewrite B.
    replace (k + S j)%nat with (S k + j)%nat by lia. apply IHj; [lia | lia | exact H1].
Qed.

Theorem floor_cgs : forall cnt fuel, (mx < fuel)%nat ->
  exists out, cgs_solve fuel q b kw cnt = Ok (out, (cnt + 2 * ((mx + 1) / 2))%nat) /\
    o_x out = izero /\ o_conv out = false /\ o_nmv out = (2 * ((mx + 1) / 2))%nat /\ o_residNorm out = res0.
Proof.
  intros cnt fuel Hf. unfold cgs_solve, start_r, start_x. rewrite NG. fold mx.
  assert (RN : sabs (ssqrt (@vdot _ WW b b)) = res0).
  { cbn. rewrite SQ by lra. apply Rabs_right. apply Rle_ge. apply sqrt_pos. }
  rewrite RN. fold th.
  assert (L0 : @sleb (exactK dv sq) res0 th = false) by (cbn; apply Rleb_false; exact cgs_thr_lt). rewrite L0. cbn [orb].
  set (j := ((mx + 1) / 2)%nat).
  assert (DJ : (mx <= 2 * j < mx + 2)%nat).
  { pose proof (Nat.div_mod (mx + 1) 2 ltac:(lia)) as D. pose proof (Nat.mod_upper_bound (mx + 1) 2 ltac:(lia)). fold j in D. lia. }
  match goal with |- context [while fuel _ _ ?s] => destruct (cgs_stuck_while j 0 cnt s fuel) as (st & E1 & X & _ & Rs & Nm & Ct & _) end.
  - cbn [Nat.add]. exact DJ.
  - lia.
  - unfold cgs_stuck. cbn [s_x s_r s_res s_nmv s_cnt s_fin s_u s_p s_rho].
    split; [reflexivity|]. split; [reflexivity|]. split; [reflexivity|]. split; [reflexivity|]. split; [apply plus_n_O|]. split; [reflexivity|].
    intros _. cbn [INR]. split; [veq|]. split; [veq|reflexivity].
  - rewrite E1. cbn [Nat.add] in X, Rs, Nm, Ct. eexists. split; [rewrite Ct; reflexivity|]. cbn [o_x o_conv o_nmv o_residNorm]. rewrite X, Rs, Nm.
    split; [reflexivity|]. split; [exact L0|]. split; reflexivity.
Qed.
End Floor.

(** CGS on integers: x stays zero for the whole budget (rounded up to an even number of products) and is returned as not converged. *)
Theorem C99_floor_cgs : forall dv sq (E : IPS) (q : kprob (exactV dv sq E)) (b : iv E) kw cnt fuel,
  floor_ok dv -> sq_ok sq -> q_P q = None -> w_guess kw = None ->
  (forall a, q_A q (iscale a b) = iscale a (q_A q b)) ->
  (0 < ip b b)%R -> (ip b b < ip b (q_A q b))%R -> (q_abstol q < sqrt (ip b b))%R -> (q_reltol q < 1)%R ->
  let mx := (match w_mmax kw with Some m => m | None => 2 * ilen b end)%nat in
  (mx < fuel)%nat ->
  exists out, cgs_solve fuel q b kw cnt = Ok (out, (cnt + 2 * ((mx + 1) / 2))%nat) /\
    o_x out = izero /\ o_conv out = false /\ o_nmv out = (2 * ((mx + 1) / 2))%nat /\ o_residNorm out = sqrt (ip b b).
Proof. intros. apply floor_cgs; auto. Qed.

(** diag(2, 3) x = (2, 3), as for CG. *)
Example ex_C99_floor_cgs :
  let b : iv (Rn 2) := (2, (3, tt))%R in
  exA (1, (1, tt))%R = b /\
  exists out, cgs_solve 5 exq b (mkkkw (W := exactV fdv sqrt (Rn 2)) None None) 0 = Ok (out, 4%nat) /\
    o_x out = @izero (Rn 2) /\ o_conv out = false.
Proof.
  intro b. split; [unfold exA, b; f_equal; [ring | f_equal; ring]|].
  destruct (C99_floor_cgs fdv sqrt (Rn 2) exq b (mkkkw (W := exactV fdv sqrt (Rn 2)) None None) 0%nat 5%nat) as (o' & H1 & H2 & H3 & _).
  - intros x y _. reflexivity.
  - intros x _. reflexivity.
  - reflexivity.
  - reflexivity.
  - intros a. unfold b. cbn. f_equal; [ring | f_equal; ring].
  - unfold b. cbn. lra.
  - unfold b. cbn. lra.
  - apply Rlt_trans with 1%R; [cbn; lra|]. rewrite <- sqrt_1 at 1. apply sqrt_lt_1; unfold b; cbn; lra.
  - cbn. lra.
  - cbn. lia.
  - exists o'. auto.
Qed.

Print Assumptions C99_floor_cgs.
