(** Bounds on the best approximations in Krylov spaces of a symmetric operator [C + s], and their
    instances for the systems solved by LSQR, LSMR, CRAIG and CRAIG-MR with preconditioners, and by
    MINRES; used by the rate theorems (PropRateLs.v).  Nothing here mentions a solver. *)
From Coq Require Import List Arith Lia Bool Reals Lra.
From Verif Require Import Base Num ToolsProof MinresProof GkProof Precon Cheb.
Import ListNotations.
Local Open Scope R_scope.

Section Core.
Context {F : IPS} (C : iv F -> iv F) (v : iv F) (s : R).
Hypothesis SC : selfadj C.
Let LC : lin C := adjoint_lin C C SC.
Definition shf (u : iv F) : iv F := iadd (C u) (iscale s u).
Lemma shf_selfadj : selfadj shf.
Proof.
  intros u w. unfold shf. rewrite ip_add, ip_addl, ip_scale, ip_scalel, (SC u w). reflexivity.
Qed.
Let LB : lin shf := adjoint_lin shf shf shf_selfadj.

Lemma ann_shf : forall ls u, ann shf (map (fun l => l + s) ls) u = ann C ls u.
Proof.
  induction ls as [|l ls IH]; intro u; [reflexivity|]. cbn [map ann]. rewrite IH. unfold shf. veq.
Qed.
Lemma core_ann : forall ls, (forall l, In l ls -> l + s <> 0) -> ann C ls v = izero ->
  exists z, kry C v (length ls) z /\ shf z = v.
Proof.
  intros ls N Z. destruct (ann_kry shf v LB (map (fun l => l + s) ls)) as (z & K & H).
  - intros l I. apply in_map_iff in I as (l' & <- & I). apply N. exact I.
  - rewrite ann_shf. exact Z.
  - rewrite map_length in K. exists z. split; [apply (kry_shift C LC s); exact K|exact H].
Qed.

Variables (m M : R).
Hypotheses (m0 : 0 < m) (mM : m < M).

Lemma core_resid : (forall k z, kry C v k z -> m * ip z z <= ip z (shf z) <= M * ip z z) ->
  forall k, exists z, kry C v k z /\ inorm (isub v (shf z)) <= 2 * crate m M ^ k * inorm v.
Proof.
  intros Bd k. destruct (cheb shf v LB m M m0 mM (fun u w => ip u w)) with (k := k) as (z & K & H).
  - apply ip_sym.
  - apply ip_add.
  - apply ip_scale.
  - apply shf_selfadj.
  - intros j z K. apply (Bd j). apply (kry_shift C LC s). exact K.
  - exists z. split; [apply (kry_shift C LC s); exact K|].
    assert (0 < crate m M ^ k) by (apply pow_lt, (crate_range m M m0 mM)).
    unfold inorm at 1. apply sqrt_le_1_alt in H. eapply Rle_trans; [exact H|].
    rewrite sqrt_mult_alt by nra. rewrite sqrt_square by lra. apply Rle_refl.
Qed.

Lemma core_energy : forall xs, shf xs = v ->
  (forall k z, kry C xs k z -> m * ip z z <= ip z (shf z) <= M * ip z z) ->
  forall k, exists z, kry C v k z /\
    ip (isub xs z) (shf (isub xs z)) <= (2 * crate m M ^ k) * (2 * crate m M ^ k) * ip xs (shf xs).
Proof.
  intros xs HX Bd k.
  destruct (cheb_energy shf xs shf_selfadj m M m0 mM) with (k := k) as (z & K & H).
  - intros j z K. apply (Bd j). apply (kry_shift C LC s). exact K.
  - exists (shf z). split; [|exact H]. apply (kry_shift C LC s). rewrite <- HX. apply kry_image; assumption.
Qed.
End Core.
Arguments shf {F} C s u.

(** ** Least squares with weights: [obj x = <M r, r> + d^2 <x, inv(N) x>], [r = b - A x]. *)
Section Ls.
Context {E1 E2 : IPS} (A : iv E1 -> iv E2) (At : iv E2 -> iv E1) (M : iv E2 -> iv E2) (N Ni : iv E1 -> iv E1) (b : iv E2) (d : R).
Hypothesis AD : adjoint A At.
Hypothesis SM : selfadj M.
Hypothesis PM : posdef M.
Hypothesis SN : selfadj N.
Hypothesis PN : posdef N.
Hypothesis NI : forall z, N (Ni z) = z.
Let LA := adjoint_lin A At AD.
Let LT := adjoint_lin_t A At AD.
Let LM := adjoint_lin M M SM.
Let LN := adjoint_lin N N SN.

Lemma ls_NiN : forall z, Ni (N z) = z.
Proof. intro z. apply (p_inj E1 N SN PN). apply NI. Qed.
Lemma ls_SNi : selfadj Ni.
Proof. intros u w. rewrite <- (NI u) at 1. rewrite <- SN. rewrite NI. reflexivity. Qed.
Lemma ls_PNi : posdef Ni.
Proof.
  intros u Nu. assert (Z : Ni u <> izero).
  { intro Z. apply Nu. rewrite <- (NI u), Z. apply (lin_zero N LN). }
  pose proof (PN _ Z) as P. rewrite NI, ip_sym in P. exact P.
Qed.
Let LNi := adjoint_lin Ni Ni ls_SNi.
Local Notation G := (pspace E1 Ni ls_SNi ls_PNi).

Definition ls_C (z : iv E1) : iv E1 := N (At (M (A z))).
Definition ls_v : iv E1 := N (At (M b)).
Definition ls_H (z : iv E1) : R := ip (M (A z)) (A z) + d * d * ip z (Ni z).
Definition ls_obj (x : iv E1) : R := ip (M (isub b (A x))) (isub b (A x)) + d * d * ip x (Ni x).
Definition ls_grad (x : iv E1) : iv E1 := isub (At (M (isub b (A x)))) (iscale (d * d) (Ni x)).

Lemma ls_SC : @selfadj G ls_C.
Proof.
  intros u w. unfold ls_C. cbn. rewrite ls_NiN, (SN (Ni u)), NI, (ip_At A At AD), <- AD, SM. reflexivity.
Qed.
Lemma ls_grad_N : forall x, N (ls_grad x) = isub ls_v (@shf G ls_C (d * d) x).
Proof.
  intro x. unfold ls_grad, shf, ls_v, ls_C. cbn. rewrite (lin_sub N LN), (lin_scale N LN), NI, (lin_sub M LM), (lin_sub At LT), (lin_sub N LN).
  veq.
Qed.
Lemma ls_H_eq : forall z, @ip G z (@shf G ls_C (d * d) z) = ls_H z.
Proof.
  intro z. unfold shf, ls_H, ls_C. cbn. rewrite ip_add, ip_scale, (SN (Ni z)), NI, (ip_At A At AD), (ip_sym (Ni z)), (ip_sym (A z)).
  reflexivity.
Qed.
Lemma ls_obj_split : forall xs z, ls_grad xs = izero -> ls_obj z = ls_obj xs + ls_H (isub xs z).
Proof.
  intros xs z G0. set (e := isub xs z). assert (Ez : z = isub xs e) by (unfold e; veq).
  assert (I : ip e (ls_grad xs) = 0) by (rewrite G0; apply ip_zero).
  unfold ls_grad in I. rewrite ip_sub, ip_scale, (ip_At A At AD) in I.
  rewrite Ez. unfold ls_obj, ls_H.
  assert (Er : isub b (A (isub xs e)) = iadd (isub b (A xs)) (A e)) by (rewrite (lin_sub A LA); veq).
  rewrite Er. set (r := isub b (A xs)) in *.
  rewrite (lin_add M LM), (lin_sub Ni LNi). repeat rewrite ?ip_add, ?ip_addl, ?ip_sub, ?ip_subl.
  assert (Q1 : ip (M r) (A e) = ip (A e) (M r)) by apply ip_sym.
  assert (Q2 : ip (M (A e)) r = ip (A e) (M r)) by (symmetry; apply SM).
  assert (Q3 : ip xs (Ni e) = ip e (Ni xs)) by (rewrite ls_SNi; apply ip_sym).
  rewrite Q1, Q2, Q3. lra.
Qed.
Lemma ls_grad0 : ls_grad izero = At (M b).
Proof. unfold ls_grad. rewrite (lin_zero A LA), (lin_zero Ni LNi). replace (isub b izero) with b by veq. veq. Qed.

(** The normal residual of [x], measured by [N], is the residual of [(C + d^2) x = v] in the space with
    inner product [<inv(N) u, w>]. *)
Lemma ls_nnorm : forall x, sqrt (ip (ls_grad x) (N (ls_grad x))) = @inorm G (@isub G ls_v (@shf G ls_C (d * d) x)).
Proof.
  intro x. unfold inorm. f_equal.
  change (ip (ls_grad x) (N (ls_grad x)) =
    ip (Ni (@isub E1 ls_v (@shf G ls_C (d * d) x))) (@isub E1 ls_v (@shf G ls_C (d * d) x))).
  rewrite <- ls_grad_N, ls_NiN. reflexivity.
Qed.
Lemma ls_nnorm0 : sqrt (ip (At (M b)) (N (At (M b)))) = @inorm G ls_v.
Proof. unfold inorm, ls_v. cbn. rewrite ls_NiN. reflexivity. Qed.

(** Krylov vectors lie in the range of [N At]. *)
Lemma ls_range : forall x k z, (exists y, x = N (At y)) -> kry ls_C x k z -> exists y, z = N (At y).
Proof.
  intros x k z [y ->] K. destruct k as [|k].
  - exists izero. rewrite (lin_zero At LT), (lin_zero N LN). exact K.
  - destruct K as (a & z' & _ & ->). exists (iadd (iscale a y) (M (A z'))).
    rewrite (lin_add At LT), (lin_scale At LT), (lin_add N LN), (lin_scale N LN). reflexivity.
Qed.

Lemma ls_ann : forall ls, (forall l, In l ls -> l + d * d <> 0) -> ann ls_C ls ls_v = izero ->
  exists z, kry ls_C ls_v (length ls) z /\ ls_grad z = izero.
Proof.
  intros ls H Z. destruct (@core_ann G ls_C ls_v (d * d) ls_SC ls H) as (z & K & E0).
  - assert (Q : forall l u, @ann G ls_C l u = ann ls_C l u).
    { induction l as [|a l IH]; intro u; [reflexivity|]. cbn [ann]. rewrite IH. reflexivity. }
    rewrite Q. exact Z.
  - exists z. split; [apply kry_same in K; exact K|]. apply (p_inj E1 N SN PN). rewrite ls_grad_N.
    rewrite (lin_zero N LN), <- E0. veq.
Qed.

(** A vector no worse than a stationary one is stationary. *)
Lemma ls_grad_min : forall z x, ls_grad z = izero -> ls_obj x <= ls_obj z -> ls_grad x = izero.
Proof.
  intros z x G0 H. rewrite (ls_obj_split z x G0) in H. set (e := isub z x) in *.
  assert (PA : 0 <= ip (M (A e)) (A e)) by exact (p_pos E2 M PM (A e)).
  assert (PE : 0 <= ip e (Ni e)).
  { rewrite ip_sym. exact (p_pos E1 Ni ls_PNi e). }
  assert (DD : 0 <= d * d) by nra. pose proof (Rmult_le_pos _ _ DD PE) as PD. unfold ls_H in H.
  assert (ZA : A e = izero).
  { apply (@ip_def (pspace E2 M SM PM)). cbn. lra. }
  assert (ZE : iscale (d * d) (Ni e) = izero).
  { destruct (Req_dec d 0) as [->|D0]; [replace (0 * 0) with 0 by ring; veq|].
    assert (EZ : e = izero).
    { apply (@ip_def G). cbn. rewrite ip_sym. assert (0 < d * d) by nra. nra. }
    rewrite EZ, (lin_zero Ni LNi). veq. }
  unfold ls_grad in *. assert (Ex : x = isub z e) by (unfold e; veq). rewrite Ex.
  rewrite (lin_sub A LA), (lin_sub Ni LNi), ZA.
  replace (isub b (isub (A z) izero)) with (isub b (A z)) by veq.
  apply ip_ext. intro w. apply (f_equal (ip w)) in G0. apply (f_equal (ip w)) in ZE.
  repeat rewrite ?ip_sub, ?ip_scale, ?ip_zero in *. lra.
Qed.

Variables (m L : R).
Hypotheses (m0 : 0 < m) (mL : m < L).
Hypothesis Bd : forall y : iv E2, let z := N (At y) in m * ip z (Ni z) <= ls_H z <= L * ip z (Ni z).

Lemma ls_fm : forall x k z, (exists y, x = N (At y)) -> @kry G ls_C x k z ->
  m * @ip G z z <= @ip G z (@shf G ls_C (d * d) z) <= L * @ip G z z.
Proof.
  intros x k z RX K. apply kry_same in K. destruct (ls_range x k z RX K) as [y ->].
  rewrite ls_H_eq. cbn. rewrite !(ip_sym (Ni (N (At y)))). apply Bd.
Qed.
Lemma ls_best_resid : forall k, exists z, kry ls_C ls_v k z /\
  sqrt (ip (ls_grad z) (N (ls_grad z))) <= 2 * crate m L ^ k * sqrt (ip (At (M b)) (N (At (M b)))).
Proof.
  intro k. destruct (@core_resid G ls_C ls_v (d * d) ls_SC m L m0 mL) with (k := k) as (z & K & H).
  - intros j z K. apply (ls_fm ls_v j z); [exists (M b); reflexivity|exact K].
  - exists z. split; [apply kry_same in K; exact K|]. rewrite ls_nnorm, ls_nnorm0. exact H.
Qed.
Lemma ls_best_energy : forall xs, ls_grad xs = izero -> (d = 0 -> exists y, xs = N (At y)) ->
  forall k, exists z, kry ls_C ls_v k z /\
  ls_obj z - ls_obj xs <= (2 * crate m L ^ k) * (2 * crate m L ^ k) * (ls_obj izero - ls_obj xs).
Proof.
  intros xs HX RX k. assert (HB : @shf G ls_C (d * d) xs = ls_v).
  { apply (@ip_ext E1). intro w. pose proof (ls_grad_N xs) as Q. rewrite HX, (lin_zero N LN) in Q.
    apply (f_equal (@ip E1 w)) in Q. rewrite ip_zero, ip_sub in Q. lra. }
  assert (RX' : exists y, xs = N (At y)).
  { destruct (Req_dec d 0) as [Z|Z]; [exact (RX Z)|]. exists (iscale (/ (d * d)) (M (isub b (A xs)))).
    rewrite (lin_scale At LT), (lin_scale N LN). rewrite <- (NI xs) at 1. rewrite <- (lin_scale N LN). f_equal.
    apply ip_ext. intro w. unfold ls_grad in HX. apply (f_equal (ip w)) in HX. rewrite ip_zero, ip_sub, ip_scale in HX.
    rewrite ip_scale. assert (d * d <> 0) by nra. apply Rmult_eq_reg_l with (d * d); [|assumption].
    rewrite <- Rmult_assoc, Rinv_r, Rmult_1_l by assumption. lra. }
  destruct (@core_energy G ls_C ls_v (d * d) ls_SC m L m0 mL xs HB) with (k := k) as (z & K & H).
  - intros j z K. apply (ls_fm xs j z RX' K).
  - exists z. split; [apply kry_same in K; exact K|].
    rewrite !ls_H_eq in H. rewrite (ls_obj_split xs z HX), (ls_obj_split xs izero HX).
    change (@isub G xs z) with (isub xs z) in H.
    replace (isub xs izero) with xs by veq.
    replace (ls_obj xs + ls_H (isub xs z) - ls_obj xs) with (ls_H (isub xs z)) by ring.
    replace (ls_obj xs + ls_H xs - ls_obj xs) with (ls_H xs) by ring. exact H.
Qed.

(** Objective and normal residual bound each other. *)
Lemma ls_grad_between : forall xs z, ls_grad xs = izero -> (exists y, xs = N (At y)) -> (exists y, z = N (At y)) ->
  m * (ls_obj z - ls_obj xs) <= ip (ls_grad z) (N (ls_grad z)) <= L * (ls_obj z - ls_obj xs).
Proof.
  intros xs z HX [y Ry] [y' Rz]. set (e := isub xs z).
  assert (Re : exists t, e = N (At t)).
  { exists (isub y y'). unfold e. rewrite Ry, Rz, (lin_sub At LT), (lin_sub N LN). reflexivity. }
  assert (SB := @shf_selfadj G ls_C (d * d) ls_SC).
  pose proof (@energy_between G (@shf G ls_C (d * d)) e SB m L m0 mL) as EB.
  specialize (EB (fun k u K => ls_fm e k u Re (@kry_shift G ls_C (adjoint_lin _ _ ls_SC) (d * d) e k u K)) 1%nat e
                (@lk_v G (@shf G ls_C (d * d)) e (adjoint_lin _ _ SB) 0)).
  rewrite (SB e (@shf G ls_C (d * d) e)), ls_H_eq in EB.
  assert (EH : ls_obj z - ls_obj xs = ls_H e) by (rewrite (ls_obj_split xs z HX); unfold e; ring).
  assert (EG : ip (ls_grad z) (N (ls_grad z)) = @ip G (@shf G ls_C (d * d) e) (@shf G ls_C (d * d) e)).
  { assert (EN : N (ls_grad z) = @shf G ls_C (d * d) e).
    { rewrite ls_grad_N. pose proof (ls_grad_N xs) as Q. rewrite HX, (lin_zero N LN) in Q.
      unfold e. change (isub xs z) with (@isub G xs z).
      rewrite (@lin_sub G G (@shf G ls_C (d * d)) (adjoint_lin _ _ SB) xs z).
      apply (@ip_ext E1). intro w. apply (f_equal (@ip E1 w)) in Q. rewrite ip_zero, ip_sub in Q.
      change (ip w (isub ls_v (@shf G ls_C (d * d) z)) = ip w (@isub E1 (@shf G ls_C (d * d) xs) (@shf G ls_C (d * d) z))).
      rewrite !ip_sub. lra. }
    rewrite <- EN. cbn. rewrite ls_NiN. reflexivity. }
  rewrite EH, EG. exact EB.
Qed.
End Ls.

(** ** The system [(A N At + inv(M)) y = b] of CRAIG and CRAIG-MR. *)
Section Dual.
Context {E1 E2 : IPS} (A : iv E1 -> iv E2) (At : iv E2 -> iv E1) (M Mi : iv E2 -> iv E2) (N : iv E1 -> iv E1) (b : iv E2).
Hypothesis AD : adjoint A At.
Hypothesis SM : selfadj M.
Hypothesis PM : posdef M.
Hypothesis SN : selfadj N.
Hypothesis PN : posdef N.
Hypothesis MI : forall z, M (Mi z) = z.
Let LM := adjoint_lin M M SM.
Let LT := adjoint_lin_t A At AD.
Let LA := adjoint_lin A At AD.
Let LN := adjoint_lin N N SN.
Lemma du_adj : adjoint At A.
Proof. intros u w. rewrite (ip_sym (A u)), AD. apply ip_sym. Qed.
Let SMi : selfadj Mi := ls_SNi M Mi SM MI.
Let PMi : posdef Mi := ls_PNi M Mi SM PM MI.
Let LMi := adjoint_lin Mi Mi SMi.
Local Notation G := (pspace E2 Mi SMi PMi).

Definition du_C (z : iv E2) : iv E2 := M (A (N (At z))).
Definition du_op (z : iv E2) : iv E2 := iadd (A (N (At z))) (Mi z).
Definition du_H (z : iv E2) : R := ip (At z) (N (At z)) + ip z (Mi z).

Lemma du_SC : @selfadj G du_C.
Proof. exact (ls_SC At A N M Mi du_adj SN SM PM MI). Qed.
Lemma du_op_M : forall z, M (du_op z) = @shf G du_C 1 z.
Proof. intro z. unfold du_op, shf, du_C. cbn. rewrite (lin_add M LM), MI. veq. Qed.
Lemma du_MiM : forall z, Mi (M z) = z.
Proof. exact (ls_NiN M Mi SM PM MI). Qed.
Lemma du_H_eq : forall z, @ip G z (@shf G du_C 1 z) = du_H z.
Proof.
  intro z. rewrite <- du_op_M. unfold du_op, du_H. cbn. rewrite (SM (Mi z)), MI, ip_add, AD. reflexivity.
Qed.
Lemma du_norm : forall r, sqrt (ip r (M r)) = @inorm G (M r).
Proof. intro r. unfold inorm. cbn. rewrite du_MiM. reflexivity. Qed.
Lemma du_sub : forall z, M (isub b (du_op z)) = @isub G (M b) (@shf G du_C 1 z).
Proof. intro z. rewrite (lin_sub M LM), du_op_M. reflexivity. Qed.

Lemma du_ann : forall ls, (forall l, In l ls -> l + 1 <> 0) -> ann du_C ls (M b) = izero ->
  exists z, kry du_C (M b) (length ls) z /\ du_op z = b.
Proof.
  intros ls H Z. destruct (@core_ann G du_C (M b) 1 du_SC ls H) as (z & K & E0).
  - assert (Q : forall l u, @ann G du_C l u = ann du_C l u).
    { induction l as [|a l IH]; intro u; [reflexivity|]. cbn [ann]. rewrite IH. reflexivity. }
    rewrite Q. exact Z.
  - exists z. split; [apply kry_same in K; exact K|]. apply (p_inj E2 M SM PM). rewrite du_op_M. exact E0.
Qed.

(** The quadratic function that CRAIG minimises is the energy of the error. *)
Lemma du_quad : forall ys z, du_op ys = b ->
  ip (At z) (N (At z)) + ip z (Mi z) - 2 * ip b z = du_H (isub ys z) - du_H ys.
Proof.
  intros ys z <-. unfold du_H, du_op.
  rewrite (lin_sub At LT), (lin_sub N LN), (lin_sub Mi LMi). repeat rewrite ?ip_sub, ?ip_subl, ?ip_addl.
  assert (Q1 : ip (A (N (At ys))) z = ip (At z) (N (At ys))) by (rewrite (ip_sym _ z); apply AD).
  assert (Q2 : ip (At ys) (N (At z)) = ip (At z) (N (At ys))) by (rewrite SN; apply ip_sym).
  assert (Q3 : ip (Mi ys) z = ip z (Mi ys)) by apply ip_sym.
  assert (Q4 : ip ys (Mi z) = ip z (Mi ys)) by (rewrite (SMi ys z); apply ip_sym).
  rewrite Q1, Q2, Q3, Q4. ring.
Qed.

Variable L : R.
Hypothesis L0 : 0 < L.
Hypothesis Bd : forall z, ip (At z) (N (At z)) <= L * ip z (Mi z).

Lemma du_fm : forall x k z, @kry G du_C x k z -> 1 * @ip G z z <= @ip G z (@shf G du_C 1 z) <= (1 + L) * @ip G z z.
Proof.
  intros x k z _. rewrite du_H_eq. cbn. rewrite !(ip_sym (Mi z)). unfold du_H. pose proof (Bd z).
  assert (0 <= ip (At z) (N (At z))).
  { pose proof (p_pos E1 N PN (At z)). rewrite ip_sym. assumption. }
  lra.
Qed.
Lemma du_best_resid : forall k, exists z, kry du_C (M b) k z /\
  sqrt (ip (isub b (du_op z)) (M (isub b (du_op z)))) <= 2 * crate 1 (1 + L) ^ k * sqrt (ip b (M b)).
Proof.
  intro k. destruct (@core_resid G du_C (M b) 1 du_SC 1 (1 + L) ltac:(lra) ltac:(lra)) with (k := k) as (z & K & H).
  - intros j z K. apply (du_fm (M b) j z K).
  - exists z. split; [apply kry_same in K; exact K|]. rewrite !du_norm, du_sub. exact H.
Qed.
Lemma du_best_energy : forall ys, du_op ys = b -> forall k, exists z, kry du_C (M b) k z /\
  du_H (isub ys z) <= (2 * crate 1 (1 + L) ^ k) * (2 * crate 1 (1 + L) ^ k) * du_H ys.
Proof.
  intros ys HY k. destruct (@core_energy G du_C (M b) 1 du_SC 1 (1 + L) ltac:(lra) ltac:(lra) ys) with (k := k) as (z & K & H).
  - rewrite <- du_op_M. exact (f_equal M HY).
  - intros j z K. apply (du_fm ys j z K).
  - exists z. split; [apply kry_same in K; exact K|]. rewrite !du_H_eq in H. exact H.
Qed.
End Dual.

(** ** MINRES: the residual of [At x = b] measured by [P], over the Krylov spaces of [P At] and [P b]. *)
Section Mr.
Context {E : IPS} (At P : iv E -> iv E) (b : iv E).
Hypothesis SA : selfadj At.
Hypothesis SP : selfadj P.
Hypothesis PP : posdef P.
Local Notation G := (pspace E P SP PP).
Let LA := adjoint_lin At At SA.
Let LP := adjoint_lin P P SP.
Let C (z : iv E) : iv E := At (P z).
Let pnorm (z : iv E) : R := sqrt (ip z (P z)).

Lemma mr_SC : @selfadj G C.
Proof. exact (p_selfadj E P SP PP At SA). Qed.
Lemma mr_pnorm : forall z, pnorm z = @inorm G z.
Proof. intro z. unfold pnorm, inorm. cbn. rewrite (ip_sym z). reflexivity. Qed.
Lemma mr_shf0 : forall z, @shf G C 0 z = C z.
Proof. intro z. unfold shf. cbn. veq. Qed.
Lemma mr_ann : forall ls, (forall l, In l ls -> l <> 0) -> ann C ls b = izero ->
  exists z, kry (fun z => P (At z)) (P b) (length ls) z /\ At z = b.
Proof.
  intros ls H Z. destruct (ann_kry C b) with (ls := ls) as (z & K & E0).
  - split; intros; unfold C; [rewrite (lin_add P LP), (lin_add At LA)|rewrite (lin_scale P LP), (lin_scale At LA)]; reflexivity.
  - exact H.
  - exact Z.
  - exists (P z). split; [apply (kry_push E P SP At b); exact K|exact E0].
Qed.
Lemma mr_best : forall m M, 0 < m -> m < M ->
  (forall z, m * ip z (P z) <= ip (P z) (At (P z)) <= M * ip z (P z)) ->
  forall k, exists z, kry (fun z => P (At z)) (P b) k z /\ pnorm (isub b (At z)) <= 2 * crate m M ^ k * pnorm b.
Proof.
  intros m M m0 mM Bd k. destruct (@core_resid G C b 0 mr_SC m M m0 mM) with (k := k) as (z & K & H).
  - intros j z _. rewrite mr_shf0. cbn. rewrite (ip_sym (P z) z). apply Bd.
  - exists (P z). split; [apply (kry_push E P SP At b), (kry_same E P SP PP); exact K|].
    rewrite !mr_pnorm. rewrite mr_shf0 in H. exact H.
Qed.
(** Indefinite operators: two products reduce the residual like one with the squared operator. *)
Lemma kry_square : forall (B : iv E -> iv E) v, lin B -> forall k z, kry (fun z => B (B z)) v k z -> kry B v (2 * k) (B z).
Proof.
  intros B v LB. induction k as [|k IH]; intros z K.
  - cbn in K. rewrite K. cbn. apply (lin_zero B LB).
  - destruct K as (a & z' & K & ->). replace (2 * S k)%nat with (S (S (2 * k))) by lia.
    rewrite (lin_add B LB), (lin_scale B LB). apply lk_add; [exact LB| |].
    + apply lk_scale; [exact LB|]. apply lk_B. apply lk_v. exact LB.
    + apply lk_B. apply lk_B. apply IH. exact K.
Qed.
Lemma mr_best2 : forall m M, 0 < m -> m < M ->
  (forall z, m * pnorm z <= pnorm (At (P z)) <= M * pnorm z) ->
  forall k, exists z, kry (fun z => P (At z)) (P b) (2 * k) z /\
    pnorm (isub b (At z)) <= 2 * ((M - m) / (M + m)) ^ k * pnorm b.
Proof.
  intros m M m0 mM Bd k.
  assert (S2 : @selfadj G (fun z => C (C z))) by (intros u w; rewrite (mr_SC u (C w)); apply mr_SC).
  assert (LC : lin C).
  { split; intros; unfold C; [rewrite (lin_add P LP), (lin_add At LA)|rewrite (lin_scale P LP), (lin_scale At LA)]; reflexivity. }
  destruct (@core_resid G (fun z => C (C z)) b 0 S2 (m * m) (M * M) ltac:(nra) ltac:(nra)) with (k := k) as (z & K & H).
  - intros j z _. unfold shf. rewrite ip_add, ip_scale, (mr_SC z (C z)), Rmult_0_l, Rplus_0_r.
    pose proof (Bd z) as B. rewrite !mr_pnorm in B. pose proof (@inorm_pos G z).
    rewrite <- !(@inorm_sq G). change (At (P z)) with (C z) in B.
    set (a := @inorm G z) in *. set (c := @inorm G (C z)) in *. clearbody a c. destruct B as [B1 B2].
    assert (0 <= m * a) by (apply Rmult_le_pos; lra). split.
    + replace (m * m * (a * a)) with ((m * a) * (m * a)) by ring. apply Rmult_le_compat; lra.
    + replace (M * M * (a * a)) with ((M * a) * (M * a)) by ring. apply Rmult_le_compat; lra.
  - exists (P (C z)). split.
    + apply (kry_push E P SP At b). change (kry C b (2 * k) (C z)). apply (kry_square C b LC).
      apply (kry_same E P SP PP) in K. exact K.
    + rewrite !mr_pnorm. unfold crate in H. rewrite !sqrt_square in H by lra.
      replace (@isub G b (@shf G (fun z => C (C z)) 0 z)) with (isub b (At (P (C z)))) in H; [exact H|].
      unfold shf, C. cbn. veq.
Qed.
End Mr.
