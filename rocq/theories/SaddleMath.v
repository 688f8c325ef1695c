(** * Saddle-point operators and their ideal block diagonal preconditioner

    K = [A B'; B 0] and P = diag(inv A, inv (B inv(A) B')): the operator T = K P satisfies
    (T - 1)(T^2 - T - 1) = 0. *)
From Coq Require Import List Reals Lra Psatz.
From Verif Require Import Base Num Precon Cheb.
Import ListNotations.
Local Open Scope R_scope.

(** [E] is the space of pairs of a vector of [E1] and one of [E2]. *)
Record split (E E1 E2 : IPS) := mksplit {
  sp1 : iv E -> iv E1; sp2 : iv E -> iv E2; pair2 : iv E1 -> iv E2 -> iv E;
  sp_eta : forall z, pair2 (sp1 z) (sp2 z) = z;
  sp_fst : forall x y, sp1 (pair2 x y) = x; sp_snd : forall x y, sp2 (pair2 x y) = y;
  sp_add : forall x y x' y', iadd (pair2 x y) (pair2 x' y') = pair2 (iadd x x') (iadd y y');
  sp_scale : forall a x y, iscale a (pair2 x y) = pair2 (iscale a x) (iscale a y);
  sp_ip : forall x y x' y', ip (pair2 x y) (pair2 x' y') = ip x x' + ip y y' }.
Arguments sp1 {E E1 E2} _ _. Arguments sp2 {E E1 E2} _ _. Arguments pair2 {E E1 E2} _ _ _.

Section Saddle.
Context {E E1 E2 : IPS} (S : split E E1 E2).
Variables (A Ai : iv E1 -> iv E1) (B : iv E1 -> iv E2) (Bt : iv E2 -> iv E1) (Si : iv E2 -> iv E2).
Definition saddle (z : iv E) : iv E := pair2 S (iadd (A (sp1 S z)) (Bt (sp2 S z))) (B (sp1 S z)).
Definition blockpre (z : iv E) : iv E := pair2 S (Ai (sp1 S z)) (Si (sp2 S z)).
Hypothesis SA : selfadj A.
Hypothesis AB : adjoint B Bt.
Hypothesis SAi : selfadj Ai.
Hypothesis PAi : posdef Ai.
Hypothesis SSi : selfadj Si.
Hypothesis PSi : posdef Si.

Lemma pair_ip : forall z w : iv E, ip z w = ip (sp1 S z) (sp1 S w) + ip (sp2 S z) (sp2 S w).
Proof. intros z w. rewrite <- (sp_eta _ _ _ S z) at 1. rewrite <- (sp_eta _ _ _ S w) at 1. apply sp_ip. Qed.
Lemma saddle_sym : selfadj saddle.
Proof.
  intros z w. unfold saddle. rewrite !pair_ip, !sp_fst, !sp_snd, ip_add, ip_addl.
  rewrite (SA (sp1 S z) (sp1 S w)). rewrite (AB (sp2 S z) (sp1 S w)).
  rewrite (ip_sym (sp1 S z) (Bt _)), <- (AB (sp2 S w) (sp1 S z)). rewrite (ip_sym (B _)). ring.
Qed.
Lemma blockpre_sym : selfadj blockpre.
Proof. intros z w. unfold blockpre. rewrite !pair_ip, !sp_fst, !sp_snd, SAi, SSi. reflexivity. Qed.
Lemma blockpre_pos : posdef blockpre.
Proof.
  intros z N. unfold blockpre. rewrite pair_ip, !sp_fst, !sp_snd.
  assert (P1 : sp1 S z <> izero \/ sp2 S z <> izero).
  { destruct (Req_dec (ip (sp1 S z) (sp1 S z)) 0) as [Z1|Z1].
    - destruct (Req_dec (ip (sp2 S z) (sp2 S z)) 0) as [Z2|Z2].
      + exfalso. apply N. apply ip_def. rewrite pair_ip. lra.
      + right. intro Q. apply Z2. rewrite Q. apply ip_zero.
    - left. intro Q. apply Z1. rewrite Q. apply ip_zero. }
  assert (Q1 : 0 <= ip (sp1 S z) (Ai (sp1 S z))).
  { destruct (Req_dec (ip (sp1 S z) (sp1 S z)) 0) as [Z|Z].
    - apply ip_def in Z. rewrite Z. rewrite ip_zerol. lra.
    - apply Rlt_le, PAi. intro Q. apply Z. rewrite Q. apply ip_zero. }
  assert (Q2 : 0 <= ip (sp2 S z) (Si (sp2 S z))).
  { destruct (Req_dec (ip (sp2 S z) (sp2 S z)) 0) as [Z|Z].
    - apply ip_def in Z. rewrite Z. rewrite ip_zerol. lra.
    - apply Rlt_le, PSi. intro Q. apply Z. rewrite Q. apply ip_zero. }
  destruct P1 as [P1|P1]; [pose proof (PAi _ P1)|pose proof (PSi _ P1)]; lra.
Qed.

Hypothesis IA : forall x, A (Ai x) = x.
Hypothesis IS : forall y, B (Ai (Bt (Si y))) = y.
Definition sT (z : iv E) : iv E := saddle (blockpre z).
Definition sQ (z : iv E) : iv E := pair2 S (Bt (Si (B (Ai (sp1 S z))))) (sp2 S z).

Let LAi : lin Ai := adjoint_lin Ai Ai SAi.
Let LSi : lin Si := adjoint_lin Si Si SSi.
Let LB : lin B := adjoint_lin B Bt AB.
Let LBt : lin Bt := adjoint_lin_t B Bt AB.

Lemma sT_eq : forall z, sT z = pair2 S (iadd (sp1 S z) (Bt (Si (sp2 S z)))) (B (Ai (sp1 S z))).
Proof. intro z. unfold sT, saddle, blockpre. rewrite !sp_fst, !sp_snd, IA. reflexivity. Qed.
(** T^2 = T + Q, Q a projection, T Q = Q T, (T - 1)(Q - 1) = 0 *)
Lemma sT_sq : forall z, sT (sT z) = iadd (sT z) (sQ z).
Proof.
  intro z. rewrite !sT_eq. unfold sQ. rewrite !sp_fst, !sp_snd, sp_add.
  rewrite (lin_add _ LAi), (lin_add _ LB), IS. reflexivity.
Qed.
Lemma sQ_idem : forall z, sQ (sQ z) = sQ z.
Proof. intro z. unfold sQ. rewrite !sp_fst, !sp_snd, IS. reflexivity. Qed.
Lemma sTQ : forall z, iadd (sT (sQ z)) z = iadd (sT z) (sQ z).
Proof.
  intro z. rewrite !sT_eq. unfold sQ. rewrite !sp_fst, !sp_snd, IS. rewrite <- (sp_eta _ _ _ S z) at 4.
  rewrite !sp_add. f_equal; veq.
Qed.
Lemma sQT : forall z, sQ (sT z) = sT (sQ z).
Proof.
  intro z. rewrite !sT_eq. unfold sQ. rewrite !sp_fst, !sp_snd, IS.
  rewrite (lin_add _ LAi), (lin_add _ LB), IS, (lin_add _ LSi), (lin_add _ LBt). reflexivity.
Qed.
Lemma sT_lin : lin sT.
Proof.
  assert (L1 : lin saddle) by (exact (adjoint_lin _ _ saddle_sym)).
  assert (L2 : lin blockpre) by (exact (adjoint_lin _ _ blockpre_sym)).
  constructor; intros; unfold sT; [rewrite (lin_add _ L2); apply (lin_add _ L1)|rewrite (lin_scale _ L2); apply (lin_scale _ L1)].
Qed.

(** the eigenvalues *)
Definition golden : list R := [1; (1 + sqrt 5) / 2; (1 - sqrt 5) / 2].
Lemma golden_nz : forall l, In l golden -> l <> 0.
Proof.
  assert (Q : sqrt 5 * sqrt 5 = 5) by (apply sqrt_sqrt; lra). pose proof (sqrt_pos 5).
  intros l [<-|[<-|[<-|[]]]]; [lra|lra|]. intro Z. assert (sqrt 5 = 1) by lra. rewrite H0 in Q. lra.
Qed.
Lemma saddle_ann : forall b, ann sT golden b = izero.
Proof.
  intro b. unfold golden. cbn [ann]. set (p := (1 + sqrt 5) / 2). set (m := (1 - sqrt 5) / 2).
  assert (Q : sqrt 5 * sqrt 5 = 5) by (apply sqrt_sqrt; lra).
  assert (H1 : p + m = 1) by (unfold p, m; field). assert (H2 : p * m = -1) by (unfold p, m; nra).
  assert (Z : isub (sT (isub (sT b) (iscale m b))) (iscale p (isub (sT b) (iscale m b))) = isub (sQ b) b).
  { rewrite (lin_sub _ sT_lin), (lin_scale _ sT_lin), sT_sq.
    clearbody p m. apply ip_ext. intro w. ipx.
    assert (H3 : p * (m * ip w b) = - ip w b) by (rewrite <- Rmult_assoc, H2; ring).
    assert (H4 : m * ip w (sT b) + p * ip w (sT b) = ip w (sT b)) by (rewrite <- Rmult_plus_distr_r, (Rplus_comm m), H1; ring).
    lra. }
  rewrite Z. rewrite (lin_sub _ sT_lin). pose proof (sTQ b) as T1.
  apply ip_ext. intro w. apply (f_equal (ip w)) in T1. rewrite !ip_add in T1. ipx. lra.
Qed.

(** [T] shrinks no vector by more than a half in the norm of the preconditioner. *)
Lemma sT_adj : forall z w, ip (sT z) (blockpre w) = ip z (blockpre (sT w)).
Proof. intros z w. unfold sT. rewrite (blockpre_sym z), (saddle_sym (blockpre z)). reflexivity. Qed.
Let pn (z : iv E) : R := sqrt (ip z (blockpre z)).
Lemma sT_lower : forall z, / 2 * pn z <= pn (sT z).
Proof.
  intro z. pose (F := pspace E blockpre blockpre_sym blockpre_pos).
  assert (IP : forall x y : iv E, @ip F x y = @ip E x (blockpre y)) by (intros x y; symmetry; apply blockpre_sym).
  assert (PN : forall x : iv E, pn x = @inorm F x) by (intro x; unfold pn, inorm; rewrite IP; reflexivity).
  assert (TA : forall x y : iv E, @ip F (sT x) y = @ip F x (sT y)) by (intros; rewrite !IP; apply sT_adj).
  assert (QA : forall x y : iv E, @ip F (sQ x) y = @ip F (sT (sT x)) y - @ip F (sT x) y).
  { intros x y. rewrite sT_sq. rewrite !IP, ip_addl. ring. }
  assert (QS : forall x y : iv E, @ip F (sQ x) y = @ip F x (sQ y)).
  { intros x y. rewrite QA, !TA. rewrite (@ip_sym F x (sQ y)), QA, (@ip_sym F _ x), (@ip_sym F (sT y) x). reflexivity. }
  assert (QN : forall x : iv E, @inorm F (sQ x) <= @inorm F x).
  { intro x.
    assert (C1 : @ip F (sQ x) (sQ x) <= @inorm F (sQ x) * @inorm F x).
    { rewrite QS, sQ_idem, <- QS. apply (@cauchy_norm F). }
    rewrite <- inorm_sq in C1. pose proof (@inorm_pos F (sQ x)). pose proof (@inorm_pos F x).
    destruct (Req_dec (@inorm F (sQ x)) 0) as [Z|Z]; [lra|]. apply (Rmult_le_reg_l (@inorm F (sQ x))); lra. }
  assert (ID : @ip F z z = @ip F (sT z) (sT z) - @ip F (sQ (sT z)) z).
  { pose proof (sTQ z) as T1. apply (f_equal (fun v => @ip F v z)) in T1. rewrite !IP, !ip_addl, <- !IP in T1.
    rewrite sQT. rewrite QA in T1. rewrite (TA (sT z) z) in T1. lra. }
  assert (C2 : - @ip F (sQ (sT z)) z <= @inorm F (sT z) * @inorm F z).
  { pose proof (@cauchy_norm F (sQ (sT z)) (@ineg F z)) as C. rewrite inorm_neg in C.
    replace (@ip F (sQ (sT z)) (@ineg F z)) with (- @ip F (sQ (sT z)) z) in C by (unfold ineg; rewrite (@ip_scale F); ring).
    eapply Rle_trans; [exact C|]. apply Rmult_le_compat_r; [apply inorm_pos|apply QN]. }
  rewrite !PN. rewrite <- !inorm_sq in ID. pose proof (@inorm_pos F z). pose proof (@inorm_pos F (sT z)). nra.
Qed.
End Saddle.

