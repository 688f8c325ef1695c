(** * Preconditioned solvers as unpreconditioned ones in another inner product.

    For a symmetric positive definite [P] the space [pspace P] has the vectors of [E] and the inner
    product [<P u, v>].  A solver that keeps both [P v] and [v] performs, on the [v]'s, the
    unpreconditioned method of that space. *)
From Coq Require Import List Arith Lia Bool Reals Lra.
From Verif Require Import Base Num KrylovPoly SpanMath MinresProof.
Import ListNotations.
Local Open Scope R_scope.

Section Space.
Context (E : IPS) (P : iv E -> iv E).
Hypothesis SP : selfadj P.
Hypothesis PD : posdef P.
Let LP : lin P := adjoint_lin P P SP.

Lemma p_sym : forall u v, ip (P u) v = ip (P v) u.
Proof. intros u v. rewrite <- SP. apply ip_sym. Qed.
Lemma p_add : forall w u v, ip (P w) (iadd u v) = ip (P w) u + ip (P w) v.
Proof. intros. apply ip_add. Qed.
Lemma p_scale : forall w a u, ip (P w) (iscale a u) = a * ip (P w) u.
Proof. intros. apply ip_scale. Qed.
Lemma p_zero : forall w, ip (P w) izero = 0.
Proof. intros. apply ip_zero. Qed.
Lemma p_pos : forall u, 0 <= ip (P u) u.
Proof.
  intro u. destruct (Req_dec (ip u u) 0) as [Z|NZ].
  - apply ip_def in Z. subst u. rewrite ip_zero. lra.
  - rewrite ip_sym. apply Rlt_le, PD. intros ->. apply NZ, ip_zero.
Qed.
Lemma p_ext : forall u v, (forall w, ip (P w) u = ip (P w) v) -> u = v.
Proof.
  intros u v H. assert (Z : isub u v = izero).
  { apply ip_def. destruct (Req_dec (ip (isub u v) (isub u v)) 0) as [Z|NZ]; [exact Z|exfalso].
    assert (D : 0 < ip (isub u v) (P (isub u v))).
    { apply PD. intros E0. apply NZ. rewrite E0. apply ip_zero. }
    rewrite ip_sym, ip_sub, (H (isub u v)) in D. lra. }
  apply ip_ext. intro w. assert (Q : ip w (isub u v) = 0) by (rewrite Z; apply ip_zero).
  rewrite ip_sub in Q. lra.
Qed.

Definition pspace : IPS :=
  mkIPS (iv E) ilen izero iadd iscale (fun u v => ip (P u) v) p_sym p_add p_scale p_zero p_pos p_ext.

Lemma p_inj : forall u v, P u = P v -> u = v.
Proof. intros u v H. apply p_ext. intro w. rewrite !(p_sym w), H. reflexivity. Qed.

(** An operator symmetric in [E] gives one symmetric in [pspace]. *)
Lemma p_selfadj : forall A : iv E -> iv E, selfadj A -> @selfadj pspace (fun z : iv pspace => A (P z)).
Proof. intros A SA u v. cbn. rewrite SA. apply SP. Qed.

(** The dimension does not depend on the inner product. *)
Lemma p_gs : forall l : list (iv E), ForallOrdPairs (fun u v : iv E => ip (P u) v = 0) l -> Forall (fun u => u <> izero) l ->
  exists l', length l' = length l /\ orthog l' /\ Forall (fun u => u <> izero) l' /\
    (forall v, In v l' -> dp l v).
Proof.
  intros l O. induction O as [|u t Hu Ht IH]; intro NZ.
  - exists []. repeat split; try constructor. intros v [].
  - inversion NZ as [|? ? Nu Nt]; subst. destruct (IH Nt) as (l' & Ll & Ol & Nl & Dl).
    set (u' := isub u (proj u l')).
    assert (Or : forall w, In w l' -> ip u' w = 0).
    { intros w Iw. unfold u'. rewrite ip_subl.
      assert (G : forall l0, orthog l0 -> Forall (fun u => u <> izero) l0 -> In w l0 -> ip (proj u l0) w = ip u w).
      { intros l0 O0. induction O0 as [|h t0 Hh Ht0 IHt]; intros N0 I0; [destruct I0|].
        inversion N0; subst. cbn [proj]. rewrite ip_addl, ip_scalel. destruct I0 as [->|I0].
        - rewrite (ip_sym (proj u t0)), (proj_orth u t0 w Hh). field. apply Rgt_not_eq, ip_nz. assumption.
        - rewrite (IHt ltac:(assumption) I0). rewrite Forall_forall in Hh. rewrite (Hh w I0). ring. }
      rewrite (G l' Ol Nl Iw). ring. }
    assert (Dp : forall l0, (forall v, In v l0 -> dp t v) -> dp t (proj u l0)).
    { induction l0 as [|h l0 IHl]; intro D; cbn [proj]; [apply dp_zero|].
      apply dp_add; [apply dp_scale, D; left; reflexivity|]. apply IHl. intros v I. apply D. right. exact I. }
    assert (N' : u' <> izero).
    { intro Z. assert (EU : u = proj u l').
      { apply ip_ext. intro w. assert (Q : ip w u' = 0) by (rewrite Z; apply ip_zero). unfold u' in Q.
        rewrite ip_sub in Q. lra. }
      assert (Q : ip u (P u) = 0).
      { rewrite EU at 1. apply (Dp l' Dl). intros v Iv.
        rewrite Forall_forall in Hu. specialize (Hu v Iv). rewrite ip_sym. exact Hu. }
      pose proof (PD u Nu). lra. }
    exists (u' :: l'). split; [cbn; lia|]. split.
    + constructor; [|exact Ol]. apply Forall_forall. exact Or.
    + split; [constructor; assumption|]. intros v [<-|Iv].
      * unfold u'. apply dp_sub; [apply dp_in; left; reflexivity|].
        eapply dp_weak; [apply (Dp l' Dl)|]. intros z Iz. right. exact Iz.
      * eapply dp_weak; [apply (Dl v Iv)|]. intros z Iz. right. exact Iz.
Qed.

Lemma p_dim : forall n, dim_le E n -> dim_le pspace n.
Proof.
  intros n D l O NZ. destruct (p_gs l O NZ) as (l' & Ll & Ol & Nl & _).
  change (length l <= n)%nat. change (@length (iv E) l <= n)%nat. rewrite <- Ll. apply D; assumption.
Qed.

(** Krylov spaces: [P p(Q P) b = p(P Q) P b]. *)
Lemma kry_push : forall (Q : iv E -> iv E) b k z,
  kry (fun z => Q (P z)) b k z -> kry (fun z => P (Q z)) (P b) k (P z).
Proof.
  intros Q b k. induction k as [|k IH]; intros z H; cbn in *.
  - subst z. apply (lin_zero P LP).
  - destruct H as (a & z' & Hz & ->). exists a, (P z'). split; [apply IH, Hz|].
    rewrite (lin_add P LP), (lin_scale P LP). reflexivity.
Qed.
Lemma kry_pull : forall (Q : iv E -> iv E) b k z,
  kry (fun z => P (Q z)) (P b) k z -> exists z', z = P z' /\ kry (fun z => Q (P z)) b k z'.
Proof.
  intros Q b k. induction k as [|k IH]; intros z H; cbn in *.
  - exists izero. split; [|reflexivity]. rewrite (lin_zero P LP). exact H.
  - destruct H as (a & z' & Hz & ->). destruct (IH _ Hz) as (y & -> & Hy).
    exists (iadd (iscale a b) (Q (P y))). split; [|exists a, y; auto].
    rewrite (lin_add P LP), (lin_scale P LP). reflexivity.
Qed.
Lemma kry_same : forall (Q : iv E -> iv E) b k z, @kry pspace Q b k z <-> kry Q b k z.
Proof.
  intros Q b k. induction k as [|k IH]; intro z; cbn; [reflexivity|].
  split; intros (a & z' & Hz & ->); exists a, z'; (split; [apply IH, Hz|reflexivity]).
Qed.
Lemma kry_extf : forall (Q Q' : iv E -> iv E) b k z, (forall z, Q z = Q' z) -> kry Q b k z -> kry Q' b k z.
Proof.
  intros Q Q' b k z H. revert z. induction k as [|k IH]; intros z; cbn; [auto|].
  intros (a & z' & Hz & ->). exists a, z'. split; [apply IH, Hz|]. rewrite H. reflexivity.
Qed.
End Space.

(** The rank depends on neither the inner products nor a change of variables. *)
Lemma p_rank : forall (E1 E2 : IPS) (P1 : iv E1 -> iv E1) (P2 : iv E2 -> iv E2) (S1 : selfadj P1) (D1 : posdef P1)
  (S2 : selfadj P2) (D2 : posdef P2) (A : iv E1 -> iv E2) r, rank_le A r ->
  @rank_le (pspace E1 P1 S1 D1) (pspace E2 P2 S2 D2) (fun z => A (P1 z)) r.
Proof.
  intros E1 E2 P1 P2 S1 D1 S2 D2 A r (U & LU & H). exists U. split; [exact LU|]. intro x.
  specialize (H (P1 x)). induction H as [|u v a Hu Hv IH].
  - apply (@sp_0 (pspace E2 P2 S2 D2)).
  - exact (@sp_add (pspace E2 P2 S2 D2) U u v a Hu IH).
Qed.

(** Two loops whose states correspond. *)
Lemma while_map : forall {A B : Type} (T : A -> B) (c : B -> bool) (c' : A -> bool) (f : B -> res B) (f' : A -> res A),
  (forall s, c (T s) = c' s) -> (forall s, c' s = true -> f (T s) = rmap T (f' s)) ->
  forall fuel s, while fuel c f (T s) = rmap T (while fuel c' f' s).
Proof.
  intros A B T c c' f f' HC HF fuel. induction fuel as [|fuel IH]; intro s; [reflexivity|].
  cbn [while]. rewrite HC. destruct (c' s) eqn:EC; [|reflexivity].
  rewrite (HF s EC). destruct (f' s) as [s1|e]; [apply IH|reflexivity].
Qed.

(** An optional preconditioner; [None] is the identity. *)
Definition pre_of {X : Type} (P : option (X -> X)) : X -> X := match P with Some P => P | None => fun z => z end.

Lemma id_selfadj : forall E : IPS, @selfadj E (fun z => z).
Proof. intros E u v. reflexivity. Qed.
Lemma id_posdef : forall E : IPS, @posdef E (fun z => z).
Proof. intros E u N. apply ip_nz. exact N. Qed.
