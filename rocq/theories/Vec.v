(** * Vectors as lists over a field with involution. *)
From Coq Require Import List ZArith Lia Bool Ring.
From Verif Require Import Base Field.
Import ListNotations.

Fixpoint zipw {A B C} (f : A -> B -> C) (l : list A) (m : list B) : list C :=
  match l, m with
  | a :: l', b :: m' => f a b :: zipw f l' m'
  | _, _ => []
  end.

Lemma zipw_length : forall A B C (f : A -> B -> C) l m,
  length (zipw f l m) = min (length l) (length m).
Proof. induction l; destruct m; cbn; auto. Qed.

Section Vec.
Context {F : Fld}.
Definition vec := list F.

Definition vadd (x y : vec) : vec := zipw kadd x y.
Definition vsub (x y : vec) : vec := zipw ksub x y.
Definition vscale (c : F) (x : vec) : vec := map (kmul c) x.
Definition vmul (x y : vec) : vec := zipw kmul x y.
Definition vconj (x : vec) : vec := map kconj x.
Definition vre (x : vec) : vec := map kre x.
Definition vzero (n : nat) : vec := repeat k0 n.
Fixpoint dot (x y : vec) : F :=
  match x, y with
  | a :: x', b :: y' => kadd (kmul a b) (dot x' y')
  | _, _ => k0
  end.
Definition unitv (n i : nat) : vec := map (fun j => if Nat.eqb i j then k1 else k0) (seq 0 n).

Definition vreal (x : vec) : Prop := vconj x = x.

(** Specification vocabulary for linear maps between coordinate spaces. *)
Record linmap (n m : nat) (f : vec -> vec) : Prop := mkLin {
  lin_len : forall x, length x = n -> length (f x) = m;
  lin_add : forall x y, length x = n -> length y = n -> f (vadd x y) = vadd (f x) (f y);
  lin_scale : forall c x, length x = n -> f (vscale c x) = vscale c (f x)
}.

(** [g] is the transpose of [f] *)
Definition is_transpose (n m : nat) (f g : vec -> vec) : Prop :=
  forall x y, length x = n -> length y = m -> dot y (f x) = dot (g y) x.
(** [g] is the conjugate transpose of [f] *)
Definition is_adjoint (n m : nat) (f g : vec -> vec) : Prop :=
  forall x y, length x = n -> length y = m -> dot (vconj y) (f x) = dot (vconj (g y)) x.
(** [f] has a real matrix *)
Definition real_map (n : nat) (f : vec -> vec) : Prop :=
  forall x, length x = n -> f (vconj x) = vconj (f x).

Context (OK : FldOK F).
Add Ring Kring : (fk_ring F OK).

Lemma vadd_length : forall x y, length x = length y -> length (vadd x y) = length x.
Proof. intros; unfold vadd; rewrite zipw_length; lia. Qed.
Lemma vsub_length : forall x y, length x = length y -> length (vsub x y) = length x.
Proof. intros; unfold vsub; rewrite zipw_length; lia. Qed.
Lemma vmul_length : forall x y, length x = length y -> length (vmul x y) = length x.
Proof. intros; unfold vmul; rewrite zipw_length; lia. Qed.
Lemma vscale_length : forall c x, length (vscale c x) = length x.
Proof. intros; apply map_length. Qed.
Lemma vconj_length : forall x, length (vconj x) = length x.
Proof. intros; apply map_length. Qed.
Lemma vre_length : forall x, length (vre x) = length x.
Proof. intros; apply map_length. Qed.
Lemma vzero_length : forall n, length (vzero n) = n.
Proof. intros; apply repeat_length. Qed.
Lemma unitv_length : forall n i, length (unitv n i) = n.
Proof. intros; unfold unitv; rewrite map_length, seq_length; auto. Qed.

Lemma conj0 : kconj (@k0 F) = k0.
Proof.
  assert (H : kconj (@k0 F) = kadd (kconj k0) (kconj k0)).
  { rewrite <- (fk_conj_add F OK). f_equal. ring. }
  set (z := kconj k0) in *.
  transitivity (ksub (kadd z z) z); [ring|]. rewrite <- H. ring.
Qed.
Lemma conj1 : kconj (@k1 F) = k1.
Proof. rewrite <- (fk_ofZ_1 F OK). apply (fk_ofZ_real F OK). Qed.
Lemma conj_opp : forall x : F, kconj (kopp x) = kopp (kconj x).
Proof.
  intros.
  assert (H : kadd (kconj (kopp x)) (kconj x) = k0).
  { rewrite <- (fk_conj_add F OK). rewrite <- conj0. f_equal. ring. }
  transitivity (kadd (kadd (kconj (kopp x)) (kconj x)) (kopp (kconj x))); [ring|].
  rewrite H; ring.
Qed.
Lemma conj_sub : forall x y : F, kconj (ksub x y) = ksub (kconj x) (kconj y).
Proof.
  intros. replace (ksub x y) with (kadd x (kopp y)) by ring.
  rewrite (fk_conj_add F OK), conj_opp. ring.
Qed.

Lemma vconj_conj : forall x, vconj (vconj x) = x.
Proof.
  induction x; cbn; auto. rewrite (fk_conj_conj F OK). f_equal; auto.
Qed.
Lemma vconj_add : forall x y, vconj (vadd x y) = vadd (vconj x) (vconj y).
Proof.
  induction x; destruct y; cbn; auto. rewrite (fk_conj_add F OK). f_equal; apply IHx.
Qed.
Lemma vconj_sub : forall x y, vconj (vsub x y) = vsub (vconj x) (vconj y).
Proof.
  induction x; destruct y; cbn; auto. rewrite conj_sub. f_equal; apply IHx.
Qed.
Lemma vconj_mul : forall x y, vconj (vmul x y) = vmul (vconj x) (vconj y).
Proof.
  induction x; destruct y; cbn; auto. rewrite (fk_conj_mul F OK). f_equal; apply IHx.
Qed.
Lemma vconj_scale : forall c x, vconj (vscale c x) = vscale (kconj c) (vconj x).
Proof.
  induction x; cbn; auto. rewrite (fk_conj_mul F OK). f_equal; apply IHx.
Qed.
Lemma vconj_zero : forall n, vconj (vzero n) = vzero n.
Proof. induction n; cbn; auto. rewrite conj0. f_equal; auto. Qed.
Lemma vre_real : forall x, vreal x -> vre x = x.
Proof.
  induction x; cbn; auto. intro H. unfold vreal in H; cbn in H. inversion H as [[H1 H2]].
  rewrite H2, H1. f_equal. now apply (fk_re_real F OK). apply IHx. exact H2.
Qed.
Lemma vre_vreal : forall x, vreal (vre x).
Proof.
  induction x; unfold vreal in *; cbn; auto. rewrite (fk_re_is_real F OK).
  f_equal; auto.
Qed.

Lemma dot_comm : forall x y, dot x y = dot y x.
Proof. induction x; destruct y; cbn; auto. rewrite IHx. ring. Qed.
Lemma dot_add_r : forall x y z, length y = length z ->
  dot x (vadd y z) = kadd (dot x y) (dot x z).
Proof.
  induction x; destruct y, z; cbn; intros; try discriminate; try ring.
  unfold vadd in IHx. rewrite IHx by lia. ring.
Qed.
Lemma dot_sub_r : forall x y z, length y = length z ->
  dot x (vsub y z) = ksub (dot x y) (dot x z).
Proof.
  induction x; destruct y, z; cbn; intros; try discriminate; try ring.
  unfold vsub in IHx. rewrite IHx by lia. ring.
Qed.
Lemma dot_scale_r : forall c x y, dot x (vscale c y) = kmul c (dot x y).
Proof. induction x; destruct y; cbn; try ring. unfold vscale in IHx. rewrite IHx. ring. Qed.
Lemma dot_scale_l : forall c x y, dot (vscale c x) y = kmul c (dot x y).
Proof. intros. rewrite dot_comm, dot_scale_r, dot_comm. auto. Qed.
Lemma dot_add_l : forall x y z, length y = length z ->
  dot (vadd y z) x = kadd (dot y x) (dot z x).
Proof. intros. rewrite dot_comm, dot_add_r by auto. now rewrite (dot_comm x y), (dot_comm x z). Qed.
Lemma dot_sub_l : forall x y z, length y = length z ->
  dot (vsub y z) x = ksub (dot y x) (dot z x).
Proof. intros. rewrite dot_comm, dot_sub_r by auto. now rewrite (dot_comm x y), (dot_comm x z). Qed.
Lemma dot_zero_l : forall n x, dot (vzero n) x = k0.
Proof. induction n; destruct x; cbn; auto. unfold vzero in IHn; rewrite IHn. ring. Qed.
Lemma dot_zero_r : forall n x, dot x (vzero n) = k0.
Proof. intros. rewrite dot_comm. apply dot_zero_l. Qed.
Lemma dot_conj : forall x y, kconj (dot x y) = dot (vconj x) (vconj y).
Proof.
  induction x; destruct y; cbn; auto using conj0.
  rewrite (fk_conj_add F OK), (fk_conj_mul F OK). f_equal; apply IHx.
Qed.
Lemma dot_vmul : forall d x y, dot y (vmul d x) = dot (vmul d y) x.
Proof.
  induction d; destruct x, y; cbn; auto; try ring.
  unfold vmul in IHd. rewrite IHd. ring.
Qed.

(** Non-degeneracy: a vector is determined by its inner products. *)
Lemma dot_cons0 : forall b x y, dot (k0 :: x) (b :: y) = dot x y.
Proof. intros; cbn; ring. Qed.
Lemma dot_ext : forall n x y, length x = n -> length y = n ->
  (forall w, length w = n -> dot w x = dot w y) -> x = y.
Proof.
  induction n; destruct x as [|a x], y as [|b y]; cbn [length]; intros Hx Hy H;
    try discriminate; auto.
  f_equal.
  - specialize (H (k1 :: vzero n)). cbn [length] in H. rewrite vzero_length in H.
    specialize (H eq_refl). cbn [dot] in H. rewrite !dot_zero_l in H.
    transitivity (kadd (kmul k1 a) k0); [ring|]. rewrite H. ring.
  - apply IHn; try lia. intros w Hw. specialize (H (k0 :: w)). cbn [length] in H.
    rewrite Hw in H. specialize (H eq_refl). now rewrite !dot_cons0 in H.
Qed.

(** Uniqueness and basic calculus of transposes/adjoints *)
Lemma transpose_unique : forall n m f g g',
  (forall y, length y = m -> length (g y) = n) ->
  (forall y, length y = m -> length (g' y) = n) ->
  is_transpose n m f g -> is_transpose n m f g' ->
  forall y, length y = m -> g y = g' y.
Proof.
  intros n m f g g' Hg Hg' H H' y Hy.
  apply (dot_ext n); auto. intros w Hw.
  rewrite dot_comm, <- H by auto. rewrite (dot_comm w), <- H' by auto. auto.
Qed.
Lemma is_transpose_sym : forall n m f g, is_transpose n m f g -> is_transpose m n g f.
Proof.
  intros n m f g H x y Hx Hy. rewrite (dot_comm y), <- H by auto. apply dot_comm.
Qed.
Lemma is_adjoint_sym : forall n m f g, is_adjoint n m f g -> is_adjoint m n g f.
Proof.
  intros n m f g H x y Hx Hy.
  rewrite <- (fk_conj_conj F OK (dot (vconj y) (g x))), dot_conj, vconj_conj.
  rewrite (dot_comm y), <- H by auto.
  rewrite dot_conj, vconj_conj. apply dot_comm.
Qed.

(** the conjugate map  x |-> conj (f (conj x)) *)
Definition conj_map (f : vec -> vec) : vec -> vec := fun x => vconj (f (vconj x)).

Lemma conj_map_lin : forall n m f, linmap n m f -> linmap n m (conj_map f).
Proof.
  intros n m f [H1 H2 H3]; unfold conj_map; constructor; intros.
  - rewrite vconj_length. apply H1. now rewrite vconj_length.
  - rewrite vconj_add, H2 by now rewrite vconj_length. apply vconj_add.
  - rewrite vconj_scale, H3 by now rewrite vconj_length.
    now rewrite vconj_scale, (fk_conj_conj F OK).
Qed.
Lemma conj_map_conj : forall f x, conj_map (conj_map f) x = f x.
Proof. intros; unfold conj_map. now rewrite !vconj_conj. Qed.
Lemma conj_map_real : forall n f, real_map n f ->
  forall x, length x = n -> conj_map f x = f x.
Proof. intros n f H x Hx. unfold conj_map. rewrite H by auto. apply vconj_conj. Qed.

Lemma adjoint_conj_transpose : forall n m f g,
  is_adjoint n m f g -> is_transpose n m f (conj_map g).
Proof.
  intros n m f g H x y Hx Hy. unfold conj_map.
  rewrite <- H by (rewrite ?vconj_length; auto). now rewrite vconj_conj.
Qed.
Lemma transpose_conj_adjoint : forall n m f g,
  is_transpose n m f g -> is_adjoint n m f (conj_map g).
Proof.
  intros n m f g H x y Hx Hy. unfold conj_map.
  rewrite vconj_conj, H by (rewrite ?vconj_length; auto). auto.
Qed.
(* transpose of conj f is the adjoint of f *)
Lemma conj_transpose_adjoint : forall n m f g,
  is_adjoint n m f g -> is_transpose n m (conj_map f) g.
Proof.
  intros n m f g H x y Hx Hy. unfold conj_map.
  rewrite <- (vconj_conj y) at 1. rewrite <- dot_conj.
  rewrite H by (rewrite ?vconj_length; auto).
  rewrite dot_conj, !vconj_conj. auto.
Qed.
Lemma conj_adjoint_transpose : forall n m f g,
  is_transpose n m f g -> is_adjoint n m (conj_map f) g.
Proof.
  intros n m f g H x y Hx Hy. unfold conj_map.
  rewrite <- dot_conj. rewrite H by (rewrite ?vconj_length; auto).
  rewrite dot_conj, vconj_conj. auto.
Qed.

Lemma is_transpose_ext : forall n m f g f' g',
  (forall x, length x = n -> f x = f' x) -> (forall y, length y = m -> g y = g' y) ->
  is_transpose n m f g -> is_transpose n m f' g'.
Proof. intros n m f g f' g' Hf Hg H x y Hx Hy. rewrite <- Hf, <- Hg by auto. auto. Qed.
Lemma is_adjoint_ext : forall n m f g f' g',
  (forall x, length x = n -> f x = f' x) -> (forall y, length y = m -> g y = g' y) ->
  is_adjoint n m f g -> is_adjoint n m f' g'.
Proof. intros n m f g f' g' Hf Hg H x y Hx Hy. rewrite <- Hf, <- Hg by auto. auto. Qed.

(** For a real map the transpose and the adjoint coincide. *)
Lemma real_transpose_adjoint : forall n m f g, real_map n f ->
  is_transpose n m f g -> is_adjoint n m f g.
Proof.
  intros n m f g R H x y Hx Hy.
  rewrite <- (vconj_conj x) at 2. rewrite <- dot_conj.
  rewrite <- H by (rewrite ?vconj_length; auto).
  rewrite R by auto. rewrite dot_conj, vconj_conj. auto.
Qed.
Lemma real_adjoint_transpose : forall n m f g, real_map n f ->
  is_adjoint n m f g -> is_transpose n m f g.
Proof.
  intros n m f g R H x y Hx Hy.
  rewrite <- (fk_conj_conj F OK (dot y (f x))), dot_conj, <- R by auto.
  rewrite H by (rewrite ?vconj_length; auto).
  rewrite dot_conj, !vconj_conj. auto.
Qed.
Lemma real_transpose_real : forall n m f g,
  (forall y, length y = m -> length (g y) = n) ->
  real_map n f -> is_transpose n m f g -> real_map m g.
Proof.
  intros n m f g Hg R H y Hy.
  apply (dot_ext n); rewrite ?vconj_length; auto using vconj_length.
  { apply Hg. now rewrite vconj_length. }
  intros w Hw.
  rewrite dot_comm, <- H by (rewrite ?vconj_length; auto).
  rewrite <- (vconj_conj w) at 2. rewrite <- dot_conj.
  rewrite (dot_comm (vconj w)), <- H by (rewrite ?vconj_length; auto).
  rewrite R by auto. rewrite dot_conj, vconj_conj. auto.
Qed.
Lemma transpose_linear : forall n m f g,
  (forall y, length y = m -> length (g y) = n) ->
  is_transpose n m f g -> linmap m n g.
Proof.
  intros n m f g Hg H; constructor; auto.
  - intros x y Hx Hy. apply (dot_ext n).
    + apply Hg. rewrite vadd_length; lia.
    + rewrite vadd_length; rewrite ?Hg; auto.
    + intros w Hw. rewrite dot_comm, <- H by (rewrite ?vadd_length; lia).
      rewrite dot_add_l by lia. rewrite dot_add_r by (rewrite !Hg; auto).
      rewrite !H by auto. now rewrite (dot_comm w (g x)), (dot_comm w (g y)).
  - intros c x Hx. apply (dot_ext n).
    + apply Hg. now rewrite vscale_length.
    + rewrite vscale_length; auto.
    + intros w Hw. rewrite dot_comm, <- H by (rewrite ?vscale_length; lia).
      rewrite dot_scale_l, dot_scale_r. rewrite H by auto. now rewrite dot_comm.
Qed.
Lemma adjoint_linear : forall n m f g,
  (forall y, length y = m -> length (g y) = n) ->
  is_adjoint n m f g -> linmap m n g.
Proof.
  intros n m f g Hg H.
  assert (L : linmap m n (conj_map g)).
  { apply (transpose_linear n m f); [|now apply adjoint_conj_transpose].
    intros; unfold conj_map. rewrite vconj_length. apply Hg. now rewrite vconj_length. }
  apply conj_map_lin in L. destruct L as [L1 L2 L3].
  constructor; intros.
  - auto.
  - specialize (L2 x y H0 H1). now rewrite !conj_map_conj in L2.
  - specialize (L3 c x H0). now rewrite !conj_map_conj in L3.
Qed.

Lemma linmap_ext : forall n m f g, (forall x, length x = n -> f x = g x) ->
  linmap n m f -> linmap n m g.
Proof.
  intros n m f g E [H1 H2 H3]; constructor; intros.
  - rewrite <- E; auto.
  - rewrite <- !E; auto. rewrite vadd_length; lia.
  - rewrite <- !E; auto. rewrite vscale_length; auto.
Qed.
End Vec.
Arguments vec : clear implicits.
