(** * Property C95 (first part): operators made from Pysparse matrices and Cholesky factors. *)
From Coq Require Import List ZArith QArith Qcanon Lia Bool Ring.
From Verif Require Import Base Field Vec LinopModel LinopFrame LinopGood LinopInit LinopDep LinopAlg LinopOps LinopExpr
  LinopMisc LinopExtra LinopUser LinopMat LinopPtr WrapModel PropLinop.
Import ListNotations.
Local Open Scope nat_scope.

Section W.
Context {F : Fld} (FOK : FldOK F).
Add Ring Kring95 : (fk_ring F FOK).
Notation st := (st F). Notation M := (M F). Notation arr := (arr F). Notation psmat := (psmat F).
Notation map1 := (list F -> list F).

(** ** Pysparse *)
(** Products of any Pysparse operator, whatever the matrix object does.  [raw] is what the matrix
    object computes. *)
Definition prod_of (n m : nat) (raw : arr -> res arr) (x : arr) : res arr :=
  if negb (asize x =? n) then Err ValueError
  else match raw x with
       | Err e => Err e
       | Ok y => if negb (asize y =? m) then Err ValueError else Ok (astype (result_type DFloat (adt x)) y)
       end.
Definition ps_raw (A : psmat) (x : arr) : res arr :=
  match ps_mul A with Some g => g x | None => rmap (mkarr DFloat) (ps_matvec A x) end.
Definition ps_rawT (A : psmat) (x : arr) : res arr :=
  match ps_rmul A with Some g => g x | None => rmap (mkarr DFloat) (ps_matvec_transp A x) end.

Theorem C95_pysparse_products : forall (A : psmat) (s : st), wfst s ->
  exists s' a t, pysparse_op A s = (s', Ok a) /\ ext s s' /\ attrT s' a = Some t /\ attrH s' a = Some t /\
    (ps_sym A = true -> t = a) /\
    (forall d x, snd (apply (S d) a x s') = prod_of (ps_ncol A) (ps_nrow A) (ps_raw A) x) /\
    (ps_sym A = false -> attrT s' t = Some a /\
       forall d y, snd (apply (S d) t y s') = prod_of (ps_nrow A) (ps_ncol A) (ps_rawT A) y).
Proof.
  intros A s W. unfold pysparse_op, user_op. cbn [option_map].
  destruct (new_linop_desc s (ps_ncol A) (ps_nrow A) (CUser (ps_mv A)) (Some (CUser (ps_mvT A))) None
    (ps_sym A) false DFloat W) as (s' & E & X & W' & L & D & _).
  assert (PR : forall a n m sy he raw mv T H, has s' a n m sy he DFloat (CUser mv) T H ->
    (forall x, asize x = n -> mv x = raw x) ->
    forall d x, snd (apply (S d) a x s') = prod_of n m raw x).
  { intros a n m sy he raw mv T H (o & Ho & H1 & H2 & _ & _ & H5 & H6 & _) EQ d x.
    rewrite (apply_unfold d a x s' o Ho), H1, H2, H5, H6. unfold prod_of.
    destruct (asize x =? n) eqn:N; cbn [negb snd]; [|reflexivity]. apply Nat.eqb_eq in N.
    cbn [call]. unfold lift. rewrite (EQ x N). destruct (raw x) as [y|e]; [|reflexivity].
    destruct (asize y =? m); reflexivity. }
  assert (R1 : forall x, asize x = ps_ncol A -> ps_mv A x = ps_raw A x).
  { intros x Hx. unfold ps_mv, ps_raw. rewrite Hx, Nat.eqb_refl. cbn [negb]. destruct (ps_mul A); [reflexivity|].
    destruct (ps_matvec A x); reflexivity. }
  assert (R2 : forall x, asize x = ps_nrow A -> ps_mvT A x = ps_rawT A x).
  { intros x Hx. unfold ps_mvT, ps_rawT. rewrite Hx, Nat.eqb_refl. cbn [negb]. destruct (ps_rmul A); [reflexivity|].
    destruct (ps_matvec_transp A x); reflexivity. }
  unfold desc in D. cbn [is_complex] in D. destruct (ps_sym A) eqn:SY.
  - exists s', (nxt s), (nxt s). split; [exact E|]. split; [exact X|].
    pose proof D as (o & Ho & _ & _ & _ & _ & _ & _ & HT & HH). unfold attrT, attrH. rewrite Ho.
    split; [exact HT|]. split; [exact HH|]. split; [auto|]. split; [|discriminate]. intros d x. eapply PR; eassumption.
  - destruct D as (t & D1 & D2 & NE). exists s', (nxt s), t. split; [exact E|]. split; [exact X|].
    pose proof D1 as (o & Ho & _ & _ & _ & _ & _ & _ & HT & HH). unfold attrT, attrH. rewrite Ho.
    split; [exact HT|]. split; [exact HH|]. split; [discriminate|]. split; [intros d x; eapply PR; eassumption|].
    intros _. pose proof D2 as (o2 & Ho2 & _ & _ & _ & _ & _ & _ & HT2 & _). rewrite Ho2. split; [exact HT2|].
    intros d x. eapply PR; eassumption.
Qed.

(** The flag: the attribute [issym] if the matrix has it, else the method [isSymmetric()]. *)
Theorem C95_pysparse_flag : forall (A : psmat) (s : st), wfst s ->
  exists s' a o, pysparse_op A s = (s', Ok a) /\ objs s' a = Some o /\
    (forall b, ps_issym A = Some b -> o_sym o = b) /\ (ps_issym A = None -> o_sym o = ps_isSymmetric A).
Proof.
  intros A s W. unfold pysparse_op, user_op. cbn [option_map].
  destruct (new_linop_desc s (ps_ncol A) (ps_nrow A) (CUser (ps_mv A)) (Some (CUser (ps_mvT A))) None
    (ps_sym A) false DFloat W) as (s' & E & X & W' & L & D & _).
  assert (G : exists o, objs s' (nxt s) = Some o /\ o_sym o = ps_sym A).
  { unfold desc in D. cbn [is_complex] in D. destruct (ps_sym A).
    - destruct D as (o & Ho & _ & _ & H3 & _). exists o. auto.
    - destruct D as (t & (o & Ho & _ & _ & H3 & _) & _). exists o. auto. }
  destruct G as (o & Ho & G). exists s', (nxt s), o. split; [exact E|]. split; [exact Ho|].
  unfold ps_sym in G. split; [intros b Eb; rewrite Eb in G | intros En; rewrite En in G]; exact G.
Qed.

(** [rows] is the matrix of the object [A], which supports A*x and y*A *)
Record ps_is (A : psmat) (rows : list (list F)) : Prop := mkpsis {
  pi_ok : matok (ps_nrow A) (ps_ncol A) rows;
  pi_real : entries_real rows;
  pi_mul : exists g, ps_mul A = Some g /\ ufun g (ps_ncol A) (mat_vec rows);
  pi_rmul : exists g, ps_rmul A = Some g /\ ufun g (ps_nrow A) (mat_vec (mat_T (ps_ncol A) rows));
  pi_sym : ps_sym A = true -> ps_nrow A = ps_ncol A /\ mat_T (ps_ncol A) rows = rows
}.
Lemma real_vconj : forall rows : list (list F), entries_real rows -> map vconj rows = rows.
Proof.
  intros rows H. rewrite <- (map_id rows) at 2. apply map_ext_in. intros r Hr. exact (H r Hr).
Qed.
Theorem C95_pysparse : forall (A : psmat) rows (s : st), wfst s -> ps_is A rows ->
  exists s' a t, pysparse_op A s = (s', Ok a) /\ ext s s' /\ attrT s' a = Some t /\ attrH s' a = Some t /\
    yields s' a (ps_ncol A) (ps_nrow A) DFloat (mat_vec rows) /\
    yields s' t (ps_nrow A) (ps_ncol A) DFloat (mat_vec (mat_T (ps_ncol A) rows)) /\
    GoodD s' a (ps_ncol A) (ps_nrow A) DFloat (mat_vec rows).
Proof.
  intros A rows s W [OK RE (g & Hg & Ug) (gT & HgT & UgT) SY].
  assert (B : builds (pysparse_op A) s (ps_ncol A) (ps_nrow A) DFloat (mat_vec rows)).
  { unfold pysparse_op.
    apply (user_builds FOK s _ _ _ _ _ _ _ _ _ (mat_vec (mat_T (ps_ncol A) rows)) (mat_vec (mat_T (ps_ncol A) rows)) W).
    - pose proof (mat_lin FOK _ _ _ OK) as L1. pose proof (mat_T_ok (ps_nrow A) (ps_ncol A) rows (proj1 OK)) as OT.
      pose proof (mat_lin FOK _ _ _ OT) as L2.
      constructor; auto; try discriminate.
      + apply (tr_mat FOK). exact OK.
      + pose proof (ad_mat FOK _ _ _ OK) as AD. rewrite (real_vconj rows RE) in AD. exact AD.
      + intros _. apply (mat_real FOK). exact RE.
      + intros x Wx Sx. unfold ps_mv. unfold asize in Sx |- *. rewrite Sx, Nat.eqb_refl. cbn [negb]. rewrite Hg. now apply Ug.
      + intros h E. injection E as <-. intros x Wx Sx. unfold ps_mvT. unfold asize in Sx |- *. rewrite Sx, Nat.eqb_refl. cbn [negb]. rewrite HgT. now apply UgT.
      + intro S. destruct (SY S) as [E1 E2]. split; [congruence|].
        pose proof (tr_mat FOK _ _ _ OK) as TR. rewrite E1, E2 in TR. exact TR.
    - unfold complete. cbn. apply orb_true_r. }
  destruct (C95_pysparse_products A s W) as (s' & a & t & E & X & T & H & _).
  destruct B as (s2 & a2 & E2 & _ & W2 & G). rewrite E in E2. injection E2 as <- <-.
  exists s', a, t. split; [exact E|]. split; [exact X|]. split; [exact T|]. split; [exact H|].
  split; [now apply yields_good|]. split; [|exact G].
  destruct (Good_T _ _ _ _ _ (proj1 G)) as (t' & h & Wt & Gt & Tr).
  assert (t' = t) by (destruct Wt as (o & Ho & Ht); unfold attrT in T; rewrite Ho in T; congruence). subst t'.
  assert (GD : dt_of s' t DFloat) by (apply Dts_dt; eapply Dts_w; [apply G|exact Wt]).
  apply yields_den; [|exact GD].
  pose proof (Good_den _ _ _ _ _ Gt) as D. pose proof (denotes_lin _ _ _ _ _ D) as LD.
  eapply denotes_ext; [|exact D]. intros y Hy.
  apply (transpose_unique FOK (ps_ncol A) (ps_nrow A) (mat_vec rows)); [apply LD| |exact Tr|apply (tr_mat FOK); exact OK|exact Hy].
  apply (mat_lin FOK), mat_T_ok, OK.
Qed.

(** ** Cholesky *)
Theorem C95_cholesky_errors : forall m n (fac : res (arr -> res arr)) herm dt (s : st),
  (m <> n -> cholesky_op m n fac herm dt s = (s, Err ValueError)) /\
  (forall e, fac = Err e -> cholesky_op n n fac herm dt s = (s, Err e)).
Proof.
  intros m n fac herm dt s. unfold cholesky_op. split.
  - intro H. apply Nat.eqb_neq in H. rewrite H. reflexivity.
  - intros e ->. rewrite Nat.eqb_refl. reflexivity.
Qed.

(** The right inverse of a symmetric matrix is linear, symmetric and a left inverse. *)
Lemma sym_inverse : forall n (f g : map1), linmap n n f -> is_transpose n n f f ->
  (forall x, length x = n -> length (g x) = n /\ f (g x) = x) ->
  linmap n n g /\ is_transpose n n g g /\ forall x, length x = n -> g (f x) = x.
Proof.
  intros n f g L S G.
  assert (INJ : forall x y, length x = n -> length y = n -> f x = f y -> x = y).
  { intros x y Hx Hy E. apply (dot_ext FOK n); auto. intros w Hw. destruct (G w Hw) as [Lw Ew].
    rewrite <- Ew, (dot_comm FOK), (dot_comm FOK _ y). rewrite (S (g w) x), (S (g w) y) by auto. now rewrite E. }
  split; [|split].
  - constructor.
    + intros x Hx. now apply G.
    + intros x y Hx Hy. destruct (G x Hx), (G y Hy).
      assert (Lxy : length (vadd x y) = n) by (rewrite vadd_length; congruence).
      assert (Lgg : length (vadd (g x) (g y)) = n) by (rewrite vadd_length; congruence).
      destruct (G _ Lxy). apply INJ; auto. rewrite (lin_add n n f L) by auto. congruence.
    + intros c x Hx. destruct (G x Hx).
      assert (Lcx : length (vscale c x) = n) by (rewrite vscale_length; auto).
      destruct (G _ Lcx). apply INJ; auto; [rewrite vscale_length; auto|]. rewrite (lin_scale n n f L) by auto. congruence.
  - intros x y Hx Hy. destruct (G x Hx) as [L1 E1], (G y Hy) as [L2 E2].
    rewrite <- E2 at 1. rewrite (dot_comm FOK). rewrite (S (g y) (g x)) by auto. rewrite E1. apply (dot_comm FOK).
  - intros x Hx. assert (Lf : length (f x) = n) by (apply L; exact Hx). destruct (G _ Lf). apply INJ; auto.
Qed.
(** [g] solves systems with the matrix [rows] *)
Definition solves (n : nat) (rows : list (list F)) (g : arr -> res arr) : Prop :=
  forall x, awf x -> asize x = n -> exists y, g x = Ok y /\ asize y = n /\ mat_vec rows (adata y) = adata x.

(** For a real symmetric matrix for which the factor solves systems, the operator is the inverse. *)
Theorem C95_cholesky : forall n rows g (s : st), wfst s -> matok n n rows -> entries_real rows -> mat_T n rows = rows ->
  solves n rows g ->
  exists s' a f, cholesky_op n n (Ok g) false DFloat s = (s', Ok a) /\ ext s s' /\
    attrT s' a = Some a /\ attrH s' a = Some a /\ yields s' a n n DFloat f /\ GoodD s' a n n DFloat f /\
    (forall x, length x = n -> length (f x) = n /\ mat_vec rows (f x) = x /\ f (mat_vec rows x) = x) /\
    is_transpose n n f f /\ real_map n f.
Proof.
  intros n rows g s W OK RE SY SV.
  set (f := fun x : list F => match g (mkarr DComplex x) with Ok y => adata y | Err _ => x end).
  assert (Gf : forall x, length x = n -> length (f x) = n /\ mat_vec rows (f x) = x).
  { intros x Hx. unfold f. destruct (SV (mkarr DComplex x)) as (y & -> & H); [discriminate|exact Hx|exact H]. }
  pose proof (mat_lin FOK _ _ _ OK) as LA.
  assert (TR : is_transpose n n (mat_vec rows) (mat_vec rows)) by (pose proof (tr_mat FOK _ _ _ OK) as TR; rewrite SY in TR; exact TR).
  destruct (sym_inverse n (mat_vec rows) f LA TR Gf) as (LF & TF & LI).
  assert (RA : real_map n (mat_vec rows)) by (apply (mat_real FOK); exact RE).
  assert (RF : real_map n f).
  { intros x Hx. assert (Hc : length (vconj x) = n) by (rewrite vconj_length; exact Hx).
    destruct (Gf x Hx) as [L1 E1]. rewrite <- (LI (vconj (f x))) by (rewrite vconj_length; exact L1). f_equal.
    rewrite (RA (f x) L1), E1. reflexivity. }
  assert (UG : ufun g n f).
  { intros x Wx Sx. destruct (SV x Wx Sx) as (y & Ey & Sy & Hy). exists y. split; [exact Ey|].
    rewrite <- (LI (adata y) Sy), Hy. reflexivity. }
  assert (B : builds (cholesky_op n n (Ok g) false DFloat) s n n DFloat f).
  { unfold cholesky_op. rewrite Nat.eqb_refl. cbn [negb].
    change (builds (user_op n n g None None true false DFloat) s n n DFloat f).
    apply (user_builds FOK s n n g None None true false DFloat f f f W); [|reflexivity].
    constructor; auto; try discriminate.
    - apply (real_transpose_adjoint FOK); auto. }
  destruct B as (s' & a & E & X & W' & G). exists s', a, f. split; [exact E|]. split; [exact X|].
  assert (D : attrT s' a = Some a /\ attrH s' a = Some a).
  { unfold cholesky_op in E. rewrite Nat.eqb_refl in E. cbn [negb] in E.
    change (user_op n n g None None true false DFloat s = (s', Ok a)) in E. unfold user_op in E. cbn [option_map] in E.
    destruct (new_linop_desc s n n (CUser g) None None true false DFloat W) as (s2 & E2 & _ & _ & _ & D & _).
    rewrite E in E2. injection E2 as Es Ea. subst s2 a. destruct D as (o & Ho & _ & _ & _ & _ & _ & _ & HT & HH).
    unfold attrT, attrH. rewrite Ho. auto. }
  destruct D as [D1 D2]. split; [exact D1|]. split; [exact D2|]. split; [now apply yields_good|]. split; [exact G|].
  split; [|split; [exact TF|exact RF]]. intros x Hx. destruct (Gf x Hx). auto.
Qed.

(** For a Hermitian matrix (complex dtype) the products are right, but the operator calls itself
    symmetric: .T is the operator and .H its conjugate, which is right only if the matrix is symmetric. *)
Lemma herm_inverse : forall n (f g : map1), linmap n n f -> is_adjoint n n f f ->
  (forall x, length x = n -> length (g x) = n /\ f (g x) = x) ->
  linmap n n g /\ is_adjoint n n g g /\ forall x, length x = n -> g (f x) = x.
Proof.
  intros n f g L S G.
  assert (INJ : forall x y, length x = n -> length y = n -> f x = f y -> x = y).
  { intros x y Hx Hy E. apply (dot_ext FOK n); auto. intros w Hw.
    assert (Hc : length (vconj w) = n) by (rewrite vconj_length; exact Hw). destruct (G _ Hc) as [Lw Ew].
    assert (R : forall z, length z = n -> dot w z = dot (vconj (g (vconj w))) (f z)).
    { intros z Hz. rewrite (S z (g (vconj w))) by auto. rewrite Ew, (vconj_conj FOK). reflexivity. }
    rewrite (R x Hx), (R y Hy). now rewrite E. }
  split; [|split].
  - constructor.
    + intros x Hx. now apply G.
    + intros x y Hx Hy. destruct (G x Hx), (G y Hy).
      assert (Lxy : length (vadd x y) = n) by (rewrite vadd_length; congruence).
      assert (Lgg : length (vadd (g x) (g y)) = n) by (rewrite vadd_length; congruence).
      destruct (G _ Lxy). apply INJ; auto. rewrite (lin_add n n f L) by auto. congruence.
    + intros c x Hx. destruct (G x Hx).
      assert (Lcx : length (vscale c x) = n) by (rewrite vscale_length; auto).
      destruct (G _ Lcx). apply INJ; auto; [rewrite vscale_length; auto|]. rewrite (lin_scale n n f L) by auto. congruence.
  - intros x y Hx Hy. destruct (G x Hx) as [L1 E1], (G y Hy) as [L2 E2].
    rewrite <- E2 at 1. rewrite <- (S (g x) (g y)) by auto. rewrite E1. reflexivity.
  - intros x Hx. assert (Lf : length (f x) = n) by (apply L; exact Hx). destruct (G _ Lf). apply INJ; auto.
Qed.
Theorem C95_cholesky_complex : forall n rows g (s : st), wfst s -> matok n n rows -> mat_T n (map vconj rows) = rows ->
  solves n rows g ->
  exists s' a h f, cholesky_op n n (Ok g) false DComplex s = (s', Ok a) /\ ext s s' /\
    attrT s' a = Some a /\ attrH s' a = Some h /\ yields s' a n n DComplex f /\ yields s' h n n DComplex (conj_map f) /\
    (forall x, length x = n -> length (f x) = n /\ mat_vec rows (f x) = x /\ f (mat_vec rows x) = x) /\
    (is_transpose n n f f <-> is_transpose n n (mat_vec rows) (mat_vec rows)) /\
    (is_adjoint n n f (conj_map f) <-> is_transpose n n (mat_vec rows) (mat_vec rows)).
Proof.
  intros n rows g s W OK SY SV.
  set (f := fun x : list F => match g (mkarr DComplex x) with Ok y => adata y | Err _ => x end).
  assert (Gf : forall x, length x = n -> length (f x) = n /\ mat_vec rows (f x) = x).
  { intros x Hx. unfold f. destruct (SV (mkarr DComplex x)) as (y & -> & H); [discriminate|exact Hx|exact H]. }
  pose proof (mat_lin FOK _ _ _ OK) as LA.
  assert (AD : is_adjoint n n (mat_vec rows) (mat_vec rows)) by (pose proof (ad_mat FOK _ _ _ OK) as AD; rewrite SY in AD; exact AD).
  destruct (herm_inverse n (mat_vec rows) f LA AD Gf) as (LF & AF & LI).
  assert (UG : ufun g n f).
  { intros x Wx Sx. destruct (SV x Wx Sx) as (y & Ey & Sy & Hy). exists y. split; [exact Ey|].
    rewrite <- (LI (adata y) Sy), Hy. reflexivity. }
  destruct (new_linop_desc s n n (CUser g) None None true false DComplex W) as (s' & E & X & W' & _ & D & _).
  cbn in D. destruct D as (q & HN & Hq & NE).
  assert (DN : denotes s' (nxt s) n n f) by (eapply (has_denotes FOK); eauto; [discriminate|now apply cden_user]).
  assert (Dq : denotes s' q n n (conj_map f)).
  { eapply (has_denotes FOK); eauto; [now apply (conj_map_lin FOK)|discriminate|]. eapply cden_conjN; eauto. }
  exists s', (nxt s), q, f. split.
  { unfold cholesky_op. rewrite Nat.eqb_refl. exact E. }
  split; [exact X|]. destruct HN as (o & Ho & _ & _ & _ & _ & Hd & _ & HT & HH). destruct Hq as (o2 & Ho2 & _ & _ & _ & _ & Hd2 & _).
  split; [unfold attrT; rewrite Ho; exact HT|]. split; [unfold attrH; rewrite Ho; exact HH|].
  split; [apply yields_den; [exact DN|exists o; auto]|]. split; [apply yields_den; [exact Dq|exists o2; auto]|].
  split; [intros x Hx; destruct (Gf x Hx); auto|].
  assert (T1 : is_transpose n n f f <-> is_transpose n n (mat_vec rows) (mat_vec rows)).
  { split; intro T; intros x y Hx Hy.
    - assert (Lx : length (mat_vec rows x) = n) by (now apply LA). assert (Ly : length (mat_vec rows y) = n) by (now apply LA).
      pose proof (T (mat_vec rows x) (mat_vec rows y) Lx Ly) as Q. rewrite !LI in Q by auto.
      rewrite <- Q. reflexivity.
    - destruct (Gf x Hx) as [L1 E1], (Gf y Hy) as [L2 E2].
      pose proof (T (f x) (f y) L1 L2) as Q. rewrite E1, E2 in Q. symmetry. exact Q. }
  split; [exact T1|]. rewrite <- T1. split.
  - intro A. apply (adjoint_conj_transpose FOK) in A.
    eapply is_transpose_ext; [| |exact A]; [reflexivity|]. intros y Hy. unfold conj_map. rewrite !(vconj_conj FOK). reflexivity.
  - apply (transpose_conj_adjoint FOK).
Qed.
End W.

(** ** Examples *)
Section ExF.
Context {F : Fld} (FOK : FldOK F).
Add Ring Kring95e : (fk_ring F FOK).
(** [[2,1],[1,1]] and its inverse [[1,-1],[-1,2]] *)
Definition rows2 : list (list F) := [[kadd k1 k1; k1]; [k1; k1]].
Definition inv2 : list (list F) := [[k1; kopp k1]; [kopp k1; kadd k1 k1]].
Lemma real1 : kconj (k1 : F) = k1.
Proof. rewrite <- (fk_ofZ_1 F FOK). apply (fk_ofZ_real F FOK). Qed.
Lemma real2 : kconj (kadd k1 k1 : F) = kadd k1 k1.
Proof. rewrite (fk_conj_add F FOK), real1. reflexivity. Qed.
Example ex_C95_cholesky : matok 2 2 rows2 /\ entries_real rows2 /\ mat_T 2 rows2 = rows2 /\ solves 2 rows2 (np_dot DFloat 2 inv2).
Proof.
  split; [split; [reflexivity|intros r [<-|[<-|[]]]; reflexivity]|].
  split; [intros r [<-|[<-|[]]]; unfold vreal, vconj; cbn; rewrite ?real1, ?real2; reflexivity|].
  split; [reflexivity|].
  intros [dt x] Wx Sx. unfold asize in Sx. cbn in Sx. destruct x as [|a [|b [|c x]]]; try discriminate.
  eexists. split; [reflexivity|]. split; [reflexivity|]. cbn. f_equal; [ring|]. f_equal. ring.
Qed.
(** A Pysparse matrix with these entries, both ways of saying that it is symmetric. *)
Definition psm (sym : option bool) : psmat F :=
  mkpsmat 2 2 sym true (Some (np_dot DFloat 2 rows2)) (Some (np_dot DFloat 2 rows2)) (fun _ => Err TypeError) (fun _ => Err TypeError).
Example ex_C95_pysparse : forall sym, ps_is (psm sym) rows2.
Proof.
  intro sym. destruct ex_C95_cholesky as (OK & RE & SY & _). constructor.
  - exact OK.
  - exact RE.
  - eexists. split; [reflexivity|]. eapply (np_dot_ufun); exact OK.
  - eexists. split; [reflexivity|]. change (ps_ncol (psm sym)) with 2. rewrite SY. eapply np_dot_ufun; exact OK.
  - intros _. split; [reflexivity|exact SY].
Qed.
End ExF.

Section ExC.
(** The Hermitian positive definite matrix [[2, i], [-i, 1]] with inverse [[1, -i], [i, 2]]. *)
Definition rowsH : list (list FQI) := [[qi 2 0; qi 0 1]; [qi 0 (-1); qi 1 0]].
Definition invH : list (list FQI) := [[qi 1 0; qi 0 (-1)]; [qi 0 1; qi 2 0]].
Lemma qc0 : Q2Qc (inject_Z 0) = 0%Qc. Proof. reflexivity. Qed.
Lemma rowsH_ok : matok 2 2 rowsH /\ mat_T 2 (map vconj rowsH) = rowsH /\ solves 2 rowsH (np_dot DComplex 2 invH).
Proof.
  split; [split; [reflexivity|intros r [<-|[<-|[]]]; reflexivity]|].
  split; [unfold rowsH; cbn; unfold qi; repeat (f_equal; try reflexivity; try (apply Qc_is_canon; reflexivity))|].
  intros [dt x] Wx Sx. unfold asize in Sx. cbn in Sx. destruct x as [|[a a'] [|[b b'] [|c x]]]; try discriminate.
  eexists. split; [reflexivity|]. split; [reflexivity|]. cbn.
  assert (P1 : Q2Qc (inject_Z 1) = 1%Qc) by reflexivity.
  assert (PM : Q2Qc (inject_Z (-1)) = (- (1))%Qc) by (apply Qc_is_canon; reflexivity).
  assert (P2 : Q2Qc (inject_Z 2) = (1 + 1)%Qc) by (apply Qc_is_canon; reflexivity).
  unfold qi. f_equal; [|f_equal]; unfold qi; cbn; f_equal; rewrite ?P1, ?PM, ?P2, ?qc0; ring.
Qed.
Theorem C95_cholesky_hermitian_refuted : exists (rows : list (list FQI)) g (s s' : st FQI) a f,
  wfst s /\ matok 2 2 rows /\ mat_T 2 (map vconj rows) = rows /\ solves 2 rows g /\
  cholesky_op 2 2 (Ok g) false DComplex s = (s', Ok a) /\ attrT s' a = Some a /\ yields s' a 2 2 DComplex f /\
  ~ is_transpose 2 2 f f.
Proof.
  destruct rowsH_ok as (OK & SY & SV).
  assert (W : wfst (empty_st : st FQI)) by (repeat split; intros; reflexivity).
  destruct (C95_cholesky_complex FQI_OK 2 rowsH _ empty_st W OK SY SV) as (s' & a & h & f & E & _ & T & _ & Y & _ & _ & I & _).
  exists rowsH, (np_dot DComplex 2 invH), empty_st, s', a, f. repeat (split; [assumption|]).
  rewrite I. intro X. specialize (X [qi 1 0; qi 0 0] [qi 0 0; qi 1 0] eq_refl eq_refl).
  apply (f_equal snd) in X. apply (f_equal (fun q : Qc => Qnum q)) in X. vm_compute in X. discriminate.
Qed.
End ExC.

Print Assumptions C95_pysparse_products.
Print Assumptions C95_pysparse_flag.
Print Assumptions C95_pysparse.
Print Assumptions C95_cholesky_errors.
Print Assumptions C95_cholesky.
Print Assumptions C95_cholesky_complex.
Print Assumptions C95_cholesky_hermitian_refuted.
