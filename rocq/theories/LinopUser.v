(** * Operators built directly from user functions, arrays and index lists:
    LinearOperator, DiagonalOperator, ReducedLinearOperator, CoordLinearOperator,
    linop_from_ndarray (pykrylov/linop/linop.py). *)
From Coq Require Import List ZArith Lia Bool Ring.
From Verif Require Import Base Field Vec LinopModel LinopFrame LinopGood LinopInit LinopDep LinopAlg
  LinopOps LinopExtra.
Import ListNotations.

Section User.
Context {F : Fld} (FOK : FldOK F).
Add Ring Kring4 : (fk_ring F FOK).
Notation st := (st F). Notation obj := (obj F). Notation M := (M F). Notation arr := (arr F).
Notation map1 := (list F -> list F).

(** a user function that computes [f] on arrays of [n] entries (its dtype is unconstrained) *)
Definition ufun (g : arr -> res arr) (n : nat) (f : map1) : Prop :=
  forall x, awf x -> asize x = n -> exists y, g x = Ok y /\ adata y = f (adata x).
Lemma cden_user : forall (s : st) g n f, ufun g n f -> cden s (CUser g) n f.
Proof.
  intros s g n f H. exists 0. intros x Hx Hl. destruct (H x Hx Hl) as (y & Hy & Hd).
  exists s, y. cbn [call]. unfold lift. now rewrite Hy.
Qed.

(** honest arguments of LinearOperator(...) *)
Record uhonest (n m : nat) (g : arr -> res arr) (gT gH : option (arr -> res arr)) (sym herm : bool)
  (dt : dtype) (f fT fH : map1) : Prop := mkuhonest {
  uh_f : linmap n m f;
  uh_tr : is_transpose n m f fT; uh_fT : linmap m n fT;
  uh_ad : is_adjoint n m f fH; uh_fH : linmap m n fH;
  uh_real : is_complex dt = false -> real_map n f;
  uh_g : ufun g n f;
  uh_gT : forall h, gT = Some h -> ufun h m fT;
  uh_gH : forall h, gH = Some h -> ufun h m fH;
  uh_sym : sym = true -> n = m /\ is_transpose n n f f;
  uh_herm : herm = true -> n = m /\ is_adjoint n n f f
}.
Definition user_op (n m : nat) (g : arr -> res arr) (gT gH : option (arr -> res arr)) (sym herm : bool)
  (dt : dtype) : M addr :=
  new_linop n m (CUser g) (option_map (fun h => CUser h) gT) (option_map (fun h => CUser h) gH) sym herm dt.

Lemma uhonest_honest : forall (s : st) n m g gT gH sym herm dt f fT fH,
  uhonest n m g gT gH sym herm dt f fT fH ->
  honest s n m (CUser g) (option_map (fun h => CUser h) gT) (option_map (fun h => CUser h) gH)
    sym herm dt f fT fH.
Proof.
  intros s n m g gT gH sym herm dt f fT fH []. constructor; auto.
  - now apply cden_user.
  - intros ct E. destruct gT; inversion E; subst. apply cden_user; auto.
  - intros ct E. destruct gH; inversion E; subst. apply cden_user; auto.
Qed.

Lemma user_builds : forall (s : st) n m g gT gH sym herm dt f fT fH, wfst s ->
  uhonest n m g gT gH sym herm dt f fT fH ->
  @complete F sym herm dt (option_map (fun h => CUser h) gT) (option_map (fun h => CUser h) gH) = true ->
  builds (user_op n m g gT gH sym herm dt) s n m dt f.
Proof.
  intros s n m g gT gH sym herm dt f fT fH W U C. unfold user_op.
  eapply (new_linop_builds FOK); auto.
  - exact I.
  - intros ct E. destruct gT; inversion E; subst. exact I.
  - intros ct E. destruct gH; inversion E; subst. exact I.
  - intros s' X _. apply uhonest_honest. exact U.
Qed.

(** ** one-sided operators: the missing H (or T) is inferred *)
Lemma adjoint_unique : forall n m (f g g' : map1),
  (forall y, length y = m -> length (g y) = n) -> (forall y, length y = m -> length (g' y) = n) ->
  is_adjoint n m f g -> is_adjoint n m f g' -> forall y, length y = m -> g y = g' y.
Proof.
  intros n m f g g' L L' A A' y Hy.
  assert (E := transpose_unique FOK n m f (conj_map g) (conj_map g')).
  rewrite <- (vconj_conj FOK (g y)), <- (vconj_conj FOK (g' y)). f_equal.
  specialize (E). unfold conj_map in E. rewrite <- (vconj_conj FOK y). apply E.
  - intros z Hz. rewrite vconj_length. apply L. now rewrite vconj_length.
  - intros z Hz. rewrite vconj_length. apply L'. now rewrite vconj_length.
  - now apply (adjoint_conj_transpose FOK).
  - now apply (adjoint_conj_transpose FOK).
  - now rewrite vconj_length.
Qed.

Lemma sided : forall (s : st) n m g gT gH dt f fT fH, wfst s ->
  uhonest n m g gT gH false false dt f fT fH -> (gT <> None \/ gH <> None) ->
  exists s' a t h, user_op n m g gT gH false false dt s = (s', Ok a) /\ wtgt s' WT a t /\ wtgt s' WH a h /\ denotes s' a n m f /\ denotes s' t m n fT /\ denotes s' h m n fH.
Proof.
  intros s n m g gT gH dt f fT fH W U NN. unfold user_op.
  destruct (new_linop_desc s n m (CUser g) (option_map (fun h => CUser h) gT)
      (option_map (fun h => CUser h) gH) false false dt W) as (s' & E & X & W' & L & D & _).
  exists s', (nxt s). destruct U as [U1 U2 U3 U4 U5 U6 U7 U8 U9 U10 U11].
  assert (RT : is_complex dt = false -> real_map m fT)
    by (intros C; eapply (real_transpose_real FOK); eauto; apply U3).
  assert (ET : forall y, length y = m -> conj_map fT y = fH y).
  { apply (adjoint_unique n m f); auto.
    - intros y Hy. unfold conj_map. rewrite vconj_length. apply U3. now rewrite vconj_length.
    - apply U5.
    - now apply (transpose_conj_adjoint FOK). }
  assert (EH : forall y, length y = m -> conj_map fH y = fT y).
  { intros y Hy. unfold conj_map. rewrite <- ET by (now rewrite vconj_length). unfold conj_map.
    now rewrite !(vconj_conj FOK). }
  assert (ER : is_complex dt = false -> forall y, length y = m -> fT y = fH y).
  { intros C y Hy. rewrite <- ET by auto. symmetry. eapply (conj_map_real FOK); eauto. }
  assert (Cg := cden_user s' _ _ _ U7).
  unfold desc in D. destruct (is_complex dt) eqn:C, gT as [hT|], gH as [hH|]; cbn [option_map] in D;
    try (destruct NN; congruence);
    try (assert (CT := cden_user s' _ _ _ (U8 _ eq_refl)));
    try (assert (CH := cden_user s' _ _ _ (U9 _ eq_refl))).
  - destruct D as (t & h & q & HN & Ht & Hh & Hq & N1 & N2). exists t, h. split; auto.
    split; [|split]; [destruct HN as (o & ? & ?); exists o; intuition..|].
    split; [|split]; eapply (has_denotes FOK); eauto; intro; congruence.
  - destruct D as (t & h & q & HN & Ht & Hh & Hq & N1 & N2). exists t, h. split; auto.
    assert (Dt : denotes s' t m n fT) by (eapply (has_denotes FOK); eauto; intro; congruence).
    split; [|split]; [destruct HN as (o & ? & ?); exists o; intuition..|].
    split; [|split]; auto; eapply (has_denotes FOK); eauto; try (intro; congruence).
    destruct HN as (o & Ho & _ & _ & _ & _ & _ & _ & HT & _).
    eapply cden_ext; [exact ET|eapply cden_conjW; [exact Ho|exact HT|exact Dt]].
  - destruct D as (t & h & q & HN & Ht & Hh & Hq & N1 & N2). exists t, h. split; auto.
    assert (Dt : denotes s' h m n fH) by (eapply (has_denotes FOK); eauto; intro; congruence).
    split; [|split]; [destruct HN as (o & ? & ?); exists o; intuition..|].
    split; [|split]; auto; eapply (has_denotes FOK); eauto; try (intro; congruence).
    destruct HN as (o & Ho & _ & _ & _ & _ & _ & _ & _ & HT).
    eapply cden_ext; [exact EH|eapply cden_conjW; [exact Ho|exact HT|exact Dt]].
  - destruct D as (t & h & HN & Ht & Hh & N1 & N2). exists t, h. split; auto.
    split; [|split]; [destruct HN as (o & ? & ?); exists o; intuition..|].
    split; [|split]; eapply (has_denotes FOK); eauto.
    intros _ y Hy. rewrite <- !ER by (rewrite ?vconj_length; auto). now apply RT.
  - destruct D as (t & HN & Ht & N1). exists t, t. split; auto.
    split; [|split]; [destruct HN as (o & ? & ?); exists o; intuition..|].
    split; [|split]; eauto using has_denotes.
    eapply denotes_ext; [apply ER; auto|eauto using has_denotes].
  - destruct D as (t & HN & Ht & N1). exists t, t. split; auto.
    assert (Dt : denotes s' t m n fH).
    { eapply (has_denotes FOK); eauto.
      intros _ y Hy. rewrite <- !ER by (rewrite ?vconj_length; auto). now apply RT. }
    split; [|split]; [destruct HN as (o & ? & ?); exists o; intuition..|].
    split; [|split]; eauto using has_denotes.
    eapply denotes_ext; [|exact Dt]. intros; symmetry; now apply ER.
Qed.
End User.
