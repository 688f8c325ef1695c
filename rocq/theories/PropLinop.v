(** * Properties C01-C19: operators (pykrylov/linop/linop.py).

    Vocabulary used in the statements:
    - [yields s a n m dt f]: in every heap reached later from [s], for every array x of n entries,
      a * x succeeds and returns  f x  (n -> m entries) with dtype result_type(dt, x.dtype);
    - [sem], [transposeOf], [adjointOf], [iter] (LinopExpr.v): the mathematical value of a formula;
    - [wfst]: no cell is allocated beyond the allocation pointer;
    - [GoodD s a n m dt f] (LinopOps.v): a, and everything reachable through .T and .H, acts as f,
      its transpose and its adjoint; established by every constructor below. *)
From Coq Require Import List ZArith Lia Bool Ring.
From Verif Require Import Base Field Vec LinopModel LinopFrame LinopGood LinopInit LinopDep LinopAlg
  LinopOps LinopExpr LinopPtr LinopExtra LinopUser LinopBase LinopMat LinopMisc LinopAlias Cplx.
Import ListNotations.

Section P.
Context {F : Fld} (FOK : FldOK F).
Notation st := (st F). Notation obj := (obj F). Notation M := (M F). Notation arr := (arr F).
Notation map1 := (list F -> list F).

Definition yields (s : st) (a : addr) (n m : nat) (dt : dtype) (f : map1) : Prop :=
  (exists o, objs s a = Some o /\ o_nargin o = n /\ o_nargout o = m /\ o_dtype o = dt) /\
  (forall x, length x = n -> length (f x) = m) /\
  exists d, forall d' s2 x, d <= d' -> ext s s2 -> awf x -> asize x = n ->
    exists s3, apply d' a x s2 = (s3, Ok (mkarr (result_type dt (adt x)) (f (adata x)))).

Lemma yields_den : forall (s : st) a n m dt f, denotes s a n m f -> dt_of s a dt -> yields s a n m dt f.
Proof.
  intros s a n m dt f D (o' & Ho' & Hdt). pose proof D as (o & d & Ho & Hn & Hm & HL & HR & H).
  rewrite Ho in Ho'; injection Ho' as <-.
  split; [exists o; auto|]. split; [apply HL|]. exists d.
  intros d' s2 x Hd X Hx Hs. destruct (H x Hx Hs) as (s1 & Ha).
  destruct (mono_apply d d' a x Hd _ _ _ _ X Ha eq_refl) as (s3 & H3 & _).
  rewrite Hdt in H3. eauto.
Qed.
Lemma yields_good : forall (s : st) a n m dt f, GoodD s a n m dt f -> yields s a n m dt f.
Proof.
  intros s a n m dt f [G [D _]]. apply yields_den; [now apply Good_den|now apply Dts_dt].
Qed.

(** ** C01-C03, C07, C08, C10, C12, C13 for every expression *)
Theorem C01_formula : forall e env denv (s : st) n m dt f,
  wfst s -> ewf e -> envok s env denv -> sem denv e = Ok (n, m, dt, f) ->
  exists s' a, eval env e s = (s', Ok a) /\ yields s' a n m dt f.
Proof.
  intros e env denv s n m dt f W We En S. assert (A := eval_agrees FOK e env denv s W We En).
  rewrite S in A. destruct A as (s' & a & E & X & W' & G). eauto using yields_good.
Qed.
Theorem C02_transpose : forall e env denv (s : st) n m dt f,
  wfst s -> ewf e -> envok s env denv -> sem denv e = Ok (n, m, dt, f) ->
  exists s' a t g, eval env e s = (s', Ok a) /\ attrT s' a = Some t /\
    yields s' a n m dt f /\ yields s' t m n dt g /\
    forall x y, length x = n -> length y = m -> dot y (f x) = dot (g y) x.
Proof.
  intros e env denv s n m dt f W We En S. assert (A := eval_agrees FOK e env denv s W We En).
  rewrite S in A. destruct A as (s' & a & E & X & W' & G).
  destruct (Good_T _ _ _ _ _ (proj1 G)) as (t & g & Wt & Gt & Tr).
  exists s', a, t, g. split; [exact E|]. split; [destruct Wt as (o & Ho & Ht); unfold attrT; now rewrite Ho|].
  split; [now apply yields_good|]. split; [|exact Tr].
  apply yields_den; [now apply Good_den|]. apply Dts_dt. eapply Dts_w; [apply G|exact Wt].
Qed.
Theorem C03_adjoint : forall e env denv (s : st) n m dt f,
  wfst s -> ewf e -> envok s env denv -> sem denv e = Ok (n, m, dt, f) ->
  exists s' a h g, eval env e s = (s', Ok a) /\ attrH s' a = Some h /\
    yields s' a n m dt f /\ yields s' h m n dt g /\
    forall x y, length x = n -> length y = m -> dot (vconj y) (f x) = dot (vconj (g y)) x.
Proof.
  intros e env denv s n m dt f W We En S. assert (A := eval_agrees FOK e env denv s W We En).
  rewrite S in A. destruct A as (s' & a & E & X & W' & G).
  destruct (Good_H _ _ _ _ _ (proj1 G)) as (t & g & Wt & Gt & Tr).
  exists s', a, t, g. split; [exact E|]. split; [destruct Wt as (o & Ho & Ht); unfold attrH; now rewrite Ho|].
  split; [now apply yields_good|]. split; [|exact Tr].
  apply yields_den; [now apply Good_den|]. apply Dts_dt. eapply Dts_w; [apply G|exact Wt].
Qed.
Theorem C03_inferred : forall (s : st) n m g gT gH dt f fT fH, wfst s ->
  uhonest n m g gT gH false false dt f fT fH -> (gT <> None \/ gH <> None) ->
  exists s' a t h, user_op n m g gT gH false false dt s = (s', Ok a) /\
    attrT s' a = Some t /\ attrH s' a = Some h /\
    denotes s' a n m f /\ denotes s' t m n fT /\ denotes s' h m n fH.
Proof.
  intros s n m g gT gH dt f fT fH W U N. destruct (sided FOK s n m g gT gH dt f fT fH W U N)
    as (s' & a & t & h & E & (o & Ho & Ht) & (o' & Ho' & Hh) & D).
  exists s', a, t, h. unfold attrT, attrH. rewrite Ho. rewrite Ho in Ho'; injection Ho' as <-. auto.
Qed.
(** base operators given by honest user functions satisfy the hypothesis of C01-C03 *)
Theorem C01_base : forall (s : st) n m g gT gH sym herm dt f fT fH, wfst s ->
  uhonest n m g gT gH sym herm dt f fT fH ->
  @complete F sym herm dt (option_map (fun h => CUser h) gT) (option_map (fun h => CUser h) gH) = true ->
  exists s' a, user_op n m g gT gH sym herm dt s = (s', Ok a) /\ wfst s' /\ GoodD s' a n m dt f /\
    (forall b n' m' dt' f', GoodD s b n' m' dt' f' -> GoodD s' b n' m' dt' f').
Proof.
  intros s n m g gT gH sym herm dt f fT fH W U C.
  destruct (user_builds FOK s n m g gT gH sym herm dt f fT fH W U C) as (s' & a & E & X & W' & G).
  exists s', a. split; auto. split; auto. split; auto. intros. eapply GoodD_mono; eauto.
Qed.

(** ** C04-C06 *)
Theorem C04_TT : forall (s : st) n m c cT cH sym herm dt, wfst s ->
  exists s' a, new_linop n m c cT cH sym herm dt s = (s', Ok a) /\
    match attrT s' a with
    | None => sym = false /\ herm = false /\ cT = None /\ cH = None
    | Some t => attrT s' t =
        if is_complex dt && negb sym && negb herm && negb (isSome cT) && isSome cH
        then None else Some a
    end.
Proof. exact ptr_TT. Qed.
Theorem C04_documented_refuted : exists (s : st) n m c cT cH sym herm dt s' a t, wfst s /\
  new_linop n m c cT cH sym herm dt s = (s', Ok a) /\ attrT s' a = Some t /\ attrT s' t = None.
Proof.
  exists empty_st, 1, 1, CIdent, None, (Some CIdent), false, false, DComplex.
  destruct (@ptr_TT F empty_st 1 1 CIdent None (Some CIdent) false false DComplex) as (s' & a & E & H).
  { repeat split; auto. }
  exists s', a. destruct (attrT s' a) as [t|] eqn:Et; cbn in H.
  - exists t. split; [repeat split; auto|]. auto.
  - destruct H as (_ & _ & _ & D). discriminate.
Qed.
Theorem C05_HH : forall (s : st) n m c cT cH sym herm dt, wfst s ->
  exists s' a, new_linop n m c cT cH sym herm dt s = (s', Ok a) /\
    match attrH s' a with
    | None => sym = false /\ herm = false /\ cT = None /\ cH = None
    | Some h => attrH s' h =
        if is_complex dt && negb sym && negb herm && isSome cT && negb (isSome cH)
        then None else Some a
    end.
Proof. exact ptr_HH. Qed.
Theorem C05_documented_refuted : exists (s : st) n m c cT cH sym herm dt s' a t, wfst s /\
  new_linop n m c cT cH sym herm dt s = (s', Ok a) /\ attrH s' a = Some t /\ attrH s' t = None.
Proof.
  exists empty_st, 1, 1, CIdent, (Some CIdent), None, false, false, DComplex.
  destruct (@ptr_HH F empty_st 1 1 CIdent (Some CIdent) None false false DComplex) as (s' & a & E & H).
  { repeat split; auto. }
  exists s', a. destruct (attrH s' a) as [t|] eqn:Et; cbn in H.
  - exists t. split; [repeat split; auto|]. auto.
  - destruct H as (_ & _ & D & _). discriminate.
Qed.
Theorem C06_flags : forall (s : st) n m c cT cH sym herm dt, wfst s ->
  exists s' a, new_linop n m c cT cH sym herm dt s = (s', Ok a) /\
    (sym = true -> attrT s' a = Some a) /\
    (herm = true -> is_complex dt && sym = false -> attrH s' a = Some a) /\
    (herm = true -> is_complex dt && sym = true -> exists h, attrH s' a = Some h /\ h <> a).
Proof. exact ptr_flags. Qed.

(** ** C07 *)
Theorem C07_add_sub : forall (sub : bool) (s : st) a b oa ob, wfst s -> objs s a = Some oa -> objs s b = Some ob ->
  let op := if sub then sub_linop else add_linop in
  (o_nargin oa = o_nargin ob /\ o_nargout oa = o_nargout ob /\ exists s' c, op a b s = (s', Ok c)) \/
  ((o_nargin oa <> o_nargin ob \/ o_nargout oa <> o_nargout ob) /\ op a b s = (s, Err ShapeError)).
Proof. intros [] s a b oa ob W Ha Hb; apply addsub_result; auto. Qed.
Theorem C07_mul : forall (s : st) a b oa ob, wfst s -> objs s a = Some oa -> objs s b = Some ob ->
  (o_nargin oa = o_nargout ob /\ exists s' c, mul_linop a b s = (s', Ok c)) \/
  (o_nargin oa <> o_nargout ob /\ mul_linop a b s = (s, Err ShapeError)).
Proof. exact mul_result. Qed.
Theorem C07_vector : forall d a (x : arr) (s : st) o, objs s a = Some o ->
  (asize x <> o_nargin o -> exists s', apply (S d) a x s = (s', Err ValueError)) /\
  (forall g y, o_mv o = CUser g -> asize x = o_nargin o -> g x = Ok y -> asize y <> o_nargout o ->
     exists s', apply (S d) a x s = (s', Err ValueError)).
Proof.
  intros d a x s o Ho. split; intros; [eapply apply_wrong_in|eapply apply_wrong_out]; eauto.
Qed.
Theorem C07_pow : forall (s : st) a oa k, objs s a = Some oa ->
  ((k < 0)%Z -> pow_linop a k s = (s, Err ValueError)) /\
  ((0 <= k)%Z -> o_nargin oa <> o_nargout oa -> pow_linop a k s = (s, Err ShapeError)).
Proof. intros s a oa k H. destruct (pow_result s a oa k H) as (A & B & _). auto. Qed.
Theorem C07_expressions : forall e env denv (s : st) x,
  wfst s -> ewf e -> envok s env denv -> sem denv e = Err x ->
  exists s', eval env e s = (s', Err x).
Proof.
  intros e env denv s x W We En S. assert (A := eval_agrees FOK e env denv s W We En).
  rewrite S in A. exact A.
Qed.

(** ** C08 *)
Theorem C08_shapes : forall (s : st) a b n m dt f n' m' dt' g c, wfst s -> swf c ->
  GoodD s a n m dt f -> GoodD s b n' m' dt' g ->
  let shaped (call : M addr) i o := exists s' r ob, call s = (s', Ok r) /\ objs s' r = Some ob /\
                              o_nargin ob = i /\ o_nargout ob = o in
  shaped (mul_scalar a c) n m /\ shaped (neg_linop a) n m /\
  shaped (get_opt o_T a) m n /\ shaped (get_opt o_H a) m n /\
  (n = m' -> shaped (mul_linop a b) n' m) /\
  (n = n' -> m = m' -> shaped (add_linop a b) n m /\ shaped (sub_linop a b) n m).
Proof.
  intros s a b n m dt f n' m' dt' g c W Sc Ga Gb shaped.
  assert (Q : forall call i o d h, builds call s i o d h -> shaped call i o).
  { intros call i o d h (s' & r & E & X & W' & G). destruct (GoodD_attr _ _ _ _ _ _ G) as (ob & Ho & Hn & Hm & _).
    exists s', r, ob. auto. }
  assert (En : envok s [a; b] [(n, m, dt, f); (n', m', dt', g)]) by (constructor; [exact Ga|constructor; [exact Gb|constructor]]).
  assert (A := fun e We => eval_agrees FOK e _ _ s W We En).
  split; [eapply Q; apply (mul_scalar_builds FOK); eauto|].
  split; [exact (Q _ _ _ _ _ (A (ENeg (EVar 0)) I))|].
  split; [exact (Q _ _ _ _ _ (A (ET (EVar 0)) I))|].
  split; [exact (Q _ _ _ _ _ (A (EH (EVar 0)) I))|].
  split.
  - intros <-. assert (B := A (EMul (EVar 0) (EVar 1)) (conj I I)). cbn [sem nth_error] in B.
    rewrite Nat.eqb_refl in B. exact (Q _ _ _ _ _ B).
  - intros <- <-. split.
    + assert (B := A (EAdd (EVar 0) (EVar 1)) (conj I I)). cbn [sem nth_error saddsub] in B.
      rewrite !Nat.eqb_refl in B. exact (Q _ _ _ _ _ B).
    + assert (B := A (ESub (EVar 0) (EVar 1)) (conj I I)). cbn [sem nth_error saddsub] in B.
      rewrite !Nat.eqb_refl in B. exact (Q _ _ _ _ _ B).
Qed.

(** ** C09 *)
Theorem C09_own_counter : forall d (s : st) a n m dt f x s' r, GoodD s a n m dt f ->
  apply (S d) a x s = (s', r) -> count s' a = S (count s a).
Proof.
  intros d s a n m dt f x s' r G E. destruct (GoodD_attr _ _ _ _ _ _ G) as (o & Ho & _).
  eapply apply_count; eauto. apply Acy_acc, G.
Qed.
Theorem C09_only_counters : forall d a (x : arr) (s s' : st) r, apply d a x s = (s', r) ->
  arrs s' = arrs s /\ rows s' = rows s /\
  forall b, match objs s b, objs s' b with
            | Some o, Some o' => with_count 0 o = with_count 0 o' /\ o_count o <= o_count o'
            | None, None => True | _, _ => False end.
Proof. intros d a x s s' r E. destruct (frame_apply d a x s s' r E). auto. Qed.
Theorem C09_transpose : forall (s : st) n m g gT gH dt w, wfst s -> w <> WN -> (gT <> None \/ gH <> None) ->
  exists s1 a t, user_op n m g gT gH false false dt s = (s1, Ok a) /\ wtgt s1 w a t /\ t <> a /\
    forall s2 d y s3 r, ext s1 s2 -> apply d t y s2 = (s3, r) -> count s3 a = count s2 a.
Proof. exact user_T_count. Qed.
(** but a complex operator flagged hermitian only has a T whose product is counted on A as well *)
Theorem C09_hermitian_transpose : forall (s : st) n m g gT gH, wfst s ->
  exists s1 a t, user_op n m g gT gH false true DComplex s = (s1, Ok a) /\ wtgt s1 WT a t /\ t <> a /\
    forall s2 d y s3 r, ext s1 s2 -> asize y = n -> apply (S (S d)) t y s2 = (s3, r) ->
      count s3 a = S (count s2 a).
Proof. exact herm_T_count. Qed.
Theorem C09_reset : forall (s : st) a o, objs s a = Some o ->
  exists s', reset_counters a s = (s', Ok tt) /\ count s' a = 0 /\
    (forall b, b <> a -> objs s' b = objs s b) /\
    (exists o', objs s' a = Some o' /\ same o o') /\ arrs s' = arrs s /\ rows s' = rows s.
Proof. exact reset_spec. Qed.
Theorem C09_product : forall (s s' : st) c oc a b x y d, objs s c = Some oc -> o_mv oc = CMul WN a b ->
  Acc (dep s) c -> (exists oa, objs s a = Some oa) -> (exists ob, objs s b = Some ob) ->
  ~ reach s a b -> ~ reach s b a ->
  apply (S (S d)) c x s = (s', Ok y) ->
  count s' c = S (count s c) /\ count s' a = S (count s a) /\ count s' b = S (count s b) /\
  (forall e, e <> c -> ~ reach s a e -> ~ reach s b e -> count s' e = count s e).
Proof. exact mul_apply_count. Qed.

(** ** C10 *)
Theorem C10_dtype : forall d a (x y : arr) (s s' : st) o, objs s a = Some o ->
  apply d a x s = (s', Ok y) ->
  adt y = result_type (o_dtype o) (adt x) /\
  (is_complex (o_dtype o) = false -> is_complex (adt x) = false -> is_complex (adt y) = false) /\
  asize y = o_nargout o /\ asize x = o_nargin o.
Proof.
  intros d a x y s s' o Ho E. destruct (apply_dtype d a x y s s' o Ho E) as (H1 & H2 & H3).
  split; auto. split; auto. intros A B. rewrite H1, result_type_complex, A, B. reflexivity.
Qed.
Theorem C10_algebra : forall (s : st) a b n m dt f n' m' dt' g c, wfst s -> swf c ->
  GoodD s a n m dt f -> GoodD s b n' m' dt' g ->
  let typed (call : M addr) d := exists s' r ob, call s = (s', Ok r) /\ objs s' r = Some ob /\ o_dtype ob = d in
  typed (mul_scalar a c) (result_type dt (sty c)) /\
  (n = m' -> typed (mul_linop a b) (result_type dt dt')) /\
  (n = n' -> m = m' -> typed (add_linop a b) (result_type dt dt') /\ typed (sub_linop a b) (result_type dt dt')).
Proof.
  intros s a b n m dt f n' m' dt' g c W Sc Ga Gb typed.
  assert (Q : forall call i o d h, builds call s i o d h -> typed call d).
  { intros call i o d h (s' & r & E & X & W' & G). destruct (Dts_dt _ _ _ (proj1 (proj2 G))) as (ob & Ho & Hd).
    exists s', r, ob. auto. }
  assert (En : envok s [a; b] [(n, m, dt, f); (n', m', dt', g)]) by (constructor; [exact Ga|constructor; [exact Gb|constructor]]).
  assert (A := fun e We => eval_agrees FOK e _ _ s W We En).
  split; [eapply Q; apply (mul_scalar_builds FOK); eauto|].
  split.
  - intros <-. assert (B := A (EMul (EVar 0) (EVar 1)) (conj I I)). cbn [sem nth_error] in B.
    rewrite Nat.eqb_refl in B. exact (Q _ _ _ _ _ B).
  - intros <- <-. split.
    + assert (B := A (EAdd (EVar 0) (EVar 1)) (conj I I)). cbn [sem nth_error saddsub] in B.
      rewrite !Nat.eqb_refl in B. exact (Q _ _ _ _ _ B).
    + assert (B := A (ESub (EVar 0) (EVar 1)) (conj I I)). cbn [sem nth_error saddsub] in B.
      rewrite !Nat.eqb_refl in B. exact (Q _ _ _ _ _ B).
Qed.

(** ** C11 *)
Theorem C11_flags_sound : forall e env denv (s : st) n m dt f,
  wfst s -> ewf e -> envok s env denv -> sem denv e = Ok (n, m, dt, f) ->
  exists s' a o, eval env e s = (s', Ok a) /\ objs s' a = Some o /\
    (o_sym o = true -> n = m /\ forall x y, length x = n -> length y = n -> dot y (f x) = dot (f y) x) /\
    (o_herm o = true -> n = m /\
       forall x y, length x = n -> length y = n -> dot (vconj y) (f x) = dot (vconj (f y)) x).
Proof.
  intros e env denv s n m dt f W We En S. assert (A := eval_agrees FOK e env denv s W We En).
  rewrite S in A. destruct A as (s' & a & E & X & W' & G).
  destruct (Good_attr _ _ _ _ _ (proj1 G)) as (o & Ho & _ & _ & H1 & H2).
  exists s', a, o. repeat split; auto; try (intros; now apply H1); try (intros; now apply H2).
Qed.
Theorem C11_product_unflagged : forall (s s' : st) a b c, wfst s -> mul_linop a b s = (s', Ok c) ->
  exists o, objs s' c = Some o /\ o_sym o = false /\ o_herm o = false.
Proof. exact mul_flags. Qed.

(** ** C12 *)
Theorem C12_zero : forall (s : st) a n m dt f c, wfst s -> GoodD s a n m dt f -> swf c -> sval c = k0 ->
  exists s' b o, mul_scalar a c s = (s', Ok b) /\ objs s' b = Some o /\ o_pay o = PZero /\
    yields s' b n m (result_type dt (sty c)) (fun _ => vzero m).
Proof.
  intros s a n m dt f c W G Sc Hc.
  destruct (mul_scalar_builds FOK s a n m dt f c W Sc G) as (s' & b & E & X & W' & Gb).
  destruct (mul_zero_pay FOK s s' a c b Hc E) as (o & Ho & Hp).
  exists s', b, o. split; auto. split; auto. split; auto. apply yields_good.
  eapply GoodD_ext; [|exact Gb]. intros x Hx. cbn. rewrite Hc, (vscale_0 FOK), (lin_len n m f); auto.
  apply (denotes_lin s a). now apply Good_den, G.
Qed.
Theorem C12_division : forall (s : st) a n m dt f c, wfst s -> GoodD s a n m dt f -> nwf c ->
  let dz := match c with PyInt z => (z =? 0)%Z | PyFloat x | PyComplex x => keqb x k0 end in
  let inv_c := match c with PyInt z => kinv (kofZ z) | PyFloat x | PyComplex x => kinv x end in
  let ty := match c with PyComplex _ => DComplex | _ => DFloat end in
  if dz then (exists s', div_linop a c s = (s', Err ZeroDivisionError)) /\
             (exists s', truediv_linop a c s = (s', Err ZeroDivisionError))
  else (exists s' b, truediv_linop a c s = (s', Ok b) /\
          yields s' b n m (result_type dt ty) (fun x => vscale inv_c (f x))) /\
       (match c with PyInt _ => True | _ => exists s' b, div_linop a c s = (s', Ok b) /\
          yields s' b n m (result_type dt ty) (fun x => vscale inv_c (f x)) end).
Proof.
  intros s a n m dt f c W G Nc.
  assert (En : envok s [a] [(n, m, dt, f)]) by (constructor; [exact G|constructor]).
  assert (A := eval_agrees FOK (EDiv (EVar 0) c) _ _ s W (conj Nc I) En).
  assert (B := eval_agrees FOK (ETrueDiv (EVar 0) c) _ _ s W (conj Nc I) En).
  cbn [sem nth_error sdiv] in A, B.
  destruct c as [z|x|x]; cbn [recip] in A, B; cbn zeta.
  - destruct (z =? 0)%Z; [split; [exact A|exact B]|]. split; [|exact I].
    destruct B as (s' & b & E & X & W' & Gb). exists s', b. split; [exact E|now apply yields_good].
  - destruct (keqb x k0); [split; [exact A|exact B]|].
    split; [destruct B as (s' & b & E & X & W' & Gb)|destruct A as (s' & b & E & X & W' & Gb)];
      exists s', b; (split; [exact E|now apply yields_good]).
  - destruct (keqb x k0); [split; [exact A|exact B]|].
    split; [destruct B as (s' & b & E & X & W' & Gb)|destruct A as (s' & b & E & X & W' & Gb)];
      exists s', b; (split; [exact E|now apply yields_good]).
Qed.
Theorem C12_classic_int : forall (s : st) a n m dt f k, wfst s -> GoodD s a n m dt f ->
  ((2 <= k)%Z -> exists s' b, div_linop a (PyInt k) s = (s', Ok b) /\ yields s' b n m dt (fun _ => vzero m)) /\
  ((k <= -1)%Z -> exists s' b, div_linop a (PyInt k) s = (s', Ok b) /\
                    yields s' b n m dt (fun x => vscale (kopp k1) (f x))).
Proof.
  intros s a n m dt f k W G. split; intros H.
  - destruct (div_int_ge2 FOK s a n m dt f k W G H) as (s' & b & E & X & W' & Gb). eauto using yields_good.
  - destruct (div_int_neg FOK s a n m dt f k W G H) as (s' & b & E & X & W' & Gb). eauto using yields_good.
Qed.

(** ** C13 *)
Theorem C13_power : forall (s : st) a n dt f k, wfst s -> GoodD s a n n dt f ->
  exists s' b, pow_linop a (Z.of_nat k) s = (s', Ok b) /\
    yields s' b n n (if Nat.eqb k 0 then DFloat else dt) (fun x => Nat.iter k f x) /\ (k = 1 -> b = a).
Proof.
  intros s a n dt f k W G.
  assert (En : envok s [a] [(n, n, dt, f)]) by (constructor; [exact G|constructor]).
  assert (A := eval_agrees FOK (EPow (EVar 0) (Z.of_nat k)) _ _ s W I En).
  cbn [sem nth_error] in A. rewrite Nat.eqb_refl in A. cbn [negb] in A.
  destruct (Z.ltb_spec (Z.of_nat k) 0); [lia|]. rewrite Nat2Z.id in A.
  replace (Z.of_nat k =? 0)%Z with (Nat.eqb k 0) in A
    by (destruct (Nat.eqb_spec k 0), (Z.eqb_spec (Z.of_nat k) 0); auto; lia).
  destruct A as (s' & b & E & X & W' & Gb). exists s', b. split; [exact E|]. split.
  - apply yields_good. eapply GoodD_ext; [|exact Gb]. intros x _.
    clear. induction k; cbn; [auto|now rewrite IHk].
  - intros ->. destruct (GoodD_attr _ _ _ _ _ _ G) as (o & Ho & Hn & Hm & _).
    destruct (pow_result s a o 1 Ho) as (_ & _ & P). specialize (P ltac:(congruence)).
    change (pow_linop a 1 s = (s', Ok b)) in E. rewrite P in E. congruence.
Qed.

(** ** C14 *)
Theorem C14_to_array : forall (s : st) a n m dt f, GoodD s a n m dt f ->
  exists d0, forall d, d0 <= d -> exists s' cols, to_array d a s = (s', Ok cols) /\
    length cols = n /\ (forall c, In c cols -> asize c = m /\ adt c = dt) /\
    (forall x, length x = n -> comb m (map adata cols) x = f x) /\
    count s' a = count s a + n /\
    exists t s2 colsT, attrT s a = Some t /\ to_array d t s = (s2, Ok colsT) /\ length colsT = m /\
      forall i j, i < m -> j < n ->
        nth i (nth j (map adata cols) []) k0 = nth j (nth i (map adata colsT) []) k0.
Proof.
  intros s a n m dt f G. pose proof (Good_den _ _ _ _ _ (proj1 G)) as D.
  destruct (to_array_spec FOK s a n m f D) as (d1 & o & Ho & H1).
  destruct (Good_T _ _ _ _ _ (proj1 G)) as (t & g & Wt & Gt & Tr).
  pose proof (Good_den _ _ _ _ _ Gt) as Dt.
  destruct (to_array_spec FOK s t m n g Dt) as (d2 & ot & Hot & H2).
  destruct (Dts_dt _ _ _ (proj1 (proj2 G))) as (o' & Ho' & Hdt).
  rewrite Ho in Ho'; injection Ho' as <-.
  pose proof (denotes_lin _ _ _ _ _ D) as L. pose proof (denotes_lin _ _ _ _ _ Dt) as Lt.
  exists (S (Nat.max d1 d2)). intros [|d] Hd; [lia|].
  destruct (H1 (S d) ltac:(lia)) as (s' & E). destruct (H2 (S d) ltac:(lia)) as (s2 & E2).
  exists s', (map (fun j => mkarr (o_dtype o) (f (unitv n j))) (seq 0 n)).
  split; [exact E|]. split; [now rewrite map_length, seq_length|].
  split. { intros c Hc. apply in_map_iff in Hc. destruct Hc as (j & <- & _). split; [|exact Hdt].
           unfold asize. cbn [adata]. apply (lin_len _ _ _ L), unitv_length. }
  split. { intros x Hx. rewrite map_map. cbn [adata]. apply (comb_unit FOK); auto. }
  split. { unfold to_array in E. do 2 (erewrite bind_ok in E by (apply getattr_ok; exact Ho)).
           pose proof D as (oD & dD & HoD & HnD & _). rewrite Ho in HoD; injection HoD as <-. rewrite HnD in E.
           apply to_cols_count in E; [now rewrite seq_length in E|apply Acy_acc, G|eauto]. }
  exists t, s2, (map (fun j => mkarr (o_dtype ot) (g (unitv m j))) (seq 0 m)).
  split; [destruct Wt as (o1 & Ho1 & Et); unfold attrT; now rewrite Ho1|].
  split; [exact E2|]. split; [now rewrite map_length, seq_length|].
  intros i j Hi Hj. rewrite !map_map. cbn [adata].
  assert (N : forall k (h : nat -> list F) q, q < k -> nth q (map h (seq 0 k)) [] = h q).
  { intros k h q Hq. rewrite (nth_indep _ [] (h k)) by (rewrite map_length, seq_length; auto).
    rewrite map_nth. now rewrite seq_nth. }
  rewrite !N by auto. apply (nth_unit_T FOK n m f g); auto.
Qed.

(** ** C15 *)
Theorem C15_diagonal : forall (s : st) d, wfst s -> awf d ->
  exists s' a t h, diag_op_list d s = (s', Ok a) /\
    yields s' a (asize d) (asize d) (adt d) (vmul (adata d)) /\
    attrT s' a = Some t /\ t = a /\ attrH s' a = Some h /\
    denotes s' h (asize d) (asize d) (vmul (vconj (adata d))).
Proof.
  intros s d W Wd. destruct (new_arr_ok s d W) as (s1 & E1 & X1 & W1 & Hd).
  destruct (diag_op_builds FOK s1 (narr s) d W1 Hd Wd) as [(s2 & a & E2 & X2 & W2 & G) _].
  destruct (diag_adjoint FOK s2 a d G) as (h & (o & Ho & Hh) & D).
  assert (T : attrT s2 a = Some a).
  { unfold diag_op in E2. assert (E0 : get_arr (narr s) s1 = (s1, Ok d)) by (unfold get_arr; now rewrite Hd).
    rewrite (bind_ok _ _ _ _ _ _ _ E0) in E2.
    destruct (ptr_flags s1 (asize d) (asize d) (CDiag false (narr s)) None (Some (CDiag true (narr s)))
       true (negb (is_complex (adt d))) (adt d) W1) as (s' & b & Eb & Tb & _).
    rewrite (bind_ok _ _ _ _ _ _ _ Eb) in E2. specialize (Tb eq_refl). unfold attrT in Tb.
    destruct (objs s' b) as [ob|] eqn:Hb; [|discriminate].
    erewrite bind_ok in E2 by (unfold modobj; rewrite Hb; reflexivity). injection E2 as <- <-.
    unfold attrT. rewrite get_set_eq. exact Tb. }
  exists s2, a, a, h. split; [unfold diag_op_list; rewrite (bind_ok _ _ _ _ _ _ _ E1); exact E2|].
  split; [now apply yields_good|]. split; auto. split; auto. split; auto. unfold attrH. now rewrite Ho.
Qed.
Theorem C15_abs : forall (kabs : F -> F) (s : st) a o d, wfst s -> objs s a = Some o -> o_pay o = PDiag d ->
  (forall z, kconj (kabs z) = kabs z) ->
  exists s' b, abs_op kabs a s = (s', Ok b) /\
    yields s' b (asize d) (asize d) (if is_complex (adt d) then DFloat else adt d) (vmul (map kabs (adata d))).
Proof.
  intros kabs s a o d W Ho Hp R. destruct (abs_builds FOK kabs s a o d W Ho Hp R) as (s' & b & E & X & W' & G).
  eauto using yields_good.
Qed.
Theorem C15_sqrt : forall (ksqrt : F -> F) kneg (s s1 : st) l a d, wfst s -> arrs s l = Some d -> awf d ->
  diag_op l s = (s1, Ok a) ->
  (forall z, kmul (ksqrt z) (ksqrt z) = z) ->
  (forall z, kconj z = z -> kneg z = false -> kconj (ksqrt z) = ksqrt z) ->
  (is_complex (adt d) = false /\ existsb kneg (adata d) = true ->
     sqrt_op ksqrt kneg a s1 = (s1, Err ValueError)) /\
  (~ (is_complex (adt d) = false /\ existsb kneg (adata d) = true) ->
     exists s' b g, sqrt_op ksqrt kneg a s1 = (s', Ok b) /\
       yields s' b (asize d) (asize d) (result_type (adt d) DFloat) g /\
       forall x, length x = asize d -> g (g x) = vmul (adata d) x).
Proof.
  intros ksqrt kneg s s1 l a d W Hd Wd E Sq R.
  destruct (diag_has s s1 l d a W Hd Wd E) as (o & Ho & _ & _ & Hdt & _ & Hp & _).
  destruct (diag_op_builds FOK s l d W Hd Wd) as [(s1' & a' & E' & _ & W1 & _) _].
  rewrite E in E'. injection E' as <- <-.
  split.
  - intros [C N]. eapply sqrt_fails; eauto.
  - intros N. destruct (sqrt_builds FOK ksqrt kneg s1 a o d W1 Ho Hp Hdt Wd N R) as (s' & b & Eb & X & W' & G).
    exists s', b, (vmul (map ksqrt (adata d))). split; auto. split; [now apply yields_good|].
    intros x Hx. apply (sqrt_twice FOK). auto.
Qed.
Theorem C15_zero_identity : forall (s : st) n m dt, wfst s ->
  (exists s' a t h, zero_op n m dt s = (s', Ok a) /\ attrT s' a = Some t /\ attrH s' a = Some h /\
     yields s' a n m dt (fun _ => vzero m) /\ denotes s' t m n (fun _ => vzero n) /\
     denotes s' h m n (fun _ => vzero n)) /\
  (exists s' a, identity_op n dt s = (s', Ok a) /\ attrT s' a = Some a /\
     yields s' a n n dt (fun x => x)).
Proof.
  intros s n m dt W. split.
  - destruct (zero_op_builds FOK s n m dt W) as (s' & a & E & X & W' & G).
    destruct (Good_T _ _ _ _ _ (proj1 G)) as (t & g & (o & Ho & Et) & Gt & Tr).
    destruct (Good_H _ _ _ _ _ (proj1 G)) as (h & k & (o' & Ho' & Eh) & Gh & Ad).
    pose proof (Good_den _ _ _ _ _ Gt) as Dt. pose proof (Good_den _ _ _ _ _ Gh) as Dh.
    exists s', a, t, h. split; [exact E|]. split; [unfold attrT; now rewrite Ho|].
    split; [unfold attrH; now rewrite Ho'|]. split; [now apply yields_good|]. split.
    + eapply denotes_ext; [|exact Dt]. intros y Hy.
      apply (transpose_unique FOK n m (fun _ => vzero m) g (fun _ => vzero n)) with (y := y); auto.
      * intros z Hz. apply (lin_len _ _ _ (denotes_lin _ _ _ _ _ Dt)); auto.
      * intros; apply vzero_length.
      * apply (tr_zero FOK).
    + eapply denotes_ext; [|exact Dh]. intros y Hy.
      apply (adjoint_unique FOK n m (fun _ => vzero m) k (fun _ => vzero n)) with (y := y); auto.
      * intros z Hz. apply (lin_len _ _ _ (denotes_lin _ _ _ _ _ Dh)); auto.
      * intros; apply vzero_length.
      * apply (ad_zero FOK).
  - destruct (identity_builds FOK s n dt W) as (s' & a & E & X & W' & G).
    destruct (ptr_flags s n n CIdent None None true true dt W) as (s2 & b & E2 & T & _).
    unfold identity_op in E. rewrite E in E2. injection E2 as <- <-.
    exists s', a. split; [exact E|]. split; [auto|now apply yields_good].
Qed.

(** ** C16 *)
Theorem C16_alias : forall (s s1 s2 s3 : st) l d a d', wfst s -> arrs s l = Some d -> awf d ->
  diag_op l s = (s1, Ok a) -> ext s1 s2 ->
  adt d' = adt d -> asize d' = asize d -> awf d' -> set_arr l d' s2 = (s3, Ok tt) ->
  (forall k (x : arr), asize x = asize d -> awf x ->
     exists s4, apply (S k) a x s3 = (s4, Ok (mkarr (result_type (adt d) (adt x)) (vmul (adata d') (adata x))))) /\
  diag_attr a s3 = (s3, Ok d) /\
  (forall kabs, abs_op kabs a s3 =
     diag_op_list (mkarr (if is_complex (adt d) then DFloat else adt d) (map kabs (adata d))) s3) /\
  (forall ksqrt kneg, sqrt_op ksqrt kneg a s3 =
     if negb (is_complex (adt d)) && existsb kneg (adata d) then (s3, Err ValueError)
     else diag_op_list (mkarr (result_type (adt d) DFloat) (map ksqrt (adata d))) s3).
Proof.
  intros s s1 s2 s3 l d a d' W Hd Wd E X Edt Esz Wd' E3.
  destruct (diag_has s s1 l d a W Hd Wd E) as (o & Ho & _).
  destruct (ext_obj _ _ X _ _ Ho) as (o2 & Ho2 & S2).
  unfold set_arr in E3. injection E3 as <-.
  apply (diag_alias FOK s s1 _ l d a W Hd Wd E); auto.
  - exists o, o2. auto.
  - cbn [arrs]. unfold upd. now rewrite Nat.eqb_refl.
Qed.
Theorem C16_list_insulated : forall (s s1 s2 s3 : st) d a l v, wfst s -> awf d ->
  diag_op_list d s = (s1, Ok a) -> l < narr s -> ext s1 s2 -> set_arr l v s2 = (s3, Ok tt) ->
  forall k (x : arr), asize x = asize d -> awf x ->
    exists s4, apply (S k) a x s3 = (s4, Ok (mkarr (result_type (adt d) (adt x)) (vmul (adata d) (adata x)))).
Proof. exact (diag_list_insulated FOK). Qed.

(** ** C17: indices may be negative, counting from the end ([wrap]) *)
Theorem C17_reduced : forall (s : st) a n m dt f ri ci, wfst s -> GoodD s a n m dt f ->
  NoDup (map (wrap m) ri) -> (forall i, In i ri -> - Z.of_nat m <= i < Z.of_nat m)%Z ->
  NoDup (map (wrap n) ci) -> (forall j, In j ci -> - Z.of_nat n <= j < Z.of_nat n)%Z ->
  let sub x := gath (map (wrap m) ri) (f (scat n (map (wrap n) ci) x)) in
  exists s' b t h gT gH, reduced_op a ri ci s = (s', Ok b) /\ attrT s' b = Some t /\ attrH s' b = Some h /\
    yields s' b (length ci) (length ri) dt sub /\
    yields s' t (length ri) (length ci) dt gT /\ is_transpose (length ci) (length ri) sub gT /\
    yields s' h (length ri) (length ci) dt gH /\ is_adjoint (length ci) (length ri) sub gH.
Proof.
  intros s a n m dt f ri ci W G N1 R1 N2 R2 sub.
  destruct (reduced_builds FOK s a n m dt f ri ci W G (conj N1 R1) (conj N2 R2)) as (s' & b & E & X & W' & Gb).
  destruct (Good_T _ _ _ _ _ (proj1 Gb)) as (t & gT & Wt & Gt & Tr).
  destruct (Good_H _ _ _ _ _ (proj1 Gb)) as (h & gH & Wh & Gh & Ad).
  exists s', b, t, h, gT, gH. split; [exact E|].
  assert (Dt := Dts_w _ _ _ _ _ (proj1 (proj2 Gb)) Wt). assert (Dh := Dts_w _ _ _ _ _ (proj1 (proj2 Gb)) Wh).
  split; [destruct Wt as (o1 & Ho1 & Et); unfold attrT; now rewrite Ho1|].
  split; [destruct Wh as (o1 & Ho1 & Et); unfold attrH; now rewrite Ho1|].
  split; [now apply yields_good|].
  split; [apply yields_den; [now apply Good_den|now apply Dts_dt]|]. split; auto.
  split; [apply yields_den; [now apply Good_den|now apply Dts_dt]|]. auto.
Qed.
(** entry (p, q) of the reduced operator is entry (ri[p], ci[q]) of the original one *)
Theorem C17_submatrix : forall n m (f : map1) ri ci p q, linmap n m f ->
  NoDup ci -> (forall j, In j ci -> j < n) -> p < length ri -> q < length ci ->
  nth p (gath ri (f (scat n ci (unitv (length ci) q)))) k0 = nth (nth p ri 0) (f (unitv n (nth q ci 0))) k0.
Proof.
  intros n m f ri ci p q L N R Hp Hq.
  assert (Rq : nth q ci 0 < n) by (apply R, nth_In; auto).
  assert (E : scat n ci (@unitv F (length ci) q) = unitv n (nth q ci 0)).
  { assert (Hs := lin_len _ _ _ (scat_lin FOK n ci (conj N R)) _ (unitv_length (length ci) q)).
    apply (dot_ext FOK n); [exact Hs|apply unitv_length|]. intros w Hw.
    rewrite (tr_gath_scat FOK n ci (conj N R)) by auto using unitv_length.
    rewrite <- (nth_unitv FOK (length ci) q) by auto using gath_length.
    rewrite <- (nth_unitv FOK n) by auto.
    unfold gath. rewrite (nth_indep _ k0 (nth 0 w k0)) by (rewrite map_length; auto).
    now rewrite (map_nth (fun i => nth i w k0)). }
  rewrite E. unfold gath. rewrite (nth_indep _ k0 (nth 0 (f (unitv n (nth q ci 0))) k0)) by (rewrite map_length; auto).
  now rewrite (map_nth (fun i => nth i _ k0)).
Qed.
Theorem C17_symmetric : forall (s : st) a n dt f ix, wfst s -> GoodD s a n n dt f ->
  NoDup (map (wrap n) ix) -> (forall i, In i ix -> - Z.of_nat n <= i < Z.of_nat n)%Z ->
  exists s' b o oa, sym_reduced_op a ix s = (s', Ok b) /\ objs s' b = Some o /\ objs s a = Some oa /\
    o_sym o = o_sym oa /\ o_herm o = o_herm oa /\
    yields s' b (length ix) (length ix) dt (fun x => gath (map (wrap n) ix) (f (scat n (map (wrap n) ix) x))) /\
    (o_sym o = true -> is_transpose (length ix) (length ix) (fun x => gath (map (wrap n) ix) (f (scat n (map (wrap n) ix) x)))
                                                     (fun x => gath (map (wrap n) ix) (f (scat n (map (wrap n) ix) x)))).
Proof.
  intros s a n dt f ix W G N R.
  destruct (sym_reduced_builds FOK s a n dt f ix W G (conj N R)) as (s' & b & E & X & W' & Gb).
  destruct (GoodD_attr _ _ _ _ _ _ G) as (oa & Hoa & _).
  destruct (Good_attr _ _ _ _ _ (proj1 Gb)) as (o & Ho & _ & _ & H1 & _).
  assert (Fl : o_sym o = o_sym oa /\ o_herm o = o_herm oa).
  { unfold sym_reduced_op in E. do 3 (erewrite bind_ok in E by (apply getattr_ok; exact Hoa)).
    match type of E with new_linop ?n ?m ?cc ?cT ?cH ?sy ?he ?dt s = _ =>
      destruct (new_linop_desc s n m cc cT cH sy he dt W) as (s2 & E2 & _ & _ & _ & D & _) end.
    rewrite E2 in E. injection E as <- <-. clear - D Ho. unfold desc in D.
    destruct (is_complex _), (o_sym oa), (o_herm oa);
    repeat match goal with H : exists _, _ |- _ => destruct H end;
    repeat match goal with H : _ /\ _ |- _ => destruct H end;
    match goal with H : has s2 (nxt s) _ _ _ _ _ _ _ _ |- _ =>
      destruct H as (o9 & Ho9 & ? & ? & ? & ? & ?); rewrite Ho in Ho9; injection Ho9 as <-; auto end. }
  destruct Fl. exists s', b, o, oa. split; [exact E|]. split; auto. split; auto. split; auto. split; auto.
  split; [now apply yields_good|]. intros S. apply H1; auto.
Qed.

(** ** C18 *)
Theorem C18_coord : forall (s : st) vdt ts nin nout, wfst s -> nin <> 0 -> nout <> 0 ->
  in_range nout nin ts ->
  (is_complex vdt = false -> forall v r c, In (v, r, c) ts -> kconj v = v) ->
  exists s' a t h, coord_op vdt ts nin nout false s = (s', Ok a) /\ attrT s' a = Some t /\ attrH s' a = Some h /\
    denotes s' a nin nout (mat_vec (dense nout nin ts)) /\
    denotes s' t nout nin (mat_vec (mat_T nin (dense nout nin ts))) /\
    denotes s' h nout nin (mat_vec (mat_T nin (map vconj (dense nout nin ts)))).
Proof.
  intros s vdt ts nin nout W N1 N2 H R.
  destruct (coord_sided FOK s vdt ts nin nout W N1 N2 H R) as (s' & a & t & h & E & (o & Ho & Ht) & (o' & Ho' & Hh) & D).
  exists s', a, t, h. unfold attrT, attrH. rewrite Ho. rewrite Ho in Ho'; injection Ho' as <-. auto.
Qed.
Theorem C18_coord_sym : forall (s : st) vdt ts n, wfst s -> n <> 0 -> in_range n n ts ->
  (is_complex vdt = false -> forall v r c, In (v, r, c) ts -> kconj v = v) ->
  exists s' a, coord_op vdt ts n n true s = (s', Ok a) /\ attrT s' a = Some a /\
    yields s' a n n vdt (mat_vec (dense n n (mirror true ts))).
Proof.
  intros s vdt ts n W N H R.
  destruct (coord_builds FOK s vdt ts n n true W N N H (fun _ => eq_refl) R (or_intror eq_refl)) as (s' & a & E & X & W' & G).
  exists s', a. split; [exact E|]. split; [|now apply yields_good].
  rewrite coord_op_eq in E by auto. unfold user_op in E.
  match type of E with new_linop ?n ?m ?cc ?cT ?cH ?sy ?he ?dt s = _ =>
    destruct (ptr_flags s n m cc cT cH sy he dt W) as (s2 & b & E2 & T & _) end.
  rewrite E in E2. injection E2 as <- <-. auto.
Qed.
Theorem C18_inferred_size : forall (s : st) vdt (ts : list (F * nat * nat)) nargin nargout sym, wfst s -> ts <> [] ->
  nargin = 0 \/ nargout = 0 ->
  exists s' a o, coord_op vdt ts nargin nargout sym s = (s', Ok a) /\ objs s' a = Some o /\
    (nargin = 0 -> o_nargin o = max_list (map snd ts)) /\
    (nargout = 0 -> o_nargout o = max_list (map (fun t => snd (fst t)) ts)) /\
    forall s2 x d, ext s' s2 -> asize x = o_nargin o ->
      exists s3, apply (S d) a x s2 = (s3, Err IndexError).
Proof. exact coord_inferred. Qed.

(** ** C19 *)
Theorem C19_ndarray : forall (s : st) mdt nr nc rows sym hk, wfst s -> matok nr nc rows ->
  (is_complex mdt = false -> entries_real rows) ->
  let herm := match hk with Some h => h | None => sym end in
  (sym = true -> nc = nr /\ is_transpose nc nc (mat_vec rows) (mat_vec rows)) ->
  (herm = true -> nc = nr /\ is_adjoint nc nc (mat_vec rows) (mat_vec rows)) ->
  (is_complex mdt = false -> sym = herm) ->
  exists s' a t h, ndarray_op mdt nr nc rows sym hk s = (s', Ok a) /\
    attrT s' a = Some t /\ attrH s' a = Some h /\
    yields s' a nc nr mdt (mat_vec rows) /\
    yields s' t nr nc mdt (mat_vec (mat_T nc rows)) /\
    yields s' h nr nc mdt (mat_vec (mat_T nc (map vconj rows))).
Proof.
  intros s mdt nr nc rows sym hk W M R herm Hs Hh Hx.
  destruct (ndarray_builds FOK s mdt nr nc rows sym hk W M R Hs Hh Hx) as (s' & a & E & X & W' & G).
  destruct (Good_T _ _ _ _ _ (proj1 G)) as (t & gT & Wt & Gt & Tr).
  destruct (Good_H _ _ _ _ _ (proj1 G)) as (h & gH & Wh & Gh & Ad).
  assert (Dt := Dts_w _ _ _ _ _ (proj1 (proj2 G)) Wt). assert (Dh := Dts_w _ _ _ _ _ (proj1 (proj2 G)) Wh).
  assert (Nt := Good_den _ _ _ _ _ Gt). assert (Nh := Good_den _ _ _ _ _ Gh).
  exists s', a, t, h. split; [exact E|].
  split; [destruct Wt as (o1 & Ho1 & Et); unfold attrT; now rewrite Ho1|].
  split; [destruct Wh as (o1 & Ho1 & Et); unfold attrH; now rewrite Ho1|].
  split; [now apply yields_good|].
  split; (apply yields_den; [|now apply Dts_dt]); (eapply denotes_ext; [|eassumption]); intros y Hy.
  - apply (transpose_unique FOK nc nr (mat_vec rows)) with (y := y); auto.
    + intros z Hz. apply (lin_len _ _ _ (denotes_lin _ _ _ _ _ Nt)); auto.
    + intros z Hz. unfold mat_vec, mat_T. now rewrite !map_length, seq_length.
    + now apply (tr_mat FOK).
  - apply (adjoint_unique FOK nc nr (mat_vec rows)) with (y := y); auto.
    + intros z Hz. apply (lin_len _ _ _ (denotes_lin _ _ _ _ _ Nh)); auto.
    + intros z Hz. unfold mat_vec, mat_T. now rewrite !map_length, seq_length.
    + now apply (ad_mat FOK).
Qed.
Theorem C19_xor : forall (s : st) mdt nr nc rows sym hk, is_complex mdt = false ->
  xorb sym (match hk with Some h => h | None => sym end) = true ->
  ndarray_op mdt nr nc rows sym hk s = (s, Err ValueError).
Proof. exact ndarray_xor. Qed.
End P.

(** ** Concrete cases: the hypotheses above are met by non-trivial objects *)
Section Ex.
Definition aeqb (x y : arr FQI) : bool :=
  match adt x, adt y with DInt, DInt | DFloat, DFloat | DComplex, DComplex => true | _, _ => false end &&
  Nat.eqb (asize x) (asize y) && forallb (fun p => keqb (fst p) (snd p)) (combine (adata x) (adata y)).
Definition is_ok (r : st FQI * res (arr FQI)) (y : arr FQI) : bool :=
  match snd r with Ok z => aeqb z y | Err _ => false end.
Definition run {A} (c : M FQI A) (s : st FQI) (d : A) : st FQI * A :=
  match c s with (s', Ok a) => (s', a) | (s', Err _) => (s', d) end.
(** the complex matrix [[1, i], [2, 1-i]] and a real diagonal operator *)
Definition m1 : list (list FQI) := [[qi 1 0; qi 0 1]; [qi 2 0; qi 1 (-1)]].
Definition s0 : st FQI := empty_st.
Lemma wf0 : wfst s0. Proof. repeat split; auto. Qed.
Lemma m1_ok : matok 2 2 m1.
Proof. split; [reflexivity|]. intros r [<-|[<-|[]]]; reflexivity. Qed.
Lemma ex_build : builds (ndarray_op DComplex 2 2 m1 false None) s0 2 2 DComplex (mat_vec m1).
Proof.
  apply (ndarray_builds FQI_OK); auto using wf0, m1_ok; try discriminate.
Qed.
(** the hypotheses of C01-C03 hold for the environment [A] and the formula  (3*A - A.H) * A**2 *)
Definition ex_expr : expr FQI :=
  EMul (ESub (EScale (@mkscalar FQI DInt (qi 3 0)) (EVar 0)) (EH (EVar 0))) (EPow (EVar 0) 2).
Example ex_C01 : exists s env denv n m dt f, wfst s /\ ewf ex_expr /\ envok s env denv /\
  sem denv ex_expr = Ok (n, m, dt, f) /\ n = 2 /\ env <> [].
Proof.
  destruct ex_build as (s' & a & _ & _ & W & G).
  exists s', [a], [(2, 2, DComplex, mat_vec m1)]. do 4 eexists. split; [exact W|].
  split. { cbn. repeat split; auto. }
  split. { constructor; [exact G|constructor]. }
  split; [reflexivity|]. split; [reflexivity|discriminate].
Qed.
(** running the model: the product above applied to (1, i) *)
Example ex_run : let (s1, a) := run (ndarray_op DComplex 2 2 m1 false None) s0 0 in
  let (s2, b) := run (eval [a] ex_expr) s1 0 in
  is_ok (apply 9 b (@mkarr FQI DComplex [qi 1 0; qi 0 1]) s2) (@mkarr FQI DComplex [qi (-4) 22; qi (-9) (-3)]) = true.
Proof. vm_compute. reflexivity. Qed.
(** classic division: (A/2)*x is 0 although A*x is not *)
Theorem C12_classic_int_refuted : exists (s s' : st FQI) a b x y z d s1 s2,
  div_linop a (PyInt 2) s = (s', Ok b) /\
  apply d a x s' = (s1, Ok y) /\ apply d b x s' = (s2, Ok z) /\
  keqb (nth 0 (adata z) k0) (kmul (kinv (kofZ 2)) (nth 0 (adata y) k0)) = false.
Proof.
  destruct (identity_builds FQI_OK s0 1 DFloat wf0) as (s & a & E & X & W & G).
  destruct (div_int_ge2 FQI_OK s a 1 1 DFloat _ 2 W G ltac:(lia)) as (s' & b & Eb & Xb & Wb & Gb).
  destruct (yields_good s' a _ _ _ _ (GoodD_mono _ _ _ _ _ _ _ Xb G)) as (_ & _ & d1 & H1).
  destruct (yields_good s' b _ _ _ _ Gb) as (_ & _ & d2 & H2).
  assert (A : awf (@mkarr FQI DFloat [qi 1 0])) by (intros _; vm_compute; reflexivity).
  destruct (H1 (d1 + d2) s' (@mkarr FQI DFloat [qi 1 0]) ltac:(lia) (ext_refl _) A eq_refl) as (s1 & E1).
  destruct (H2 (d1 + d2) s' (@mkarr FQI DFloat [qi 1 0]) ltac:(lia) (ext_refl _) A eq_refl) as (s2 & E2).
  exists s, s', a, b, (@mkarr FQI DFloat [qi 1 0]). do 2 eexists. exists (d1 + d2), s1, s2.
  split; [exact Eb|]. split; [exact E1|]. split; [exact E2|]. vm_compute. reflexivity.
Qed.
(** reading off the result of a run without normalising the heap *)
Definition okb {A} (r : st FQI * res A) : bool := match snd r with Ok _ => true | Err _ => false end.
Definition okv {A} (d : A) (r : st FQI * res A) : A := match snd r with Ok v => v | Err _ => d end.
Lemma ok_run : forall A (d : A) r, okb r = true -> r = (fst r, Ok (okv d r)).
Proof. intros A d [s [v|e]] H; [reflexivity|discriminate]. Qed.
(** C17: with a repeated column index matvec and matvec_transp are not transposes *)
Theorem C17_duplicates_refuted : exists (s s' : st FQI) a b t x y z w s1 s2,
  wfst s /\ (exists n dt f, GoodD s a n n dt f) /\ reduced_op a [0%Z] [0%Z; 0%Z] s = (s', Ok b) /\
  attrT s' b = Some t /\ length x = 2 /\ length y = 1 /\
  apply 9 b (mkarr DFloat x) s' = (s1, Ok z) /\ apply 9 t (mkarr DFloat y) s' = (s2, Ok w) /\
  keqb (dot y (adata z)) (dot (adata w) x) = false.
Proof.
  destruct (identity_builds FQI_OK s0 1 DFloat wf0) as (s & a & E & X & W & G).
  set (r0 := identity_op 1 DFloat s0) in *.
  assert (Es : s = fst r0) by (now rewrite E). assert (Ea : a = okv 0 r0) by (now rewrite E).
  change (okv 0 r0) with 0 in Ea. subst a.
  set (r1 := reduced_op 0 [0%Z] [0%Z; 0%Z] (fst r0)).
  set (x := [qi 1 0; qi 0 0]). set (y := [qi 1 0]).
  set (r2 := apply 9 (okv 9 r1) (@mkarr FQI DFloat x) (fst r1)).
  set (r3 := apply 9 2 (@mkarr FQI DFloat y) (fst r1)).
  exists s, (fst r1), 0, (okv 9 r1), 2, x, y, (okv (mkarr DInt []) r2), (okv (mkarr DInt []) r3), (fst r2), (fst r3).
  split; [exact W|]. split; [exists 1, DFloat, (fun x => x); exact G|].
  split. { rewrite Es. apply ok_run. vm_compute. reflexivity. }
  split; [vm_compute; reflexivity|]. split; [reflexivity|]. split; [reflexivity|].
  split; [apply ok_run; vm_compute; reflexivity|].
  split; [apply ok_run; vm_compute; reflexivity|]. vm_compute. reflexivity.
Qed.
(** duplicate-free indices: C17_reduced applies to rows [1], columns [-1;0] *)
Example ex_C17 : exists s a n m dt f, wfst s /\ @GoodD FQI s a n m dt f /\
  NoDup (map (wrap m) [1%Z]) /\ (forall i, In i [1%Z] -> - Z.of_nat m <= i < Z.of_nat m)%Z /\
  NoDup (map (wrap n) [-1; 0]%Z) /\ (forall j, In j [-1; 0]%Z -> - Z.of_nat n <= j < Z.of_nat n)%Z.
Proof.
  destruct ex_build as (s' & a & _ & _ & W & G). exists s', a, 2, 2, DComplex, (mat_vec m1).
  split; auto. split; auto. split; [repeat constructor; cbn; intuition lia|].
  split; [cbn; intuition lia|]. split; [repeat constructor; cbn; intuition lia|cbn; intuition lia].
Qed.
(** C15/C16: a real diagonal built from the caller's array, later changed in place *)
Example ex_C16 : exists (s s1 s2 s3 : st FQI) l d a d', wfst s /\ arrs s l = Some d /\ awf d /\
  diag_op l s = (s1, Ok a) /\ ext s1 s2 /\ adt d' = adt d /\ asize d' = asize d /\ awf d' /\
  set_arr l d' s2 = (s3, Ok tt) /\ asize d = 2 /\ keqb (nth 0 (adata d') k0) (nth 0 (adata d) k0) = false.
Proof.
  destruct (new_arr_ok s0 (@mkarr FQI DFloat [qi 1 0; qi 2 0]) wf0) as (s & E & X & W & H).
  assert (A : awf (@mkarr FQI DFloat [qi 1 0; qi 2 0])) by (intros _; vm_compute; reflexivity).
  destruct (diag_op_builds FQI_OK s _ _ W H A) as [(s1 & a & E1 & _) _].
  exists s, s1, s1. eexists. exists (narr s0), (@mkarr FQI DFloat [qi 1 0; qi 2 0]), a, (@mkarr FQI DFloat [qi 5 0; qi 2 0]).
  split; auto. split; auto. split; auto. split; auto. split; [apply ext_refl|].
  split; auto. split; auto. split; [intros _; vm_compute; reflexivity|].
  split; [reflexivity|]. split; [reflexivity|vm_compute; reflexivity].
Qed.
(** C15: the complex numbers have an absolute value and a square root with the assumed laws *)
Example ex_C15 : exists (kabs ksqrt : FCR -> FCR) kneg, (forall z, kconj (kabs z) = kabs z) /\
  (forall z, kmul (ksqrt z) (ksqrt z) = z) /\
  (forall z, kconj z = z -> kneg z = false -> kconj (ksqrt z) = ksqrt z) /\ FldOK FCR.
Proof. exists cabs, csqrt, cneg. auto using cabs_real, csqrt_sq, csqrt_real, FCR_OK. Qed.
(** C18: triples with a duplicate position *)
Example ex_C18 : exists (ts : list (FQI * nat * nat)), in_range 2 3 ts /\ length ts = 3 /\
  (forall v r c, In (v, r, c) ts -> kconj v = v) /\ keqb (entry ts 1 2) (qi 5 0) = true.
Proof.
  exists [(qi 2 0, 1, 2); (qi 1 0, 0, 0); (qi 3 0, 1, 2)].
  split; [|split; [|split]]; try (vm_compute; reflexivity).
  - intros v r c [E|[E|[E|[]]]]; injection E as <- <- <-; lia.
  - intros v r c [E|[E|[E|[]]]]; injection E as <- <- <-; vm_compute; reflexivity.
Qed.
(** C09: a product A*B of two distinct operators meets the hypotheses of C09_product *)
Example ex_C09 : let (s1, a) := run (ndarray_op DComplex 2 2 m1 false None) s0 0 in
  let (s2, b) := run (ndarray_op DComplex 2 2 m1 false None) s1 0 in
  let (s3, c) := run (mul_linop a b) s2 0 in
  let (s4, _) := run (apply 9 c (@mkarr FQI DComplex [qi 1 0; qi 0 1])) s3 (@mkarr FQI DInt []) in
  map (count s4) [a; b; c] = [1; 1; 1] /\ a <> b /\ b <> c.
Proof. vm_compute. repeat split; discriminate. Qed.
End Ex.

Print Assumptions C01_formula.
Print Assumptions C14_to_array.
Print Assumptions C17_duplicates_refuted.
Print Assumptions ex_C15.
