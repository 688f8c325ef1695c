(** * Operator expressions: evaluation on the heap agrees with their meaning as linear maps. *)
From Coq Require Import List ZArith Lia Bool Ring.
From Verif Require Import Base Field Vec LinopModel LinopFrame LinopGood LinopInit LinopDep LinopAlg LinopOps.
Import ListNotations.

Section Expr.
Context {F : Fld}.
Notation st := (st F). Notation obj := (obj F). Notation M := (M F). Notation arr := (arr F).
Notation map1 := (list F -> list F).

(** Python expressions over operator-valued variables *)
Inductive expr :=
| EVar (i : nat)
| EId (n : nat) (dt : dtype)                 (* IdentityOperator(n, dtype=dt) *)
| EZero (n m : nat) (dt : dtype)             (* ZeroOperator(n, m, dtype=dt) *)
| EScale (c : scalar F) (e : expr)           (* c * e, e * c *)
| ENeg (e : expr)
| EMul (e1 e2 : expr) | EAdd (e1 e2 : expr) | ESub (e1 e2 : expr)
| EDiv (e : expr) (c : pynum F)              (* e / c, Python 2 *)
| ETrueDiv (e : expr) (c : pynum F)          (* e / c under from __future__ import division *)
| EPow (e : expr) (k : Z)
| ET (e : expr) | EH (e : expr) | EConj (e : expr).   (* e.T, e.H, e.conjugate() *)

Local Notation "'do' x <- m ;; k" := (bind m (fun x => k)) (at level 200, x name, k at level 200).
(** an attribute that is None makes every further use raise *)
Definition get_opt (p : obj -> option addr) (a : addr) : M addr :=
  do t <- getattr p a ;; match t with Some t => ret t | None => raise TypeError end.
(** operands are evaluated left to right *)
Fixpoint eval (env : list addr) (e : expr) : M addr :=
  match e with
  | EVar i => match nth_error env i with Some a => ret a | None => raise KeyError end
  | EId n dt => identity_op n dt
  | EZero n m dt => zero_op n m dt
  | EScale c e => do a <- eval env e ;; mul_scalar a c
  | ENeg e => do a <- eval env e ;; neg_linop a
  | EMul e1 e2 => do a <- eval env e1 ;; do b <- eval env e2 ;; mul_linop a b
  | EAdd e1 e2 => do a <- eval env e1 ;; do b <- eval env e2 ;; add_linop a b
  | ESub e1 e2 => do a <- eval env e1 ;; do b <- eval env e2 ;; sub_linop a b
  | EDiv e c => do a <- eval env e ;; div_linop a c
  | ETrueDiv e c => do a <- eval env e ;; truediv_linop a c
  | EPow e k => do a <- eval env e ;; pow_linop a k
  | ET e => do a <- eval env e ;; get_opt o_T a
  | EH e => do a <- eval env e ;; get_opt o_H a
  | EConj e => do a <- eval env e ;; conjugate a
  end.

(** ** Meaning: shape, dtype and linear map, or the exception *)
Definition den := (nat * nat * dtype * map1)%type.
(** matrix transpose and conjugate transpose of a map, column by column *)
Definition transposeOf (n : nat) (f : map1) : map1 :=
  fun y => map (fun i => dot y (f (unitv n i))) (seq 0 n).
Definition adjointOf (n : nat) (f : map1) : map1 :=
  fun y => map (fun i => kconj (dot (vconj y) (f (unitv n i)))) (seq 0 n).
Fixpoint iter (k : nat) (f : map1) : map1 :=
  match k with O => fun x => x | S k' => fun x => f (iter k' f x) end.
(** the number  1/c  computed by the two division operators *)
Definition recip (true_div : bool) (c : pynum F) : res (dtype * F) :=
  match c with
  | PyInt z => if Z.eqb z 0 then Err ZeroDivisionError
               else if true_div then Ok (DFloat, kinv (kofZ z)) else Ok (DInt, kofZ (1 / z))
  | PyFloat x => if keqb x k0 then Err ZeroDivisionError else Ok (DFloat, kinv x)
  | PyComplex x => if keqb x k0 then Err ZeroDivisionError else Ok (DComplex, kinv x)
  end.
Definition sdiv (b : bool) (r : res den) (c : pynum F) : res den :=
  match r, recip b c with
  | Ok (n, m, d, f), Ok (d', v) => Ok (n, m, result_type d d', fun x => vscale v (f x))
  | Err e, _ => Err e
  | Ok _, Err e => Err e
  end.
Definition saddsub (op : list F -> list F -> list F) (r1 r2 : res den) : res den :=
  match r1, r2 with
  | Ok (n, m, d, f), Ok (n', m', d', g) =>
      if Nat.eqb n n' && Nat.eqb m m'
      then Ok (n, m, result_type d d', fun x => op (f x) (g x)) else Err ShapeError
  | Err e, _ => Err e
  | Ok _, Err e => Err e
  end.
Fixpoint sem (env : list den) (e : expr) : res den :=
  match e with
  | EVar i => match nth_error env i with Some d => Ok d | None => Err KeyError end
  | EId n dt => Ok (n, n, dt, fun x => x)
  | EZero n m dt => Ok (n, m, dt, fun _ => vzero m)
  | EScale c e =>
      match sem env e with
      | Ok (n, m, d, f) => Ok (n, m, result_type d (sty c), fun x => vscale (sval c) (f x))
      | Err e => Err e
      end
  | ENeg e =>
      match sem env e with
      | Ok (n, m, d, f) => Ok (n, m, d, fun x => vscale (kopp k1) (f x))
      | Err e => Err e
      end
  | EMul e1 e2 =>
      match sem env e1, sem env e2 with
      | Ok (n, m, d, f), Ok (n', m', d', g) =>
          if Nat.eqb n m' then Ok (n', m, result_type d d', fun x => f (g x)) else Err ShapeError
      | Err e, _ => Err e
      | Ok _, Err e => Err e
      end
  | EAdd e1 e2 => saddsub vadd (sem env e1) (sem env e2)
  | ESub e1 e2 => saddsub vsub (sem env e1) (sem env e2)
  | EDiv e c => sdiv false (sem env e) c
  | ETrueDiv e c => sdiv true (sem env e) c
  | EPow e k =>
      match sem env e with
      | Ok (n, m, d, f) =>
          if (k <? 0)%Z then Err ValueError
          else if negb (Nat.eqb n m) then Err ShapeError
          else Ok (n, n, if (k =? 0)%Z then DFloat else d, iter (Z.to_nat k) f)
      | Err e => Err e
      end
  | ET e => match sem env e with
            | Ok (n, m, d, f) => Ok (m, n, d, transposeOf n f)
            | Err e => Err e end
  | EH e => match sem env e with
            | Ok (n, m, d, f) => Ok (m, n, d, adjointOf n f)
            | Err e => Err e end
  | EConj e => match sem env e with
            | Ok (n, m, d, f) => Ok (n, m, d, fun x => vconj (f (vconj x)))
            | Err e => Err e end
  end.

(** scalars of a real Python type are real *)
Definition nwf (c : pynum F) : Prop := match c with PyFloat x => kconj x = x | _ => True end.
Fixpoint ewf (e : expr) : Prop :=
  match e with
  | EVar _ | EId _ _ | EZero _ _ _ => True
  | EScale c e => swf c /\ ewf e
  | EDiv e c | ETrueDiv e c => nwf c /\ ewf e
  | EMul a b | EAdd a b | ESub a b => ewf a /\ ewf b
  | ENeg e | EPow e _ | ET e | EH e | EConj e => ewf e
  end.

Context (FOK : FldOK F).
Add Ring Kring4 : (fk_ring F FOK).

(** ** transposeOf / adjointOf are the transpose and adjoint *)
Lemma unitv_S : forall n i, unitv (S n) (S i) = @k0 F :: unitv n i.
Proof.
  intros. unfold unitv. cbn [seq map]. f_equal. rewrite <- seq_shift, map_map. reflexivity.
Qed.
Lemma dot_unitv : forall n i (x : list F), length x = n -> i < n -> nth_error x i = Some (dot x (unitv n i)).
Proof.
  induction n; intros i x Hx Hi; [lia|]. destruct x as [|a x]; [discriminate|].
  destruct i.
  - cbn [nth_error]. f_equal. unfold unitv. cbn [seq map Nat.eqb dot].
    rewrite <- seq_shift, map_map. cbn [Nat.eqb].
    replace (map (fun _ => k0) (seq 0 n)) with (@vzero F n).
    + rewrite (dot_zero_r FOK). ring.
    + unfold vzero. clear. generalize 0. induction n; cbn; intros; f_equal; auto.
  - rewrite unitv_S. cbn [nth_error dot]. rewrite (IHn i x); [|cbn in Hx; lia|lia].
    f_equal. ring.
Qed.
Lemma map_seq_ext : forall n (x : list F) (g : nat -> F), length x = n ->
  (forall i, i < n -> nth_error x i = Some (g i)) -> x = map g (seq 0 n).
Proof.
  induction n; intros x g Hx H; destruct x as [|a x]; try discriminate; auto.
  cbn [seq map]. f_equal.
  - assert (E := H 0 ltac:(lia)). cbn in E. congruence.
  - rewrite <- seq_shift, map_map. apply IHn; [cbn in Hx; lia|].
    intros i Hi. apply (H (S i)). lia.
Qed.
Lemma transposeOf_spec : forall n m (f g : map1), (forall y, length y = m -> length (g y) = n) ->
  is_transpose n m f g -> forall y, length y = m -> g y = transposeOf n f y.
Proof.
  intros n m f g L T y Hy. unfold transposeOf. apply map_seq_ext; auto.
  intros i Hi. rewrite (dot_unitv n) by auto. rewrite T; auto using unitv_length.
Qed.
Lemma adjointOf_spec : forall n m (f g : map1), (forall y, length y = m -> length (g y) = n) ->
  is_adjoint n m f g -> forall y, length y = m -> g y = adjointOf n f y.
Proof.
  intros n m f g L T y Hy. unfold adjointOf. apply map_seq_ext; auto.
  intros i Hi. rewrite (dot_unitv n) by auto. rewrite T; auto using unitv_length.
  f_equal. rewrite (dot_conj FOK), (vconj_conj FOK). f_equal.
  unfold unitv, vconj. rewrite map_map. apply map_ext. intros j. destruct (Nat.eqb i j).
  now rewrite (conj1 FOK). now rewrite (conj0 FOK).
Qed.

(** ** correctness *)
Definition envok (s : st) (env : list addr) (denv : list den) : Prop :=
  Forall2 (fun a (d : den) => let '(n, m, dt, f) := d in GoodD s a n m dt f) env denv.
Lemma envok_mono : forall s s' env denv, ext s s' -> envok s env denv -> envok s' env denv.
Proof.
  intros s s' env denv E H. induction H; constructor; auto.
  destruct y as [[[n m] dt] f]. eapply GoodD_mono; eauto.
Qed.

Definition agrees (c : M addr) (s : st) (r : res den) : Prop :=
  match r with
  | Ok (n, m, dt, f) => builds c s n m dt f
  | Err e => exists s', c s = (s', Err e)
  end.

Lemma builds_bind : forall (c : M addr) (k : addr -> M addr) s n m dt f r,
  builds c s n m dt f ->
  (forall s' a, ext s s' -> wfst s' -> GoodD s' a n m dt f -> agrees (k a) s' r) ->
  agrees (bind c k) s r.
Proof.
  intros c k s n m dt f r (s' & a & E & X & W & G) H. specialize (H s' a X W G).
  destruct r as [[[[n' m'] dt'] f']|e]; cbn in *.
  - destruct H as (s2 & b & E2 & X2 & W2 & G2). exists s2, b.
    rewrite (bind_ok _ _ _ _ _ _ _ E). split; auto. split; [eapply ext_trans; eauto|]. auto.
  - destruct H as (s2 & E2). exists s2. now rewrite (bind_ok _ _ _ _ _ _ _ E).
Qed.
Lemma err_bind : forall A B (c : M A) (k : A -> M B) s e,
  (exists s', c s = (s', Err e)) -> exists s', bind c k s = (s', Err e).
Proof. intros A B c k s e (s' & E). exists s'. unfold bind. now rewrite E. Qed.

Lemma builds_ext : forall (c : M addr) s n m dt (f g : map1),
  (forall x, length x = n -> f x = g x) -> builds c s n m dt f -> builds c s n m dt g.
Proof.
  intros c s n m dt f g E (s' & a & Ec & X & W & G). exists s', a.
  split; [exact Ec|]. split; auto. split; auto. eapply GoodD_ext; eauto.
Qed.
Lemma result_type_idem : forall d, result_type d d = d. Proof. intros []; auto. Qed.
Lemma result_type_int : forall d, result_type d DInt = d. Proof. intros []; auto. Qed.

Lemma pow_pos_builds : forall k s a n dt (f : map1), wfst s -> GoodD s a n n dt f ->
  builds (pow_pos a k) s n n dt (iter (S k) f).
Proof.
  induction k; intros s a n dt f W G.
  - cbn. exists s, a. split; [reflexivity|]. split; [apply ext_refl|]. split; auto.
  - cbn [pow_pos]. 
    change (agrees (bind (pow_pos a k) (fun p => mul_linop a p)) s (Ok (n, n, dt, iter (S (S k)) f))).
    eapply builds_bind; [apply IHk; eauto|].
    intros s' p X W' G'. cbn [agrees].
    rewrite <- (result_type_idem dt).
    apply (mul_linop_builds FOK s' a p n n n dt dt f (iter (S k) f)); auto.
    eapply GoodD_mono; eauto.
Qed.

Lemma swf_ofZ : forall z, swf (mkscalar DInt (@kofZ F z)).
Proof. intros z _. apply (fk_ofZ_real F FOK). Qed.
Lemma conj_inv : forall x : F, kconj x = x -> keqb x k0 = false -> kconj (kinv x) = kinv x.
Proof.
  intros x Hx Hn.
  assert (N : x <> k0). { intro; subst. rewrite (proj2 (fk_eqb F FOK k0 k0) eq_refl) in Hn. discriminate. }
  assert (E := fk_inv F FOK x N).
  assert (E2 : kmul (kconj (kinv x)) x = k1).
  { rewrite <- (conj1 FOK), <- E, (fk_conj_mul F FOK), Hx. ring. }
  replace (kconj (kinv x)) with (kmul (kconj (kinv x)) (kmul x (kinv x))).
  - replace (kmul (kconj (kinv x)) (kmul x (kinv x))) with (kmul (kmul (kconj (kinv x)) x) (kinv x)) by ring.
    rewrite E2. ring.
  - replace (kmul x (kinv x)) with (@k1 F) by (rewrite <- E; ring). ring.
Qed.
Lemma recip_swf : forall b c d v, nwf c -> recip b c = Ok (d, v) -> swf (mkscalar d v).
Proof.
  intros b c d v W H C. cbn in *. destruct c as [z|x|x]; cbn in H.
  - destruct (Z.eqb_spec z 0); [discriminate|]. destruct b; inversion H; subst.
    + apply conj_inv. apply (fk_ofZ_real F FOK).
      destruct (keqb (kofZ z) k0) eqn:E; auto. apply (fk_eqb F FOK) in E.
      rewrite <- (fk_ofZ_0 F FOK) in E. apply (fk_ofZ_inj F FOK) in E. contradiction.
    + apply (fk_ofZ_real F FOK).
  - destruct (keqb x k0) eqn:E; inversion H; subst. apply conj_inv; auto.
  - destruct (keqb x k0) eqn:E; inversion H; subst. discriminate.
Qed.
Lemma div_eq : forall a c (s : st), div_linop a c s =
  match recip false c with Ok (d, v) => mul_scalar a (mkscalar d v) s | Err e => (s, Err e) end.
Proof.
  intros a [z|x|x] s; cbn; [destruct (Z.eqb z 0)|destruct (keqb x k0)|destruct (keqb x k0)]; reflexivity.
Qed.
Lemma truediv_eq : forall a c (s : st), truediv_linop a c s =
  match recip true c with Ok (d, v) => mul_scalar a (mkscalar d v) s | Err e => (s, Err e) end.
Proof.
  intros a [z|x|x] s; cbn; [destruct (Z.eqb z 0)|destruct (keqb x k0)|destruct (keqb x k0)]; reflexivity.
Qed.

Lemma get_opt_builds : forall w s a n m dt (f : map1) (p : obj -> option addr),
  wfst s -> GoodD s a n m dt f ->
  (w = WT /\ p = o_T /\ True \/ w = WH /\ p = o_H) ->
  builds (get_opt p a) s m n dt (match w with WT => transposeOf n f | _ => adjointOf n f end).
Proof.
  intros w s a n m dt f p W [G [D Ac]] [(-> & -> & _)|(-> & ->)].
  - destruct (Good_T _ _ _ _ _ G) as (t & g & Wt & Gt & Tr). pose proof Wt as (o & Ho & Ht).
    exists s, t. split.
    + unfold get_opt. erewrite bind_ok by (apply getattr_ok; eauto). rewrite Ht. reflexivity.
    + split; [apply ext_refl|]. split; auto. split; [|split; [eapply Dts_w; eauto|eapply Acy_w; eauto]].
      eapply Good_ext; [|exact Gt]. eapply transposeOf_spec; eauto.
      apply (denotes_lin _ _ _ _ _ (Good_den _ _ _ _ _ Gt)).
  - destruct (Good_H _ _ _ _ _ G) as (t & g & Wt & Gt & Tr). pose proof Wt as (o & Ho & Ht).
    exists s, t. split.
    + unfold get_opt. erewrite bind_ok by (apply getattr_ok; eauto). rewrite Ht. reflexivity.
    + split; [apply ext_refl|]. split; auto. split; [|split; [eapply Dts_w; eauto|eapply Acy_w; eauto]].
      eapply Good_ext; [|exact Gt]. eapply adjointOf_spec; eauto.
      apply (denotes_lin _ _ _ _ _ (Good_den _ _ _ _ _ Gt)).
Qed.

Lemma GoodD_attr : forall (s : st) a n m dt (f : map1), GoodD s a n m dt f ->
  exists o, objs s a = Some o /\ o_nargin o = n /\ o_nargout o = m /\ o_dtype o = dt.
Proof.
  intros s a n m dt f [G [D _]]. destruct (Good_attr _ _ _ _ _ G) as (o & Ho & Hn & Hm & _).
  destruct (Dts_dt _ _ _ D) as (o' & Ho' & Hd). rewrite Ho in Ho'; injection Ho' as <-. exists o; auto.
Qed.
Lemma mul_shape_err : forall (s : st) a b n m dt f n' m' dt' g,
  GoodD s a n m dt f -> GoodD s b n' m' dt' g -> n <> m' -> mul_linop a b s = (s, Err ShapeError).
Proof.
  intros s a b n m dt f n' m' dt' g Ga Gb N.
  destruct (GoodD_attr _ _ _ _ _ _ Ga) as (o & Ho & Hn & _).
  destruct (GoodD_attr _ _ _ _ _ _ Gb) as (o' & Ho' & _ & Hm & _).
  unfold mul_linop. do 2 (erewrite bind_ok by (apply getattr_ok; eauto)).
  rewrite Hn, Hm. apply Nat.eqb_neq in N. rewrite N. reflexivity.
Qed.
Lemma addsub_shape_err : forall mk (s : st) a b n m dt f n' m' dt' g,
  GoodD s a n m dt f -> GoodD s b n' m' dt' g -> (n =? n') && (m =? m') = false ->
  addsub mk a b s = (s, Err ShapeError).
Proof.
  intros mk s a b n m dt f n' m' dt' g Ga Gb N.
  destruct (GoodD_attr _ _ _ _ _ _ Ga) as (o & Ho & Hn & Hm & _).
  destruct (GoodD_attr _ _ _ _ _ _ Gb) as (o' & Ho' & Hn' & Hm' & _).
  unfold addsub. do 4 (erewrite bind_ok by (apply getattr_ok; eauto)).
  rewrite Hn, Hm, Hn', Hm', andb_comm, N. reflexivity.
Qed.

Theorem eval_agrees : forall e env denv s,
  wfst s -> ewf e -> envok s env denv -> agrees (eval env e) s (sem denv e).
Proof.
  induction e; intros env denv s W We En; cbn [eval sem ewf] in *.
  - (* var *)
    assert (H := En). revert i. induction En; intros [|i]; cbn.
    + eexists; reflexivity. + eexists; reflexivity.
    + destruct y as [[[n m] dt] f]. exists s, x. split; [reflexivity|].
      split; [apply ext_refl|]. split; auto.
    + apply IHEn. inversion H; auto.
  - apply (identity_builds FOK); auto.
  - apply (zero_op_builds FOK); auto.
  - (* scale *)
    destruct We as [Wc We]. specialize (IHe env denv s W We En).
    destruct (sem denv e) as [[[[n m] dt] f]|x]; [|now apply err_bind].
    eapply builds_bind; [exact IHe|]. intros s' a X W' G. now apply (mul_scalar_builds FOK).
  - (* neg *)
    specialize (IHe env denv s W We En).
    destruct (sem denv e) as [[[[n m] dt] f]|x]; [|now apply err_bind].
    eapply builds_bind; [exact IHe|]. intros s' a X W' G. cbn [agrees]. unfold neg_linop.
    rewrite <- (result_type_int dt).
    replace (kopp (@k1 F)) with (@kofZ F (-1)).
    + apply (mul_scalar_builds FOK s' a n m dt f (mkscalar DInt (kofZ (-1)))); auto. apply swf_ofZ.
    + change (-1)%Z with (- (1))%Z. now rewrite (fk_ofZ_opp F FOK), (fk_ofZ_1 F FOK).
  - (* mul *)
    destruct We as [We1 We2]. specialize (IHe1 env denv s W We1 En).
    destruct (sem denv e1) as [[[[n m] dt] f]|x]; [|now apply err_bind].
    eapply builds_bind; [exact IHe1|]. intros s' a X W' G.
    specialize (IHe2 env denv s' W' We2 (envok_mono _ _ _ _ X En)).
    destruct (sem denv e2) as [[[[n' m'] dt'] g]|x]; [|now apply err_bind].
    eapply builds_bind; [exact IHe2|]. intros s2 b X2 W2 G2.
    destruct (Nat.eqb_spec n m').
    + subst m'. eapply (mul_linop_builds FOK); eauto. eapply GoodD_mono; eauto.
    + exists s2. eapply mul_shape_err; eauto. eapply GoodD_mono; eauto.
  - (* add *)
    destruct We as [We1 We2]. specialize (IHe1 env denv s W We1 En). unfold saddsub.
    destruct (sem denv e1) as [[[[n m] dt] f]|x]; [|now apply err_bind].
    eapply builds_bind; [exact IHe1|]. intros s' a X W' G.
    specialize (IHe2 env denv s' W' We2 (envok_mono _ _ _ _ X En)).
    destruct (sem denv e2) as [[[[n' m'] dt'] g]|x]; [|now apply err_bind].
    eapply builds_bind; [exact IHe2|]. intros s2 b X2 W2 G2.
    destruct (Nat.eqb n n' && Nat.eqb m m') eqn:E.
    + apply andb_true_iff in E. destruct E as [E1 E2]. apply Nat.eqb_eq in E1, E2. subst n' m'.
      eapply (addsub_builds FOK true); eauto. eapply GoodD_mono; eauto.
    + exists s2. eapply addsub_shape_err; eauto. eapply GoodD_mono; eauto.
  - (* sub *)
    destruct We as [We1 We2]. specialize (IHe1 env denv s W We1 En). unfold saddsub.
    destruct (sem denv e1) as [[[[n m] dt] f]|x]; [|now apply err_bind].
    eapply builds_bind; [exact IHe1|]. intros s' a X W' G.
    specialize (IHe2 env denv s' W' We2 (envok_mono _ _ _ _ X En)).
    destruct (sem denv e2) as [[[[n' m'] dt'] g]|x]; [|now apply err_bind].
    eapply builds_bind; [exact IHe2|]. intros s2 b X2 W2 G2.
    destruct (Nat.eqb n n' && Nat.eqb m m') eqn:E.
    + apply andb_true_iff in E. destruct E as [E1 E2]. apply Nat.eqb_eq in E1, E2. subst n' m'.
      eapply (addsub_builds FOK false); eauto. eapply GoodD_mono; eauto.
    + exists s2. eapply addsub_shape_err; eauto. eapply GoodD_mono; eauto.
  - (* div *)
    destruct We as [Wc We]. specialize (IHe env denv s W We En). unfold sdiv.
    destruct (sem denv e) as [[[[n m] dt] f]|x]; [|now apply err_bind].
    destruct (recip false c) as [[d v]|x] eqn:E.
    + eapply builds_bind; [exact IHe|]. intros s' a X W' G. cbn [agrees]. unfold builds.
      rewrite div_eq, E. apply (mul_scalar_builds FOK s' a n m dt f (mkscalar d v)); auto.
      eapply recip_swf; eauto.
    + eapply builds_bind; [exact IHe|]. intros s' a X W' G. exists s'. now rewrite div_eq, E.
  - (* truediv *)
    destruct We as [Wc We]. specialize (IHe env denv s W We En). unfold sdiv.
    destruct (sem denv e) as [[[[n m] dt] f]|x]; [|now apply err_bind].
    destruct (recip true c) as [[d v]|x] eqn:E.
    + eapply builds_bind; [exact IHe|]. intros s' a X W' G. cbn [agrees]. unfold builds.
      rewrite truediv_eq, E. apply (mul_scalar_builds FOK s' a n m dt f (mkscalar d v)); auto.
      eapply recip_swf; eauto.
    + eapply builds_bind; [exact IHe|]. intros s' a X W' G. exists s'. now rewrite truediv_eq, E.
  - (* pow *)
    specialize (IHe env denv s W We En).
    destruct (sem denv e) as [[[[n m] dt] f]|x]; [|now apply err_bind].
    eapply builds_bind; [exact IHe|]. intros s' a X W' G.
    destruct (GoodD_attr _ _ _ _ _ _ G) as (o & Ho & Hn & Hm & _).
    unfold pow_linop. destruct (k <? 0)%Z eqn:Ek; [eexists; reflexivity|].
    assert (Er : forall B (kk : nat -> nat -> M B),
      bind (getattr o_nargin a) (fun n => bind (getattr o_nargout a) (fun m => kk n m)) s' = kk n m s').
    { intros B kk. do 2 (erewrite bind_ok by (apply getattr_ok; eauto)). now rewrite Hn, Hm. }
    destruct (Nat.eqb n m) eqn:Enm; cbn [negb].
    + apply Nat.eqb_eq in Enm. subst m. rewrite Enm in *. clear Enm. cbn [agrees]. unfold builds. rewrite Er.
      rewrite Nat.eqb_refl. cbn [negb]. destruct (Z.eqb_spec k 0).
      * subst k. apply (identity_builds FOK); auto.
      * assert (Hk : exists k', Z.to_nat k = S k').
        { exists (Z.to_nat (k - 1)). apply Z.ltb_ge in Ek. lia. }
        destruct Hk as (k' & ->). apply pow_pos_builds; auto.
    + exists s'. rewrite Er, Enm. reflexivity.
  - (* T *)
    specialize (IHe env denv s W We En).
    destruct (sem denv e) as [[[[n m] dt] f]|x]; [|now apply err_bind].
    eapply builds_bind; [exact IHe|]. intros s' a X W' G.
    apply (get_opt_builds WT s' a n m dt f o_T); auto.
  - specialize (IHe env denv s W We En).
    destruct (sem denv e) as [[[[n m] dt] f]|x]; [|now apply err_bind].
    eapply builds_bind; [exact IHe|]. intros s' a X W' G.
    apply (get_opt_builds WH s' a n m dt f o_H); auto.
  - specialize (IHe env denv s W We En).
    destruct (sem denv e) as [[[[n m] dt] f]|x]; [|now apply err_bind].
    eapply builds_bind; [exact IHe|]. intros s' a X W' G.
    apply (conjugate_builds FOK); auto.
Qed.
End Expr.
Arguments expr : clear implicits.
