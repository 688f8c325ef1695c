(** * Mixed Python expressions agree with their mathematical meaning. *)
From Coq Require Import List ZArith Lia Bool Ring.
From Verif Require Import Base Field Vec LinopModel LinopFrame LinopGood LinopInit LinopDep LinopAlg LinopOps LinopExpr
  LinopMisc PyModel PropLinop.
Import ListNotations.

(** ** Spare depth changes neither result nor heap. *)
Section Same.
Context {F : Fld}.
Notation st := (st F). Notation M := (M F). Notation arr := (arr F).
Definition EqM {A} (m m' : M A) : Prop := forall s s1 r, m s = (s1, r) -> bad r = false -> m' s = (s1, r).
Lemma eqm_refl : forall A (m : M A), EqM m m.
Proof. intros A m s s1 r H _. exact H. Qed.
Lemma eqm_bind : forall A B (m m' : M A) (k k' : A -> M B),
  EqM m m' -> (forall a, EqM (k a) (k' a)) -> EqM (bind m k) (bind m' k').
Proof.
  intros A B m m' k k' Hm Hk s s1 r H Hb. unfold bind in *.
  destruct (m s) as [s2 [a|e]] eqn:E1.
  - rewrite (Hm _ _ _ E1 eq_refl). eapply Hk; eauto.
  - inversion H; subst. assert (Hb' : bad (@Err A e) = false) by (destruct e; auto).
    rewrite (Hm _ _ _ E1 Hb'). reflexivity.
Qed.
Lemma eqm_mmap : forall A B (f f' : A -> M B) l, (forall a, EqM (f a) (f' a)) -> EqM (mmap f l) (mmap f' l).
Proof.
  induction l; intros; cbn; auto using eqm_refl.
  apply eqm_bind; auto. intros. apply eqm_bind; auto using eqm_refl.
Qed.
Hint Resolve eqm_refl : eqm.
Ltac eqm_tac := repeat first
  [ solve [auto 2 with eqm] | apply eqm_bind; intros | apply eqm_mmap; intros
  | match goal with |- EqM (match ?x with _ => _ end) _ => destruct x end ].
Section Call.
Variable ap ap' : addr -> arr -> M arr.
Hypothesis Hap : forall a x, EqM (ap a x) (ap' a x).
Hint Resolve Hap : eqm.
Lemma eqm_ap_opt : forall o x, EqM (ap_opt ap o x) (ap_opt ap' o x).
Proof. intros [a|] x; cbn; eqm_tac. Qed.
Hint Resolve eqm_ap_opt : eqm.
Lemma eqm_ap_w : forall w a x, EqM (ap_w ap w a x) (ap_w ap' w a x).
Proof. intros [] a x; cbn; eqm_tac. Qed.
Hint Resolve eqm_ap_w : eqm.
Lemma eqm_blk_row : forall rt xdt ws row x y, EqM (blk_row ap rt xdt ws row x y) (blk_row ap' rt xdt ws row x y).
Proof. induction ws; destruct row; intros; cbn; eqm_tac. Qed.
Hint Resolve eqm_blk_row : eqm.
Lemma eqm_blk_rows : forall rt xdt ws blks hs x, EqM (blk_rows ap rt xdt ws hs blks x) (blk_rows ap' rt xdt ws hs blks x).
Proof. induction blks; destruct hs; intros; cbn; eqm_tac. Qed.
Hint Resolve eqm_blk_rows : eqm.
Lemma eqm_bd_loop : forall rt xdt blks ws hs x, EqM (bd_loop ap rt xdt ws hs blks x) (bd_loop ap' rt xdt ws hs blks x).
Proof. induction blks; destruct ws, hs; intros; cbn; eqm_tac. Qed.
Hint Resolve eqm_bd_loop : eqm.
Lemma eqm_call : forall c x, EqM (call ap c x) (call ap' c x).
Proof. destruct c; intros; cbn [call]; unfold red_matvec, blk_matvec, bd_matvec; eqm_tac. Qed.
Hint Resolve eqm_call : eqm.
Lemma eqm_mul_vector : forall a x, EqM (mul_vector ap a x) (mul_vector ap' a x).
Proof. intros. unfold mul_vector; eqm_tac. Qed.
End Call.
Lemma eqm_apply : forall d d' a x, d <= d' -> EqM (@apply F d a x) (apply d' a x).
Proof.
  induction d; intros d' a x Hd.
  - intros s s1 r H B. inversion H; subst. discriminate.
  - destruct d'; [lia|]. cbn [apply]. apply eqm_mul_vector. intros; apply IHd; lia.
Qed.
End Same.

(** ** Meaning *)
Section Sem.
Context {F : Fld}.
Notation st := (st F). Notation M := (M F). Notation arr := (arr F).
Notation map1 := (list F -> list F). Notation den := (@den F).

(** values: numbers, arrays, others; an operator is its shape, dtype and linear map *)
Inductive sv := SBase (p : pv F) | SOp (D : den).

Definition opres (r : res den) : res sv := match r with Ok D => Ok (SOp D) | Err e => Err e end.
(** the product of operator [D] with any value *)
Definition s_mul (D : den) (v : sv) : res sv :=
  let '(n, m, dt, f) := D in
  match v with
  | SBase (PNum c) =>
      let c := num_scalar c in Ok (SOp (n, m, result_type dt (sty c), fun x => vscale (sval c) (f x)))
  | SBase (PArr x) =>
      if Nat.eqb (asize x) n then Ok (SBase (PArr (mkarr (result_type dt (adt x)) (f (adata x))))) else Err ValueError
  | SBase POther => Err ValueError
  | SOp (n', m', dt', g) =>
      if Nat.eqb n m' then Ok (SOp (n', m, result_type dt dt', fun x => f (g x))) else Err ShapeError
  end.
Definition s_pow (D : den) (k : Z) : res sv :=
  let '(n, m, dt, f) := D in
  if (k <? 0)%Z then Err ValueError
  else if negb (Nat.eqb n m) then Err ShapeError
  else Ok (SOp (n, n, if (k =? 0)%Z then DFloat else dt, iter (Z.to_nat k) f)).
Definition s_left (o : bop) (D : den) (v : sv) : res sv :=
  match o, v with
  | BMul, _ => s_mul D v
  | BAdd, SOp D' => opres (saddsub vadd (Ok D) (Ok D'))
  | BSub, SOp D' => opres (saddsub vsub (Ok D) (Ok D'))
  | BDiv, SBase (PNum c) => opres (sdiv false (Ok D) c)
  | BTrueDiv, SBase (PNum c) => opres (sdiv true (Ok D) c)
  | BPow, SBase (PNum (PyInt k)) => s_pow D k
  | _, _ => Err ValueError
  end.
(** [None]: outside the model *)
Definition s_bin (B : base F) (o : bop) (u v : sv) : option (res sv) :=
  match u, v with
  | SBase p, SBase q => Some (rmap SBase (b2 B o p q))
  | SOp D, _ => Some (s_left o D v)
  | SBase (PArr _), SOp _ => None
  | SBase (PNum c), SOp D => Some (match o with BMul => s_mul D u | _ => Err TypeError end)
  | SBase POther, SOp D => Some (Err (match o with BMul => ValueError | _ => TypeError end))
  end.
Definition s_adj (D : den) : den := let '(n, m, dt, f) := D in (m, n, dt, adjointOf n f).
Definition s_un (B : base F) (o : uop) (u : sv) : res sv :=
  match u with
  | SBase p => rmap SBase (b1 B o p)
  | SOp (n, m, dt, f) =>
      Ok (SOp match o with
              | UNeg => (n, m, dt, fun x => vscale (kopp k1) (f x))
              | UT => (m, n, dt, transposeOf n f)
              | UH => s_adj (n, m, dt, f)
              | UBar => (n, m, dt, fun x => vconj (f (vconj x)))
              end)
  end.
Definition obind {A C} (r : option (res A)) (k : A -> option (res C)) : option (res C) :=
  match r with Some (Ok a) => k a | Some (Err e) => Some (Err e) | None => None end.
Fixpoint psem (B : base F) (env : list sv) (e : pexp F) : option (res sv) :=
  match e with
  | XVar i => Some match nth_error env i with Some v => Ok v | None => Err KeyError end
  | XLit p => Some (Ok (SBase p))
  | XId n dt => Some (Ok (SOp (n, n, dt, fun x => x)))
  | XZero n m dt => Some (Ok (SOp (n, m, dt, fun _ => vzero m)))
  | XBin o e1 e2 => obind (psem B env e1) (fun u => obind (psem B env e2) (s_bin B o u))
  | XUn o e => obind (psem B env e) (fun u => Some (s_un B o u))
  | XCall e1 e2 => obind (psem B env e1) (fun u => obind (psem B env e2) (fun v =>
      Some match u with SOp D => s_mul D v | SBase _ => Err TypeError end))
  | XRmatvec e1 e2 => obind (psem B env e1) (fun u => obind (psem B env e2) (fun v =>
      Some match u with SOp D => s_mul (s_adj D) v | SBase _ => Err AttributeError end))
  | XReset e => obind (psem B env e) (fun u =>
      Some match u with SOp _ => Ok (SBase POther) | SBase _ => Err AttributeError end)
  end.
Fixpoint psems (B : base F) (env : list sv) (p : list (pexp F)) : option (list (res sv)) :=
  match p with
  | [] => Some []
  | e :: p' =>
      match psem B env e with
      | None => None
      | Some r =>
          let v := match r with Ok v => v | Err _ => SBase POther end in
          match psems B (env ++ [v]) p' with Some rs => Some (r :: rs) | None => None end
      end
  end.

(** floats and arrays of real dtype are real *)
Definition pwf (p : pv F) : Prop :=
  match p with PNum c => nwf c | PArr x => awf x | POther => True end.
Fixpoint xwf (e : pexp F) : Prop :=
  match e with
  | XLit p => pwf p
  | XBin _ a b | XCall a b | XRmatvec a b => xwf a /\ xwf b
  | XUn _ a | XReset a => xwf a
  | _ => True
  end.
Definition basewf (B : base F) : Prop :=
  (forall o p q r, pwf p -> pwf q -> b2 B o p q = Ok r -> pwf r) /\
  (forall o p r, pwf p -> b1 B o p = Ok r -> pwf r).

Definition vok (s : st) (v : val F) (d : sv) : Prop :=
  match v, d with
  | VBase p, SBase q => p = q /\ pwf p
  | VOp a, SOp (n, m, dt, f) => GoodD s a n m dt f
  | _, _ => False
  end.
Definition rok (s : st) (r : res (val F)) (d : res sv) : Prop :=
  match r, d with Ok v, Ok w => vok s v w | Err x, Err y => x = y | _, _ => False end.

Lemma vok_mono : forall s s' v d, ext s s' -> vok s v d -> vok s' v d.
Proof.
  intros s s' [p|a] [q|[[[n m] dt] f]] X H; cbn in *; auto. eapply GoodD_mono; eauto.
Qed.
Lemma rok_mono : forall s s' v d, ext s s' -> rok s v d -> rok s' v d.
Proof. intros s s' [v|x] [d|y] X H; cbn in *; auto. eapply vok_mono; eauto. Qed.

Lemma Forall2_imp : forall A C (P Q : A -> C -> Prop) l l', (forall a b, P a b -> Q a b) -> Forall2 P l l' -> Forall2 Q l l'.
Proof. intros A C P Q l l' H F2. induction F2; constructor; auto. Qed.

Context (FOK : FldOK F).
Variable B : base F.
Hypothesis BW : basewf B.

Lemma num_swf : forall c, nwf c -> swf (@num_scalar F c).
Proof. intros [z|x|x] H C; cbn in *; [apply (fk_ofZ_real F FOK)|exact H|discriminate]. Qed.

(** a computation, at every sufficient depth, ends in one heap with one outcome *)
Definition does (c : nat -> M (val F)) (s : st) (r : res sv) : Prop :=
  exists D s' o, (forall d, D <= d -> c d s = (s', o)) /\ ext s s' /\ wfst s' /\ rok s' o r.

Lemma does_bind : forall (c : nat -> M (val F)) (k : nat -> val F -> M (val F)) s r q,
  does c s r ->
  (forall s' u v, r = Ok v -> ext s s' -> wfst s' -> vok s' u v -> does (fun d => k d u) s' q) ->
  (forall e, r = Err e -> q = Err e) ->
  does (fun d => bind (c d) (k d)) s q.
Proof.
  intros c k s r q (D & s' & o & H & X & W & R) Hk He. destruct o as [u|x], r as [v|y]; cbn in R; try tauto.
  - destruct (Hk s' u v eq_refl X W R) as (D2 & s2 & o2 & H2 & X2 & W2 & R2).
    exists (max D D2), s2, o2. split; [|split; [eapply ext_trans; eauto|auto]].
    intros d Hd. unfold bind. rewrite H by lia. apply H2. lia.
  - subst y. rewrite (He _ eq_refl). exists D, s', (Err x). split; [|split; [exact X|split; [exact W|reflexivity]]].
    intros d Hd. unfold bind. now rewrite H.
Qed.
Lemma does_ret : forall s v r, wfst s -> vok s v r -> does (fun _ => ret v) s (Ok r).
Proof. intros s v r W V. exists 0, s, (Ok v). split; [reflexivity|]. split; [apply ext_refl|]. split; [exact W|exact V]. Qed.
Lemma does_raise : forall s e, wfst s -> does (fun _ => raise e) s (Err e).
Proof. intros s e W. exists 0, s, (Err e). split; [reflexivity|]. split; [apply ext_refl|]. split; [exact W|reflexivity]. Qed.
Lemma does_lift : forall s (r : res (pv F)), wfst s -> (forall p, r = Ok p -> pwf p) ->
  does (fun _ => bind (lift r) (fun p => ret (VBase p))) s (rmap SBase r).
Proof.
  intros s [p|e] W P; [|apply (does_raise s e W)]. apply (does_ret s (VBase p) (SBase p) W). split; [reflexivity|now apply P].
Qed.
Lemma does_new : forall (c : M addr) s n m dt f, builds c s n m dt f ->
  does (fun _ => newop c) s (Ok (SOp (n, m, dt, f))).
Proof.
  intros c s n m dt f (s' & b & E & X & W & G). exists 0, s', (Ok (VOp b)).
  split; [intros d _; unfold newop, bind; now rewrite E|]. split; [exact X|]. split; [exact W|exact G].
Qed.
Lemma does_err : forall (c : M addr) s e, wfst s -> c s = (s, Err e) -> does (fun _ => newop c) s (Err e).
Proof.
  intros c s e W E. exists 0, s, (Err e). split; [intros d _; unfold newop, bind; now rewrite E|].
  split; [apply ext_refl|]. split; [exact W|reflexivity].
Qed.

Lemma cle_wf : forall s s' : st, cle s s' -> wfst s -> wfst s'.
Proof.
  intros s s' C (W1 & W2 & W3). destruct C as [C1 C2 C3 C4 C5 C6]. split; [|split].
  - intros a Ha. specialize (C6 a). rewrite W1 in C6 by lia. destruct (objs s' a); [destruct C6|reflexivity].
  - intros l Hl. rewrite C4. apply W2. lia.
  - intros l Hl. rewrite C5. apply W3. lia.
Qed.
Lemma does_apply : forall s a n m dt f (x : arr), wfst s -> GoodD s a n m dt f -> awf x ->
  does (fun d => bind (apply d a x) (fun y => ret (VBase (PArr y)))) s
    (if Nat.eqb (asize x) n then Ok (SBase (PArr (mkarr (result_type dt (adt x)) (f (adata x))))) else Err ValueError).
Proof.
  intros s a n m dt f x W G Wx. destruct (Nat.eqb_spec (asize x) n) as [E|N].
  - destruct (yields_good _ _ _ _ _ _ G) as (_ & _ & D & HD).
    destruct (HD D s x (le_n D) (ext_refl s) Wx E) as (s' & H).
    exists D, s'. eexists. split.
    + intros d Hd. unfold bind. rewrite (eqm_apply D d a x Hd _ _ _ H eq_refl). reflexivity.
    + pose proof (frame_apply _ _ _ _ _ _ H) as C. split; [now apply cle_ext|].
      split; [eapply cle_wf; eauto|]. cbn. split; [reflexivity|].
      destruct (Good_den _ _ _ _ _ (proj1 G)) as (o & d & Ho & _ & _ & _ & HR & _).
      destruct (GoodD_attr _ _ _ _ _ _ G) as (o' & Ho' & _ & _ & Hdt). rewrite Ho in Ho'. injection Ho' as <-.
      intro Cx. cbn in Cx |- *.
      assert (C1 : is_complex (o_dtype o) = false) by (rewrite Hdt; destruct dt, (adt x); auto; discriminate).
      assert (C2 : is_complex (adt x) = false) by (destruct dt, (adt x); auto; discriminate).
      unfold vreal. rewrite <- (HR C1) by exact E. f_equal. exact (Wx C2).
  - destruct (GoodD_attr _ _ _ _ _ _ G) as (o & Ho & Hn & _).
    destruct (apply_wrong_in 0 a x s o Ho) as (s' & H); [congruence|].
    exists 1, s', (Err ValueError). split.
    + intros d Hd. unfold bind. rewrite (eqm_apply 1 d a x Hd _ _ _ H eq_refl). reflexivity.
    + pose proof (frame_apply _ _ _ _ _ _ H) as C. split; [now apply cle_ext|].
      split; [eapply cle_wf; eauto|reflexivity].
Qed.

Lemma does_mul : forall s a D v w, wfst s -> vok s (VOp a) (SOp D) -> vok s v w ->
  does (fun d => py_mul d a v) s (s_mul D w).
Proof.
  intros s a [[[n m] dt] f] v w W Ga Gv. cbn in Ga.
  destruct v as [p|b], w as [q|[[[n' m'] dt'] g]]; cbn in Gv; try tauto.
  - destruct Gv as [<- Wp]. destruct p as [c|x|]; cbn [py_mul s_mul].
    + apply does_new, (mul_scalar_builds FOK); auto. now apply num_swf.
    + eapply does_apply; eauto.
    + now apply does_raise.
  - cbn [py_mul s_mul]. destruct (Nat.eqb_spec n m') as [<-|N].
    + apply does_new. eapply (mul_linop_builds FOK); eauto.
    + apply does_err; [exact W|]. eapply mul_shape_err; eauto.
Qed.
Lemma does_addsub : forall (b : bool) s a a' n m dt f n' m' dt' g, wfst s -> GoodD s a n m dt f -> GoodD s a' n' m' dt' g ->
  does (fun _ => newop ((if b then add_linop else sub_linop) a a')) s
    (opres (saddsub (if b then vadd else vsub) (Ok (n, m, dt, f)) (Ok (n', m', dt', g)))).
Proof.
  intros b s a a' n m dt f n' m' dt' g W Ga Gb. unfold saddsub.
  destruct (Nat.eqb n n' && Nat.eqb m m') eqn:E.
  - apply andb_true_iff in E. destruct E as [E1 E2]. apply Nat.eqb_eq in E1, E2. subst n' m'. cbn [opres].
    apply does_new. destruct b; [eapply (addsub_builds FOK true)|eapply (addsub_builds FOK false)]; eauto.
  - apply does_err; [exact W|]. destruct b; eapply addsub_shape_err; eauto.
Qed.
Lemma does_div : forall (b : bool) s a n m dt f c, wfst s -> GoodD s a n m dt f -> nwf c ->
  does (fun _ => newop ((if b then truediv_linop else div_linop) a c)) s (opres (sdiv b (Ok (n, m, dt, f)) c)).
Proof.
  intros b s a n m dt f c W G Wc. unfold sdiv.
  assert (E : (if b then truediv_linop else div_linop) a c s =
    match recip b c with Ok (d, v) => mul_scalar a (mkscalar d v) s | Err e => (s, Err e) end)
    by (destruct b; [apply truediv_eq|apply div_eq]).
  destruct (recip b c) as [[d v]|x] eqn:R; cbn [opres].
  - apply does_new. unfold builds. rewrite E. apply (mul_scalar_builds FOK s a n m dt f (mkscalar d v)); auto.
    eapply recip_swf; eauto.
  - apply does_err; [exact W|exact E].
Qed.
Lemma does_pow : forall s a n m dt f k, wfst s -> GoodD s a n m dt f ->
  does (fun _ => newop (pow_linop a k)) s (s_pow (n, m, dt, f) k).
Proof.
  intros s a n m dt f k W G. destruct (GoodD_attr _ _ _ _ _ _ G) as (o & Ho & Hn & Hm & _).
  unfold s_pow. destruct (k <? 0)%Z eqn:Ek; [apply does_err; [exact W|]; unfold pow_linop; now rewrite Ek|].
  destruct (Nat.eqb n m) eqn:Enm; cbn [negb].
  - apply Nat.eqb_eq in Enm. assert (Em : m = n) by congruence. clear Enm Hm. subst m.
    assert (En : envok s [a] [(n, n, dt, f)]) by (constructor; [exact G|constructor]).
    pose proof (eval_agrees FOK (EPow (EVar 0) k) [a] _ s W I En) as A.
    cbn [sem nth_error] in A. rewrite Ek, Nat.eqb_refl in A. cbn [negb agrees] in A. apply does_new. exact A.
  - apply does_err; [exact W|]. unfold pow_linop. rewrite Ek.
    do 2 (erewrite bind_ok by (apply getattr_ok; eauto)). rewrite Hn, Hm, Enm. reflexivity.
Qed.
Lemma does_left : forall o s a D v w, wfst s -> vok s (VOp a) (SOp D) -> vok s v w ->
  does (fun d => binary B d o (VOp a) v) s (s_left o D w).
Proof.
  intros o s a D v w W Ga Gv. cbn [binary].
  destruct o; [now apply does_mul|..]; destruct D as [[[n m] dt] f]; cbn in Ga;
    destruct v as [p|b], w as [q|[[[n' m'] dt'] g]]; cbn in Gv; try tauto; cbn [py_add py_sub py_div py_truediv py_pow s_left];
    try (now apply does_raise).
  - lazymatch goal with |- does (fun _ => newop (add_linop a b)) _ _ => eapply (does_addsub true); eauto end.
  - lazymatch goal with |- does (fun _ => newop (sub_linop a b)) _ _ => eapply (does_addsub false); eauto end.
  - destruct Gv as [<- Wp]. destruct p as [c|x|]; try (now apply does_raise). eapply (does_div false); eauto.
  - destruct Gv as [<- Wp]. destruct p as [c|x|]; try (now apply does_raise). eapply (does_div true); eauto.
  - destruct Gv as [<- Wp]. destruct p as [[k|x|x]|x|]; try (now apply does_raise). eapply does_pow; eauto.
Qed.
Lemma does_binary : forall o s u v u' v' r, wfst s -> vok s u u' -> vok s v v' -> s_bin B o u' v' = Some r ->
  does (fun d => binary B d o u v) s r.
Proof.
  intros o s u v u' v' r W Gu Gv H. destruct u as [p|a], u' as [p'|D]; cbn in Gu; try tauto.
  - destruct Gu as [<- Wp]. destruct v as [q|b], v' as [q'|D]; try (cbn in Gv; tauto).
    + destruct Gv as [<- Wq]. assert (E0 : r = rmap SBase (b2 B o p q)) by (destruct p; cbn [s_bin] in H; congruence). subst r.
      destruct p as [c|x|]; cbn [binary]; (apply does_lift; [exact W|]); intros z E; exact (proj1 BW _ _ _ _ Wp Wq E).
    + destruct D as [[[n m] dt] f]. pose proof Gv as G. cbn in G. cbn [s_bin] in H. destruct p as [c|x|]; cbn [binary].
      * injection H as <-. destruct o; try (now apply does_raise). cbn [py_rmul].
        apply (does_mul s b (n, m, dt, f) (VBase (PNum c)) (SBase (PNum c)) W Gv). split; [reflexivity|exact Wp].
      * discriminate.
      * injection H as <-. destruct o; now apply does_raise.
  - cbn [s_bin] in H. injection H as <-. now apply does_left.
Qed.
Lemma get_builds : forall w s a n m dt (f : map1) (p : obj F -> option addr), wfst s -> GoodD s a n m dt f ->
  (w = WT /\ p = o_T \/ w = WH /\ p = o_H) ->
  exists t, getattr p a s = (s, Ok (Some t)) /\ GoodD s t m n dt (match w with WT => transposeOf n f | _ => adjointOf n f end).
Proof.
  intros w s a n m dt f p W G Hw. destruct (GoodD_attr _ _ _ _ _ _ G) as (o & Ho & _).
  destruct (get_opt_builds FOK w s a n m dt f p W G) as (s' & t & E & X & W' & G'); [tauto|].
  unfold get_opt, bind, getattr in E. rewrite Ho in E. destruct (p o) as [u|] eqn:Eu; [|discriminate].
  injection E as <- <-. exists u. split; [unfold getattr; now rewrite Ho, Eu|exact G'].
Qed.
Lemma does_unary : forall o s u u', wfst s -> vok s u u' -> does (fun _ => unary B o u) s (s_un B o u').
Proof.
  intros o s u u' W Gu. destruct u as [p|a], u' as [p'|[[[n m] dt] f]]; cbn in Gu; try tauto.
  - destruct Gu as [<- Wp]. cbn [unary s_un]. apply does_lift; [exact W|]. intros z E; exact (proj2 BW _ _ _ Wp E).
  - cbn [unary s_un].
    assert (En : envok s [a] [(n, m, dt, f)]) by (constructor; [exact Gu|constructor]).
    pose proof (fun e We => eval_agrees FOK e [a] [(n, m, dt, f)] s W We En) as A.
    destruct o.
    + apply does_new. exact (A (ENeg (EVar 0)) I).
    + destruct (get_builds WT s a n m dt f o_T W Gu) as (t & E & G); [auto|].
      exists 0, s, (Ok (VOp t)). split; [intros d _; unfold bind; now rewrite E|]. split; [apply ext_refl|]. split; [exact W|exact G].
    + destruct (get_builds WH s a n m dt f o_H W Gu) as (t & E & G); [auto|].
      exists 0, s, (Ok (VOp t)). split; [intros d _; unfold bind; now rewrite E|]. split; [apply ext_refl|]. split; [exact W|exact G].
    + apply does_new. exact (A (EConj (EVar 0)) I).
Qed.

Lemma does_reset : forall s a D, wfst s -> vok s (VOp a) (SOp D) ->
  does (fun _ => py_reset (VOp a)) s (Ok (SBase POther)).
Proof.
  intros s a [[[n m] dt] f] W G. destruct (GoodD_attr _ _ _ _ _ _ G) as (o & Ho & _).
  exists 0, (set_obj a (with_count 0 o) s), (Ok (VBase POther)).
  split; [intros d _; cbn [py_reset]; unfold reset_counters, bind, modobj; now rewrite Ho|].
  split.
  - constructor; cbn; auto. intros b ob Hb. unfold upd. destruct (Nat.eqb_spec b a) as [->|N]; [|eauto using same_refl].
    rewrite Ho in Hb. injection Hb as <-. exists (with_count 0 o). split; [reflexivity|]. reflexivity.
  - split; [|split; [reflexivity|exact I]]. apply wf_set; [exact W|]. destruct W as (W1 & _).
    destruct (Nat.lt_ge_cases a (nxt s)) as [L|L]; [exact L|]. rewrite (W1 a L) in Ho. discriminate.
Qed.

Theorem peval_agrees : forall e env senv s r, wfst s -> xwf e -> Forall2 (vok s) env senv ->
  psem B senv e = Some r -> does (fun d => peval B d env e) s r.
Proof.
  assert (MON : forall s s' env senv, ext s s' -> Forall2 (vok s) env senv -> Forall2 (vok s') env senv)
    by (intros s s' env senv X H; induction H; constructor; auto; eapply vok_mono; eauto).
  induction e; intros env senv s r W We En H; cbn [psem peval xwf] in *.
  - injection H as <-. revert i. induction En as [|v w env senv Hv En IH]; intros [|i]; cbn [nth_error];
      [now apply does_raise|now apply does_raise|now apply does_ret|apply IH].
  - injection H as <-. apply does_ret; [exact W|]. split; [reflexivity|exact We].
  - injection H as <-. apply does_new, (identity_builds FOK); auto.
  - injection H as <-. apply does_new, (zero_op_builds FOK); auto.
  - destruct We as [We1 We2]. destruct (psem B senv e1) as [r1|] eqn:E1; [|discriminate].
    eapply does_bind; [eapply IHe1; eauto| |intros x ->; cbn in H; congruence].
    intros s' u u' -> X W' Gu. cbn [obind] in H. destruct (psem B senv e2) as [r2|] eqn:E2; [|discriminate].
    eapply does_bind; [eapply IHe2; eauto| |intros x ->; cbn in H; congruence].
    intros s2 v v' -> X2 W2 Gv. cbn [obind] in H. eapply does_binary; eauto. eapply vok_mono; eauto.
  - destruct (psem B senv e) as [r1|] eqn:E1; [|discriminate].
    eapply does_bind; [eapply IHe; eauto| |intros x ->; cbn in H; congruence].
    intros s' u u' -> X W' Gu. cbn [obind] in H. injection H as <-. now apply does_unary.
  - destruct We as [We1 We2]. destruct (psem B senv e1) as [r1|] eqn:E1; [|discriminate].
    eapply does_bind; [eapply IHe1; eauto| |intros x ->; cbn in H; congruence].
    intros s' u u' -> X W' Gu. cbn [obind] in H. destruct (psem B senv e2) as [r2|] eqn:E2; [|discriminate].
    eapply does_bind; [eapply IHe2; eauto| |intros x ->; cbn in H; congruence].
    intros s2 v v' -> X2 W2 Gv. cbn [obind] in H. injection H as <-. apply (vok_mono _ _ _ _ X2) in Gu.
    destruct u as [p|a], u' as [p'|D]; try (cbn in Gu; tauto); cbn [py_call]; [now apply does_raise|now apply does_mul].
  - destruct We as [We1 We2]. destruct (psem B senv e1) as [r1|] eqn:E1; [|discriminate].
    eapply does_bind; [eapply IHe1; eauto| |intros x ->; cbn in H; congruence].
    intros s' u u' -> X W' Gu. cbn [obind] in H. destruct (psem B senv e2) as [r2|] eqn:E2; [|discriminate].
    eapply does_bind; [eapply IHe2; eauto| |intros x ->; cbn in H; congruence].
    intros s2 v v' -> X2 W2 Gv. cbn [obind] in H. injection H as <-. apply (vok_mono _ _ _ _ X2) in Gu.
    destruct u as [p|a], u' as [p'|D]; try (cbn in Gu; tauto); cbn [py_rmatvec]; [now apply does_raise|].
    destruct D as [[[n m] dt] f]. destruct (get_builds WH s2 a n m dt f o_H W2 Gu) as (t & E & G); [auto|].
    destruct (does_mul s2 t (s_adj (n, m, dt, f)) v v' W2 G Gv) as (D & s3 & o & HD & REST).
    exists D, s3, o. split; [|exact REST]. intros d Hd. unfold bind. rewrite E. now apply HD.
  - destruct (psem B senv e) as [r1|] eqn:E1; [|discriminate].
    eapply does_bind; [eapply IHe; eauto| |intros x ->; cbn in H; congruence].
    intros s' u u' -> X W' Gu. cbn [obind] in H. injection H as <-.
    destruct u as [p|a], u' as [p'|D]; try (cbn in Gu; tauto); [now apply does_raise|]. eapply does_reset; eauto.
Qed.

Theorem prun_agrees : forall p env senv s rs, wfst s -> Forall xwf p -> Forall2 (vok s) env senv ->
  psems B senv p = Some rs ->
  exists D s' os, (forall d, D <= d -> prun B d env p s = (s', os)) /\ ext s s' /\ wfst s' /\ Forall2 (rok s') os rs.
Proof.
  induction p as [|e p IH]; intros env senv s rs W We En H; cbn [psems prun] in *.
  - injection H as <-. exists 0, s, []. split; [reflexivity|]. split; [apply ext_refl|]. split; [exact W|constructor].
  - inversion We as [|? ? We1 We2]; subst. destruct (psem B senv e) as [r|] eqn:E1; [|discriminate].
    destruct (psems B _ p) as [rs'|] eqn:E2; [|discriminate]. injection H as <-.
    destruct (peval_agrees e env senv s r W We1 En E1) as (D1 & s1 & o & H1 & X1 & W1 & R1).
    set (v := match o with Ok v => v | Err _ => VBase POther end).
    assert (En1 : Forall2 (vok s1) (env ++ [v]) (senv ++ [match r with Ok v => v | Err _ => SBase POther end])).
    { apply Forall2_app.
      - eapply Forall2_imp; [|exact En]. intros. eapply vok_mono; eauto.
      - constructor; [|constructor]. subst v. destruct o, r; cbn in R1; first [exact R1|destruct R1; fail|split; [reflexivity|exact I]|destruct R1]. }
    destruct (IH _ _ _ _ W1 We2 En1 E2) as (D2 & s2 & os & H2 & X2 & W2 & R2).
    exists (max D1 D2), s2, (o :: os). split.
    + intros d Hd. rewrite H1 by lia. fold v. rewrite H2 by lia. reflexivity.
    + split; [eapply ext_trans; eauto|]. split; [exact W2|]. constructor; [eapply rok_mono; eauto|exact R2].
Qed.
End Sem.
