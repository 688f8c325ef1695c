(** * Semantic invariant of operator objects and its establishment by the constructor. *)
From Coq Require Import List ZArith Lia Bool.
From Verif Require Import Base Field Vec LinopModel LinopFrame.
Import ListNotations.

Section Good.
Context {F : Fld} (FOK : FldOK F).
Notation st := (st F). Notation obj := (obj F). Notation M := (M F). Notation arr := (arr F).

(** an array with a non-complex dtype holds real entries *)
Definition awf (x : arr) : Prop := is_complex (adt x) = false -> vreal (adata x).

(** [denotes s a n m f]: object [a] is an operator with nargin [n], nargout [m]; for every array [x]
    of [n] entries  a * x  succeeds and returns  f x  with dtype result_type(a.dtype, x.dtype);
    [f] is linear, and has a real matrix if a.dtype is not complex. *)
Definition denotes (s : st) (a : addr) (n m : nat) (f : list F -> list F) : Prop :=
  exists o d, objs s a = Some o /\ o_nargin o = n /\ o_nargout o = m /\ linmap n m f /\
    (is_complex (o_dtype o) = false -> real_map n f) /\
    forall x, awf x -> asize x = n ->
      exists s', apply d a x s = (s', Ok (mkarr (result_type (o_dtype o) (adt x)) (f (adata x)))).

(** the same for a closure *)
Definition cden (s : st) (c : clo F) (n : nat) (f : list F -> list F) : Prop :=
  exists d, forall x, awf x -> asize x = n ->
    exists s' y, call (apply d) c x s = (s', Ok y) /\ adata y = f (adata x).

Definition wfst (s : st) : Prop :=
  (forall a, nxt s <= a -> objs s a = None) /\
  (forall l, narr s <= l -> arrs s l = None) /\
  (forall l, nrow s <= l -> rows s l = None).

Lemma result_type_complex : forall a b,
  is_complex (result_type a b) = is_complex a || is_complex b.
Proof. intros [] []; reflexivity. Qed.

Lemma cden_mono : forall s s' c n f, ext s s' -> cden s c n f -> cden s' c n f.
Proof.
  intros s s' c n f E [d H]. exists d. intros x Hx Hn.
  destruct (H x Hx Hn) as (s1 & y & Hc & Hy).
  destruct (mono_call_apply d d c x (le_n _) _ _ _ _ E Hc eq_refl) as (s2 & H2 & _). eauto.
Qed.
Lemma cden_ext : forall s c n f g, (forall x, length x = n -> f x = g x) ->
  cden s c n f -> cden s c n g.
Proof.
  intros s c n f g E [d H]. exists d. intros x Hx Hn.
  destruct (H x Hx Hn) as (s1 & y & Hc & Hy). exists s1, y. split; auto.
  rewrite Hy. apply E, Hn.
Qed.
Lemma denotes_mono : forall s s' a n m f, ext s s' -> denotes s a n m f -> denotes s' a n m f.
Proof.
  intros s s' a n m f E (o & d & Ho & Hn & Hm & HL & HR & H).
  destruct (ext_obj _ _ E _ _ Ho) as (o' & Ho' & Hs).
  exists o', d. rewrite <- (stable_nargin _ _ Hs), <- (stable_nargout _ _ Hs),
    <- (stable_dtype _ _ Hs).
  split; [exact Ho'|]. repeat (split; [assumption|]).
  intros x Hx Hl. destruct (H x Hx Hl) as (s1 & Ha).
  destruct (mono_apply d d a x (le_n _) _ _ _ _ E Ha eq_refl) as (s2 & H2 & _). eauto.
Qed.
Lemma denotes_ext : forall s a n m f g, (forall x, length x = n -> f x = g x) ->
  denotes s a n m f -> denotes s a n m g.
Proof.
  intros s a n m f g E (o & d & Ho & Hn & Hm & HL & HR & H).
  exists o, d. repeat (split; [try assumption|]).
  - eapply linmap_ext; eauto.
  - intros C x Hx. rewrite <- !E by (rewrite ?vconj_length; auto). now apply HR.
  - intros x Hx Hl. destruct (H x Hx Hl) as (s1 & Ha). exists s1. rewrite Ha, E; auto.
Qed.

Lemma bind_ok : forall A B (m : M A) (k : A -> M B) s s1 v,
  m s = (s1, Ok v) -> bind m k s = k v s1.
Proof. intros. unfold bind. now rewrite H. Qed.
Lemma getattr_ok : forall A (p : obj -> A) a (s : st) o,
  objs s a = Some o -> getattr p a s = (s, Ok (p o)).
Proof. intros. unfold getattr. now rewrite H. Qed.

Lemma apply_S : forall d a (x : arr) (s : st) o (y : arr) s1,
  objs s a = Some o -> asize x = o_nargin o ->
  call (apply d) (o_mv o) x (set_obj a (with_count (S (o_count o)) o) s) = (s1, Ok y) ->
  asize y = o_nargout o ->
  apply (S d) a x s = (s1, Ok (astype (result_type (o_dtype o) (adt x)) y)).
Proof.
  intros d a x s o y s1 Ho Hx Hc Hy.
  cbn [apply]. unfold mul_vector.
  set (o1 := with_count (S (o_count o)) o) in *.
  assert (Ho1 : objs (set_obj a o1 s) a = Some o1)
    by (cbn; unfold upd; now rewrite Nat.eqb_refl).
  erewrite bind_ok by (unfold bump, modobj; rewrite Ho; reflexivity).
  fold o1. do 3 (erewrite bind_ok by (apply getattr_ok; exact Ho1)).
  change (o_nargin o1) with (o_nargin o). change (o_nargout o1) with (o_nargout o).
  rewrite Hx, Nat.eqb_refl. cbn [negb].
  erewrite bind_ok by (apply getattr_ok; exact Ho1).
  erewrite bind_ok by exact Hc.
  rewrite Hy, Nat.eqb_refl. reflexivity.
Qed.

Lemma ext_bump : forall (s : st) a o, objs s a = Some o ->
  ext s (set_obj a (with_count (S (o_count o)) o) s).
Proof.
  intros. apply cle_ext. apply (frame_bump a s _ (Ok tt)).
  unfold bump, modobj. rewrite H. reflexivity.
Qed.

Lemma denotes_mk : forall s a o n m f,
  objs s a = Some o -> o_nargin o = n -> o_nargout o = m ->
  linmap n m f -> (is_complex (o_dtype o) = false -> real_map n f) ->
  cden s (o_mv o) n f -> denotes s a n m f.
Proof.
  intros s a o n m f Ho Hn Hm HL HR HC.
  apply (cden_mono _ _ _ _ _ (ext_bump s a o Ho)) in HC.
  destruct HC as [d HC].
  exists o, (S d). repeat (split; [assumption|]).
  intros x Hx Hl. destruct (HC x Hx Hl) as (s1 & y & Hc & Hy).
  exists s1. rewrite (apply_S d a x s o y s1); auto.
  - f_equal. f_equal. unfold astype. rewrite Hy. f_equal.
    rewrite result_type_complex.
    destruct (is_complex (o_dtype o)) eqn:E1; cbn; auto.
    destruct (is_complex (adt x)) eqn:E2; auto.
    apply (vre_real FOK). unfold vreal. rewrite <- HR by auto.
    rewrite (Hx E2). reflexivity.
  - congruence.
  - unfold asize. rewrite Hy, Hm. now apply HL.
Qed.

(** ** Good objects: T and H chains never end and always denote the right map *)
Definition sset := addr -> nat -> nat -> (list F -> list F) -> Prop.
Record good1 (s : st) (S : sset) (a : addr) (n m : nat) (f : list F -> list F) : Prop := mkgood {
  g_den : denotes s a n m f;
  g_sym : forall o, objs s a = Some o -> o_sym o = true -> n = m /\ is_transpose n n f f;
  g_herm : forall o, objs s a = Some o -> o_herm o = true -> n = m /\ is_adjoint n n f f;
  g_T : exists o t g, objs s a = Some o /\ o_T o = Some t /\ S t m n g /\ is_transpose n m f g;
  g_H : exists o h g, objs s a = Some o /\ o_H o = Some h /\ S h m n g /\ is_adjoint n m f g
}.
Definition goodset (s : st) (S : sset) : Prop := forall a n m f, S a n m f -> good1 s S a n m f.
Definition Good (s : st) (a : addr) (n m : nat) (f : list F -> list F) : Prop :=
  exists S, goodset s S /\ S a n m f.

Lemma Good_mono : forall s s' a n m f, ext s s' -> Good s a n m f -> Good s' a n m f.
Proof.
  intros s s' a n m f E (S & HS & Ha). exists S. split; auto.
  intros b n' m' g Hb. destruct (HS _ _ _ _ Hb) as [H1 H2 H3 H4 H5].
  destruct H1 as (o & d & Ho & H1).
  destruct (ext_obj _ _ E _ _ Ho) as (o' & Ho' & Hs).
  constructor.
  - eapply denotes_mono; eauto. exists o, d; eauto.
  - intros o'' Ho'' Hsym. rewrite Ho' in Ho''; inversion Ho''; subst.
    apply (H2 o); auto. now rewrite (stable_sym _ _ Hs).
  - intros o'' Ho'' Hsym. rewrite Ho' in Ho''; inversion Ho''; subst.
    apply (H3 o); auto. now rewrite (stable_herm _ _ Hs).
  - destruct H4 as (o2 & t & g' & Ho2 & Ht & HSt & Htr).
    rewrite Ho in Ho2; inversion Ho2; subst.
    exists o', t, g'. rewrite <- (stable_T _ _ Hs). auto.
  - destruct H5 as (o2 & t & g' & Ho2 & Ht & HSt & Htr).
    rewrite Ho in Ho2; inversion Ho2; subst.
    exists o', t, g'. rewrite <- (stable_H _ _ Hs). auto.
Qed.

Lemma Good_good1 : forall s a n m f, Good s a n m f -> good1 s (Good s) a n m f.
Proof.
  intros s a n m f (S & HS & Ha). destruct (HS _ _ _ _ Ha) as [H1 H2 H3 H4 H5].
  constructor; auto.
  - destruct H4 as (o & t & g & ? & ? & ? & ?). exists o, t, g. repeat split; auto. exists S; auto.
  - destruct H5 as (o & t & g & ? & ? & ? & ?). exists o, t, g. repeat split; auto. exists S; auto.
Qed.

(** ** Closure denotations used by the constructor *)
Lemma cden_conjN : forall s a n m f, denotes s a n m f -> cden s (CConj WN a) n (conj_map f).
Proof.
  intros s a n m f (o & d & Ho & Hn & Hm & HL & HR & H).
  exists d. intros x Hx Hl. cbn [call].
  destruct (is_complex (adt x)) eqn:E; cbn [ap_w].
  - destruct (H (aconj x)) as (s1 & Ha).
    { intro C; cbn in C; congruence. }
    { unfold asize; cbn. now rewrite vconj_length. }
    unfold bind. rewrite Ha. eexists _, _. split; [reflexivity|]. reflexivity.
  - destruct (H x Hx Hl) as (s1 & Ha). unfold bind. rewrite Ha.
    eexists _, _. split; [reflexivity|]. cbn. unfold conj_map.
    now rewrite (Hx E).
Qed.
Lemma cden_conjW : forall s a o w t n m f, objs s a = Some o ->
  match w with WN => t = a | WT => o_T o = Some t | WH => o_H o = Some t end ->
  denotes s t n m f -> cden s (CConj w a) n (conj_map f).
Proof.
  intros s a o w t n m f Hao Hw Hd.
  destruct (cden_conjN _ _ _ _ _ Hd) as [d H]. exists d. intros x Hx Hl.
  destruct (H x Hx Hl) as (s1 & y & Hc & Hy). exists s1, y. split; auto.
  rewrite <- Hc. cbn [call].
  assert (E : forall z, ap_w (apply d) w a z s = ap_w (apply d) WN t z s).
  { intros z. destruct w; cbn [ap_w]; subst; auto;
      (erewrite bind_ok by (apply getattr_ok; exact Hao)); rewrite Hw; reflexivity. }
  destruct (is_complex (adt x)); unfold bind; rewrite E; reflexivity.
Qed.


(** ** Symbolic execution of the constructor *)
Definition allocst (N : nat) (o : obj) (s : st) : st :=
  mkst (S N) (upd (objs s) N (Some o)) (narr s) (arrs s) (nrow s) (rows s).
Lemma objs_set : forall (s : st) a o b,
  objs (set_obj a o s) b = if Nat.eqb b a then Some o else objs s b.
Proof. reflexivity. Qed.
Lemma objs_alloc : forall (s : st) N o b,
  objs (allocst N o s) b = if Nat.eqb b N then Some o else objs s b.
Proof. reflexivity. Qed.
Lemma nxt_set : forall (s : st) a o N, nxt s = N -> nxt (set_obj a o s) = N.
Proof. intros; assumption. Qed.
Lemma nxt_alloc : forall (s : st) N o, nxt (allocst N o s) = S N.
Proof. reflexivity. Qed.
Lemma get_set_eq : forall (s : st) a o, objs (set_obj a o s) a = Some o.
Proof. intros; rewrite objs_set, Nat.eqb_refl; auto. Qed.
Lemma get_set_ne : forall (s : st) a b o R, b <> a -> objs s b = R -> objs (set_obj a o s) b = R.
Proof. intros; rewrite objs_set. apply Nat.eqb_neq in H. now rewrite H. Qed.
Lemma get_alloc_eq : forall (s : st) N o, objs (allocst N o s) N = Some o.
Proof. intros; rewrite objs_alloc, Nat.eqb_refl; auto. Qed.
Lemma get_alloc_ne : forall (s : st) N b o R, b <> N -> objs s b = R -> objs (allocst N o s) b = R.
Proof. intros; rewrite objs_alloc. apply Nat.eqb_neq in H. now rewrite H. Qed.
Lemma bind_run : forall A B (m : M A) (k : A -> M B) s s1 v R,
  m s = (s1, Ok v) -> k v s1 = R -> bind m k s = R.
Proof. intros. rewrite (bind_ok _ _ _ _ _ _ _ H). auto. Qed.
Lemma alloc_run : forall o (s : st) N, nxt s = N -> alloc o s = (allocst N o s, Ok N).
Proof. intros; subst; reflexivity. Qed.
Lemma modobj_run : forall a f (s : st) o o', objs s a = Some o -> f o = o' ->
  modobj a f s = (set_obj a o' s, Ok tt).
Proof. intros. unfold modobj. now rewrite H, H0. Qed.
Lemma getattr_run : forall A (p : obj -> A) a (s : st) o v, objs s a = Some o -> p o = v ->
  getattr p a s = (s, Ok v).
Proof. intros. unfold getattr. now rewrite H, H0. Qed.

Lemma ext_set_fresh : forall (s s' : st) a o, ext s s' -> objs s a = None -> ext s (set_obj a o s').
Proof.
  intros s s' a o [E1 E2 E3] Ha. constructor; cbn; auto.
  intros b ob Hb. unfold upd. destruct (Nat.eqb_spec b a); subst; [congruence|eauto].
Qed.
Lemma ext_alloc_fresh : forall (s s' : st) N o, ext s s' -> objs s N = None ->
  ext s (allocst N o s').
Proof.
  intros s s' N o [E1 E2 E3] Ha. constructor; cbn; auto.
  intros b ob Hb. unfold upd. destruct (Nat.eqb_spec b N); subst; [congruence|eauto].
Qed.
Lemma wf_set : forall (s : st) a o, wfst s -> a < nxt s -> wfst (set_obj a o s).
Proof.
  intros s a o (W1 & W2 & W3) Ha. repeat split; cbn; auto.
  intros b Hb. unfold upd. destruct (Nat.eqb_spec b a); [lia|auto].
Qed.
Lemma wf_alloc : forall (s : st) N o, wfst s -> nxt s = N -> wfst (allocst N o s).
Proof.
  intros s N o (W1 & W2 & W3) E. repeat split; cbn; auto.
  intros b Hb. unfold upd. destruct (Nat.eqb_spec b N); [lia|apply W1; lia].
Qed.

Lemma neq_S_n : forall n, S n <> n. Proof. lia. Qed.
Lemma neq_n_S : forall n, n <> S n. Proof. lia. Qed.
Lemma neq_SS_n : forall n, S (S n) <> n. Proof. lia. Qed.
Lemma neq_n_SS : forall n, n <> S (S n). Proof. lia. Qed.
Lemma neq_SSS_n : forall n, S (S (S n)) <> n. Proof. lia. Qed.
Lemma neq_n_SSS : forall n, n <> S (S (S n)). Proof. lia. Qed.
Lemma neq_SSSS_n : forall n, S (S (S (S n))) <> n. Proof. lia. Qed.
Lemma neq_n_SSSS : forall n, n <> S (S (S (S n))). Proof. lia. Qed.
End Good.

Ltac neqs := first [ simple apply neq_S_n | simple apply neq_n_S | simple apply neq_SS_n
  | simple apply neq_n_SS | simple apply neq_SSS_n | simple apply neq_n_SSS
  | simple apply neq_SSSS_n | simple apply neq_n_SSSS ].
(** solve  objs <concrete heap> addr = Some ?o *)
Ltac lk := lazymatch goal with
  | |- objs (set_obj ?a _ _) ?a = _ => apply get_set_eq
  | |- objs (set_obj _ _ _) _ = _ => apply get_set_ne; [neqs | lk]
  | |- objs (allocst ?a _ _) ?a = _ => apply get_alloc_eq
  | |- objs (allocst _ _ _) _ = _ => apply get_alloc_ne; [neqs | lk]
  | |- _ => eassumption
  end.
Ltac nx := lazymatch goal with
  | |- nxt (set_obj _ _ _) = _ => apply nxt_set; nx
  | |- nxt (allocst _ _ _) = _ => apply nxt_alloc
  | |- nxt _ = _ => reflexivity
  end.
Ltac ov := cbn [with_T with_H with_count with_pay o_nargin o_nargout o_sym o_herm o_dtype o_count
                o_mv o_T o_H o_pay]; reflexivity.
Ltac kws := cbn beta iota delta [kw_sym kw_herm kw_dtype kw_tof kw_aof kw_cof kw0 is_complex
     negb fst snd andb orb].
(** run the constructor symbolically *)
Ltac step := lazymatch goal with
  | |- bind _ _ _ = _ => eapply bind_run
  | |- alloc _ _ = _ => apply alloc_run; nx
  | |- modobj _ _ _ = _ => eapply modobj_run; [lk | ov]
  | |- getattr _ _ _ = _ => eapply getattr_run; [lk | ov]
  | |- ret _ _ = _ => reflexivity
  | |- new_linop _ _ _ _ _ _ _ _ _ = _ => unfold new_linop
  | |- init (S _) _ _ _ _ _ _ _ = _ => unfold init; fold (@init)
  | |- init_ _ _ _ _ _ _ _ _ = _ => unfold init_
  | |- set_transpose _ _ _ _ _ _ _ _ = _ => unfold set_transpose
  | |- set_adjoint _ _ _ _ _ _ _ _ = _ => unfold set_adjoint
  | |- conjugate_ _ _ _ = _ => unfold conjugate_
  | |- _ => progress kws
  end.
Ltac run := repeat step.
