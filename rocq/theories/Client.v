(** * Programs that use operators only through products.

    A solver sees its operators as objects it can multiply vectors with.  [client] is the type of
    such programs: it either returns or asks for the product of operator number [q] with a vector
    and continues with the answer.  [pure] runs a client against mathematical functions, [heap]
    runs it against operator objects in the heap of LinopModel.v, where every product changes
    counters.  The two agree (theorem [heap_pure]). *)
From Coq Require Import List ZArith Lia Bool Arith.
From Verif Require Import Base Num Field Vec LinopModel LinopFrame LinopDep LinopGood LinopOps PropLinop.
Import ListNotations.

Section Client.
Context {Q : Type} {Arg Ans : Q -> Type}.

Inductive client (R : Type) : Type :=
| Ret (r : R)
| Ask (q : Q) (x : Arg q) (k : Ans q -> client R).
Arguments Ret {R} _. Arguments Ask {R} _ _ _.

Fixpoint cbind {R S : Type} (c : client R) (f : R -> client S) : client S :=
  match c with
  | Ret r => f r
  | Ask q x k => Ask q x (fun y => cbind (k y) f)
  end.
Definition ask (q : Q) (x : Arg q) : client (Ans q) := Ask q x Ret.

(** The result, and the operators used, in order. *)
Fixpoint pure {R : Type} (f : forall q, Arg q -> Ans q) (c : client R) : R * list Q :=
  match c with
  | Ret r => (r, [])
  | Ask q x k => let '(r, t) := pure f (k (f q x)) in (r, q :: t)
  end.

Lemma pure_bind : forall (R S : Type) f (c : client R) (g : R -> client S),
  pure f (cbind c g) =
  let '(r, t) := pure f c in let '(r', t') := pure f (g r) in (r', t ++ t').
Proof.
  intros R S f c g. induction c as [r|q x k IH]; cbn [cbind pure].
  - destruct (pure f (g r)). reflexivity.
  - rewrite IH. destruct (pure f (k (f q x))) as [r t]. destruct (pure f (g r)). reflexivity.
Qed.

(** A [while] loop whose body is a client (compare [Num.while]). *)
Fixpoint cwhile {T : Type} (fuel : nat) (cond : T -> bool) (body : T -> client (res T)) (st : T)
  : client (res T) :=
  match fuel with
  | O => Ret (Err EFuel)
  | Datatypes.S fuel =>
      if cond st then
        cbind (body st) (fun r =>
          match r with Ok st => cwhile fuel cond body st | Err e => Ret (Err e) end)
      else Ret (Ok st)
  end.

(** If the body, run with [f], does what [pbody] does and [cnt] counts its questions that satisfy
    [p], then the same holds for the loop. *)
Lemma pure_cwhile : forall (T : Type) f (pbody : T -> res T) cond body (p : Q -> bool) (cnt : T -> nat),
  (forall st, fst (pure f (body st)) = pbody st) ->
  (forall st st', pbody st = Ok st' ->
     cnt st' = cnt st + length (filter p (snd (pure f (body st))))) ->
  forall fuel st,
    fst (pure f (cwhile fuel cond body st)) = while fuel cond pbody st /\
    forall st', while fuel cond pbody st = Ok st' ->
      cnt st' = cnt st + length (filter p (snd (pure f (cwhile fuel cond body st)))).
Proof.
  intros T f pbody cond body p cnt HB HC. induction fuel as [|fuel IH]; intro st; cbn [cwhile while].
  - split; [reflexivity|discriminate].
  - destruct (cond st); [|split; [reflexivity|intros st' E; injection E as <-; cbn; lia]].
    specialize (HB st). specialize (HC st). rewrite pure_bind.
    destruct (pure f (body st)) as [r t] eqn:P. cbn [fst snd] in HB, HC. subst r.
    destruct (pbody st) as [st1|e]; [|split; [reflexivity|discriminate]].
    destruct (IH st1) as [I1 I2]. destruct (pure f (cwhile fuel cond body st1)) as [r t'].
    cbn [fst snd] in *. split; [exact I1|]. intros st' E. rewrite (I2 _ E), (HC _ eq_refl).
    rewrite filter_app, app_length. lia.
Qed.

(** Exceptions inside a client. *)
Definition crb {R T : Type} (c : client (res R)) (f : R -> client (res T)) : client (res T) :=
  cbind c (fun r => match r with Ok x => f x | Err e => Ret (Err e) end).
Lemma pure_crb : forall (R T : Type) f (c : client (res R)) (g : R -> client (res T)),
  pure f (crb c g) =
  match pure f c with
  | (Ok x, t) => let '(r, t') := pure f (g x) in (r, t ++ t')
  | (Err e, t) => (Err e, t)
  end.
Proof.
  intros. unfold crb. rewrite pure_bind. destruct (pure f c) as [[x|e] t]; [reflexivity|].
  cbn [pure]. rewrite app_nil_r. reflexivity.
Qed.

(** All questions of a client, whatever the answers, satisfy [p]. *)
Inductive asksin (p : Q -> Prop) {R : Type} : client R -> Prop :=
| ai_ret : forall r, asksin p (Ret r)
| ai_ask : forall q x k, p q -> (forall y, asksin p (k y)) -> asksin p (Ask q x k).
Lemma asksin_pure : forall p (R : Type) f (c : client R) q, asksin p c -> In q (snd (pure f c)) -> p q.
Proof.
  intros p R f c q H. induction H as [r|q' x k Hp Hk IH]; cbn [pure]; [intros []|].
  specialize (IH (f q' x)). destruct (pure f (k (f q' x))) as [r t]. cbn [snd] in *.
  intros [E|H]; [congruence|auto].
Qed.
Lemma asksin_bind : forall p (R T : Type) (c : client R) (g : R -> client T),
  asksin p c -> (forall r, asksin p (g r)) -> asksin p (cbind c g).
Proof. intros p R T c g H G. induction H; cbn [cbind]; [apply G|constructor; auto]. Qed.
Lemma asksin_crb : forall p (R T : Type) (c : client (res R)) (g : R -> client (res T)),
  asksin p c -> (forall r, asksin p (g r)) -> asksin p (crb c g).
Proof. intros p R T c g H G. apply asksin_bind; [exact H|]. intros [x|e]; [apply G|constructor]. Qed.
Lemma asksin_while : forall p (T : Type) cond (body : T -> client (res T)),
  (forall st, asksin p (body st)) -> forall fuel st, asksin p (cwhile fuel cond body st).
Proof.
  intros p T cond body H. induction fuel as [|fuel IH]; intro st; cbn [cwhile]; [constructor|].
  destruct (cond st); [|constructor]. apply asksin_bind; [apply H|]. intros [x|e]; [apply IH|constructor].
Qed.

(** ** Running against the heap. *)
Context {F : Fld}.
Variables (ad : Q -> addr) (enc : forall q, Arg q -> arr F) (dec : forall q, arr F -> Ans q).

Fixpoint heap {R : Type} (d : nat) (c : client R) : M F R :=
  match c with
  | Ret r => ret r
  | Ask q x k => bind (apply d (ad q) (enc q x)) (fun y => heap d (k (dec q y)))
  end.

(** Operator [q] represents [f q]. *)
Definition represents (s : st F) (f : forall q, Arg q -> Ans q) (q : Q) (n m : nat) (dt : dtype)
           (g : list F -> list F) : Prop :=
  GoodD s (ad q) n m dt g /\
  forall x, awf (enc q x) /\ asize (enc q x) = n /\
    dec q (mkarr (result_type dt (adt (enc q x))) (g (adata (enc q x)))) = f q x.

Definition uses (a : addr) (q : Q) : bool := Nat.eqb (ad q) a.
Definition nuses (a : addr) (t : list Q) : nat := length (filter (uses a) t).

Lemma nuses_app : forall a t t', nuses a (t ++ t') = nuses a t + nuses a t'.
Proof. intros. unfold nuses. rewrite filter_app, app_length. reflexivity. Qed.

(** The run against the heap returns the result of the run against the functions, changes
    counters only, and increments the counter of every operator that is not a proper part of
    another one by the number of its products. *)
Theorem heap_pure : forall (R : Type) f (c : client R) (s : st F),
  (forall q, In q (snd (pure f c)) -> exists n m dt g, represents s f q n m dt g) ->
  exists D, forall d s2, D <= d -> cle s s2 ->
    exists s3, heap d c s2 = (s3, Ok (fst (pure f c))) /\ cle s2 s3 /\
      forall a, (forall q, In q (snd (pure f c)) -> ad q = a \/ ~ reach s (ad q) a) ->
        count s3 a = count s2 a + nuses a (snd (pure f c)).
Proof.
  intros R f c. induction c as [r|q x k IH]; intros s H.
  - exists 0. intros d s2 _ _. exists s2. split; [reflexivity|]. split; [apply cle_refl|].
    intros a _. cbn. lia.
  - cbn [pure] in H |- *. specialize (IH (f q x)).
    destruct (pure f (k (f q x))) as [r t] eqn:P. cbn [fst snd] in *.
    destruct (IH s) as [D HD]; [intros; apply H; right; assumption|].
    destruct (H q (or_introl eq_refl)) as (n & m & dt & g & G & HR).
    destruct (HR x) as (Wx & Sx & Dx). clear HR.
    destruct (yields_good _ _ _ _ _ _ G) as (_ & _ & d0 & Hd0).
    exists (Datatypes.S (max D d0)). intros d s2 Hd C.
    destruct (Hd0 d s2 (enc q x)) as [s1 E1]; [lia|now apply cle_ext|exact Wx|exact Sx|].
    pose proof (frame_apply d (ad q) (enc q x) s2 s1 _ E1) as C1.
    destruct (HD d s1) as (s3 & E3 & C3 & N3); [lia|eapply cle_trans; eauto|].
    exists s3. split; [cbn [heap]; unfold bind; rewrite E1, Dx; exact E3|].
    split; [eapply cle_trans; eauto|].
    intros a Ha. rewrite N3 by (intros; apply Ha; right; assumption).
    unfold nuses, uses. cbn [filter]. fold (uses a). destruct (Nat.eqb_spec (ad q) a) as [Ea|Na].
    + subst a. destruct d as [|d]; [lia|].
      rewrite (C09_own_counter d s2 (ad q) n m dt g (enc q x) s1 _
                 (GoodD_mono _ _ _ _ _ _ _ (cle_ext _ _ C) G) E1). cbn [length]. lia.
    + destruct (Ha q (or_introl eq_refl)) as [|NR]; [contradiction|].
      assert (U := apply_unch d s2 (ad q) (enc q x) s1 _ E1). destruct U as [_ U].
      unfold count. rewrite U; [reflexivity|]. intro RR. apply NR.
      eapply reach_mono; [|exact RR]. now apply cle_ext_r.
Qed.
End Client.
Arguments client {Q} Arg Ans R.
Arguments Ret {Q Arg Ans R} _. Arguments Ask {Q Arg Ans R} _ _ _.
