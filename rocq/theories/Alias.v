(** * Arrays as shared mutable objects: a language of array statements and a checked discipline.

    The other files treat arrays as values.  Here names denote locations, so that [u = r0] makes two
    names for one array, and [p *= beta] writes to the array that [p] denotes.  Tests, scalar
    computations and printing are forgotten: a conditional may take either branch, a loop may run
    any number of times, and any statement may raise an exception instead of being executed, so
    that every prefix of every execution of the Python code is an execution here. *)
From Coq Require Import List String Arith Bool Lia.
Import ListNotations.
Open Scope string_scope.

Definition var := string.

Inductive stmt : Type :=
  | SSkip
  | SAlias (x y : var)               (* x = y; also a view of y, such as y.squeeze() *)
  | SNew (x : var) (ys : list var)   (* x = an expression that builds a new array (or a scalar) from ys *)
  | SProd (x : var) (ys : list var)  (* x = the value of a call of user code on ys: A * y, M(y) *)
  | SUpd (x : var) (ys : list var)   (* an in-place update of x: x += y, x[i] = y *)
  | SAppend (x : var)                (* self.iterates.append(x) *)
  | SSeq (a b : stmt)
  | SIf (a b : stmt)
  | SWhile (b : stmt)
  | SBreak | SContinue | SReturn.

Fixpoint seq (l : list stmt) : stmt :=
  match l with [] => SSkip | [a] => a | a :: l => SSeq a (seq l) end.

Inductive outcome := Normal | Broke | Continued | Returned | Raised.

Section Semantics.
Variable C : Type.  (* contents of an array *)

(** [st_log]: the list filled by [append], with the contents at that time. *)
Record state := mkst {
  env : var -> option nat; mem : nat -> C; alloc : list nat; log : list (nat * C) }.

Definition bind (e : var -> option nat) (x : var) (l : nat) : var -> option nat :=
  fun z => if String.eqb z x then Some l else e z.
Definition put (m : nat -> C) (l : nat) (c : C) : nat -> C := fun k => if Nat.eqb k l then c else m k.

(** [own]: the arrays that belong to the user's operators (a constant returned by every product, a
    work array).  The operators may write to these at each call.  A call returns a new array, one of
    [own], or its argument, but in that case not an array of the caller of [solve] ([rhs], [guess]). *)
Variables (own caller : list nat).

Inductive exec : stmt -> state -> outcome -> state -> Prop :=
  | XRaise : forall s st, exec s st Raised st
  | XSkip : forall st, exec SSkip st Normal st
  | XAlias : forall x y l st, env st y = Some l ->
      exec (SAlias x y) st Normal (mkst (bind (env st) x l) (mem st) (alloc st) (log st))
  | XNew : forall x ys l c st, ~ In l (alloc st) ->
      exec (SNew x ys) st Normal (mkst (bind (env st) x l) (put (mem st) l c) (l :: alloc st) (log st))
  | XProd : forall x ys l m st,
      (forall k, In k (alloc st) -> ~ In k own -> m k = mem st k) ->
      (~ In l (alloc st) \/ In l own \/
       (exists y, In y ys /\ env st y = Some l /\ ~ In l caller)) ->
      exec (SProd x ys) st Normal (mkst (bind (env st) x l) m (l :: alloc st) (log st))
  | XUpd : forall x ys l c st, env st x = Some l ->
      exec (SUpd x ys) st Normal (mkst (env st) (put (mem st) l c) (alloc st) (log st))
  | XAppend : forall x l st, env st x = Some l ->
      exec (SAppend x) st Normal (mkst (env st) (mem st) (alloc st) ((l, mem st l) :: log st))
  | XSeq : forall a b st st1 o st2, exec a st Normal st1 -> exec b st1 o st2 -> exec (SSeq a b) st o st2
  | XSeq1 : forall a b st o st1, exec a st o st1 -> o <> Normal -> exec (SSeq a b) st o st1
  | XIf1 : forall a b st o st1, exec a st o st1 -> exec (SIf a b) st o st1
  | XIf2 : forall a b st o st1, exec b st o st1 -> exec (SIf a b) st o st1
  | XStop : forall b st, exec (SWhile b) st Normal st
  | XIter : forall b st o st1 o2 st2, exec b st o st1 -> o = Normal \/ o = Continued ->
      exec (SWhile b) st1 o2 st2 -> exec (SWhile b) st o2 st2
  | XBroke : forall b st st1, exec b st Broke st1 -> exec (SWhile b) st Normal st1
  | XLeft : forall b st o st1, exec b st o st1 -> o = Returned \/ o = Raised -> exec (SWhile b) st o st1
  | XBreak : forall st, exec SBreak st Broke st
  | XContinue : forall st, exec SContinue st Continued st
  | XReturn : forall st, exec SReturn st Returned st.

(** The discipline.  [P]: the names that may denote an array of the caller; [Q]: the names of
    arrays that are put in a list. *)
Definition mem_ (x : var) (l : list var) : bool := existsb (String.eqb x) l.
Lemma mem_in : forall x l, mem_ x l = true <-> In x l.
Proof.
  intros x l. unfold mem_. rewrite existsb_exists. split.
  - intros (y & I & E). apply String.eqb_eq in E. subst y. exact I.
  - intro I. exists x. split; [exact I|apply String.eqb_refl].
Qed.
Lemma mem_nin : forall x l, mem_ x l = false <-> ~ In x l.
Proof.
  intros x l. rewrite <- mem_in. destruct (mem_ x l); split; intro H; congruence.
Qed.

Fixpoint ok (P Q : list var) (s : stmt) : bool :=
  match s with
  | SSkip | SNew _ _ | SBreak | SContinue | SReturn => true
  | SAlias x y => negb (mem_ x Q) && negb (mem_ y Q) && (negb (mem_ y P) || mem_ x P)
  | SProd x ys => negb (mem_ x Q) && forallb (fun y => negb (mem_ y Q)) ys
  | SUpd x _ => negb (mem_ x P) && negb (mem_ x Q)
  | SAppend x => mem_ x Q
  | SSeq a b | SIf a b => ok P Q a && ok P Q b
  | SWhile b => ok P Q b
  end.

Record inv (P Q : list var) (st : state) : Prop := mkinv {
  v_env : forall x l, env st x = Some l -> In l (alloc st);
  v_caller : forall l, In l caller -> In l (alloc st);
  v_own : forall l, In l own -> In l (alloc st);
  v_log : forall l c, In (l, c) (log st) -> In l (alloc st) /\ ~ In l own /\ ~ In l caller /\ mem st l = c;
  v_disj : forall l, In l own -> ~ In l caller;
  v_P : forall x l, env st x = Some l -> In l caller -> In x P;
  v_lQ : forall x l c, env st x = Some l -> In (l, c) (log st) -> In x Q;
  v_Q : forall x y l, env st x = Some l -> env st y = Some l -> In x Q -> y = x;
  v_Qown : forall x l, env st x = Some l -> In x Q -> ~ In l own /\ ~ In l caller }.

Ltac bindcase x z := unfold bind in *; destruct (String.eqb_spec z x); subst.

Lemma step_ok : forall P Q s st o st', exec s st o st' -> ok P Q s = true -> inv P Q st ->
  inv P Q st' /\
  (forall l, In l caller -> mem st' l = mem st l) /\
  (exists new, log st' = (new ++ log st)%list).
Proof.
  intros P Q s st o st' X. induction X; intros K I; cbn [ok] in K;
    rewrite ?Bool.andb_true_iff, ?Bool.orb_true_iff, ?negb_true_iff, ?mem_nin, ?mem_in in K;
    try (split; [exact I|]; split; [intros; reflexivity|exists []; reflexivity]).
  - (* alias *)
    destruct K as [[K1 K2] K3]. destruct I as [E1 E2 E3 E4 E5 E6 E7 E8 E9].
    split; [|split; [intros; reflexivity|exists []; reflexivity]].
    constructor; cbn [env mem alloc log]; try assumption.
    + intros z k Z. bindcase x z; [injection Z as <-; eauto|eauto].
    + intros z k Z M. bindcase x z; [injection Z as <-|eauto].
      destruct K3 as [K3|K3]; [exfalso; apply K3; eauto|exact K3].
    + intros z k c Z M. bindcase x z; [injection Z as <-; exfalso; eauto|eauto].
    + intros z1 z2 k Z1 Z2 M. bindcase x z1; bindcase x z2; try contradiction; try reflexivity; try (injection Z1 as <-).
      * injection Z2 as <-. assert (y = z1) by eauto. subst z1. contradiction.
      * eauto.
    + intros z k Z M. bindcase x z; [contradiction|eauto].
  - (* new *)
    destruct I as [E1 E2 E3 E4 E5 E6 E7 E8 E9].
    split; [|split; [|exists []; reflexivity]].
    2: { intros k M. cbn. unfold put. destruct (Nat.eqb_spec k l); [subst; exfalso; eauto|reflexivity]. }
    constructor; cbn [env mem alloc log]; try assumption.
    + intros z k Z. bindcase x z; [injection Z as <-; left; reflexivity|right; eauto].
    + intros k M. right. eauto.
    + intros k M. right. eauto.
    + intros k d M. destruct (E4 k d M) as (A & B & D & F). split; [right; exact A|]. split; [exact B|].
      split; [exact D|]. unfold put. destruct (Nat.eqb_spec k l); [subst; contradiction|exact F].
    + intros z k Z M. bindcase x z; [injection Z as <-; exfalso; eauto|eauto].
    + intros z k d Z M. bindcase x z; [injection Z as <-; exfalso; apply H; eapply E4; eauto|eauto].
    + intros z1 z2 k Z1 Z2 M. bindcase x z1; bindcase x z2; try reflexivity.
      * injection Z1 as <-. exfalso. eauto.
      * injection Z2 as <-. exfalso. eauto.
      * eauto.
    + intros z k Z M. bindcase x z; [injection Z as <-|eauto]. split; intro; eauto.
  - (* product *)
    destruct K as [K1 K2]. rewrite forallb_forall in K2.
    destruct I as [E1 E2 E3 E4 E5 E6 E7 E8 E9].
    assert (LC : ~ In l caller).
    { intro M. destruct H0 as [N|[N|(y & _ & _ & N)]]; [apply N; eauto|eapply E5; eauto|contradiction]. }
    assert (LL : forall c, ~ In (l, c) (log st)).
    { intros c M. destruct (E4 _ _ M) as (A & B & _ & _).
      destruct H0 as [N|[N|(y & Y & F & N)]]; [contradiction|contradiction|].
      specialize (K2 y Y). rewrite negb_true_iff, mem_nin in K2. apply K2. eauto. }
    assert (LQ : forall y, In y Q -> env st y <> Some l).
    { intros y QY F. destruct H0 as [N|[N|(z & Y & G & N)]].
      - apply N. eauto.
      - destruct (E9 _ _ F QY). contradiction.
      - specialize (K2 z Y). rewrite negb_true_iff, mem_nin in K2.
        assert (z = y) by eauto. subst z. contradiction. }
    split; [|split; [|exists []; reflexivity]].
    2: { intros k M. cbn. apply H; [eauto|]. intro O. eapply E5; eauto. }
    constructor; cbn [env mem alloc log]; try assumption.
    + intros z k Z. bindcase x z; [injection Z as <-; left; reflexivity|right; eauto].
    + intros k M. right. eauto.
    + intros k M. right. eauto.
    + intros k d M. destruct (E4 k d M) as (A & B & D & F). split; [right; exact A|]. split; [exact B|].
      split; [exact D|]. rewrite H; assumption.
    + intros z k Z M. bindcase x z; [injection Z as <-; contradiction|eauto].
    + intros z k d Z M. bindcase x z; [injection Z as <-; exfalso; eapply LL; eauto|eauto].
    + intros z1 z2 k Z1 Z2 M. bindcase x z1; bindcase x z2; try reflexivity; try contradiction.
      * injection Z2 as <-. exfalso. eapply LQ; eauto.
      * eauto.
    + intros z k Z M. bindcase x z; [contradiction|eauto].
  - (* update *)
    destruct K as [K1 K2]. destruct I as [E1 E2 E3 E4 E5 E6 E7 E8 E9].
    split; [|split; [|exists []; reflexivity]].
    2: { intros k M. cbn. unfold put. destruct (Nat.eqb_spec k l); [subst; exfalso; eauto|reflexivity]. }
    constructor; cbn [env mem alloc log]; try assumption.
    intros k d M. destruct (E4 k d M) as (A & B & D & F). repeat split; try assumption.
    unfold put. destruct (Nat.eqb_spec k l); [subst; exfalso; eauto|exact F].
  - (* append *)
    destruct I as [E1 E2 E3 E4 E5 E6 E7 E8 E9].
    split; [|split; [intros; reflexivity|exists [(l, mem st l)]; reflexivity]].
    constructor; cbn [env mem alloc log]; try assumption.
    + intros k d [M|M]; [injection M as <- <-|eauto]. destruct (E9 _ _ H K). repeat split; eauto.
    + intros z k d Z [M|M]; [injection M as <- _|eauto]. assert (z = x) by eauto. subst. exact K.
  - destruct K as [K1 K2]. destruct (IHX1 K1 I) as (I1 & M1 & n1 & L1).
    destruct (IHX2 K2 I1) as (I2 & M2 & n2 & L2). split; [exact I2|].
    split; [intros l C0; rewrite M2, M1; auto|]. exists (n2 ++ n1)%list. rewrite L2, L1, app_assoc. reflexivity.
  - destruct K as [K1 K2]. auto.
  - destruct K as [K1 K2]. auto.
  - destruct K as [K1 K2]. auto.
  - destruct (IHX1 K I) as (I1 & M1 & n1 & L1).
    destruct (IHX2 K I1) as (I2 & M2 & n2 & L2). split; [exact I2|].
    split; [intros l C0; rewrite M2, M1; auto|]. exists (n2 ++ n1)%list. rewrite L2, L1, app_assoc. reflexivity.
  - auto.
  - auto.
Qed.

(** A call of [solve]: the parameters are bound to arrays of the caller, everything else is unbound. *)
Definition called (params : list var) (st : state) : Prop :=
  (forall x l, env st x = Some l -> In x params /\ In l caller) /\
  (forall l, In l caller -> In l (alloc st) /\ ~ In l own) /\
  (forall l, In l own -> In l (alloc st)) /\ log st = [].

Theorem sound : forall P Q params s, ok P Q s = true ->
  forallb (fun x => mem_ x P) params = true -> forallb (fun x => negb (mem_ x Q)) params = true ->
  forall st o st', called params st -> exec s st o st' ->
  (forall l, In l caller -> mem st' l = mem st l) /\
  (forall l c, In (l, c) (log st') -> mem st' l = c) /\
  (forall x l, ~ In x P -> env st' x = Some l -> ~ In l caller) /\
  (forall x l c, ~ In x Q -> env st' x = Some l -> ~ In (l, c) (log st')).
Proof.
  intros P Q params s K KP KQ st o st' (B & A & O & L) X. rewrite forallb_forall in KP, KQ.
  assert (I : inv P Q st).
  { constructor; rewrite ?L.
    - intros x l Z. apply A, (B x l Z).
    - intros l M. apply A, M.
    - exact O.
    - intros l c [].
    - intros l M N. apply (A l N). exact M.
    - intros x l Z M. apply mem_in, KP, (B x l Z).
    - intros x l c _ [].
    - intros x y l Z _ M. destruct (B x l Z) as [X1 _]. specialize (KQ x X1).
      rewrite negb_true_iff, mem_nin in KQ. contradiction.
    - intros x l Z M. destruct (B x l Z) as [X1 _]. specialize (KQ x X1).
      rewrite negb_true_iff, mem_nin in KQ. contradiction. }
  destruct (step_ok P Q s st o st' X K I) as (I' & M & _). destruct I'.
  split; [exact M|]. split; [intros l c H; apply (v_log0 l c H)|]. split; eauto.
Qed.
End Semantics.
