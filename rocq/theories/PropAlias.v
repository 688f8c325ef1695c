(** * C64: the solvers do not modify the arrays of their caller. *)
From Coq Require Import List String Arith Bool Lia.
From Verif Require Import Alias AliasProgs.
Import ListNotations.
Open Scope string_scope.

(** The names that may denote an array of the caller, for each solver. *)
Definition shared : list (list var) :=
  [ ["rhs"; "guess"]; ["rhs"; "guess"; "r0"; "u"]; ["rhs"; "guess"; "r0"]; ["rhs"; "guess"; "r0"];
    ["b"; "r1"]; ["rhs"]; ["rhs"; "_view"]; ["b"]; ["rhs"; "_view"]; ["b"] ].

Definition outputs : list var :=
  ["self.x"; "self.bestSolution"; "self.r"; "self.var"; "self.infiniteDescent"; "return"].

Definition accepted (e : (string * list var * stmt) * list var) : bool :=
  let '((_, params, s), P) := e in
  ok P ["_copy"] s && forallb (fun x => mem_ x P) params &&
  forallb (fun x => negb (mem_ x ["_copy"])) params &&
  forallb (fun x => negb (mem_ x P) && negb (mem_ x ["_copy"])) outputs.

Lemma all_accepted : forallb accepted (combine solvers shared) = true.
Proof. vm_compute. reflexivity. Qed.

Lemma combine_in : forall (A B : Type) (l : list A) (m : list B) a, List.length l = List.length m -> In a l ->
  exists b, In (a, b) (combine l m).
Proof.
  intros A B l. induction l as [|x l IH]; intros [|y m] a L I; cbn in *; try discriminate; [contradiction|].
  destruct I as [<-|I]; [exists y; left; reflexivity|].
  destruct (IH m a ltac:(lia) I) as [b J]. exists b. right. exact J.
Qed.

Lemma solver_sound : forall name params s, In (name, params, s) solvers ->
  forall (C : Type) own caller (st : state C) o st', called C own caller params st -> exec C own caller s st o st' ->
  (forall l, In l caller -> mem C st' l = mem C st l) /\
  (forall l c, In (l, c) (log C st') -> mem C st' l = c) /\
  (forall x l, In x outputs -> env C st' x = Some l -> ~ In l caller /\ forall c, ~ In (l, c) (log C st')).
Proof.
  intros name params s I C own caller st o st' K X.
  destruct (combine_in _ _ solvers shared _ eq_refl I) as [P J].
  pose proof all_accepted as A. rewrite forallb_forall in A. specialize (A _ J).
  cbn [accepted] in A. rewrite !andb_true_iff in A. destruct A as [[[A1 A2] A3] A4].
  destruct (sound C own caller P ["_copy"] params s A1 A2 A3 st o st' K X) as (M & L & E1 & E2).
  split; [exact M|]. split; [exact L|].
  intros x l O B. rewrite forallb_forall in A4. specialize (A4 x O).
  rewrite andb_true_iff, !negb_true_iff, !mem_nin in A4. destruct A4 as [N1 N2].
  split; [eapply E1; eauto|]. intro c. eapply E2; eauto.
Qed.

(** Whatever the branches taken, however many iterations are made and wherever an exception is
    raised, the arrays of the caller have their initial contents. *)
Theorem C64_caller_arrays : forall name params s, In (name, params, s) solvers ->
  forall (C : Type) own caller (st : state C) o st', called C own caller params st -> exec C own caller s st o st' ->
  forall l, In l caller -> mem C st' l = mem C st l.
Proof. intros name params s I C own caller st o st' K X. exact (proj1 (solver_sound _ _ _ I _ _ _ _ _ _ K X)). Qed.

(** The arrays stored in [self.iterates], [self.resids], ... keep the contents they had when they
    were stored. *)
Theorem C64_stored_arrays : forall name params s, In (name, params, s) solvers ->
  forall (C : Type) own caller (st : state C) o st', called C own caller params st -> exec C own caller s st o st' ->
  forall l c, In (l, c) (log C st') -> mem C st' l = c.
Proof. intros name params s I C own caller st o st' K X. exact (proj1 (proj2 (solver_sound _ _ _ I _ _ _ _ _ _ K X))). Qed.

(** The results ([self.x], ...) share no memory with the arrays of the caller nor with the stored arrays. *)
Theorem C64_results : forall name params s, In (name, params, s) solvers ->
  forall (C : Type) own caller (st : state C) o st', called C own caller params st -> exec C own caller s st o st' ->
  forall x l, In x outputs -> env C st' x = Some l -> ~ In l caller /\ forall c, ~ In (l, c) (log C st').
Proof. intros name params s I C own caller st o st' K X. exact (proj2 (proj2 (solver_sound _ _ _ I _ _ _ _ _ _ K X))). Qed.

(** A call of [solve] with a right-hand side and a guess, and an operator that owns an array. *)
Definition st0 : state nat :=
  mkst nat (fun x => if String.eqb x "rhs" then Some 0 else if String.eqb x "guess" then Some 1 else None)
       (fun l => 10 + l) [0; 1; 2] [].
Example ex_C64 : called nat [2] [0; 1] ["rhs"; "guess"] st0.
Proof.
  split; [|split; [|split; [|reflexivity]]].
  - intros x l. unfold st0. cbn [env].
    destruct (String.eqb_spec x "rhs"); [intro H; injection H as <-; subst; cbn; auto|].
    destruct (String.eqb_spec x "guess"); [intro H; injection H as <-; subst; cbn; auto|discriminate].
  - intros l H. cbn in *. intuition lia.
  - intros l H. cbn in *. intuition lia.
Qed.

Definition first_of (st : state nat) (ys : list var) : nat :=
  match ys with y :: _ => match env nat st y with Some k => mem nat st k | None => 0 end | [] => 0 end.
(** The programs do run: an interpreter that takes its decisions from a list, makes products return
    new arrays, makes a new array a copy of the first array used, and writes at each update the
    number of arrays allocated so far. *)
Definition nxt (st : state nat) : nat := S (list_max (alloc nat st)).
Fixpoint run (fuel : nat) (cs : list bool) (s : stmt) (st : state nat) : option (outcome * state nat * list bool) :=
  match fuel with 0 => None | S fuel =>
  match s with
  | SSkip => Some (Normal, st, cs)
  | SAlias x y => match env nat st y with
      | Some l => Some (Normal, mkst nat (bind (env nat st) x l) (mem nat st) (alloc nat st) (log nat st), cs)
      | None => None end
  | SNew x ys | SProd x ys => let l := nxt st in
      Some (Normal, mkst nat (bind (env nat st) x l) (put nat (mem nat st) l (first_of st ys)) (l :: alloc nat st) (log nat st), cs)
  | SUpd x ys => match env nat st x with
      | Some l => Some (Normal, mkst nat (env nat st) (put nat (mem nat st) l (nxt st)) (alloc nat st) (log nat st), cs)
      | None => None end
  | SAppend x => match env nat st x with
      | Some l => Some (Normal, mkst nat (env nat st) (mem nat st) (alloc nat st) ((l, mem nat st l) :: log nat st), cs)
      | None => None end
  | SSeq a b => match run fuel cs a st with
      | Some (Normal, st1, cs1) => run fuel cs1 b st1
      | r => r end
  | SIf a b => match cs with
      | true :: cs => run fuel cs a st
      | false :: cs => run fuel cs b st
      | [] => Some (Raised, st, []) end
  | SWhile b => match cs with
      | true :: cs => match run fuel cs b st with
          | Some (Normal, st1, cs1) | Some (Continued, st1, cs1) => run fuel cs1 (SWhile b) st1
          | Some (Broke, st1, cs1) => Some (Normal, st1, cs1)
          | r => r end
      | false :: cs => Some (Normal, st, cs)
      | [] => Some (Raised, st, []) end
  | SBreak => Some (Broke, st, cs)
  | SContinue => Some (Continued, st, cs)
  | SReturn => Some (Returned, st, cs)
  end end.

Lemma nxt_fresh : forall st, ~ In (nxt st) (alloc nat st).
Proof.
  intros st I. pose proof (proj1 (list_max_le (alloc nat st) (list_max (alloc nat st))) (le_n _)) as H.
  rewrite Forall_forall in H. specialize (H _ I). unfold nxt in H. lia.
Qed.
Lemma run_exec : forall own caller fuel cs s st o st' cs',
  run fuel cs s st = Some (o, st', cs') -> exec nat own caller s st o st'.
Proof.
  intros own caller fuel. induction fuel as [|fuel IH]; intros cs s st o st' cs' H; [discriminate|].
  destruct s; cbn [run] in H.
  - injection H as <- <- <-. apply XSkip.
  - destruct (env nat st y) eqn:Y; [|discriminate]. injection H as <- <- <-. apply XAlias, Y.
  - injection H as <- <- <-. apply XNew, nxt_fresh.
  - injection H as <- <- <-. apply XProd; [|left; apply nxt_fresh].
    intros k A _. unfold put. destruct (Nat.eqb_spec k (nxt st)); [subst; exfalso; eapply nxt_fresh, A|reflexivity].
  - destruct (env nat st x) eqn:Y; [|discriminate]. injection H as <- <- <-. apply XUpd, Y.
  - destruct (env nat st x) eqn:Y; [|discriminate]. injection H as <- <- <-. apply XAppend, Y.
  - destruct (run fuel cs s1 st) as [[[[] st1] cs1]|] eqn:R; try discriminate;
      try (injection H as <- <- <-; eapply XSeq1; [eapply IH, R|discriminate]).
    eapply XSeq; [eapply IH, R|eapply IH, H].
  - destruct cs as [|[] cs]; [injection H as <- <- <-; apply XRaise|apply XIf1|apply XIf2]; eapply IH, H.
  - destruct cs as [|[] cs]; [injection H as <- <- <-; apply XRaise| |injection H as <- <- <-; apply XStop].
    destruct (run fuel cs s st) as [[[[] st1] cs1]|] eqn:R; try discriminate.
    + eapply XIter; [eapply IH, R|left; reflexivity|eapply IH, H].
    + injection H as <- <- <-. apply XBroke. eapply IH, R.
    + eapply XIter; [eapply IH, R|right; reflexivity|eapply IH, H].
    + injection H as <- <- <-. apply XLeft; [eapply IH, R|left; reflexivity].
    + injection H as <- <- <-. apply XLeft; [eapply IH, R|right; reflexivity].
  - injection H as <- <- <-. apply XBreak.
  - injection H as <- <- <-. apply XContinue.
  - injection H as <- <- <-. apply XReturn.
Qed.

(** CGS with a guess, one full iteration, and the second one left by the convergence test: the
    solution is another array than the guess, and was updated twice. *)
Example ex_C64_cgs : exists st' cs', run 1000 [true; false; true; true; false; false; false; true; false; false; true; false] cgs_prog st0
    = Some (Normal, st', cs') /\ cs' = [] /\
  exists l, env nat st' "self.x" = Some l /\ l <> 1 /\ mem nat st' l <> 0 /\ mem nat st' 0 = 10 /\ mem nat st' 1 = 11.
Proof.
  eexists. eexists. split; [vm_compute; reflexivity|]. split; [reflexivity|].
  eexists. split; [reflexivity|]. repeat split; discriminate.
Qed.

(** LSQR without preconditioners, with stored iterates and one iteration: two arrays are stored,
    and their contents differ. *)
Example ex_C64_lsqr : exists st' cs', run 1000 [true; false; true; false; false; true; false; true;
      true; false; true; false; false; true; false; false; true; true] lsqr_prog st0
    = Some (Normal, st', cs') /\ cs' = [] /\ map snd (log nat st') = [16; 0].
Proof. eexists. eexists. split; [vm_compute; reflexivity|]. split; reflexivity. Qed.

(** Wrong programs do write to the right-hand side: CGS with [p = r0] instead of [p = r0.copy()]. *)
Example ex_C64_wrong : exists st', exec nat [2] [0; 1]
    (seq [SAlias "r0" "rhs"; SAlias "p" "r0"; SWhile (seq [SUpd "p" []; SUpd "p" []])]) st0 Normal st' /\
  mem nat st' 0 <> mem nat st0 0.
Proof.
  eexists. split.
  - unfold seq. eapply XSeq; [eapply XAlias; reflexivity|]. eapply XSeq; [eapply XAlias; reflexivity|].
    eapply XIter; [|left; reflexivity|apply XStop].
    eapply XSeq; [eapply (XUpd nat _ _ _ _ _ 1); reflexivity|eapply (XUpd nat _ _ _ _ _ 2); reflexivity].
  - vm_compute. discriminate.
Qed.

Print Assumptions C64_caller_arrays.
Print Assumptions C64_stored_arrays.
Print Assumptions C64_results.
