(** * Model of pykrylov/symmlq/symmlq.py: [solve] up to the point where it always raises. *)
From Coq Require Import List String Bool QArith.
From Verif Require Import Base Num ToolsModel CgModel.
Import ListNotations.
Local Open Scope string_scope.

(** The attributes of a [Symmlq] object: generic.py:65-87 ([KrylovMethod.__init__]), symmlq.py:56-62
    ([Symmlq.__init__]) and the methods of the two classes (generic.py:89-98, symmlq.py:65). *)
Definition symmlq_attrs : list string :=
  ["prefix"; "name"; "op"; "abstol"; "reltol"; "precon"; "logger"; "residNorm"; "residNorm0"; "residHistory";
   "nMatvec"; "nIter"; "converged"; "bestSolution"; "x"; "acronym"; "iterates"; "__init__"; "_write"; "solve"].

Section Symmlq.
Context {K : Scal} {W : Vs K}.
Notation S := (sc K).
Notation V := (vc W).

Definition getattr (attrs : list string) (name : string) : res unit :=
  if existsb (String.eqb name) attrs then Ok tt else Err AttributeError.

(** symmlq.py:84-235.  [attrs] are the attributes of the object; [rest] stands for the statements
    that follow a successful look-up of [self.matvec] (symmlq.py:162-400): they are not modelled, so
    [rest] is arbitrary.  Logging is not modelled. *)
Definition sl_solve {X : Type} (attrs : list string) (rest : V -> S -> bool -> res X)
  (q : kprob W) (rhs : V) (check : bool) : res X :=
  let r1 := rhs in
  let y := match q_P q with Some P => P r1 | None => rhs end in
  if (vlen y =? 0)%nat then Err IndexError else          (* b1 = y[0] *)
  let beta1 := vdot r1 y in
  let done := match q_P q with
              | Some P =>
                if check then
                  let r2 := P y in
                  let s := vdot y y in
                  let t := vdot r1 r2 in
                  sgtb (sabs (ssub s t)) (smul (sadd s machine_eps) (q_cbrt q machine_eps))
                else false
              | None => false
              end in
  let done := done || sltb beta1 s0 || seqb beta1 s0 in
  if sgtb beta1 s0 then
    let beta1 := ssqrt beta1 in
    let v := vscale (sdiv s1 beta1) y in
    rbind (getattr attrs "matvec") (fun _ => rest v beta1 done)   (* y = self.matvec(v) *)
  else
    (* x1cg is only assigned when beta1 > 0; it is read at symmlq.py:225 *)
    Err UnboundLocalError.

Lemma sl_solve_spec : forall (X : Type) (rest : V -> S -> bool -> res X) q rhs check,
  let y := match q_P q with Some P => P rhs | None => rhs end in
  sl_solve symmlq_attrs rest q rhs check =
    if (vlen y =? 0)%nat then Err IndexError
    else if sltb s0 (vdot rhs y) then Err AttributeError else Err UnboundLocalError.
Proof.
  intros X rest q rhs check y. unfold sl_solve. fold y. unfold sgtb. destruct (vlen y =? 0)%nat; [reflexivity|].
  destruct (sltb s0 (vdot rhs y)); reflexivity.
Qed.
End Symmlq.

(** ** Property C49. *)
Theorem C49_never_returns : forall (K : Scal) (W : Vs K) (X : Type) (rest : vc W -> sc K -> bool -> res X) (q : kprob W)
    (rhs : vc W) (check : bool),
  let y := match q_P q with Some P => P rhs | None => rhs end in
  (forall x, sl_solve symmlq_attrs rest q rhs check <> Ok x) /\
  ((1 <= vlen y)%nat -> sltb s0 (vdot rhs y) = true ->
     sl_solve symmlq_attrs rest q rhs check = Err AttributeError) /\
  ((1 <= vlen y)%nat -> sltb s0 (vdot rhs y) = false ->
     sl_solve symmlq_attrs rest q rhs check = Err UnboundLocalError) /\
  (vlen y = 0%nat -> sl_solve symmlq_attrs rest q rhs check = Err IndexError).
Proof.
  intros K W X rest q rhs check y. pose proof (sl_solve_spec X rest q rhs check) as H. cbv zeta in H. fold y in H.
  rewrite H. destruct (vlen y) as [|l]; cbn [Nat.eqb].
  - split; [discriminate|]. split; [intro L; inversion L|]. split; [intro L; inversion L|]. reflexivity.
  - split; [destruct (sltb s0 (vdot rhs y)); discriminate|].
    split; [intros _ ->; reflexivity|]. split; [intros _ ->; reflexivity|discriminate].
Qed.

(** All three outcomes occur; and the look-up is what fails: with the attribute present the result
    is whatever follows. *)
Example ex_C49 : forall (K : Scal) (W : Vs K) (X : Type) (rest : vc W -> sc K -> bool -> res X) (q : kprob W) rhs,
  q_P q = None -> (1 <= vlen rhs)%nat -> sltb s0 (vdot rhs rhs) = true ->
  sl_solve ("matvec" :: symmlq_attrs) rest q rhs false =
    rest (vscale (sdiv s1 (ssqrt (vdot rhs rhs))) rhs) (ssqrt (vdot rhs rhs))
      (sltb (vdot rhs rhs) s0 || seqb (vdot rhs rhs) s0).
Proof.
  intros K W X rest q rhs NP L P. unfold sl_solve. rewrite NP. unfold sgtb. rewrite P.
  destruct (vlen rhs) eqn:E; [inversion L|]. reflexivity.
Qed.

Print Assumptions C49_never_returns.
