(** * Shared vocabulary: Python exceptions as values, and a state monad. *)
From Coq Require Import List ZArith Lia Bool.
Import ListNotations.

(** Python exceptions that the modelled code can raise.  [EFuel] and [EDangling] are
    model artefacts (call depth exhausted, reference to a non-existing heap cell); every theorem
    that claims success or a specific exception thereby excludes them. *)
Inductive exn :=
| ShapeError            (* pykrylov/linop/linop.py:626-635 *)
| ValueError | TypeError | AttributeError | IndexError
| ZeroDivisionError | UnboundLocalError | KeyError
| UserError             (* any exception raised by a user-supplied function *)
| EFuel | EDangling.

Inductive res (A : Type) :=
| Ok (a : A)
| Err (e : exn).
Arguments Ok {A} a.
Arguments Err {A} e.

Definition bad {A} (r : res A) : bool :=
  match r with Err EFuel => true | Err EDangling => true | _ => false end.

Definition rbind {A B} (r : res A) (k : A -> res B) : res B :=
  match r with Ok a => k a | Err e => Err e end.

Definition rmap {A B} (f : A -> B) (r : res A) : res B :=
  match r with Ok a => Ok (f a) | Err e => Err e end.
