(** * Operators made from external matrices: PysparseLinearOperator (pykrylov/linop/linop.py:688-720) and
    CholeskyOperator (pykrylov/linop/cholesky.py:15-43).

    The external objects (a Pysparse matrix, a CHOLMOD factor) are records of functions; nothing is
    assumed about them here. *)
From Coq Require Import List ZArith Lia Bool.
From Verif Require Import Base Field Vec LinopModel LinopUser.
Import ListNotations.

Section Wrap.
Context {F : Fld}.
Notation st := (st F). Notation M := (M F). Notation arr := (arr F).

(** A Pysparse matrix: its shape, the attribute [issym] (None if it is missing), the value of
    [isSymmetric()], the outcome of [A*x] and [y*A] (None if the method is missing), and what
    [matvec(x, y)] and [matvec_transp(x, y)] write into their second argument. *)
Record psmat := mkpsmat {
  ps_nrow : nat; ps_ncol : nat;
  ps_issym : option bool; ps_isSymmetric : bool;
  ps_mul : option (arr -> res arr); ps_rmul : option (arr -> res arr);
  ps_matvec : arr -> res (list F); ps_matvec_transp : arr -> res (list F)
}.

(** linop.py:697-706 *)
Definition ps_mv (A : psmat) (x : arr) : res arr :=
  if negb (asize x =? ps_ncol A) then Err ShapeError
  else match ps_mul A with
       | Some g => g x
       | None => match ps_matvec A x with Ok y => Ok (mkarr DFloat y) | Err e => Err e end
       end.
(** linop.py:708-717 *)
Definition ps_mvT (A : psmat) (y : arr) : res arr :=
  if negb (asize y =? ps_nrow A) then Err ShapeError
  else match ps_rmul A with
       | Some g => g y
       | None => match ps_matvec_transp A y with Ok z => Ok (mkarr DFloat z) | Err e => Err e end
       end.
(** linop.py:691-695 *)
Definition ps_sym (A : psmat) : bool := match ps_issym A with Some b => b | None => ps_isSymmetric A end.
(** linop.py:688-720 *)
Definition pysparse_op (A : psmat) : M addr :=
  user_op (ps_ncol A) (ps_nrow A) (ps_mv A) (Some (ps_mvT A)) None (ps_sym A) false DFloat.

(** CholeskyOperator.__init__ and cholesky_matvec, cholesky.py:23-43: [m, n] is the shape of the matrix, [fac]
    the outcome of [cholesky(A)], whose calls solve; [herm] and [dt] are keyword arguments *)
Definition cholesky_op (m n : nat) (fac : res (arr -> res arr)) (herm : bool) (dt : dtype) : M addr :=
  if negb (m =? n) then raise ValueError
  else bind (lift fac) (fun solve => user_op n n solve None None true herm dt).
End Wrap.
Arguments psmat F : clear implicits.
