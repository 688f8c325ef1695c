(** * Python expressions mixing numbers, arrays, operators and other values

    The dispatch of the special methods of LinearOperator on the type of the other operand
    (linop.py:87-89, 300-305, 362-452) and Python's binary operator protocol around them.

    Simplifications: scalars are Python int, float and complex (no strings, numpy scalars or longs);
    "other" values are None, lists and tuples.  What Python and numpy do when no operand is an
    operator is a parameter ([base]).  A binary operator with an array on the left and an operator
    on the right is decided by numpy; it is outside the model ([EFuel]). *)
From Coq Require Import List ZArith Lia Bool.
From Verif Require Import Base Field Vec LinopModel.
Import ListNotations.

Section Py.
Context {F : Fld}.
Notation st := (st F). Notation M := (M F). Notation arr := (arr F).

Inductive pv := PNum (c : pynum F) | PArr (x : arr) | POther.
Inductive val := VBase (p : pv) | VOp (a : addr).
Inductive bop := BMul | BAdd | BSub | BDiv | BTrueDiv | BPow.
Inductive uop := UNeg | UT | UH | UBar.

(** Python and numpy on values that are not operators. *)
Record base := mkbase { b2 : bop -> pv -> pv -> res pv; b1 : uop -> pv -> res pv }.

Definition num_scalar (c : pynum F) : scalar F :=
  match c with
  | PyInt z => mkscalar DInt (kofZ z)
  | PyFloat x => mkscalar DFloat x
  | PyComplex x => mkscalar DComplex x
  end.

Local Notation "'do' x <- m ;; k" := (bind m (fun x => k)) (at level 200, x name, k at level 200).
Definition newop (m : M addr) : M val := do a <- m ;; ret (VOp a).

(** __mul__, linop.py:362-369, and __call__, linop.py:87-89 *)
Definition py_mul (d : nat) (a : addr) (v : val) : M val :=
  match v with
  | VBase (PNum c) => newop (mul_scalar a (num_scalar c))
  | VOp b => newop (mul_linop a b)
  | VBase (PArr x) => do y <- apply d a x ;; ret (VBase (PArr y))
  | VBase POther => raise ValueError
  end.
(** __rmul__, linop.py:371-376 *)
Definition py_rmul (a : addr) (v : val) : M val :=
  match v with
  | VBase (PNum c) => newop (mul_scalar a (num_scalar c))
  | VOp b => newop (mul_linop b a)
  | VBase _ => raise ValueError
  end.
(** __add__, linop.py:378-401; __sub__, linop.py:406-429 *)
Definition py_add (a : addr) (v : val) : M val :=
  match v with VOp b => newop (add_linop a b) | VBase _ => raise ValueError end.
Definition py_sub (a : addr) (v : val) : M val :=
  match v with VOp b => newop (sub_linop a b) | VBase _ => raise ValueError end.
(** __div__, linop.py:431-434; __truediv__, linop.py:436-439 *)
Definition py_div (a : addr) (v : val) : M val :=
  match v with VBase (PNum c) => newop (div_linop a c) | _ => raise ValueError end.
Definition py_truediv (a : addr) (v : val) : M val :=
  match v with VBase (PNum c) => newop (truediv_linop a c) | _ => raise ValueError end.
(** __pow__, linop.py:441-452 *)
Definition py_pow (a : addr) (v : val) : M val :=
  match v with VBase (PNum (PyInt k)) => newop (pow_linop a k) | _ => raise ValueError end.

(** u op v.  Numbers, None, lists and tuples do not know operators, so the reflected method of the
    operator is tried; only __rmul__ exists. *)
Definition binary (B : base) (d : nat) (o : bop) (u v : val) : M val :=
  match u, v with
  | VBase p, VBase q => do r <- lift (b2 B o p q) ;; ret (VBase r)
  | VOp a, _ =>
      match o with
      | BMul => py_mul d a v | BAdd => py_add a v | BSub => py_sub a v
      | BDiv => py_div a v | BTrueDiv => py_truediv a v | BPow => py_pow a v
      end
  | VBase (PArr _), VOp _ => raise EFuel
  | VBase _, VOp b => match o with BMul => py_rmul b u | _ => raise TypeError end
  end.

(** -u, u.T, u.H, u.bar: linop.py:403-404, 196-209; an attribute that is None gives None *)
Definition opt_val (o : option addr) : val := match o with Some a => VOp a | None => VBase POther end.
Definition unary (B : base) (o : uop) (u : val) : M val :=
  match u with
  | VBase p => do r <- lift (b1 B o p) ;; ret (VBase r)
  | VOp a =>
      match o with
      | UNeg => newop (neg_linop a)
      | UT => do t <- getattr o_T a ;; ret (opt_val t)
      | UH => do t <- getattr o_H a ;; ret (opt_val t)
      | UBar => newop (conjugate a)
      end
  end.

(** u(v), linop.py:87-89; only operators are callable *)
Definition py_call (d : nat) (u v : val) : M val :=
  match u with VOp a => py_mul d a v | VBase _ => raise TypeError end.
(** u.rmatvec(v), linop.py:300-305 *)
Definition py_rmatvec (d : nat) (u v : val) : M val :=
  match u with
  | VOp a => do h <- getattr o_H a ;;
             match h with Some h => py_mul d h v | None => raise AttributeError end
  | VBase _ => raise AttributeError
  end.
(** u.reset_counters(), linop.py:83-85 *)
Definition py_reset (u : val) : M val :=
  match u with
  | VOp a => do t <- reset_counters a ;; ret (VBase POther)
  | VBase _ => raise AttributeError
  end.

(** u.dtype = v, linop.py:70-76; [None] stands for a value that is not in allowed_types *)
Definition with_dtype (d : dtype) (o : obj F) : obj F :=
  mkobj (o_nargin o) (o_nargout o) (o_sym o) (o_herm o) d (o_count o) (o_mv o) (o_T o) (o_H o) (o_pay o).
Definition set_dtype (a : addr) (v : option dtype) : M unit :=
  match v with Some d => modobj a (with_dtype d) | None => raise TypeError end.

Inductive pexp :=
| XVar (i : nat)
| XLit (p : pv)
| XId (n : nat) (dt : dtype)                 (* IdentityOperator(n, dtype=dt) *)
| XZero (n m : nat) (dt : dtype)             (* ZeroOperator(n, m, dtype=dt) *)
| XBin (o : bop) (e1 e2 : pexp)
| XUn (o : uop) (e : pexp)
| XCall (e1 e2 : pexp)
| XRmatvec (e1 e2 : pexp)
| XReset (e : pexp).

(** operands are evaluated left to right *)
Fixpoint peval (B : base) (d : nat) (env : list val) (e : pexp) : M val :=
  match e with
  | XVar i => match nth_error env i with Some v => ret v | None => raise KeyError end
  | XLit p => ret (VBase p)
  | XId n dt => newop (identity_op n dt)
  | XZero n m dt => newop (zero_op n m dt)
  | XBin o e1 e2 => do u <- peval B d env e1 ;; do v <- peval B d env e2 ;; binary B d o u v
  | XUn o e => do u <- peval B d env e ;; unary B o u
  | XCall e1 e2 => do u <- peval B d env e1 ;; do v <- peval B d env e2 ;; py_call d u v
  | XRmatvec e1 e2 => do u <- peval B d env e1 ;; do v <- peval B d env e2 ;; py_rmatvec d u v
  | XReset e => do u <- peval B d env e ;; py_reset u
  end.

(** A program: every line is  try: v = e  except Exception: v = None , with a new variable v.
    The result lists what happened in each line. *)
Fixpoint prun (B : base) (d : nat) (env : list val) (p : list pexp) (s : st) : st * list (res val) :=
  match p with
  | [] => (s, [])
  | e :: p' =>
      let '(s1, r) := peval B d env e s in
      let v := match r with Ok v => v | Err _ => VBase POther end in
      let '(s2, rs) := prun B d (env ++ [v]) p' s1 in (s2, r :: rs)
  end.

(** An instance of [base]: Python numbers and one-dimensional arrays under + - * / with numbers as
    factors and arrays of equal length; anything else is [EFuel] here. *)
Definition num_of (d : dtype) (x : F) : pynum F := match d with DComplex => PyComplex x | _ => PyFloat x end.
Definition num_op (zop : Z -> Z -> Z) (kop : F -> F -> F) (a b : pynum F) : pynum F :=
  match a, b with
  | PyInt x, PyInt y => PyInt (zop x y)
  | _, _ => num_of (result_type (sty (num_scalar a)) (sty (num_scalar b))) (kop (sval (num_scalar a)) (sval (num_scalar b)))
  end.
Definition num_div (true_div : bool) (a b : pynum F) : res (pynum F) :=
  if keqb (sval (num_scalar b)) k0 then Err ZeroDivisionError else
  match a, b with
  | PyInt x, PyInt y => Ok (if true_div then PyFloat (kmul (kofZ x) (kinv (kofZ y))) else PyInt (x / y))
  | _, _ => Ok (num_op Z.mul (fun x y => kmul x (kinv y)) a b)
  end.
Definition np2 (o : bop) (p q : pv) : res pv :=
  match o, p, q with
  | BMul, PNum a, PNum b => Ok (PNum (num_op Z.mul kmul a b))
  | BAdd, PNum a, PNum b => Ok (PNum (num_op Z.add kadd a b))
  | BSub, PNum a, PNum b => Ok (PNum (num_op Z.sub ksub a b))
  | BDiv, PNum a, PNum b => rmap PNum (num_div false a b)
  | BTrueDiv, PNum a, PNum b => rmap PNum (num_div true a b)
  | BMul, PNum a, PArr x | BMul, PArr x, PNum a => Ok (PArr (smul (num_scalar a) x))
  | BAdd, PArr x, PArr y => if Nat.eqb (asize x) (asize y) then Ok (PArr (aadd x y)) else Err EFuel
  | BSub, PArr x, PArr y => if Nat.eqb (asize x) (asize y) then Ok (PArr (asub x y)) else Err EFuel
  | _, _, _ => Err EFuel
  end.
Definition np1 (o : uop) (p : pv) : res pv :=
  match o, p with
  | UNeg, PNum (PyInt z) => Ok (PNum (PyInt (- z)))
  | UNeg, PNum (PyFloat x) => Ok (PNum (PyFloat (kopp x)))
  | UNeg, PNum (PyComplex x) => Ok (PNum (PyComplex (kopp x)))
  | UNeg, PArr x => Ok (PArr (mkarr (adt x) (map kopp (adata x))))
  | UNeg, POther => Err TypeError
  | UT, PArr x => Ok (PArr x)
  | _, _ => Err AttributeError
  end.
Definition np : base := mkbase np2 np1.
End Py.
Arguments pv : clear implicits. Arguments val : clear implicits. Arguments base : clear implicits.
Arguments pexp : clear implicits.
