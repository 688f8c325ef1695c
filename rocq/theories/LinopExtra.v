(** * Model, continued: diagonal abs/sqrt, coordinate operators, operators from arrays
    (pykrylov/linop/linop.py:505-516, 553-557, 638-685, 723-754). *)
From Coq Require Import List ZArith Lia Bool.
From Verif Require Import Base Field Vec LinopModel.
Import ListNotations.

Section Extra.
Context {F : Fld}.
Notation st := (st F). Notation M := (M F). Notation arr := (arr F).
Local Notation "'do' x <- m ;; k" := (bind m (fun x => k)) (at level 200, x name, k at level 200).

(** np.abs, np.sqrt, and  < 0  on entries are parameters: the field itself has no order. *)
Section AbsSqrt.
Variables (kabs ksqrt : F -> F) (kneg : F -> bool).

(** DiagonalOperator.__abs__ (linop.py:510-511): np.abs of a complex array is real;
    ZeroOperator.__abs__ (553-554) returns self; other operators have no __abs__ *)
Definition abs_op (a : addr) : M addr :=
  do p <- getattr o_pay a ;;
  match p with
  | PDiag d => diag_op_list (mkarr (if is_complex (adt d) then DFloat else adt d) (map kabs (adata d)))
  | PZero => ret a
  | _ => raise TypeError
  end.
(** sqrt(op) (linop.py:748-754) and DiagonalOperator._sqrt (513-516), ZeroOperator._sqrt (556-557);
    np.sqrt of an integer array is real *)
Definition sqrt_op (a : addr) : M addr :=
  do p <- getattr o_pay a ;;
  do dt <- getattr o_dtype a ;;
  match p with
  | PDiag d =>
      if negb (is_complex dt) && existsb kneg (adata d) then raise ValueError
      else diag_op_list (mkarr (result_type (adt d) DFloat) (map ksqrt (adata d)))
  | PZero => ret a
  | _ => raise AttributeError
  end.
End AbsSqrt.

(** the attribute .diag (linop.py:505-508) *)
Definition diag_attr (a : addr) : M arr :=
  do p <- getattr o_pay a ;;
  match p with PDiag d => ret d | _ => raise AttributeError end.

(** y[i] += v *)
Definition add_at (y : list F) (i : nat) (v : F) : res (list F) :=
  match nth_error y i with
  | Some e => Ok (set_nth y i (kadd e v))
  | None => Err IndexError
  end.
Definition get_at (x : list F) (i : nat) : res F :=
  match nth_error x i with Some e => Ok e | None => Err IndexError end.

(** the loop of CoordLinearOperator's matvec, linop.py:657-664; a triple is (val, row, col) *)
Fixpoint coord_loop (sym : bool) (ts : list (F * nat * nat)) (x y : list F) : res (list F) :=
  match ts with
  | [] => Ok y
  | (v, r, c) :: ts' =>
      rbind (get_at x c) (fun xc =>
      rbind (add_at y r (kmul v xc)) (fun y1 =>
      if sym && negb (Nat.eqb r c) then
        rbind (get_at x r) (fun xr =>
        rbind (add_at y1 c (kmul v xr)) (fun y2 => coord_loop sym ts' x y2))
      else coord_loop sym ts' x y1))
  end.
(** linop.py:649-664 *)
Definition coord_matvec (nin nout : nat) (sym : bool) (vdt : dtype) (ts : list (F * nat * nat))
  (x : arr) : res arr :=
  if negb (Nat.eqb (asize x) nin) then Err ShapeError
  else rbind (coord_loop sym ts (adata x) (vzero nout))
             (fun y => Ok (mkarr (result_type (adt x) vdt) y)).
Definition swap_t (t : F * nat * nat) : F * nat * nat := let '(v, r, c) := t in (v, c, r).
(** linop.py:666-681: the transposed loop is the same loop on swapped triples *)
Definition coord_matvec_t (nin nout : nat) (sym : bool) (vdt : dtype) (ts : list (F * nat * nat))
  (y : arr) : res arr := coord_matvec nout nin sym vdt (map swap_t ts) y.

Definition max_list (l : list nat) : nat := fold_right Nat.max 0 l.
(** linop.py:638-685; vals.dtype = vdt *)
Definition coord_op (vdt : dtype) (ts : list (F * nat * nat)) (nargin nargout : nat) (sym : bool)
  : M addr :=
  let cols := map (fun t => snd t) ts in
  let rows := map (fun t => snd (fst t)) ts in
  if ((Nat.eqb nargin 0 || Nat.eqb nargout 0) && match ts with [] => true | _ => false end)
  then raise ValueError   (* max() of an empty array *)
  else
    let nin := if Nat.eqb nargin 0 then max_list cols else nargin in
    let nout := if Nat.eqb nargout 0 then max_list rows else nargout in
    new_linop nin nout (CUser (coord_matvec nin nout sym vdt ts))
              (Some (CUser (coord_matvec_t nin nout sym vdt ts))) None sym false vdt.

(** dense matrices as lists of rows; np.dot(A, v) for a 2-d array and a vector of the right length *)
Definition mat_vec (rows : list (list F)) (x : list F) : list F := map (fun r => dot r x) rows.
(** A.T for an array with [n] columns *)
Definition mat_col (rows : list (list F)) (j : nat) : list F := map (fun r => nth j r k0) rows.
Definition mat_T (n : nat) (rows : list (list F)) : list (list F) := map (mat_col rows) (seq 0 n).
Definition np_dot (mdt : dtype) (nc : nat) (rows : list (list F)) (x : arr) : res arr :=
  if negb (Nat.eqb (asize x) nc) then Err ValueError
  else Ok (mkarr (result_type mdt (adt x)) (mat_vec rows (adata x))).

(** linop_from_ndarray, linop.py:723-745, for an nrows x ncols array *)
Definition ndarray_op (mdt : dtype) (nr nc : nat) (rows : list (list F)) (sym : bool)
  (herm_kw : option bool) : M addr :=
  let herm := match herm_kw with Some h => h | None => sym end in
  let mv := CUser (np_dot mdt nc rows) in
  let mvT := CUser (np_dot mdt nr (mat_T nc rows)) in
  let mvH := CUser (np_dot mdt nr (mat_T nc (map vconj rows))) in
  if is_complex mdt then new_linop nc nr mv (Some mvT) (Some mvH) sym herm mdt
  else if xorb sym herm then raise ValueError
  else new_linop nc nr mv (Some mvT) None (sym || herm) (sym || herm) mdt.
End Extra.
