(** * Model of pykrylov/linop/blkop.py: construction of and assignment to block operators.

    The products ([blk_matvec], [bd_matvec]) are in LinopModel.v.  The caller's list of block rows is
    given by the list [rs] of references to the row lists: the constructor copies the outer list
    (blkop.py:36, 45) but keeps the row lists.  Logging is not modelled, nor are the [_blocks]
    attributes the constructor adds to the (plain) operators K.T and K.H, which no product reads. *)
From Coq Require Import List ZArith Bool.
From Verif Require Import Base Field Vec LinopModel.
Import ListNotations.

Section Blk.
Context {F : Fld}.
Notation M := (M F). Notation obj := (obj F).
Local Notation "'do' x <- m ;; k" := (bind m (fun x => k)) (at level 200, x name, k at level 200).

(** l[i] for i >= 0 *)
Definition nth_r {A} (l : list A) (i : nat) : res A :=
  match nth_error l i with Some a => Ok a | None => Err IndexError end.
(** l[i] = v for i in range *)
Fixpoint lupd {A} (l : list A) (i : nat) (v : A) : list A :=
  match l, i with
  | [], _ => []
  | _ :: t, O => v :: t
  | h :: t, S i' => h :: lupd t i' v
  end.
Fixpoint mfor {A} (l : list A) (f : A -> M unit) : M unit :=
  match l with [] => ret tt | a :: l' => do u <- f a ;; mfor l' f end.
(** index normalisation of l[i] *)
Definition pyindex (n : nat) (i : Z) : res nat :=
  if (- Z.of_nat n <=? i)%Z && (i <? Z.of_nat n)%Z
  then Ok (Z.to_nat (if (i <? 0)%Z then i + Z.of_nat n else i)%Z) else Err IndexError.

(** blkop.py:30-34: the heads of the rows must carry the requested flags *)
Definition check_diag (sym herm : bool) (r : nat) : M unit :=
  do row <- get_row r ;;
  do b <- lift (head_r row) ;;
  do u <- (if sym then do f <- blk_attr o_sym b ;; (if f then ret tt else raise ValueError) else ret tt) ;;
  if herm then do f <- blk_attr o_herm b ;; (if f then ret tt else raise ValueError) else ret tt.

(** blkop.py:37-42: insert the transpose (adjoint) of block (j,i) in front of the caller's row i *)
Definition fill1 (sym : bool) (rs : list nat) (i j : nat) : M unit :=
  do rj <- lift (nth_r rs j) ;;
  do row <- get_row rj ;;
  do b <- lift (nth_r row i) ;;
  do t <- blk_attr (if sym then o_T else o_H) b ;;
  do ri <- lift (nth_r rs i) ;;
  do row' <- get_row ri ;;
  set_row ri (t :: row').
Definition fill_row (sym : bool) (rs : list nat) (i : nat) : M unit :=
  mfor (rev (seq 0 i)) (fill1 sym rs i).
Definition fill (sym : bool) (rs : list nat) : M unit :=
  mfor (seq 1 (length rs - 1)) (fill_row sym rs).
(** blkop.py:24-42 *)
Definition sym_layout (sym herm : bool) (rs : list nat) : M unit :=
  do r0 <- lift (head_r rs) ;;
  do row0 <- get_row r0 ;;
  if negb (Nat.eqb (length rs) (length row0)) then raise ShapeError else
  do u <- mfor rs (check_diag sym herm) ;;
  fill sym rs.

(** if min(l) != max(l): raise ShapeError *)
Definition same_all (l : list nat) : res unit :=
  match l with
  | [] => Err ValueError
  | a :: l' => if forallb (Nat.eqb a) l' then Ok tt else Err ShapeError
  end.

(** Python 2: map(lambda *row: [blk.T for blk in row], *rows) pads short rows with None *)
Definition column (rows : list (list (option addr))) (c : nat) : list (option addr) :=
  map (fun row => nth c row None) rows.
Definition max_len (rows : list (list (option addr))) : nat := fold_right max 0 (map (@length _) rows).
Definition attr_cols (p : obj -> option addr) (rows : list (list (option addr))) : M (list nat) :=
  mmap (fun c => do l <- mmap (blk_attr p) (column rows c) ;; new_row l) (seq 0 (max_len rows)).

(** np.result_type of a list of dtypes *)
Definition result_types (l : list dtype) : res dtype :=
  match l with [] => Err ValueError | d :: l' => Ok (fold_left result_type l' d) end.

(** blkop.py:50-63: shape checks.  Returns nargin and nargout. *)
Definition block_shapes (rows : list (list (option addr))) : M (nat * nat) :=
  do nargins <- mmap (mmap (blk_attr o_nargin)) rows ;;
  do firsts <- mmap (fun r => lift (head_r r)) nargins ;;
  do u <- lift (same_all firsts) ;;
  do nargouts <- mmap (mmap (blk_attr o_nargout)) rows ;;
  do u <- mfor nargouts (fun r => lift (same_all r)) ;;
  do ws <- lift (head_r nargins) ;;
  do hs <- mmap (fun r => lift (head_r r)) nargouts ;;
  ret (sum_nat ws, sum_nat hs).

Definition is_self (self : addr) (t : option addr) : bool :=
  match t with Some a => Nat.eqb a self | None => false end.

(** blkop.py:47-115: everything after the symmetric fill-in *)
Definition block_build (sym herm : bool) (rs : list nat) : M addr :=
  do rows <- mmap get_row rs ;;
  do sh <- block_shapes rows ;;
  do bT <- attr_cols o_T rows ;;
  do bH <- attr_cols o_H rows ;;
  do dts <- mmap (blk_attr o_dtype) (concat rows) ;;
  do dt <- lift (result_types dts) ;;
  do self <- next_addr ;;
  do a <- new_linop (fst sh) (snd sh) (CBlk WN self) (Some (CBlk WT self)) (Some (CBlk WH self))
            sym herm dt ;;
  (* self.T._blocks = self._blocksT; self.H._blocks = self._blocksH: when T (H) is self this
     replaces self._blocks *)
  do t <- getattr o_T a ;;
  do h <- getattr o_H a ;;
  let b := if is_self a t then bT else rs in
  let b := if is_self a h then bH else b in
  do u <- modobj a (with_pay (PBlk b bT bH)) ;;
  ret a.

(** BlockLinearOperator(blocks, symmetric=sym, hermitian=herm), blkop.py:21-115 *)
Definition block_op (sym herm : bool) (rs : list nat) : M addr :=
  do u <- (if sym || herm then sym_layout sym herm rs else ret tt) ;;
  block_build sym herm rs.

(** the lists _blocks, _blocksT, _blocksH *)
Definition get_blocks (self : addr) : M (list nat * list nat * list nat) :=
  do p <- getattr o_pay self ;;
  match p with PBlk b bT bH => ret (b, bT, bH) | _ => raise AttributeError end.
Definition set_blocks (self : addr) (b bT bH : list nat) : M unit := modobj self (with_pay (PBlk b bT bH)).

(** blkop.py:135-141, one pass: _blocks[i][j] = _blocks[j][i].T (.H) *)
Definition resym1 (sym : bool) (b : list nat) (i j : nat) : M unit :=
  do rj <- lift (nth_r b j) ;;
  do row <- get_row rj ;;
  do e <- lift (nth_r row i) ;;
  do t <- blk_attr (if sym then o_T else o_H) e ;;
  do ri <- lift (nth_r b i) ;;
  do row' <- get_row ri ;;
  do old <- lift (nth_r row' j) ;;
  set_row ri (lupd row' j t).
Definition resym (sym : bool) (b : list nat) : M unit :=
  mfor (seq 1 (length b - 1)) (fun i => mfor (seq 0 i) (resym1 sym b i)).

(** blkop.py:134-144: self._blocks = the given rows (np.matrix(...).tolist() makes fresh row lists),
    then the lower triangle, or the lists of the transpose and the adjoint, are recomputed *)
Definition blk_store (self : addr) (rows : list (list (option addr))) : M unit :=
  do p <- get_blocks self ;;
  let '(b, bT, bH) := p in
  do b' <- mmap new_row rows ;;
  do u <- set_blocks self b' bT bH ;;
  do sym <- getattr o_sym self ;;
  do herm <- getattr o_herm self ;;
  if sym || herm then resym sym b'
  else
    do rows' <- mmap get_row b' ;;
    do bT' <- attr_cols o_T rows' ;;
    do u <- set_blocks self b' bT' bH ;;
    do bH' <- attr_cols o_H rows' ;;
    set_blocks self b' bT' bH'.
(** K[i,j] = val with integer indices, blkop.py:131-144.  Nothing is checked about [val]. *)
Definition blk_set (self : addr) (i j : Z) (val : addr) : M unit :=
  do p <- get_blocks self ;;
  do rows <- mmap get_row (fst (fst p)) ;;
  do i' <- lift (pyindex (length rows) i) ;;
  do row <- lift (nth_r rows i') ;;
  do j' <- lift (pyindex (length row) j) ;;
  blk_store self (lupd rows i' (lupd row j' (Some val))).

(** ** Block diagonal operators *)
(** reduce(lambda x, y: x and y, l) *)
Definition reduce_and (l : list bool) : res bool :=
  match l with [] => Err TypeError | a :: l' => Ok (fold_left andb l' a) end.

(** BlockDiagonalLinearOperator(blocks), blkop.py:160-230; [orig] is the caller's list *)
Definition bdiag_op (orig : nat) : M addr :=
  do row <- get_row orig ;;
  do syms <- mmap (blk_attr o_sym) row ;;
  do sym <- lift (reduce_and syms) ;;
  do herms <- mmap (blk_attr o_herm) row ;;
  do herm <- lift (reduce_and herms) ;;
  do nargins <- mmap (blk_attr o_nargin) row ;;
  do nargouts <- mmap (blk_attr o_nargout) row ;;
  do lT <- mmap (blk_attr o_T) row ;;
  do bT <- new_row lT ;;
  do lH <- mmap (blk_attr o_H) row ;;
  do bH <- new_row lH ;;
  do dts <- mmap (blk_attr o_dtype) row ;;
  do dt <- lift (result_types dts) ;;
  do self <- next_addr ;;
  do a <- new_linop (sum_nat nargins) (sum_nat nargouts) (CBDiag WN self) (Some (CBDiag WT self))
            (Some (CBDiag WH self)) sym herm dt ;;
  do t <- getattr o_T a ;;
  do h <- getattr o_H a ;;
  let b := if is_self a t then bT else orig in
  let b := if is_self a h then bH else b in
  do u <- modobj a (with_pay (PBDiag orig b bT bH)) ;;
  ret a.

Definition get_bdiag (self : addr) : M (nat * nat * nat * nat) :=
  do p <- getattr o_pay self ;;
  match p with PBDiag og b bT bH => ret (og, b, bT, bH) | _ => raise AttributeError end.

(** blkop.py:252-256: the list self._blocks itself gets the new contents; the lists of the transpose and
    the adjoint are recomputed unless the flags say they need not be *)
Definition bd_store (self : addr) (row' : list (option addr)) : M unit :=
  do p <- get_bdiag self ;;
  let '(og, b, bT, bH) := p in
  do u <- set_row b row' ;;
  do sym <- getattr o_sym self ;;
  do bT' <- (if sym then ret bT else do l <- mmap (blk_attr o_T) row' ;; new_row l) ;;
  do u <- modobj self (with_pay (PBDiag og b bT' bH)) ;;
  do herm <- getattr o_herm self ;;
  do bH' <- (if herm then ret bH else do l <- mmap (blk_attr o_H) row' ;; new_row l) ;;
  modobj self (with_pay (PBDiag og b bT' bH')).
(** D[i] = val for an operator [val], blkop.py:245-256 *)
Definition bd_set (self : addr) (i : Z) (val : addr) : M unit :=
  do p <- get_bdiag self ;;
  let '(og, b, bT, bH) := p in
  do row <- get_row b ;;
  do i' <- lift (pyindex (length row) i) ;;
  bd_store self (lupd row i' (Some val)).
End Blk.
