(** * Model of indexing in pykrylov/linop/blkop.py: K[i,j], K[i:j,k:l], [in], iteration, assignment to
    slices, for block and block diagonal operators.

    numpy.matrix and list indexing are modelled for integers and slices; indexing with arrays,
    Ellipsis or newaxis is not.  The object array numpy builds from the block rows is modelled by the
    rows themselves: after construction they all have the same length. *)
From Coq Require Import List ZArith Bool.
From Verif Require Import Base Field Vec LinopModel BlkModel.
Import ListNotations.

(** ** Python indices *)
Inductive pyix := IxInt (z : Z) | IxSlice (start stop step : option Z).
(** PySlice_GetIndicesEx: one bound of a slice of a sequence of length n; [neg]: the step is negative *)
Definition slice_bound (n : nat) (neg : bool) (z : Z) : Z :=
  let N := Z.of_nat n in
  let z := if (z <? 0)%Z then (z + N)%Z else z in
  if (z <? 0)%Z then (if neg then -1 else 0)%Z
  else if (N <=? z)%Z then (if neg then N - 1 else N)%Z else z.
Definition slice_start (n : nat) (neg : bool) (start : option Z) : Z :=
  match start with None => if neg then (Z.of_nat n - 1)%Z else 0%Z | Some z => slice_bound n neg z end.
Definition slice_stop (n : nat) (neg : bool) (stop : option Z) : Z :=
  match stop with None => if neg then (-1)%Z else Z.of_nat n | Some z => slice_bound n neg z end.
Definition slice_step (step : option Z) : Z := match step with None => 1%Z | Some z => z end.
(** the indices a slice selects, in order *)
Definition slice_list (n : nat) (start stop step : option Z) : res (list nat) :=
  let st := slice_step step in
  if (st =? 0)%Z then Err ValueError else
  let neg := (st <? 0)%Z in
  let a := slice_start n neg start in
  let b := slice_stop n neg stop in
  let len := if neg then (if (a <=? b)%Z then 0 else (b - a + 1) / st + 1)%Z
             else (if (b <=? a)%Z then 0 else (b - a - 1) / st + 1)%Z in
  Ok (map (fun k => Z.to_nat (a + Z.of_nat k * st)%Z) (seq 0 (Z.to_nat len))).
Definition ix_list (n : nat) (ix : pyix) : res (list nat) :=
  match ix with
  | IxInt z => match pyindex n z with Ok i => Ok [i] | Err e => Err e end
  | IxSlice a b c => slice_list n a b c
  end.
Definition all_ix : pyix := IxSlice None None None.
Definition mem (i : nat) (l : list nat) : bool := existsb (Nat.eqb i) l.
(** enumerate *)
Definition mapi {A B} (f : nat -> A -> B) (l : list A) : list B :=
  map (fun p => f (fst p) (snd p)) (combine (seq 0 (length l)) l).

(** l[start:stop:step] = v for a list v: with step 1 the slice is replaced, whatever its length; with any
    other step the lengths must agree *)
Fixpoint lupds {A} (l : list A) (is : list nat) (v : list A) : list A :=
  match is, v with i :: is', x :: v' => lupds (lupd l i x) is' v' | _, _ => l end.
Definition list_setslice {A} (l : list A) (start stop step : option Z) (v : list A) : res (list A) :=
  if (slice_step step =? 1)%Z then
    let lo := Z.to_nat (slice_start (length l) false start) in
    let hi := Nat.max lo (Z.to_nat (slice_stop (length l) false stop)) in
    Ok (firstn lo l ++ v ++ skipn hi l)
  else
    match slice_list (length l) start stop step with
    | Err e => Err e
    | Ok is => if Nat.eqb (length is) (length v) then Ok (lupds l is v) else Err ValueError
    end.

Section BlkIndex.
Context {F : Fld}.
Notation M := (M F). Notation obj := (obj F).
Local Notation "'do' x <- m ;; k" := (bind m (fun x => k)) (at level 200, x name, k at level 200).

(** K.blocks (blkop.py:117-120), and the rows __iter__ goes through (blkop.py:149-151) *)
Definition blk_blocks (self : addr) : M (list (list (option addr))) :=
  do p <- get_blocks self ;; mmap get_row (fst (fst p)).
(** op in K, blkop.py:146-147: operators define no __eq__, so they are compared by identity *)
Definition blk_contains (self op : addr) : M bool :=
  do rows <- blk_blocks self ;;
  ret (existsb (is_self op) (concat rows)).

(** K[i,j] with integer indices, blkop.py:122-127 *)
Definition blk_get (self : addr) (i j : Z) : M (option addr) :=
  do rows <- blk_blocks self ;;
  do i' <- lift (pyindex (length rows) i) ;;
  do row <- lift (nth_r rows i') ;;
  do j' <- lift (pyindex (length row) j) ;;
  lift (nth_r row j').
(** K[rows, cols] where at least one of the two is a slice, blkop.py:122-129; an integer keeps its
    dimension in a numpy.matrix.  The sub-operator is built on fresh lists (tolist). *)
Definition blk_sub (self : addr) (ri ci : pyix) : M addr :=
  do rows <- blk_blocks self ;;
  do is <- lift (ix_list (length rows) ri) ;;
  do js <- lift (ix_list (length (hd [] rows)) ci) ;;
  do sub <- mmap (fun i => do row <- lift (nth_r rows i) ;; mmap (fun j => lift (nth_r row j)) js) is ;;
  do rs <- mmap new_row sub ;;
  block_op false false rs.
(** K[ri, ci], blkop.py:122-129; K[ri] is K[ri, all_ix] *)
Definition blk_getitem (self : addr) (ri ci : pyix) : M (option addr) :=
  match ri, ci with
  | IxInt i, IxInt j => blk_get self i j
  | _, _ => do a <- blk_sub self ri ci ;; ret (Some a)
  end.
(** K[ri, ci] = val for an operator [val], blkop.py:131-144: numpy stores it at every selected place *)
Definition blk_setitem (self : addr) (ri ci : pyix) (val : addr) : M unit :=
  do rows <- blk_blocks self ;;
  do is <- lift (ix_list (length rows) ri) ;;
  do js <- lift (ix_list (length (hd [] rows)) ci) ;;
  blk_store self (mapi (fun k row => mapi (fun l e => if mem k is && mem l js then Some val else e) row) rows).

(** D.blocks, blkop.py:232-235 *)
Definition bd_blocks (self : addr) : M (list (option addr)) :=
  do p <- get_bdiag self ;;
  let '(og, b, bT, bH) := p in get_row b.
(** D[i], blkop.py:237-243 *)
Definition bd_get (self : addr) (i : Z) : M (option addr) :=
  do row <- bd_blocks self ;;
  do i' <- lift (pyindex (length row) i) ;;
  lift (nth_r row i').
(** D[i:j:k], blkop.py:237-243: a new block diagonal operator on a fresh list *)
Definition bd_sub (self : addr) (start stop step : option Z) : M addr :=
  do row <- bd_blocks self ;;
  do is <- lift (slice_list (length row) start stop step) ;;
  do l <- mmap (fun i => lift (nth_r row i)) is ;;
  do r <- new_row l ;;
  bdiag_op r.
Definition bd_getitem (self : addr) (ix : pyix) : M (option addr) :=
  match ix with
  | IxInt i => bd_get self i
  | IxSlice a b c => do s <- bd_sub self a b c ;; ret (Some s)
  end.
(** D[start:stop:step] = ops for a list of operators, blkop.py:245-256 *)
Definition bd_setslice (self : addr) (start stop step : option Z) (ops : list addr) : M unit :=
  do row <- bd_blocks self ;;
  do row' <- lift (list_setslice row start stop step (map Some ops)) ;;
  bd_store self row'.
End BlkIndex.
