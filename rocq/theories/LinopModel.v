(** * Model of pykrylov/linop/linop.py and pykrylov/linop/blkop.py

    Operator objects live in a heap so that object identity ([A.T.T is A]), [None] attributes,
    product counters and aliasing of the caller's lists and arrays can be expressed.
    Python closures are first-order data ([clo]) interpreted by [call].

    Simplifications (all over this file):
    - arrays are one-dimensional and flattened; [x.reshape(n)] succeeds iff x has n entries;
    - dtypes are reduced to their kind (integer / real / complex); arithmetic is exact;
      [astype] to an integer or real dtype keeps the real part (no truncation);
    - index arrays of coordinate operators contain nonnegative integers only (SignedModel lifts
      this); those of reduced operators may be negative or out of range;
    - logging is dropped; keyword arguments are passed as explicit arguments. *)
From Coq Require Import List ZArith Lia Bool.
From Verif Require Import Base Field Vec.
Import ListNotations.

(** pykrylov/tools/types.py:1-16, kinds only *)
Inductive dtype := DInt | DFloat | DComplex.
Definition is_complex (d : dtype) : bool := match d with DComplex => true | _ => false end.
(** np.result_type on kinds *)
Definition result_type (a b : dtype) : dtype :=
  match a, b with
  | DComplex, _ | _, DComplex => DComplex
  | DFloat, _ | _, DFloat => DFloat
  | DInt, DInt => DInt
  end.

Definition addr := nat.

Section Linop.
Context {F : Fld}.

Record arr := mkarr { adt : dtype; adata : list F }.
Definition asize (x : arr) : nat := length (adata x).

(** ndarray.astype *)
Definition astype (d : dtype) (x : arr) : arr :=
  mkarr d (if is_complex d then adata x else vre (adata x)).
(** ndarray.conjugate *)
Definition aconj (x : arr) : arr := mkarr (adt x) (vconj (adata x)).
Definition aadd (x y : arr) : arr := mkarr (result_type (adt x) (adt y)) (vadd (adata x) (adata y)).
Definition asub (x y : arr) : arr := mkarr (result_type (adt x) (adt y)) (vsub (adata x) (adata y)).

(** Python scalars: type(x) and value *)
Record scalar := mkscalar { sty : dtype; sval : F }.
Definition smul (c : scalar) (x : arr) : arr :=
  mkarr (result_type (sty c) (adt x)) (vscale (sval c) (adata x)).
Definition sconj (c : scalar) : scalar := mkscalar (sty c) (kconj (sval c)).

Inductive which := WN | WT | WH.   (* the operator itself, its .T, its .H *)

(** The closures created in linop.py/blkop.py *)
Inductive clo :=
| CUser (g : arr -> res arr)          (* a user-supplied function *)
| CConj (w : which) (a : addr)        (* linop.py:217-246: conj(self[.T|.H] * conj(x)) *)
| CScale (w : which) (c : scalar) (a : addr)   (* linop.py:315-322 *)
| CMul (w : which) (a b : addr)       (* linop.py:337-344 *)
| CAdd (w : which) (a b : addr)       (* linop.py:384-391 *)
| CSub (w : which) (a b : addr)       (* linop.py:412-419 *)
| CIdent                              (* linop.py:469 *)
| CDiag (conj : bool) (l : nat)       (* linop.py:500-501; l is an array in the heap *)
| CZero (a : addr) (n m : nat)        (* linop.py:530-544: expects n entries, returns m zeros *)
| CRed (w : which) (a : addr) (ins outs : list Z) (* linop.py:569-581, 602-614 *)
| CBlk (w : which) (a : addr)         (* blkop.py:109-111 *)
| CBDiag (w : which) (a : addr).      (* blkop.py:224-226 *)

(** Class-specific attributes *)
Inductive payload :=
| PNone
| PDiag (d : arr)                       (* DiagonalOperator.__diag, linop.py:492, 495 *)
| PZero                                 (* ZeroOperator *)
| PBlk (b bT bH : list nat)             (* _blocks, _blocksT, _blocksH: references to row lists *)
| PBDiag (orig b bT bH : nat).          (* the caller's list, _blocks, _blocksT, _blocksH *)

(** BaseLinearOperator / LinearOperator attributes, linop.py:28-39, 122-124 *)
Record obj := mkobj {
  o_nargin : nat; o_nargout : nat;
  o_sym : bool; o_herm : bool;
  o_dtype : dtype;
  o_count : nat;                 (* _nMatvec *)
  o_mv : clo;                    (* __matvec *)
  o_T : option addr;             (* __T *)
  o_H : option addr;             (* __H *)
  o_pay : payload
}.

Record st := mkst {
  nxt : addr;                    (* next fresh object address *)
  objs : addr -> option obj;
  narr : nat; arrs : nat -> option arr;                 (* caller-visible arrays *)
  nrow : nat; rows : nat -> option (list (option addr)) (* Python lists of operators (or None) *)
}.

Definition empty_st : st := mkst 0 (fun _ => None) 0 (fun _ => None) 0 (fun _ => None).

(** state + exception monad *)
Definition M (A : Type) := st -> st * res A.
Definition ret {A} (a : A) : M A := fun s => (s, Ok a).
Definition raise {A} (e : exn) : M A := fun s => (s, Err e).
Definition bind {A B} (m : M A) (k : A -> M B) : M B :=
  fun s => match m s with (s1, Ok a) => k a s1 | (s1, Err e) => (s1, Err e) end.
Definition lift {A} (r : res A) : M A := fun s => (s, r).

Local Notation "'do' x <- m ;; k" := (bind m (fun x => k)) (at level 200, x name, k at level 200).

Definition upd {A} (f : nat -> A) (i : nat) (v : A) : nat -> A :=
  fun j => if Nat.eqb j i then v else f j.
Definition set_obj (a : addr) (o : obj) (s : st) : st :=
  mkst (nxt s) (upd (objs s) a (Some o)) (narr s) (arrs s) (nrow s) (rows s).

(** read an attribute of object [a]; attributes other than the counter are read this way *)
Definition getattr {A} (p : obj -> A) (a : addr) : M A :=
  fun s => match objs s a with Some o => (s, Ok (p o)) | None => (s, Err EDangling) end.
Definition modobj (a : addr) (f : obj -> obj) : M unit :=
  fun s => match objs s a with
           | Some o => (set_obj a (f o) s, Ok tt)
           | None => (s, Err EDangling) end.

Definition with_count (n : nat) (o : obj) : obj :=
  mkobj (o_nargin o) (o_nargout o) (o_sym o) (o_herm o) (o_dtype o) n (o_mv o) (o_T o) (o_H o) (o_pay o).
Definition with_T (t : option addr) (o : obj) : obj :=
  mkobj (o_nargin o) (o_nargout o) (o_sym o) (o_herm o) (o_dtype o) (o_count o) (o_mv o) t (o_H o) (o_pay o).
Definition with_H (h : option addr) (o : obj) : obj :=
  mkobj (o_nargin o) (o_nargout o) (o_sym o) (o_herm o) (o_dtype o) (o_count o) (o_mv o) (o_T o) h (o_pay o).
Definition with_pay (p : payload) (o : obj) : obj :=
  mkobj (o_nargin o) (o_nargout o) (o_sym o) (o_herm o) (o_dtype o) (o_count o) (o_mv o) (o_T o) (o_H o) p.

(** linop.py:358  self._nMatvec += 1 *)
Definition bump (a : addr) : M unit := modobj a (fun o => with_count (S (o_count o)) o).

(** ** Applying closures.  [ap] is the recursive call  op * x  (linop.py:356-360). *)
Section Call.
Variable ap : addr -> arr -> M arr.

(** self, self.T or self.H applied to x; None(x) and None * x raise TypeError *)
Definition ap_opt (o : option addr) (x : arr) : M arr :=
  match o with Some a => ap a x | None => raise TypeError end.
Definition ap_w (w : which) (a : addr) (x : arr) : M arr :=
  match w with
  | WN => ap a x
  | WT => do t <- getattr o_T a ;; ap_opt t x
  | WH => do h <- getattr o_H a ;; ap_opt h x
  end.

(** the entry of an array of the given length that numpy's index i selects: negative indices
    count from the end *)
Definition npindex (len : nat) (i : Z) : option nat :=
  if (i <? - Z.of_nat len)%Z then None
  else if (i <? 0)%Z then Some (Z.to_nat (i + Z.of_nat len))
  else if (i <? Z.of_nat len)%Z then Some (Z.to_nat i) else None.
(** z = zeros(n); z[idx] = x : numpy writes in order, so the last duplicate wins; out of range
    raises IndexError *)
Fixpoint set_nth (l : list F) (i : nat) (v : F) : list F :=
  match l, i with
  | [], _ => []
  | _ :: t, O => v :: t
  | h :: t, S j => h :: set_nth t j v
  end.
Fixpoint scatter (idx : list Z) (x : list F) (z : list F) : res (list F) :=
  match idx, x with
  | [], [] => Ok z
  | i :: idx', v :: x' =>
      match npindex (length z) i with
      | Some k => scatter idx' x' (set_nth z k v)
      | None => Err IndexError end
  | _, _ => Err ValueError
  end.
(** y[idx] *)
Fixpoint gather (idx : list Z) (y : list F) : res (list F) :=
  match idx with
  | [] => Ok []
  | i :: idx' => match npindex (length y) i with
                 | Some k => rmap (cons (nth k y k0)) (gather idx' y)
                 | None => Err IndexError end
  end.

Definition get_arr (l : nat) : M arr :=
  fun s => match arrs s l with Some a => (s, Ok a) | None => (s, Err EDangling) end.
Definition get_row (l : nat) : M (list (option addr)) :=
  fun s => match rows s l with Some a => (s, Ok a) | None => (s, Err EDangling) end.

Fixpoint mmap {A B} (f : A -> M B) (l : list A) : M (list B) :=
  match l with
  | [] => ret []
  | a :: l' => do b <- f a ;; do bs <- mmap f l' ;; ret (b :: bs)
  end.

(** blk.shape etc.; None.shape raises AttributeError *)
Definition blk_attr {A} (p : obj -> A) (b : option addr) : M A :=
  match b with Some a => getattr p a | None => raise AttributeError end.

Definition sum_nat (l : list nat) : nat := fold_right plus 0 l.
Definition head_r {A} (l : list A) : res A := match l with a :: _ => Ok a | [] => Err IndexError end.

(** yout[:] += v with numpy broadcasting; an in-place real += complex raises TypeError *)
Definition add_into (ydt : dtype) (yout : list F) (v : arr) : res (list F) :=
  if negb (is_complex ydt) && is_complex (adt v) then Err TypeError
  else if Nat.eqb (asize v) (length yout) then Ok (vadd yout (adata v))
  else match adata v with
       | [c] => Ok (map (fun e => kadd e c) yout)
       | _ => Err ValueError
       end.
(** yout[:] = v with numpy broadcasting and casting *)
Definition assign_into (ydt : dtype) (len : nat) (v : arr) : res (list F) :=
  let d := adata (astype ydt v) in
  if Nat.eqb (length d) len then Ok d
  else match d with
       | [c] => Ok (repeat c len)
       | _ => Err ValueError
       end.

(** blkop.py:89-95, inner loop over the block columns of one block row *)
Fixpoint blk_row (rt xdt : dtype) (widths : list nat) (row : list (option addr))
         (x : list F) (yout : list F) : M (list F) :=
  match widths with
  | [] => ret yout
  | w :: widths' =>
      match row with
      | [] => raise IndexError
      | b :: row' =>
          do v <- ap_opt b (mkarr xdt (firstn w x)) ;;
          do yout' <- lift (add_into rt yout v) ;;
          blk_row rt xdt widths' row' (skipn w x) yout'
      end
  end.
(** blkop.py:86-97 *)
Fixpoint blk_rows (rt xdt : dtype) (widths : list nat) (heights : list nat)
         (blks : list (list (option addr))) (x : list F) : M (list F) :=
  match blks, heights with
  | row :: blks', h :: heights' =>
      do y <- blk_row rt xdt widths row x (vzero h) ;;
      do ys <- blk_rows rt xdt widths heights' blks' x ;;
      ret (y ++ ys)
  | _, _ => ret []
  end.
(** blkop.py:69-99 *)
Definition blk_matvec (dt : dtype) (blks : list (list (option addr))) (x : arr) : M arr :=
  do nargins <- mmap (mmap (blk_attr o_nargin)) blks ;;
  do nargouts <- mmap (mmap (blk_attr o_nargout)) blks ;;
  do widths <- lift (head_r nargins) ;;
  do heights <- mmap (fun r => lift (head_r r)) nargouts ;;
  if negb (Nat.eqb (asize x) (sum_nat widths)) then raise ShapeError
  else
    let rt := result_type dt (adt x) in
    do y <- blk_rows rt (adt x) widths heights blks (adata x) ;;
    ret (mkarr rt y).

(** blkop.py:199-213 *)
Fixpoint bd_loop (rt xdt : dtype) (widths heights : list nat) (blks : list (option addr))
         (x : list F) : M (list F) :=
  match blks with
  | [] => match heights with [] => ret [] | _ => raise EDangling (* np.empty left unfilled *) end
  | b :: blks' =>
      match widths, heights with
      | w :: widths', h :: heights' =>
          do v <- ap_opt b (mkarr xdt (firstn w x)) ;;
          do y <- lift (assign_into rt h v) ;;
          do ys <- bd_loop rt xdt widths' heights' blks' (skipn w x) ;;
          ret (y ++ ys)
      | _, _ => raise IndexError
      end
  end.
(** blkop.py:185-215; the sizes come from the caller's list [orig], not from [blks] *)
Definition bd_matvec (dt : dtype) (orig blks : list (option addr)) (x : arr) : M arr :=
  do nargins <- mmap (blk_attr o_nargin) orig ;;
  do nargouts <- mmap (blk_attr o_nargout) orig ;;
  if negb (Nat.eqb (asize x) (sum_nat nargins)) then raise ShapeError
  else
    let rt := result_type dt (adt x) in
    do y <- bd_loop rt (adt x) nargins nargouts blks (adata x) ;;
    ret (mkarr rt y).

(** x[idx] = ..., y[idx] in the reduced operators: linop.py:569-581 *)
Definition red_matvec (w : which) (a : addr) (ins outs : list Z) (x : arr) : M arr :=
  do m <- getattr o_nargout a ;;
  do n <- getattr o_nargin a ;;
  let len := match w with WN => n | _ => m end in
  do z <- lift (scatter ins (adata x) (vzero len)) ;;
  do y <- ap_w w a (mkarr (adt x) z) ;;
  do r <- lift (gather outs (adata y)) ;;
  ret (mkarr (adt y) r).

Definition call (c : clo) (x : arr) : M arr :=
  match c with
  | CUser g => lift (g x)
  | CConj w a =>
      if is_complex (adt x)
      then do y <- ap_w w a (aconj x) ;; ret (aconj y)
      else do y <- ap_w w a x ;; ret (aconj y)
  | CScale w c a =>
      do y <- ap_w w a x ;;
      ret (smul (match w with WH => sconj c | _ => c end) y)
  | CMul WN a b => do y <- ap_w WN b x ;; ap_w WN a y
  | CMul w a b => do y <- ap_w w a x ;; ap_w w b y
  | CAdd w a b => do y <- ap_w w a x ;; do z <- ap_w w b x ;; ret (aadd y z)
  | CSub w a b => do y <- ap_w w a x ;; do z <- ap_w w b x ;; ret (asub y z)
  | CIdent => ret x
  | CDiag cj l =>
      do d <- get_arr l ;;
      ret (mkarr (result_type (adt d) (adt x))
                 (vmul (if cj then vconj (adata d) else adata d) (adata x)))
  | CZero a n m =>
      if negb (Nat.eqb (asize x) n) then raise ValueError
      else do dt <- getattr o_dtype a ;;
           ret (mkarr (result_type dt (adt x)) (vzero m))
  | CRed w a ins outs => red_matvec w a ins outs x
  | CBlk w a =>
      do p <- getattr o_pay a ;;
      match p with
      | PBlk b bT bH =>
          do dt <- getattr o_dtype a ;;
          do blks <- mmap get_row (match w with WN => b | WT => bT | WH => bH end) ;;
          blk_matvec dt blks x
      | _ => raise AttributeError
      end
  | CBDiag w a =>
      do p <- getattr o_pay a ;;
      match p with
      | PBDiag orig b bT bH =>
          do dt <- getattr o_dtype a ;;
          do o <- get_row orig ;;
          do blks <- get_row (match w with WN => b | WT => bT | WH => bH end) ;;
          bd_matvec dt o blks x
      | _ => raise AttributeError
      end
  end.

(** op * x : __mul_vector (linop.py:356-360) with _matvec (linop.py:271-298) inlined *)
Definition mul_vector (a : addr) (x : arr) : M arr :=
  do u <- bump a ;;
  do dt <- getattr o_dtype a ;;
  do nargin <- getattr o_nargin a ;;
  do nargout <- getattr o_nargout a ;;
  if negb (Nat.eqb (asize x) nargin) then raise ValueError else
  do mv <- getattr o_mv a ;;
  do y <- call mv x ;;
  if negb (Nat.eqb (asize y) nargout) then raise ValueError else
  ret (astype (result_type dt (adt x)) y).
End Call.

(** [apply d a x] is  a * x  with call depth at most [d] *)
Fixpoint apply (d : nat) (a : addr) (x : arr) : M arr :=
  match d with
  | O => raise EFuel
  | S d' => mul_vector (apply d') a x
  end.

(** rmatvec, linop.py:300-305 *)
Definition rmatvec (d : nat) (a : addr) (x : arr) : M arr :=
  do h <- getattr o_H a ;;
  match h with Some h' => apply d h' x | None => raise AttributeError end.

(** reset_counters, linop.py:83-85 *)
Definition reset_counters (a : addr) : M unit := modobj a (with_count 0).

(** ** Construction *)
Definition alloc (o : obj) : M addr :=
  fun s => (mkst (S (nxt s)) (upd (objs s) (nxt s) (Some o)) (narr s) (arrs s) (nrow s) (rows s),
            Ok (nxt s)).
Definition new_arr (x : arr) : M nat :=
  fun s => (mkst (nxt s) (objs s) (S (narr s)) (upd (arrs s) (narr s) (Some x)) (nrow s) (rows s),
            Ok (narr s)).
Definition set_arr (l : nat) (x : arr) : M unit :=
  fun s => (mkst (nxt s) (objs s) (narr s) (upd (arrs s) l (Some x)) (nrow s) (rows s), Ok tt).
Definition new_row (r : list (option addr)) : M nat :=
  fun s => (mkst (nxt s) (objs s) (narr s) (arrs s) (S (nrow s)) (upd (rows s) (nrow s) (Some r)),
            Ok (nrow s)).
Definition set_row (l : nat) (r : list (option addr)) : M unit :=
  fun s => (mkst (nxt s) (objs s) (narr s) (arrs s) (nrow s) (upd (rows s) l (Some r)), Ok tt).

(** keyword arguments of LinearOperator.__init__ *)
Record kw := mkkw {
  kw_sym : bool; kw_herm : bool; kw_dtype : dtype;
  kw_tof : option addr;      (* transpose_of *)
  kw_aof : option addr;      (* adjoint_of *)
  kw_cof : bool              (* conjugate_of is not None *)
}.
Definition kw0 (sym herm : bool) (dt : dtype) : kw := mkkw sym herm dt None None false.

Definition init_t := nat -> nat -> clo -> option clo -> option clo -> kw -> M addr.

Section Init.
Variable rec : init_t.       (* nested LinearOperator(...) construction *)

(** linop.py:148-170 *)
Definition set_transpose (self : addr) (nargin nargout : nat) (mv : clo)
           (mvT : option clo) (k : kw) : M unit :=
  if kw_sym k then modobj self (with_T (Some self))
  else match kw_tof k with
       | None =>
           match mvT with
           | Some ct =>
               do t <- rec nargout nargin ct (Some mv) None
                        (mkkw (kw_sym k) (kw_herm k) (kw_dtype k) (Some self) None false) ;;
               modobj self (with_T (Some t))
           | None => modobj self (with_T None)
           end
       | Some t => modobj self (with_T (Some t))
       end.

(** linop.py:172-194 *)
Definition set_adjoint (self : addr) (nargin nargout : nat) (mv : clo)
           (mvH : option clo) (k : kw) : M unit :=
  if kw_herm k then modobj self (with_H (Some self))
  else match kw_aof k with
       | None =>
           match mvH with
           | Some ch =>
               do h <- rec nargout nargin ch None (Some mv)
                        (mkkw (kw_sym k) (kw_herm k) (kw_dtype k) None (Some self) false) ;;
               modobj self (with_H (Some h))
           | None => modobj self (with_H None)
           end
       | Some h => modobj self (with_H (Some h))
       end.

(** linop.py:211-254 *)
Definition conjugate_ (self : addr) : M addr :=
  do dt <- getattr o_dtype self ;;
  if negb (is_complex dt) then ret self else
  do n <- getattr o_nargin self ;;
  do m <- getattr o_nargout self ;;
  do T <- getattr o_T self ;;
  do H <- getattr o_H self ;;
  do mvs <-
    match H with
    | Some h =>
        do hm <- getattr o_mv h ;;
        match T with
        | Some t => do tm <- getattr o_mv t ;; ret (Some hm, Some tm)
        | None => ret (Some hm, Some (CConj WH self))
        end
    | None =>
        match T with
        | Some t => do tm <- getattr o_mv t ;; ret (Some (CConj WT self), Some tm)
        | None => ret (None, None)
        end
    end ;;
  rec n m (CConj WN self) (fst mvs) (snd mvs) (mkkw false false dt H T true).

(** linop.py:114-146 *)
Definition init_ : init_t := fun nargin nargout mv mvT mvH k =>
  do self <- alloc (mkobj nargin nargout (kw_sym k) (kw_herm k) (kw_dtype k) 0 mv None None PNone) ;;
  do u <- set_transpose self nargin nargout mv mvT k ;;
  do u <- set_adjoint self nargin nargout mv mvH k ;;
  if negb (is_complex (kw_dtype k)) then
    do T <- getattr o_T self ;;
    do H <- getattr o_H self ;;
    match T, H with
    | Some t, None => do u <- modobj self (with_H (Some t)) ;; ret self
    | None, Some h => do u <- modobj self (with_T (Some h)) ;; ret self
    | _, _ => ret self
    end
  else
    match kw_tof k, kw_aof k, kw_cof k with
    | None, None, false =>
        do conj <- conjugate_ self ;;
        do T <- getattr o_T self ;;
        do u <- match T with
                | Some t =>
                    do u <- modobj t (with_H (Some conj)) ;;
                    do H <- getattr o_H self ;;
                    match H with
                    | None => do ct <- getattr o_T conj ;; modobj self (with_H ct)
                    | Some _ => ret tt
                    end
                | None => ret tt
                end ;;
        do H <- getattr o_H self ;;
        do u <- match H with
                | Some h =>
                    do u <- modobj h (with_T (Some conj)) ;;
                    do T <- getattr o_T self ;;
                    match T with
                    | None => do ch <- getattr o_H conj ;; modobj self (with_T ch)
                    | Some _ => ret tt
                    end
                | None => ret tt
                end ;;
        ret self
    | _, _, _ => ret self
    end.
End Init.

(** nested construction is at most three deep (proved in LinopInit.v) *)
Fixpoint init (d : nat) : init_t :=
  match d with
  | O => fun _ _ _ _ _ _ => raise EFuel
  | S d' => init_ (init d')
  end.

(** LinearOperator(nargin, nargout, matvec, matvec_transp, matvec_adj, symmetric=, hermitian=, dtype=) *)
Definition new_linop (nargin nargout : nat) (mv : clo) (mvT mvH : option clo)
           (sym herm : bool) (dt : dtype) : M addr :=
  init 4 nargin nargout mv mvT mvH (kw0 sym herm dt).

(** op.conjugate() / op.bar *)
Definition conjugate (a : addr) : M addr := conjugate_ (init 4) a.

(** IdentityOperator, linop.py:455-470 *)
Definition identity_op (n : nat) (dt : dtype) : M addr :=
  new_linop n n CIdent None None true true dt.

(** ZeroOperator, linop.py:519-551.  The closures mention self (for self.dtype), which is the
    address the next allocation will return. *)
Definition next_addr : M addr := fun s => (s, Ok (nxt s)).
Definition zero_op (nargin nargout : nat) (dt : dtype) : M addr :=
  do self <- next_addr ;;
  do a <- new_linop nargin nargout (CZero self nargin nargout)
        (Some (CZero self nargout nargin)) (Some (CZero self nargout nargin))
        (Nat.eqb nargin nargout) false dt ;;
  do u <- modobj a (with_pay PZero) ;; ret a.

(** DiagonalOperator(diag), linop.py:480-502, for an ndarray living at location [l] *)
Definition diag_op (l : nat) : M addr :=
  do d <- get_arr l ;;
  do a <- new_linop (asize d) (asize d) (CDiag false l) None (Some (CDiag true l))
        true (negb (is_complex (adt d))) (adt d) ;;
  do u <- modobj a (with_pay (PDiag d)) ;; ret a.
(** DiagonalOperator(list): np.asarray makes a fresh array *)
Definition diag_op_list (x : arr) : M addr := do l <- new_arr x ;; diag_op l.

(** __mul_scalar, linop.py:307-330 *)
Definition mul_scalar (a : addr) (c : scalar) : M addr :=
  do n <- getattr o_nargin a ;;
  do m <- getattr o_nargout a ;;
  do dt <- getattr o_dtype a ;;
  let rt := result_type dt (sty c) in
  if keqb (sval c) k0 then zero_op n m rt else
  do sym <- getattr o_sym a ;;
  do herm <- getattr o_herm a ;;
  new_linop n m (CScale WN c a) (Some (CScale WT c a)) (Some (CScale WH c a))
            sym (negb (is_complex rt) && herm) rt.

(** __mul_linop, linop.py:332-354 *)
Definition mul_linop (a b : addr) : M addr :=
  do n <- getattr o_nargin a ;;
  do m' <- getattr o_nargout b ;;
  if negb (Nat.eqb n m') then raise ShapeError else
  do da <- getattr o_dtype a ;;
  do db <- getattr o_dtype b ;;
  do n' <- getattr o_nargin b ;;
  do m <- getattr o_nargout a ;;
  new_linop n' m (CMul WN a b) (Some (CMul WT a b)) (Some (CMul WH a b))
            false false (result_type da db).

(** __add__, linop.py:378-401 and __sub__, linop.py:406-429 *)
Definition addsub (mk : which -> addr -> addr -> clo) (a b : addr) : M addr :=
  do n <- getattr o_nargin a ;; do m <- getattr o_nargout a ;;
  do n' <- getattr o_nargin b ;; do m' <- getattr o_nargout b ;;
  if negb (Nat.eqb m m' && Nat.eqb n n') then raise ShapeError else
  do da <- getattr o_dtype a ;; do db <- getattr o_dtype b ;;
  do sa <- getattr o_sym a ;; do sb <- getattr o_sym b ;;
  do ha <- getattr o_herm a ;; do hb <- getattr o_herm b ;;
  new_linop n m (mk WN a b) (Some (mk WT a b)) (Some (mk WH a b))
            (sa && sb) (ha && hb) (result_type da db).
Definition add_linop := addsub CAdd.
Definition sub_linop := addsub CSub.

(** __neg__, linop.py:403-404: self * (-1) *)
Definition neg_linop (a : addr) : M addr := mul_scalar a (mkscalar DInt (kofZ (-1))).

(** __div__, linop.py:431-434 (Python 2 classic division) and __truediv__, 436-439.
    Python integers: floor division; float/complex: true division; zero raises. *)
Inductive pynum := PyInt (z : Z) | PyFloat (x : F) | PyComplex (x : F).
Definition div_linop (a : addr) (c : pynum) : M addr :=
  match c with
  | PyInt z => if Z.eqb z 0 then raise ZeroDivisionError
               else mul_scalar a (mkscalar DInt (kofZ (1 / z)))
  | PyFloat x => if keqb x k0 then raise ZeroDivisionError
                 else mul_scalar a (mkscalar DFloat (kinv x))
  | PyComplex x => if keqb x k0 then raise ZeroDivisionError
                   else mul_scalar a (mkscalar DComplex (kinv x))
  end.
Definition truediv_linop (a : addr) (c : pynum) : M addr :=
  match c with
  | PyInt z => if Z.eqb z 0 then raise ZeroDivisionError
               else mul_scalar a (mkscalar DFloat (kinv (kofZ z)))
  | PyFloat x => if keqb x k0 then raise ZeroDivisionError
                 else mul_scalar a (mkscalar DFloat (kinv x))
  | PyComplex x => if keqb x k0 then raise ZeroDivisionError
                   else mul_scalar a (mkscalar DComplex (kinv x))
  end.

(** __pow__, linop.py:441-452 *)
Fixpoint pow_pos (a : addr) (k : nat) : M addr :=   (* exponent S k *)
  match k with
  | O => ret a
  | S k' => do p <- pow_pos a k' ;; mul_linop a p
  end.
Definition pow_linop (a : addr) (k : Z) : M addr :=
  if Z.ltb k 0 then raise ValueError else
  do n <- getattr o_nargin a ;; do m <- getattr o_nargout a ;;
  if negb (Nat.eqb n m) then raise ShapeError else
  match Z.to_nat k with
  | O => identity_op n DFloat
  | S k' => pow_pos a k'
  end.

(** to_array, linop.py:256-265: the list of columns *)
Fixpoint to_cols (d : nat) (a : addr) (m : nat) (js : list nat) (dt : dtype) : M (list arr) :=
  match js with
  | [] => ret []
  | j :: js' => do y <- apply d a (mkarr dt (unitv m j)) ;;
                do ys <- to_cols d a m js' dt ;; ret (y :: ys)
  end.
Definition to_array (d : nat) (a : addr) : M (list arr) :=
  do m <- getattr o_nargin a ;; do dt <- getattr o_dtype a ;;
  to_cols d a m (seq 0 m) dt.

(** ReducedLinearOperator, linop.py:560-590; SymmetricallyReducedLinearOperator, 593-623 *)
Definition reduced_op (a : addr) (ri ci : list Z) : M addr :=
  do dt <- getattr o_dtype a ;;
  new_linop (length ci) (length ri) (CRed WN a ci ri) (Some (CRed WT a ri ci))
            (Some (CRed WH a ri ci)) false false dt.
Definition sym_reduced_op (a : addr) (ix : list Z) : M addr :=
  do dt <- getattr o_dtype a ;;
  do sym <- getattr o_sym a ;; do herm <- getattr o_herm a ;;
  new_linop (length ix) (length ix) (CRed WN a ix ix) (Some (CRed WT a ix ix))
            (Some (CRed WH a ix ix)) sym herm dt.
End Linop.

Arguments arr : clear implicits.
Arguments scalar : clear implicits.
Arguments clo : clear implicits.
Arguments payload : clear implicits.
Arguments obj : clear implicits.
Arguments st : clear implicits.
Arguments M : clear implicits.
Arguments pynum : clear implicits.
Arguments init_t : clear implicits.
