(** * Model of pykrylov/linop/lbfgs.py.

    The n-by-npairs arrays [s] and [y] are modelled by their columns, as functions of the
    column number; the uninitialised arrays of [np.empty] by functions about which nothing
    is assumed.  All vectors have the length [n] of the operator (numpy's broadcasting of
    other shapes is not modelled), and the entries are floats (in-place updates of integer
    arrays are not modelled). *)
From Coq Require Import List ZArith QArith Bool Arith.
From Verif Require Import Base Num.
Import ListNotations.

Definition upd {A : Type} (f : nat -> A) (i : nat) (x : A) : nat -> A :=
  fun j => if Nat.eqb j i then x else f j.

Section Lbfgs.
Context {K : Scal} {W : Vs K}.
Notation S := (sc K).
Notation V := (vc W).

(** The attributes of an [InverseLBFGSOperator] (lbfgs.py:39-59). *)
Record lb := mklb {
  l_np : nat; l_scal : bool; l_insert : nat;
  l_s : nat -> V; l_y : nat -> V;
  l_alpha : nat -> S; l_ys : nat -> option S; l_gamma : S }.

(** The contents of freshly allocated, uninitialised memory. *)
Record junk := mkjunk { j_s : nat -> V; j_y : nat -> V; j_alpha : nat -> S }.

(** lbfgs.py:51 *)
Definition threshold : S := slit (1 # 100000000000000000000).

(** lbfgs.py:25-63 *)
Definition lb_init (np : nat) (scaling : bool) (g : junk) : lb :=
  mklb np scaling 0 (j_s g) (j_y g) (j_alpha g) (fun _ => None) s1.

(** lbfgs.py:70-87.  [self.s[:, insert]] raises IndexError if [npairs = 0]. *)
Definition lb_store (st : lb) (s y : V) : res lb :=
  let ys := vdot s y in
  if sleb ys threshold then Ok st
  else if Nat.eqb (l_np st) 0 then Err IndexError
  else
    let i := l_insert st in
    Ok (mklb (l_np st) (l_scal st) ((i + 1) mod l_np st)
             (upd (l_s st) i s) (upd (l_y st) i y) (l_alpha st)
             (upd (l_ys st) i (Some ys)) (l_gamma st)).

(** lbfgs.py:89-95 *)
Definition lb_restart (st : lb) (g : junk) : lb :=
  mklb (l_np st) (l_scal st) 0 (j_s g) (j_y g) (l_alpha st) (fun _ => None) (l_gamma st).

(** Python's [(a - b) % m] on integers, for [m > 0]. *)
Definition submod (a b m : nat) : nat := Z.to_nat ((Z.of_nat a - Z.of_nat b) mod Z.of_nat m).

(** [(self.insert + i) % npairs] and [(self.insert - 1 - i) % npairs]. *)
Definition up (st : lb) (i : nat) : nat := (l_insert st + i) mod l_np st.
Definition down (st : lb) (i : nat) : nat := submod (l_insert st) (1 + i) (l_np st).

(** lbfgs.py:109-113 *)
Definition inv_down (st : lb) (a : V * (nat -> S)) (i : nat) : V * (nat -> S) :=
  let k := down st i in
  match l_ys st k with
  | None => a
  | Some d =>
      let '(q, alpha) := a in
      let alpha := upd alpha k (sdiv (vdot (l_s st k) q) d) in
      (vsub q (vscale (alpha k) (l_y st k)), alpha)
  end.

(** lbfgs.py:122-126 *)
Definition inv_up (st : lb) (alpha : nat -> S) (r : V) (i : nat) : V :=
  let k := up st i in
  match l_ys st k with
  | None => r
  | Some d =>
      let beta := sdiv (vdot (l_y st k) r) d in
      vadd r (vscale (ssub (alpha k) beta) (l_s st k))
  end.

(** lbfgs.py:116-119 and 207-210: the scaling factor of the newest pair. *)
Definition scal_gamma (st : lb) : res (option S) :=
  if l_scal st then
    if Nat.eqb (l_np st) 0 then Err ZeroDivisionError
    else
      let last := submod (l_insert st) 1 (l_np st) in
      match l_ys st last with
      | None => Ok None
      | Some d => Ok (Some (sdiv d (vdot (l_y st last) (l_y st last))))
      end
  else Ok None.

Definition or_gamma (o : option S) (st : lb) : S :=
  match o with Some g => g | None => l_gamma st end.

Definition set_ag (st : lb) (alpha : nat -> S) (gamma : S) : lb :=
  mklb (l_np st) (l_scal st) (l_insert st) (l_s st) (l_y st) alpha (l_ys st) gamma.

(** lbfgs.py:97-127: [InverseLBFGSOperator.lbfgs_matvec]. *)
Definition inv_matvec (st : lb) (v : V) : res (V * lb) :=
  let idx := seq 0 (l_np st) in
  let '(q, alpha) := fold_left (inv_down st) idx (v, l_alpha st) in
  rbind (scal_gamma st) (fun o =>
    let r := match o with Some g => vscale g q | None => q end in
    Ok (fold_left (inv_up st alpha) idx r, set_ag st alpha (or_gamma o st))).

(** lbfgs.py:165-169: the contribution of an earlier pair to [a[:, k]]. *)
Definition fwd_inner (st : lb) (k : nat) (b a : nat -> V) (j : nat) : nat -> V :=
  let l := up st j in
  match l_ys st l with
  | None => a
  | Some _ =>
      let a := upd a k (vadd (a k) (vscale (vdot (b l) (l_s st k)) (b l))) in
      upd a k (vsub (a k) (vscale (vdot (a l) (l_s st k)) (a l)))
  end.

Record fst_ := mkfst { f_q : V; f_b : nat -> V; f_a : nat -> V }.

(** lbfgs.py:158-171.  [np.dot(np.outer(a, a), v)] is written [(a'v) a]. *)
Definition fwd_body (st : lb) (v : V) (z : fst_) (i : nat) : fst_ :=
  let k := up st i in
  match l_ys st k with
  | None => z
  | Some d =>
      let b := upd (f_b z) k (vdivs (l_y st k) (ssqrt d)) in
      let bv := vdot (b k) v in
      let q := vadd (f_q z) (vscale bv (b k)) in
      let a := upd (f_a z) k (l_s st k) in
      let a := fold_left (fwd_inner st k b) (seq 0 i) a in
      let a := upd a k (vdivs (a k) (ssqrt (vdot (l_s st k) (a k)))) in
      let q := vsub q (vscale (vdot (a k) v) (a k)) in
      mkfst q b a
  end.

(** lbfgs.py:140-173: [LBFGSOperator.lbfgs_matvec]. *)
Definition fwd_matvec (st : lb) (v : V) : res (V * lb) :=
  let zero := fun _ : nat => vzeros (vlen v) in
  let z := fold_left (fwd_body st v) (seq 0 (l_np st)) (mkfst v zero zero) in
  Ok (f_q z, st).

(** lbfgs.py:213-225: filling [a] from position [snd]; the counter is the second component. *)
Definition cmp_rhs (st : lb) (u : V) (col : nat -> V) (off : nat)
                   (z : (nat -> S) * nat) (i : nat) : (nat -> S) * nat :=
  let k := up st i in
  match l_ys st k with
  | None => z
  | Some _ => let '(a, c) := z in (upd a (off + c) (vdot u (col k)), (c + 1)%nat)
  end.

Definition upd2 (m : nat -> nat -> S) (i j : nat) (x : S) : nat -> nat -> S :=
  upd m i (upd (m i) j x).

(** lbfgs.py:234-242 *)
Definition cmp_inner (st : lb) (gamma : S) (pc k kind : nat)
                     (z : (nat -> nat -> S) * nat) (j : nat) : (nat -> nat -> S) * nat :=
  let l := up st j in
  match l_ys st l with
  | None => z
  | Some _ =>
      let '(m, lind) := z in
      let m := upd2 m kind (pc + lind) (vdot (l_s st k) (l_y st l)) in
      let m := upd2 m (pc + lind) kind (m kind (pc + lind)%nat) in
      let m := upd2 m kind lind (sdiv (vdot (l_s st k) (l_s st l)) gamma) in
      let m := upd2 m lind kind (m kind lind) in
      (m, (lind + 1)%nat)
  end.

(** lbfgs.py:228-243 *)
Definition cmp_mat (st : lb) (gamma : S) (pc : nat)
                   (z : (nat -> nat -> S) * nat) (i : nat) : (nat -> nat -> S) * nat :=
  let k := up st i in
  match l_ys st k with
  | None => z
  | Some d =>
      let '(m, kind) := z in
      let m := upd2 m (pc + kind) (pc + kind) (sneg d) in
      let m := upd2 m kind kind (sdiv (vdot (l_s st k) (l_s st k)) gamma) in
      let '(m, _) := fold_left (cmp_inner st gamma pc k kind) (seq 0 i) (m, O) in
      (m, (kind + 1)%nat)
  end.

(** lbfgs.py:249-252 *)
Definition cmp_out (st : lb) (gamma : S) (pc : nat) (b : nat -> S) (r : V) (i : nat) : V :=
  let k := Z.to_nat ((Z.of_nat (l_insert st) - Z.of_nat pc + Z.of_nat i) mod Z.of_nat (l_np st)) in
  let r := vsub r (vscale (sdiv (b i) gamma) (l_s st k)) in
  vsub r (vscale (b (i + pc)%nat) (l_y st k)).

(** [np.linalg.solve] on the leading [n]-by-[n] block: it returns a vector or raises. *)
Definition lsolve := nat -> (nat -> nat -> S) -> (nat -> S) -> res (nat -> S).

(** lbfgs.py:188-254: [CompactLBFGSOperator.lbfgs_matvec]. *)
Definition cmp_matvec (solve : lsolve) (st : lb) (v : V) : res (V * lb) :=
  let idx := seq 0 (l_np st) in
  rbind (scal_gamma st) (fun o =>
    let gamma := or_gamma o st in
    let r := match o with Some g => vdivs v g | None => v end in
    let '(a, pc) := fold_left (cmp_rhs st r (l_s st) 0) idx (fun _ => s0, O) in
    let '(a, _) := fold_left (cmp_rhs st v (l_y st) pc) idx (a, O) in
    let '(m, _) := fold_left (cmp_mat st gamma pc) idx (fun _ _ => s0, O) in
    rbind (if Nat.ltb 0 pc then solve (2 * pc)%nat m a else Ok (fun _ => s0)) (fun b =>
      Ok (fold_left (cmp_out st gamma pc b) (seq 0 pc) r,
          set_ag st (l_alpha st) gamma))).

(** The three classes that can be built; each overrides [lbfgs_matvec]. *)
Inductive kind := KInverse | KForward | KCompact.
Definition matvec (solve : lsolve) (k : kind) : lb -> V -> res (V * lb) :=
  match k with KInverse => inv_matvec | KForward => fwd_matvec | KCompact => cmp_matvec solve end.

(** ** Histories: any sequence of calls on one operator. *)
Inductive event :=
| EStore (s y : V)
| ERestart (g : junk)
| EMul (v : V).

Definition step (mv : lb -> V -> res (V * lb)) (st : lb) (e : event) : res lb :=
  match e with
  | EStore s y => lb_store st s y
  | ERestart g => Ok (lb_restart st g)
  | EMul v => rbind (mv st v) (fun p => Ok (snd p))
  end.

Fixpoint run (mv : lb -> V -> res (V * lb)) (st : lb) (es : list event) : res lb :=
  match es with
  | [] => Ok st
  | e :: es => rbind (step mv st e) (fun st => run mv st es)
  end.
End Lbfgs.
Arguments lb {K} W. Arguments junk {K} W. Arguments event {K} W. Arguments lsolve K : clear implicits.
