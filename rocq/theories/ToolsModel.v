(** * Model of pykrylov/tools/utils.py and of the plane rotation in lls/lsmr.py.

    Products with an operator are threaded through an explicit counter [cnt], the
    [op.nMatvec] of pykrylov/linop/linop.py (property C09 proves that each product with a
    LinearOperator adds exactly one to it). *)
From Coq Require Import List ZArith QArith Bool.
From Verif Require Import Base Num.
Import ListNotations.

Section Tools.
Context {K : Scal} {W : Vs K}.
Notation S := (sc K).
Notation V := (vc W).

(** [np.finfo(np.double).eps] = 2^-52: tools/utils.py:7-9. *)
Definition machine_eps : S := slit (1 # 4503599627370496).

(** [op * x] with its effect on the operator's product counter. *)
Definition opmul (A : V -> V) (x : V) (cnt : nat) : V * nat := (A x, (cnt + 1)%nat).

(** tools/utils.py:63-85.  [draws] is the sequence of vectors [np.random.random] returns after
    [seed(1)], [cbrt a] the value of [a**(1.0/3)]; both arbitrary. *)
Fixpoint check_symmetric_loop (cbrt : S -> S) (A : V -> V) (draws : list V) (cnt : nat)
  : bool * nat :=
  match draws with
  | [] => (true, cnt)
  | x :: rest =>
      let '(w, cnt) := opmul A x cnt in
      let '(r, cnt) := opmul A w cnt in
      let s := vdot w w in
      let t := vdot x r in
      let z := sabs (ssub s t) in
      let epsa := smul (sadd s machine_eps) (cbrt machine_eps) in
      if sgtb z epsa then (false, cnt)
      else check_symmetric_loop cbrt A rest cnt
  end.

Definition check_symmetric (cbrt : S -> S) (m n : nat) (A : V -> V) (draws : list V) (cnt : nat)
  : bool * nat :=
  if negb (Nat.eqb m n) then (false, cnt) else check_symmetric_loop cbrt A draws cnt.

(** tools/utils.py:88-112. *)
Fixpoint check_pd_loop (A : V -> V) (semi : bool) (draws : list V) (cnt : nat) : bool * nat :=
  match draws with
  | [] => (true, cnt)
  | v :: rest =>
      let '(w, cnt) := opmul A v cnt in
      let vw := vdot v w in
      if sgtb (simag vw) (smul (ssqrt machine_eps) (sabs vw)) then (false, cnt)
      else
        let vw := sreal vw in
        if (if semi then sltb vw s0 else sleb vw s0) then (false, cnt)
        else check_pd_loop A semi rest cnt
  end.

Definition check_positive_definite (m n : nat) (A : V -> V) (semi : bool) (draws : list V)
  (cnt : nat) : bool * nat :=
  if negb (Nat.eqb m n) then (false, cnt) else check_pd_loop A semi draws cnt.
End Tools.

(** Python float arithmetic: division by zero and the square root of a negative number raise.
    [sdiv]/[ssqrt] give the value otherwise. *)
Section PyFloat.
Context {K : Scal}.
Notation S := (sc K).

Definition pydiv (a b : S) : res S := if seqb b s0 then Err ZeroDivisionError else Ok (sdiv a b).
Definition pysqrt (a : S) : res S := if sltb a s0 then Err ValueError else Ok (ssqrt a).

(** [copysign(a, b)] for [a >= 0]; [neg b] tells the sign bit of [b]. *)
Definition copysign (neg : S -> bool) (a b : S) : S :=
  if neg b then sneg (sabs a) else sabs a.

(** tools/utils.py:51-58: [nitref] Newton corrections of one root. *)
Fixpoint newton (a2 a1 a0 : S) (nitref : nat) (root : S) : res S :=
  match nitref with
  | O => Ok root
  | Datatypes.S k =>
      let val := sadd (smul (sadd (smul a2 root) a1) root) a0 in
      let der := sadd (smul (smul (slit 2) a2) root) a1 in
      if seqb der s0 then newton a2 a1 a0 k root
      else rbind (pydiv val der) (fun q => newton a2 a1 a0 k (ssub root q))
  end.

Fixpoint newton_all (a2 a1 a0 : S) (nitref : nat) (roots : list S) : res (list S) :=
  match roots with
  | [] => Ok []
  | x :: rest =>
      rbind (newton a2 a1 a0 nitref x) (fun y =>
      rbind (newton_all a2 a1 a0 nitref rest) (fun ys => Ok (y :: ys)))
  end.

(** tools/utils.py:12-60. *)
Definition roots_quadratic (neg : S -> bool) (a2 a1 a0 tol : S) (nitref : nat) : res (list S) :=
  if seqb a2 s0 then
    if seqb a1 s0 then
      if seqb a0 s0 then Ok [s0] else Ok []
    else rbind (pydiv (sneg a0) a1) (fun r => newton_all a2 a1 a0 nitref [r])
  else
    let rhs := smul (smul tol a1) a1 in
    if sgtb (sabs (smul a0 a2)) rhs then
      let rho := ssub (smul a1 a1) (smul (smul (slit 4) a2) a0) in
      if sltb rho s0 then Ok []
      else
        rbind (pysqrt rho) (fun sr =>
        let d := smul (sneg (slit (1 # 2))) (sadd a1 (copysign neg sr a1)) in
        rbind (pydiv d a2) (fun r1 =>
        rbind (pydiv a0 d) (fun r2 => newton_all a2 a1 a0 nitref [r1; r2])))
    else
      rbind (pydiv (sneg a1) a2) (fun r1 => newton_all a2 a1 a0 nitref [r1; s0]).

(** lls/lsmr.py:495-497. *)
Definition sign (a : S) : S := if sltb a s0 then slit (-1) else s1.

(** lls/lsmr.py:500-519 (float arguments). *)
Definition symOrtho (a b : S) : res (S * S * S) :=
  if seqb b s0 then Ok (sign a, s0, sabs a)
  else if seqb a s0 then Ok (s0, sign b, sabs b)
  else if sgtb (sabs b) (sabs a) then
    rbind (pydiv a b) (fun tau =>
    rbind (pysqrt (sadd s1 (smul tau tau))) (fun d =>
    rbind (pydiv (sign b) d) (fun s =>
    rbind (pydiv b s) (fun r => Ok (smul s tau, s, r)))))
  else
    rbind (pydiv b a) (fun tau =>
    rbind (pysqrt (sadd s1 (smul tau tau))) (fun d =>
    rbind (pydiv (sign a) d) (fun c =>
    rbind (pydiv a c) (fun r => Ok (c, smul c tau, r))))).
End PyFloat.
