(** * Model of the whole of [Symmlq.solve] (pykrylov/symmlq/symmlq.py), for an object that has the
    attribute [matvec] the class itself never defines (see file Symmlq).

    Arrays are values; in-place updates are modelled by rebinding.  All divisions and square roots
    are numpy's (no exception).  Logging, and the values computed only to be logged ([x1lq], [x1cg],
    [prnt], the local reorthogonalization report), are not modelled, except where reading them
    raises.  The attributes of an object whose [solve] raises are not modelled. *)
From Coq Require Import List ZArith QArith Bool.
From Verif Require Import Base Num ToolsModel CgModel.
Import ListNotations.

Section Symmlq.
Context {K : Scal} {W : Vs K}.
Notation S := (sc K).
Notation V := (vc W).

(** Keyword arguments of [solve] (symmlq.py:88-94). *)
Record sy_kw := mksykw {
  y_mmax : option nat; y_rtol : S; y_check : bool; y_shift : option S; y_sit : bool }.
Definition sy_kw0 : sy_kw := mksykw None (slit (1 # 1000000000)) false None false.

(** symmlq.py:88. *)
Definition sy_lim (kw : sy_kw) (b : V) : nat :=
  match y_mmax kw with Some l => l | None => (2 * vlen b + 2)%nat end.

(** symmlq.py:91-92 and 177, 303, 379: [if shift is not None: y -= shift * v]. *)
Definition sy_shift (kw : sy_kw) (y v : V) : V :=
  match y_shift kw with
  | Some s => if seqb s s0 then y else vsub y (vscale s v)
  | None => y
  end.

(** Local variables.  [y_lqdiag] holds [lqnorm] and [diag], unbound before the first iteration. *)
Record sy_st := mksy {
  y_x : V; y_w : V; y_y : V; y_r1 : V; y_r2 : V;
  y_oldb : S; y_beta : S; y_tnorm : S; y_gbar : S; y_dbar : S; y_snprod : S; y_bstep : S;
  y_ynorm2 : S; y_rhs1 : S; y_rhs2 : S; y_gmax : S; y_gmin : S; y_acond : S; y_anorm : S;
  y_cgnorm : S; y_lqdiag : option (S * S);
  y_istop : Z; y_itn : nat; y_nmv : nat; y_cnt : nat; y_brk : bool; y_iters : list V }.

(** symmlq.py:130-133 and 370-373. *)
Definition sy_prec (q : kprob W) (r : V) : V := match q_P q with Some P => P r | None => r end.

(** symmlq.py:140-144 and 165-169. *)
Definition sy_asym (q : kprob W) (s t : S) : bool :=
  sgtb (sabs (ssub s t)) (smul (sadd s machine_eps) (q_cbrt q machine_eps)).

(** symmlq.py:157-217: the first Lanczos step, when [beta1 > 0].  [mv] is [self.matvec] (with the
    counter of products of the operator it uses), [istop0] and [done0] the values of [istop] and
    [done] at line 157.  Returns the state at the top of the loop and [done]. *)
Definition sy_first (q : kprob W) (kw : sy_kw) (mv : V -> nat -> V * nat) (b y : V) (beta1 : S)
  (istop0 : Z) (done0 : bool) (iters : list V) (cnt : nat) : sy_st * bool :=
  let v := vscale (sdiv s1 beta1) y in
  let '(y, cnt) := mv v cnt in
  let '(istop, done, cnt) :=
    if y_check kw then
      let '(r2, cnt) := opmul (q_A q) y cnt in
      if sy_asym q (vdot y y) (vdot v r2) then (6%Z, true, cnt) else (istop0, done0, cnt)
    else (istop0, done0, cnt) in
  let y := sy_shift kw y v in
  let alfa := vdot v y in
  let y := vsub y (vscale (sdiv alfa beta1) b) in
  let z := vdot v y in
  let s := vdot v v in
  let y := vsub y (vscale (sdiv z s) v) in
  let r2 := y in
  let y := sy_prec q r2 in
  let beta := vdot r2 y in
  let '(istop, done) := if sltb beta s0 then (8%Z, true) else (istop, done) in
  let beta := ssqrt beta in
  let istop := if sleb beta machine_eps then (-1)%Z else istop in
  let gmax := sadd (sabs alfa) machine_eps in
  (mksy (vzeros (vlen b)) (vzeros (vlen b)) y b r2
     beta1 beta (sadd (smul alfa alfa) (smul beta beta)) alfa beta s1 s0
     s0 beta1 s0 gmax gmax s0 s0
     beta1 None istop 0 1 cnt false iters, done).

(** symmlq.py:271-276. *)
Definition sy_tests (eps beta1 : S) (nmv lim : nat) (acond epsx epsr cgnorm : S) : Z :=
  let i := 0%Z in
  let i := if (lim <=? nmv)%nat then 5%Z else i in
  let i := if sgeb acond (sdiv (slit (1 # 10)) eps) then 4%Z else i in
  let i := if sgeb epsx beta1 then 3%Z else i in
  let i := if sleb cgnorm epsx then 2%Z else i in
  if sleb cgnorm epsr then 1%Z else i.

(** symmlq.py:236-276: the estimates and the tests. *)
Definition sy_top (kw : sy_kw) (beta1 : S) (lim : nat) (st : sy_st) : sy_st :=
  let anorm := ssqrt (y_tnorm st) in
  let ynorm := ssqrt (y_ynorm2 st) in
  let epsa := smul anorm machine_eps in
  let epsx := smul (smul anorm ynorm) machine_eps in
  let epsr := smul (smul anorm ynorm) (y_rtol kw) in
  let diag := if seqb (y_gbar st) s0 then epsa else y_gbar st in
  let lqnorm := ssqrt (sadd (smul (y_rhs1 st) (y_rhs1 st)) (smul (y_rhs2 st) (y_rhs2 st))) in
  let qrnorm := smul (y_snprod st) beta1 in
  let cgnorm := sdiv (smul qrnorm (y_beta st)) (sabs diag) in
  let acond := if sltb lqnorm cgnorm then sdiv (y_gmax st) (y_gmin st)
               else sdiv (y_gmax st) (pymin (y_gmin st) (sabs diag)) in
  let istop := if (y_istop st =? 0)%Z
               then sy_tests machine_eps beta1 (y_nmv st) lim acond epsx epsr cgnorm else y_istop st in
  mksy (y_x st) (y_w st) (y_y st) (y_r1 st) (y_r2 st) (y_oldb st) (y_beta st) (y_tnorm st) (y_gbar st) (y_dbar st)
    (y_snprod st) (y_bstep st) (y_ynorm2 st) (y_rhs1 st) (y_rhs2 st) (y_gmax st) (y_gmin st) acond anorm
    cgnorm (Some (lqnorm, diag)) istop (y_itn st + 1) (y_nmv st) (y_cnt st) (negb (istop =? 0)%Z) (y_iters st).

(** symmlq.py:300-311: the Lanczos step: [v], [alfa], [r2], [y], [beta] (squared) and the counter. *)
Definition sy_lan (q : kprob W) (kw : sy_kw) (st : sy_st) : V * S * V * V * S * nat :=
  let v := vscale (sdiv s1 (y_beta st)) (y_y st) in
  let '(y, cnt) := opmul (q_A q) v (y_cnt st) in
  let y := sy_shift kw y v in
  let y := vsub y (vscale (sdiv (y_beta st) (y_oldb st)) (y_r1 st)) in
  let alfa := vdot v y in
  let y := vsub y (vscale (sdiv alfa (y_beta st)) (y_r2 st)) in
  let r2 := y in
  let y := sy_prec q r2 in
  (v, alfa, r2, y, vdot r2 y, cnt).

(** symmlq.py:317-349, [beta] being the new square root. *)
Definition sy_upd (kw : sy_kw) (st : sy_st) (v : V) (alfa : S) (r2 y : V) (beta : S) (cnt : nat) : sy_st :=
  let oldb := y_beta st in
  let tnorm := sadd (sadd (sadd (y_tnorm st) (smul alfa alfa)) (smul oldb oldb)) (smul beta beta) in
  let gamma := ssqrt (sadd (smul (y_gbar st) (y_gbar st)) (smul oldb oldb)) in
  let cs := sdiv (y_gbar st) gamma in
  let sn := sdiv oldb gamma in
  let delta := sadd (smul cs (y_dbar st)) (smul sn alfa) in
  let gbar := ssub (smul sn (y_dbar st)) (smul cs alfa) in
  let epsln := smul sn beta in
  let dbar := smul (sneg cs) beta in
  let z := sdiv (y_rhs1 st) gamma in
  let s := smul z cs in
  let t := smul z sn in
  let x := vadd (y_x st) (vadd (vscale s (y_w st)) (vscale t v)) in
  let w := vsub (vscale sn (y_w st)) (vscale cs v) in
  let iters := if y_sit kw then y_iters st ++ [x] else y_iters st in
  let bstep := sadd (smul (smul (y_snprod st) cs) z) (y_bstep st) in
  let snprod := smul (y_snprod st) sn in
  let gmax := pymax (y_gmax st) gamma in
  let gmin := pymin (y_gmin st) gamma in
  let ynorm2 := sadd (smul z z) (y_ynorm2 st) in
  let rhs1 := ssub (y_rhs2 st) (smul delta z) in
  let rhs2 := smul (sneg epsln) z in
  mksy x w y (y_r2 st) r2 oldb beta tnorm gbar dbar snprod bstep ynorm2 rhs1 rhs2 gmax gmin
    (y_acond st) (y_anorm st) (y_cgnorm st) (y_lqdiag st) (y_istop st) (y_itn st) (y_nmv st + 1) cnt false iters.

(** symmlq.py:313-315: [beta < 0], leaving the loop. *)
Definition sy_indef (st : sy_st) (r2 y : V) (beta : S) (cnt : nat) : sy_st :=
  mksy (y_x st) (y_w st) y (y_r2 st) r2 (y_beta st) beta (y_tnorm st) (y_gbar st) (y_dbar st)
    (y_snprod st) (y_bstep st) (y_ynorm2 st) (y_rhs1 st) (y_rhs2 st) (y_gmax st) (y_gmin st) (y_acond st) (y_anorm st)
    (y_cgnorm st) (y_lqdiag st) 6 (y_itn st) (y_nmv st + 1) cnt true (y_iters st).

(** symmlq.py:235. *)
Definition sy_cond (lim : nat) (st : sy_st) : bool := negb (y_brk st) && (y_nmv st <? lim)%nat.

(** symmlq.py:236-349. *)
Definition sy_body (q : kprob W) (kw : sy_kw) (beta1 : S) (lim : nat) (st : sy_st) : res sy_st :=
  let st := sy_top kw beta1 lim st in
  if y_brk st then Ok st
  else
    let '(v, alfa, r2, y, beta, cnt) := sy_lan q kw st in
    if sltb beta s0 then Ok (sy_indef st r2 y beta cnt)
    else Ok (sy_upd kw st v alfa r2 y (ssqrt beta) cnt).

(** What [solve] leaves behind (symmlq.py:396-400), and [istop] and [itn], which are logged. *)
Record sy_out := mksyo {
  u_nmv : nat; u_x : V; u_xnorm : S; u_rnorm : S; u_acond : S; u_anorm : S;
  u_istop : Z; u_itn : nat; u_iters : list V }.

(** symmlq.py:361-374: [x] after the move to the CG point and the step along [b]. *)
Definition sy_point (q : kprob W) (b : V) (beta1 lqnorm diag : S) (st : sy_st) : V :=
  let '(bstep, x) :=
    if sltb (y_cgnorm st) lqnorm then
      let zbar := sdiv (y_rhs1 st) diag in
      (sadd (smul (y_snprod st) zbar) (y_bstep st), vadd (y_x st) (vscale zbar (y_w st)))
    else (y_bstep st, y_x st) in
  vadd x (vscale (sdiv bstep beta1) (sy_prec q b)).

(** symmlq.py:361-400. *)
Definition sy_final (q : kprob W) (kw : sy_kw) (b : V) (beta1 : S) (st : sy_st) : res (sy_out * nat) :=
  match y_lqdiag st with
  | None => Err UnboundLocalError
  | Some (lqnorm, diag) =>
      let x := sy_point q b beta1 lqnorm diag st in
      let '(y, cnt) := opmul (q_A q) x (y_cnt st) in
      let y := sy_shift kw y x in
      let r1 := vsub b y in
      Ok (mksyo (y_nmv st + 1) x (vnorm x) (vnorm r1) (y_acond st) (y_anorm st)
            (y_istop st) (y_itn st) (y_iters st), cnt)
  end.

(** symmlq.py:65-400.  [mv] is the attribute [matvec] ([None]: missing); [iters0] the attribute
    [iterates] on entry. *)
Definition sy_solve (fuel : nat) (mv : option (V -> nat -> V * nat)) (q : kprob W) (iters0 : list V)
  (b : V) (kw : sy_kw) (cnt : nat) : res (sy_out * nat) :=
  let iters := if y_sit kw then iters0 ++ [vzeros (vlen b)] else iters0 in
  let y := sy_prec q b in
  if (vlen y =? 0)%nat then Err IndexError else
  let beta1 := vdot b y in
  let '(istop, done) :=
    match q_P q with
    | Some P => if y_check kw && sy_asym q (vdot y y) (vdot b (P y)) then (7%Z, true) else (0%Z, false)
    | None => (0%Z, false)
    end in
  let '(istop, done) := if sltb beta1 s0 then (8%Z, true) else (istop, done) in
  let done := done || seqb beta1 s0 in
  if sgtb beta1 s0 then
    let beta1 := ssqrt beta1 in
    match mv with
    | None => Err AttributeError
    | Some mv =>
        let '(st, done) := sy_first q kw mv b y beta1 istop done iters cnt in
        let lim := sy_lim kw b in
        match (if done then Ok st else while fuel (sy_cond lim) (sy_body q kw beta1 lim) st) with
        | Ok st => sy_final q kw b beta1 st
        | Err e => Err e
        end
    end
  else Err UnboundLocalError.
End Symmlq.
Arguments sy_kw {K}. Arguments sy_kw0 {K}. Arguments sy_st {K} W. Arguments sy_out {K} W.
