(** * Model of pykrylov/minres/minres.py over arbitrary scalars and vectors.

    Arrays are values; in-place updates are modelled by rebinding.  All divisions are numpy
    divisions (no exception).  Printing ([show]) is not modelled: it has no effect on the state. *)
From Coq Require Import List ZArith QArith Bool.
From Verif Require Import Base Num ToolsModel CgModel.
Import ListNotations.

Section Minres.
Context {K : Scal} {W : Vs K}.
Notation S := (sc K).
Notation V := (vc W).

(** Keyword arguments of [solve] (minres.py:121-130).  The preconditioner is an operator with its
    own shape.  [m_pdraws]: the random vectors of its symmetry check.  [m_lnorm] is
    [numpy.linalg.norm] on the array of direct error terms. *)
Record mr_kw := mkmrkw {
  m_precon : option (V -> V); m_pm : nat; m_pn : nat; m_pdraws : list V;
  m_shift : S; m_check : bool; m_itnlim : option nat; m_rtol : S; m_etol : S;
  m_sit : bool; m_window : nat; m_lnorm : list S -> S }.

(** The documented defaults. *)
Definition mr_kw0 (lnorm : list S -> S) : mr_kw :=
  mkmrkw None 0 0 [] s0 true None (slit (1 # 1000000000000)) (slit (1 # 1000000)) false 5 lnorm.

Record mr_st := mkmr {
  r_x : V; r_y : V; r_r1 : V; r_r2 : V; r_w : V; r_w2 : V;
  r_oldb : S; r_beta : S; r_dbar : S; r_epsln : S; r_phibar : S; r_rhs1 : S; r_rhs2 : S;
  r_Arnorm : S; r_tnorm2 : S; r_ynorm2 : S; r_cs : S; r_sn : S; r_gmax : S; r_gmin : S;
  r_Anorm : S; r_Acond : S; r_rnorm : S; r_ynorm : S; r_nrg2 : S; r_dErr : list S;
  r_dirs : list S; r_istop : Z; r_itn : nat; r_cnt : nat; r_brk : bool;
  r_hist : list S; r_iters : list V }.

Definition mr_lim (kw : mr_kw) (b : V) : nat :=
  match m_itnlim kw with Some l => l | None => (5 * vlen b)%nat end.

(** minres.py:112-113. *)
Definition normof2 (x y : S) : S := ssqrt (sadd (smul x x) (smul y y)).

Fixpoint lset (l : list S) (i : nat) (v : S) : list S :=
  match l, i with
  | [], _ => []
  | _ :: t, O => v :: t
  | h :: t, Datatypes.S i => h :: lset t i v
  end.

(** minres.py:349-361: the stopping tests (performed when [istop==0]). *)
Definition mr_tests (eps beta1 rtol : S) (itn lim : nat) (test1 test2 Acond epsx : S) : Z :=
  let t1 := sadd s1 test1 in
  let t2 := sadd s1 test2 in
  let i := 0%Z in
  let i := if sleb t2 s1 then 2%Z else i in
  let i := if sleb t1 s1 then 1%Z else i in
  let i := if (lim <=? itn)%nat then 6%Z else i in
  let i := if sgeb Acond (sdiv (slit (1 # 10)) eps) then 4%Z else i in
  let i := if sgeb epsx beta1 then 3%Z else i in
  let i := if sleb test2 rtol then 2%Z else i in
  if sleb test1 rtol then 1%Z else i.

(** minres.py:236-251: the Lanczos step: [v], [alfa], [r2], [y], [beta] (squared) and the counter. *)
Definition mr_lan (q : kprob W) (kw : mr_kw) (st : mr_st) : V * S * V * V * S * nat :=
  let itn := (r_itn st + 1)%nat in
  let s := sdiv s1 (r_beta st) in
  let v := vscale s (r_y st) in
  let '(y, cnt) := opmul (q_A q) v (r_cnt st) in
  let y := vsub y (vscale (m_shift kw) v) in
  let y := if (2 <=? itn)%nat then vsub y (vscale (sdiv (r_beta st) (r_oldb st)) (r_r1 st)) else y in
  let alfa := vdot v y in
  let y := vadd (vscale (sdiv (sneg alfa) (r_beta st)) (r_r2 st)) y in
  let r2 := y in
  let y := match m_precon kw with Some P => P r2 | None => y end in
  (v, alfa, r2, y, vdot r2 y, cnt).

(** minres.py:271-272, 279, 284-285: [delta], [gbar], [root], [gamma] ([beta] is the new one). *)
Definition mr_delta (st : mr_st) (alfa : S) : S := sadd (smul (r_cs st) (r_dbar st)) (smul (r_sn st) alfa).
Definition mr_gbar (st : mr_st) (alfa : S) : S := ssub (smul (r_sn st) (r_dbar st)) (smul (r_cs st) alfa).
Definition mr_root (st : mr_st) (gbar beta : S) : S := normof2 gbar (smul (sneg (r_cs st)) beta).
Definition mr_gamma (eps gbar beta : S) : S := pymax (normof2 gbar beta) eps.

(** minres.py:256-361, after [beta = sqrt(beta)]. *)
Definition mr_upd (kw : mr_kw) (eps beta1 : S) (lim : nat) (st : mr_st)
  (v : V) (alfa : S) (r2 y : V) (cnt : nat) (beta delta gbar root gamma : S) : mr_st :=
  let itn := (r_itn st + 1)%nat in
  let oldb := r_beta st in
  let tnorm2 := sadd (sadd (sadd (r_tnorm2 st) (smul alfa alfa)) (smul oldb oldb)) (smul beta beta) in
  let istop := if (itn =? 1)%nat && sleb (sdiv beta beta1) (smul (slit 10) eps) then (-1)%Z else r_istop st in
  let gmax := if (itn =? 1)%nat then sabs alfa else r_gmax st in
  let gmin := if (itn =? 1)%nat then sabs alfa else r_gmin st in
  let oldeps := r_epsln st in
  let epsln := smul (r_sn st) beta in
  let dbar := smul (sneg (r_cs st)) beta in
  let Arnorm := smul (r_phibar st) root in
  let cs := sdiv gbar gamma in
  let sn := sdiv beta gamma in
  let phi := smul cs (r_phibar st) in
  let phibar := smul sn (r_phibar st) in
  let denom := sdiv s1 gamma in
  let w1 := r_w2 st in
  let w2 := r_w st in
  let w := vscale denom (vsub (vsub v (vscale oldeps w1)) (vscale delta w2)) in
  let x := vadd (r_x st) (vscale phi w) in
  let iters := if m_sit kw then r_iters st ++ [x] else r_iters st in
  let nrg2 := sadd (r_nrg2 st) (smul phi phi) in
  let dErr := lset (r_dErr st) (itn mod m_window kw)%nat phi in
  let trnc := m_lnorm kw dErr in
  let nrg := ssqrt nrg2 in
  let late := (m_window kw <? itn)%nat in
  let dirs := if late then r_dirs st ++ [sdiv trnc nrg] else r_dirs st in
  let istop := if late && sltb trnc (smul (m_etol kw) nrg) then 10%Z else istop in
  let gmax := pymax gmax gamma in
  let gmin := pymin gmin gamma in
  let z := sdiv (r_rhs1 st) gamma in
  let ynorm2 := sadd (smul z z) (r_ynorm2 st) in
  let rhs1 := ssub (r_rhs2 st) (smul delta z) in
  let rhs2 := smul (sneg epsln) z in
  let Anorm := ssqrt tnorm2 in
  let ynorm := ssqrt ynorm2 in
  let epsx := smul (smul Anorm ynorm) eps in
  let rnorm := phibar in
  let test1 := sdiv rnorm (smul Anorm ynorm) in
  let test2 := sdiv root Anorm in
  let Acond := sdiv gmax gmin in
  let istop := if (istop =? 0)%Z
               then mr_tests eps beta1 (m_rtol kw) itn lim test1 test2 Acond epsx else istop in
  mkmr x y (r_r2 st) r2 w w2 oldb beta dbar epsln phibar rhs1 rhs2 Arnorm tnorm2 ynorm2 cs sn gmax gmin
    Anorm Acond rnorm ynorm nrg2 dErr dirs istop itn cnt (0 <? istop)%Z
    (r_hist st ++ [rnorm]) iters.

(** minres.py:219-381. *)
Definition mr_body (q : kprob W) (kw : mr_kw) (eps beta1 : S) (lim : nat) (st : mr_st) : res mr_st :=
  let '(v, alfa, r2, y, beta, cnt) := mr_lan q kw st in
  if sltb beta s0 then
    Ok (mkmr (r_x st) y (r_r2 st) r2 (r_w st) (r_w2 st) (r_beta st) beta (r_dbar st) (r_epsln st) (r_phibar st)
          (r_rhs1 st) (r_rhs2 st) (r_Arnorm st) (r_tnorm2 st) (r_ynorm2 st) (r_cs st) (r_sn st)
          (r_gmax st) (r_gmin st) (r_Anorm st) (r_Acond st) (r_rnorm st) (r_ynorm st) (r_nrg2 st)
          (r_dErr st) (r_dirs st) 6%Z (r_itn st + 1)%nat cnt true (r_hist st) (r_iters st))
  else
  let beta := ssqrt beta in
  let gbar := mr_gbar st alfa in
  (* dErr[itn % window] *)
  if (m_window kw =? 0)%nat then Err ZeroDivisionError else
  Ok (mr_upd kw eps beta1 lim st v alfa r2 y cnt beta (mr_delta st alfa) gbar (mr_root st gbar beta)
        (mr_gamma eps gbar beta)).

Record mr_out := mkmrout {
  u_residNorm0 : S; u_x : V; u_istop : Z; u_itn : nat; u_nmv : nat; u_conv : bool;
  u_rnorm : S; u_Arnorm : S; u_Anorm : S; u_Acond : S; u_ynorm : S;
  u_hist : list S; u_dirs : list S; u_iters : list V }.

(** minres.py:161-165: the first Lanczos vector, unnormalised. *)
Definition mr_y0 (kw : mr_kw) (b : V) : V := match m_precon kw with Some P => P b | None => b end.

(** minres.py:166-197: [beta1], [istop], [done] and the operator counter before the loop. *)
Definition mr_start (q : kprob W) (kw : mr_kw) (b : V) (cnt : nat) : S * Z * bool * nat :=
  let beta1 := vdot b (mr_y0 kw b) in
  let istop := if sltb beta1 s0 then 9%Z else 0%Z in
  let done := sltb beta1 s0 || seqb beta1 s0 in
  let beta1 := if sgtb beta1 s0 then ssqrt beta1 else beta1 in
  let '(ok, cnt) := if m_check kw
                    then check_symmetric (q_cbrt q) (q_m q) (q_n q) (q_A q) (q_draws q) cnt
                    else (true, cnt) in
  let istop := if ok then istop else 7%Z in
  let done := done || negb ok in
  let okP := match m_precon kw with
             | Some P => if m_check kw
                         then fst (check_symmetric (q_cbrt q) (m_pm kw) (m_pn kw) P (m_pdraws kw) 0)
                         else true
             | None => true
             end in
  let istop := if okP then istop else 8%Z in
  let done := done || negb okP in
  (beta1, istop, done, cnt).

(** minres.py:132-142, 202-208.  [hist]: [residHistory] is not reset between calls. *)
Definition mr_init (kw : mr_kw) (b : V) (beta1 : S) (istop : Z) (done : bool) (hist : list S) (cnt : nat)
  : mr_st :=
  let z := vzeros (vlen b) in
  mkmr z (mr_y0 kw b) b b z z
    s0 beta1 s0 s0 beta1 beta1 s0 s0 s0 s0 (slit (-1)) s0 s0 s0
    s0 s0 s0 s0 s0 (repeat s0 (m_window kw)) [] istop 0 cnt done hist
    (if m_sit kw then [z] else []).

Definition mr_cond (lim : nat) (st : mr_st) : bool := negb (r_brk st) && (r_itn st <? lim)%nat.

(** minres.py:395. *)
Definition mr_conv (i : Z) : bool :=
  ((i =? 1) || (i =? 2) || (i =? 3) || (i =? 4) || (i =? 10))%Z.

(** minres.py:115-410. *)
Definition mr_solve (fuel : nat) (q : kprob W) (hist : list S) (b : V) (kw : mr_kw) (cnt : nat)
  : res (mr_out * nat) :=
  let eps := machine_eps in
  let '(beta1, istop, done, cnt) := mr_start q kw b cnt in
  let lim := mr_lim kw b in
  match while fuel (mr_cond lim) (mr_body q kw eps beta1 lim) (mr_init kw b beta1 istop done hist cnt) with
  | Ok st => Ok (mkmrout beta1 (r_x st) (r_istop st) (r_itn st) (r_itn st) (mr_conv (r_istop st))
                   (r_rnorm st) (r_Arnorm st) (r_Anorm st) (r_Acond st) (r_ynorm st)
                   (r_hist st) (r_dirs st) (r_iters st), r_cnt st)
  | Err e => Err e
  end.
End Minres.
Arguments mr_kw {K} W. Arguments mr_st {K} W. Arguments mr_out {K} W.
