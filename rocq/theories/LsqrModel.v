(** * Model of pykrylov/lls/lsqr.py over arbitrary scalars and vectors.

    Two vector types: [WV] (the domain, length n) and [WU] (the range, length m).  [sqrt] is
    [math.sqrt] and the recurrence coefficients are Python floats, so square roots of negative
    numbers and divisions by zero raise ([pysqrt], [pydiv]); array divisions and the division of
    line 315 (a numpy scalar) do not.  Arrays are values: with [M=None] the names [u] and [Mu] denote
    one array (normalised once), as do [v] and [Nv] with [N=None]; preconditioners are assumed to
    return a fresh array.  Printing ([show]) is not modelled. *)
From Coq Require Import List ZArith QArith Bool.
From Verif Require Import Base Num ToolsModel MinresModel.
Import ListNotations.

Section Lsqr.
Context {K : Scal} {WV WU : Vs K}.
Notation S := (sc K).
Notation V := (vc WV).
Notation U := (vc WU).

(** The operator: shape [(m, n)], product with [A] and with [A.T].  The counters of [A] and [A.T]
    are added up in one counter. *)
Record lprob := mklprob { lp_m : nat; lp_n : nat; lp_A : V -> U; lp_At : U -> V }.

(** Arguments of [solve] (lsqr.py:86-87, 139-142).  [l_infle t] is [inf <= t]; [l_lnorm] is
    [numpy.linalg.norm] on the array of direct error terms. *)
Record ls_kw := mklskw {
  l_itnlim : Z; l_damp : S; l_M : option (U -> U); l_N : option (V -> V);
  l_atol : S; l_btol : S; l_conlim : S; l_wantvar : bool; l_etol : S;
  l_sres : bool; l_sit : bool; l_window : nat; l_lnorm : list S -> S; l_infle : S -> bool }.

(** The documented defaults. *)
Definition ls_kw0 (lnorm : list S -> S) (infle : S -> bool) : ls_kw :=
  mklskw 0 s0 None None (slit (1 # 1000000000)) (slit (1 # 1000000000)) (slit 100000000) false
    (slit (1 # 1000000)) false false 5 lnorm infle.

(** lsqr.py:23-24. *)
Definition pnorm2 (x y : S) : res S := pysqrt (sadd (smul x x) (smul y y)).
Definition pnorm4 (x1 x2 x3 x4 : S) : res S :=
  pysqrt (sadd (sadd (sadd (smul x1 x1) (smul x2 x2)) (smul x3 x3)) (smul x4 x4)).

(** lsqr.py:152. *)
Definition ls_lim (q : lprob) (kw : ls_kw) : Z :=
  if (l_itnlim kw =? 0)%Z then (3 * Z.of_nat (lp_n q))%Z else l_itnlim kw.

(** lsqr.py:253-260 (and 189-198): [u = M(Mu)], [beta = sqrt(dot(u,Mu))], normalisation if
    [beta > 0].  Returns [Mu], [u], [beta]. *)
Definition gk_norm {W : Vs K} (P : option (vc W -> vc W)) (y : vc W) : res (vc W * vc W * S) :=
  let py := match P with Some P => P y | None => y end in
  rbind (pysqrt (vdot py y)) (fun beta =>
  if sgtb beta s0 then Ok (vdivs y beta, vdivs py beta, beta) else Ok (y, py, beta)).

(** Local variables.  [s_vN]: [(v, Nv)], unbound when the initial [beta > 0] fails; [s_w]: unbound
    when the initial [alpha > 0] fails. *)
Record ls_st := mkls {
  s_x : V; s_Mu : U; s_u : U; s_vN : option (V * V); s_w : option V;
  s_alpha : S; s_beta : S; s_rhobar : S; s_phibar : S; s_Anorm : S; s_Acond : S; s_ddnorm : S;
  s_z : S; s_xnorm : S; s_xxnorm : S; s_res2 : S; s_cs2 : S; s_sn2 : S;
  s_Arnorm : S; s_r1norm : S; s_r2norm : S; s_nrg2 : S; s_dErr : list S;
  s_istop : Z; s_itn : nat; s_cnt : nat; s_brk : bool;
  s_resids : list S; s_nresids : list S; s_dirs : list S; s_iters : list V }.

(** lsqr.py:252-272: one step of the bidiagonalisation.  Returns
    [(Mu, u, v, Nv, alpha, beta, Anorm, cnt)]. *)
Definition ls_bidiag (q : lprob) (kw : ls_kw) (Mu u : U) (v Nv : V) (alpha Anorm : S) (cnt : nat)
  : res (U * U * V * V * S * S * S * nat) :=
  let Mu := vsub (lp_A q v) (vscale alpha Mu) in
  let cnt := (cnt + 1)%nat in
  rbind (gk_norm (l_M kw) Mu) (fun '(Mu, u, beta) =>
  if sgtb beta s0 then
    rbind (pnorm4 Anorm alpha beta (l_damp kw)) (fun Anorm =>
    let Nv := vsub (lp_At q u) (vscale beta Nv) in
    let cnt := (cnt + 1)%nat in
    rbind (gk_norm (l_N kw) Nv) (fun '(Nv, v, alpha) =>
    Ok (Mu, u, v, Nv, alpha, beta, Anorm, cnt)))
  else Ok (Mu, u, v, Nv, alpha, beta, Anorm, cnt)).

(** lsqr.py:277-293: the two plane rotations.  Returns [(psi, rho, theta, rhobar, phi, phibar, tau)]. *)
Definition ls_rot (damp rhobar phibar alpha beta : S) : res (S * S * S * S * S * S * S) :=
  rbind (pnorm2 rhobar damp) (fun rhobar1 =>
  rbind (pydiv rhobar rhobar1) (fun cs1 =>
  rbind (pydiv damp rhobar1) (fun sn1 =>
  let psi := smul sn1 phibar in
  let phibar := smul cs1 phibar in
  rbind (pnorm2 rhobar1 beta) (fun rho =>
  rbind (pydiv rhobar1 rho) (fun cs =>
  rbind (pydiv beta rho) (fun sn =>
  let theta := smul sn alpha in
  let rhobar := smul (sneg cs) alpha in
  let phi := smul cs phibar in
  Ok (psi, rho, theta, rhobar, phi, smul sn phibar, smul sn phi))))))).

(** lsqr.py:297-303: the update of [x] and [w].  Returns [(x, w, norm(dk))]. *)
Definition ls_upx (x w v : V) (phi rho theta : S) : res (V * V * S) :=
  rbind (pydiv phi rho) (fun t1 =>
  rbind (pydiv (sneg theta) rho) (fun t2 =>
  rbind (pydiv s1 rho) (fun i =>
  Ok (vadd x (vscale t1 w), vadd (vscale t2 w) v, vnorm (vscale i w))))).

(** lsqr.py:310-317: the direct error.  Returns [(nrg2, dErr, dirs, istop)]. *)
Definition ls_derr (kw : ls_kw) (itn : nat) (phi nrg2 : S) (dErr dirs : list S) (istop : Z)
  : res (S * list S * list S * Z) :=
  let nrg2 := sadd nrg2 (smul phi phi) in
  if (l_window kw =? 0)%nat then Err ZeroDivisionError else
  let dErr := lset dErr (itn mod l_window kw)%nat phi in
  if (l_window kw <? itn)%nat then
    let trnc := l_lnorm kw dErr in
    rbind (pysqrt nrg2) (fun nrg =>
    Ok (nrg2, dErr, dirs ++ [sdiv trnc nrg], if sltb trnc (smul (l_etol kw) nrg) then 8%Z else istop))
  else Ok (nrg2, dErr, dirs, istop).

(** lsqr.py:323-332: the estimate of [norm(x)].  Returns [(xnorm, cs2, sn2, z, xxnorm)]. *)
Definition ls_xn (cs2 sn2 z xxnorm rho theta phi : S) : res (S * S * S * S * S) :=
  let delta := smul sn2 rho in
  let gambar := smul (sneg cs2) rho in
  let rhs := ssub phi (smul delta z) in
  rbind (pydiv rhs gambar) (fun zbar =>
  rbind (pysqrt (sadd xxnorm (smul zbar zbar))) (fun xnorm =>
  rbind (pnorm2 gambar theta) (fun gamma =>
  rbind (pydiv gambar gamma) (fun cs2 =>
  rbind (pydiv theta gamma) (fun sn2 =>
  rbind (pydiv rhs gamma) (fun z =>
  Ok (xnorm, cs2, sn2, z, sadd xxnorm (smul z z)))))))).

(** lsqr.py:338-356: norm estimates.  Returns [(Acond, res2, rnorm, Arnorm, r1norm)]. *)
Definition ls_norms (damp Anorm ddnorm phibar psi res2 alpha tau xxnorm : S) : res (S * S * S * S * S) :=
  rbind (pysqrt ddnorm) (fun sd =>
  let Acond := smul Anorm sd in
  let res2 := sadd res2 (smul psi psi) in
  rbind (pysqrt (sadd (smul phibar phibar) res2)) (fun rnorm =>
  let r1sq := ssub (smul rnorm rnorm) (smul (smul damp damp) xxnorm) in
  rbind (pysqrt (sabs r1sq)) (fun r1 =>
  Ok (Acond, res2, rnorm, smul alpha (sabs tau), if sltb r1sq s0 then sneg r1 else r1)))).

(** lsqr.py:361-392: the stopping tests ([inf] is [None]). *)
Definition ls_le (infle : S -> bool) (t : option S) (bound : S) : bool :=
  match t with Some t => sleb t bound | None => infle bound end.
Definition ls_le1 (infle : S -> bool) (t : option S) : bool :=
  match t with Some t => sleb (sadd s1 t) s1 | None => infle s1 end.
Definition ls_tests (kw : ls_kw) (late : bool) (istop : Z) (bnorm Anorm Acond rnorm Arnorm xnorm : S) : res Z :=
  rbind (pydiv rnorm bnorm) (fun test1 =>
  rbind (if seqb Anorm s0 || seqb rnorm s0 then Ok None
         else rbind (pydiv Arnorm (smul Anorm rnorm)) (fun t => Ok (Some t))) (fun test2 =>
  rbind (if seqb Acond s0 then Ok None else rbind (pydiv s1 Acond) (fun t => Ok (Some t))) (fun test3 =>
  rbind (pydiv (smul Anorm xnorm) bnorm) (fun ax =>
  rbind (pydiv test1 (sadd s1 ax)) (fun t1 =>
  rbind (pydiv (smul (smul (l_atol kw) Anorm) xnorm) bnorm) (fun aax =>
  let rtol := sadd (l_btol kw) aax in
  let ctol := s0 in
  let i := istop in
  let i := if late then 7%Z else i in
  let i := if ls_le1 (l_infle kw) test3 then 6%Z else i in
  let i := if ls_le1 (l_infle kw) test2 then 5%Z else i in
  let i := if sleb (sadd s1 t1) s1 then 4%Z else i in
  let i := if ls_le (l_infle kw) test3 ctol then 3%Z else i in
  let i := if ls_le (l_infle kw) test2 (l_atol kw) then 2%Z else i in
  Ok (if sleb test1 rtol then 1%Z else i))))))).

(** lsqr.py:243-413: one iteration. *)
Definition ls_body (q : lprob) (kw : ls_kw) (bnorm : S) (lim : Z) (st : ls_st) : res ls_st :=
  let itn := (s_itn st + 1)%nat in
  match s_vN st with
  | None => Err UnboundLocalError
  | Some (v, Nv) =>
  rbind (ls_bidiag q kw (s_Mu st) (s_u st) v Nv (s_alpha st) (s_Anorm st) (s_cnt st))
    (fun '(Mu, u, v, Nv, alpha, beta, Anorm, cnt) =>
  rbind (ls_rot (l_damp kw) (s_rhobar st) (s_phibar st) alpha beta)
    (fun '(psi, rho, theta, rhobar, phi, phibar, tau) =>
  match s_w st with
  | None => (* lines 297-298 come first *)
      rbind (pydiv phi rho) (fun _ => rbind (pydiv (sneg theta) rho) (fun _ =>
      rbind (pydiv s1 rho) (fun _ => Err UnboundLocalError)))
  | Some w =>
  rbind (ls_upx (s_x st) w v phi rho theta) (fun '(x, w, dk) =>
  let ddnorm := sadd (s_ddnorm st) (smul dk dk) in
  rbind (ls_derr kw itn phi (s_nrg2 st) (s_dErr st) (s_dirs st) (s_istop st)) (fun '(nrg2, dErr, dirs, istop) =>
  rbind (ls_xn (s_cs2 st) (s_sn2 st) (s_z st) (s_xxnorm st) rho theta phi) (fun '(xnorm, cs2, sn2, z, xxnorm) =>
  rbind (ls_norms (l_damp kw) Anorm ddnorm phibar psi (s_res2 st) alpha tau xxnorm)
    (fun '(Acond, res2, rnorm, Arnorm, r1norm) =>
  rbind (ls_tests kw (lim <=? Z.of_nat itn)%Z istop bnorm Anorm Acond rnorm Arnorm xnorm) (fun istop =>
  Ok (mkls x Mu u (Some (v, Nv)) (Some w) alpha beta rhobar phibar Anorm Acond ddnorm
        z xnorm xxnorm res2 cs2 sn2 Arnorm r1norm rnorm nrg2 dErr
        istop itn cnt (0 <? istop)%Z
        (if l_sres kw then s_resids st ++ [rnorm] else s_resids st)
        (if l_sres kw then s_nresids st ++ [Arnorm] else s_nresids st)
        dirs (if l_sit kw then s_iters st ++ [x] else s_iters st)))))))
  end))
  end.

(** lsqr.py:159-238: everything before the loop.  [rhs] stands for [rhs[:m]].  The loop condition
    [not x_is_zero] is kept in [s_brk]. *)
Definition ls_init (q : lprob) (kw : ls_kw) (rhs : U) (cnt : nat) : res ls_st :=
  let x := vzeros (lp_n q) in
  rbind (gk_norm (l_M kw) rhs) (fun '(Mu, u, beta) =>
  rbind (if sgtb beta s0 then
           rbind (gk_norm (l_N kw) (lp_At q u)) (fun '(Nv, v, alpha) =>
           Ok (Some (v, Nv), alpha, (cnt + 1)%nat))
         else Ok (None, s0, cnt)) (fun '(vN, alpha, cnt) =>
  let w := if sgtb alpha s0 then match vN with Some (v, _) => Some v | None => None end else None in
  let Arnorm := smul alpha beta in
  Ok (mkls x Mu u vN w alpha beta alpha beta s0 s0 s0
        s0 s0 s0 s0 (slit (-1)) s0 Arnorm beta beta s0 (repeat s0 (l_window kw))
        0 0 cnt (seqb Arnorm s0)
        (if l_sres kw then [beta] else []) (if l_sres kw then [Arnorm] else [])
        [] (if l_sit kw then [x] else [])))).

Definition ls_cond (lim : Z) (st : ls_st) : bool := negb (s_brk st) && (Z.of_nat (s_itn st) <? lim)%Z.

(** lsqr.py:436-440. *)
Inductive ls_status := LsZero | LsSmall | LsIll | LsMax | LsDirect.
Definition ls_stat (i : Z) : option ls_status :=
  if (i =? 0)%Z then Some LsZero
  else if ((i =? 1) || (i =? 2) || (i =? 4) || (i =? 5))%Z then Some LsSmall
  else if ((i =? 3) || (i =? 6))%Z then Some LsIll
  else if (i =? 7)%Z then Some LsMax
  else if (i =? 8)%Z then Some LsDirect else None.

(** lsqr.py:441. *)
Definition ls_opt (i : Z) : bool :=
  ((i =? 1) || (i =? 2) || (i =? 4) || (i =? 5) || (i =? 8))%Z.

Record ls_out := mklsout {
  o_x : V; o_istop : Z; o_status : option ls_status; o_optimal : bool; o_itn : nat; o_nmv : nat;
  o_r1norm : S; o_r2norm : S; o_Anorm : S; o_Acond : S; o_Arnorm : S; o_xnorm : S;
  o_resids : list S; o_nresids : list S; o_dirs : list S; o_iters : list V }.

(** lsqr.py:86-454.  [wantvar]: [zeros(n,1)] raises TypeError (line 155). *)
Definition ls_solve (fuel : nat) (q : lprob) (kw : ls_kw) (rhs : U) (cnt : nat) : res (ls_out * nat) :=
  if l_wantvar kw then Err TypeError else
  rbind (ls_init q kw rhs cnt) (fun st0 =>
  rbind (while fuel (ls_cond (ls_lim q kw)) (ls_body q kw (s_beta st0) (ls_lim q kw)) st0) (fun st =>
  Ok (mklsout (s_x st) (s_istop st) (ls_stat (s_istop st)) (ls_opt (s_istop st)) (s_itn st) (2 * s_itn st)
        (s_r1norm st) (s_r2norm st) (s_Anorm st) (s_Acond st) (s_Arnorm st) (s_xnorm st)
        (s_resids st) (s_nresids st) (s_dirs st) (s_iters st), s_cnt st))).
End Lsqr.
Arguments lprob {K} WV WU. Arguments ls_kw {K} WV WU. Arguments ls_st {K} WV WU. Arguments ls_out {K} WV.
