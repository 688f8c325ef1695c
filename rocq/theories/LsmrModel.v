(** * Model of pykrylov/lls/lsmr.py over arbitrary scalars and vectors.

    Same conventions as LsqrModel.v.  The coefficients are Python floats ([math.sqrt] results), so
    division by zero raises; [normx] and [norm(dErr)] are numpy scalars, whose divisions do not.
    [(betad - taud)**2] is a product (the OverflowError of Python's [**] is not modelled).  An
    integer [conlim], for which Python 2 would truncate [1/conlim] to 0, is not modelled. *)
From Coq Require Import List ZArith QArith Bool.
From Verif Require Import Base Num ToolsModel MinresModel LsqrModel.
Import ListNotations.

Section Lsmr.
Context {K : Scal} {WV WU : Vs K}.
Notation S := (sc K).
Notation V := (vc WV).
Notation U := (vc WU).

(** Arguments of [solve] (lsmr.py:64-65, 169-172).  [show] is not modelled. *)
Record lm_kw := mklmkw {
  m_damp : S; m_atol : S; m_btol : S; m_conlim : S; m_M : option (U -> U); m_N : option (V -> V);
  m_itnlim : option Z; m_etol : S; m_sres : bool; m_sit : bool; m_window : nat; m_lnorm : list S -> S }.

Definition lm_kw0 (lnorm : list S -> S) : lm_kw :=
  mklmkw s0 (slit (1 # 1000000000)) (slit (1 # 1000000000)) (slit 100000000) None None None
    (slit (1 # 1000000)) false false 5 lnorm.

(** The attributes of the solver object (lsmr.py:48-60, generic.py:76-87) that other solvers of the
    package update. *)
Record lm_obj := mklmobj {
  a_x : option V; a_itn : nat; a_istop : Z; a_Anorm : S; a_Acond : S; a_Arnorm : S; a_xnorm : S;
  a_r1norm : S; a_r2norm : S; a_optimal : bool; a_nMatvec : nat; a_converged : bool;
  a_resids : list S; a_nresids : list S; a_norms : list S; a_dirs : list S; a_iters : list V }.
Definition lm_obj0 : lm_obj :=
  mklmobj None 0 0 s0 s0 s0 s0 s0 s0 false 0 false [] [] [] [] [].

(** Python [max(a, b)], [min(a, b)] are [pymax], [pymin]. *)

(** Local variables. *)
Record lm_st := mklm {
  t_x : V; t_Mu : U; t_v : V; t_Nv : option V; t_h : V; t_hbar : V;
  t_alpha : S; t_beta : S; t_alphabar : S; t_rho : S; t_rhobar : S; t_cbar : S; t_sbar : S;
  t_zetabar : S; t_zeta : S; t_betadd : S; t_betad : S; t_rhodold : S; t_tautil : S; t_thetil : S; t_d : S;
  t_normA2 : S; t_normA : S; t_maxrbar : S; t_minrbar : S; t_condA : S;
  t_normr : S; t_normar : S; t_normx : S; t_nrg2 : S; t_dErr : list S;
  t_istop : Z; t_itn : nat; t_cnt : nat; t_brk : bool;
  t_resids : list S; t_nresids : list S; t_norms : list S; t_dirs : list S; t_iters : list V }.

(** lsmr.py:311-332: one step of the bidiagonalisation.  Returns [(Mu, v, Nv, alpha, beta, cnt)]. *)
Definition lm_bidiag (q : lprob WV WU) (kw : lm_kw) (Mu : U) (v : V) (Nv : option V) (alpha : S) (cnt : nat)
  : res (U * V * option V * S * S * nat) :=
  let Mu := vsub (lp_A q v) (vscale alpha Mu) in
  let cnt := (cnt + 1)%nat in
  rbind (gk_norm (m_M kw) Mu) (fun '(Mu, u, beta) =>
  if sgtb beta s0 then
    match Nv with
    | None => Err UnboundLocalError
    | Some Nv =>
      let Nv := vsub (lp_At q u) (vscale beta Nv) in
      let cnt := (cnt + 1)%nat in
      rbind (gk_norm (m_N kw) Nv) (fun '(Nv, v, alpha) => Ok (Mu, v, Some Nv, alpha, beta, cnt))
    end
  else Ok (Mu, v, Nv, alpha, beta, cnt)).

(** lsmr.py:338-355: the rotations.  Returns [(chat, shat, c, s, rho, thetanew, alphabar)] and
    [(thetabar, rhotemp, cbar, sbar, rhobar, zeta, zetabar)]. *)
Definition lm_rot1 (damp alphabar alpha beta : S) : res (S * S * S * S * S * S * S) :=
  rbind (symOrtho alphabar damp) (fun '(chat, shat, alphahat) =>
  rbind (symOrtho alphahat beta) (fun '(c, s, rho) =>
  Ok (chat, shat, c, s, rho, smul s alpha, smul c alpha))).
Definition lm_rot2 (cbar sbar rho thetanew zetabar : S) : res (S * S * S * S * S * S * S) :=
  let thetabar := smul sbar rho in
  let rhotemp := smul cbar rho in
  rbind (symOrtho (smul cbar rho) thetanew) (fun '(cbar, sbar, rhobar) =>
  Ok (thetabar, rhotemp, cbar, sbar, rhobar, smul cbar zetabar, smul (sneg sbar) zetabar)).

(** lsmr.py:359-361: the update of [hbar], [x], [h]. *)
Definition lm_upx (x h hbar v : V) (thetabar rho rhoold rhobarold zeta rhobar thetanew : S) : res (V * V * V) :=
  rbind (pydiv (smul thetabar rho) (smul rhoold rhobarold)) (fun f1 =>
  let hbar := vsub h (vscale f1 hbar) in
  rbind (pydiv zeta (smul rho rhobar)) (fun f2 =>
  let x := vadd x (vscale f2 hbar) in
  rbind (pydiv thetanew rho) (fun f3 =>
  Ok (x, vsub v (vscale f3 h), hbar)))).

(** lsmr.py:366-373: the direct error.  Returns [(xNrgNorm2, dErr, dirs, istop)]. *)
Definition lm_derr (kw : lm_kw) (itn : nat) (zeta nrg2 : S) (dErr dirs : list S) (istop : Z)
  : res (S * list S * list S * Z) :=
  let nrg2 := sadd nrg2 (smul zeta zeta) in
  if (m_window kw =? 0)%nat then Err ZeroDivisionError else
  let dErr := lset dErr (itn mod m_window kw)%nat zeta in
  if (m_window kw <? itn)%nat then
    let trnc := m_lnorm kw dErr in
    rbind (pysqrt nrg2) (fun nrg =>
    Ok (nrg2, dErr, dirs ++ [sdiv trnc nrg], if sltb trnc (smul (m_etol kw) nrg) then 8%Z else istop))
  else Ok (nrg2, dErr, dirs, istop).

(** lsmr.py:378-400: the residual norm.  Returns [(betadd, thetatilde, rhodold, betad, tautildeold, d, normr)]. *)
Definition lm_nr (chat shat c s thetabar rhobar zetaold zeta betadd betad rhodold tautil thetil d : S)
  : res (S * S * S * S * S * S * S) :=
  let betaacute := smul chat betadd in
  let betacheck := smul (sneg shat) betadd in
  let betahat := smul c betaacute in
  let betadd := smul (sneg s) betaacute in
  let thetilold := thetil in
  rbind (symOrtho rhodold thetabar) (fun '(ct, st, rhotil) =>
  let thetil := smul st rhobar in
  let rhodold := smul ct rhobar in
  let betad := sadd (smul (sneg st) betad) (smul ct betahat) in
  rbind (pydiv (ssub zetaold (smul thetilold tautil)) rhotil) (fun tautil =>
  rbind (pydiv (ssub zeta (smul thetil tautil)) rhodold) (fun taud =>
  let d := sadd d (smul betacheck betacheck) in
  rbind (pysqrt (sadd (sadd d (smul (ssub betad taud) (ssub betad taud))) (smul betadd betadd))) (fun normr =>
  Ok (betadd, thetil, rhodold, betad, tautil, d, normr))))).

(** lsmr.py:403-411: estimates of [norm(A)] and [cond(A)].
    Returns [(normA2, normA, maxrbar, minrbar, condA)]. *)
Definition lm_na (itn : nat) (normA2 alpha beta maxrbar minrbar rhobarold rhotemp : S) : res (S * S * S * S * S) :=
  let normA2 := sadd normA2 (smul beta beta) in
  rbind (pysqrt normA2) (fun normA =>
  let normA2 := sadd normA2 (smul alpha alpha) in
  let maxrbar := pymax maxrbar rhobarold in
  let minrbar := if (1 <? itn)%nat then pymin minrbar rhobarold else minrbar in
  rbind (pydiv (pymax maxrbar rhotemp) (pymin minrbar rhotemp)) (fun condA =>
  Ok (normA2, normA, maxrbar, minrbar, condA))).

(** lsmr.py:422-448: the stopping tests. *)
Definition lm_tests (kw : lm_kw) (late : bool) (istop : Z) (normb normA condA normr normar normx : S) : res Z :=
  rbind (pydiv normr normb) (fun test1 =>
  rbind (pydiv normar (smul normA normr)) (fun test2 =>
  rbind (pydiv s1 condA) (fun test3 =>
  let t1 := sdiv test1 (sadd s1 (sdiv (smul normA normx) normb)) in
  let rtol := sadd (m_btol kw) (sdiv (smul (smul (m_atol kw) normA) normx) normb) in
  rbind (if sgtb (m_conlim kw) s0 then pydiv s1 (m_conlim kw) else Ok s0) (fun ctol =>
  let i := istop in
  let i := if late then 7%Z else i in
  let i := if sleb (sadd s1 test3) s1 then 6%Z else i in
  let i := if sleb (sadd s1 test2) s1 then 5%Z else i in
  let i := if sleb (sadd s1 t1) s1 then 4%Z else i in
  let i := if sleb test3 ctol then 3%Z else i in
  let i := if sleb test2 (m_atol kw) then 2%Z else i in
  Ok (if sleb test1 rtol then 1%Z else i))))).

(** lsmr.py:303-475: one iteration. *)
Definition lm_body (q : lprob WV WU) (kw : lm_kw) (normb : S) (lim : Z) (st : lm_st) : res lm_st :=
  let itn := (t_itn st + 1)%nat in
  rbind (lm_bidiag q kw (t_Mu st) (t_v st) (t_Nv st) (t_alpha st) (t_cnt st)) (fun '(Mu, v, Nv, alpha, beta, cnt) =>
  rbind (lm_rot1 (m_damp kw) (t_alphabar st) alpha beta) (fun '(chat, shat, c, s, rho, thetanew, alphabar) =>
  rbind (lm_rot2 (t_cbar st) (t_sbar st) rho thetanew (t_zetabar st))
    (fun '(thetabar, rhotemp, cbar, sbar, rhobar, zeta, zetabar) =>
  rbind (lm_upx (t_x st) (t_h st) (t_hbar st) v thetabar rho (t_rho st) (t_rhobar st) zeta rhobar thetanew)
    (fun '(x, h, hbar) =>
  rbind (lm_derr kw itn zeta (t_nrg2 st) (t_dErr st) (t_dirs st) (t_istop st)) (fun '(nrg2, dErr, dirs, istop) =>
  rbind (lm_nr chat shat c s thetabar rhobar (t_zeta st) zeta (t_betadd st) (t_betad st) (t_rhodold st)
          (t_tautil st) (t_thetil st) (t_d st))
    (fun '(betadd, thetil, rhodold, betad, tautil, d, normr) =>
  rbind (lm_na itn (t_normA2 st) alpha beta (t_maxrbar st) (t_minrbar st) (t_rhobar st) rhotemp)
    (fun '(normA2, normA, maxrbar, minrbar, condA) =>
  let normar := sabs zetabar in
  let normx := vnorm x in
  rbind (lm_tests kw (lim <=? Z.of_nat itn)%Z istop normb normA condA normr normar normx) (fun istop =>
  Ok (mklm x Mu v Nv h hbar alpha beta alphabar rho rhobar cbar sbar zetabar zeta betadd betad rhodold tautil
        thetil d normA2 normA maxrbar minrbar condA normr normar normx nrg2 dErr istop itn cnt (0 <? istop)%Z
        (if m_sres kw then t_resids st ++ [normr] else t_resids st)
        (if m_sres kw then t_nresids st ++ [normar] else t_nresids st)
        (if m_sres kw then t_norms st ++ [nrg2] else t_norms st)
        dirs (if m_sit kw then t_iters st ++ [x] else t_iters st)))))))))).

(** lsmr.py:211-300.  The histories get their first entries only if the loop is reached (lines
    287-289). *)
Definition lm_init (q : lprob WV WU) (kw : lm_kw) (b : U) (cnt : nat) : res lm_st :=
  rbind (gk_norm (m_M kw) b) (fun '(Mu, u, beta) =>
  rbind (if sgtb beta s0 then
           rbind (gk_norm (m_N kw) (lp_At q u)) (fun '(Nv, v, alpha) => Ok (v, Some Nv, alpha, (cnt + 1)%nat))
         else Ok (vzeros (lp_n q), None, s0, cnt)) (fun '(v, Nv, alpha, cnt) =>
  let x := vzeros (lp_n q) in
  let normA2 := smul alpha alpha in
  rbind (pysqrt normA2) (fun normA =>
  let normar := smul alpha beta in
  let zero := seqb normar s0 in
  Ok (mklm x Mu v Nv v (vzeros (lp_n q)) alpha beta alpha s1 s1 s1 s0 (smul alpha beta) s0
        beta s0 s1 s0 s0 s0 normA2 normA s0 (slit (10 ^ 100)) s1
        beta normar s0 s0 (repeat s0 (m_window kw)) 0 0 cnt zero
        (if negb zero && m_sres kw then [beta] else [])
        (if negb zero && m_sres kw then [normar] else [])
        [] [] (if m_sit kw then [x] else []))))).

Definition lm_cond (lim : Z) (st : lm_st) : bool := negb (t_brk st) && (Z.of_nat (t_itn st) <? lim)%Z.

(** lsmr.py:189-194. *)
Definition lm_lim (q : lprob WV WU) (kw : lm_kw) : Z :=
  match m_itnlim kw with None => Z.of_nat (Nat.min (lp_m q) (lp_n q)) | Some l => l end.

(** The returned tuple. *)
Record lm_ret := mklmret {
  r_x : V; r_istop : Z; r_itn : nat; r_normr : S; r_normar : S; r_normA : S; r_condA : S; r_normx : S }.

(** lsmr.py:64-492.  [self.x] is assigned only after the loop (line 491). *)
Definition lm_solve (fuel : nat) (q : lprob WV WU) (kw : lm_kw) (ob : lm_obj) (b : U) (cnt : nat)
  : res (lm_ret * lm_obj * nat) :=
  rbind (lm_init q kw b cnt) (fun st0 =>
  rbind (while fuel (lm_cond (lm_lim q kw)) (lm_body q kw (t_beta st0) (lm_lim q kw)) st0) (fun st =>
  Ok (mklmret (t_x st) (t_istop st) (t_itn st) (t_normr st) (t_normar st) (t_normA st) (t_condA st) (t_normx st),
      mklmobj (if seqb (t_normar st0) s0 then a_x ob else Some (t_x st))
        (a_itn ob) (a_istop ob) (a_Anorm ob) (a_Acond ob) (a_Arnorm ob) (a_xnorm ob) (a_r1norm ob) (a_r2norm ob)
        (a_optimal ob) (a_nMatvec ob) (a_converged ob)
        (t_resids st) (t_nresids st) (t_norms st) (t_dirs st) (t_iters st),
      t_cnt st))).
End Lsmr.
Arguments lm_kw {K} WV WU. Arguments lm_st {K} WV WU. Arguments lm_obj {K} WV. Arguments lm_ret {K} WV.
