(** * Models of pykrylov/lls/craig.py and pykrylov/lls/craigmr.py over arbitrary scalars and vectors.

    Same conventions as LsqrModel.v: the coefficients are Python floats ([math.sqrt] results), so
    division by zero raises; [norm(dErr)] is a numpy scalar, whose division does not; [x**2] is a
    product; printing is not modelled. *)
From Coq Require Import List ZArith QArith Bool.
From Verif Require Import Base Num ToolsModel MinresModel LsqrModel.
Import ListNotations.

Section Craig.
Context {K : Scal} {WV WU : Vs K}.
Notation S := (sc K).
Notation V := (vc WV).
Notation U := (vc WU).

(** Arguments of [solve] (craig.py:104-105, 160-163). *)
Record cr_kw := mkcrkw {
  c_itnlim : Z; c_damp : S; c_M : option (U -> U); c_N : option (V -> V); c_atol : S; c_btol : S;
  c_conlim : S; c_wantvar : bool; c_etol : S; c_sres : bool; c_sit : bool; c_window : nat;
  c_lnorm : list S -> S }.

Definition cr_kw0 (lnorm : list S -> S) : cr_kw :=
  mkcrkw 0 s0 None None (slit (1 # 1000000000)) (slit (1 # 1000000000)) (slit 100000000) false
    (slit (1 # 1000000)) false false 5 lnorm.

(** craig.py:176. *)
Definition cr_lim (q : lprob WV WU) (kw : cr_kw) : Z :=
  if (c_itnlim kw =? 0)%Z then (3 * Z.of_nat (lp_n q))%Z else c_itnlim kw.

(** craig.py:302-329 and craigmr.py:136-157: one step of the bidiagonalisation.
    Returns [(Mu, u, v, Nv, alpha, beta, cnt)]. *)
Definition cr_bidiag (q : lprob WV WU) (M : option (U -> U)) (N : option (V -> V))
  (Mu : U) (v : V) (Nv : option V) (alpha : S) (cnt : nat) : res (U * U * V * option V * S * S * nat) :=
  let Mu := vsub (lp_A q v) (vscale alpha Mu) in
  let cnt := (cnt + 1)%nat in
  rbind (gk_norm M Mu) (fun '(Mu, u, beta) =>
  if sgtb beta s0 then
    match Nv with
    | None => Err UnboundLocalError
    | Some Nv =>
      let Nv := vsub (lp_At q u) (vscale beta Nv) in
      let cnt := (cnt + 1)%nat in
      rbind (gk_norm N Nv) (fun '(Nv, v, alpha) => Ok (Mu, u, v, Some Nv, alpha, beta, cnt))
    end
  else Ok (Mu, u, v, Nv, alpha, beta, cnt)).

(** craig.py:333-344 and craigmr.py:162-173: the rotations of types I and II.
    Returns [(beta_hat, s2, alpha_hat, c, s)] ([c2] is computed and never used). *)
Definition cr_rot (c s alpha beta : S) : res (S * S * S * S * S) :=
  let beta_hat := smul c beta in
  let gamma := smul s beta in
  rbind (pnorm2 gamma s1) (fun delta =>
  rbind (pydiv (sneg s1) delta) (fun c2 =>
  rbind (pydiv gamma delta) (fun s2 =>
  rbind (pnorm2 alpha delta) (fun alpha_hat =>
  rbind (pydiv alpha alpha_hat) (fun c =>
  rbind (pydiv delta alpha_hat) (fun s =>
  Ok (beta_hat, s2, alpha_hat, c, s))))))).

(** craig.py:347-361.  Returns [(d, tau, r, zeta, wbar, x)]. *)
Definition cr_upd (u d r : U) (v wbar x : V) (tau zeta beta_hat s2 alpha_hat c s : S)
  : res (U * S * U * S * V * V) :=
  let d := vdivs (vsub u (vscale beta_hat d)) alpha_hat in
  rbind (pydiv (smul (sneg beta_hat) tau) alpha_hat) (fun tau =>
  let r := vadd r (vscale tau d) in
  rbind (pydiv (smul (sneg beta_hat) zeta) alpha_hat) (fun zeta =>
  let wbar := vscale s2 wbar in
  let w := vadd (vscale c v) (vscale s wbar) in
  let wbar := vscale (sneg c) wbar in
  let wbar := vadd wbar (vscale s v) in
  let x := vadd x (vscale zeta w) in
  Ok (d, tau, r, zeta, wbar, x))).

(** craig.py:371-379 and craigmr.py:202-208: the direct error, from the term [t] and the squared
    energy norm [nrg2].  Returns [(dErr, dirs, istop)]. *)
Definition cr_derr (window : nat) (etol : S) (lnorm : list S -> S) (itn : nat) (t nrg2 : S)
  (dErr dirs : list S) (istop : Z) : res (list S * list S * Z) :=
  if (window =? 0)%nat then Err ZeroDivisionError else
  let dErr := lset dErr (itn mod window)%nat t in
  if (window <? itn)%nat then
    let trnc := lnorm dErr in
    rbind (pysqrt nrg2) (fun nrg =>
    Ok (dErr, dirs ++ [sdiv trnc nrg], if sltb trnc (smul etol nrg) then 8%Z else istop))
  else Ok (dErr, dirs, istop).

(** craig.py:425-457: the stopping tests. *)
Definition cr_tests (kw : cr_kw) (late : bool) (istop : Z) (rnorm bnorm : S) : res Z :=
  rbind (pysqrt rnorm) (fun rn =>
  rbind (pydiv rn bnorm) (fun test1 =>
  let i := istop in
  let i := if late then 7%Z else i in
  let i := if sleb (sadd s1 test1) s1 then 4%Z else i in
  Ok (if sleb test1 (c_btol kw) then 1%Z else i))).

(** Local variables.  [g_Ar]: [Arnorm], unbound before the first iteration. *)
Record cr_st := mkcr {
  g_x : V; g_r : U; g_Mu : U; g_v : V; g_Nv : option V; g_d : U; g_wbar : V;
  g_alpha : S; g_c : S; g_s : S; g_tau : S; g_zeta : S;
  g_rnorm : S; g_xnorm : S; g_r1 : S; g_rnrg2 : S; g_xnrg2 : S; g_Ar : option S; g_dErr : list S;
  g_istop : Z; g_itn : nat; g_cnt : nat; g_brk : bool;
  g_norms : list S; g_resids : list S; g_nresids : list S; g_dirs : list S; g_itp : list V; g_itd : list U }.

(** craig.py:293-478: one iteration. *)
Definition cr_body (q : lprob WV WU) (kw : cr_kw) (bnorm : S) (lim : Z) (st : cr_st) : res cr_st :=
  let itn := (g_itn st + 1)%nat in
  rbind (cr_bidiag q (c_M kw) (c_N kw) (g_Mu st) (g_v st) (g_Nv st) (g_alpha st) (g_cnt st))
    (fun '(Mu, u, v, Nv, alpha, beta, cnt) =>
  let Ar := sabs (smul (smul (smul (g_alpha st) beta) (g_s st)) (g_zeta st)) in
  rbind (cr_rot (g_c st) (g_s st) alpha beta) (fun '(beta_hat, s2, alpha_hat, c, s) =>
  rbind (cr_upd u (g_d st) (g_r st) v (g_wbar st) (g_x st) (g_tau st) (g_zeta st) beta_hat s2 alpha_hat c s)
    (fun '(d, tau, r, zeta, wbar, x) =>
  let eta := smul c zeta in
  let xi := smul s zeta in
  let rnrg2 := sadd (g_rnrg2 st) (smul tau tau) in
  let xnrg2 := sadd (g_xnrg2 st) (smul zeta zeta) in
  rbind (cr_derr (c_window kw) (c_etol kw) (c_lnorm kw) itn tau rnrg2 (g_dErr st) (g_dirs st) (g_istop st))
    (fun '(dErr, dirs, istop) =>
  let rnorm := sadd (g_rnorm st) (smul tau tau) in
  let xnorm := sadd (g_xnorm st) (smul eta eta) in
  let r1 := sadd (g_r1 st) (smul xi xi) in
  rbind (cr_tests kw (lim <=? Z.of_nat itn)%Z istop rnorm bnorm) (fun istop =>
  Ok (mkcr x r Mu v Nv d wbar alpha c s tau zeta rnorm xnorm r1 rnrg2 xnrg2 (Some Ar) dErr
        istop itn cnt (0 <? istop)%Z
        (if c_sres kw then g_norms st ++ [xnrg2] else g_norms st)
        (if c_sres kw then g_resids st ++ [rnorm] else g_resids st)
        (if c_sres kw then g_nresids st ++ [Ar] else g_nresids st)
        dirs
        (if c_sit kw then g_itp st ++ [x] else g_itp st)
        (if c_sit kw then g_itd st ++ [r] else g_itd st))))))).

(** craig.py:183-288.  Returns the state and [bnorm].  [v] is unbound at line 259 when the test
    [beta > 0] of line 220 fails. *)
Definition cr_init (q : lprob WV WU) (kw : cr_kw) (b : U) (cnt : nat) : res (cr_st * S) :=
  rbind (if sgtb (c_conlim kw) s0 then pydiv s1 (c_conlim kw) else Ok s0) (fun _ =>
  rbind (gk_norm (c_M kw) b) (fun '(Mu, u, beta) =>
  rbind (if sgtb beta s0 then
           rbind (gk_norm (c_N kw) (lp_At q u)) (fun '(Nv, v, alpha) => Ok (Some (v, Nv), alpha, (cnt + 1)%nat))
         else Ok (None, s0, cnt)) (fun '(vN, alpha, cnt) =>
  rbind (pnorm2 alpha s1) (fun rho =>
  let d := vdivs u rho in
  rbind (pydiv beta rho) (fun tau =>
  let r := vscale tau d in
  let rnorm := smul tau tau in
  rbind (pydiv alpha rho) (fun c =>
  rbind (pydiv s1 rho) (fun s =>
  let zeta := smul s beta in
  let eta := smul c zeta in
  let xi := smul s zeta in
  match vN with
  | None => Err UnboundLocalError
  | Some (v, Nv) =>
    let w := vscale c v in
    let wbar := vscale s v in
    let x := vscale zeta w in
    Ok (mkcr x r Mu v (Some Nv) d wbar alpha c s tau zeta rnorm (smul eta eta) (smul xi xi) s0 s0 None
          (repeat s0 (c_window kw)) 0 0 cnt (seqb beta s0)
          (if c_sres kw then [s0] else []) (if c_sres kw then [rnorm] else []) [] []
          (if c_sit kw then [x] else []) (if c_sit kw then [r] else []), beta)
  end))))))).

Definition cr_cond (lim : Z) (st : cr_st) : bool := (Z.of_nat (g_itn st) <? lim)%Z && negb (g_brk st).

(** The attributes set by [solve] (craig.py:501-518). *)
Record cr_out := mkcrout {
  go_x : V; go_r : U; go_istop : Z; go_status : option ls_status; go_optimal : bool; go_itn : nat; go_nmv : nat;
  go_r1norm : S; go_r2norm : S; go_Arnorm : S; go_xnorm : S;
  go_norms : list S; go_resids : list S; go_nresids : list S; go_dirs : list S; go_itp : list V; go_itd : list U }.

(** craig.py:104-520.  [wantvar]: [zeros(n,1)] raises TypeError (line 179).  [Arnorm] is unbound at
    line 517 if no iteration was made. *)
Definition cr_solve (fuel : nat) (q : lprob WV WU) (kw : cr_kw) (b : U) (cnt : nat) : res (cr_out * nat) :=
  if c_wantvar kw then Err TypeError else
  rbind (cr_init q kw b cnt) (fun '(st0, bnorm) =>
  rbind (while fuel (cr_cond (cr_lim q kw)) (cr_body q kw bnorm (cr_lim q kw)) st0) (fun st =>
  rbind (pysqrt (g_r1 st)) (fun r1 =>
  rbind (pysqrt (g_rnorm st)) (fun r2 =>
  match g_Ar st with
  | None => Err UnboundLocalError
  | Some Ar =>
    Ok (mkcrout (g_x st) (g_r st) (g_istop st) (ls_stat (g_istop st)) (ls_opt (g_istop st)) (g_itn st)
          (2 * g_itn st) r1 r2 Ar (g_xnorm st) (g_norms st) (g_resids st) (g_nresids st) (g_dirs st)
          (g_itp st) (g_itd st), g_cnt st)
  end)))).

(** ** CRAIG-MR *)

(** Arguments of [solve] (craigmr.py:51-57). *)
Record cm_kw := mkcmkw {
  h_damp : S; h_atol : S; h_btol : S; h_conlim : S; h_M : option (U -> U); h_N : option (V -> V);
  h_itnlim : option Z; h_etol : S; h_sres : bool; h_sit : bool; h_window : nat; h_lnorm : list S -> S }.
Definition cm_kw0 (lnorm : list S -> S) : cm_kw :=
  mkcmkw s0 (slit (1 # 1000000000)) (slit (1 # 1000000000)) (slit 100000000) None None None
    (slit (1 # 1000000)) false false 5 lnorm.

(** craigmr.py:66-71. *)
Definition cm_lim (q : lprob WV WU) (kw : cm_kw) : Z :=
  match h_itnlim kw with None => Z.of_nat (Nat.min (lp_m q) (lp_n q)) | Some l => l end.

(** Local variables.  [h_Nv]: [Nv], unbound when the test [beta > 0] of line 85 fails. *)
Record cm_st := mkcm {
  h_x : U; h_Mu : U; h_v : V; h_Nv : option V; h_d : U; h_dbar : U;
  h_alpha : S; h_c : S; h_s : S; h_zhat : S; h_atil : S; h_theta : S; h_nrg2 : S; h_dErr : list S;
  h_istop : Z; h_itn : nat; h_cnt : nat; h_brk : bool;
  h_norms : list S; h_nresids : list S; h_dirs : list S; h_iters : list U }.

(** craigmr.py:176-192: the rotation of type III and the updates.
    Returns [(dbar, theta, alpha_tilde, zeta, zeta_hat, d, x)]. *)
Definition cm_upd (u d dbar x : U) (beta_hat alpha_hat atil theta zhat : S) : res (U * S * S * S * S * U * U) :=
  rbind (pnorm2 atil beta_hat) (fun rho =>
  rbind (pydiv atil rho) (fun c_hat =>
  rbind (pydiv beta_hat rho) (fun s_hat =>
  let dbar := vdivs (vsub d (vscale theta dbar)) rho in
  let theta := smul s_hat alpha_hat in
  let atil := smul (sneg c_hat) alpha_hat in
  let zeta := smul c_hat zhat in
  let zhat := smul s_hat zhat in
  let d := vdivs (vsub u (vscale beta_hat d)) alpha_hat in
  let x := vadd x (vscale zeta dbar) in
  Ok (dbar, theta, atil, zeta, zhat, d, x)))).

(** craigmr.py:128-212: one iteration. *)
Definition cm_body (q : lprob WV WU) (kw : cm_kw) (lim : Z) (st : cm_st) : res cm_st :=
  let itn := (h_itn st + 1)%nat in
  rbind (cr_bidiag q (h_M kw) (h_N kw) (h_Mu st) (h_v st) (h_Nv st) (h_alpha st) (h_cnt st))
    (fun '(Mu, u, v, Nv, alpha, beta, cnt) =>
  rbind (cr_rot (h_c st) (h_s st) alpha beta) (fun '(beta_hat, _, alpha_hat, c, s) =>
  rbind (cm_upd u (h_d st) (h_dbar st) (h_x st) beta_hat alpha_hat (h_atil st) (h_theta st) (h_zhat st))
    (fun '(dbar, theta, atil, zeta, zhat, d, x) =>
  let nrg2 := sadd (h_nrg2 st) (smul zeta zeta) in
  rbind (cr_derr (h_window kw) (h_etol kw) (h_lnorm kw) itn zeta nrg2 (h_dErr st) (h_dirs st) (h_istop st))
    (fun '(dErr, dirs, istop) =>
  let istop := if (lim <=? Z.of_nat itn)%Z then 7%Z else istop in
  Ok (mkcm x Mu v Nv d dbar alpha c s zhat atil theta nrg2 dErr istop itn cnt (0 <? istop)%Z
        (if h_sres kw then h_norms st ++ [nrg2] else h_norms st)
        (if h_sres kw then h_nresids st ++ [sabs zeta] else h_nresids st)
        dirs
        (if h_sit kw then h_iters st ++ [x] else h_iters st)))))).

(** craigmr.py:73-125.  [dbar] and [x] have length [m]. *)
Definition cm_init (q : lprob WV WU) (kw : cm_kw) (b : U) (cnt : nat) : res cm_st :=
  rbind (gk_norm (h_M kw) b) (fun '(Mu, u, beta) =>
  rbind (if sgtb beta s0 then
           rbind (gk_norm (h_N kw) (lp_At q u)) (fun '(Nv, v, alpha) => Ok (v, Some Nv, alpha, (cnt + 1)%nat))
         else Ok (vzeros (lp_n q), None, s0, cnt)) (fun '(v, Nv, alpha, cnt) =>
  rbind (pnorm2 alpha s1) (fun alpha_hat =>
  rbind (pydiv alpha alpha_hat) (fun c =>
  rbind (pydiv s1 alpha_hat) (fun s =>
  let x := vzeros (lp_m q) in
  Ok (mkcm x Mu v Nv (vdivs u alpha_hat) (vzeros (lp_m q)) alpha c s beta alpha_hat s0 s0
        (repeat s0 (h_window kw)) 0 0 cnt false
        (if h_sres kw then [s0] else []) [] [] (if h_sit kw then [x] else []))))))).

Definition cm_cond (lim : Z) (st : cm_st) : bool := (Z.of_nat (h_itn st) <? lim)%Z && negb (h_brk st).

(** The attributes set by [solve] (craigmr.py:232-241).  [r1norm], [Anorm] and the other estimates
    keep the value 0 of [init_data] (craigmr.py:40-42). *)
Record cm_out := mkcmout {
  ho_x : U; ho_istop : Z; ho_status : option ls_status; ho_optimal : bool; ho_itn : nat; ho_nmv : nat;
  ho_norms : list S; ho_nresids : list S; ho_dirs : list S; ho_iters : list U }.

(** craigmr.py:51-250. *)
Definition cm_solve (fuel : nat) (q : lprob WV WU) (kw : cm_kw) (b : U) (cnt : nat) : res (cm_out * nat) :=
  rbind (cm_init q kw b cnt) (fun st0 =>
  rbind (while fuel (cm_cond (cm_lim q kw)) (cm_body q kw (cm_lim q kw)) st0) (fun st =>
  Ok (mkcmout (h_x st) (h_istop st) (ls_stat (h_istop st)) (ls_opt (h_istop st)) (h_itn st) (2 * h_itn st)
        (h_norms st) (h_nresids st) (h_dirs st) (h_iters st), h_cnt st))).
End Craig.
Arguments cr_kw {K} WV WU. Arguments cr_st {K} WV WU. Arguments cr_out {K} WV WU.
Arguments cm_kw {K} WV WU. Arguments cm_st {K} WV WU. Arguments cm_out {K} WU.
