(** * Model of pykrylov/cg/cg.py over arbitrary scalars and vectors.

    Simplification: arrays are values.  In-place updates ([x += ...], [p *= ...]) are modelled
    by rebinding; file Alias.v treats the sharing of arrays separately. *)
From Coq Require Import List ZArith QArith Bool.
From Verif Require Import Base Num ToolsModel.
Import ListNotations.

Section CG.
Context {K : Scal} {W : Vs K}.
Notation S := (sc K).
Notation V := (vc W).

(** The attributes of a solver object that [solve] reads or writes
    (generic/generic.py:65-87, cg/cg.py:33-43).  [None] for [g_def] means the attribute does
    not exist yet. *)
Record cg_obj := mkcg {
  g_residNorm0 : option S; g_residNorm : option S; g_hist : list S;
  g_resids : list V; g_iters : list V; g_inf : option V;
  g_conv : bool; g_def : option bool; g_nmv : nat; g_x : option V }.

(** A freshly constructed solver. *)
Definition cg_new : cg_obj := mkcg None None [] [] [] None false None 0 None.

(** Constructor parameters: operator, its shape, preconditioner, tolerances. *)
Record kprob := mkprob {
  q_m : nat; q_n : nat; q_A : V -> V; q_P : option (V -> V); q_abstol : S; q_reltol : S;
  q_cbrt : S -> S; q_draws : list V }.

(** Keyword arguments of [solve] (cg.py:51-67); [cg_kw0] are the defaults. *)
Record cg_kw := mkkw {
  k_guess : option V; k_mmax : option nat; k_sym : bool; k_curv : bool;
  k_sres : bool; k_sit : bool }.
Definition cg_kw0 : cg_kw := mkkw None None false true false false.

(** Local variables (and the attributes updated during the loop). *)
Record cg_st := mkst {
  c_x : V; c_r : V; c_p : V; c_ry : S; c_res : S; c_nmv : nat; c_def : bool; c_cnt : nat;
  c_hist : list S; c_resids : list V; c_iters : list V; c_inf : option V }.

(** cg.py:91-94 and 137-140. *)
Definition prec (q : kprob) (r : V) : V := match q_P q with Some P => P r | None => r end.

(** cg.py:120. *)
Definition curv_bad (pAp : S) : bool :=
  sgtb (simag pAp) (smul (slit (1 # 100000000)) (sabs pAp)) || sleb (sreal pAp) s0.

Definition mmax (kw_mmax : option nat) (rhs : V) : nat :=
  match kw_mmax with Some m => m | None => (2 * vlen rhs)%nat end.

(** cg.py:74-104: everything before the loop. *)
Definition cg_init (q : kprob) (kw : cg_kw) (o : cg_obj) (rhs : V) (cnt : nat) : cg_st :=
  let x := match k_guess kw with Some g => g | None => vzeros (vlen rhs) end in
  let iters := if k_sit kw then g_iters o ++ [x] else g_iters o in
  let r := vneg rhs in
  let '(r, nmv, cnt) :=
    match k_guess kw with
    | Some _ => let '(Ax, cnt) := opmul (q_A q) x cnt in (vadd r Ax, 1%nat, cnt)
    | None => (r, 0%nat, cnt)
    end in
  let y := prec q r in
  let resids := if k_sres kw then g_resids o ++ [y] else g_resids o in
  let ry := vdot r y in
  let res := sabs (ssqrt ry) in
  mkst x r (vneg r) ry res nmv true cnt (g_hist o ++ [res]) resids iters (g_inf o).

(** cg.py:102. *)
Definition thr (q : kprob) (res0 : S) : S := pymax (q_abstol q) (smul (q_reltol q) res0).

(** cg.py:113. *)
Definition cg_cond (q : kprob) (kw : cg_kw) (rhs : V) (res0 : S) (st : cg_st) : bool :=
  sgtb (c_res st) (thr q res0) && (c_nmv st <? mmax (k_mmax kw) rhs)%nat && c_def st.

(** cg.py:115-158. *)
Definition cg_body (q : kprob) (kw : cg_kw) (st : cg_st) : res cg_st :=
  let '(Ap, cnt) := opmul (q_A q) (c_p st) (c_cnt st) in
  let nmv := (c_nmv st + 1)%nat in
  let pAp := vdot (c_p st) Ap in
  if k_curv kw && curv_bad pAp then
    Ok (mkst (c_x st) (c_r st) (c_p st) (c_ry st) (c_res st) nmv false cnt
             (c_hist st) (c_resids st) (c_iters st) (Some (c_p st)))
  else
    let alpha := sdiv (c_ry st) pAp in
    let x := vadd (c_x st) (vscale alpha (c_p st)) in
    let r := vadd (c_r st) (vscale alpha Ap) in
    let iters := if k_sit kw then c_iters st ++ [x] else c_iters st in
    let y := prec q r in
    let resids := if k_sres kw then c_resids st ++ [y] else c_resids st in
    let ry_next := vdot r y in
    let beta := sdiv ry_next (c_ry st) in
    let p := vsub (vscale beta (c_p st)) r in
    let rn := sabs (ssqrt ry_next) in
    Ok (mkst x r p ry_next rn nmv (c_def st) cnt (c_hist st ++ [rn]) resids iters (c_inf st)).

(** cg.py:161-165. *)
Definition cg_final (q : kprob) (res0 : S) (st : cg_st) : cg_obj :=
  mkcg (Some res0) (Some (c_res st)) (c_hist st) (c_resids st) (c_iters st) (c_inf st)
       (sleb (c_res st) (thr q res0)) (Some (c_def st)) (c_nmv st) (Some (c_x st)).

(** cg.py:46-165.  Returns the new attributes and the operator's product counter. *)
Definition cg_solve (fuel : nat) (q : kprob) (o : cg_obj) (rhs : V) (kw : cg_kw) (cnt : nat)
  : res (cg_obj * nat) :=
  let '(ok, cnt) :=
    if k_sym kw then check_symmetric (q_cbrt q) (q_m q) (q_n q) (q_A q) (q_draws q) cnt
    else (true, cnt) in
  if negb ok then Ok (o, cnt)
  else
    let st := cg_init q kw o rhs cnt in
    let res0 := c_res st in
    match while fuel (cg_cond q kw rhs res0) (cg_body q kw) st with
    | Ok st' => Ok (cg_final q res0 st', c_cnt st')
    | Err e => Err e
    end.
End CG.
Arguments cg_obj : clear implicits.
Arguments kprob : clear implicits.
Arguments cg_kw : clear implicits.
Arguments cg_st : clear implicits.
Arguments cg_obj {K} W. Arguments kprob {K} W. Arguments cg_kw {K} W. Arguments cg_st {K} W.
