(** * Models of pykrylov/cgs/cgs.py, bicgstab/bicgstab.py and tfqmr/tfqmr.py.

    Arrays are values; in-place updates are modelled by rebinding (see file Alias.v for the
    sharing of arrays).  The divisions are numpy divisions, which never raise. *)
From Coq Require Import List ZArith QArith Bool.
From Verif Require Import Base Num ToolsModel CgModel.
Import ListNotations.

Section Krylov.
Context {K : Scal} {W : Vs K}.
Notation S := (sc K).
Notation V := (vc W).

(** The attributes set at the end of [solve] (cgs.py:120-123, bicgstab.py:148-151,
    tfqmr.py:156-159) and [residNorm0]. *)
Record kout := mkout {
  o_residNorm0 : S; o_residNorm : S; o_conv : bool; o_nmv : nat; o_x : V }.

(** Keyword arguments [guess] and [matvec_max]. *)
Record kkw := mkkkw { w_guess : option V; w_mmax : option nat }.

(** cgs.py:55, bicgstab.py:58, tfqmr.py:54. *)
Definition start_x (kw : kkw) (rhs : V) : V :=
  match w_guess kw with Some g => g | None => vzeros (vlen rhs) end.

(** cgs.py:58-60, bicgstab.py:62-65, tfqmr.py:57-59: the fixed vector [r0]. *)
Definition start_r (q : kprob W) (kw : kkw) (rhs : V) (cnt : nat) : V * nat :=
  match w_guess kw with
  | Some g => let '(Ax, cnt) := opmul (q_A q) g cnt in (vsub rhs Ax, cnt)
  | None => (rhs, cnt)
  end.

(** ** CGS *)
Record cgs_st := mkcgs {
  s_x : V; s_r : V; s_u : V; s_p : V; s_rho : S; s_res : S; s_nmv : nat; s_cnt : nat; s_fin : bool }.

(** cgs.py:78-114. *)
Definition cgs_body (q : kprob W) (r0 : V) (th : S) (mx : nat) (st : cgs_st) : res cgs_st :=
  let y := prec q (s_p st) in
  let '(v, cnt) := opmul (q_A q) y (s_cnt st) in
  let nmv := (s_nmv st + 1)%nat in
  let sigma := vdot r0 v in
  let alpha := sdiv (s_rho st) sigma in
  let qq := vsub (s_u st) (vscale alpha v) in
  let z := prec q (vadd (s_u st) qq) in
  let x := vadd (s_x st) (vscale alpha z) in
  let '(Az, cnt) := opmul (q_A q) z cnt in
  let nmv := (nmv + 1)%nat in
  let r := vsub (s_r st) (vscale alpha Az) in
  let rn := vnorm r in
  if sleb rn th || (mx <=? nmv)%nat then
    Ok (mkcgs x r (s_u st) (s_p st) (s_rho st) rn nmv cnt true)
  else
    let rho_next := vdot r0 r in
    let beta := sdiv rho_next (s_rho st) in
    let u := vadd r (vscale beta qq) in
    let p := vadd (vscale beta (vadd (vscale beta (s_p st)) qq)) u in
    Ok (mkcgs x r u p rho_next rn nmv cnt false).

(** cgs.py:40-123. *)
Definition cgs_solve (fuel : nat) (q : kprob W) (rhs : V) (kw : kkw) (cnt : nat) : res (kout * nat) :=
  let mx := mmax (w_mmax kw) rhs in
  let x := start_x kw rhs in
  let '(r0, cnt) := start_r q kw rhs cnt in
  let rho := vdot r0 r0 in
  let rn := sabs (ssqrt rho) in
  let th := thr q rn in
  let st := mkcgs x r0 r0 r0 rho rn 0 cnt (sleb rn th || (mx <=? 0)%nat) in
  match while fuel (fun st => negb (s_fin st)) (cgs_body q r0 th mx) st with
  | Ok st => Ok (mkout rn (s_res st) (sleb (s_res st) th) (s_nmv st) (s_x st), s_cnt st)
  | Err e => Err e
  end.

(** ** BiCGSTAB *)
Record bi_st := mkbi {
  b_x : V; b_r : V; b_p : V; b_v : V; b_rho : S; b_rhon : S; b_alpha : S; b_omega : S;
  b_res : S; b_nmv : nat; b_cnt : nat; b_fin : bool }.

(** bicgstab.py:87-145. *)
Definition bi_body (q : kprob W) (r0 : V) (th : S) (mx : nat) (st : bi_st) : res bi_st :=
  let beta := sdiv (smul (sdiv (b_rhon st) (b_rho st)) (b_alpha st)) (b_omega st) in
  let rho := b_rhon st in
  let p := vadd (vsub (vscale beta (b_p st)) (vscale (smul beta (b_omega st)) (b_v st))) (b_r st) in
  let qq := prec q p in
  let '(v, cnt) := opmul (q_A q) qq (b_cnt st) in
  let nmv := (b_nmv st + 1)%nat in
  let alpha := sdiv rho (vdot r0 v) in
  let s := vsub (b_r st) (vscale alpha v) in
  let rn := vnorm s in
  if sleb rn th then
    Ok (mkbi (vadd (b_x st) (vscale alpha qq)) (b_r st) p v rho rho alpha (b_omega st) rn nmv cnt true)
  else if (mx <=? nmv)%nat then
    Ok (mkbi (b_x st) (b_r st) p v rho rho alpha (b_omega st) rn nmv cnt true)
  else
    let z := prec q s in
    let '(t, cnt) := opmul (q_A q) z cnt in
    let nmv := (nmv + 1)%nat in
    let omega := sdiv (vdot t s) (vdot t t) in
    let rho_next := smul (sneg omega) (vdot r0 t) in
    let r := vsub s (vscale omega t) in
    let x := vadd (vadd (b_x st) (vscale omega z)) (vscale alpha qq) in
    let rn := vnorm r in
    Ok (mkbi x r p v rho rho_next alpha omega rn nmv cnt (sleb rn th || (mx <=? nmv)%nat)).

(** bicgstab.py:43-151. *)
Definition bi_solve (fuel : nat) (q : kprob W) (rhs : V) (kw : kkw) (cnt : nat) : res (kout * nat) :=
  let mx := mmax (w_mmax kw) rhs in
  let x := start_x kw rhs in
  let '(r0, cnt) := start_r q kw rhs cnt in
  let nmv := match w_guess kw with Some _ => 1%nat | None => 0%nat end in
  let rhon := vdot r0 r0 in
  let rn := sabs (ssqrt rhon) in
  let th := thr q rn in
  let st := mkbi x r0 (vzeros (vlen rhs)) (vzeros (vlen rhs)) s1 rhon s1 s1 rn nmv cnt
                 (sleb rn th || (mx <=? nmv)%nat) in
  match while fuel (fun st => negb (b_fin st)) (bi_body q r0 th mx) st with
  | Ok st => Ok (mkout rn (b_res st) (sleb (b_res st) th) (b_nmv st) (b_x st), b_cnt st)
  | Err e => Err e
  end.

(** ** TFQMR.  [t_m] is the Python variable [m], unbound until the first pass. *)
Record tf_st := mktf {
  t_x : V; t_y : V; t_w : V; t_d : V; t_z : V; t_u : V; t_v : V;
  t_theta : S; t_eta : S; t_rho : S; t_res : S; t_k : nat; t_m : option S;
  t_nmv : nat; t_cnt : nat; t_fin : bool }.

Definition sofnat (n : nat) : S := slit (inject_Z (Z.of_nat n)).

(** tfqmr.py:92-103, 115-125 and 121-127: one quasi-minimization pass.
    Returns w, d, theta, residNorm, eta, x. *)
Definition tf_pass (alpha : S) (w u d z x : V) (theta eta res : S) : V * V * S * S * S * V :=
  let w := vsub w (vscale alpha u) in
  let d := vadd (vscale (sdiv (smul (smul theta theta) eta) alpha) d) z in
  let theta := sdiv (vnorm w) res in
  let c := sdiv s1 (ssqrt (sadd s1 (smul theta theta))) in
  let res := smul res (smul theta c) in
  let eta := smul (smul c c) alpha in
  let x := vadd x (vscale eta d) in
  (w, d, theta, res, eta, x).

(** tfqmr.py:101, 123 and 128. *)
Definition tf_test (th : S) (mx : nat) (res m : S) (nmv : nat) : bool :=
  sltb (smul res (ssqrt (sadd m s1))) th || (mx <=? nmv)%nat.

(** tfqmr.py:87-150. *)
Definition tf_body (q : kprob W) (r0 : V) (th : S) (mx : nat) (st : tf_st) : res tf_st :=
  let k := (t_k st + 1)%nat in
  let sigma := vdot r0 (t_v st) in
  let alpha := sdiv (t_rho st) sigma in
  let '(w, d, theta, rn, eta, x) :=
    tf_pass alpha (t_w st) (t_u st) (t_d st) (t_z st) (t_x st) (t_theta st) (t_eta st) (t_res st) in
  let m := ssub (smul (slit 2) (sofnat k)) s1 in
  if tf_test th mx rn m (t_nmv st) then
    Ok (mktf x (t_y st) w d (t_z st) (t_u st) (t_v st) theta eta (t_rho st) rn k (Some m)
             (t_nmv st) (t_cnt st) true)
  else
    let m := sadd m s1 in
    let y := vsub (t_y st) (vscale alpha (t_v st)) in
    let z := prec q y in
    let '(u, cnt) := opmul (q_A q) z (t_cnt st) in
    let nmv := (t_nmv st + 1)%nat in
    let '(w, d, theta, rn, eta, x) := tf_pass alpha w u d z x theta eta rn in
    if tf_test th mx rn m nmv then
      Ok (mktf x y w d z u (t_v st) theta eta (t_rho st) rn k (Some m) nmv cnt true)
    else
      let rho_next := vdot r0 w in
      let beta := sdiv rho_next (t_rho st) in
      let y := vadd (vscale beta y) w in
      let v := vscale beta (vadd (vscale beta (t_v st)) u) in
      let z := prec q y in
      let '(u, cnt) := opmul (q_A q) z cnt in
      let nmv := (nmv + 1)%nat in
      Ok (mktf x y w d z u (vadd v u) theta eta rho_next rn k (Some m) nmv cnt false).

(** tfqmr.py:54-83: everything before the loop. *)
Definition tf_init (q : kprob W) (rhs : V) (x r0 : V) (rn th : S) (mx cnt : nat) : tf_st :=
  if sleb rn th || (mx <=? 0)%nat then
    mktf x r0 r0 r0 r0 r0 r0 s0 s0 (vdot r0 r0) rn 0 None 0 cnt true
  else
    let z := prec q r0 in
    let '(u, cnt) := opmul (q_A q) z cnt in
    mktf x r0 r0 (vzeros (vlen rhs)) z u u s0 s0 (vdot r0 r0) rn 0 None 1 cnt false.

(** tfqmr.py:39-159. *)
Definition tf_solve (fuel : nat) (q : kprob W) (rhs : V) (kw : kkw) (cnt : nat) : res (kout * nat) :=
  let mx := mmax (w_mmax kw) rhs in
  let x := start_x kw rhs in
  let '(r0, cnt) := start_r q kw rhs cnt in
  let rn := sabs (ssqrt (vdot r0 r0)) in
  let th := thr q rn in
  match while fuel (fun st => negb (t_fin st)) (tf_body q r0 th mx) (tf_init q rhs x r0 rn th mx cnt) with
  | Ok st =>
      match t_m st with
      | None => Err UnboundLocalError
      | Some m =>
          Ok (mkout rn (t_res st) (sltb (smul (t_res st) (ssqrt (sadd m s1))) th) (t_nmv st) (t_x st),
              t_cnt st)
      end
  | Err e => Err e
  end.
End Krylov.
Arguments kout {K} W. Arguments kkw {K} W. Arguments cgs_st {K} W. Arguments bi_st {K} W. Arguments tf_st {K} W.
