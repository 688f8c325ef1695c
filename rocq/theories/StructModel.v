(** * Model of [StructuredLBFGSOperator], pykrylov/linop/lbfgs.py:256-350.

    No such object can be built (C34).  The methods are modelled all the same, on objects whose
    attributes hold what the constructor was meant to put there. *)
From Coq Require Import List ZArith QArith Bool Arith.
From Verif Require Import Base Num LbfgsModel.
Import ListNotations.

Section Struct.
Context {K : Scal} {W : Vs K}.
Notation S := (sc K).
Notation V := (vc W).

(** The attributes: those of [InverseLBFGSOperator] and [yd] (lbfgs.py:278). *)
Record slb := mkslb { t_lb : lb W; t_yd : nat -> V }.

(** lbfgs.py:279 *)
Definition st_threshold : S := slit (1 # 100000000).

(** The local arrays [a], [ad], [aTs] and [adTs] of lbfgs.py:297-301, and [q]. *)
Record sst := mksst { t_q : V; t_a : nat -> V; t_ad : nat -> V; t_at : nat -> S; t_adt : nat -> S }.

(** lbfgs.py:318-320, for the earlier pair in slot [l]; [sk] is [s[:, k]]. *)
Definition str_update (z : sst) (l : nat) (sk : V) : V :=
  let alTs := sdiv (vdot (t_a z l) sk) (t_at z l) in
  let adlTs := vdot (t_ad z l) sk in
  vsub (vadd (vscale (sdiv alTs (t_at z l)) (t_ad z l))
             (vscale (sdiv adlTs (t_at z l)) (t_a z l)))
       (vscale (smul (sdiv (t_adt z l) (t_at z l)) alTs) (t_a z l)).

(** lbfgs.py:315-322 *)
Definition str_inner (st : slb) (k : nat) (coef : S) (z : sst) (j : nat) : sst :=
  let l := up (t_lb st) j in
  match l_ys (t_lb st) l with
  | None => z
  | Some _ =>
      let u := str_update z l (l_s (t_lb st) k) in
      let a := upd (t_a z) k (vadd (t_a z k) (vscale coef u)) in
      let ad := upd (t_ad z) k (vsub (t_ad z k) u) in
      mksst (t_q z) a ad (t_at z) (t_adt z)
  end.

(** lbfgs.py:309-327 *)
Definition str_body (st : slb) (gamma : S) (v : V) (z : sst) (i : nat) : sst :=
  let k := up (t_lb st) i in
  match l_ys (t_lb st) k with
  | None => z
  | Some d =>
      let s := l_s (t_lb st) k in
      let coef := ssqrt (sdiv (smul gamma d) (vdot s s)) in
      let a := upd (t_a z) k (vadd (l_y (t_lb st) k) (vdivs (vscale coef s) gamma)) in
      let ad := upd (t_ad z) k (vsub (t_yd st k) (vdivs s gamma)) in
      let z := fold_left (str_inner st k coef) (seq 0 i) (mksst (t_q z) a ad (t_at z) (t_adt z)) in
      let at_ := upd (t_at z) k (vdot (t_a z k) s) in
      let adt := upd (t_adt z) k (vdot (t_ad z k) s) in
      let aTv := vdot (t_a z k) v in
      let adTv := vdot (t_ad z k) v in
      let q := vadd (t_q z)
        (vsub (vadd (vscale (sdiv aTv (at_ k)) (t_ad z k)) (vscale (sdiv adTv (at_ k)) (t_a z k)))
              (vscale (sdiv (smul aTv (adt k)) (smul (at_ k) (at_ k))) (t_a z k))) in
      mksst q (t_a z) (t_ad z) at_ adt
  end.

(** lbfgs.py:281-328 *)
Definition str_matvec (st : slb) (v : V) : res (V * slb) :=
  rbind (scal_gamma (t_lb st)) (fun o =>
    let gamma := or_gamma o (t_lb st) in
    let q := match o with Some g => vdivs v g | None => v end in
    let zero := fun _ : nat => vzeros (vlen v) in
    let z := fold_left (str_body st gamma v) (seq 0 (l_np (t_lb st)))
               (mksst q zero zero (fun _ => s0) (fun _ => s0)) in
    Ok (t_q z, mkslb (set_ag (t_lb st) (l_alpha (t_lb st)) gamma) (t_yd st))).

(** lbfgs.py:330-350.  [mv] is the attribute [matvec] ([None]: the object has none, as after every
    constructor of the package).  It may change the operator, as [str_matvec] does. *)
Definition str_store (mv : option (slb -> V -> res (V * slb))) (st : slb) (s y yd : V) : res slb :=
  let ys := vdot s y in
  match mv with
  | None => Err AttributeError
  | Some f =>
      rbind (f st s) (fun '(Bs, st) =>
        let ypBs := sadd ys (ssqrt (smul ys (vdot s Bs))) in
        let b := t_lb st in
        if sgeb ypBs st_threshold then
          if Nat.eqb (l_np b) 0 then Err IndexError
          else
            let i := l_insert b in
            Ok (mkslb (mklb (l_np b) (l_scal b) ((i + 1) mod l_np b)
                            (upd (l_s b) i s) (upd (l_y b) i y) (l_alpha b)
                            (upd (l_ys b) i (Some ys)) (l_gamma b))
                      (upd (t_yd st) i yd))
        else Ok st)
  end.
End Struct.
Arguments slb {K} W. Arguments sst {K} W.
