(** * Exact real arithmetic extended with the IEEE special values.

    The finite part is exact; division by zero, invalid operations and comparisons follow IEEE 754
    except that the sign of zero is not represented ([1/0] is [+inf]).  Used for statements about
    what happens after a breakdown. *)
From Coq Require Import List ZArith QArith Qreals Reals Lia Lra Bool.
From Verif Require Import Base Num.
Import ListNotations.
Local Open Scope R_scope.

Inductive xr := Fin (r : R) | PInf | NInf | NaN.

Definition xsgn (a : xr) : R := match a with Fin r => r | PInf => 1 | NInf => -1 | NaN => 0 end.
Definition xinf (s : R) : xr := if Rlt_dec 0 s then PInf else if Rlt_dec s 0 then NInf else NaN.
Definition xneg (a : xr) : xr := match a with Fin r => Fin (- r) | PInf => NInf | NInf => PInf | NaN => NaN end.
Definition xadd (a b : xr) : xr :=
  match a, b with
  | Fin x, Fin y => Fin (x + y)
  | NaN, _ | _, NaN => NaN
  | Fin _, i | i, Fin _ => i
  | PInf, PInf => PInf | NInf, NInf => NInf
  | _, _ => NaN
  end.
Definition xsub (a b : xr) : xr := match a, b with Fin x, Fin y => Fin (x - y) | _, _ => xadd a (xneg b) end.
Definition xmul (a b : xr) : xr :=
  match a, b with
  | Fin x, Fin y => Fin (x * y)
  | NaN, _ | _, NaN => NaN
  | _, _ => xinf (xsgn a * xsgn b)
  end.
Definition xdiv (a b : xr) : xr :=
  match a, b with
  | NaN, _ | _, NaN => NaN
  | Fin x, Fin y => if Req_EM_T y 0 then xinf x else Fin (x / y)
  | Fin _, _ => Fin 0
  | _, Fin y => if Req_EM_T y 0 then a else xinf (xsgn a * y)
  | _, _ => NaN
  end.
Definition xsqrt (a : xr) : xr :=
  match a with Fin x => if Rlt_dec x 0 then NaN else Fin (sqrt x) | PInf => PInf | _ => NaN end.
Definition xabs (a : xr) : xr := match a with Fin x => Fin (Rabs x) | PInf | NInf => PInf | NaN => NaN end.
Definition xltb (a b : xr) : bool :=
  match a, b with
  | NaN, _ | _, NaN => false
  | Fin x, Fin y => Rltb x y
  | NInf, NInf => false | NInf, _ => true
  | Fin _, PInf => true | Fin _, NInf => false
  | PInf, _ => false
  end.
Definition xeqb (a b : xr) : bool :=
  match a, b with Fin x, Fin y => Reqb x y | PInf, PInf | NInf, NInf => true | _, _ => false end.
Definition xleb (a b : xr) : bool := xltb a b || xeqb a b.

Definition xK : Scal :=
  mkScal xr (Fin 0) (Fin 1) (fun q => Fin (Q2R q)) xadd xsub xmul xdiv xneg xsqrt xabs (fun x => x)
    (fun _ => Fin 0) xltb xleb xeqb.

(** Arrays: lists, componentwise (all arrays of a computation have the same length). *)
Definition zipw {A : Type} (f : A -> A -> A) (u v : list A) : list A :=
  map (fun p => f (fst p) (snd p)) (combine u v).
Definition xdot (u v : list xr) : xr := fold_right xadd (Fin 0) (zipw xmul u v).
Definition xV : Vs xK :=
  mkVs xK (list xr) (@length xr) (fun n => repeat (Fin 0) n) (zipw xadd) (zipw xsub) (map xneg)
    (fun a => map (xmul a)) (fun u a => map (fun x => xdiv x a) u) xdot (fun u => xsqrt (xdot u u)).

Definition nans (n : nat) : list xr := repeat NaN n.

Lemma zipw_length : forall {A} (f : A -> A -> A) u v, length v = length u -> length (zipw f u v) = length u.
Proof. intros. unfold zipw. rewrite map_length, combine_length. lia. Qed.

Lemma zipw_len : forall {A} (f : A -> A -> A) u v n, length u = n -> length v = n -> length (zipw f u v) = n.
Proof. intros. rewrite zipw_length; congruence. Qed.
Lemma map_len : forall {A B} (f : A -> B) u n, length u = n -> length (map f u) = n.
Proof. intros. rewrite map_length. assumption. Qed.

Lemma xadd_NaN : forall a, xadd a NaN = NaN.
Proof. destruct a; reflexivity. Qed.
Lemma xmul_NaN : forall a, xmul a NaN = NaN.
Proof. destruct a; reflexivity. Qed.
Lemma xsub_NaN : forall a, xsub a NaN = NaN.
Proof. destruct a; reflexivity. Qed.
Lemma xltb_NaN : forall a, xltb a NaN = false.
Proof. destruct a; reflexivity. Qed.

Lemma zipw_nans_l : forall f u n, (forall a, f NaN a = NaN) -> length u = n -> zipw f (nans n) u = nans n.
Proof.
  intros f u n F <-. induction u as [|a u IH]; [reflexivity|]. unfold zipw, nans in *. cbn. rewrite F, IH. reflexivity.
Qed.
Lemma zipw_nans_r : forall f u n, (forall a, f a NaN = NaN) -> length u = n -> zipw f u (nans n) = nans n.
Proof.
  intros f u n F <-. induction u as [|a u IH]; [reflexivity|]. unfold zipw, nans in *. cbn. rewrite F, IH. reflexivity.
Qed.
Lemma scale_NaN : forall u n, length u = n -> map (xmul NaN) u = nans n.
Proof. intros u n <-. induction u as [|a u IH]; [reflexivity|]. cbn. rewrite IH. reflexivity. Qed.
Lemma scale_nans : forall a n, map (xmul a) (nans n) = nans n.
Proof. intros a n. induction n as [|n IH]; [reflexivity|]. cbn. rewrite xmul_NaN. unfold nans in IH. rewrite IH. reflexivity. Qed.
Lemma scale_inf_zero : forall n, map (xmul PInf) (repeat (Fin 0) n) = nans n.
Proof.
  intros n. induction n as [|n IH]; [reflexivity|]. cbn. unfold xinf. cbn. 
  destruct (Rlt_dec 0 (1 * 0)) as [H|_]; [lra|]. destruct (Rlt_dec (1 * 0) 0) as [H|_]; [lra|]. rewrite IH. reflexivity.
Qed.
Lemma xdot_nans : forall u n, (1 <= n)%nat -> length u = n -> xdot (nans n) u = NaN.
Proof.
  intros u n N L. unfold xdot. rewrite zipw_nans_l; [|reflexivity|exact L]. destruct n; [lia|]. reflexivity.
Qed.

(** Finite vectors. *)
Definition fins (l : list R) : list xr := map Fin l.
Lemma fins_zip : forall f g u v, (forall a c, f (Fin a) (Fin c) = Fin (g a c)) ->
  zipw f (fins u) (fins v) = fins (zipw g u v).
Proof.
  intros f g u v F. revert v. induction u as [|a u IH]; intros [|c v]; try reflexivity.
  unfold zipw, fins in *. cbn. rewrite F. f_equal. apply IH.
Qed.
Definition rdot (u v : list R) : R := fold_right Rplus 0 (zipw Rmult u v).
Lemma fins_dot : forall u v, xdot (fins u) (fins v) = Fin (rdot u v).
Proof.
  intros u v. unfold xdot, rdot. rewrite (fins_zip xmul Rmult) by reflexivity.
  induction (zipw Rmult u v) as [|a l IH]; [reflexivity|]. cbn. unfold fins in IH. rewrite IH. reflexivity.
Qed.
Lemma fins_scale : forall a u, map (xmul (Fin a)) (fins u) = fins (map (Rmult a) u).
Proof. intros. unfold fins. rewrite !map_map. reflexivity. Qed.
Lemma rdot_scale : forall a c u, rdot (map (Rmult a) u) (map (Rmult c) u) = a * c * rdot u u.
Proof.
  intros a c u. unfold rdot, zipw. induction u as [|x u IH]; cbn in *; [ring|]. rewrite IH. ring.
Qed.
Lemma rdot_pos : forall u, 0 <= rdot u u.
Proof. intros u. unfold rdot, zipw. induction u as [|x u IH]; cbn in *; nra. Qed.
