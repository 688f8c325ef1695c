(** * Rounded arithmetic on vectors of reals

    An instance of [flarith]: every operation rounds its exact result by a function [rnd] of relative error [u]
    and overflows beyond [Om].  [None] stands for a value that is not finite (infinite or NaN; a vector is
    [None] if one of its entries is); comparisons with it are false.  No underflow. *)
From Coq Require Import List ZArith QArith Qreals Reals Lia Lra Bool Psatz.
From Verif Require Import Base Num ToolsModel CgModel KrylovModel FlArith.
Import ListNotations.
Local Open Scope R_scope.

Definition ob {A B} (o : option A) (f : A -> option B) : option B := match o with Some a => f a | None => None end.
Definition ob2 {A B C} (f : A -> B -> option C) (a : option A) (b : option B) : option C :=
  match a, b with Some a, Some b => f a b | _, _ => None end.
Definition ocmp (f : R -> R -> bool) (a b : option R) : bool := match a, b with Some a, Some b => f a b | _, _ => false end.

Lemma abs_le_inv : forall a b, Rabs a <= b -> - b <= a <= b.
Proof. intros a b H. pose proof (Rle_abs a). pose proof (Rle_abs (- a)). rewrite Rabs_Ropp in *. lra. Qed.

Lemma pow_le_1 : forall a n, 0 <= a <= 1 -> a ^ n <= 1.
Proof. intros a n H. rewrite <- (Rfunctions.pow1 n). apply pow_incr. exact H. Qed.

Section Round.
Variables (rnd : R -> R) (Om : R).

Definition ro (z : R) : option R := if Rleb (Rabs (rnd z)) Om then Some (rnd z) else None.
Lemma ro_some : forall z y, ro z = Some y -> y = rnd z.
Proof. intros z y H. unfold ro in H. destruct (Rleb _ _); [|discriminate]. injection H as <-. reflexivity. Qed.

(** componentwise operations *)
Fixpoint cw2 {n : nat} (f : R -> R -> R) : rv n -> rv n -> option (rv n) :=
  match n return rv n -> rv n -> option (rv n) with
  | O => fun _ _ => Some tt
  | S n => fun x y => ob2 (fun a l => Some (a, l)) (ro (f (fst x) (fst y))) (cw2 f (snd x) (snd y))
  end.
Fixpoint cw1 {n : nat} (f : R -> R) : rv n -> option (rv n) :=
  match n return rv n -> option (rv n) with
  | O => fun _ => Some tt
  | S n => fun x => ob2 (fun a l => Some (a, l)) (ro (f (fst x))) (cw1 f (snd x))
  end.
(** a dot product: rounded products, summed one after the other *)
Fixpoint fdot {n : nat} : rv n -> rv n -> option R :=
  match n return rv n -> rv n -> option R with
  | O => fun _ _ => Some 0
  | S n => fun x y => ob2 (fun p s => ro (p + s)) (ro (fst x * fst y)) (fdot (snd x) (snd y))
  end.
Definition odiv (a b : R) : option R := if Reqb b 0 then None else ro (a / b).
Definition osqrt (a : R) : option R := if Rltb a 0 then None else ro (sqrt a).

Definition roundK : Scal :=
  mkScal (option R) (Some 0) (Some 1) (fun q => ro (Q2R q))
    (ob2 (fun a b => ro (a + b))) (ob2 (fun a b => ro (a - b))) (ob2 (fun a b => ro (a * b)))
    (ob2 odiv) (option_map Ropp) (fun a => ob a osqrt) (option_map Rabs) (fun a => a) (fun _ => Some 0)
    (ocmp Rltb) (ocmp Rleb) (ocmp Reqb).
Definition roundV (n : nat) : Vs roundK :=
  mkVs roundK (option (rv n)) (fun _ => n) (fun _ => Some (rv0 n))
    (ob2 (cw2 Rplus)) (ob2 (cw2 Rminus)) (option_map (rvscale (-1)))
    (ob2 (fun a x => cw1 (Rmult a) x)) (fun x a => ob2 (fun x a => if Reqb a 0 then None else cw1 (fun z => z / a) x) x a)
    (ob2 fdot) (fun x => ob (ob x (fun x => fdot x x)) osqrt).

(** matrices, rows first; the exact and the rounded product *)
Fixpoint mt (m n : nat) : Type := match m with O => unit | S m => (rv n * mt m n)%type end.
Fixpoint mv {m n : nat} : mt m n -> rv n -> rv m :=
  match m return mt m n -> rv n -> rv m with
  | O => fun _ _ => tt | S m => fun M x => (rvdot (fst M) x, mv (snd M) x) end.
Fixpoint fmv {m n : nat} : mt m n -> rv n -> option (rv m) :=
  match m return mt m n -> rv n -> option (rv m) with
  | O => fun _ _ => Some tt
  | S m => fun M x => ob2 (fun a l => Some (a, l)) (fdot (fst M) x) (fmv (snd M) x)
  end.
Fixpoint fro2 {m n : nat} : mt m n -> R :=
  match m return mt m n -> R with O => fun _ => 0 | S m => fun M => rvdot (fst M) (fst M) + fro2 (snd M) end.

Variable u : R.
Hypothesis U0 : 0 <= u.
Hypothesis RND : forall x, Rabs (rnd x - x) <= u * Rabs x.

(** from components to norms *)
Fixpoint close {n : nat} (k : R) : rv n -> rv n -> Prop :=
  match n return rv n -> rv n -> Prop with
  | O => fun _ _ => True | S n => fun z g => Rabs (fst z - fst g) <= k * Rabs (fst g) /\ close k (snd z) (snd g) end.
Lemma abs_sqr : forall a b k, 0 <= k -> Rabs a <= k * Rabs b -> a * a <= k * k * (b * b).
Proof.
  intros a b k K H. pose proof (Rabs_pos a). pose proof (Rabs_pos b).
  assert (Q : Rabs a * Rabs a <= (k * Rabs b) * (k * Rabs b)) by (apply Rmult_le_compat; lra).
  assert (S : forall t, Rabs t * Rabs t = t * t) by (intro t; rewrite <- Rabs_mult; apply Rabs_pos_eq; nra).
  rewrite S in Q. replace ((k * Rabs b) * (k * Rabs b)) with (k * k * (Rabs b * Rabs b)) in Q by ring.
  rewrite S in Q. exact Q.
Qed.
Lemma norm_le : forall (E : IPS) (x y : iv E) k, 0 <= k -> ip x x <= k * k * ip y y -> inorm x <= k * inorm y.
Proof.
  intros E x y k K H. unfold inorm. rewrite <- (sqrt_Rsqr k K), <- sqrt_mult_alt by apply Rle_0_sqr.
  apply sqrt_le_1_alt. exact H.
Qed.
Lemma close_norm : forall k n (z g : rv n), 0 <= k -> close k z g -> @inorm (Rn n) (@isub (Rn n) z g) <= k * @inorm (Rn n) g.
Proof.
  intros k n z g K H. apply norm_le; [exact K|].
  revert z g H. induction n as [|n IH]; intros z g H; [cbn; lra|]. destruct H as [H1 H2].
  specialize (IH (snd z) (snd g) H2). apply (abs_sqr _ _ k K) in H1. unfold isub, ineg in *. cbn in IH |- *. nra.
Qed.
Lemma rnd_close : forall a b, a = rnd b -> Rabs (a - b) <= u * Rabs b.
Proof. intros a b ->. apply RND. Qed.
Lemma cw2_add : forall n (x y z : rv n), cw2 Rplus x y = Some z -> close u z (rvadd x y).
Proof.
  induction n as [|n IH]; intros x y z H; cbn in *; [exact I|].
  destruct (ro _) as [a|] eqn:R1; [|discriminate]. cbn in H. destruct (cw2 _ _ _) as [l|] eqn:R2; [|discriminate].
  injection H as <-. cbn. apply ro_some in R1. split; [apply rnd_close; exact R1|apply IH; exact R2].
Qed.
Lemma cw2_sub : forall n (x y z : rv n), cw2 Rminus x y = Some z -> close u z (rvadd x (rvscale (-1) y)).
Proof.
  induction n as [|n IH]; intros x y z H; cbn in *; [exact I|].
  destruct (ro _) as [a|] eqn:R1; [|discriminate]. cbn in H. destruct (cw2 _ _ _) as [l|] eqn:R2; [|discriminate].
  injection H as <-. cbn. apply ro_some in R1. split; [|apply IH; exact R2].
  apply rnd_close. rewrite R1. f_equal. ring.
Qed.
Lemma cw1_mul : forall n a (x z : rv n), cw1 (Rmult a) x = Some z -> close u z (rvscale a x).
Proof.
  induction n as [|n IH]; intros a x z H; cbn in *; [exact I|].
  destruct (ro _) as [b|] eqn:R1; [|discriminate]. cbn in H. destruct (cw1 _ _) as [l|] eqn:R2; [|discriminate].
  injection H as <-. cbn. apply ro_some in R1. split; [apply rnd_close; exact R1|apply IH; exact R2].
Qed.

Definition ov {n : nat} (x : option (rv n)) : rv n := match x with Some x => x | None => rv0 n end.
Definition oscal (a : option R) : R := match a with Some a => a | None => 0 end.

Definition round_fl (n : nat) : flarith (roundV n) (Rn n) u 0.
Proof.
  refine (@mkfl roundK (roundV n) (Rn n) u 0 oscal (fun x => exists y, x = Some y) ov _ _ _ _ _).
  - intro k. reflexivity.
  - intros [x|] [y H]; cbn in H; [|discriminate]. split; [exists x; reflexivity|reflexivity].
  - intros [x|] [y|] [z H]; cbn in H; try discriminate.
    split; [exists x; reflexivity|]. split; [exists y; reflexivity|].
    cbn [vadd roundV ob2]. rewrite H. cbn [ov]. rewrite Rplus_0_r. apply close_norm; [exact U0|]. apply cw2_add. exact H.
  - intros [x|] [y|] [z H]; cbn in H; try discriminate.
    split; [exists x; reflexivity|]. split; [exists y; reflexivity|].
    cbn [vsub roundV ob2]. rewrite H. cbn [ov]. rewrite Rplus_0_r. apply close_norm; [exact U0|]. apply cw2_sub. exact H.
  - intros [a|] [x|] [z H]; cbn in H; try discriminate.
    split; [exists x; reflexivity|].
    cbn [vscale roundV ob2]. rewrite H. cbn [ov oscal]. rewrite Rplus_0_r. apply close_norm; [exact U0|]. apply cw1_mul. exact H.
Defined.

(** dot products *)
Definition gam (n : nat) : R := (1 + u) ^ (n + 1) - 1.
Fixpoint absdot {n : nat} : rv n -> rv n -> R :=
  match n return rv n -> rv n -> R with
  | O => fun _ _ => 0 | S n => fun x y => Rabs (fst x * fst y) + absdot (snd x) (snd y) end.
Lemma absdot_pos : forall n (x y : rv n), 0 <= absdot x y.
Proof. induction n as [|n IH]; intros x y; cbn; [lra|]. pose proof (Rabs_pos (fst x * fst y)). specialize (IH (snd x) (snd y)). lra. Qed.
Lemma absdot_ge : forall n (x y : rv n), Rabs (rvdot x y) <= absdot x y.
Proof.
  induction n as [|n IH]; intros x y; cbn; [rewrite Rabs_R0; lra|].
  eapply Rle_trans; [apply Rabs_triang|]. specialize (IH (snd x) (snd y)). lra.
Qed.
Fixpoint rvabs {n : nat} : rv n -> rv n :=
  match n return rv n -> rv n with O => fun _ => tt | S n => fun x => (Rabs (fst x), rvabs (snd x)) end.
Lemma absdot_cauchy : forall n (x y : rv n), absdot x y <= @inorm (Rn n) x * @inorm (Rn n) y.
Proof.
  intros n x y.
  assert (Q1 : forall m (x y : rv m), absdot x y = rvdot (rvabs x) (rvabs y)).
  { induction m as [|m IH]; intros; cbn; [reflexivity|]. rewrite Rabs_mult, IH. reflexivity. }
  assert (Q2 : forall m (x : rv m), rvdot (rvabs x) (rvabs x) = rvdot x x).
  { induction m as [|m IH]; intros; cbn; [reflexivity|]. rewrite IH. f_equal. rewrite <- Rabs_mult. apply Rabs_pos_eq. nra. }
  assert (Q3 : forall z : rv n, @inorm (Rn n) (rvabs z) = @inorm (Rn n) z).
  { intro z. unfold inorm. cbn [ip Rn]. rewrite Q2. reflexivity. }
  rewrite Q1, <- (Q3 x), <- (Q3 y). apply (@cauchy_norm (Rn n)).
Qed.
Lemma gam_pos : forall n, 0 <= gam n.
Proof. intro n. unfold gam. pose proof (pow_R1_Rle (1 + u) (n + 1)%nat). lra. Qed.
Lemma gam_S : forall n, gam (S n) = (1 + u) * (1 + gam n) - 1.
Proof. intro n. unfold gam. cbn. ring. Qed.
Lemma fdot_err : forall n (x y : rv n) s, fdot x y = Some s -> Rabs (s - rvdot x y) <= gam n * absdot x y.
Proof.
  induction n as [|n IH]; intros x y s H; cbn in H.
  - injection H as <-. cbn. rewrite Rminus_0_r, Rabs_R0. lra.
  - destruct (ro (fst x * fst y)) as [p|] eqn:R1; [|discriminate]. cbn in H.
    destruct (fdot (snd x) (snd y)) as [t|] eqn:R2; [|discriminate].
    apply ro_some in H. apply ro_some in R1. specialize (IH _ _ _ R2). cbn [rvdot absdot].
    set (a := fst x * fst y) in *. set (T := rvdot (snd x) (snd y)) in *. set (D := absdot (snd x) (snd y)) in *.
    pose proof (RND a) as E1. rewrite <- R1 in E1. pose proof (RND (p + t)) as E2. rewrite <- H in E2.
    pose proof (absdot_ge n (snd x) (snd y)) as E3. fold T D in E3. pose proof (absdot_pos n (snd x) (snd y)) as E4. fold D in E4.
    pose proof (Rabs_pos a) as A0. pose proof (gam_pos n) as G0.
    assert (N1 : Rabs p <= (1 + u) * Rabs a).
    { replace p with (a + (p - a)) by ring. eapply Rle_trans; [apply Rabs_triang|]. lra. }
    assert (N2 : Rabs t <= (1 + gam n) * D).
    { replace t with (T + (t - T)) by ring. eapply Rle_trans; [apply Rabs_triang|]. lra. }
    assert (N3 : Rabs (p + t) <= (1 + u) * Rabs a + (1 + gam n) * D).
    { eapply Rle_trans; [apply Rabs_triang|]. lra. }
    assert (N4 : u * Rabs (p + t) <= u * ((1 + u) * Rabs a + (1 + gam n) * D)) by (apply Rmult_le_compat_l; lra).
    assert (N5 : Rabs (s - (a + T)) <= Rabs (s - (p + t)) + (Rabs (p - a) + Rabs (t - T))).
    { replace (s - (a + T)) with ((s - (p + t)) + ((p - a) + (t - T))) by ring.
      eapply Rle_trans; [apply Rabs_triang|]. apply Rplus_le_compat_l. apply Rabs_triang. }
    assert (GS : u <= gam n).
    { unfold gam. rewrite Nat.add_1_r. cbn. pose proof (pow_R1_Rle (1 + u) n). nra. }
    rewrite gam_S.
    assert (N6 : (u * (1 + u) + u) * Rabs a <= ((1 + u) * (1 + gam n) - 1) * Rabs a) by (apply Rmult_le_compat_r; nra).
    lra.
Qed.
Lemma fdot_low : u < 1 -> forall n (x : rv n) s, fdot x x = Some s -> (1 - u) ^ (n + 1) * rvdot x x <= s.
Proof.
  intros U1. induction n as [|n IH]; intros x s H; cbn in H.
  - injection H as <-. cbn. lra.
  - destruct (ro (fst x * fst x)) as [p|] eqn:R1; [|discriminate]. cbn in H.
    destruct (fdot (snd x) (snd x)) as [t|] eqn:R2; [|discriminate].
    apply ro_some in H. apply ro_some in R1. specialize (IH _ _ R2). cbn [rvdot].
    set (a := fst x * fst x) in *. set (T := rvdot (snd x) (snd x)) in *.
    assert (A0 : 0 <= a) by (unfold a; nra). assert (T0 : 0 <= T) by apply rvdot_pos.
    pose proof (RND a) as E1. rewrite <- R1, (Rabs_pos_eq a A0) in E1. apply abs_le_inv in E1.
    assert (P0 : (1 - u) * a <= p) by lra.
    assert (W0 : 0 < (1 - u) ^ (n + 1)) by (apply pow_lt; lra).
    assert (W1 : (1 - u) ^ (n + 1) <= 1).
    { apply pow_le_1. lra. }
    assert (t0 : 0 <= t) by nra. assert (p0 : 0 <= p) by nra.
    pose proof (RND (p + t)) as E2. rewrite <- H, (Rabs_pos_eq (p + t)) in E2 by lra. apply abs_le_inv in E2.
    cbn [pow Nat.add].
    assert (Q1 : (1 - u) ^ (n + 1) * a <= (1 - u) * a).
    { apply Rmult_le_compat_r; [exact A0|]. rewrite Nat.add_1_r. cbn.
      assert (Z : (1 - u) ^ n <= 1) by (apply pow_le_1; lra).
      assert (0 <= (1 - u) ^ n) by (apply pow_le; lra). nra. }
    assert (Q2 : (1 - u) * ((1 - u) ^ (n + 1) * (a + T)) <= (1 - u) * (p + t)) by (apply Rmult_le_compat_l; lra).
    lra.
Qed.
Lemma low_norm : u < 1 -> forall n (x : rv n) t, ob (fdot x x) osqrt = Some t ->
  0 <= t /\ (1 - u) ^ (n + 2) * @inorm (Rn n) x <= t.
Proof.
  intros U1 n x t H. destruct (fdot x x) as [s|] eqn:D; [|discriminate]. cbn in H. unfold osqrt in H.
  destruct (Rltb s 0) eqn:N; [discriminate|]. apply Rltb_false in N. apply ro_some in H.
  pose proof (fdot_low U1 n x s D) as L. pose proof (RND (sqrt s)) as E1.
  rewrite <- H, (Rabs_pos_eq (sqrt s)) in E1 by apply sqrt_pos. apply abs_le_inv in E1.
  pose proof (sqrt_pos s) as S0.
  set (w := (1 - u) ^ (n + 1)) in *. assert (W0 : 0 < w) by (apply pow_lt; lra).
  assert (W1 : w <= 1) by (unfold w; apply pow_le_1; lra).
  assert (Q : w * @inorm (Rn n) x <= sqrt s).
  { apply Rle_trans with (sqrt (w * rvdot x x)); [|apply sqrt_le_1_alt; exact L].
    rewrite sqrt_mult by (try apply rvdot_pos; lra). apply Rmult_le_compat_r; [apply sqrt_pos|].
    assert (Z : sqrt w * sqrt w = w) by (apply sqrt_sqrt; lra).
    assert (sqrt w <= 1) by (rewrite <- sqrt_1; apply sqrt_le_1_alt; exact W1).
    pose proof (sqrt_pos w). nra. }
  replace ((1 - u) ^ (n + 2)) with ((1 - u) * w) by (unfold w; rewrite (Nat.add_succ_r n 1); reflexivity).
  assert ((1 - u) * (w * @inorm (Rn n) x) <= (1 - u) * sqrt s) by (apply Rmult_le_compat_l; lra).
  assert (0 <= (1 - u) * sqrt s) by (apply Rmult_le_pos; lra). lra.
Qed.

(** matrices *)
Lemma mv_lin : forall m n (M : mt m n), @lin (Rn n) (Rn m) (mv M).
Proof.
  intros m n M. constructor.
  - intros x y. induction m as [|m IH]; cbn; [reflexivity|]. f_equal; [apply rvdot_add|apply IH].
  - intros a x. induction m as [|m IH]; cbn; [reflexivity|]. f_equal; [apply rvdot_scale|apply IH].
Qed.
Definition fro {m n : nat} (M : mt m n) : R := sqrt (fro2 M).
Lemma fro2_pos : forall m n (M : mt m n), 0 <= fro2 M.
Proof. induction m as [|m IH]; intros n M; cbn; [lra|]. pose proof (rvdot_pos n (fst M)). specialize (IH n (snd M)). lra. Qed.
Lemma mv_bound : forall m n (M : mt m n) x, @inorm (Rn m) (mv M x) <= fro M * @inorm (Rn n) x.
Proof.
  intros m n M x. unfold fro, inorm. rewrite <- sqrt_mult by (try apply fro2_pos; apply (ip_pos (i := Rn n))).
  apply sqrt_le_1_alt. cbn [ip Rn]. induction m as [|m IH]; cbn; [rewrite Rmult_0_l; lra|].
  specialize (IH (snd M)). pose proof (@cauchy (Rn n) (fst M) x) as C. cbn [ip Rn] in C. lra.
Qed.
Lemma fmv_err : forall m n (M : mt m n) x y, fmv M x = Some y ->
  @inorm (Rn m) (@isub (Rn m) y (mv M x)) <= gam n * fro M * @inorm (Rn n) x.
Proof.
  intros m n M x y H. set (X := @inorm (Rn n) x).
  assert (X0 : 0 <= X) by apply inorm_pos. assert (G0 := gam_pos n).
  assert (Q : @ip (Rn m) (@isub (Rn m) y (mv M x)) (@isub (Rn m) y (mv M x)) <= (gam n * X) * (gam n * X) * fro2 M).
  { revert y H. induction m as [|m IH]; intros y H; cbn in H |- *; [lra|].
    destruct (fdot (fst M) x) as [a|] eqn:R1; [|discriminate]. cbn in H.
    destruct (fmv (snd M) x) as [l|] eqn:R2; [|discriminate]. injection H as <-. cbn.
    specialize (IH (snd M) l R2). pose proof (fdot_err n (fst M) x a R1) as E1.
    pose proof (absdot_cauchy n (fst M) x) as E2. fold X in E2.
    assert (E3 : Rabs (a + -1 * rvdot (fst M) x) <= (gam n * X) * Rabs (@inorm (Rn n) (fst M))).
    { rewrite (Rabs_pos_eq (inorm _)) by apply inorm_pos.
      replace (a + -1 * rvdot (fst M) x) with (a - rvdot (fst M) x) by ring.
      eapply Rle_trans; [exact E1|]. rewrite Rmult_assoc. apply Rmult_le_compat_l; [exact G0|]. lra. }
    apply abs_sqr in E3; [|apply Rmult_le_pos; assumption]. rewrite inorm_sq in E3. cbn [ip Rn] in E3.
    unfold isub, ineg in IH. cbn in IH. lra. }
  unfold inorm at 1, fro. replace (gam n * sqrt (fro2 M) * X) with (sqrt (((gam n * X) * (gam n * X)) * fro2 M)).
  - apply sqrt_le_1_alt. exact Q.
  - rewrite sqrt_mult by (try apply fro2_pos; apply Rmult_le_pos; apply Rmult_le_pos; assumption).
    rewrite sqrt_square by (apply Rmult_le_pos; assumption). ring.
Qed.
End Round.
