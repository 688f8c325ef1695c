(** * Gradings of real and of rounded arithmetic (see Grade.v). *)
From Coq Require Import List ZArith QArith Qreals Reals Bool Lia Lra.
From Verif Require Import Base Num ToolsModel CgModel Grade.
Import ListNotations.
Local Open Scope R_scope.

(** ** Real arithmetic, any c > 0.  Division and square root must be homogeneous: true of the mathematical functions
    with any of the usual conventions for 1/0 and the root of a negative number. *)
Definition dv_hom (dv : R -> R -> R) : Prop := forall s a b, 0 < s -> dv (s * a) b = s * dv a b /\ dv a (s * b) = / s * dv a b.
Definition sq_hom (sq : R -> R) : Prop := forall s a, 0 < s -> sq (s * s * a) = s * sq a.
Lemma Rdiv_hom : dv_hom Rdiv.
Proof. intros s a b S. unfold Rdiv. split; [ring|]. rewrite Rinv_mult. ring. Qed.
Lemma sqrt_hom : sq_hom sqrt.
Proof.
  intros s a S. rewrite sqrt_mult_alt by nra. rewrite sqrt_square by lra. reflexivity.
Qed.

Section Pow.
Variable c : R.
Hypothesis C0 : 0 < c.
Definition pw (k : Z) : R := powerRZ c k.
Arguments pw _ : simpl never.
Lemma pw_pos : forall k, 0 < pw k.
Proof. intro k. apply powerRZ_lt, C0. Qed.
Lemma pw_0 : pw 0 = 1.
Proof. reflexivity. Qed.
Lemma pw_1 : pw 1 = c.
Proof. apply powerRZ_1. Qed.
Lemma pw_add : forall j k, pw (j + k) = pw j * pw k.
Proof. intros. apply powerRZ_add. lra. Qed.
Lemma pw_sub : forall j k, pw (j - k) = pw j * / pw k.
Proof.
  intros j k. pose proof (pw_pos k). replace (pw j) with (pw (j - k) * pw k) by (rewrite <- pw_add; f_equal; lia). field. lra.
Qed.
Lemma pw_dbl : forall k, pw (2 * k) = pw k * pw k.
Proof. intros. rewrite <- pw_add. f_equal. lia. Qed.

Lemma ltb_sc : forall s a b, 0 < s -> Rltb (s * a) (s * b) = Rltb a b.
Proof.
  intros s a b S. destruct (Rltb a b) eqn:E.
  - apply Rltb_true in E. apply Rltb_true. nra.
  - apply Rltb_false in E. apply Rltb_false. nra.
Qed.
Lemma leb_sc : forall s a b, 0 < s -> Rleb (s * a) (s * b) = Rleb a b.
Proof.
  intros s a b S. destruct (Rleb a b) eqn:E.
  - apply Rleb_true in E. apply Rleb_true. nra.
  - apply Rleb_false in E. apply Rleb_false. nra.
Qed.
Lemma eqb_sc : forall s a b, 0 < s -> Reqb (s * a) (s * b) = Reqb a b.
Proof.
  intros s a b S. destruct (Reqb a b) eqn:E.
  - apply Reqb_true in E. apply Reqb_true. rewrite E. reflexivity.
  - apply Reqb_false in E. apply Reqb_false. nra.
Qed.
Lemma abs_sc : forall s a, 0 < s -> Rabs (s * a) = s * Rabs a.
Proof. intros s a S. rewrite Rabs_mult, (Rabs_pos_eq s) by lra. reflexivity. Qed.

Section Real.
Variables (dv : R -> R -> R) (sq : R -> R).
Hypothesis DV : dv_hom dv.
Hypothesis SQ : sq_hom sq.
Definition realG : grade (exactK dv sq).
Proof.
  refine (mkgrade (exactK dv sq) (fun k (a : R) => pw k * a : sc (exactK dv sq)) _ _ _ _ _ _ _ _ _ _ _ _ _ _); cbn; intros.
  - rewrite pw_0. ring.
  - ring.
  - ring.
  - ring.
  - rewrite pw_add. ring.
  - destruct (DV (pw j) a (pw k * b) (pw_pos j)) as [-> _]. destruct (DV (pw k) a b (pw_pos k)) as [_ ->]. rewrite pw_sub. ring.
  - ring.
  - apply abs_sc, pw_pos.
  - reflexivity.
  - ring.
  - match goal with |- context [pw ?t] => replace (pw t) with (pw k * pw k) by (rewrite <- pw_dbl; f_equal; lia) end. apply SQ, pw_pos.
  - apply ltb_sc, pw_pos.
  - apply leb_sc, pw_pos.
  - apply eqb_sc, pw_pos.
Defined.

(** Vectors of any inner product space whose vectors have one length. *)
Variable E : IPS.
Hypothesis EL : forall u v : iv E, ilen u = ilen v.
Definition realV : vgrade realG (exactV dv sq E).
Proof.
  refine (mkvgrade _ realG (exactV dv sq E) (fun k (v : iv E) => iscale (pw k) v : vc (exactV dv sq E)) _ _ _ _ _ _ _ _ _ _); cbn; intros.
  - rewrite pw_0. veq.
  - apply EL.
  - veq.
  - veq.
  - veq.
  - veq.
  - rewrite pw_add. veq.
  - destruct (DV (pw j) 1 a (pw_pos j)) as [_ ->]. rewrite pw_sub. veq.
  - ipx. rewrite pw_add. ring.
  - rewrite inorm_scale, Rabs_pos_eq; [reflexivity|]. left. apply pw_pos.
Defined.
End Real.

(** ** Rounded arithmetic with unbounded exponents: a rounding that commutes with the multiplication by c, for instance to the
    nearest number of p binary digits with c a power of 2.  [None] stands for a value that is not finite, a vector is [None] if one
    of its entries is; comparisons with it are false.  No overflow and no underflow. *)
Section Rounded.
Variable rnd : R -> R.
Hypothesis RH : forall k a, rnd (pw k * a) = pw k * rnd a.
Definition obd {A B} (o : option A) (f : A -> option B) : option B := match o with Some a => f a | None => None end.
Definition obd2 {A B C} (f : A -> B -> option C) (a : option A) (b : option B) : option C :=
  match a, b with Some a, Some b => f a b | _, _ => None end.
Definition ocm (f : R -> R -> bool) (a b : option R) : bool := match a, b with Some a, Some b => f a b | _, _ => false end.
Definition rdiv (a b : R) : option R := if Reqb b 0 then None else Some (rnd (a / b)).
Definition rsqrt (a : R) : option R := if Rltb a 0 then None else Some (rnd (sqrt a)).
Definition rndK : Scal :=
  mkScal (option R) (Some 0) (Some 1) (fun q => Some (rnd (Q2R q)))
    (obd2 (fun a b => Some (rnd (a + b)))) (obd2 (fun a b => Some (rnd (a - b)))) (obd2 (fun a b => Some (rnd (a * b))))
    (obd2 rdiv) (option_map Ropp) (fun a => obd a rsqrt) (option_map Rabs) (fun a => a) (fun _ => Some 0)
    (ocm Rltb) (ocm Rleb) (ocm Reqb).
(** componentwise operations; dot products with rounded terms, summed one after the other *)
Fixpoint r2 {n : nat} (f : R -> R -> R) : rv n -> rv n -> rv n :=
  match n return rv n -> rv n -> rv n with O => fun _ _ => tt | S n => fun x y => (rnd (f (fst x) (fst y)), r2 f (snd x) (snd y)) end.
Fixpoint r1 {n : nat} (f : R -> R) : rv n -> rv n :=
  match n return rv n -> rv n with O => fun _ => tt | S n => fun x => (rnd (f (fst x)), r1 f (snd x)) end.
Fixpoint rdot {n : nat} : rv n -> rv n -> R :=
  match n return rv n -> rv n -> R with O => fun _ _ => 0 | S n => fun x y => rnd (rnd (fst x * fst y) + rdot (snd x) (snd y)) end.
Definition rndV (n : nat) : Vs rndK :=
  mkVs rndK (option (rv n)) (fun _ => n) (fun _ => Some (rv0 n))
    (obd2 (fun x y => Some (r2 Rplus x y))) (obd2 (fun x y => Some (r2 Rminus x y))) (option_map (rvscale (-1)))
    (obd2 (fun a x => Some (r1 (Rmult a) x)))
    (fun x a => obd2 (fun x a => if Reqb a 0 then None else Some (r1 (fun z => z / a) x)) x a)
    (obd2 (fun x y => Some (rdot x y))) (fun x => obd x (fun x => rsqrt (rdot x x))).
(** Rounded products with a matrix, rows first. *)
Fixpoint rmat (m n : nat) : Type := match m with O => unit | S m => (rv n * rmat m n)%type end.
Fixpoint rmv {m n : nat} : rmat m n -> rv n -> rv m :=
  match m return rmat m n -> rv n -> rv m with O => fun _ _ => tt | S m => fun M x => (rdot (fst M) x, rmv (snd M) x) end.
Definition rop {m n : nat} (M : rmat m n) (x : vc (rndV n)) : vc (rndV m) := option_map (rmv M) (x : option (rv n)).

Lemma div_sc : forall j k a b, rdiv (pw j * a) (pw k * b) = option_map (fun z => pw (j - k) * z) (rdiv a b).
Proof.
  intros. unfold rdiv. pose proof (pw_pos k). replace 0 with (pw k * 0) at 1 by ring. rewrite eqb_sc by apply pw_pos.
  destruct (Reqb b 0) eqn:B; [reflexivity|]. apply Reqb_false in B. cbn. f_equal. rewrite <- RH. f_equal. rewrite pw_sub. field. lra.
Qed.
Lemma sqrt_sc : forall k a, rsqrt (pw (2 * k) * a) = option_map (fun z => pw k * z) (rsqrt a).
Proof.
  intros. unfold rsqrt. replace 0 with (pw (2 * k) * 0) at 1 by ring. rewrite ltb_sc by apply pw_pos.
  destruct (Rltb a 0); [reflexivity|]. cbn [option_map]. f_equal. rewrite <- RH, pw_dbl. f_equal. apply sqrt_hom, pw_pos.
Qed.
Definition rndG : grade rndK.
Proof.
  refine (mkgrade rndK (fun k (a : option R) => option_map (fun z => pw k * z) a : sc rndK) _ _ _ _ _ _ _ _ _ _ _ _ _ _).
  - intros [a|]; cbn; [|reflexivity]. f_equal. rewrite pw_0. ring.
  - intro k. cbn. f_equal. ring.
  - intros k [a|] [b|]; cbn; try reflexivity. f_equal. rewrite <- RH. f_equal. ring.
  - intros k [a|] [b|]; cbn; try reflexivity. f_equal. rewrite <- RH. f_equal. ring.
  - intros j k [a|] [b|]; cbn; try reflexivity. f_equal. rewrite <- RH, pw_add. f_equal. ring.
  - intros j k [a|] [b|]; cbn; try reflexivity. apply div_sc.
  - intros k [a|]; cbn; [|reflexivity]. f_equal. ring.
  - intros k [a|]; cbn; [|reflexivity]. f_equal. apply abs_sc, pw_pos.
  - reflexivity.
  - intros k a. cbn. f_equal. ring.
  - intros k [a|]; [|reflexivity]. apply sqrt_sc.
  - intros k [a|] [b|]; try reflexivity. apply ltb_sc, pw_pos.
  - intros k [a|] [b|]; try reflexivity. apply leb_sc, pw_pos.
  - intros k [a|] [b|]; try reflexivity. apply eqb_sc, pw_pos.
Defined.

Lemma r2_add : forall k n (x y : rv n), r2 Rplus (rvscale (pw k) x) (rvscale (pw k) y) = rvscale (pw k) (r2 Rplus x y).
Proof. intros k n. induction n as [|n IH]; intros x y; cbn; [reflexivity|]. rewrite IH, <- RH. f_equal. f_equal. ring. Qed.
Lemma r2_sub : forall k n (x y : rv n), r2 Rminus (rvscale (pw k) x) (rvscale (pw k) y) = rvscale (pw k) (r2 Rminus x y).
Proof. intros k n. induction n as [|n IH]; intros x y; cbn; [reflexivity|]. rewrite IH, <- RH. f_equal. f_equal. ring. Qed.
Lemma r1_mul : forall j k n a (x : rv n), r1 (Rmult (pw j * a)) (rvscale (pw k) x) = rvscale (pw (j + k)) (r1 (Rmult a) x).
Proof. intros j k n a. induction n as [|n IH]; intros x; cbn; [reflexivity|]. rewrite IH, <- RH, pw_add. f_equal. f_equal. ring. Qed.
Lemma r1_div : forall j k n a (x : rv n), a <> 0 ->
  r1 (fun z => z / (pw j * a)) (rvscale (pw k) x) = rvscale (pw (k - j)) (r1 (fun z => z / a) x).
Proof.
  intros j k n a x A. pose proof (pw_pos j). induction n as [|n IH]; cbn; [reflexivity|]. rewrite IH, <- RH, pw_sub. f_equal. f_equal. field. lra.
Qed.
Lemma rdot_sc : forall j k n (x y : rv n), rdot (rvscale (pw j) x) (rvscale (pw k) y) = pw (j + k) * rdot x y.
Proof.
  intros j k n. induction n as [|n IH]; intros x y; cbn; [ring|]. rewrite IH, <- RH. f_equal.
  replace (pw j * fst x * (pw k * fst y)) with (pw (j + k) * (fst x * fst y)) by (rewrite pw_add; ring). rewrite RH. ring.
Qed.
Lemma rvs_id : forall n (x : rv n), rvscale 1 x = x.
Proof. induction n as [|n IH]; intros x; cbn; [destruct x; reflexivity|]. rewrite IH, Rmult_1_l. destruct x; reflexivity. Qed.
Lemma rvs_0 : forall n a, rvscale a (rv0 n) = rv0 n.
Proof. induction n as [|n IH]; intros a; cbn; [reflexivity|]. rewrite IH, Rmult_0_r. reflexivity. Qed.
Lemma rvs_com : forall n a b (x : rv n), rvscale a (rvscale b x) = rvscale b (rvscale a x).
Proof. induction n as [|n IH]; intros a b x; cbn; [reflexivity|]. rewrite IH. f_equal. ring. Qed.
Definition rndVG (n : nat) : vgrade rndG (rndV n).
Proof.
  refine (mkvgrade _ rndG (rndV n) (fun k (v : option (rv n)) => option_map (rvscale (pw k)) v : vc (rndV n)) _ _ _ _ _ _ _ _ _ _).
  - intros [v|]; cbn; [|reflexivity]. rewrite pw_0, rvs_id. reflexivity.
  - reflexivity.
  - intros k l. cbn. rewrite rvs_0. reflexivity.
  - intros k [u|] [v|]; cbn; try reflexivity. rewrite r2_add. reflexivity.
  - intros k [u|] [v|]; cbn; try reflexivity. rewrite r2_sub. reflexivity.
  - intros k [u|]; cbn; [|reflexivity]. rewrite rvs_com. reflexivity.
  - intros j k [a|] [u|]; cbn; try reflexivity. rewrite r1_mul. reflexivity.
  - intros j k [a|] [u|]; cbn; try reflexivity. replace 0 with (pw j * 0) at 1 by ring. rewrite eqb_sc by apply pw_pos.
    destruct (Reqb a 0) eqn:A; [reflexivity|]. apply Reqb_false in A. cbn. rewrite r1_div by exact A. reflexivity.
  - intros j k [u|] [v|]; cbn; try reflexivity. rewrite rdot_sc. reflexivity.
  - intros k [u|]; [|reflexivity]. change (rsqrt (rdot (rvscale (pw k) u) (rvscale (pw k) u)) = option_map (fun z => pw k * z) (rsqrt (rdot u u))).
    rewrite rdot_sc. replace (k + k)%Z with (2 * k)%Z by lia. apply sqrt_sc.
Defined.
Lemma rmv_sc : forall k m n (M : rmat m n) x, rmv M (rvscale (pw k) x) = rvscale (pw k) (rmv M x).
Proof.
  intros k m n M. induction m as [|m IH]; intros x; cbn; [reflexivity|]. rewrite IH. f_equal.
  transitivity (rdot (rvscale (pw 0) (fst M)) (rvscale (pw k) x)); [rewrite pw_0, rvs_id; reflexivity|apply rdot_sc].
Qed.
Lemma rop_hom : forall m n (M : rmat m n), homog (rndVG n) (rndVG m) (rop M).
Proof. intros m n M k [x|]; cbn; [|reflexivity]. rewrite rmv_sc. reflexivity. Qed.
End Rounded.
End Pow.

(** Linear maps are homogeneous. *)
Lemma lin_hom : forall c (C0 : 0 < c) dv sq (DV : dv_hom dv) (SQ : sq_hom sq) E F EL FL (A : iv E -> iv F), lin A ->
  homog (realV c C0 dv sq DV SQ E EL) (realV c C0 dv sq DV SQ F FL) A.
Proof. intros c C0 dv sq DV SQ E F EL FL A L k v. cbn. apply (lin_scale A L). Qed.

(** ** Rounding to the nearest number of p+1 binary digits, and scaling by a power of two. *)
Definition lg (x : R) : Z := Int_part (ln (Rabs x) / ln 2).
Definition near (p : Z) (x : R) : R :=
  if Req_EM_T x 0 then 0 else powerRZ 2 (lg x - p) * IZR (Int_part (x / powerRZ 2 (lg x - p) + / 2)).
Lemma Int_part_shift : forall r k, Int_part (r + IZR k) = (Int_part r + k)%Z.
Proof.
  intros r k. unfold Int_part. assert (U : (up (r + IZR k) = up r + k)%Z); [|lia]. symmetry. apply tech_up.
  - rewrite plus_IZR. destruct (archimed r). lra.
  - rewrite plus_IZR. destruct (archimed r). lra.
Qed.
Lemma ln_pow2 : forall k, ln (powerRZ 2 k) = IZR k * ln 2.
Proof.
  assert (N : forall n : nat, ln (2 ^ n) = IZR (Z.of_nat n) * ln 2).
  { induction n as [|n IH]; [cbn; rewrite ln_1; ring|]. cbn [pow]. rewrite ln_mult by (try apply pow_lt; lra). rewrite IH.
    rewrite Nat2Z.inj_succ, <- Z.add_1_r, plus_IZR. ring. }
  intro k. destruct k as [|p|p]; cbn [powerRZ].
  - rewrite ln_1. ring.
  - rewrite N, positive_nat_Z. reflexivity.
  - rewrite ln_Rinv by (apply pow_lt; lra). rewrite N, positive_nat_Z, <- Pos2Z.opp_pos, opp_IZR. ring.
Qed.
Lemma ln2_pos : 0 < ln 2.
Proof. rewrite <- ln_1. apply ln_increasing; lra. Qed.
Lemma lg_shift : forall k x, x <> 0 -> lg (powerRZ 2 k * x) = (lg x + k)%Z.
Proof.
  intros k x X. unfold lg. assert (P : 0 < powerRZ 2 k) by (apply powerRZ_lt; lra). pose proof ln2_pos.
  rewrite Rabs_mult, (Rabs_pos_eq (powerRZ 2 k)) by lra. rewrite ln_mult by (try apply Rabs_pos_lt; assumption).
  rewrite ln_pow2. replace ((IZR k * ln 2 + ln (Rabs x)) / ln 2) with (ln (Rabs x) / ln 2 + IZR k) by (field; lra). apply Int_part_shift.
Qed.
Lemma near_shift : forall p k x, near p (powerRZ 2 k * x) = powerRZ 2 k * near p x.
Proof.
  intros p k x. unfold near. assert (P : forall j, 0 < powerRZ 2 j) by (intro; apply powerRZ_lt; lra). pose proof (P k).
  destruct (Req_EM_T (powerRZ 2 k * x) 0) as [Z|Z], (Req_EM_T x 0) as [X|X]; try ring.
  - apply Rmult_integral in Z. destruct Z; [lra|contradiction].
  - subst x. rewrite Rmult_0_r in Z. contradiction.
  - rewrite lg_shift by exact X. replace (lg x + k - p)%Z with (k + (lg x - p))%Z by lia. rewrite powerRZ_add by lra.
    set (t := powerRZ 2 (lg x - p)). assert (0 < t) by apply P.
    replace (powerRZ 2 k * x / (powerRZ 2 k * t)) with (x / t) by (field; lra). ring.
Qed.
