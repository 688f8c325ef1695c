(** C110 continued: the products of pykrylov/gallery/gallery.py:3-29 with rounding errors, and CG (cg.py:46-165) on such products. *)
From Coq Require Import List ZArith QArith Qreals Reals Lia Lra Psatz Bool.
From Verif Require Import Base Num ToolsModel CgModel CgProof PropCg Gallery PropTools ClientReal FlArith FlRound PropFloat PropPoisson.
Import ListNotations.
Local Open Scope R_scope.

(** ** The row sums of the absolute values. *)
Definition W1 (n : nat) (f : nat -> R) (i : nat) : R :=
  2 * Rabs (f i) + Rabs (if (1 <=? i)%nat then f (i - 1)%nat else 0) + Rabs (if (i + 1 <? n)%nat then f (i + 1)%nat else 0).
Definition W2 (n : nat) (f : nat -> nat -> R) (r c : nat) : R := W1 n (fun r => f r c) r + W1 n (fun c => f r c) c.
Lemma abs_sq : forall a, Rabs a * Rabs a = a * a.
Proof. intro a. rewrite <- Rabs_mult. apply Rabs_pos_eq. apply Rle_0_sqr. Qed.
Lemma W1_pos : forall n f i, 0 <= W1 n f i.
Proof. intros. unfold W1. repeat apply Rplus_le_le_0_compat; try apply Rmult_le_pos; try apply Rabs_pos; lra. Qed.
Lemma W1_sq : forall n f i, W1 n f i * W1 n f i <= 4 * (4 * (f i * f i) - L1 n (fun i => f i * f i) i).
Proof.
  intros n f i. unfold W1, L1. set (a := f i). set (b := if (1 <=? i)%nat then f (i - 1)%nat else 0). set (c := if (i + 1 <? n)%nat then f (i + 1)%nat else 0).
  replace (if (1 <=? i)%nat then f (i - 1)%nat * f (i - 1)%nat else 0) with (b * b) by (unfold b; destruct (1 <=? i)%nat; ring).
  replace (if (i + 1 <? n)%nat then f (i + 1)%nat * f (i + 1)%nat else 0) with (c * c) by (unfold c; destruct (i + 1 <? n)%nat; ring).
  rewrite <- (abs_sq a), <- (abs_sq b), <- (abs_sq c). set (x := Rabs a). set (y := Rabs b). set (z := Rabs c).
  pose proof (Rle_0_sqr (x - y)). pose proof (Rle_0_sqr (x - z)). pose proof (Rle_0_sqr (y - z)). unfold Rsqr in *. nra.
Qed.
Lemma L1_one : forall n i, 0 <= L1 n (fun _ => 1) i.
Proof. intros. unfold L1. destruct (1 <=? i)%nat, (i + 1 <? n)%nat; lra. Qed.
Lemma L1_sum : forall n g, (forall i, (i < n)%nat -> 0 <= g i) -> 0 <= sumn n (fun i => L1 n g i).
Proof.
  intros n g H. rewrite (sumn_ext n _ (fun i => 1 * L1 n g i)) by (intros; ring). rewrite (form1_sym n (fun _ => 1) g).
  apply sumn_nonneg. intros i Hi. apply Rmult_le_pos; [apply L1_one|apply H; exact Hi].
Qed.
Lemma sumn_minus : forall n f g, sumn n (fun i => f i - g i) = sumn n f - sumn n g.
Proof. induction n as [|n IH]; intros f g; cbn [sumn]; [ring|]. rewrite IH. ring. Qed.
Lemma W1_sum : forall n f, sumn n (fun i => W1 n f i * W1 n f i) <= 4 * 4 * sumn n (fun i => f i * f i).
Proof.
  intros n f. eapply Rle_trans; [apply sumn_le; intros i _; apply W1_sq|]. rewrite sumn_scale, sumn_minus, sumn_scale.
  pose proof (L1_sum n (fun i => f i * f i) ltac:(intros; apply Rle_0_sqr)) as P. change (0 <= sumn n (L1 n (fun i => f i * f i))) in P. lra.
Qed.
Lemma W2_sum : forall n f, sumn n (fun r => sumn n (fun c => W2 n f r c * W2 n f r c)) <= 8 * 8 * sumn n (fun r => sumn n (fun c => f r c * f r c)).
Proof.
  intros n f. set (S2 := sumn n (fun r => sumn n (fun c => f r c * f r c))).
  apply Rle_trans with (2 * sumn n (fun r => sumn n (fun c => W1 n (fun r => f r c) r * W1 n (fun r => f r c) r)) +
    2 * sumn n (fun r => sumn n (fun c => W1 n (fun c => f r c) c * W1 n (fun c => f r c) c))).
  - rewrite <- !sumn_scale, <- sumn_plus. apply sumn_le. intros r _. rewrite <- !sumn_scale, <- sumn_plus. apply sumn_le. intros c _. unfold W2.
    set (a := W1 n (fun r => f r c) r). set (b := W1 n (fun c => f r c) c). pose proof (Rle_0_sqr (a - b)). unfold Rsqr in *. nra.
  - assert (A : sumn n (fun r => sumn n (fun c => W1 n (fun r => f r c) r * W1 n (fun r => f r c) r)) <= 16 * S2).
    { rewrite sumn_swap. unfold S2. rewrite (sumn_swap n n (fun r c => f r c * f r c)). rewrite <- sumn_scale. apply sumn_le. intros c _.
      pose proof (W1_sum n (fun r => f r c)). lra. }
    assert (B : sumn n (fun r => sumn n (fun c => W1 n (fun c => f r c) c * W1 n (fun c => f r c) c)) <= 16 * S2).
    { unfold S2. rewrite <- sumn_scale. apply sumn_le. intros r _. pose proof (W1_sum n (fun c => f r c)). lra. }
    lra.
Qed.
Lemma L1_abs : forall n f i, Rabs (L1 n f i) <= W1 n f i.
Proof.
  intros n f i. unfold L1, W1. set (b := if (1 <=? i)%nat then f (i - 1)%nat else 0). set (c := if (i + 1 <? n)%nat then f (i + 1)%nat else 0).
  replace (2 * f i - b - c) with (2 * f i + (- b + - c)) by ring. eapply Rle_trans; [apply Rabs_triang|].
  rewrite Rabs_mult, (Rabs_pos_eq 2) by lra. pose proof (Rabs_triang (- b) (- c)). rewrite !Rabs_Ropp in *. lra.
Qed.
Lemma L2_abs : forall n f r c, Rabs (L2 n f r c) <= W2 n f r c.
Proof.
  intros. unfold L2, W2. eapply Rle_trans; [apply Rabs_triang|]. pose proof (L1_abs n (fun r => f r c) r). pose proof (L1_abs n (fun c => f r c) c). lra.
Qed.

(** ** Rounded subtractions one after the other. *)
Section Round.
Variables (rnd : R -> R) (Om u : R).
Hypothesis U0 : 0 <= u.
Hypothesis RND : forall x, Rabs (rnd x - x) <= u * Rabs x.
Notation K := (roundK rnd Om).
Notation g k := ((1 + u) ^ k - 1).
Definition near (k : nat) (z : option R) (a B : R) : Prop := Rabs a <= B /\ forall v, z = Some v -> Rabs (v - a) <= g k * B.
Lemma g_pos : forall k, 0 <= g k.
Proof. intro k. pose proof (pow_R1_Rle (1 + u) k ltac:(lra)). lra. Qed.
Lemma near_sub : forall k z a B b, near k z a B -> near (S k) (@ssub K z (Some b)) (a - b) (B + Rabs b).
Proof.
  intros k z a B b [H1 H2]. split; [unfold Rminus; eapply Rle_trans; [apply Rabs_triang|]; rewrite Rabs_Ropp; lra|].
  intros v E. destruct z as [z|]; [|discriminate]. cbn in E. apply ro_some in E. subst v. specialize (H2 z eq_refl).
  pose proof (RND (z - b)) as Q. pose proof (g_pos k) as G. set (e := g k) in *.
  replace (g (S k)) with (e + u * (1 + e)) by (unfold e; cbn [pow]; ring).
  assert (Z : Rabs (z - b) <= (1 + e) * (B + Rabs b)).
  { replace (z - b) with ((z - a) + (a + - b)) by ring. eapply Rle_trans; [apply Rabs_triang|].
    pose proof (Rabs_triang a (- b)) as T. rewrite Rabs_Ropp in T. pose proof (Rabs_pos b). nra. }
  replace (rnd (z - b) - (a - b)) with ((rnd (z - b) - (z - b)) + (z - a)) by ring. eapply Rle_trans; [apply Rabs_triang|].
  assert (u * Rabs (z - b) <= u * ((1 + e) * (B + Rabs b))) by (apply Rmult_le_compat_l; assumption).
  pose proof (Rabs_pos b). assert (0 <= e * Rabs b) by (apply Rmult_le_pos; assumption). nra.
Qed.
Lemma near_skip : forall k z a B, near k z a B -> near (S k) z (a - 0) (B + Rabs 0).
Proof.
  intros k z a B [H1 H2]. rewrite Rabs_R0, Rplus_0_r, Rminus_0_r. split; [exact H1|]. intros v E. eapply Rle_trans; [apply H2; exact E|].
  apply Rmult_le_compat_r; [pose proof (Rabs_pos a); lra|]. cbn [pow]. pose proof (g_pos k). nra.
Qed.
Lemma near_if : forall k z a B (t : bool) b, near k z a B -> near (S k) (if t then @ssub K z (Some b) else z) (a - (if t then b else 0)) (B + Rabs (if t then b else 0)).
Proof. intros k z a B [|] b H; [apply near_sub|apply near_skip]; exact H. Qed.
Lemma near_mul : forall c x, 0 <= Q2R c -> near 2 (@smul K (slit c) (Some x)) (Q2R c * x) (Q2R c * Rabs x).
Proof.
  intros c x C0. split; [rewrite Rabs_mult, (Rabs_pos_eq (Q2R c)) by exact C0; lra|]. intros v E. cbn in E.
  destruct (ro rnd Om (Q2R c)) as [d|] eqn:D; [|discriminate]. cbn in E. apply ro_some in D, E. subst d v.
  pose proof (RND (Q2R c)) as Q1. rewrite (Rabs_pos_eq (Q2R c)) in Q1 by exact C0. set (d := rnd (Q2R c)) in *. pose proof (RND (d * x)) as Q2.
  rewrite Rabs_mult in Q2. assert (DB : Rabs d <= (1 + u) * Q2R c).
  { replace d with ((d - Q2R c) + Q2R c) by ring. eapply Rle_trans; [apply Rabs_triang|]. rewrite (Rabs_pos_eq (Q2R c)) by exact C0. lra. }
  replace (rnd (d * x) - Q2R c * x) with ((rnd (d * x) - d * x) + (d - Q2R c) * x) by ring. eapply Rle_trans; [apply Rabs_triang|]. rewrite (Rabs_mult (d - Q2R c)).
  pose proof (Rabs_pos x) as X0.
  assert (u * (Rabs d * Rabs x) <= u * ((1 + u) * Q2R c * Rabs x)) by (apply Rmult_le_compat_l; [exact U0|apply Rmult_le_compat_r; assumption]).
  assert (Rabs (d - Q2R c) * Rabs x <= u * Q2R c * Rabs x) by (apply Rmult_le_compat_r; assumption). cbn [pow]. lra.
Qed.
Lemma nth_some : forall (l : list R) i, nth i (map (@Some R) l) (Some 0) = Some (nth i l 0).
Proof. intros. apply (map_nth (@Some R)). Qed.

(** Every finite entry has a relative error, with respect to the sum of the absolute values of its terms, of four (six) roundings. *)
Theorem C110_rounded1 : forall x : list R, (1 <= length x)%nat ->
  exists y : list (option R), @poisson1d K (map Some x) = Ok y /\ length y = length x /\
    forall i v, (i < length x)%nat -> nth i y None = Some v ->
      Rabs (v - L1 (length x) (fun i => nth i x 0) i) <= ((1 + u) ^ 4 - 1) * W1 (length x) (fun i => nth i x 0) i.
Proof.
  intros x H. destruct (@poisson1d_entries K (Some 0) (map Some x)) as (y & E & L & N); [rewrite map_length; exact H|].
  rewrite map_length in *. exists y. split; [exact E|]. split; [exact L|]. intros i v Hi V. specialize (N i Hi). cbv zeta in N.
  rewrite (nth_indep y None (Some 0)) in V by (rewrite L; exact Hi). setoid_rewrite N in V. clear N. rewrite !nth_some in V.
  pose proof (near_if 3 _ _ _ (1 <=? i)%nat (nth (i - 1) x 0) (near_if 2 _ _ _ (i + 1 <? length x)%nat (nth (i + 1) x 0)
    (near_mul 2 (nth i x 0) ltac:(unfold Q2R; cbn; lra)))) as [_ T].
  specialize (T v V). replace (Q2R 2) with 2 in T by (unfold Q2R; cbn; lra). unfold L1, W1. cbn beta.
  eapply Rle_trans; [|eapply Rle_trans; [exact T|]]; [right; f_equal; ring|right; ring].
Qed.
Theorem C110_rounded2 : forall n (x : list R), (1 <= n)%nat -> length x = (n * n)%nat ->
  let f r c := nth (r * n + c) x 0 in
  exists y : list (option R), @poisson2d K (map Some x) = Ok y /\ length y = (n * n)%nat /\
    forall r c v, (r < n)%nat -> (c < n)%nat -> nth (r * n + c) y None = Some v ->
      Rabs (v - L2 n f r c) <= ((1 + u) ^ 6 - 1) * W2 n f r c.
Proof.
  intros n x Hn Lx f. destruct (@poisson2d_entries K (Some 0) n (map Some x) Hn) as (y & E & L & N); [rewrite map_length; exact Lx|].
  exists y. split; [exact E|]. split; [exact L|]. intros r c v Hr Hc V. specialize (N r c Hr Hc). cbv zeta in N.
  rewrite (nth_indep y None (Some 0)) in V by (rewrite L; nia). setoid_rewrite N in V. clear N. rewrite !nth_some in V.
  set (k := (r * n + c)%nat) in *.
  pose proof (near_if 3 _ _ _ (r + 1 <? n)%nat (nth (k + n) x 0) (near_if 2 _ _ _ (1 <=? r)%nat (nth (k - n) x 0)
    (near_mul 4 (nth k x 0) ltac:(unfold Q2R; cbn; lra)))) as T.
  replace (Q2R 4) with 4 in T by (unfold Q2R; cbn; lra).
  set (a := 4 * nth k x 0 - _ - _) in T. 
  pose proof (near_if 5 _ _ _ (1 <=? c)%nat (nth (k - 1) x 0) (near_if 4 _ _ _ (c + 1 <? n)%nat (nth (k + 1) x 0) T)) as [_ T1].
  pose proof (near_if 5 _ _ _ (c + 1 <? n)%nat (nth (k + 1) x 0) (near_if 4 _ _ _ (1 <=? c)%nat (nth (k - 1) x 0) T)) as [_ T2].
  specialize (T1 v). specialize (T2 v). subst a. unfold right_left, left_right in V.
  assert (I1 : (1 <=? r)%nat = true -> ((r - 1) * n + c)%nat = (k - n)%nat) by (intro Q; apply Nat.leb_le in Q; unfold k; nia).
  assert (I2 : ((r + 1) * n + c)%nat = (k + n)%nat) by (unfold k; nia).
  assert (I3 : (1 <=? c)%nat = true -> (r * n + (c - 1))%nat = (k - 1)%nat) by (intro Q; apply Nat.leb_le in Q; unfold k; nia).
  assert (I4 : (r * n + (c + 1))%nat = (k + 1)%nat) by (unfold k; nia).
  unfold L2, W2, L1, W1, f. fold k. rewrite I2, I4.
  replace (if (1 <=? r)%nat then nth ((r - 1) * n + c) x 0 else 0) with (if (1 <=? r)%nat then nth (k - n) x 0 else 0)
    by (destruct (1 <=? r)%nat; [rewrite I1 by reflexivity; reflexivity|reflexivity]).
  replace (if (1 <=? c)%nat then nth (r * n + (c - 1)) x 0 else 0) with (if (1 <=? c)%nat then nth (k - 1) x 0 else 0)
    by (destruct (1 <=? c)%nat; [rewrite I3 by reflexivity; reflexivity|reflexivity]).
  assert (Q : Rabs (v - (4 * nth k x 0 - (if (1 <=? r)%nat then nth (k - n) x 0 else 0) - (if (r + 1 <? n)%nat then nth (k + n) x 0 else 0) -
      (if (1 <=? c)%nat then nth (k - 1) x 0 else 0) - (if (c + 1 <? n)%nat then nth (k + 1) x 0 else 0))) <=
    g 6 * (4 * Rabs (nth k x 0) + Rabs (if (1 <=? r)%nat then nth (k - n) x 0 else 0) + Rabs (if (r + 1 <? n)%nat then nth (k + n) x 0 else 0) +
      Rabs (if (1 <=? c)%nat then nth (k - 1) x 0 else 0) + Rabs (if (c + 1 <? n)%nat then nth (k + 1) x 0 else 0))).
  { destruct (r + 1 <? n)%nat.
    - specialize (T1 V). eapply Rle_trans; [|eapply Rle_trans; [exact T1|]]; [right; f_equal; ring|right; ring].
    - specialize (T2 V). exact T2. }
  eapply Rle_trans; [|eapply Rle_trans; [exact Q|]]; [right; f_equal; ring|right; ring].
Qed.
End Round.

(** ** From entries to norms. *)
Lemma ip_diff : forall n (y z : rv n), @ip (Rn n) (@isub (Rn n) y z) (@isub (Rn n) y z) =
  sumn n (fun i => (nth i (tolist y) 0 - nth i (tolist z) 0) * (nth i (tolist y) 0 - nth i (tolist z) 0)).
Proof.
  induction n as [|n IH]; intros y z; [reflexivity|]. destruct y as [a y], z as [b z]. rewrite sumn_first. cbn [tolist fst snd nth].
  rewrite <- IH. unfold isub, ineg. cbn. ring.
Qed.
Lemma ip_self : forall n (y : rv n), @ip (Rn n) y y = sumn n (fun i => nth i (tolist y) 0 * nth i (tolist y) 0).
Proof. intros n y. rewrite ip_ldot. unfold ldot. rewrite tolist_len. reflexivity. Qed.
Lemma abs_mul_le : forall a k w, 0 <= w -> Rabs a <= k * w -> a * a <= k * k * (w * w).
Proof. intros a k w W H. rewrite <- abs_sq. pose proof (Rabs_pos a). replace (k * k * (w * w)) with ((k * w) * (k * w)) by ring. apply Rmult_le_compat; lra. Qed.
Section Norm.
Variables (rnd : R -> R) (Om u : R).
Hypothesis U0 : 0 <= u <= / 8.
Hypothesis RND : forall x, Rabs (rnd x - x) <= u * Rabs x.
Notation K := (roundK rnd Om).
(** The operator computes finite results with the gallery function in rounded arithmetic. *)
Definition rounded1d_op (n : nat) (Q : option (rv n) -> option (rv n)) : Prop :=
  forall x y, Q (Some x) = Some y -> @poisson1d K (map Some (tolist x)) = Ok (map Some (tolist y)).
Definition rounded2d_op (n : nat) (Q : option (rv (n * n)) -> option (rv (n * n))) : Prop :=
  forall x y, Q (Some x) = Some y -> @poisson2d K (map Some (tolist x)) = Ok (map Some (tolist y)).
Lemma nth_none : forall (l : list R) i, (i < length l)%nat -> nth i (map (@Some R) l) None = Some (nth i l 0).
Proof. intros l i H. rewrite (nth_indep _ None (Some 0)) by (rewrite map_length; exact H). apply nth_some. Qed.
Lemma ge0 : forall k, 0 <= (1 + u) ^ k - 1.
Proof. intro k. pose proof (pow_R1_Rle (1 + u) k ltac:(lra)). lra. Qed.
Lemma norm1 : forall n (A : rv n -> rv n) Q x y, (1 <= n)%nat -> poisson1d_op Rdiv sqrt n A -> rounded1d_op n Q -> Q (Some x) = Some y ->
  @inorm (Rn n) (@isub (Rn n) y (A x)) <= 4 * ((1 + u) ^ 4 - 1) * @inorm (Rn n) x.
Proof.
  intros n A Q x y Hn PO RO E. pose proof (ge0 4) as G. apply norm_le; [lra|]. rewrite ip_diff, ip_self.
  destruct (poisson1d_exact Rdiv sqrt (tolist x)) as (z & E1 & _ & N1); [rewrite tolist_len; exact Hn|].
  rewrite (PO x) in E1. assert (Z : z = tolist (A x)) by (injection E1 as H; symmetry; exact H). subst z. clear E1.
  destruct (C110_rounded1 rnd Om u (proj1 U0) RND (tolist x)) as (z & E2 & _ & N2); [rewrite tolist_len; exact Hn|].
  rewrite (RO x y E) in E2. assert (Z : z = map Some (tolist y)) by (injection E2 as H; symmetry; exact H). subst z. clear E2.
  rewrite tolist_len in N1, N2. set (f := fun i => nth i (tolist x) 0) in *. set (e := (1 + u) ^ 4 - 1) in *.
  apply Rle_trans with (sumn n (fun i => e * e * (W1 n f i * W1 n f i))).
  - apply sumn_le. intros i Hi. apply abs_mul_le; [apply W1_pos|]. rewrite (N1 i Hi). apply (N2 i _ Hi). rewrite nth_none by (rewrite tolist_len; exact Hi). reflexivity.
  - rewrite sumn_scale. pose proof (W1_sum n f) as S. replace (4 * e * (4 * e) * sumn n (fun i => nth i (tolist x) 0 * nth i (tolist x) 0))
      with (e * e * (4 * 4 * sq2 f n)) by (unfold f; ring). apply Rmult_le_compat_l; [apply Rmult_le_pos; exact G|exact S].
Qed.
Lemma bound1 : forall n (A : rv n -> rv n) x, (1 <= n)%nat -> poisson1d_op Rdiv sqrt n A -> @inorm (Rn n) (A x) <= 4 * @inorm (Rn n) x.
Proof.
  intros n A x Hn PO. apply norm_le; [lra|]. rewrite !ip_self.
  destruct (poisson1d_exact Rdiv sqrt (tolist x)) as (z & E1 & _ & N1); [rewrite tolist_len; exact Hn|].
  rewrite (PO x) in E1. assert (Z : z = tolist (A x)) by (injection E1 as H; symmetry; exact H). subst z. clear E1.
  rewrite tolist_len in N1. set (f := fun i => nth i (tolist x) 0) in *.
  eapply Rle_trans; [|exact (W1_sum n f)]. apply sumn_le. intros i Hi. rewrite (N1 i Hi).
  pose proof (abs_mul_le _ 1 _ (W1_pos n f i) ltac:(rewrite Rmult_1_l; exact (L1_abs n f i))). lra.
Qed.
Lemma grid_sum : forall n f, sumn (n * n) f = sumn n (fun r => sumn n (fun c => f (r * n + c)%nat)).
Proof. intros. apply sumn_prod. Qed.
Lemma W2_pos : forall n f r c, 0 <= W2 n f r c.
Proof. intros. unfold W2. pose proof (W1_pos n (fun r => f r c) r). pose proof (W1_pos n (fun c => f r c) c). lra. Qed.
Lemma norm2 : forall n (A : rv (n * n) -> rv (n * n)) Q x y, (1 <= n)%nat -> poisson2d_op Rdiv sqrt n A -> rounded2d_op n Q -> Q (Some x) = Some y ->
  @inorm (Rn (n * n)) (@isub (Rn (n * n)) y (A x)) <= 8 * ((1 + u) ^ 6 - 1) * @inorm (Rn (n * n)) x.
Proof.
  intros n A Q x y Hn PO RO E. pose proof (ge0 6) as G. apply norm_le; [lra|]. rewrite ip_diff, ip_self, !grid_sum.
  destruct (poisson2d_exact Rdiv sqrt n (tolist x) Hn (tolist_len _ x)) as (z & E1 & _ & N1).
  rewrite (PO x) in E1. assert (Z : z = tolist (A x)) by (injection E1 as H; symmetry; exact H). subst z. clear E1.
  destruct (C110_rounded2 rnd Om u (proj1 U0) RND n (tolist x) Hn (tolist_len _ x)) as (z & E2 & _ & N2).
  rewrite (RO x y E) in E2. assert (Z : z = map Some (tolist y)) by (injection E2 as H; symmetry; exact H). subst z. clear E2.
  set (f := fun r c => nth (r * n + c) (tolist x) 0) in *. set (e := (1 + u) ^ 6 - 1) in *.
  apply Rle_trans with (sumn n (fun r => sumn n (fun c => e * e * (W2 n f r c * W2 n f r c)))).
  - apply sumn_le. intros r Hr. apply sumn_le. intros c Hc. apply abs_mul_le; [apply W2_pos|]. rewrite (N1 r c Hr Hc). apply (N2 r c _ Hr Hc).
    rewrite nth_none by (rewrite tolist_len; nia). reflexivity.
  - rewrite (sumn_ext n _ (fun r => e * e * sumn n (fun c => W2 n f r c * W2 n f r c))) by (intros; apply sumn_scale). rewrite sumn_scale.
    pose proof (W2_sum n f) as S. replace (8 * e * (8 * e) * _) with (e * e * (8 * 8 * sumn n (fun r => sumn n (fun c => f r c * f r c)))) by (unfold f; ring).
    apply Rmult_le_compat_l; [apply Rmult_le_pos; exact G|exact S].
Qed.
Lemma bound2 : forall n (A : rv (n * n) -> rv (n * n)) x, (1 <= n)%nat -> poisson2d_op Rdiv sqrt n A ->
  @inorm (Rn (n * n)) (A x) <= 8 * @inorm (Rn (n * n)) x.
Proof.
  intros n A x Hn PO. apply norm_le; [lra|]. rewrite !ip_self, !grid_sum.
  destruct (poisson2d_exact Rdiv sqrt n (tolist x) Hn (tolist_len _ x)) as (z & E1 & _ & N1).
  rewrite (PO x) in E1. assert (Z : z = tolist (A x)) by (injection E1 as H; symmetry; exact H). subst z. clear E1.
  set (f := fun r c => nth (r * n + c) (tolist x) 0) in *.
  eapply Rle_trans; [|exact (W2_sum n f)]. apply sumn_le. intros r Hr. apply sumn_le. intros c Hc. rewrite (N1 r c Hr Hc).
  pose proof (abs_mul_le _ 1 _ (W2_pos n f r c) ltac:(rewrite Rmult_1_l; exact (L2_abs n f r c))). lra.
Qed.

(** ** CG in rounded arithmetic: when it reports convergence, the true residual of the iterate returned exceeds the tolerance by no more
    than the drift of C97 for operator norm 4 (8) and product error 4 ((1+u)^4-1) (8 ((1+u)^6-1)), which do not depend on the grid. *)
Section Cg.
Variables (N : nat) (q : kprob (roundV rnd Om N)) (A : iv (Rn N) -> iv (Rn N)) (nA c : R).
Notation W := (roundV rnd Om N).
Notation F := (round_fl rnd Om u (proj1 U0) RND N).
Hypothesis QP : q_P q = None.
Hypothesis LA : lin A.
Hypothesis n0 : 0 <= nA.
Hypothesis c0 : 0 <= c.
Hypothesis BA : forall x, inorm (A x) <= nA * inorm x.
Hypothesis EA : forall x y : rv N, q_A q (Some x : vc W) = Some y -> @inorm (Rn N) (@isub (Rn N) y (A x)) <= c * @inorm (Rn N) x.
Lemma cg_fl : forall (kw : cg_kw W) o (b x : rv N) fuel cnt o' cnt' X,
  (forall cnt k st y, rounds (cg_cond q kw (Some b : vc W) (c_res (cg_init q kw o (Some b : vc W) cnt))) (cg_body q kw) k
      (cg_init q kw o (Some b : vc W) cnt) = Ok st -> c_x st = Some y -> @inorm (Rn N) y <= X) ->
  k_sym kw = false ->
  cg_solve fuel q o (Some b : vc W) kw cnt = Ok (o', cnt') -> g_conv o' = true -> g_x o' = Some (Some x) ->
  exists t, thr q (c_res (cg_init q kw o (Some b : vc W) cnt)) = Some t /\
    @inorm (Rn N) (@isub (Rn N) b (A x)) <= t / (1 - u) ^ (N + 2) + drifts nA c u 0 (@inorm (Rn N) b) X (g_nmv o').
Proof.
  intros kw o b x fuel cnt o' cnt' X XB KS H CV GX.
  assert (FO : @fl_op K W (Rn N) u 0 F q A nA c).
  { constructor; try assumption; [lra|]. intros y [y' ->] [z Hz]. cbn [vv round_fl ov]. rewrite Hz. cbn [ov]. apply EA. exact Hz. }
  assert (XB' : forall cnt k st, rounds (cg_cond q kw (Some b : vc W) (c_res (cg_init q kw o (Some b : vc W) cnt))) (cg_body q kw) k
      (cg_init q kw o (Some b : vc W) cnt) = Ok st -> fv F (c_x st) -> @inorm (Rn N) (vv F (c_x st)) <= X).
  { intros c1 k st HR [y FY]. cbn [vv round_fl]. rewrite FY. cbn [ov]. exact (XB c1 k st y HR FY). }
  set (th := thr q (c_res (cg_init q kw o (Some b : vc W) cnt))).
  assert (T : forall G, (forall r, sleb (sabs (ssqrt (vdot r (prec q r)))) th = true -> fv F r /\ @inorm (Rn N) (vv F r) <= G) ->
    @inorm (Rn N) (@isub (Rn N) b (A x)) <= G + drifts nA c u 0 (@inorm (Rn N) b) X (g_nmv o')).
  { intros G HG. exact (@C97_cg K W (Rn N) u 0 F q A nA c FO kw o (Some b) X XB' fuel cnt o' cnt' (Some x) G (or_introl KS) HG H CV GX (ex_intro _ x eq_refl)). }
  destruct th as [t|] eqn:TH.
  - exists t. split; [reflexivity|]. apply T. intros r HL. unfold prec in HL. rewrite QP in HL.
    destruct (round_norm rnd Om u N U0 RND r (Some t) (or_intror HL)) as (t' & ET & Q). injection ET as <-. exact Q.
  - exfalso. pose proof (T (- 1 - drifts nA c u 0 (@inorm (Rn N) b) X (g_nmv o'))) as Z.
    pose proof (inorm_pos (@isub (Rn N) b (A x))).
    assert (Z' : @inorm (Rn N) (@isub (Rn N) b (A x)) <= - 1 - drifts nA c u 0 (@inorm (Rn N) b) X (g_nmv o') + drifts nA c u 0 (@inorm (Rn N) b) X (g_nmv o')).
    { apply Z. intros r HL. unfold prec in HL. rewrite QP in HL.
      destruct (round_norm rnd Om u N U0 RND r None (or_intror HL)) as (t' & ET & _). discriminate. }
    lra.
Qed.
End Cg.
Theorem C110_rounded_cg1 : forall n (q : kprob (roundV rnd Om n)) (A : iv (Rn n) -> iv (Rn n)) (kw : cg_kw (roundV rnd Om n)) o (b x : rv n) fuel cnt o' cnt' X,
  (1 <= n)%nat -> poisson1d_op Rdiv sqrt n A -> rounded1d_op n (q_A q) -> q_P q = None ->
  (forall cnt k st y, rounds (cg_cond q kw (Some b : vc (roundV rnd Om n)) (c_res (cg_init q kw o (Some b : vc (roundV rnd Om n)) cnt))) (cg_body q kw) k
      (cg_init q kw o (Some b : vc (roundV rnd Om n)) cnt) = Ok st -> c_x st = Some y -> @inorm (Rn n) y <= X) ->
  k_sym kw = false ->
  cg_solve fuel q o (Some b : vc (roundV rnd Om n)) kw cnt = Ok (o', cnt') -> g_conv o' = true -> g_x o' = Some (Some x) ->
  exists t, thr q (c_res (cg_init q kw o (Some b : vc (roundV rnd Om n)) cnt)) = Some t /\
    @inorm (Rn n) (@isub (Rn n) b (A x)) <= t / (1 - u) ^ (n + 2) + drifts 4 (4 * ((1 + u) ^ 4 - 1)) u 0 (@inorm (Rn n) b) X (g_nmv o').
Proof.
  intros n q A kw o b x fuel cnt o' cnt' X Hn PO RO QP. destruct (C110_bounds1 Rdiv sqrt n A Hn PO) as [SA _]. pose proof (ge0 4).
  apply (cg_fl n q A 4 (4 * ((1 + u) ^ 4 - 1)) QP (adjoint_lin _ _ SA)); [lra|lra| |].
  - intro z. apply bound1; assumption.
  - intros z y E. exact (norm1 n A (q_A q) z y Hn PO RO E).
Qed.
Theorem C110_rounded_cg2 : forall n (q : kprob (roundV rnd Om (n * n))) (A : iv (Rn (n * n)) -> iv (Rn (n * n))) (kw : cg_kw (roundV rnd Om (n * n))) o
  (b x : rv (n * n)) fuel cnt o' cnt' X,
  (1 <= n)%nat -> poisson2d_op Rdiv sqrt n A -> rounded2d_op n (q_A q) -> q_P q = None ->
  (forall cnt k st y, rounds (cg_cond q kw (Some b : vc (roundV rnd Om (n * n))) (c_res (cg_init q kw o (Some b : vc (roundV rnd Om (n * n))) cnt))) (cg_body q kw) k
      (cg_init q kw o (Some b : vc (roundV rnd Om (n * n))) cnt) = Ok st -> c_x st = Some y -> @inorm (Rn (n * n)) y <= X) ->
  k_sym kw = false ->
  cg_solve fuel q o (Some b : vc (roundV rnd Om (n * n))) kw cnt = Ok (o', cnt') -> g_conv o' = true -> g_x o' = Some (Some x) ->
  exists t, thr q (c_res (cg_init q kw o (Some b : vc (roundV rnd Om (n * n))) cnt)) = Some t /\
    @inorm (Rn (n * n)) (@isub (Rn (n * n)) b (A x)) <=
      t / (1 - u) ^ (n * n + 2) + drifts 8 (8 * ((1 + u) ^ 6 - 1)) u 0 (@inorm (Rn (n * n)) b) X (g_nmv o').
Proof.
  intros n q A kw o b x fuel cnt o' cnt' X Hn PO RO QP. destruct (C110_bounds2 Rdiv sqrt n A Hn PO) as [SA _]. pose proof (ge0 6).
  apply (cg_fl (n * n) q A 8 (8 * ((1 + u) ^ 6 - 1)) QP (adjoint_lin _ _ SA)); [lra|lra| |].
  - intro z. apply bound2; assumption.
  - intros z y E. exact (norm2 n A (q_A q) z y Hn PO RO E).
Qed.
End Norm.

(** ** There are such operators: collect the entries, nothing if one of them is not finite. *)
Fixpoint all_some (n : nat) (l : list (option R)) : option (rv n) :=
  match n return option (rv n) with
  | O => Some tt
  | S n => match l with Some a :: l => ob (all_some n l) (fun v => Some (a, v)) | _ => None end
  end.
Lemma all_some_spec : forall n l y, length l = n -> all_some n l = Some y -> l = map (@Some R) (tolist y).
Proof.
  induction n as [|n IH]; intros [|[a|] l] y L H; try discriminate; [reflexivity|].
  cbn in H. destruct (all_some n l) as [v|] eqn:V; [|discriminate]. injection H as <-. cbn [tolist fst snd map]. f_equal.
  apply IH; [now injection L|exact V].
Qed.
Definition rop (pois : list (option R) -> res (list (option R))) (n : nat) (x : option (rv n)) : option (rv n) :=
  ob x (fun v => match pois (map Some (tolist v)) with Ok l => all_some n l | Err _ => None end).
Theorem C110_rounded_operator : forall rnd Om n, (1 <= n)%nat ->
  rounded1d_op rnd Om n (rop (@poisson1d (roundK rnd Om)) n) /\ rounded2d_op rnd Om n (rop (@poisson2d (roundK rnd Om)) (n * n)).
Proof.
  intros rnd Om n Hn. split; intros x y E; unfold rop in E; cbn [ob] in E.
  - destruct (@poisson1d_entries (roundK rnd Om) (Some 0) (map Some (tolist x))) as (l & P & L & _); [rewrite map_length, tolist_len; exact Hn|].
    setoid_rewrite P in E. setoid_rewrite P. f_equal. apply all_some_spec; [|exact E]. rewrite map_length, tolist_len in L. exact L.
  - destruct (@poisson2d_entries (roundK rnd Om) (Some 0) n (map Some (tolist x)) Hn) as (l & P & L & _); [rewrite map_length; apply tolist_len|].
    setoid_rewrite P in E. setoid_rewrite P. f_equal. apply all_some_spec; [exact L|exact E].
Qed.

(** ** Example: one point, every operation errs by 1/16, abstol = 1.  One step; CG returns 17/32, whose residual is 1/16 in size. *)
Notation eW := (roundV ernd 1000 1).
Definition p_q : kprob eW := mkprob (W := eW) 1 1 (rop (@poisson1d (roundK ernd 1000)) 1) None (Some 1) (Some 0) (fun x => x) [].
Notation e_b := (Some (1, tt) : vc eW).
Ltac ev z y := rewrite (ero z y ltac:(field) ltac:(lra)); cbn [ob ob2 option_map].
Lemma p_op : forall a y, 17 / 16 * (17 / 8 * a) = y -> -1000 <= y <= 1000 -> rop (@poisson1d (roundK ernd 1000)) 1 (Some (a, tt)) = Some (y, tt).
Proof.
  intros a y E B. unfold rop. cbn [ob tolist fst snd map].
  destruct (@poisson1d_entries (roundK ernd 1000) (Some 0) [Some a] (le_n 1)) as (l & P & L & N). setoid_rewrite P. clear P.
  specialize (N 0%nat (le_n 1)). destruct l as [|z [|]]; try discriminate L. cbn in N. subst z.
  replace (Q2R 2) with 2 by (unfold Q2R; cbn; lra). ev 2 (17 / 8). rewrite (ero (17 / 8 * a) y E B). reflexivity.
Qed.
Lemma p_init : forall cnt, cg_init p_q e_kw e_o e_b cnt =
  mkst (W := eW) (Some (0, tt)) (Some (-1, tt)) (Some (1, tt)) (Some (289 / 256)) (Some (289 / 256)) 0 true cnt [Some (289 / 256)] [] [] None.
Proof.
  intro cnt. unfold cg_init. cbn. replace (-1 * (-1 * 1)) with 1 by ring. replace (-1 * 1 * (-1 * 1)) with 1 by ring. replace (-1 * 1) with (-1) by ring.
  ev 1 (17 / 16). ev (17 / 16 + 0) (289 / 256). unfold osqrt.
  rewrite (proj2 (Rltb_false (289 / 256) 0)) by lra.
  replace (sqrt (289 / 256)) with (17 / 16) by (symmetry; apply sqrt_lem_1; lra).
  ev (17 / 16) (289 / 256). rewrite Rabs_pos_eq by lra. reflexivity.
Qed.
Lemma p_thr : thr p_q (Some (289 / 256)) = Some 1.
Proof. exact e_thr. Qed.
Definition p_st (cnt : nat) : cg_st eW :=
  mkst (W := eW) (Some (17 / 32, tt)) (Some (561 / 4096, tt)) (Some (17 / 16 * (9537 / 65536 * (9537 / 65536) - 561 / 4096), tt)) (Some (9537 / 65536 * (9537 / 65536))) (Some (162129 / 1048576)) 1 true cnt
    [Some (289 / 256); Some (162129 / 1048576)] [] [] None.
Lemma p_body : forall cnt, cg_body p_q e_kw
  (mkst (W := eW) (Some (0, tt)) (Some (-1, tt)) (Some (1, tt)) (Some (289 / 256)) (Some (289 / 256)) 0 true cnt [Some (289 / 256)] [] [] None)
  = Ok (p_st (S cnt)).
Proof.
  intro cnt. unfold cg_body, opmul. cbn [c_p c_cnt c_x c_r c_ry c_res c_nmv c_def c_hist c_resids c_iters c_inf q_A p_q].
  rewrite (p_op 1 (289 / 128)) by lra. cbn. 
  ev (1 * (289 / 128)) (4913 / 2048). ev (4913 / 2048 + 0) (83521 / 32768).
  unfold curv_bad. cbn. replace (Q2R (QArith_base.Qmake 1 100000000)) with (/ 100000000) by (unfold Q2R; cbn; lra).
  ev (/ 100000000) (17 / 1600000000). rewrite (Rabs_pos_eq (83521 / 32768)) by lra.
  ev (17 / 1600000000 * (83521 / 32768)) (17 / 16 * (17 / 1600000000 * (83521 / 32768))). cbn.
  rewrite (proj2 (Rltb_false _ 0)) by lra. rewrite (proj2 (Rleb_false (83521 / 32768) 0)) by lra. cbn [orb].
  rewrite (edv (289 / 256) (83521 / 32768) (8 / 17)) by (try field; lra). cbn [fst ob2].
  ev (8 / 17 * 1) (1 / 2). cbn [fst]. ev (0 + 1 / 2) (17 / 32).
  ev (8 / 17 * (289 / 128)) (289 / 256). cbn [fst]. ev (-1 + 289 / 256) (561 / 4096). cbn [fst].
  ev (561 / 4096 * (561 / 4096)) (17 / 16 * (561 / 4096 * (561 / 4096))).
  ev (17 / 16 * (561 / 4096 * (561 / 4096)) + 0) (9537 / 65536 * (9537 / 65536)).
  rewrite (edv (9537 / 65536 * (9537 / 65536)) (289 / 256) (17 / 16 * (561 / 4096 * (561 / 4096)))) by (try field; lra). cbn [fst ob2].
  ev (17 / 16 * (561 / 4096 * (561 / 4096)) * 1) (9537 / 65536 * (9537 / 65536)). cbn [fst].
  ev (9537 / 65536 * (9537 / 65536) - 561 / 4096) (17 / 16 * (9537 / 65536 * (9537 / 65536) - 561 / 4096)).
  unfold osqrt. rewrite (proj2 (Rltb_false _ 0)) by lra. rewrite sqrt_square by lra.
  ev (9537 / 65536) (162129 / 1048576). rewrite Rabs_pos_eq by lra. rewrite Nat.add_1_r. reflexivity.
Qed.
Lemma p_cond0 : forall cnt, cg_cond p_q e_kw e_b (Some (289 / 256))
  (mkst (W := eW) (Some (0, tt)) (Some (-1, tt)) (Some (1, tt)) (Some (289 / 256)) (Some (289 / 256)) 0 true cnt [Some (289 / 256)] [] [] None) = true.
Proof. exact e_cond0. Qed.
Lemma p_cond1 : forall cnt, cg_cond p_q e_kw e_b (Some (289 / 256)) (p_st cnt) = false.
Proof.
  intro cnt. unfold cg_cond. rewrite p_thr. unfold sgtb. cbn. rewrite (proj2 (Rltb_false 1 (162129 / 1048576))) by lra. reflexivity.
Qed.
Example ex_C110_rounded :
  (forall cnt k st y, rounds (cg_cond p_q e_kw e_b (c_res (cg_init p_q e_kw e_o e_b cnt))) (cg_body p_q e_kw) k
      (cg_init p_q e_kw e_o e_b cnt) = Ok st -> c_x st = Some y -> @inorm (Rn 1) y <= 17 / 32) /\
  exists o' cnt' A, poisson1d_op Rdiv sqrt 1 A /\ cg_solve 2 p_q e_o e_b e_kw 0 = Ok (o', cnt') /\ g_conv o' = true /\
    g_x o' = Some (Some (17 / 32, tt)) /\ exists t, thr p_q (c_res (cg_init p_q e_kw e_o e_b 0)) = Some t /\
      @inorm (Rn 1) (@isub (Rn 1) (1, tt) (A (17 / 32, tt))) <= t / (1 - / 16) ^ 3 + drifts 4 (4 * ((1 + / 16) ^ 4 - 1)) (/ 16) 0 (@inorm (Rn 1) (1, tt)) (17 / 32) (g_nmv o').
Proof.
  assert (N : forall a, @inorm (Rn 1) (a, tt) = Rabs a).
  { intro a. unfold inorm. cbn. rewrite Rplus_0_r. apply sqrt_Rsqr_abs. }
  assert (XB : forall cnt k st y, rounds (cg_cond p_q e_kw e_b (c_res (cg_init p_q e_kw e_o e_b cnt))) (cg_body p_q e_kw) k
      (cg_init p_q e_kw e_o e_b cnt) = Ok st -> c_x st = Some y -> @inorm (Rn 1) y <= 17 / 32).
  { intros cnt k st y HR HX. rewrite p_init in HR. cbn [c_res] in HR. destruct k as [|[|k]].
    + cbn in HR. injection HR as <-. cbn in HX. injection HX as <-. rewrite N, Rabs_R0. lra.
    + cbn [rounds] in HR. rewrite p_cond0, p_body in HR. injection HR as <-. cbn in HX. injection HX as <-.
      rewrite N, Rabs_pos_eq; lra.
    + exfalso. assert (Q : exists e, rounds (cg_cond p_q e_kw e_b (Some (289 / 256))) (cg_body p_q e_kw) (S (S k))
          (mkst (W := eW) (Some (0, tt)) (Some (-1, tt)) (Some (1, tt)) (Some (289 / 256)) (Some (289 / 256)) 0 true cnt [Some (289 / 256)] [] [] None) = Err e).
      { clear HX HR. induction k as [|k [e IH]].
        - cbn [rounds]. rewrite p_cond0, p_body, p_cond1. eexists. reflexivity.
        - exists e. cbn [rounds] in IH |- *. rewrite IH. reflexivity. }
      destruct Q as [e Q]. rewrite Q in HR. discriminate. }
  split; [exact XB|].
  assert (H : exists o' cnt', cg_solve 2 p_q e_o e_b e_kw 0 = Ok (o', cnt') /\ g_conv o' = true /\ g_x o' = Some (Some (17 / 32, tt))).
  { unfold cg_solve. cbn [k_sym e_kw cg_kw0 negb]. rewrite p_init. cbn [c_res while]. rewrite p_cond0, p_body.
    cbn [while]. rewrite p_cond1. eexists _, _. split; [reflexivity|]. unfold cg_final. rewrite p_thr. cbn.
    split; [apply Rleb_true; lra|reflexivity]. }
  destruct H as (o' & cnt' & H & CV & GX). destruct (C110_operator Rdiv sqrt 1 (le_n 1)) as [[A PO] _].
  exists o', cnt', A. split; [exact PO|]. split; [exact H|]. split; [exact CV|]. split; [exact GX|].
  exact (C110_rounded_cg1 ernd 1000 (/ 16) ltac:(lra) ernd_rel 1 p_q A e_kw e_o (1, tt) (17 / 32, tt) 2 0 o' cnt' (17 / 32) (le_n 1) PO
    (proj1 (C110_rounded_operator ernd 1000 1 (le_n 1))) eq_refl XB eq_refl H CV GX).
Qed.

Print Assumptions C110_rounded1.
Print Assumptions C110_rounded2.
Print Assumptions C110_rounded_cg1.
Print Assumptions C110_rounded_cg2.
