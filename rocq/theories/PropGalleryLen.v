(** C63, continued: Poisson2dMatvec on vectors of any length, gallery.py:10-29. *)
From Coq Require Import List ZArith QArith Qreals Reals Lia Lra Bool.
From Verif Require Import Base Num Gallery PropTools.
Import ListNotations.

Section Any.
Context {K : Scal}.
Notation S := (sc K).
Variable d : S.

Lemma block_len : forall n (x y : list S) i, (1 <= n)%nat -> (n * n <= length x)%nat ->
  length y = length x -> (i < n)%nat ->
  exists y', poisson_block n x y i = Ok y' /\ length y' = length y /\
    forall k, (k < length x)%nat ->
      nth k y' d =
      if (i * n <=? k)%nat && (k <? i * n + n)%nat
      then right_left n (k - i * n) (nth k y d) (nth (k + 1) x d) (nth (k - 1) x d)
      else nth k y d.
Proof.
  intros n x y i Hn Lx Ly Hi.
  assert (B1 : (i * n + n <= n * n)%nat) by nia.
  unfold poisson_block.
  rewrite !nix_pos by nia.
  replace ((i + 1) * n)%nat with (i * n + n)%nat by ring.
  set (lo := (i * n)%nat) in *.
  assert (LX : length (slice lo (lo + n) x) = n) by (rewrite slice_length; lia).
  assert (LY : length (slice lo (lo + n) y) = n) by (rewrite slice_length; lia).
  rewrite LX, LY.
  change (-1)%Z with (- Z.of_nat 1)%Z. change 1%Z with (Z.of_nat 1).
  rewrite nix_neg, nix_pos by lia.
  set (xi := slice lo (lo + n) x) in *. set (yi := slice lo (lo + n) y) in *.
  destruct (sub_at_spec d yi xi 0 (n - 1) 1 n) as [y1 [E1 [L1 N1]]]; try lia.
  rewrite E1. cbn [rbind]. rewrite L1, LY.
  change (nix n 1) with (nix n (Z.of_nat 1)). rewrite nix_pos by lia.
  destruct (sub_at_spec d y1 xi 1 n 0 (n - 1)) as [y2 [E2 [L2 N2]]]; try lia.
  rewrite E2. cbn [rbind]. eexists. split; [reflexivity|].
  assert (LF : length (firstn lo y) = lo) by (rewrite firstn_length; lia).
  split. { rewrite !app_length, LF, skipn_length. lia. }
  intros k Hk.
  destruct (Nat.leb_spec lo k) as [C1|C1]; cbn [andb].
  2:{ rewrite app_nth1 by lia. apply nth_firstn. lia. }
  destruct (Nat.ltb_spec k (lo + n)) as [C2|C2].
  2:{ rewrite app_nth2 by lia. rewrite app_nth2 by lia. rewrite nth_skipn. f_equal. lia. }
  rewrite app_nth2 by lia. rewrite LF. rewrite app_nth1 by lia.
  rewrite N2 by lia. rewrite N1 by lia. change (0 <=? k - lo)%nat with true.
  unfold right_left. unfold yi, xi. rewrite !nth_slice by lia.
  replace (lo + (k - lo))%nat with k by lia.
  destruct (Nat.leb_spec 1 (k - lo)), (Nat.ltb_spec (k - lo) n); try lia; cbn [andb];
    destruct (Nat.ltb_spec (k - lo) (n - 1)), (Nat.ltb_spec (k - lo + 1) n); try lia;
    rewrite ?nth_slice by lia;
    try replace (lo + (0 + (k - lo - 1)))%nat with (k - 1)%nat by lia;
    try replace (lo + (1 + (k - lo - 0)))%nat with (k + 1)%nat by lia; reflexivity.
Qed.

(** the loop over the blocks a, ..., a+len-1 *)
Lemma blocks_len : forall n (x : list S), (1 <= n)%nat -> (n * n <= length x)%nat ->
  forall len a y, (a + len <= n)%nat -> length y = length x ->
  exists y', poisson_blocks n x y (seq a len) = Ok y' /\ length y' = length y /\
    forall k, (k < length x)%nat ->
      nth k y' d =
      if (a * n <=? k)%nat && (k <? (a + len) * n)%nat
      then right_left n (k mod n) (nth k y d) (nth (k + 1) x d) (nth (k - 1) x d)
      else nth k y d.
Proof.
  intros n x Hn Lx. induction len as [|len IH]; intros a y HA Ly.
  - exists y. split; [reflexivity|]. split; [reflexivity|]. intros k Hk.
    destruct (Nat.leb_spec (a * n) k), (Nat.ltb_spec k ((a + 0) * n)); try reflexivity. exfalso. nia.
  - destruct (block_len n x y a Hn Lx Ly ltac:(lia)) as [y1 [E1 [L1 N1]]].
    destruct (IH (a + 1)%nat y1 ltac:(lia) ltac:(lia)) as [y2 [E2 [L2 N2]]].
    exists y2. cbn [seq poisson_blocks]. rewrite E1. cbn [rbind]. split; [rewrite Nat.add_1_r in E2; exact E2|]. split; [lia|].
    intros k Hk. rewrite N2, N1 by exact Hk.
    assert (Q1 : ((a + 1) * n = a * n + n)%nat) by ring. assert (Q2 : ((a + 1 + len) * n = (a + Datatypes.S len) * n)%nat) by (f_equal; lia).
    assert (Q3 : (a * n + n <= (a + Datatypes.S len) * n)%nat) by nia.
    rewrite Q1, Q2.
    destruct (Nat.leb_spec (a * n + n) k), (Nat.ltb_spec k ((a + Datatypes.S len) * n)), (Nat.leb_spec (a * n) k), (Nat.ltb_spec k (a * n + n)); cbn [andb]; try lia; try reflexivity.
    f_equal. replace k with ((k - a * n) + a * n)%nat at 2 by lia. rewrite Nat.mod_add by lia. rewrite Nat.mod_small; lia.
Qed.

Lemma poisson2d_len : forall n (x : list S), (2 <= n)%nat -> (n * n <= length x < (n + 1) * (n + 1))%nat ->
  exists y, poisson2d x = Ok y /\ length y = length x /\
    forall k, (k < length x)%nat ->
      let a := smul (slit 4) (nth k x d) in
      let a := if (n <=? k)%nat then ssub a (nth (k - n) x d) else a in
      let a := if (k + n <? length x)%nat then ssub a (nth (k + n) x d) else a in
      nth k y d =
      if (k <? (n - 1) * n)%nat then right_left n (k mod n) a (nth (k + 1) x d) (nth (k - 1) x d)
      else let a := if ((n - 1) * n <? k)%nat then ssub a (nth (k - 1) x d) else a in
           if (k + 1 <? n * n)%nat then ssub a (nth (k + 1 + (length x - n * n)) x d) else a.
Proof.
  intros n x H2 Lx. set (N := length x) in *.
  unfold poisson2d. fold N.
  replace (Nat.sqrt N) with n by (symmetry; apply Nat.sqrt_unique; lia).
  assert (M1 : (n <= n * n)%nat) by nia.
  assert (M2 : ((n - 1) * n = n * n - n)%nat) by nia.
  assert (M3 : (2 * n <= n * n)%nat) by nia.
  replace (Z.of_nat n - 1)%Z with (Z.of_nat (n - 1)) by lia.
  replace (- Z.of_nat n + 1)%Z with (- Z.of_nat (n - 1))%Z by lia.
  replace (Z.of_nat (n - 1) * Z.of_nat n)%Z with (Z.of_nat (n * n - n)) by nia.
  replace (Z.of_nat (n * n - n) + 1)%Z with (Z.of_nat (n * n - n + 1)) by lia.
  replace (Z.of_nat n * Z.of_nat n - 1)%Z with (Z.of_nat (n * n - 1)) by nia.
  change (-1)%Z with (- Z.of_nat 1)%Z. change 1%Z with (Z.of_nat 1).
  rewrite !nix_neg, !nix_pos by nia. rewrite M2.
  set (Q := (n * n)%nat) in *.
  set (y0 := map _ x).
  assert (L0 : length y0 = N) by (unfold y0; rewrite map_length; reflexivity).
  destruct (sub_at_spec d y0 x n N 0 (N - n)) as [y1 [E1 [L1 N1]]]; try (fold N; lia).
  rewrite E1. cbn [rbind].
  destruct (sub_at_spec d y1 x 0 (N - n) n N) as [y2 [E2 [L2 N2]]]; try (fold N; lia).
  rewrite E2. cbn [rbind].
  destruct (sub_at_spec d y2 x 0 (n - 1) 1 n) as [y3 [E3 [L3 N3]]]; try (fold N; lia).
  rewrite E3. cbn [rbind].
  destruct (sub_at_spec d y3 x 1 n 0 (n - 1)) as [y4 [E4 [L4 N4]]]; try (fold N; lia).
  rewrite E4. cbn [rbind].
  destruct (blocks_len n x ltac:(lia) ltac:(fold N Q; lia) (n - 2) 1 y4 ltac:(lia) ltac:(fold N; lia)) as [y5 [E5 [L5 N5]]].
  rewrite E5. cbn [rbind].
  destruct (sub_at_spec d y5 x (Q - n + 1) N (Q - n) (N - 1)) as [y6 [E6 [L6 N6]]]; try (fold N; lia).
  rewrite E6. cbn [rbind].
  destruct (sub_at_spec d y6 x (Q - n) (Q - 1) (N - (n - 1)) N) as [y7 [E7 [L7 N7]]]; try (fold N; lia).
  exists y7. split; [exact E7|]. split; [lia|].
  intros k Hk. cbv zeta.
  assert (N0 : nth k y0 d = smul (slit 4) (nth k x d)).
  { unfold y0. rewrite (nth_indep _ d (smul (slit 4) d)) by (fold y0; lia).
    apply (map_nth (fun a => smul (slit 4) a)). }
  rewrite N7, N6, N5 by (fold N; lia).
  replace ((1 + (n - 2)) * n)%nat with (Q - n)%nat by (unfold Q; nia). rewrite Nat.mul_1_l.
  rewrite N4, N3, N2, N1, N0 by lia.
  change (0 <=? k)%nat with true. cbn [andb].
  replace (k <? N)%nat with true by (symmetry; apply Nat.ltb_lt; lia). rewrite !andb_true_r.
  replace (k <? N - n)%nat with (k + n <? N)%nat by (apply Bool.eq_iff_eq_true; rewrite !Nat.ltb_lt; lia).
  replace (0 + (k - n))%nat with (k - n)%nat by lia.
  replace (n + (k - 0))%nat with (k + n)%nat by lia.
  replace (1 + (k - 0))%nat with (k + 1)%nat by lia.
  replace (0 + (k - 1))%nat with (k - 1)%nat by lia.
  match goal with |- context [if (k + n <? N)%nat then ?p else ?q] => set (a := if (k + n <? N)%nat then p else q) end.
  destruct (Nat.ltb_spec k (Q - n)) as [C|C].
  - (* a row of the grid before the last one *)
    replace (Q - n + 1 <=? k)%nat with false by (symmetry; apply Nat.leb_gt; lia).
    replace (Q - n <=? k)%nat with false by (symmetry; apply Nat.leb_gt; lia). cbn [andb]. rewrite andb_true_r.
    destruct (Nat.leb_spec n k) as [D|D].
    + replace (k <? n - 1)%nat with false by (symmetry; apply Nat.ltb_ge; lia).
      replace (k <? n)%nat with false by (symmetry; apply Nat.ltb_ge; lia). rewrite andb_false_r. reflexivity.
    + rewrite Nat.mod_small by lia. replace (k <? n)%nat with true by (symmetry; apply Nat.ltb_lt; lia). rewrite andb_true_r.
      unfold right_left. replace (k <? n - 1)%nat with (k + 1 <? n)%nat by (apply Bool.eq_iff_eq_true; rewrite !Nat.ltb_lt; lia). reflexivity.
  - replace (Q - n <=? k)%nat with true by (symmetry; apply Nat.leb_le; lia). cbn [andb]. rewrite andb_false_r.
    replace (k <? n - 1)%nat with false by (symmetry; apply Nat.ltb_ge; lia).
    replace (k <? n)%nat with false by (symmetry; apply Nat.ltb_ge; lia). rewrite andb_false_r.
    replace (Q - n + 1 <=? k)%nat with (Q - n <? k)%nat by (apply Bool.eq_iff_eq_true; rewrite Nat.ltb_lt, Nat.leb_le; lia).
    replace (k <? Q - 1)%nat with (k + 1 <? Q)%nat by (apply Bool.eq_iff_eq_true; rewrite !Nat.ltb_lt; lia).
    replace (N - (n - 1) + (k - (Q - n)))%nat with (k + 1 + (N - Q))%nat by lia.
    destruct (Nat.ltb_spec (Q - n) k); [|reflexivity].
    replace (Q - n + (k - (Q - n + 1)))%nat with (k - 1)%nat by lia. reflexivity.
Qed.
End Any.

(** The lengths the function accepts, in any arithmetic. *)
Theorem C63_lengths : forall (K : Scal) (x : list (sc K)),
  if (length x =? 2)%nat || (length x =? 3)%nat then poisson2d x = Err ValueError
  else exists y, poisson2d x = Ok y /\ length y = length x.
Proof.
  intros K x. destruct (le_lt_dec 4 (length x)) as [H|H].
  - replace ((length x =? 2)%nat || (length x =? 3)%nat) with false
      by (symmetry; apply orb_false_iff; split; apply Nat.eqb_neq; lia).
    pose proof (Nat.sqrt_spec (length x) ltac:(lia)) as [Q1 Q2].
    assert (Q0 : (2 <= Nat.sqrt (length x))%nat) by (change 2%nat with (Nat.sqrt 4); apply Nat.sqrt_le_mono; exact H).
    destruct (poisson2d_len s0 (Nat.sqrt (length x)) x Q0) as (y & E & L & _); [lia|].
    exists y. split; assumption.
  - destruct x as [|a [|b [|c [|e t]]]]; cbn in H; try lia; cbn [length Nat.eqb orb].
    + exists []. split; reflexivity.
    + exists [smul (slit 4) a]. split; reflexivity.
    + reflexivity.
    + reflexivity.
Qed.

Section Exact.
Local Open Scope R_scope.
Variables (dv : R -> R -> R) (sq : R -> R).
Notation KK := (exactK dv sq).

(** What is computed from a vector whose length N = n^2 + e, 0 <= e <= 2n, need not be a square. *)
Theorem C63_entries : forall n (x : list R), (2 <= n)%nat -> (n * n <= length x < (n + 1) * (n + 1))%nat ->
  exists y : list R, @poisson2d KK x = Ok y /\ length y = length x /\
    forall k, (k < length x)%nat ->
      nth k y 0 = 4 * nth k x 0
        - (if (n <=? k)%nat then nth (k - n) x 0 else 0)
        - (if (k + n <? length x)%nat then nth (k + n) x 0 else 0)
        - (if (k <? (n - 1) * n)%nat
           then (if (k mod n =? 0)%nat then 0 else nth (k - 1) x 0) + (if (k mod n =? n - 1)%nat then 0 else nth (k + 1) x 0)
           else (if (k =? (n - 1) * n)%nat then 0 else nth (k - 1) x 0)
                + (if (k + 1 <? n * n)%nat then nth (k + 1 + (length x - n * n)) x 0 else 0)).
Proof.
  intros n x H2 Lx. destruct (poisson2d_len (K := KK) (0 : sc KK) n x H2 Lx) as (y & E & L & N).
  exists y. split; [exact E|]. split; [exact L|]. intros k Hk. specialize (N k Hk). cbv zeta in N.
  change (sc KK) with R in N. etransitivity; [exact N|]. clear N E. unfold right_left.
  change (@ssub KK) with Rminus. change (@smul KK) with Rmult. change (@slit KK 4) with (Q2R 4).
  replace (Q2R 4) with 4 by (unfold Q2R; cbn; lra).
  pose proof (Nat.mod_upper_bound k n ltac:(lia)) as MB.
  destruct (Nat.leb_spec n k); destruct (Nat.ltb_spec (k + n) (length x)); destruct (Nat.ltb_spec k ((n - 1) * n));
    destruct (Nat.eqb_spec (k mod n) 0); destruct (Nat.eqb_spec (k mod n) (n - 1)); destruct (Nat.leb_spec 1 (k mod n));
    destruct (Nat.ltb_spec (k mod n + 1) n); destruct (Nat.ltb_spec ((n - 1) * n) k); destruct (Nat.eqb_spec k ((n - 1) * n));
    destruct (Nat.ltb_spec (k + 1) (n * n)); try (exfalso; lia); ring.
Qed.

(** the i-th unit vector of length N *)
Definition unitv (N i : nat) : list R := map (fun k => if (k =? i)%nat then 1 else 0) (seq 0 N).
Lemma unitv_length : forall N i, length (unitv N i) = N.
Proof. intros. unfold unitv. rewrite map_length. apply seq_length. Qed.
Lemma unitv_nth : forall N i k, (k < N)%nat -> nth k (unitv N i) 0 = if (k =? i)%nat then 1 else 0.
Proof.
  intros N i k H. unfold unitv. rewrite (nth_indep _ 0 ((fun k => if (k =? i)%nat then 1 else 0) 0%nat)) by (rewrite map_length, seq_length; exact H).
  rewrite (map_nth (fun k => if (k =? i)%nat then 1 else 0)). rewrite seq_nth by exact H. reflexivity.
Qed.
Lemma sum_pick : forall N i (f : nat -> R), (i < N)%nat -> sumn N (fun k => (if (k =? i)%nat then 1 else 0) * f k) = f i.
Proof.
  assert (Z : forall N i (f : nat -> R), (N <= i)%nat -> sumn N (fun k => (if (k =? i)%nat then 1 else 0) * f k) = 0).
  { induction N as [|N IH]; intros i f H; cbn [sumn]; [reflexivity|]. rewrite IH by lia. destruct (Nat.eqb_spec N i); [lia|]. ring. }
  induction N as [|N IH]; intros i f H; [lia|]. cbn [sumn]. destruct (Nat.eqb_spec N i) as [->|NE].
  - rewrite Z by lia. ring.
  - rewrite IH by lia. ring.
Qed.
Lemma ldot_unit : forall N i (y : list R), (i < N)%nat -> ldot (unitv N i) y = nth i y 0.
Proof.
  intros N i y H. unfold ldot. rewrite unitv_length. transitivity (sumn N (fun k => (if (k =? i)%nat then 1 else 0) * nth k y 0)); [|apply sum_pick; exact H].
  apply sumn_ext. intros k Hk. rewrite unitv_nth by exact Hk. reflexivity.
Qed.
Lemma ldot_unit_r : forall N i (y : list R), length y = N -> (i < N)%nat -> ldot y (unitv N i) = nth i y 0.
Proof.
  intros N i y L H. rewrite <- (ldot_unit N i y H). unfold ldot. rewrite unitv_length, L. apply sumn_ext. intros. ring.
Qed.

(** No error, but not the documented matrix: for every length from 5 on that is not a square the products are those of a
    matrix that is not symmetric. *)
Theorem C63_nonsquare : forall N, (4 <= N)%nat -> (forall n, N <> n * n)%nat ->
  exists x z y w : list R, length x = N /\ length z = N /\ @poisson2d KK x = Ok y /\ @poisson2d KK z = Ok w /\
    length y = N /\ length w = N /\ ldot x w = ldot y z - 1.
Proof.
  intros N H4 NS.
  pose proof (Nat.sqrt_spec N ltac:(lia)) as [Q1 Q2]. pose proof (NS (Nat.sqrt N)) as NQ. rewrite <- Nat.add_1_r in Q2.
  assert (Q0 : (2 <= Nat.sqrt N)%nat) by (change 2%nat with (Nat.sqrt 4); apply Nat.sqrt_le_mono; exact H4).
  set (n := Nat.sqrt N) in *. clearbody n. clear NS.
  assert (M2 : ((n - 1) * n = n * n - n)%nat) by nia. assert (M3 : (2 * n <= n * n)%nat) by nia.
  set (i := ((n - 1) * n)%nat). set (j := (i + 1 + (N - n * n))%nat).
  assert (Hi : (i < N)%nat) by (unfold i; lia). assert (Hj : (j < N)%nat) by (unfold j, i; lia).
  destruct (C63_entries n (unitv N i) Q0) as (y & E & L & NY); [rewrite unitv_length; lia|]. rewrite unitv_length in L, NY.
  destruct (C63_entries n (unitv N j) Q0) as (w & E' & L' & NW); [rewrite unitv_length; lia|]. rewrite unitv_length in L', NW.
  exists (unitv N i), (unitv N j), y, w. repeat split; try apply unitv_length; try assumption.
  rewrite ldot_unit by exact Hi. rewrite ldot_unit_r by assumption. rewrite (NW i Hi), (NY j Hj).
  assert (P : forall a b, (a < N)%nat -> nth a (unitv N b) 0 = if (a =? b)%nat then 1 else 0) by (intros; apply unitv_nth; assumption).
  (* the row i of the second, the row j of the first *)
  replace (i <? (n - 1) * n)%nat with false by (symmetry; apply Nat.ltb_ge; unfold i; lia).
  replace (j <? (n - 1) * n)%nat with false by (symmetry; apply Nat.ltb_ge; unfold j, i; lia).
  replace (i =? (n - 1) * n)%nat with true by (symmetry; apply Nat.eqb_eq; reflexivity).
  replace (j =? (n - 1) * n)%nat with false by (symmetry; apply Nat.eqb_neq; unfold j, i; lia).
  replace (i + 1 <? n * n)%nat with true by (symmetry; apply Nat.ltb_lt; unfold i; lia).
  replace (n <=? i)%nat with true by (symmetry; apply Nat.leb_le; unfold i; lia).
  replace (n <=? j)%nat with true by (symmetry; apply Nat.leb_le; unfold j, i; lia).
  replace (i + n <? N)%nat with true by (symmetry; apply Nat.ltb_lt; unfold i; lia).
  rewrite (P i j Hi), (P j i Hj), (P (i - n)%nat j) by (unfold i in *; lia). rewrite (P (i + n)%nat j) by (unfold i in *; lia).
  replace (i + 1 + (N - n * n))%nat with j by reflexivity. rewrite (P j j Hj), (P (j - n)%nat i), (P (j - 1)%nat i) by lia.
  assert (D1 : (i =? j)%nat = false) by (apply Nat.eqb_neq; unfold j; lia).
  assert (D2 : (j =? i)%nat = false) by (apply Nat.eqb_neq; unfold j; lia).
  assert (D3 : (i - n =? j)%nat = false) by (apply Nat.eqb_neq; unfold j; lia).
  assert (D4 : (j - 1 =? i)%nat = false) by (apply Nat.eqb_neq; unfold j; lia).
  assert (D5 : (i + n =? j)%nat = (j - n =? i)%nat).
  { apply Bool.eq_iff_eq_true. rewrite !Nat.eqb_eq. unfold j, i. lia. }
  assert (D6 : (if (j + n <? N)%nat then nth (j + n) (unitv N i) 0 else 0) = 0).
  { destruct (Nat.ltb_spec (j + n) N) as [B|B]; [|reflexivity]. rewrite (P (j + n)%nat i B). destruct (Nat.eqb_spec (j + n) i); [unfold j in *; lia|reflexivity]. }
  assert (D7 : (if (j + 1 <? n * n)%nat then nth (j + 1 + (N - n * n)) (unitv N i) 0 else 0) = 0).
  { destruct (Nat.ltb_spec (j + 1) (n * n)) as [B|B]; [|reflexivity]. rewrite P by lia. destruct (Nat.eqb_spec (j + 1 + (N - n * n)) i); [unfold j in *; lia|reflexivity]. }
  rewrite D1, D2, D3, D4, D5, D6, D7, Nat.eqb_refl. ring.
Qed.

(** In particular the product is symmetric exactly for square lengths, among the lengths it accepts. *)
Theorem C63_symmetric_iff : forall N, (N <> 2)%nat -> (N <> 3)%nat ->
  ((forall x z : list R, length x = N -> length z = N ->
      exists y w, @poisson2d KK x = Ok y /\ @poisson2d KK z = Ok w /\ ldot x w = ldot y z) <->
   exists n, N = (n * n)%nat).
Proof.
  intros N N2 N3. split.
  - intro SY. destruct (Nat.eq_dec (Nat.sqrt N * Nat.sqrt N) N) as [EQ|NE]; [exists (Nat.sqrt N); symmetry; exact EQ|]. exfalso.
    assert (NS : (forall n, N <> n * n)%nat) by (intros n ->; rewrite Nat.sqrt_square in NE; apply NE; reflexivity).
    destruct (le_lt_dec 4 N) as [H4|H4].
    2:{ pose proof (NS 0%nat). pose proof (NS 1%nat). lia. }
    destruct (C63_nonsquare N H4 NS) as (x & z & y & w & Lx & Lz & E & E' & _ & _ & D).
    destruct (SY x z Lx Lz) as (y' & w' & F & F' & D'). rewrite E in F. rewrite E' in F'. injection F as <-. injection F' as <-. lra.
  - intros [n ->] x z Lx Lz. destruct n as [|n].
    + destruct x; [|discriminate]. destruct z; [|discriminate]. exists [], []. split; [reflexivity|]. split; reflexivity.
    + exact (C63_symmetric dv sq (Datatypes.S n) x z ltac:(lia) Lx Lz).
Qed.
End Exact.

(** Length 5: hypotheses of C63_entries and C63_nonsquare. *)
Example ex_C63_nonsquare : (2 * 2 <= length [1; 2; 3; 4; 5]%R < (2 + 1) * (2 + 1))%nat /\ (4 <= 5)%nat /\ (forall n, 5 <> n * n)%nat /\
  @poisson2d (exactK Rdiv sqrt) [1; 2; 3; 4; 5]%R =
  Ok [4 * 1 - 3 - 2; 4 * 2 - 4 - 1; 4 * 3 - 1 - 5 - 5; 4 * 4 - 2 - 3; 4 * 5 - 3 - 4]%R.
Proof.
  split; [cbn; lia|]. split; [lia|]. split; [intros [|[|[|n]]]; cbn; lia|].
  destruct (C63_entries Rdiv sqrt 2 [1; 2; 3; 4; 5]%R) as (y & E & L & N); [lia|cbn; lia|].
  etransitivity; [exact E|]. f_equal. apply list_ext; [exact L|]. intros k Hk. rewrite L in Hk. cbn in Hk.
  destruct k as [|[|[|[|[|k]]]]]; [| | | | |lia]; rewrite N by (cbn; lia); cbn; lra.
Qed.

Print Assumptions C63_lengths.
Print Assumptions C63_entries.
Print Assumptions C63_nonsquare.
Print Assumptions C63_symmetric_iff.
