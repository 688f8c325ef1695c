(** * Model of pykrylov/gallery/gallery.py and its proofs (C62, C63). *)
From Coq Require Import List ZArith QArith Qreals Reals Lia Lra Psatz Bool.
From Verif Require Import Base Num.
Import ListNotations.

(** ** Numpy slices of one-dimensional arrays. *)
Section Slices.
Context {K : Scal}.
Notation S := (sc K).

(** Index normalisation of [x[lo:hi]]: negative indices count from the end, everything is
    clipped to [0, len]. *)
Definition nix (len : nat) (i : Z) : nat :=
  Z.to_nat (Z.min (Z.of_nat len) (Z.max 0 (if (i <? 0)%Z then i + Z.of_nat len else i)))%Z.

Definition slice (lo hi : nat) (l : list S) : list S := firstn (hi - lo) (skipn lo l).

Fixpoint map2 (f : S -> S -> S) (l1 l2 : list S) : list S :=
  match l1, l2 with a :: t1, b :: t2 => f a b :: map2 f t1 t2 | _, _ => [] end.

(** [y[lo:hi] -= v] with broadcasting of a length-one [v]. *)
Definition sub_at (y : list S) (lo hi : nat) (v : list S) : res (list S) :=
  let ys := slice lo hi y in
  if Nat.eqb (length v) (length ys) then
    Ok (firstn lo y ++ map2 ssub ys v ++ skipn (lo + length ys) y)
  else match v with
       | [a] => Ok (firstn lo y ++ map (fun b => ssub b a) ys ++ skipn (lo + length ys) y)
       | _ => Err ValueError
       end.

(** gallery.py:3-8.  [y] is a fresh array, so [x] is never written. *)
Definition poisson1d (x : list S) : res (list S) :=
  let n := length x in
  let y := map (fun a => smul (slit 2) a) x in
  rbind (sub_at y 0 (nix n (-1)) (slice (nix n 1) n x)) (fun y =>
  sub_at y (nix n 1) n (slice 0 (nix n (-1)) x)).

(** gallery.py:22-25: the loop body for block [i]; [yi] is a view of [y], so the two updates
    write through to [y]. *)
Definition poisson_block (n : nat) (x y : list S) (i : nat) : res (list S) :=
  let len := length x in
  let lo := nix len (Z.of_nat (i * n)) in
  let hi := nix len (Z.of_nat ((i + 1) * n)) in
  let xi := slice lo hi x in
  let yi := slice lo hi y in
  rbind (sub_at yi 0 (nix (length yi) (-1)) (slice (nix (length xi) 1) (length xi) xi)) (fun yi =>
  rbind (sub_at yi (nix (length yi) 1) (length yi) (slice 0 (nix (length xi) (-1)) xi)) (fun yi =>
  Ok (firstn lo y ++ yi ++ skipn (lo + length yi) y))).

Fixpoint poisson_blocks (n : nat) (x y : list S) (is : list nat) : res (list S) :=
  match is with
  | [] => Ok y
  | i :: t => rbind (poisson_block n x y i) (fun y => poisson_blocks n x y t)
  end.

(** gallery.py:10-29.  [int(sqrt(len))] is the integer square root (exact as long as the
    length is below 2^52). *)
Definition poisson2d (x : list S) : res (list S) :=
  let len := length x in
  let n := Nat.sqrt len in
  let zn := Z.of_nat n in
  let y := map (fun a => smul (slit 4) a) x in
  rbind (sub_at y (nix len zn) len (slice 0 (nix len (- zn)) x)) (fun y =>
  rbind (sub_at y 0 (nix len (- zn)) (slice (nix len zn) len x)) (fun y =>
  rbind (sub_at y 0 (nix len (zn - 1)) (slice (nix len 1) (nix len zn) x)) (fun y =>
  rbind (sub_at y (nix len 1) (nix len zn) (slice 0 (nix len (zn - 1)) x)) (fun y =>
  rbind (poisson_blocks n x y (seq 1 (n - 2))) (fun y =>
  rbind (sub_at y (nix len ((zn - 1) * zn + 1)) len
                  (slice (nix len ((zn - 1) * zn)) (nix len (-1)) x)) (fun y =>
  sub_at y (nix len ((zn - 1) * zn)) (nix len (zn * zn - 1))
           (slice (nix len (- zn + 1)) len x))))))).
End Slices.

(** ** Entry formulas (any arithmetic). *)
Section Nth.
Context {K : Scal}.
Notation S := (sc K).
Variable d : S.

Lemma slice_length : forall lo hi (l : list S), (lo <= hi <= length l)%nat ->
  length (slice lo hi l) = (hi - lo)%nat.
Proof. intros. unfold slice. rewrite firstn_length, skipn_length. lia. Qed.

Lemma nth_firstn : forall n i (l : list S), (i < n)%nat -> nth i (firstn n l) d = nth i l d.
Proof.
  induction n as [|n IH]; intros i l H; [lia|]. destruct l as [|a l]; [destruct i; reflexivity|].
  destruct i as [|i]; cbn; [reflexivity|]. apply IH. lia.
Qed.

Lemma nth_skipn : forall n i (l : list S), nth i (skipn n l) d = nth (n + i) l d.
Proof.
  induction n as [|n IH]; intros i l; cbn; [reflexivity|].
  destruct l as [|a l]; [destruct i; reflexivity|]. apply IH.
Qed.

Lemma nth_slice : forall lo hi i (l : list S), (i < hi - lo)%nat ->
  nth i (slice lo hi l) d = nth (lo + i) l d.
Proof. intros. unfold slice. rewrite nth_firstn by lia. apply nth_skipn. Qed.

Lemma map2_length : forall f (l1 l2 : list S), length l1 = length l2 ->
  length (map2 f l1 l2) = length l1.
Proof.
  induction l1 as [|a t IH]; intros [|b l2] H; cbn in *; try lia. rewrite IH; lia.
Qed.

Lemma nth_map2 : forall f (l1 l2 : list S) i, length l1 = length l2 -> (i < length l1)%nat ->
  nth i (map2 f l1 l2) d = f (nth i l1 d) (nth i l2 d).
Proof.
  induction l1 as [|a t IH]; intros [|b l2] i H Hi; cbn in *; try lia.
  destruct i; [reflexivity|]. apply IH; lia.
Qed.

(** The one fact used about [y[lo:hi] -= x[a:b]]. *)
Lemma sub_at_spec : forall (y x : list S) lo hi a b,
  (lo <= hi <= length y)%nat -> (a <= b <= length x)%nat -> (b - a = hi - lo)%nat ->
  exists y', sub_at y lo hi (slice a b x) = Ok y' /\ length y' = length y /\
    forall i, (i < length y)%nat ->
      nth i y' d = if (lo <=? i)%nat && (i <? hi)%nat
                   then ssub (nth i y d) (nth (a + (i - lo)) x d) else nth i y d.
Proof.
  intros y x lo hi a b H1 H2 H3.
  unfold sub_at. rewrite !slice_length by lia.
  replace (Nat.eqb (b - a) (hi - lo)) with true by (symmetry; apply Nat.eqb_eq; lia).
  assert (L1 : length (firstn lo y) = lo) by (rewrite firstn_length; lia).
  assert (L2 : length (map2 ssub (slice lo hi y) (slice a b x)) = (hi - lo)%nat).
  { rewrite map2_length; rewrite !slice_length; lia. }
  eexists. split; [reflexivity|]. split.
  - rewrite !app_length, L1, L2, skipn_length. lia.
  - intros i Hi.
    destruct (Nat.leb_spec lo i) as [A|A]; cbn [andb].
    + rewrite app_nth2 by lia. rewrite L1.
      destruct (Nat.ltb_spec i hi) as [B|B].
      * rewrite app_nth1 by lia.
        rewrite nth_map2 by (rewrite !slice_length; lia).
        rewrite !nth_slice by lia. f_equal; f_equal; lia.
      * rewrite app_nth2 by lia. rewrite L2, nth_skipn. f_equal. lia.
    + rewrite app_nth1 by lia. apply nth_firstn. lia.
Qed.

Lemma nix_pos : forall len (i : nat), (i <= len)%nat -> nix len (Z.of_nat i) = i.
Proof.
  intros len i H. unfold nix. destruct (Z.ltb_spec (Z.of_nat i) 0); lia.
Qed.
Lemma nix_neg : forall len (i : nat), (0 < i <= len)%nat -> nix len (- Z.of_nat i) = (len - i)%nat.
Proof.
  intros len i H. unfold nix. destruct (Z.ltb_spec (- Z.of_nat i) 0); lia.
Qed.
End Nth.

(** ** C62. *)
Section P1.
Context {K : Scal}.
Notation S := (sc K).

(** In any arithmetic: the product succeeds and computes, entry by entry,
    [(2*x_i - x_{i+1}) - x_{i-1}] with the out-of-range terms left out. *)
Lemma poisson1d_entries : forall (d : S) (x : list S), (1 <= length x)%nat ->
  exists y, poisson1d x = Ok y /\ length y = length x /\
    forall i, (i < length x)%nat ->
      let a := smul (slit 2) (nth i x d) in
      let b := if (i + 1 <? length x)%nat then ssub a (nth (i + 1) x d) else a in
      nth i y d = if (1 <=? i)%nat then ssub b (nth (i - 1) x d) else b.
Proof.
  intros d x H. unfold poisson1d.
  set (n := length x) in *.
  change (-1)%Z with (- Z.of_nat 1)%Z. change 1%Z with (Z.of_nat 1) at 2.
  rewrite nix_neg by lia. change (nix n (Z.of_nat 1)) with (nix n (Z.of_nat 1)).
  change 1%Z with (Z.of_nat 1). rewrite (nix_pos n 1) by lia.
  set (y0 := map _ x).
  assert (L0 : length y0 = n) by apply map_length.
  destruct (sub_at_spec d y0 x 0 (n - 1) 1 n) as [y1 [E1 [L1 N1]]]; try (fold n; lia).
  rewrite E1. cbn [rbind].
  destruct (sub_at_spec d y1 x 1 n 0 (n - 1)) as [y2 [E2 [L2 N2]]]; try (fold n; lia).
  exists y2. split; [exact E2|]. split; [lia|].
  intros i Hi. cbv zeta. rewrite N2 by lia. rewrite N1 by lia.
  assert (N0 : nth i y0 d = smul (slit 2) (nth i x d)).
  { unfold y0. rewrite (nth_indep _ d (smul (slit 2) d)) by (fold y0; lia).
    apply (map_nth (fun a => smul (slit 2) a)). }
  rewrite N0. change (0 <=? i)%nat with true.
  replace (1 + (i - 0))%nat with (i + 1)%nat by lia. replace (0 + (i - 1))%nat with (i - 1)%nat by lia.
  destruct (Nat.leb_spec 1 i), (Nat.ltb_spec i n); try lia; cbn [andb];
    destruct (Nat.ltb_spec i (n - 1)), (Nat.ltb_spec (i + 1) n); try lia;
    reflexivity.
Qed.
End P1.

(** ** C63. *)
Section P2.
Context {K : Scal}.
Notation S := (sc K).
Variable d : S.

(** Subtract the right neighbour, then the left one; and the other order. *)
Definition right_left (n c : nat) (a xr xl : S) : S :=
  let b := if (c + 1 <? n)%nat then ssub a xr else a in
  if (1 <=? c)%nat then ssub b xl else b.
Definition left_right (n c : nat) (a xr xl : S) : S :=
  let b := if (1 <=? c)%nat then ssub a xl else a in
  if (c + 1 <? n)%nat then ssub b xr else b.

Lemma block_spec : forall n (x y : list S) i, (1 <= n)%nat -> length x = (n * n)%nat ->
  length y = length x -> (i < n)%nat ->
  exists y', poisson_block n x y i = Ok y' /\ length y' = length y /\
    forall r c, (r < n)%nat -> (c < n)%nat ->
      nth (r * n + c) y' d =
      if Nat.eqb r i
      then right_left n c (nth (r * n + c) y d) (nth (r * n + c + 1) x d) (nth (r * n + c - 1) x d)
      else nth (r * n + c) y d.
Proof.
  intros n x y i Hn Lx Ly Hi.
  assert (B1 : (i * n + n <= n * n)%nat) by nia.
  unfold poisson_block. rewrite Lx.
  rewrite !nix_pos by nia.
  replace ((i + 1) * n)%nat with (i * n + n)%nat by ring.
  set (lo := (i * n)%nat) in *.
  assert (LX : length (slice lo (lo + n) x) = n) by (rewrite slice_length; lia).
  assert (LY : length (slice lo (lo + n) y) = n) by (rewrite slice_length; lia).
  rewrite LX, LY.
  change (-1)%Z with (- Z.of_nat 1)%Z. change 1%Z with (Z.of_nat 1).
  rewrite nix_neg, nix_pos by lia.
  set (xi := slice lo (lo + n) x) in *. set (yi := slice lo (lo + n) y) in *.
  destruct (sub_at_spec d yi xi 0 (n - 1) 1 n) as [y1 [E1 [L1 N1]]]; try lia.
  rewrite E1. cbn [rbind]. rewrite L1, LY.
  change (nix n 1) with (nix n (Z.of_nat 1)). rewrite nix_pos by lia.
  destruct (sub_at_spec d y1 xi 1 n 0 (n - 1)) as [y2 [E2 [L2 N2]]]; try lia.
  rewrite E2. cbn [rbind]. eexists. split; [reflexivity|].
  assert (LF : length (firstn lo y) = lo) by (rewrite firstn_length; lia).
  split. { rewrite !app_length, LF, skipn_length. lia. }
  intros r c Hr Hc.
  destruct (Nat.eqb_spec r i) as [->|Nri].
  - rewrite app_nth2 by (rewrite LF; fold lo; lia). rewrite LF. fold lo.
    replace (lo + c - lo)%nat with c by lia.
    rewrite app_nth1 by lia.
    rewrite N2 by lia. rewrite N1 by lia. change (0 <=? c)%nat with true.
    unfold right_left. unfold yi, xi. rewrite !nth_slice by lia.
    replace (lo + (1 + (c - 0)))%nat with (lo + c + 1)%nat by lia.
    destruct (Nat.leb_spec 1 c), (Nat.ltb_spec c n); try lia; cbn [andb];
      destruct (Nat.ltb_spec c (n - 1)), (Nat.ltb_spec (c + 1) n); try lia;
      rewrite ?nth_slice by lia;
      try replace (lo + (0 + (c - 1)))%nat with (lo + c - 1)%nat by lia;
      try replace (lo + (1 + (c - 0)))%nat with (lo + c + 1)%nat by lia; reflexivity.
  - assert (CASE : (r * n + c < lo \/ lo + n <= r * n + c)%nat) by (unfold lo; nia).
    destruct CASE as [C|C].
    + rewrite app_nth1 by lia. apply nth_firstn. lia.
    + rewrite app_nth2 by lia. rewrite app_nth2 by lia. rewrite nth_skipn. f_equal. lia.
Qed.

Lemma blocks_spec : forall n (x : list S) is, (1 <= n)%nat -> length x = (n * n)%nat ->
  NoDup is -> (forall i, In i is -> (i < n)%nat) ->
  forall y, length y = length x ->
  exists y', poisson_blocks n x y is = Ok y' /\ length y' = length y /\
    forall r c, (r < n)%nat -> (c < n)%nat ->
      nth (r * n + c) y' d =
      if existsb (Nat.eqb r) is
      then right_left n c (nth (r * n + c) y d) (nth (r * n + c + 1) x d) (nth (r * n + c - 1) x d)
      else nth (r * n + c) y d.
Proof.
  intros n x is Hn Lx ND. induction ND as [|i t Ni ND IH]; intros HI y Ly.
  - exists y. split; [reflexivity|]. split; [reflexivity|]. intros. reflexivity.
  - destruct (block_spec n x y i Hn Lx Ly (HI i (or_introl eq_refl))) as [y1 [E1 [L1 N1]]].
    destruct (IH (fun j Hj => HI j (or_intror Hj)) y1) as [y2 [E2 [L2 N2]]]; [lia|].
    exists y2. cbn [poisson_blocks]. rewrite E1. cbn [rbind]. split; [exact E2|]. split; [lia|].
    intros r c Hr Hc. rewrite N2 by assumption. rewrite !N1 by assumption. cbn [existsb].
    destruct (Nat.eqb_spec r i) as [->|Nri]; cbn [orb]; [|reflexivity].
    replace (existsb (Nat.eqb i) t) with false; [reflexivity|].
    symmetry. apply Bool.not_true_iff_false. intro T. apply existsb_exists in T as [j [Hj Ej]].
    apply Nat.eqb_eq in Ej. subst j. contradiction.
Qed.

Lemma existsb_seq : forall r a len, existsb (Nat.eqb r) (seq a len) = (a <=? r)%nat && (r <? a + len)%nat.
Proof.
  intros r a len. apply Bool.eq_iff_eq_true. rewrite existsb_exists, andb_true_iff, Nat.leb_le, Nat.ltb_lt.
  split.
  - intros [j [Hj Ej]]. apply Nat.eqb_eq in Ej. subst j. apply in_seq in Hj. exact Hj.
  - intro H. exists r. split; [apply in_seq; exact H|apply Nat.eqb_refl].
Qed.

(** In any arithmetic, entry (r, c) of the result. *)
Lemma poisson2d_entries : forall n (x : list S), (1 <= n)%nat -> length x = (n * n)%nat ->
  exists y, poisson2d x = Ok y /\ length y = (n * n)%nat /\
    forall r c, (r < n)%nat -> (c < n)%nat ->
      let k := (r * n + c)%nat in
      let a := smul (slit 4) (nth k x d) in
      let a := if (1 <=? r)%nat then ssub a (nth (k - n) x d) else a in
      let a := if (r + 1 <? n)%nat then ssub a (nth (k + n) x d) else a in
      nth k y d = (if (r + 1 <? n)%nat then right_left else left_right) n c a
                    (nth (k + 1) x d) (nth (k - 1) x d).
Proof.
  intros n x Hn Lx.
  destruct (Nat.eq_dec n 1) as [->|Nn].
  { destruct x as [|a [|b t]]; cbn in Lx; try lia.
    exists [smul (slit 4) a]. split; [reflexivity|]. split; [reflexivity|].
    intros r c Hr Hc. assert (r = 0)%nat by lia. assert (c = 0)%nat by lia. subst. reflexivity. }
  assert (H2 : (2 <= n)%nat) by lia. clear Nn Hn.
  unfold poisson2d. rewrite Lx, Nat.sqrt_square.
  assert (M1 : (n <= n * n)%nat) by nia.
  assert (M2 : ((n - 1) * n = n * n - n)%nat) by nia.
  replace (Z.of_nat n - 1)%Z with (Z.of_nat (n - 1)) by lia.
  replace (- Z.of_nat n + 1)%Z with (- Z.of_nat (n - 1))%Z by lia.
  replace (Z.of_nat (n - 1) * Z.of_nat n)%Z with (Z.of_nat (n * n - n)) by nia.
  replace (Z.of_nat (n * n - n) + 1)%Z with (Z.of_nat (n * n - n + 1)) by lia.
  replace (Z.of_nat n * Z.of_nat n - 1)%Z with (Z.of_nat (n * n - 1)) by nia.
  change (-1)%Z with (- Z.of_nat 1)%Z. change 1%Z with (Z.of_nat 1).
  rewrite !nix_neg, !nix_pos by nia.
  set (N := (n * n)%nat) in *.
  set (y0 := map _ x).
  assert (L0 : length y0 = N) by (unfold y0; rewrite map_length; exact Lx).
  destruct (sub_at_spec d y0 x n N 0 (N - n)) as [y1 [E1 [L1 N1]]]; try lia.
  rewrite E1. cbn [rbind].
  destruct (sub_at_spec d y1 x 0 (N - n) n N) as [y2 [E2 [L2 N2]]]; try lia.
  rewrite E2. cbn [rbind].
  destruct (sub_at_spec d y2 x 0 (n - 1) 1 n) as [y3 [E3 [L3 N3]]]; try lia.
  rewrite E3. cbn [rbind].
  destruct (sub_at_spec d y3 x 1 n 0 (n - 1)) as [y4 [E4 [L4 N4]]]; try lia.
  rewrite E4. cbn [rbind].
  destruct (blocks_spec n x (seq 1 (n - 2)) ltac:(lia) Lx (seq_NoDup _ _)
              ltac:(intros i Hi; apply in_seq in Hi; lia) y4) as [y5 [E5 [L5 N5]]]; [lia|].
  rewrite E5. cbn [rbind].
  destruct (sub_at_spec d y5 x (N - n + 1) N (N - n) (N - 1)) as [y6 [E6 [L6 N6]]]; try lia.
  rewrite E6. cbn [rbind].
  destruct (sub_at_spec d y6 x (N - n) (N - 1) (N - (n - 1)) N) as [y7 [E7 [L7 N7]]]; try lia.
  exists y7. split; [exact E7|]. split; [lia|].
  intros r c Hr Hc. cbv zeta. set (k := (r * n + c)%nat).
  assert (Hk : (k < N)%nat) by (unfold k, N; nia).
  assert (N0 : nth k y0 d = smul (slit 4) (nth k x d)).
  { unfold y0. rewrite (nth_indep _ d (smul (slit 4) d)) by (fold y0; lia).
    apply (map_nth (fun a => smul (slit 4) a)). }
  assert (N5k := N5 r c Hr Hc). fold k in N5k.
  rewrite N7, N6, N5k by lia.
  rewrite N4, N3, N2, N1, N0 by lia. rewrite existsb_seq.
  change (0 <=? k)%nat with true. cbn [andb].
  (* the tests in terms of (r, c) *)
  assert (F0 : (r = 0 /\ r * n = 0 \/ 1 <= r /\ n <= r * n)%nat).
  { destruct r as [|r']; [left; lia|right]. split; [lia|]. clear. nia. }
  assert (F1 : (r + 1 < n /\ r * n + 2 * n <= N \/ r + 1 = n /\ r * n = N - n)%nat).
  { destruct (Nat.eq_dec (r + 1) n) as [Er|Er].
    - right. split; [exact Er|]. rewrite <- M2. f_equal. lia.
    - left. split; [lia|]. unfold N.
      assert ((r + 2) * n <= n * n)%nat by (apply Nat.mul_le_mono_r; lia). lia. }
  assert (T1 : (n <=? k)%nat && (k <? N)%nat = (1 <=? r)%nat).
  { apply Bool.eq_iff_eq_true. rewrite andb_true_iff, !Nat.leb_le, Nat.ltb_lt. unfold k. lia. }
  assert (T2 : (k <? N - n)%nat = (r + 1 <? n)%nat).
  { apply Bool.eq_iff_eq_true. rewrite !Nat.ltb_lt. unfold k. lia. }
  assert (T3 : (k <? n - 1)%nat = (r =? 0)%nat && (c + 1 <? n)%nat).
  { apply Bool.eq_iff_eq_true. rewrite andb_true_iff, !Nat.ltb_lt, Nat.eqb_eq. unfold k. lia. }
  assert (T4 : (1 <=? k)%nat && (k <? n)%nat = (r =? 0)%nat && (1 <=? c)%nat).
  { apply Bool.eq_iff_eq_true. rewrite !andb_true_iff, !Nat.leb_le, !Nat.ltb_lt, Nat.eqb_eq. unfold k. lia. }
  assert (T6 : (N - n + 1 <=? k)%nat && (k <? N)%nat = negb (r + 1 <? n)%nat && (1 <=? c)%nat).
  { apply Bool.eq_iff_eq_true. rewrite !andb_true_iff, negb_true_iff, !Nat.leb_le, !Nat.ltb_lt, Nat.ltb_ge.
    unfold k. lia. }
  assert (T7 : (N - n <=? k)%nat && (k <? N - 1)%nat = negb (r + 1 <? n)%nat && (c + 1 <? n)%nat).
  { apply Bool.eq_iff_eq_true. rewrite !andb_true_iff, negb_true_iff, !Nat.leb_le, !Nat.ltb_lt, Nat.ltb_ge.
    unfold k. lia. }
  rewrite T1, T2, T3, T4, T6, T7.
  assert (TN : (1 <=? r)%nat = true -> (0 + (k - n) = k - n)%nat) by lia.
  replace (0 + (k - n))%nat with (k - n)%nat by lia.
  replace (n + (k - 0))%nat with (k + n)%nat by lia.
  replace (1 + (k - 0))%nat with (k + 1)%nat by lia.
  replace (0 + (k - 1))%nat with (k - 1)%nat by lia.
  assert (ix6 : (r + 1 <? n)%nat = false -> (1 <=? c)%nat = true -> (N - n + (k - (N - n + 1)) = k - 1)%nat).
  { rewrite Nat.ltb_ge, Nat.leb_le. unfold k. lia. }
  assert (ix7 : (r + 1 <? n)%nat = false -> (N - (n - 1) + (k - (N - n)) = k + 1)%nat).
  { rewrite Nat.ltb_ge. unfold k. lia. }
  unfold right_left, left_right.
  destruct (r + 1 <? n)%nat eqn:R1; cbn [negb andb].
  - (* not the last block row *)
    apply Nat.ltb_lt in R1.
    destruct (Nat.eqb_spec r 0) as [->|R0]; cbn [andb].
    + reflexivity.
    + replace ((1 <=? r)%nat) with true by (symmetry; apply Nat.leb_le; lia).
      replace ((r <? 1 + (n - 2))%nat) with true by (symmetry; apply Nat.ltb_lt; lia). cbn [andb].
      reflexivity.
  - apply Nat.ltb_ge in R1.
    replace (r =? 0)%nat with false by (symmetry; apply Nat.eqb_neq; lia).
    replace ((r <? 1 + (n - 2))%nat) with false by (symmetry; apply Nat.ltb_ge; lia).
    rewrite !andb_false_r. cbn [andb].
    rewrite ix7 by reflexivity.
    destruct (1 <=? c)%nat eqn:C1; [rewrite (ix6 eq_refl eq_refl)|]; reflexivity.
Qed.
End P2.

(** ** Exact arithmetic: linear, symmetric, positive definite. *)
Section Sums.
Local Open Scope R_scope.

Fixpoint sumn (n : nat) (f : nat -> R) : R :=
  match n with O => 0 | S n => sumn n f + f n end.

Lemma sumn_ext : forall n f g, (forall i, (i < n)%nat -> f i = g i) -> sumn n f = sumn n g.
Proof.
  induction n as [|n IH]; intros f g H; cbn; [reflexivity|].
  rewrite (IH f g) by (intros; apply H; lia). rewrite (H n) by lia. reflexivity.
Qed.
Lemma sumn_plus : forall n f g, sumn n (fun i => f i + g i) = sumn n f + sumn n g.
Proof. induction n; intros; cbn; [ring|]. rewrite IHn. ring. Qed.
Lemma sumn_scale : forall n a f, sumn n (fun i => a * f i) = a * sumn n f.
Proof. induction n; intros; cbn; [ring|]. rewrite IHn. ring. Qed.
Lemma sumn_swap : forall n m (f : nat -> nat -> R),
  sumn n (fun i => sumn m (fun j => f i j)) = sumn m (fun j => sumn n (fun i => f i j)).
Proof.
  induction n as [|n IH]; intros m f; cbn.
  - induction m; cbn; [reflexivity|]. rewrite <- IHm. ring.
  - rewrite IH, <- sumn_plus. reflexivity.
Qed.
Lemma sumn_nonneg : forall n f, (forall i, (i < n)%nat -> 0 <= f i) -> 0 <= sumn n f.
Proof.
  induction n as [|n IH]; intros f H; cbn; [lra|].
  specialize (IH f (fun i Hi => H i (Nat.lt_lt_succ_r _ _ Hi))). specialize (H n (Nat.lt_succ_diag_r n)). lra.
Qed.
Lemma sumn_zero : forall n f, (forall i, (i < n)%nat -> 0 <= f i) -> sumn n f = 0 ->
  forall i, (i < n)%nat -> f i = 0.
Proof.
  induction n as [|n IH]; intros f H Z i Hi; [lia|]. cbn in Z.
  assert (P := sumn_nonneg n f (fun i Hi => H i (Nat.lt_lt_succ_r _ _ Hi))).
  assert (Q := H n (Nat.lt_succ_diag_r n)).
  destruct (Nat.eq_dec i n) as [->|Ni]; [lra|].
  apply (IH f); [intros; apply H; lia|lra|lia].
Qed.
Lemma sumn_add : forall n m f, sumn (n + m) f = sumn n f + sumn m (fun i => f (n + i)%nat).
Proof.
  intros n m f. induction m as [|m IH]; cbn; [rewrite Nat.add_0_r; ring|].
  rewrite Nat.add_succ_r. cbn. rewrite IH. ring.
Qed.
Lemma sumn_prod : forall m n f,
  sumn (m * n) f = sumn m (fun r => sumn n (fun c => f (r * n + c)%nat)).
Proof.
  induction m as [|m IH]; intros n f; cbn [sumn Nat.mul]; [reflexivity|].
  rewrite Nat.add_comm, sumn_add, IH. reflexivity.
Qed.

(** The one-dimensional Laplacian on functions. *)
Definition L1 (n : nat) (f : nat -> R) (i : nat) : R :=
  2 * f i - (if (1 <=? i)%nat then f (i - 1)%nat else 0) - (if (i + 1 <? n)%nat then f (i + 1)%nat else 0).

Lemma sum_prev : forall n f g,
  sumn n (fun i => if (1 <=? i)%nat then f i * g (i - 1)%nat else 0) =
  sumn (n - 1) (fun i => f (i + 1)%nat * g i).
Proof.
  induction n as [|n IH]; intros f g; [reflexivity|]. cbn [sumn]. rewrite IH.
  destruct n as [|n].
  - cbn. ring.
  - replace (S (S n) - 1)%nat with (S n) by lia. cbn [sumn].
    replace (S n - 1)%nat with n by lia. replace (n + 1)%nat with (S n) by lia. reflexivity.
Qed.

Lemma sum_next : forall n k h,
  sumn n (fun i => if (i <? k)%nat then h i else 0) = sumn (Nat.min n k) h.
Proof.
  induction n as [|n IH]; intros k h; [reflexivity|]. cbn [sumn]. rewrite IH.
  destruct (Nat.ltb_spec n k).
  - replace (Nat.min (S n) k) with (S (Nat.min n k)) by lia. cbn [sumn].
    replace (Nat.min n k) with n by lia. reflexivity.
  - replace (Nat.min (S n) k) with (Nat.min n k) by lia. ring.
Qed.

Lemma form1 : forall n f g,
  sumn n (fun i => f i * L1 n g i) =
  2 * sumn n (fun i => f i * g i) - sumn (n - 1) (fun i => f (i + 1)%nat * g i)
    - sumn (n - 1) (fun i => f i * g (i + 1)%nat).
Proof.
  intros n f g.
  transitivity (sumn n (fun i => 2 * (f i * g i) +
    ((-1) * (if (1 <=? i)%nat then f i * g (i - 1)%nat else 0) +
     (-1) * (if (i <? n - 1)%nat then f i * g (i + 1)%nat else 0)))).
  - apply sumn_ext. intros i Hi. unfold L1.
    destruct (Nat.leb_spec 1 i), (Nat.ltb_spec (i + 1) n), (Nat.ltb_spec i (n - 1)); try lia; ring.
  - rewrite !sumn_plus, !sumn_scale, sum_prev, sum_next.
    replace (Nat.min n (n - 1)) with (n - 1)%nat by lia. ring.
Qed.

Lemma form1_sym : forall n f g,
  sumn n (fun i => f i * L1 n g i) = sumn n (fun i => L1 n f i * g i).
Proof.
  intros n f g. rewrite form1.
  rewrite (sumn_ext n (fun i => L1 n f i * g i) (fun i => g i * L1 n f i)) by (intros; ring).
  rewrite form1.
  rewrite (sumn_ext n (fun i => g i * f i) (fun i => f i * g i)) by (intros; ring).
  rewrite (sumn_ext (n - 1) (fun i => g (i + 1)%nat * f i) (fun i => f i * g (i + 1)%nat)) by (intros; ring).
  rewrite (sumn_ext (n - 1) (fun i => g i * f (i + 1)%nat) (fun i => f (i + 1)%nat * g i)) by (intros; ring).
  ring.
Qed.

Lemma form1_sq : forall n f, 
  sumn (S n) (fun i => f i * L1 (S n) f i) =
  f 0%nat * f 0%nat + f n * f n + sumn n (fun i => (f i - f (i + 1)%nat) * (f i - f (i + 1)%nat)).
Proof.
  intros n f. rewrite form1. replace (S n - 1)%nat with n by lia.
  induction n as [|n IH]; [cbn; ring|].
  cbn [sumn] in *. replace (n + 1)%nat with (S n) by lia.
  cbn [sumn] in IH. lra.
Qed.

Lemma form1_nonneg : forall n f, 0 <= sumn n (fun i => f i * L1 n f i).
Proof.
  intros [|n] f; [cbn; lra|]. rewrite form1_sq.
  assert (0 <= sumn n (fun i => (f i - f (i + 1)%nat) * (f i - f (i + 1)%nat)))
    by (apply sumn_nonneg; intros; apply Rle_0_sqr).
  pose proof (Rle_0_sqr (f 0%nat)). pose proof (Rle_0_sqr (f n)). unfold Rsqr in *. lra.
Qed.

Lemma form1_zero : forall n f, sumn n (fun i => f i * L1 n f i) = 0 -> forall i, (i < n)%nat -> f i = 0.
Proof.
  intros [|n] f Z; [intros; lia|]. rewrite form1_sq in Z.
  assert (P : 0 <= sumn n (fun i => (f i - f (i + 1)%nat) * (f i - f (i + 1)%nat)))
    by (apply sumn_nonneg; intros; apply Rle_0_sqr).
  pose proof (Rle_0_sqr (f 0%nat)) as Q0. pose proof (Rle_0_sqr (f n)). unfold Rsqr in *.
  assert (Z0 : f 0%nat = 0).
  { assert (f 0%nat * f 0%nat = 0) by lra. apply Rmult_integral in H0. tauto. }
  assert (ZS : sumn n (fun i => (f i - f (i + 1)%nat) * (f i - f (i + 1)%nat)) = 0) by lra.
  induction i as [|i IH]; intro Hi; [exact Z0|].
  assert (D := sumn_zero n _ (fun i _ => Rle_0_sqr _) ZS i ltac:(lia)). cbv beta in D.
  apply Rmult_integral in D. rewrite IH in D by lia. replace (S i) with (i + 1)%nat by lia. lra.
Qed.

(** The five-point Laplacian is the sum of the 1D ones along rows and columns. *)
Definition L2 (n : nat) (f : nat -> nat -> R) (r c : nat) : R :=
  L1 n (fun r => f r c) r + L1 n (fun c => f r c) c.

Lemma form2 : forall n f g,
  sumn n (fun r => sumn n (fun c => f r c * L2 n g r c)) =
  sumn n (fun c => sumn n (fun r => f r c * L1 n (fun r => g r c) r)) +
  sumn n (fun r => sumn n (fun c => f r c * L1 n (fun c => g r c) c)).
Proof.
  intros n f g. rewrite (sumn_swap n n (fun c r => f r c * L1 n (fun r => g r c) r)).
  rewrite <- sumn_plus. apply sumn_ext. intros r _. rewrite <- sumn_plus.
  apply sumn_ext. intros c _. unfold L2. ring.
Qed.

Lemma form2_sym : forall n f g,
  sumn n (fun r => sumn n (fun c => f r c * L2 n g r c)) =
  sumn n (fun r => sumn n (fun c => L2 n f r c * g r c)).
Proof.
  intros n f g.
  transitivity (sumn n (fun r => sumn n (fun c => g r c * L2 n f r c))).
  2:{ apply sumn_ext; intros; apply sumn_ext; intros; ring. }
  rewrite !form2. f_equal; apply sumn_ext; intros i _.
  - rewrite (form1_sym n (fun r => f r i) (fun r => g r i)). apply sumn_ext; intros; ring.
  - rewrite (form1_sym n (fun c => f i c) (fun c => g i c)). apply sumn_ext; intros; ring.
Qed.

Lemma form2_pd : forall n f,
  0 <= sumn n (fun r => sumn n (fun c => f r c * L2 n f r c)) /\
  (sumn n (fun r => sumn n (fun c => f r c * L2 n f r c)) = 0 ->
   forall r c, (r < n)%nat -> (c < n)%nat -> f r c = 0).
Proof.
  intros n f. rewrite form2.
  assert (P1 : 0 <= sumn n (fun c => sumn n (fun r => f r c * L1 n (fun r => f r c) r)))
    by (apply sumn_nonneg; intros c _; apply (form1_nonneg n (fun r => f r c))).
  assert (P2 : 0 <= sumn n (fun r => sumn n (fun c => f r c * L1 n (fun c => f r c) c)))
    by (apply sumn_nonneg; intros r _; apply (form1_nonneg n (fun c => f r c))).
  split; [lra|]. intros Z r c Hr Hc.
  assert (Z2 : sumn n (fun r => sumn n (fun c => f r c * L1 n (fun c => f r c) c)) = 0) by lra.
  assert (ZR := sumn_zero n _ (fun r _ => form1_nonneg n (fun c => f r c)) Z2 r Hr). cbv beta in ZR.
  exact (form1_zero n (fun c => f r c) ZR c Hc).
Qed.
End Sums.

Section GalleryExact.
Local Open Scope R_scope.
Context (dv : R -> R -> R) (sq : R -> R).
Notation KK := (exactK dv sq).

(** Inner product and linear combination of numpy vectors. *)
Definition ldot (x y : list R) : R := sumn (length x) (fun i => nth i x 0 * nth i y 0).
Definition lcomb (a : R) (x : list R) (b : R) (y : list R) : list R :=
  map (fun p => a * fst p + b * snd p) (combine x y).

Lemma lcomb_length : forall a x b y, length x = length y -> length (lcomb a x b y) = length x.
Proof. intros. unfold lcomb. rewrite map_length, combine_length. lia. Qed.
Lemma lcomb_nth : forall a x b y i, length x = length y ->
  nth i (lcomb a x b y) 0 = a * nth i x 0 + b * nth i y 0.
Proof.
  intros a x b y i H. unfold lcomb.
  set (h := fun p : R * R => a * fst p + b * snd p).
  assert (Z : 0 = h (0, 0)) by (unfold h; cbn; ring).
  rewrite Z at 1. rewrite map_nth, combine_nth by exact H. reflexivity.
Qed.
Lemma list_ext : forall (l1 l2 : list R), length l1 = length l2 ->
  (forall i, (i < length l1)%nat -> nth i l1 0 = nth i l2 0) -> l1 = l2.
Proof. intros l1 l2 L H. apply (nth_ext l1 l2 0 0 L H). Qed.

Lemma poisson1d_exact : forall x : list R, (1 <= length x)%nat ->
  exists y : list R, @poisson1d KK x = Ok y /\ length y = length x /\
    forall i, (i < length x)%nat -> nth i y 0 = L1 (length x) (fun i => nth i x 0) i.
Proof.
  intros x H. destruct (@poisson1d_entries KK (0 : R) x H) as [y [E [L N]]].
  exists y. split; [exact E|]. split; [exact L|]. intros i Hi.
  specialize (N i Hi). cbv zeta in N. etransitivity; [exact N|]. cbn [exactK smul ssub slit sc]. unfold L1.
  assert (T : Q2R 2 = 2) by (unfold Q2R; cbn; lra).
  destruct (1 <=? i)%nat, (i + 1 <? length x)%nat; rewrite ?T; ring.
Qed.

Lemma poisson2d_exact : forall n (x : list R), (1 <= n)%nat -> length x = (n * n)%nat ->
  exists y : list R, @poisson2d KK x = Ok y /\ length y = (n * n)%nat /\
    forall r c, (r < n)%nat -> (c < n)%nat ->
      nth (r * n + c) y 0 = L2 n (fun r c => nth (r * n + c) x 0) r c.
Proof.
  intros n x Hn H. destruct (@poisson2d_entries KK (0 : R) n x Hn H) as [y [E [L N]]].
  exists y. split; [exact E|]. split; [exact L|]. intros r c Hr Hc.
  specialize (N r c Hr Hc). cbv zeta in N. etransitivity; [exact N|]. cbn [exactK smul ssub slit sc]. unfold L2, L1.
  assert (T : Q2R 4 = 4) by (unfold Q2R; cbn; lra).
  unfold right_left, left_right. cbn [exactK smul ssub slit sc].
  replace (r * n + (c + 1))%nat with (r * n + c + 1)%nat by lia.
  replace ((r + 1) * n + c)%nat with (r * n + c + n)%nat by lia.
  assert (U : (1 <= r)%nat -> ((r - 1) * n + c = r * n + c - n)%nat) by (intro; nia).
  assert (V : (1 <= c)%nat -> (r * n + (c - 1) = r * n + c - 1)%nat) by lia.
  destruct (r + 1 <? n)%nat, (c + 1 <? n)%nat; cbv beta iota;
  destruct (Nat.leb_spec 1 r) as [R1|R1]; try rewrite (U R1);
  destruct (Nat.leb_spec 1 c) as [C1|C1]; try rewrite (V C1);
    rewrite ?T; ring.
Qed.

Lemma L1_lin : forall n a f b g i,
  L1 n (fun i => a * f i + b * g i) i = a * L1 n f i + b * L1 n g i.
Proof. intros. unfold L1. destruct (1 <=? i)%nat, (i + 1 <? n)%nat; ring. Qed.

Lemma L1_ext : forall n f g i, (i < n)%nat -> (forall j, (j < n)%nat -> f j = g j) -> L1 n f i = L1 n g i.
Proof.
  intros n f g i Hi H. unfold L1. rewrite (H i Hi).
  destruct (Nat.leb_spec 1 i), (Nat.ltb_spec (i + 1) n);
    rewrite ?(H (i - 1)%nat) by lia; rewrite ?(H (i + 1)%nat) by lia; reflexivity.
Qed.

Lemma L2_lin : forall n a f b g r c,
  L2 n (fun r c => a * f r c + b * g r c) r c = a * L2 n f r c + b * L2 n g r c.
Proof.
  intros. unfold L2. rewrite (L1_lin n a (fun r => f r c) b (fun r => g r c)).
  rewrite (L1_lin n a (fun c => f r c) b (fun c => g r c)). ring.
Qed.
End GalleryExact.
