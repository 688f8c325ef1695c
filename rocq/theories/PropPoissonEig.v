(** C110 continued: the eigenvectors of pykrylov/gallery/gallery.py:3-29, and CG (cg.py:46-165) on them. *)
From Coq Require Import List ZArith QArith Qreals Reals Lia Lra Psatz Bool.
From Verif Require Import Base Num ToolsModel CgModel CgProof PropCg Gallery PropTools ClientReal Cheb PropRate PropPoisson.
Import ListNotations.
Local Open Scope R_scope.

(** The k-th sine on n points: sin (k (i+1) pi / (n+1)), and the number that belongs to it. *)
Definition wave (n k i : nat) : R := sin (INR (i + 1) * (INR k * (PI / INR (n + 1)))).
Definition freq (n k : nat) : R := 2 - 2 * cos (INR k * (PI / INR (n + 1))).

Lemma sin_INR_PI : forall k, sin (INR k * PI) = 0.
Proof.
  induction k as [|k IH]; [cbn [INR]; rewrite Rmult_0_l; apply sin_0|].
  rewrite S_INR, Rmult_plus_distr_r, Rmult_1_l, neg_sin, IH. ring.
Qed.
Lemma three : forall x t, 2 * sin x - sin (x - t) - sin (x + t) = (2 - 2 * cos t) * sin x.
Proof. intros x t. rewrite sin_minus, sin_plus. ring. Qed.
Lemma L1_wave : forall n k i, (i < n)%nat -> L1 n (wave n k) i = freq n k * wave n k i.
Proof.
  intros n k i Hi. unfold L1, freq. set (t := INR k * (PI / INR (n + 1))).
  assert (W : forall j, wave n k j = sin (INR (j + 1) * t)) by reflexivity.
  assert (P : (if (1 <=? i)%nat then wave n k (i - 1) else 0) = sin (INR (i + 1) * t - t)).
  { destruct (Nat.leb_spec 1 i).
    - rewrite W. f_equal. replace (i + 1)%nat with (S (i - 1 + 1)) by lia. rewrite S_INR. ring.
    - replace i with 0%nat by lia. cbn [INR Nat.add]. rewrite Rmult_1_l, Rminus_diag_eq, sin_0 by reflexivity. reflexivity. }
  assert (Q : (if (i + 1 <? n)%nat then wave n k (i + 1) else 0) = sin (INR (i + 1) * t + t)).
  { replace (INR (i + 1) * t + t) with (INR (i + 1 + 1) * t) by (rewrite (plus_INR (i + 1) 1); cbn [INR]; ring).
    destruct (Nat.ltb_spec (i + 1) n); [reflexivity|]. replace (i + 1 + 1)%nat with (n + 1)%nat by lia.
    unfold t. replace (INR (n + 1) * (INR k * (PI / INR (n + 1)))) with (INR k * PI); [symmetry; apply sin_INR_PI|].
    field. apply not_0_INR. lia. }
  rewrite P, Q, W. apply three.
Qed.
Lemma L1_ext : forall n f g i, (i < n)%nat -> (forall j, (j < n)%nat -> f j = g j) -> L1 n f i = L1 n g i.
Proof.
  intros n f g i Hi H. unfold L1. rewrite (H i Hi). f_equal; [f_equal|].
  - destruct (Nat.leb_spec 1 i); [apply H; lia|reflexivity].
  - destruct (Nat.ltb_spec (i + 1) n); [apply H; lia|reflexivity].
Qed.
Lemma L1_scale : forall n f c i, L1 n (fun j => c * f j) i = c * L1 n f i.
Proof. intros n f c i. unfold L1. destruct (1 <=? i)%nat, (i + 1 <? n)%nat; ring. Qed.
Lemma angle : forall n k, (1 <= k <= n)%nat -> 0 < INR k * (PI / INR (n + 1)) < PI.
Proof.
  intros n k [H1 H2]. assert (P0 := PI_RGT_0). assert (N0 : 0 < INR (n + 1)) by (apply lt_0_INR; lia).
  assert (K0 : 0 < INR k) by (apply lt_0_INR; lia). assert (KN : INR k < INR (n + 1)) by (apply lt_INR; lia).
  assert (T : 0 < PI / INR (n + 1)) by (apply Rdiv_lt_0_compat; assumption). split; [apply Rmult_lt_0_compat; assumption|].
  replace PI with (INR (n + 1) * (PI / INR (n + 1))) at 2 by (field; lra). apply Rmult_lt_compat_r; assumption.
Qed.
Lemma freq_pos : forall n k, (1 <= k <= n)%nat -> 0 < freq n k.
Proof.
  intros n k H. destruct (angle n k H) as [A B]. unfold freq. set (t := INR k * (PI / INR (n + 1))) in *.
  assert (cos t < cos 0) by (apply cos_decreasing_1; lra). rewrite cos_0 in *. lra.
Qed.
Lemma freq_low : forall n, (1 <= n)%nat -> freq n 1 <= (PI / INR (n + 1)) * (PI / INR (n + 1)).
Proof.
  intros n H. unfold freq. cbn [INR]. rewrite Rmult_1_l. set (t := PI / INR (n + 1)).
  assert (T : 0 < t) by (pose proof (angle n 1 ltac:(lia)) as A; cbn [INR] in A; fold t in A; lra).
  replace t with (2 * (t / 2)) at 1 by field. rewrite cos_2a_sin.
  assert (0 <= sin (t / 2) <= t / 2 \/ t / 2 < sin (t / 2) \/ sin (t / 2) < 0) as [S|[S|S]] by lra.
  - nra.
  - pose proof (sin_lt_x (t / 2) ltac:(lra)). lra.
  - assert (TP : t < PI) by (pose proof (angle n 1 ltac:(lia)) as A; cbn [INR] in A; fold t in A; lra).
    pose proof (sin_ge_0 (t / 2) ltac:(lra) ltac:(lra)). lra.
Qed.
Lemma freq_high : forall n, (1 <= n)%nat -> 2 <= freq n n.
Proof.
  intros n H. unfold freq. assert (N0 : 0 < INR (n + 1)) by (apply lt_0_INR; lia). assert (N1 : 1 <= INR n) by (apply (le_INR 1); exact H).
  destruct (angle n n ltac:(lia)) as [_ A]. set (t := INR n * (PI / INR (n + 1))) in *.
  assert (T : PI / 2 <= t).
  { unfold t. apply (Rmult_le_reg_r (INR (n + 1))); [exact N0|].
    replace (INR n * (PI / INR (n + 1)) * INR (n + 1)) with (INR n * PI) by (field; lra). rewrite plus_INR. cbn [INR]. pose proof PI_RGT_0. nra. }
  assert (C : cos t <= 0) by (apply cos_le_0; pose proof PI_RGT_0; lra). lra.
Qed.
Lemma wave_first : forall n k, (1 <= k <= n)%nat -> 0 < wave n k 0.
Proof. intros n k H. unfold wave. cbn [Nat.add INR]. rewrite Rmult_1_l. destruct (angle n k H). apply sin_gt_0; assumption. Qed.

Section Eig.
Variables (dv : R -> R -> R) (sq : R -> R).
Notation KK := (exactK dv sq).
Lemma list_ext : forall (l l' : list R), length l = length l' -> (forall i, (i < length l)%nat -> nth i l 0 = nth i l' 0) -> l = l'.
Proof. intros l l' L H. apply (nth_ext l l' 0 0 L H). Qed.
Lemma nth_scale : forall (l : list R) c i, nth i (map (Rmult c) l) 0 = c * nth i l 0.
Proof. intros l c i. rewrite <- (Rmult_0_r c) at 1. apply map_nth. Qed.

Theorem C110_eigen1 : forall n k (x : list R), (1 <= n)%nat -> length x = n -> (forall i, (i < n)%nat -> nth i x 0 = wave n k i) ->
  @poisson1d KK x = Ok (map (Rmult (freq n k)) x).
Proof.
  intros n k x Hn L W. destruct (poisson1d_exact dv sq x) as (y & E & Ly & N); [lia|]. rewrite E. f_equal.
  apply list_ext; [rewrite map_length; exact Ly|]. rewrite Ly, L in *. intros i Hi. rewrite nth_scale, (W i Hi), (N i Hi).
  rewrite (L1_ext n _ (wave n k) i Hi W). apply L1_wave. exact Hi.
Qed.
Theorem C110_eigen2 : forall n j k (x : list R), (1 <= n)%nat -> length x = (n * n)%nat ->
  (forall r c, (r < n)%nat -> (c < n)%nat -> nth (r * n + c) x 0 = wave n j r * wave n k c) ->
  @poisson2d KK x = Ok (map (Rmult (freq n j + freq n k)) x).
Proof.
  intros n j k x Hn L W. destruct (poisson2d_exact dv sq n x Hn L) as (y & E & Ly & N). rewrite E. f_equal.
  apply list_ext; [rewrite map_length, L; exact Ly|]. rewrite Ly. intros i Hi. destruct (grid_index n i Hi) as (r & c & Hr & Hc & ->).
  rewrite nth_scale, (W r c Hr Hc), (N r c Hr Hc). unfold L2.
  rewrite (L1_ext n _ (fun r => wave n k c * wave n j r) r Hr) by (intros r' Hr'; rewrite (W r' c Hr' Hc); ring).
  rewrite (L1_ext n (fun c => nth (r * n + c) x 0) (fun c => wave n j r * wave n k c) c Hc) by (intros c' Hc'; apply W; assumption).
  rewrite !L1_scale, !L1_wave by assumption. ring.
Qed.

Definition wave1 (n k : nat) : rv n := oflist n (map (wave n k) (seq 0 n)).
Definition wave2 (n j k : nat) : rv (n * n) := oflist (n * n) (map (fun i => wave n j (i / n) * wave n k (i mod n)) (seq 0 (n * n))).
Lemma nth_tab : forall (f : nat -> R) n i, (i < n)%nat -> nth i (map f (seq 0 n)) 0 = f i.
Proof. intros f n i H. rewrite (nth_indep _ 0 (f 0%nat)) by (rewrite map_length, seq_length; exact H). rewrite map_nth, seq_nth by exact H. reflexivity. Qed.
Lemma tab_len : forall (f : nat -> R) n, length (map f (seq 0 n)) = n.
Proof. intros. rewrite map_length. apply seq_length. Qed.
Lemma tolist_inj : forall n (u v : rv n), tolist u = tolist v -> u = v.
Proof. intros n u v H. rewrite <- (oflist_tolist n u), <- (oflist_tolist n v), H. reflexivity. Qed.
Lemma tolist_scale : forall n c (u : rv n), tolist (@iscale (Rn n) c u : rv n) = map (Rmult c) (tolist u).
Proof. induction n as [|n IH]; intros c u; [reflexivity|]. destruct u as [a u]. cbn [tolist fst snd map]. f_equal. apply IH. Qed.
Lemma A_wave1 : forall n k (A : rv n -> rv n), (1 <= n)%nat -> poisson1d_op dv sq n A -> A (wave1 n k) = @iscale (Rn n) (freq n k) (wave1 n k).
Proof.
  intros n k A Hn PO. apply tolist_inj. rewrite tolist_scale. pose proof (PO (wave1 n k)) as H.
  rewrite (C110_eigen1 n k) in H; [injection H as H; symmetry; exact H|exact Hn|apply tolist_len|].
  intros i Hi. unfold wave1. rewrite tolist_oflist by apply tab_len. apply nth_tab. exact Hi.
Qed.
Lemma A_wave2 : forall n j k (A : rv (n * n) -> rv (n * n)), (1 <= n)%nat -> poisson2d_op dv sq n A ->
  A (wave2 n j k) = @iscale (Rn (n * n)) (freq n j + freq n k) (wave2 n j k).
Proof.
  intros n j k A Hn PO. apply tolist_inj. rewrite tolist_scale. pose proof (PO (wave2 n j k)) as H.
  rewrite (C110_eigen2 n j k) in H; [injection H as H; symmetry; exact H|exact Hn|apply tolist_len|].
  intros r c Hr Hc. unfold wave2. rewrite tolist_oflist by apply tab_len. rewrite nth_tab by nia.
  rewrite (Nat.add_comm (r * n) c), Nat.div_add, Nat.mod_add, Nat.div_small, Nat.mod_small by lia. reflexivity.
Qed.
Lemma ip_first : forall n (u : iv (Rn n)), (1 <= n)%nat -> nth 0 (tolist (u : rv n)) 0 <> 0 -> 0 < ip u u.
Proof.
  intros [|n] u Hn H; [lia|]. apply ip_nz. intros ->. apply H. reflexivity.
Qed.
Lemma wave1_nz : forall n k, (1 <= k <= n)%nat -> 0 < @ip (Rn n) (wave1 n k) (wave1 n k).
Proof.
  intros n k H. apply ip_first; [lia|]. unfold wave1. rewrite tolist_oflist by apply tab_len. rewrite nth_tab by lia.
  apply Rgt_not_eq, wave_first. exact H.
Qed.
Lemma wave2_nz : forall n j k, (1 <= j <= n)%nat -> (1 <= k <= n)%nat -> 0 < @ip (Rn (n * n)) (wave2 n j k) (wave2 n j k).
Proof.
  intros n j k Hj H. apply ip_first; [nia|]. unfold wave2. rewrite tolist_oflist by apply tab_len. rewrite nth_tab by nia.
  rewrite Nat.div_small, Nat.mod_small by lia. apply Rgt_not_eq, Rmult_lt_0_compat; apply wave_first; assumption.
Qed.

(** The bounds of C110_bounds1 and C110_bounds2 cannot be improved but for constants. *)
Theorem C110_sharp1 : forall n (A : iv (Rn n) -> iv (Rn n)) m M, (1 <= n)%nat -> poisson1d_op dv sq n A ->
  (forall z : iv (Rn n), m * ip z z <= ip z (A z) <= M * ip z z) -> m <= PI ^ 2 / INR (n + 1) ^ 2 /\ 2 <= M.
Proof.
  intros n A m M Hn PO B. assert (N0 : INR (n + 1) <> 0) by (apply not_0_INR; lia). split.
  - destruct (B (wave1 n 1)) as [L _]. rewrite (A_wave1 n 1 A Hn PO), ip_scale in L.
    pose proof (wave1_nz n 1 ltac:(lia)). apply Rmult_le_reg_r in L; [|assumption]. eapply Rle_trans; [exact L|].
    eapply Rle_trans; [apply freq_low; exact Hn|]. right. field. exact N0.
  - destruct (B (wave1 n n)) as [_ U]. rewrite (A_wave1 n n A Hn PO), ip_scale in U.
    pose proof (wave1_nz n n ltac:(lia)). apply Rmult_le_reg_r in U; [|assumption]. pose proof (freq_high n Hn). lra.
Qed.
Theorem C110_sharp2 : forall n (A : iv (Rn (n * n)) -> iv (Rn (n * n))) m M, (1 <= n)%nat -> poisson2d_op dv sq n A ->
  (forall z : iv (Rn (n * n)), m * ip z z <= ip z (A z) <= M * ip z z) -> m <= 2 * PI ^ 2 / INR (n + 1) ^ 2 /\ 4 <= M.
Proof.
  intros n A m M Hn PO B. assert (N0 : INR (n + 1) <> 0) by (apply not_0_INR; lia). split.
  - destruct (B (wave2 n 1 1)) as [L _]. rewrite (A_wave2 n 1 1 A Hn PO), ip_scale in L.
    pose proof (wave2_nz n 1 1 ltac:(lia) ltac:(lia)). apply Rmult_le_reg_r in L; [|assumption]. pose proof (freq_low n Hn) as F.
    replace (2 * PI ^ 2 / INR (n + 1) ^ 2) with (2 * (PI / INR (n + 1) * (PI / INR (n + 1)))) by (field; exact N0). lra.
  - destruct (B (wave2 n n n)) as [_ U]. rewrite (A_wave2 n n n A Hn PO), ip_scale in U.
    pose proof (wave2_nz n n n ltac:(lia) ltac:(lia)). apply Rmult_le_reg_r in U; [|assumption]. pose proof (freq_high n Hn). lra.
Qed.

(** CG started at zero on a multiple of a sine needs one product, whatever the tolerances. *)
Lemma cg_eigen : forall N (q : kprob (exactV dv sq (Rn N))) kw (b : iv (Rn N)) l fuel o cnt o' cnt',
  let A := q_A q : iv (Rn N) -> iv (Rn N) in
  dv_ok dv -> sq_ok sq -> selfadj A -> posdef A -> q_P q = None -> 0 <= (q_abstol q : R) -> k_sym kw = false -> k_guess kw = None ->
  l <> 0 -> A b = iscale l b -> cg_solve fuel q o b kw cnt = Ok (o', cnt') -> (g_nmv o' <= 1)%nat.
Proof.
  intros N q kw b l fuel o cnt o' cnt' A DV SQ SA PA NP AT NS NG L0 EA H.
  pose proof (C89_eigenvalues dv sq (Rn N) q kw b DV SQ SA PA NP AT NS [l] ltac:(intros x [<-|[]]; exact L0)) as T.
  cbv zeta in T. rewrite NG in T.
  assert (Z : @ann (Rn N) A [l] (isub b (A (@izero (Rn N)))) = izero).
  { replace (isub b (A (@izero (Rn N)))) with b by (rewrite (lin_zero A (adjoint_lin _ _ SA)); apply (@ip_ext (Rn N)); intro w; ipx; ring).
    cbn [ann]. rewrite EA. apply (@ip_ext (Rn N)); intro w; ipx; ring. }
  destruct (T Z fuel o cnt o' cnt' H) as [G _]. exact G.
Qed.
Lemma eig_scale : forall (E : IPS) (A : iv E -> iv E) l a u, lin A -> A u = iscale l u -> A (iscale a u) = iscale l (iscale a u).
Proof. intros E A l a u LA H. rewrite (lin_scale _ LA), H. apply ip_ext; intro w. rewrite !ip_scale. ring. Qed.
Theorem C110_cg_sine : forall n k a (q : kprob (exactV dv sq (Rn n))) kw fuel o cnt o' cnt',
  dv_ok dv -> sq_ok sq -> (1 <= k <= n)%nat -> poisson1d_op dv sq n (q_A q) ->
  q_P q = None -> 0 <= (q_abstol q : R) -> k_sym kw = false -> k_guess kw = None ->
  cg_solve fuel q o (@iscale (Rn n) a (wave1 n k)) kw cnt = Ok (o', cnt') -> (g_nmv o' <= 1)%nat.
Proof.
  intros n k a q kw fuel o cnt o' cnt' DV SQ Hk PO NP AT NS NG H. assert (Hn : (1 <= n)%nat) by lia.
  destruct (C110_bounds1 dv sq n (q_A q) Hn PO) as [SA Am].
  assert (PA : posdef (q_A q : iv (Rn n) -> iv (Rn n))).
  { intros u Nu. pose proof (Am u). pose proof (ip_nz _ Nu). assert (0 < INR n) by (apply lt_0_INR; lia).
    assert (0 < 2 / (INR n * (INR n + 1))) by (apply Rdiv_lt_0_compat; nra). nra. }
  refine (cg_eigen n q kw _ (freq n k) fuel o cnt o' cnt' DV SQ SA PA NP AT NS NG (Rgt_not_eq _ _ (freq_pos n k Hk)) _ H).
  exact (eig_scale (Rn n) (q_A q) (freq n k) a (wave1 n k) (adjoint_lin _ _ SA) (A_wave1 n k (q_A q) Hn PO)).
Qed.
End Eig.

(** ** Example: on two points the first sine is a multiple of (1,1), with the number 1, and CG needs one product for it. *)
Example ex_C110_eigen : freq 2 1 = 1 /\ freq 2 2 = 3 /\ tolist (wave1 2 1) = [sqrt 3 / 2; sqrt 3 / 2].
Proof.
  assert (T : INR 1 * (PI / INR (2 + 1)) = PI / 3) by (cbn [INR Nat.add]; field).
  assert (T2 : INR 2 * (PI / INR (2 + 1)) = 2 * (PI / 3)) by (cbn [INR Nat.add]; field).
  unfold freq. rewrite T, T2, cos_PI3, cos_2PI3. split; [field|]. split; [field|].
  unfold wave1. rewrite tolist_oflist by reflexivity. cbn [map seq]. unfold wave. rewrite T. cbn [INR Nat.add].
  replace ((1 + 1) * (PI / 3)) with (2 * (PI / 3)) by ring. rewrite Rmult_1_l, sin_PI3, sin_2PI3. reflexivity.
Qed.
Example ex_C110_sine : exists A : rv 3 -> rv 3, poisson1d_op Rdiv sqrt 3 A /\
  exists o' cnt', cg_solve 7 (@mkprob (exactK Rdiv sqrt) (exactV Rdiv sqrt (Rn 3)) 3 3 (A : vc (exactV Rdiv sqrt (Rn 3)) -> _) None 0 (1 / 100) (fun x => x) [])
    cg_new (@iscale (Rn 3) 5 (wave1 3 2) : vc (exactV Rdiv sqrt (Rn 3))) cg_kw0 0 = Ok (o', cnt') /\ g_conv o' = true /\ (g_nmv o' <= 1)%nat.
Proof.
  destruct (C110_operator Rdiv sqrt 3 ltac:(lia)) as [[A PO] _]. exists A. split; [exact PO|].
  set (q := @mkprob (exactK Rdiv sqrt) (exactV Rdiv sqrt (Rn 3)) 3 3 (A : vc (exactV Rdiv sqrt (Rn 3)) -> _) None 0 (1 / 100) (fun x => x) []).
  destruct (C110_cg1 Rdiv sqrt 3 q cg_kw0 cg_new (@iscale (Rn 3) 5 (wave1 3 2)) 0 Rdiv_ok sqrt_ok ltac:(lia) PO
    eq_refl (Rle_refl 0) ltac:(cbn; lra) eq_refl eq_refl) as (o' & cnt' & x & H & CV & _).
  exists o', cnt'. split; [exact H|]. split; [exact CV|].
  exact (C110_cg_sine Rdiv sqrt 3 2 5 q cg_kw0 7 cg_new 0 o' cnt' Rdiv_ok sqrt_ok ltac:(lia) PO eq_refl (Rle_refl 0) eq_refl eq_refl H).
Qed.
Print Assumptions C110_eigen1.
Print Assumptions C110_eigen2.
Print Assumptions C110_sharp1.
Print Assumptions C110_sharp2.
Print Assumptions C110_cg_sine.
