(** C110: CG on the Poisson systems of pykrylov/gallery/gallery.py:3-29, cg.py:46-165. *)
From Coq Require Import List ZArith QArith Qreals Reals Lia Lra Psatz Bool.
From Verif Require Import Base Num ToolsModel CgModel CgProof PropCg Gallery PropTools ClientReal PropRate.
Import ListNotations.
Local Open Scope R_scope.

(** ** Bounds of the quadratic forms. *)
Notation sq2 f n := (sumn n (fun i => f i * f i)).
Lemma form1_upper : forall n f, sumn n (fun i => f i * L1 n f i) <= 4 * sq2 f n.
Proof.
  intros [|n] f; [cbn; lra|].
  assert (ID : 4 * sq2 f (S n) - sumn (S n) (fun i => f i * L1 (S n) f i) =
    f 0%nat * f 0%nat + f n * f n + sumn n (fun i => (f i + f (i + 1)%nat) * (f i + f (i + 1)%nat))).
  { rewrite form1. replace (S n - 1)%nat with n by lia. induction n as [|n IH]; [cbn; ring|].
    cbn [sumn] in *. replace (n + 1)%nat with (S n) by lia. lra. }
  assert (0 <= sumn n (fun i => (f i + f (i + 1)%nat) * (f i + f (i + 1)%nat))) by (apply sumn_nonneg; intros; apply Rle_0_sqr).
  pose proof (Rle_0_sqr (f 0%nat)). pose proof (Rle_0_sqr (f n)). unfold Rsqr in *. lra.
Qed.
(** |f k|^2 <= (k+1) (f(0)^2 + the squares of the differences up to k) *)
Lemma walk : forall f k, f k * f k <= (INR k + 1) * (f 0%nat * f 0%nat + sumn k (fun i => (f i - f (i + 1)%nat) * (f i - f (i + 1)%nat))).
Proof.
  intros f k. induction k as [|k IH]; [cbn; lra|]. cbn [sumn]. rewrite S_INR. replace (k + 1)%nat with (S k) by lia.
  set (D := f 0%nat * f 0%nat + sumn k (fun i => (f i - f (i + 1)%nat) * (f i - f (i + 1)%nat))) in *.
  set (e := f k - f (S k)). replace (f (S k)) with (f k - e) by (unfold e; ring).
  assert (KP : 1 <= INR k + 1) by (pose proof (pos_INR k); lra). set (t := INR k + 1) in *.
  assert (ID : (f k - e) * (f k - e) <= (t + 1) * / t * (f k * f k) + (t + 1) * (e * e)).
  { assert (TI : t * / t = 1) by (apply Rinv_r; lra).
    assert (Q : 0 <= / t * ((f k + t * e) * (f k + t * e))).
    { apply Rmult_le_pos; [left; apply Rinv_0_lt_compat; lra|apply Rle_0_sqr]. }
    replace (/ t * ((f k + t * e) * (f k + t * e))) with (/ t * (f k * f k) + 2 * (t * / t) * (f k * e) + (t * / t) * t * (e * e)) in Q by ring.
    replace ((t + 1) * / t * (f k * f k)) with ((t * / t) * (f k * f k) + / t * (f k * f k)) by ring. rewrite TI in *. lra. }
  assert (G : (t + 1) * / t * (f k * f k) <= (t + 1) * D).
  { rewrite Rmult_assoc. apply Rmult_le_compat_l; [lra|]. apply (Rmult_le_reg_l t); [lra|]. rewrite <- Rmult_assoc, Rinv_r, Rmult_1_l by lra. exact IH. }
  replace (f 0%nat * f 0%nat + (sumn k (fun i => (f i - f (i + 1)%nat) * (f i - f (i + 1)%nat)) + e * e)) with (D + e * e) by (unfold D; ring). lra.
Qed.
Lemma sumn_le : forall n f g, (forall i, (i < n)%nat -> f i <= g i) -> sumn n f <= sumn n g.
Proof.
  induction n as [|n IH]; intros f g H; cbn [sumn]; [lra|]. pose proof (IH f g (fun i Hi => H i (Nat.lt_lt_succ_r _ _ Hi))). pose proof (H n (Nat.lt_succ_diag_r n)). lra.
Qed.
Lemma sum_tri : forall n q, sumn n (fun k => (INR k + 1) * q) = INR n * (INR n + 1) / 2 * q.
Proof. induction n as [|n IH]; intro q; [cbn; field|]. cbn [sumn]. rewrite IH, S_INR. field. Qed.
Lemma form1_lower : forall n f, sq2 f n <= INR n * (INR n + 1) / 2 * sumn n (fun i => f i * L1 n f i).
Proof.
  intros [|n] f; [cbn; lra|]. rewrite form1_sq. rewrite <- sum_tri. apply sumn_le. intros i Hi.
  eapply Rle_trans; [apply walk|]. apply Rmult_le_compat_l; [pose proof (pos_INR i); lra|].
  assert (M : sumn i (fun i => (f i - f (i + 1)%nat) * (f i - f (i + 1)%nat)) <= sumn n (fun i => (f i - f (i + 1)%nat) * (f i - f (i + 1)%nat))).
  { replace n with (i + (n - i))%nat by lia. rewrite sumn_add.
    assert (0 <= sumn (n - i) (fun j => (f (i + j)%nat - f (i + j + 1)%nat) * (f (i + j)%nat - f (i + j + 1)%nat))) by (apply sumn_nonneg; intros; apply Rle_0_sqr). lra. }
  pose proof (Rle_0_sqr (f n)). unfold Rsqr in *. lra.
Qed.
Lemma form2_bounds : forall n f, let S2 := sumn n (fun r => sumn n (fun c => f r c * f r c)) in
  let Q := sumn n (fun r => sumn n (fun c => f r c * L2 n f r c)) in
  2 * S2 <= INR n * (INR n + 1) / 2 * Q /\ Q <= 8 * S2.
Proof.
  intros n f S2 Q. unfold Q. rewrite form2.
  assert (SW : S2 = sumn n (fun c => sumn n (fun r => f r c * f r c))) by (unfold S2; apply sumn_swap).
  set (Q1 := sumn n (fun c => sumn n (fun r => f r c * L1 n (fun r => f r c) r))).
  set (Q2 := sumn n (fun r => sumn n (fun c => f r c * L1 n (fun c => f r c) c))).
  assert (U1 : Q1 <= 4 * S2) by (rewrite SW, <- sumn_scale; apply sumn_le; intros c _; exact (form1_upper n (fun r => f r c))).
  assert (U2 : Q2 <= 4 * S2) by (unfold S2; rewrite <- sumn_scale; apply sumn_le; intros r _; exact (form1_upper n (fun c => f r c))).
  assert (D1 : S2 <= INR n * (INR n + 1) / 2 * Q1) by (rewrite SW; unfold Q1; rewrite <- sumn_scale; apply sumn_le; intros c _; exact (form1_lower n (fun r => f r c))).
  assert (D2 : S2 <= INR n * (INR n + 1) / 2 * Q2) by (unfold S2, Q2; rewrite <- sumn_scale; apply sumn_le; intros r _; exact (form1_lower n (fun c => f r c))).
  split; lra.
Qed.

(** ** Vectors of R^n and numpy arrays. *)
Lemma sumn_first : forall n f, sumn (S n) f = f 0%nat + sumn n (fun i => f (S i)).
Proof. intros n f. change (S n) with (1 + n)%nat. rewrite sumn_add. cbn [sumn]. rewrite Rplus_0_l. reflexivity. Qed.
Lemma ip_ldot : forall n (u v : iv (Rn n)), ip u v = ldot (tolist (u : rv n)) (tolist (v : rv n)).
Proof.
  intro n. change (forall u v : rv n, rvdot u v = ldot (tolist u) (tolist v)). induction n as [|n IH]; intros u v; [reflexivity|].
  destruct u as [a u], v as [b v]. unfold ldot. cbn [tolist fst snd length]. rewrite sumn_first. cbn [nth].
  change (rvdot ((a, u) : rv (S n)) ((b, v) : rv (S n))) with (a * b + rvdot u v). rewrite IH. reflexivity.
Qed.

Section Solve.
Variables (dv : R -> R -> R) (sq : R -> R).
Notation KK := (exactK dv sq).
(** A multiplies with the function of the gallery. *)
Definition poisson1d_op (n : nat) (A : rv n -> rv n) : Prop := forall x, @poisson1d KK (tolist x) = Ok (tolist (A x)).
Definition poisson2d_op (n : nat) (A : rv (n * n) -> rv (n * n)) : Prop := forall x, @poisson2d KK (tolist x) = Ok (tolist (A x)).

Theorem C110_operator : forall n, (1 <= n)%nat -> (exists A, poisson1d_op n A) /\ (exists A, poisson2d_op n A).
Proof.
  intros n Hn. split.
  - exists (fun x => oflist n (match @poisson1d KK (tolist x) with Ok y => y | Err _ => [] end)). intro x.
    destruct (poisson1d_exact dv sq (tolist x)) as (y & E & L & _); [rewrite tolist_len; exact Hn|]. rewrite E, tolist_oflist; [reflexivity|].
    rewrite L. apply tolist_len.
  - exists (fun x => oflist (n * n) (match @poisson2d KK (tolist x) with Ok y => y | Err _ => [] end)). intro x.
    destruct (poisson2d_exact dv sq n (tolist x) Hn (tolist_len _ x)) as (y & E & L & _). rewrite E, tolist_oflist; [reflexivity|exact L].
Qed.

Theorem C110_bounds1 : forall n (A : iv (Rn n) -> iv (Rn n)), (1 <= n)%nat -> poisson1d_op n A ->
  selfadj A /\ forall z : iv (Rn n), 2 / (INR n * (INR n + 1)) * ip z z <= ip z (A z) <= 4 * ip z z.
Proof.
  intros n A Hn PO.
  assert (N0 : 0 < INR n) by (apply lt_0_INR; lia). assert (NP : 0 < INR n * (INR n + 1)) by nra.
  split.
  - intros u v. rewrite !ip_ldot.
    destruct (C62_symmetric dv sq (tolist (u : rv n)) (tolist (v : rv n))) as (y & w & E & E' & D); [rewrite tolist_len; exact Hn|rewrite !tolist_len; reflexivity|].
    rewrite (PO u) in E. rewrite (PO v) in E'. injection E as <-. injection E' as <-. first [exact D|exact (eq_sym D)].
  - intro z. rewrite !ip_ldot.
    destruct (poisson1d_exact dv sq (tolist (z : rv n))) as (y & E & L & N); [rewrite tolist_len; exact Hn|].
    rewrite (PO z) in E. injection E as <-. rewrite tolist_len in N. unfold ldot. rewrite tolist_len.
    pose (f := fun i => nth i (tolist (z : rv n)) 0).
    change (2 / (INR n * (INR n + 1)) * sq2 f n <= sumn n (fun i => f i * nth i (tolist (A z : rv n)) 0) <= 4 * sq2 f n).
    assert (F : sumn n (fun i => f i * nth i (tolist (A z : rv n)) 0) = sumn n (fun i => f i * L1 n f i))
      by (apply sumn_ext; intros i Hi; f_equal; exact (N i Hi)).
    pose proof (form1_upper n f) as U. pose proof (form1_lower n f) as Lo.
    rewrite F. split; [|exact U]. apply (Rmult_le_reg_l (INR n * (INR n + 1) / 2)); [lra|].
    replace (INR n * (INR n + 1) / 2 * (2 / (INR n * (INR n + 1)) * sq2 f n)) with (sq2 f n) by (field; lra). exact Lo.
Qed.

Theorem C110_bounds2 : forall n (A : iv (Rn (n * n)) -> iv (Rn (n * n))), (1 <= n)%nat -> poisson2d_op n A ->
  selfadj A /\ forall z : iv (Rn (n * n)), 4 / (INR n * (INR n + 1)) * ip z z <= ip z (A z) <= 8 * ip z z.
Proof.
  intros n A Hn PO.
  assert (N0 : 0 < INR n) by (apply lt_0_INR; lia). assert (NP : 0 < INR n * (INR n + 1)) by nra.
  split.
  - intros u v. rewrite !ip_ldot.
    destruct (C63_symmetric dv sq n (tolist (u : rv (n * n))) (tolist (v : rv (n * n))) Hn (tolist_len _ _) (tolist_len _ _)) as (y & w & E & E' & D).
    rewrite (PO u) in E. rewrite (PO v) in E'. injection E as <-. injection E' as <-. first [exact D|exact (eq_sym D)].
  - intro z. rewrite !ip_ldot.
    destruct (poisson2d_exact dv sq n (tolist (z : rv (n * n))) Hn (tolist_len _ _)) as (y & E & L & N).
    rewrite (PO z) in E. injection E as <-. rewrite !(ldot_grid n) by apply tolist_len.
    pose (f := fun r c => nth (r * n + c) (tolist (z : rv (n * n))) 0).
    change (4 / (INR n * (INR n + 1)) * sumn n (fun r => sumn n (fun c => f r c * f r c)) <=
      sumn n (fun r => sumn n (fun c => f r c * nth (r * n + c) (tolist (A z : rv (n * n))) 0)) <= 8 * sumn n (fun r => sumn n (fun c => f r c * f r c))).
    assert (F : sumn n (fun r => sumn n (fun c => f r c * nth (r * n + c) (tolist (A z : rv (n * n))) 0)) =
      sumn n (fun r => sumn n (fun c => f r c * L2 n f r c))).
    { apply sumn_ext; intros r Hr. apply sumn_ext; intros c Hc. f_equal. exact (N r c Hr Hc). }
    pose proof (form2_bounds n f) as B. cbv zeta in B. destruct B as [Lo U].
    rewrite F. set (s := sumn n (fun r => sumn n (fun c => f r c * f r c))) in *. split; [|exact U].
    apply (Rmult_le_reg_l (INR n * (INR n + 1) / 2)); [lra|].
    replace (INR n * (INR n + 1) / 2 * (4 / (INR n * (INR n + 1)) * s)) with (2 * s) by (field; lra). exact Lo.
Qed.

(** The Chebyshev bound in terms of a logarithm. *)
Lemma exp_le_compl : forall x, 0 <= x <= 1 -> 1 - x <= exp (- x).
Proof. intros x H. pose proof (exp_ineq1_le (- x)). lra. Qed.
Lemma cheb_log : forall m M s tol K, 0 < m < M -> sqrt (M / m) <= s -> 0 < tol -> (s + 1) / 2 * ln (2 * s / tol) <= INR K ->
  2 * sqrt (M / m) * ((sqrt M - sqrt m) / (sqrt M + sqrt m)) ^ K <= tol.
Proof.
  intros m M s tol K [m0 mM] HS T HK.
  assert (Sm : 0 < sqrt m) by (apply sqrt_lt_R0; lra). assert (SM : sqrt m < sqrt M) by (apply sqrt_lt_1; lra).
  set (k := sqrt (M / m)) in *.
  assert (KE : k * sqrt m = sqrt M).
  { unfold k. rewrite <- sqrt_mult by (try (left; apply Rdiv_lt_0_compat); lra). f_equal. field. lra. }
  assert (K1 : 1 < k) by (apply (Rmult_lt_reg_r (sqrt m)); lra).
  set (rho := (sqrt M - sqrt m) / (sqrt M + sqrt m)).
  assert (RE : rho = 1 - 2 / (k + 1)) by (unfold rho; rewrite <- KE; field; split; nra).
  assert (I : / (s + 1) <= / (k + 1)) by (apply Rinv_le_contravar; lra).
  assert (R0 : 0 <= rho) by (unfold rho; apply Rmult_le_pos; [lra|left; apply Rinv_0_lt_compat; lra]).
  assert (IS : 0 < / (s + 1)) by (apply Rinv_0_lt_compat; lra).
  assert (I1 : 2 / (s + 1) <= 1) by (unfold Rdiv in *; lra).
  assert (RL : rho <= exp (- (2 / (s + 1)))).
  { eapply Rle_trans; [|apply exp_le_compl; unfold Rdiv in *; lra]. rewrite RE. unfold Rdiv. lra. }
  assert (PW : rho ^ K <= exp (- (2 / (s + 1)) * INR K)).
  { clear HK. induction K as [|K IH]; [cbn [pow INR]; rewrite Rmult_0_r, exp_0; lra|]. cbn [pow]. rewrite S_INR.
    replace (- (2 / (s + 1)) * (INR K + 1)) with (- (2 / (s + 1)) + - (2 / (s + 1)) * INR K) by ring. rewrite exp_plus.
    apply Rmult_le_compat; try assumption. apply pow_le. exact R0. }
  assert (EX : exp (- (2 / (s + 1)) * INR K) <= tol / (2 * s)).
  { assert (LN : ln (2 * s / tol) <= 2 / (s + 1) * INR K).
    { apply (Rmult_le_reg_l ((s + 1) / 2)); [lra|]. replace ((s + 1) / 2 * (2 / (s + 1) * INR K)) with (INR K) by (field; lra). exact HK. }
    assert (P : 0 < 2 * s / tol) by (apply Rdiv_lt_0_compat; lra).
    replace (tol / (2 * s)) with (exp (- ln (2 * s / tol))).
    - destruct (Rle_lt_or_eq_dec _ _ LN) as [LT|EQ]; [left; apply exp_increasing; lra|right; f_equal; lra].
    - rewrite exp_Ropp, exp_ln by exact P. field. lra. }
  apply Rle_trans with (2 * k * (tol / (2 * s))).
  - apply Rmult_le_compat_l; lra.
  - replace (2 * k * (tol / (2 * s))) with (tol * (k / s)) by (field; lra).
    assert (k / s <= 1) by (apply (Rmult_le_reg_r s); [lra|]; unfold Rdiv; rewrite Rmult_assoc, Rinv_l by lra; lra). nra.
Qed.

(** CG with default budget on a symmetric operator with condition number at most s^2. *)
Lemma cg_log : forall N (q : kprob (exactV dv sq (Rn N))) kw o (b : iv (Rn N)) cnt m M s,
  let A := q_A q : iv (Rn N) -> iv (Rn N) in
  let g := match k_guess kw with Some _ => 1%nat | None => 0%nat end in
  dv_ok dv -> sq_ok sq -> selfadj A -> q_P q = None -> 0 <= (q_abstol q : R) -> 0 < (q_reltol q : R) -> k_sym kw = false -> k_mmax kw = None ->
  0 < m < M -> (forall z : iv (Rn N), m * ip z z <= ip z (A z) <= M * ip z z) -> sqrt (M / m) <= s ->
  exists o' cnt', cg_solve (2 * N + 1) q o b kw cnt = Ok (o', cnt') /\ g_conv o' = true /\ g_def o' = Some true /\ (g_nmv o' <= N + g)%nat /\
    forall K, (s + 1) / 2 * ln (2 * s / q_reltol q) <= INR K -> (g_nmv o' <= K + g)%nat.
Proof.
  intros N q kw o b cnt m M s A g DV SQ SA NP AT RT NS MX mM Am HS.
  assert (PA : posdef A) by (intros u Nu; pose proof (Am u); pose proof (ip_nz _ Nu); nra).
  destruct (C37_Rn_default dv sq N q kw o b cnt DV SQ SA PA NP AT NS MX) as (o' & cnt' & H & CV & DF & NM).
  exists o', cnt'. split; [exact H|]. split; [exact CV|]. split; [exact DF|]. split; [exact NM|]. intros K HK.
  destruct (spd_solvable N A b SA PA) as [xs HX].
  destruct (C89_rate dv sq (Rn N) q kw b DV SQ SA PA NP AT NS m M (proj1 mM) (proj2 mM) Am _ o cnt o' cnt' H xs HX)
    as (k & x & Hn & _ & _ & _ & HR).
  destruct (HR K (cheb_log m M s (q_reltol q) K mM HS RT HK)) as [Lk _]. rewrite Hn. fold g. lia.
Qed.
Lemma root_bound : forall n c, (1 <= n)%nat -> 0 < c -> sqrt (2 * c / (c / (INR n * (INR n + 1)))) <= 3 / 2 * (INR n + 1).
Proof.
  intros n c Hn C0. assert (0 < INR n) by (apply lt_0_INR; lia).
  replace (2 * c / (c / (INR n * (INR n + 1)))) with (2 * (INR n * (INR n + 1))) by (field; lra).
  rewrite <- (sqrt_square (3 / 2 * (INR n + 1))) by lra. apply sqrt_le_1_alt. nra.
Qed.

(** CG with the default budget, started anywhere, solves every Poisson system: with at most as many products as unknowns, and with at
    most (s+1)/2 ln (2 s / reltol) of them, s = 3/2 (n+1), where n is the number of grid points in one direction (plus one for a guess). *)
Lemma cg_poisson : forall N n c (q : kprob (exactV dv sq (Rn N))) kw o (b : iv (Rn N)) cnt,
  let A := q_A q : iv (Rn N) -> iv (Rn N) in
  let g := match k_guess kw with Some _ => 1%nat | None => 0%nat end in
  let s := 3 / 2 * (INR n + 1) in
  let resid x := inorm (isub b (A x)) in
  dv_ok dv -> sq_ok sq -> (1 <= n)%nat -> 0 < c -> selfadj A ->
  (forall z : iv (Rn N), c / (INR n * (INR n + 1)) * ip z z <= ip z (A z) <= 2 * c * ip z z) ->
  q_P q = None -> 0 <= (q_abstol q : R) -> 0 < (q_reltol q : R) -> k_sym kw = false -> k_mmax kw = None ->
  exists o' cnt' x, cg_solve (2 * N + 1) q o b kw cnt = Ok (o', cnt') /\ g_conv o' = true /\ g_def o' = Some true /\
    g_x o' = Some (x : vc (exactV dv sq (Rn N))) /\
    resid x <= Rmax (q_abstol q) (q_reltol q * resid (@start _ (exactV dv sq (Rn N)) kw b)) /\
    (g_nmv o' <= N + g)%nat /\ forall K, (s + 1) / 2 * ln (2 * s / q_reltol q) <= INR K -> (g_nmv o' <= K + g)%nat.
Proof.
  intros N n c q kw o b cnt A g s resid DV SQ Hn C0 SA Am NP AT RT NS MX.
  assert (N1 : 1 <= INR n) by (apply (le_INR 1); exact Hn).
  assert (mM : 0 < c / (INR n * (INR n + 1)) < 2 * c).
  { split; [apply Rdiv_lt_0_compat; nra|]. apply (Rmult_lt_reg_r (INR n * (INR n + 1))); [nra|].
    unfold Rdiv. rewrite Rmult_assoc, Rinv_l by nra. nra. }
  destruct (cg_log N q kw o b cnt _ _ s DV SQ SA NP AT RT NS MX mM Am (root_bound n c Hn C0)) as (o' & cnt' & H & CV & DF & NM & HK).
  destruct (C36_residual dv sq (Rn N) q kw o b cnt _ o' cnt' (adjoint_lin _ _ SA) SQ NP NS H) as (x & GX & _ & _ & CI).
  exists o', cnt', x. repeat (split; [first [assumption|apply CI; exact CV]|]). exact HK.
Qed.
Theorem C110_cg1 : forall n (q : kprob (exactV dv sq (Rn n))) kw o (b : iv (Rn n)) cnt,
  let g := match k_guess kw with Some _ => 1%nat | None => 0%nat end in
  let s := 3 / 2 * (INR n + 1) in
  let resid x := inorm (isub b (q_A q x : iv (Rn n))) in
  dv_ok dv -> sq_ok sq -> (1 <= n)%nat -> poisson1d_op n (q_A q) ->
  q_P q = None -> 0 <= (q_abstol q : R) -> 0 < (q_reltol q : R) -> k_sym kw = false -> k_mmax kw = None ->
  exists o' cnt' x, cg_solve (2 * n + 1) q o b kw cnt = Ok (o', cnt') /\ g_conv o' = true /\ g_def o' = Some true /\
    g_x o' = Some (x : vc (exactV dv sq (Rn n))) /\
    resid x <= Rmax (q_abstol q) (q_reltol q * resid (@start _ (exactV dv sq (Rn n)) kw b)) /\
    (g_nmv o' <= n + g)%nat /\ forall K, (s + 1) / 2 * ln (2 * s / q_reltol q) <= INR K -> (g_nmv o' <= K + g)%nat.
Proof.
  intros n q kw o b cnt g s resid DV SQ Hn PO. destruct (C110_bounds1 n (q_A q) Hn PO) as [SA Am].
  apply (cg_poisson n n 2 q kw o b cnt DV SQ Hn); [lra|exact SA|]. intro z. specialize (Am z). lra.
Qed.
Theorem C110_cg2 : forall n (q : kprob (exactV dv sq (Rn (n * n)))) kw o (b : iv (Rn (n * n))) cnt,
  let g := match k_guess kw with Some _ => 1%nat | None => 0%nat end in
  let s := 3 / 2 * (INR n + 1) in
  let resid x := inorm (isub b (q_A q x : iv (Rn (n * n)))) in
  dv_ok dv -> sq_ok sq -> (1 <= n)%nat -> poisson2d_op n (q_A q) ->
  q_P q = None -> 0 <= (q_abstol q : R) -> 0 < (q_reltol q : R) -> k_sym kw = false -> k_mmax kw = None ->
  exists o' cnt' x, cg_solve (2 * (n * n) + 1) q o b kw cnt = Ok (o', cnt') /\ g_conv o' = true /\ g_def o' = Some true /\
    g_x o' = Some (x : vc (exactV dv sq (Rn (n * n)))) /\
    resid x <= Rmax (q_abstol q) (q_reltol q * resid (@start _ (exactV dv sq (Rn (n * n))) kw b)) /\
    (g_nmv o' <= n * n + g)%nat /\ forall K, (s + 1) / 2 * ln (2 * s / q_reltol q) <= INR K -> (g_nmv o' <= K + g)%nat.
Proof.
  intros n q kw o b cnt g s resid DV SQ Hn PO. destruct (C110_bounds2 n (q_A q) Hn PO) as [SA Am].
  apply (cg_poisson (n * n) n 4 q kw o b cnt DV SQ Hn); [lra|exact SA|]. intro z. specialize (Am z). lra.
Qed.
End Solve.

(** ** Example: the five-point system on a 2 x 2 grid meets the hypotheses. *)
Definition pA22 (x : rv 4) : rv 4 := oflist 4 (match @poisson2d (exactK Rdiv sqrt) (tolist x) with Ok y => y | Err _ => [] end).
Definition q22 : kprob (exactV Rdiv sqrt (Rn 4)) :=
  @mkprob (exactK Rdiv sqrt) (exactV Rdiv sqrt (Rn 4)) 4 4 (pA22 : vc (exactV Rdiv sqrt (Rn 4)) -> _) None 0 (1 / 100) (fun x => x) [].
Lemma ex_pA22 : poisson2d_op Rdiv sqrt 2 pA22.
Proof.
  intro x. unfold pA22. destruct (poisson2d_exact Rdiv sqrt 2 (tolist x) (le_S _ _ (le_n 1)) (tolist_len _ x)) as (y & E & L & _).
  change (rv 4) in x. change (2 * 2)%nat with 4%nat in *. rewrite E. rewrite (tolist_oflist 4 y L). reflexivity.
Qed.
Example ex_C110 : tolist (pA22 (1, (2, (3, (4, tt))))) = [-1; 3; 7; 11] /\
  exists o' cnt' x, cg_solve 9 q22 cg_new ((1, (2, (3, (4, tt)))) : vc (exactV Rdiv sqrt (Rn 4))) cg_kw0 0 = Ok (o', cnt') /\
    g_conv o' = true /\ g_x o' = Some (x : vc (exactV Rdiv sqrt (Rn 4))) /\ (g_nmv o' <= 4)%nat.
Proof.
  split.
  - destruct (poisson2d_exact Rdiv sqrt 2 [1; 2; 3; 4] (le_S _ _ (le_n 1)) eq_refl) as (y & E & L & N).
    pose proof (ex_pA22 (1, (2, (3, (4, tt))))) as H. 
    change (@poisson2d (exactK Rdiv sqrt) [1; 2; 3; 4] = Ok (tolist (pA22 (1, (2, (3, (4, tt))))))) in H. rewrite E in H.
    assert (Y : y = tolist (pA22 (1, (2, (3, (4, tt)))))) by (injection H as H'; exact H'). rewrite <- Y.
    pose proof (N 0%nat 0%nat ltac:(lia) ltac:(lia)) as N0. pose proof (N 0%nat 1%nat ltac:(lia) ltac:(lia)) as N1.
    pose proof (N 1%nat 0%nat ltac:(lia) ltac:(lia)) as N2. pose proof (N 1%nat 1%nat ltac:(lia) ltac:(lia)) as N3.
    destruct y as [|a [|b [|c [|d [|]]]]]; try discriminate L. unfold L2, L1 in N0, N1, N2, N3. cbn in N0, N1, N2, N3.
    repeat (apply (f_equal2 (@cons R)); [lra|]). reflexivity.
  - destruct (C110_cg2 Rdiv sqrt 2 q22 cg_kw0 cg_new ((1, (2, (3, (4, tt)))) : rv 4) 0 Rdiv_ok sqrt_ok (le_S _ _ (le_n 1)) ex_pA22
      eq_refl (Rle_refl 0) ltac:(cbn; lra) eq_refl eq_refl) as (o' & cnt' & x & H & CV & _ & GX & _ & NM & _).
    exists o', cnt', x. split; [exact H|]. split; [exact CV|]. split; [exact GX|]. cbn in NM. lia.
Qed.
Print Assumptions C110_cg2.
