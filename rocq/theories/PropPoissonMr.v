(** C110 continued: MINRES on the Poisson systems of pykrylov/gallery/gallery.py:3-29, minres.py:162-372, with a shift that is not positive. *)
From Coq Require Import List ZArith QArith Qreals Reals Lia Lra Psatz Bool.
From Verif Require Import Base Num ToolsModel CgModel CgProof PropCg Gallery PropTools ClientReal MinresModel MinresProof PropMinres
  PropRateLs PropMinresStop PropPoisson.
Import ListNotations.
Local Open Scope R_scope.

Lemma cheb_log1 : forall m M s tol K, 0 < m < M -> sqrt (M / m) <= s -> 0 < tol -> (s + 1) / 2 * ln (2 / tol) <= INR K ->
  2 * ((sqrt M - sqrt m) / (sqrt M + sqrt m)) ^ K <= tol.
Proof.
  intros m M s tol K mM HS T HK.
  assert (Sm : 0 < sqrt m) by (apply sqrt_lt_R0; lra). assert (SM : sqrt m < sqrt M) by (apply sqrt_lt_1; lra).
  assert (K0 : 0 < sqrt (M / m)) by (apply sqrt_lt_R0, Rdiv_lt_0_compat; lra).
  destruct (Rle_lt_dec tol 2) as [T2|T2].
  - apply (Rmult_le_reg_l (sqrt (M / m))); [exact K0|]. rewrite <- Rmult_assoc, (Rmult_comm (sqrt (M / m)) 2).
    assert (L0 : 0 <= ln (2 / tol)).
    { rewrite <- ln_1. assert (D : 1 <= 2 / tol) by (apply (Rmult_le_reg_r tol); [lra|]; unfold Rdiv; rewrite Rmult_assoc, Rinv_l by lra; lra).
      destruct D as [D|D]; [left; apply ln_increasing; lra|rewrite <- D; lra]. }
    apply (cheb_log m M (sqrt (M / m)) (sqrt (M / m) * tol) K mM (Rle_refl _)); [apply Rmult_lt_0_compat; assumption|].
    replace (2 * sqrt (M / m) / (sqrt (M / m) * tol)) with (2 / tol) by (field; lra).
    eapply Rle_trans; [|exact HK]. apply Rmult_le_compat_r; lra.
  - assert (B : 0 <= (sqrt M - sqrt m) / (sqrt M + sqrt m) <= 1).
    { split; [apply Rmult_le_pos; [lra|left; apply Rinv_0_lt_compat; lra]|]. apply (Rmult_le_reg_r (sqrt M + sqrt m)); [lra|].
      unfold Rdiv. rewrite Rmult_assoc, Rinv_l by lra. lra. }
    assert (((sqrt M - sqrt m) / (sqrt M + sqrt m)) ^ K <= 1) by (rewrite <- (pow1 K); apply pow_incr; exact B). lra.
Qed.
Lemma shifted_root : forall m M t, 0 < m < M -> 0 <= t -> sqrt ((M + t) / (m + t)) <= sqrt (M / m).
Proof.
  intros m M t mM T. apply sqrt_le_1_alt. apply (Rmult_le_reg_r (m * (m + t))); [nra|].
  replace ((M + t) / (m + t) * (m * (m + t))) with ((M + t) * m) by (field; lra).
  replace (M / m * (m * (m + t))) with (M * (m + t)) by (field; lra). nra.
Qed.

Section Solve.
Variables (dv : R -> R -> R) (sq : R -> R).
Notation KK := (exactK dv sq).
(** MINRES leaves its tests on: b/|b| is not an eigenvector as far as the code can tell. *)
Definition no_eigenvector {N} (At : iv (Rn N) -> iv (Rn N)) (b : iv (Rn N)) : Prop :=
  let u := iscale (/ inorm b) b in
  10 * @machine_eps KK * inorm b < inorm (isub (At u) (iscale (ip u (At u)) u)).
(** What is said of the run: x_i are the iterates. *)
Definition minres_fast (n N : nat) (q : kprob (exactV dv sq (Rn N))) (kw : mr_kw (exactV dv sq (Rn N))) (b : iv (Rn N))
  (hist : list R) (o : mr_out (exactV dv sq (Rn N))) : Prop :=
  let At (z : iv (Rn N)) : iv (Rn N) := isub (q_A q z : iv (Rn N)) (iscale (m_shift kw) z) in
  let s := 3 / 2 * (INR n + 1) in
  exists xs : list (iv (Rn N)), length xs = u_itn o /\ (u_x o : iv (Rn N)) = last xs izero /\
    (u_hist o : list R) = hist ++ map (fun z => inorm (isub b (At z))) xs /\
    (forall tol i z, 0 < tol -> (s + 1) / 2 * ln (2 / tol) <= INR (S i) -> nth_error xs i = Some z -> inorm (isub b (At z)) <= tol * inorm b) /\
    (0 < (m_rtol kw : R) -> no_eigenvector At b ->
      forall K, (1 <= K)%nat -> (s + 1) / 2 * ln (2 / m_rtol kw) <= INR K -> (u_itn o <= K)%nat).
Lemma minres_poisson : forall n N c (q : kprob (exactV dv sq (Rn N))) (kw : mr_kw (exactV dv sq (Rn N))) (b : iv (Rn N)) fuel hist cnt o cnt',
  let A := q_A q : iv (Rn N) -> iv (Rn N) in
  dv_ok dv -> sq_ok sq -> (1 <= n)%nat -> 0 < c -> selfadj A ->
  (forall z : iv (Rn N), c / (INR n * (INR n + 1)) * ip z z <= ip z (A z) <= 2 * c * ip z z) ->
  @machine_eps KK <= c / (INR n * (INR n + 1)) -> m_precon kw = None -> (m_shift kw : R) <= 0 ->
  @mr_solve KK _ fuel q hist b kw cnt = Ok (o, cnt') -> minres_fast n N q kw b hist o.
Proof.
  intros n N c q kw b fuel hist cnt o cnt' A DV SQ Hn C0 SA Am EM NP SH H.
  assert (N1 : 1 <= INR n) by (apply (le_INR 1); exact Hn).
  set (m := c / (INR n * (INR n + 1))) in *.
  assert (mM : 0 < m < 2 * c).
  { unfold m. split; [apply Rdiv_lt_0_compat; nra|]. apply (Rmult_lt_reg_r (INR n * (INR n + 1))); [nra|].
    unfold Rdiv. rewrite Rmult_assoc, Rinv_l by nra. nra. }
  set (t := - (m_shift kw : R)) in *. assert (T0 : 0 <= t) by (unfold t; lra).
  assert (RB : sqrt ((2 * c + t) / (m + t)) <= 3 / 2 * (INR n + 1)).
  { eapply Rle_trans; [apply shifted_root; assumption|]. apply root_bound; assumption. }
  assert (mMt : 0 < m + t < 2 * c + t) by lra.
  assert (SP : @selfadj (Rn N) (match m_precon kw with Some P => P | None => fun z => z end)) by (rewrite NP; intros x y; reflexivity).
  assert (PP : @posdef (Rn N) (match m_precon kw with Some P => P | None => fun z => z end)) by (rewrite NP; intros x y; apply ip_nz; exact y).
  pose proof (C90_minres dv sq DV SQ (Rn N) q kw b SA SP PP (m + t) (2 * c + t)) as RA.
  pose proof (C90_minres_stops dv sq DV SQ (Rn N) q kw b SA SP PP) as ST.
  cbv zeta in RA, ST. rewrite NP in RA, ST.
  assert (BD : forall z : iv (Rn N), (m + t) * ip z z <= ip z (isub (q_A q z : iv (Rn N)) (iscale (m_shift kw) z)) <= (2 * c + t) * ip z z).
  { intro z. pose proof (Am z) as Z. unfold A in Z.
    replace (ip z (isub (q_A q z : iv (Rn N)) (iscale (m_shift kw) z))) with (ip z (q_A q z : iv (Rn N)) + t * ip z z) by (unfold t; ipx; ring). lra. }
  destruct (RA (proj1 mMt) ltac:(lra) (proj2 mMt) BD fuel hist cnt o cnt' H) as (xs & L & HH & HX & HR).
  exists xs. split; [exact L|]. split; [exact HX|]. split; [exact HH|]. split.
  - intros tol i z T HK HZ. eapply Rle_trans; [exact (HR i z HZ)|]. apply Rmult_le_compat_r; [apply sqrt_pos|].
    exact (cheb_log1 _ _ _ tol (S i) mMt RB T HK).
  - intros RT NE K K1 HK.
    exact (ST (Rlt_le _ _ RT) NE (m + t) (2 * c + t) (proj1 mMt) ltac:(lra) (proj2 mMt) BD K K1 (cheb_log1 _ _ _ _ K mMt RB RT HK) fuel hist cnt o cnt' H).
Qed.

(** Poisson1dMatvec: n points.  2/(n(n+1)) is at least the machine epsilon for n up to 94906265. *)
Theorem C110_minres1 : forall n (q : kprob (exactV dv sq (Rn n))) (kw : mr_kw (exactV dv sq (Rn n))) (b : iv (Rn n)) fuel hist cnt o cnt',
  dv_ok dv -> sq_ok sq -> (1 <= n)%nat -> poisson1d_op dv sq n (q_A q) -> @machine_eps KK * (INR n * (INR n + 1)) <= 2 ->
  m_precon kw = None -> (m_shift kw : R) <= 0 ->
  @mr_solve KK _ fuel q hist b kw cnt = Ok (o, cnt') -> minres_fast n n q kw b hist o.
Proof.
  intros n q kw b fuel hist cnt o cnt' DV SQ Hn PO EM NP SH H. destruct (C110_bounds1 dv sq n (q_A q) Hn PO) as [SA Am].
  assert (N0 : 0 < INR n) by (apply lt_0_INR; lia).
  assert (Am' : forall z : iv (Rn n), 2 / (INR n * (INR n + 1)) * ip z z <= ip z (q_A q z : iv (Rn n)) <= 2 * 2 * ip z z) by (intro z; specialize (Am z); lra).
  assert (EM' : @machine_eps KK <= 2 / (INR n * (INR n + 1))).
  { apply (Rmult_le_reg_r (INR n * (INR n + 1))); [nra|]. unfold Rdiv. rewrite (Rmult_assoc 2), Rinv_l by nra. lra. }
  exact (minres_poisson n n 2 q kw b fuel hist cnt o cnt' DV SQ Hn ltac:(lra) SA Am' EM' NP SH H).
Qed.
(** Poisson2dMatvec: an n by n grid. *)
Theorem C110_minres2 : forall n (q : kprob (exactV dv sq (Rn (n * n)))) (kw : mr_kw (exactV dv sq (Rn (n * n)))) (b : iv (Rn (n * n))) fuel hist cnt o cnt',
  dv_ok dv -> sq_ok sq -> (1 <= n)%nat -> poisson2d_op dv sq n (q_A q) -> @machine_eps KK * (INR n * (INR n + 1)) <= 4 ->
  m_precon kw = None -> (m_shift kw : R) <= 0 ->
  @mr_solve KK _ fuel q hist b kw cnt = Ok (o, cnt') -> minres_fast n (n * n) q kw b hist o.
Proof.
  intros n q kw b fuel hist cnt o cnt' DV SQ Hn PO EM NP SH H. destruct (C110_bounds2 dv sq n (q_A q) Hn PO) as [SA Am].
  assert (N0 : 0 < INR n) by (apply lt_0_INR; lia).
  assert (Am' : forall z : iv (Rn (n * n)), 4 / (INR n * (INR n + 1)) * ip z z <= ip z (q_A q z : iv (Rn (n * n))) <= 2 * 4 * ip z z) by (intro z; specialize (Am z); lra).
  assert (EM' : @machine_eps KK <= 4 / (INR n * (INR n + 1))).
  { apply (Rmult_le_reg_r (INR n * (INR n + 1))); [nra|]. unfold Rdiv. rewrite (Rmult_assoc 4), Rinv_l by nra. lra. }
  exact (minres_poisson n (n * n) 4 q kw b fuel hist cnt o cnt' DV SQ Hn ltac:(lra) SA Am' EM' NP SH H).
Qed.
End Solve.


(** ** Example: the three-point system on two points with b = (1,2), where the tests are on. *)
Definition pA2 (x : rv 2) : rv 2 := oflist 2 (match @poisson1d (exactK Rdiv sqrt) (tolist x) with Ok y => y | Err _ => [] end).
Notation V2 := (exactV Rdiv sqrt (Rn 2)).
Definition pq2 : kprob V2 := @mkprob (exactK Rdiv sqrt) V2 2 2 (pA2 : vc V2 -> vc V2) None 0 0 (fun x => x) [].
Definition pkw2 : mr_kw V2 := @mkmrkw (exactK Rdiv sqrt) V2 None 0 0 [] 0 false None (1 / 2) 0 false 5 (fun _ => 0).
Lemma ex_pA2 : poisson1d_op Rdiv sqrt 2 pA2.
Proof.
  intro x. unfold pA2. destruct (poisson1d_exact Rdiv sqrt (tolist x)) as (y & E & L & _); [rewrite tolist_len; lia|].
  rewrite tolist_len in L. rewrite E. rewrite (tolist_oflist 2 y L). reflexivity.
Qed.
Lemma ex_pA2_val : forall a b, pA2 (a, (b, tt)) = (2 * a - b, (2 * b - a, tt)).
Proof.
  intros a b. unfold pA2. destruct (poisson1d_exact Rdiv sqrt [a; b]) as (y & E & L & N); [cbn; lia|].
  change (tolist ((a, (b, tt)) : rv 2)) with [a; b]. rewrite E.
  pose proof (N 0%nat ltac:(cbn; lia)) as N0. pose proof (N 1%nat ltac:(cbn; lia)) as N1.
  destruct y as [|c [|d [|]]]; try discriminate L. unfold L1 in N0, N1. cbn in N0, N1. cbn.
  replace c with (2 * a - b) by lra. replace d with (2 * b - a) by lra. reflexivity.
Qed.
Lemma ex_ne2 : @no_eigenvector Rdiv sqrt 2 (fun z : iv (Rn 2) => isub ((pA2 : iv (Rn 2) -> iv (Rn 2)) z) (iscale 0 z)) ((1, (2, tt)) : rv 2).
Proof.
  unfold no_eigenvector. assert (EB : inorm (((1, (2, tt)) : rv 2) : iv (Rn 2)) = sqrt 5) by (unfold inorm; cbn; f_equal; ring). rewrite EB.
  assert (S5 : sqrt 5 * sqrt 5 = 5) by (apply sqrt_sqrt; lra). assert (S0 : 0 < sqrt 5) by (apply sqrt_lt_R0; lra).
  set (t := / sqrt 5). assert (T : t * sqrt 5 = 1) by (unfold t; apply Rinv_l; lra). assert (T2 : t * t = 1 / 5) by nra.
  assert (EU : @iscale (Rn 2) t ((1, (2, tt)) : rv 2) = (t, (2 * t, tt))) by (cbn; f_equal; [ring|f_equal; ring]). rewrite EU.
  assert (EA : @isub (Rn 2) (pA2 (t, (2 * t, tt))) (@iscale (Rn 2) 0 (t, (2 * t, tt))) = (0, (3 * t, tt))).
  { rewrite ex_pA2_val. unfold isub, ineg. cbn. f_equal; [ring|f_equal; ring]. }
  rewrite EA. assert (EI : @ip (Rn 2) (t, (2 * t, tt)) (0, (3 * t, tt)) = 6 / 5) by (cbn; lra). rewrite EI.
  assert (EN : inorm (@isub (Rn 2) (0, (3 * t, tt)) (@iscale (Rn 2) (6 / 5) (t, (2 * t, tt)))) = 3 / 5).
  { unfold inorm. rewrite <- (sqrt_square (3 / 5)) by lra. f_equal. unfold isub, ineg. cbn. lra. }
  rewrite EN, eps_val. assert (sqrt 5 < 3) by nra. lra.
Qed.
Example ex_C110_minres : exists o cnt', @mr_solve (exactK Rdiv sqrt) V2 11 pq2 [] ((1, (2, tt)) : rv 2) pkw2 0 = Ok (o, cnt') /\ (u_itn o <= 8)%nat.
Proof.
  destruct (C47_stopping (exactK Rdiv sqrt) V2 pq2 pkw2 ((1, (2, tt)) : rv 2) 11 [] 0) as (o & c & H & _); [cbn; lia|cbn; lia|].
  exists o, c. split; [exact H|].
  destruct (C110_minres1 Rdiv sqrt 2 pq2 pkw2 ((1, (2, tt)) : rv 2) 11 [] 0 o c Rdiv_ok sqrt_ok ltac:(lia) ex_pA2
    ltac:(rewrite eps_val; cbn [INR]; lra) eq_refl (Rle_refl 0) H) as (xs & _ & _ & _ & _ & ST).
  apply (ST ltac:(change (0 < 1 / 2); lra) ex_ne2 8%nat ltac:(lia)). change (m_rtol pkw2) with (1 / 2). cbn [INR].
  assert (L4 : ln 4 <= 2). { replace 2 with (ln (exp 2)) at 1 by apply ln_exp. 
    assert (E2 : 4 <= exp 2) by (replace 2 with (1 + 1) by ring; rewrite exp_plus; pose proof (exp_ineq1 1 ltac:(lra)); nra).
    destruct E2 as [E2|E2]; [left; apply ln_increasing; lra|rewrite <- E2; lra]. }
  replace (2 / (1 / 2)) with 4 by field. nra.
Qed.
Print Assumptions C110_minres2.
