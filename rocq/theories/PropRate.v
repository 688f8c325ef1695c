(** * Property C89: CG is optimal over Krylov spaces, and how fast it converges.

    Exact arithmetic as in C36-C37 ([dv], [sq] any division and square root that are right where the
    real ones are defined).  [kry A r k z] (MinresProof.v) says that [z = p(A) r] for a polynomial [p]
    of degree less than [k]. *)
From Coq Require Import List Arith Lia Bool Reals Lra.
From Verif Require Import Base Num ToolsModel CgModel CgProof MinresProof Cheb PropCg.
Import ListNotations.
Local Open Scope R_scope.

Section Cg.
Context (dv : R -> R -> R) (sq : R -> R) (E : IPS).
Notation KK := (exactK dv sq).
Notation WW := (exactV dv sq E).
Variables (q : kprob WW) (b x0 : iv E).
Notation A := (q_A q : iv E -> iv E).
Hypothesis DV : dv_ok dv.
Hypothesis SA : selfadj A.
Hypothesis PA : posdef A.
Let LA : lin A := adjoint_lin A A SA.
Notation X := (sX dv sq E q b x0).
Notation Rs := (sR dv sq E q b x0).
Notation Ps := (sP dv sq E q b x0).
Notation alv := (alive dv sq E q b x0).
Let r0 := isub b (A x0).

Lemma R0 : Rs 0 = iscale (-1) r0.
Proof. unfold sR, r0. cbn. veq. Qed.
Lemma r0R : r0 = iscale (-1) (Rs 0).
Proof. rewrite R0. veq. Qed.
Lemma cg_kry : forall k, kry A r0 k (isub (X k) x0) /\ kry A r0 (S k) (Rs k) /\ kry A r0 (S k) (Ps k).
Proof.
  induction k as [|k (I1 & I2 & I3)].
  - split; [|split].
    + unfold sX. cbn. veq.
    + rewrite R0. apply lk_scale, lk_v; exact LA.
    + replace (Ps 0) with r0; [apply lk_v; exact LA|]. unfold sP, r0. cbn. veq.
  - assert (K2 : kry A r0 (S (S k)) (Rs (S k))).
    { rewrite sR_S. apply lk_add; [exact LA|apply lk_S; [exact LA|exact I2]|]. apply lk_scale; [exact LA|].
      apply lk_B; exact I3. }
    split; [|split].
    + rewrite sX_S. replace (isub (iadd (X k) (iscale (al dv sq E q b x0 k) (Ps k))) x0)
        with (iadd (isub (X k) x0) (iscale (al dv sq E q b x0 k) (Ps k))) by veq.
      apply lk_add; [exact LA|apply lk_S; [exact LA|exact I1]|]. apply lk_scale; [exact LA|exact I3].
    + exact K2.
    + rewrite sP_S. apply lk_sub; [exact LA|apply lk_scale, lk_S; [exact LA|exact LA|exact I3]|exact K2].
Qed.

(** [A r_i] lies in the span of [r_(i-1)], [r_i], [r_(i+1)]. *)
Lemma cg_AR : forall k, alv k -> forall i y, (i < k)%nat ->
  (forall j, (j <= S i)%nat -> ip (Rs j) y = 0) -> ip (Rs i) (A y) = 0.
Proof.
  intros k AL i y Hi Hy.
  assert (OA := orth_all dv sq E q b LA x0 DV SA PA k AL).
  assert (AP : forall j, (j <= i)%nat -> ip (Ps j) (A y) = 0).
  { intros j Hj. assert (Oj := OA j ltac:(lia)). assert (Nj := AL j ltac:(lia)).
    assert (Pj := pAp_pos dv sq E q b x0 PA j Oj Nj). assert (Rj := ip_nz _ Nj).
    assert (Ea : al dv sq E q b x0 j = ip (Rs j) (Rs j) / ip (Ps j) (A (Ps j))) by (apply DV; lra).
    assert (Na : al dv sq E q b x0 j <> 0).
    { rewrite Ea. apply Rmult_integral_contrapositive_currified; [lra|]. apply Rinv_neq_0_compat. lra. }
    assert (T := Hy (S j) ltac:(lia)). rewrite sR_S, ip_addl, ip_scalel, (Hy j ltac:(lia)), <- (SA (Ps j) y) in T.
    rewrite Rplus_0_l in T. apply Rmult_integral in T as [T|T]; [contradiction|exact T]. }
  destruct i as [|i].
  - assert (T := AP 0%nat (le_n _)). change (Ps 0) with (ineg (Rs 0)) in T. rewrite ip_negl in T. lra.
  - assert (T1 := AP i ltac:(lia)). assert (T2 := AP (S i) (le_n _)).
    rewrite sP_S in T2. rewrite ip_subl, ip_scalel, T1 in T2. lra.
Qed.
Lemma cg_span : forall k, alv k -> forall z, kry A r0 k z ->
  forall y, (forall i, (i < k)%nat -> ip (Rs i) y = 0) -> ip z y = 0.
Proof.
  induction k as [|k IH]; intros AL z K y Hy.
  - cbn in K. subst z. apply ip_zerol.
  - destruct K as (a & z' & K & ->). rewrite ip_addl, ip_scalel.
    assert (T : ip r0 y = 0) by (rewrite r0R, ip_scalel, (Hy 0%nat) by lia; ring).
    assert (U : ip z' (A y) = 0).
    { apply IH; [intros i Hi; apply AL; lia|exact K|]. intros i Hi.
      apply (cg_AR (S k) AL); [lia|]. intros j Hj. apply Hy. lia. }
    rewrite <- (SA z' y), T, U. ring.
Qed.
Lemma cg_orth : forall k, alv k -> forall z, kry A r0 k z -> ip z (Rs k) = 0.
Proof.
  intros k AL z K. apply (cg_span k AL z K). intros i Hi.
  exact (oi_rr _ _ _ _ _ _ _ (orth_all dv sq E q b LA x0 DV SA PA k AL k (le_n _)) i Hi).
Qed.

(** the iterate minimises the energy norm of the error *)
Lemma cg_opt : forall k, alv k -> forall xs z, A xs = b -> kry A r0 k z ->
  ip (isub (X k) xs) (A (isub (X k) xs)) <= ip (isub (iadd x0 z) xs) (A (isub (iadd x0 z) xs)).
Proof.
  intros k AL xs z HX K.
  set (w := isub (iadd x0 z) (X k)).
  assert (Kw : kry A r0 k w).
  { unfold w. replace (isub (iadd x0 z) (X k)) with (isub z (isub (X k) x0)) by veq.
    apply lk_sub; [exact LA|exact K|]. apply cg_kry. }
  assert (AE : A (isub (X k) xs) = Rs k) by (rewrite (lin_sub A LA), HX; symmetry; apply (sR_true dv sq E q b LA)).
  replace (isub (iadd x0 z) xs) with (iadd (isub (X k) xs) w) by (unfold w; veq).
  rewrite (lin_add A LA), ip_addl, !ip_add, AE.
  rewrite (SA (isub (X k) xs) w), AE, (ip_sym (Rs k) w), (cg_orth k AL w Kw).
  assert (0 <= ip w (A w)).
  { destruct (Req_dec (ip w w) 0) as [Z|NZ]; [apply ip_def in Z; rewrite Z, ip_zerol; lra|].
    apply Rlt_le, PA. intro Z. apply NZ. rewrite Z. apply ip_zero. }
  lra.
Qed.

(** annihilated residuals *)
Lemma cg_done : forall k z, alv k -> kry A r0 k z -> A z = r0 -> Rs k = izero.
Proof.
  intros k z AL K Hz.
  set (xs := iadd x0 z).
  assert (HX : A xs = b) by (unfold xs; rewrite (lin_add A LA), Hz; unfold r0; veq).
  pose proof (cg_opt k AL xs z HX K) as O.
  replace (isub (iadd x0 z) xs) with (@izero E) in O by (unfold xs; veq). rewrite ip_zerol in O.
  assert (Z : isub (X k) xs = izero).
  { apply ip_def. destruct (Req_dec (ip (isub (X k) xs) (isub (X k) xs)) 0) as [Z|NZ]; [exact Z|exfalso].
    assert (0 < ip (isub (X k) xs) (A (isub (X k) xs))); [|lra]. apply PA. intro Z. apply NZ. rewrite Z. apply ip_zero. }
  rewrite (sR_true dv sq E q b LA). transitivity (A (isub (X k) xs)); [rewrite (lin_sub A LA), HX; reflexivity|].
  rewrite Z. apply (lin_zero A LA).
Qed.
End Cg.

(** ** The solver. *)
Section Solve.
Context (dv : R -> R -> R) (sq : R -> R) (E : IPS).
Notation KK := (exactK dv sq).
Notation WW := (exactV dv sq E).
Variables (q : kprob WW) (kw : cg_kw WW) (b : iv E).
Notation A := (q_A q : iv E -> iv E).
Hypotheses (DV : dv_ok dv) (SQ : sq_ok sq) (SA : selfadj A) (PA : posdef A).
Hypotheses (NP : q_P q = None) (AT : 0 <= (q_abstol q : R)) (NS : k_sym kw = false).
(** starting point, its residual, one product more when a starting point is supplied *)
Let x0 : iv E := match k_guess kw with Some g => g | None => izero end.
Let r0 : iv E := isub b (A x0).
Let g : nat := match k_guess kw with Some _ => 1 | None => 0 end.
Let mx : nat := match k_mmax kw with Some m => m | None => (2 * ilen b)%nat end.
Let th : R := Rmax (q_abstol q) (q_reltol q * inorm r0).
(** squared energy norm of the error *)
Let en (xs x : iv E) : R := ip (isub x xs) (A (isub x xs)).

Lemma cg_run : forall fuel o cnt o' cnt', cg_solve fuel q o b kw cnt = Ok (o', cnt') ->
  exists k, alive dv sq E q b x0 k /\ g_x o' = Some (sX dv sq E q b x0 k : vc WW) /\ g_nmv o' = (g + k)%nat /\
    g_def o' = Some true /\
    (k_sit kw = true -> g_iters o' = g_iters o ++ map (sX dv sq E q b x0) (seq 0 (S k))) /\
    (g_conv o' = true \/ (mx <= g + k)%nat /\ th < inorm (sR dv sq E q b x0 k)) /\
    (forall j, (j < k)%nat -> th < inorm (sR dv sq E q b x0 j)).
Proof.
  intros fuel o cnt o' cnt' H.
  assert (S0 : sym_ok q kw cnt = (true, cnt)) by (unfold sym_ok; rewrite NS; reflexivity).
  assert (LA := adjoint_lin _ _ SA).
  pose proof H as H'. rewrite cg_solve_unfold, S0 in H'. cbn [fst snd negb] in H'. cbn zeta in H'.
  destruct (while fuel _ _ _) as [st|e] eqn:Ew; [|discriminate]. injection H' as <- <-.
  assert (TH : thr q (c_res (cg_init q kw o b cnt)) = th).
  { unfold thr. rewrite (Rmax_pymax dv sq). unfold th.
    pose proof (si_res _ _ _ _ _ _ _ _ _ (seq_init dv sq E q kw b SQ SA NP o cnt)) as Q. rewrite Q.
    assert (N : inorm (sR dv sq E q b (cgx0 dv sq E kw) 0) = inorm r0).
    { change (sR dv sq E q b (cgx0 dv sq E kw) 0) with (isub (A x0) b). apply inorm_subC. }
    rewrite N. reflexivity. }
  apply while_inv with (I := fun s => exists k, seq_inv dv sq E q kw b o k s /\
      (forall j, (j < k)%nat -> th < inorm (sR dv sq E q b x0 j))) in Ew.
  - destruct Ew as [[k [I J]] C]. exists k. split; [apply (si_alive _ _ _ _ _ _ _ _ _ I)|].
    cbn [g_x g_nmv g_def g_conv g_iters cg_final].
    rewrite (si_x _ _ _ _ _ _ _ _ _ I), (si_nmv _ _ _ _ _ _ _ _ _ I), (si_def _ _ _ _ _ _ _ _ _ I).
    split; [reflexivity|]. split; [reflexivity|]. split; [reflexivity|].
    split; [apply (si_iters _ _ _ _ _ _ _ _ _ I)|]. split; [|exact J].
    rewrite TH. rewrite (si_res _ _ _ _ _ _ _ _ _ I).
    destruct (Rle_lt_dec (inorm (sR dv sq E q b x0 k)) th) as [L|L]; [left; apply Rleb_true; exact L|right].
    split; [|exact L]. unfold cg_cond in C. rewrite (si_def _ _ _ _ _ _ _ _ _ I), andb_true_r in C.
    apply andb_false_iff in C as [C|C].
    + exfalso. unfold sgtb in C. rewrite TH, (si_res _ _ _ _ _ _ _ _ _ I) in C. apply Rltb_false in C.
      apply (Rlt_irrefl th). eapply Rlt_le_trans; [exact L|exact C].
    + apply Nat.ltb_ge in C. rewrite (si_nmv _ _ _ _ _ _ _ _ _ I) in C. exact C.
  - intros s s' [k [I J]] C B. exists (S k). split; [eapply (seq_step dv sq E q kw b DV SQ SA PA NP AT); eauto|].
    intros j Hj. destruct (Nat.eq_dec j k) as [->|Nj]; [|apply J; lia].
    apply cg_cond_true in C as [C _]. unfold sgtb in C. apply Rltb_true in C.
    rewrite (si_res _ _ _ _ _ _ _ _ _ I) in C. rewrite TH in C. exact C.
  - exists 0%nat. split; [apply seq_init; assumption|]. intros j Hj. lia.
Qed.

(** ** Optimality. *)
Theorem C89_optimal : forall fuel o cnt o' cnt', cg_solve fuel q o b kw cnt = Ok (o', cnt') ->
  exists k (x : iv E), g_nmv o' = (g + k)%nat /\ g_x o' = Some (x : vc WW) /\
  kry A r0 k (isub x x0) /\
  (forall xs z, A xs = b -> kry A r0 k z -> en xs x <= en xs (iadd x0 z)) /\
  (k_sit kw = true -> exists xi : list (iv E), g_iters o' = g_iters o ++ xi /\ length xi = S k /\
     forall i y, nth_error xi i = Some y -> kry A r0 i (isub y x0) /\
       forall xs z, A xs = b -> kry A r0 i z -> en xs y <= en xs (iadd x0 z)).
Proof.
  intros fuel o cnt o' cnt' H. destruct (cg_run _ _ _ _ _ H) as (k & AL & Hx & Hn & _ & HI & _).
  exists k, (sX dv sq E q b x0 k). split; [exact Hn|]. split; [exact Hx|]. split; [apply (cg_kry dv sq E q b x0 SA)|].
  split; [intros xs z; apply (cg_opt dv sq E q b x0 DV SA PA k AL)|].
  intro SI. exists (map (sX dv sq E q b x0) (seq 0 (S k))). split; [apply HI; exact SI|].
  split; [rewrite map_length; apply seq_length|]. intros i y Hy.
  assert (Li : (i < S k)%nat).
  { assert (Q : nth_error (map (sX dv sq E q b x0) (seq 0 (S k))) i <> None) by congruence.
    apply nth_error_Some in Q. rewrite map_length, seq_length in Q. exact Q. }
  assert (Ey : y = sX dv sq E q b x0 i).
  { rewrite nth_error_map in Hy. rewrite (nth_error_nth' _ 0%nat) in Hy by (rewrite seq_length; exact Li).
    rewrite seq_nth in Hy by exact Li. cbn in Hy. injection Hy as <-. reflexivity. }
  subst y. split; [apply (cg_kry dv sq E q b x0 SA)|]. intros xs z.
  apply (cg_opt dv sq E q b x0 DV SA PA i). intros j Hj. apply AL. lia.
Qed.

(** ** A solution in the [d]-th Krylov space is found by iteration [d]. *)
Lemma cg_exact : forall d z, kry A r0 d z -> A z = r0 ->
  forall fuel o cnt o' cnt', cg_solve fuel q o b kw cnt = Ok (o', cnt') ->
  (g_nmv o' <= g + d)%nat /\ ((g + d <= mx)%nat -> g_conv o' = true).
Proof.
  intros d z Kz Hz fuel o cnt o' cnt' H.
  destruct (cg_run _ _ _ _ _ H) as (k & AL & _ & Hn & _ & _ & HC & HJ).
  assert (T0 : 0 <= th) by (unfold th; eapply Rle_trans; [exact AT|apply Rmax_l]).
  assert (Lk : (k <= d)%nat).
  { destruct (le_lt_dec k d) as [|L]; [assumption|exfalso].
    assert (Q : sR dv sq E q b x0 d = izero).
    { apply (cg_done dv sq E q b x0 DV SA PA _ z); [intros j Hj; apply AL; lia|exact Kz|exact Hz]. }
    apply (AL d L). exact Q. }
  split; [rewrite Hn; lia|]. intro HM. destruct HC as [C|[HM' L]]; [exact C|exfalso].
  assert (k = d) by lia. subst k.
  rewrite (cg_done dv sq E q b x0 DV SA PA _ z AL Kz Hz), inorm_izero in L. lra.
Qed.

(** ** Finitely many eigenvalues.  If the residual of the starting point is annihilated by a product
    of [d] factors [A - l], in particular if it is a sum of eigenvectors for [d] eigenvalues, then at
    most [d] iterations are made. *)
Theorem C89_eigenvalues : forall ls, (forall l, In l ls -> l <> 0) -> ann A ls r0 = izero ->
  forall fuel o cnt o' cnt', cg_solve fuel q o b kw cnt = Ok (o', cnt') ->
  (g_nmv o' <= g + length ls)%nat /\ ((g + length ls <= mx)%nat -> g_conv o' = true).
Proof.
  intros ls Nl Z. destruct (ann_kry A r0 (adjoint_lin _ _ SA) ls Nl Z) as (z & Kz & Hz).
  exact (cg_exact _ z Kz Hz).
Qed.

(** ** Chebyshev bound: [m <= A <= M]. *)
Section Rate.
Variables (m M : R).
Hypotheses (m0 : 0 < m) (mM : m < M).
Hypothesis Am : forall z, m * ip z z <= ip z (A z) <= M * ip z z.
Let rho : R := (sqrt M - sqrt m) / (sqrt M + sqrt m).

Lemma cg_rate : forall k xs, alive dv sq E q b x0 k -> A xs = b ->
  en xs (sX dv sq E q b x0 k) <= (2 * rho ^ k) * (2 * rho ^ k) * en xs x0.
Proof.
  intros k xs AL HX. assert (LA := adjoint_lin _ _ SA).
  set (e := isub xs x0).
  destruct (cheb_energy A e SA m M m0 mM (fun _ z _ => Am z) k) as (z & Kz & B).
  assert (Er : A e = r0) by (unfold e, r0; rewrite (lin_sub A LA), HX; reflexivity).
  assert (K : kry A r0 k (A z)) by (rewrite <- Er; apply kry_image; assumption).
  pose proof (cg_opt dv sq E q b x0 DV SA PA k AL xs (A z) HX K) as O. fold (en xs (sX dv sq E q b x0 k)) in O.
  eapply Rle_trans; [exact O|].
  assert (N1 : isub (iadd x0 (A z)) xs = ineg (isub e (A z))) by (unfold e; veq).
  assert (N2 : isub x0 xs = ineg e) by (unfold e; veq).
  unfold en. rewrite N1, N2. unfold ineg. rewrite !(lin_scale A LA), !ip_scalel, !ip_scale.
  unfold crate in B. fold rho in B.
  replace (-1 * (-1 * ip (isub e (A z)) (A (isub e (A z))))) with (ip (isub e (A z)) (A (isub e (A z)))) by ring.
  replace (-1 * (-1 * ip e (A e))) with (ip e (A e)) by ring. exact B.
Qed.
Lemma cg_rate_resid : forall k xs, alive dv sq E q b x0 k -> A xs = b ->
  inorm (sR dv sq E q b x0 k) <= 2 * sqrt (M / m) * rho ^ k * inorm r0.
Proof.
  intros k xs AL HX. assert (LA := adjoint_lin _ _ SA).
  pose proof (cg_rate k xs AL HX) as B. set (xk := sX dv sq E q b x0 k) in *.
  assert (P : 0 < rho ^ k) by (apply pow_lt; exact (proj1 (crate_range m M m0 mM))).
  assert (BT : forall u, m * ip u (A u) <= ip (A u) (A u) <= M * ip u (A u)).
  { intro u. rewrite <- (SA u (A u)).
    exact (energy_between A u SA m M m0 mM (fun _ z _ => Am z) 1 u (lk_v A u LA 0)). }
  assert (Ek : A (isub xk xs) = sR dv sq E q b x0 k) by (rewrite (lin_sub A LA), HX; symmetry; apply (sR_true dv sq E q b LA)).
  assert (E0 : ip (A (isub x0 xs)) (A (isub x0 xs)) = ip r0 r0).
  { rewrite (lin_sub A LA), HX. unfold r0. rewrite !ip_sub, !ip_subl. ring. }
  pose proof (proj2 (BT (isub xk xs))) as U. pose proof (proj1 (BT (isub x0 xs))) as L. rewrite E0 in L.
  assert (Ek2 : ip (A (isub xk xs)) (A (isub xk xs)) = ip (sR dv sq E q b x0 k) (sR dv sq E q b x0 k)) by (rewrite Ek; reflexivity).
  rewrite Ek2 in U. clear Ek Ek2.
  fold (en xs xk) in U. fold (en xs x0) in L.
  assert (T : ip (sR dv sq E q b x0 k) (sR dv sq E q b x0 k) <= M / m * ((2 * rho ^ k) * (2 * rho ^ k)) * ip r0 r0).
  { eapply Rle_trans; [exact U|]. apply Rle_trans with (M * ((2 * rho ^ k) * (2 * rho ^ k) * en xs x0)).
    - apply Rmult_le_compat_l; lra.
    - replace (M / m * (2 * rho ^ k * (2 * rho ^ k)) * ip r0 r0) with (M * ((2 * rho ^ k) * (2 * rho ^ k) * (ip r0 r0 / m))) by (field; lra).
      apply Rmult_le_compat_l; [lra|]. apply Rmult_le_compat_l; [nra|].
      apply Rmult_le_reg_r with m; [lra|]. unfold Rdiv. rewrite Rmult_assoc, Rinv_l, Rmult_1_r by lra. lra. }
  unfold inorm at 1. apply sqrt_le_1_alt in T. eapply Rle_trans; [exact T|].
  assert (0 < M / m) by (apply Rdiv_lt_0_compat; lra).
  assert (0 <= 2 * rho ^ k * (2 * rho ^ k)) by nra.
  rewrite (sqrt_mult_alt (M / m * (2 * rho ^ k * (2 * rho ^ k)))) by (apply Rmult_le_pos; lra).
  rewrite (sqrt_mult_alt (M / m)) by lra. rewrite sqrt_square by lra. fold (inorm r0). right. ring.
Qed.

(** Error and residual of the vector returned, and the number of iterations: whatever the
    dimension, [K] iterations are enough as soon as [2 sqrt(M/m) rho^K <= reltol]. *)
Theorem C89_rate : forall fuel o cnt o' cnt', cg_solve fuel q o b kw cnt = Ok (o', cnt') ->
  forall xs, A xs = b ->
  exists k (x : iv E), g_nmv o' = (g + k)%nat /\ g_x o' = Some (x : vc WW) /\
  sqrt (en xs x) <= 2 * rho ^ k * sqrt (en xs x0) /\
  inorm (isub b (A x)) <= 2 * sqrt (M / m) * rho ^ k * inorm r0 /\
  (forall K, 2 * sqrt (M / m) * rho ^ K <= q_reltol q -> (k <= K)%nat /\ ((g + K <= mx)%nat -> g_conv o' = true)).
Proof.
  intros fuel o cnt o' cnt' H xs HX. assert (LA := adjoint_lin _ _ SA).
  destruct (cg_run _ _ _ _ _ H) as (k & AL & Hx & Hn & _ & _ & HC & HJ).
  assert (P : forall k, 0 < rho ^ k) by (intro; apply pow_lt; exact (proj1 (crate_range m M m0 mM))).
  exists k, (sX dv sq E q b x0 k). split; [exact Hn|]. split; [exact Hx|]. split; [|split].
  - pose proof (cg_rate k xs AL HX) as B. apply sqrt_le_1_alt in B. eapply Rle_trans; [exact B|].
    pose proof (P k). rewrite sqrt_mult_alt by nra. rewrite sqrt_square by lra. lra.
  - rewrite inorm_subC, <- (sR_true dv sq E q b LA). apply (cg_rate_resid k xs AL HX).
  - intros K HK.
    assert (ST : forall j, alive dv sq E q b x0 j -> (K <= j)%nat -> inorm (sR dv sq E q b x0 j) <= th).
    { intros j ALj Lj. eapply Rle_trans; [apply (cg_rate_resid j xs ALj HX)|].
      eapply Rle_trans; [|apply Rmax_r]. apply Rmult_le_compat_r; [apply inorm_pos|].
      eapply Rle_trans; [|exact HK]. apply Rmult_le_compat_l; [pose proof (sqrt_pos (M / m)); lra|].
      pose proof (crate_range m M m0 mM) as [R1 R2]. unfold crate in R1, R2. fold rho in R1, R2.
      clear - R1 R2 Lj. induction Lj as [|j L IH]; [lra|]. cbn. assert (0 < rho ^ j) by (apply pow_lt; lra). nra. }
    assert (Lk : (k <= K)%nat).
    { destruct (le_lt_dec k K) as [|L]; [assumption|exfalso].
      pose proof (HJ K L) as N. pose proof (ST K ltac:(intros j Hj; apply AL; lia) (le_n _)). lra. }
    split; [exact Lk|]. intro HM. destruct HC as [C|[HM' L]]; [exact C|exfalso].
    pose proof (ST k AL ltac:(lia)). lra.
Qed.
End Rate.
End Solve.

(** ** R^n: no solution needs to be given. *)
Lemma spd_solvable : forall n (A : iv (Rn n) -> iv (Rn n)) (b : iv (Rn n)), selfadj A -> posdef A -> exists xs, A xs = b.
Proof.
  intros n A b SA PA.
  assert (DV : dv_ok Rdiv) by (intros x y _; reflexivity).
  assert (SQ : sq_ok sqrt) by (intros x _; reflexivity).
  set (W := exactV Rdiv sqrt (Rn n)).
  set (q := @mkprob (exactK Rdiv sqrt) W n n (A : vc W -> vc W) None 0%R 0%R (fun x => x) []).
  set (kw := cg_kw0 : cg_kw W).
  destruct (C37_Rn_default Rdiv sqrt n q kw cg_new b 0 DV SQ SA PA eq_refl ltac:(cbn; lra) eq_refl eq_refl)
    as (o' & cnt' & H & CV & _).
  destruct (C36_residual Rdiv sqrt (Rn n) q kw cg_new b 0 _ o' cnt' (adjoint_lin _ _ SA) SQ eq_refl eq_refl H) as (x & _ & _ & _ & RS).
  exists x. pose proof (proj1 RS CV) as Q. cbn [q_abstol q_reltol q] in Q. rewrite Rmult_0_l, Rmax_left in Q by lra.
  assert (Z : isub b (A x) = izero) by (apply inorm_zero; pose proof (inorm_pos (isub b (A x))); cbn in *; lra).
  apply (@ip_ext (Rn n)). intro w.
  assert (I : ip (w : iv (Rn n)) (isub b (A x)) = 0) by (rewrite Z; apply ip_zero). rewrite ip_sub in I.
  change (ip (w : iv (Rn n)) (A x) = ip (w : iv (Rn n)) b). lra.
Qed.
Theorem C89_Rn : forall dv sq n (q : kprob (exactV dv sq (Rn n))) kw o (b : iv (Rn n)) cnt m M K,
  let A := q_A q : iv (Rn n) -> iv (Rn n) in
  let g := match k_guess kw with Some _ => 1%nat | None => 0%nat end in
  let mx := match k_mmax kw with Some m => m | None => (2 * n)%nat end in
  dv_ok dv -> sq_ok sq -> selfadj A -> q_P q = None -> 0 <= (q_abstol q : R) -> k_sym kw = false ->
  0 < m < M -> (forall z : iv (Rn n), m * ip z z <= ip z (A z) <= M * ip z z) ->
  2 * sqrt (M / m) * ((sqrt M - sqrt m) / (sqrt M + sqrt m)) ^ K <= q_reltol q -> (g + K <= mx)%nat ->
  exists o' cnt', cg_solve (mx + 1) q o b kw cnt = Ok (o', cnt') /\ g_conv o' = true /\ (g_nmv o' <= g + K)%nat.
Proof.
  intros dv sq n q kw o b cnt m M K A g mx DV SQ SA NP AT NS [m0 mM] Am HK HM.
  assert (PA : posdef A).
  { intros u Nu. pose proof (Am u). pose proof (ip_nz _ Nu). nra. }
  destruct (cg_solve_term q kw b (mx + 1) o cnt) as [o' [cnt' H]].
  { unfold mx. destruct (k_mmax kw); cbn; lia. }
  destruct (spd_solvable n A b SA PA) as [xs HX].
  destruct (C89_rate dv sq (Rn n) q kw b DV SQ SA PA NP AT NS m M m0 mM Am _ o cnt o' cnt' H xs HX)
    as (k & x & Hn & _ & _ & _ & HR).
  destruct (HR K HK) as [Lk HC]. exists o', cnt'. split; [exact H|]. split; [apply HC; exact HM|]. rewrite Hn. fold g. lia.
Qed.

(** ** Concrete cases: the matrix [[2,1],[1,2]] has the eigenvalues 1 and 3. *)
Definition mat21 (v : rv 2) : rv 2 := (2 * fst v + fst (snd v), (fst v + 2 * fst (snd v), tt)).
Example ex_C89_spd : @selfadj (Rn 2) mat21 /\ @posdef (Rn 2) mat21 /\
  (forall z : iv (Rn 2), 1 * ip z z <= ip z (mat21 z : iv (Rn 2)) <= 3 * ip z z) /\
  (forall z : iv (Rn 2), @ann (Rn 2) mat21 [1; 3] z = izero) /\
  @ann (Rn 2) mat21 [3] (1, (1, tt)) = izero.
Proof.
  assert (BD : forall z : iv (Rn 2), 1 * ip z z <= ip z (mat21 z : iv (Rn 2)) <= 3 * ip z z).
  { intros [x [y []]]. cbn. split.
    - pose proof (Rle_0_sqr (x + y)) as P. unfold Rsqr in P. lra.
    - pose proof (Rle_0_sqr (x - y)) as P. unfold Rsqr in P. lra. }
  split; [intros [u0 [u1 []]] [v0 [v1 []]]; cbn; ring|].
  split; [intros u Nu; pose proof (BD u); pose proof (@ip_nz (Rn 2) u Nu); lra|]. split; [exact BD|]. split.
  - intros [x [y []]]. unfold ann, isub, ineg, mat21. cbn. f_equal; [ring|f_equal; ring].
  - unfold ann, isub, ineg, mat21. cbn. f_equal; [ring|f_equal; ring].
Qed.
Notation W2 := (exactV Rdiv sqrt (Rn 2)).
Definition prob21 (rt : R) : kprob W2 := @mkprob (exactK Rdiv sqrt) W2 2 2 (mat21 : vc W2 -> vc W2) None 0 rt (fun x => x) [].
(** One iteration for the eigenvector (1,1); for every right-hand side at most two; and [reltol = 1] is
    met after [K = 1] by the Chebyshev bound, where [2 sqrt 3 (sqrt 3 - 1)/(sqrt 3 + 1) <= 1]. *)
Example ex_C89 : forall fuel o cnt o' cnt',
  cg_solve fuel (prob21 0) o ((1, (1, tt)) : vc W2) cg_kw0 cnt = Ok (o', cnt') ->
  (g_nmv o' <= 1)%nat /\ g_conv o' = true.
Proof.
  intros fuel o cnt o' cnt' H. destruct ex_C89_spd as (SA & PA & _ & _ & AN).
  destruct (C89_eigenvalues Rdiv sqrt (Rn 2) (prob21 0) cg_kw0 (1, (1, tt)) ltac:(intros x y _; reflexivity)
    ltac:(intros x _; reflexivity) SA PA eq_refl ltac:(cbn; lra) eq_refl [3] ltac:(intros l [<-|[]]; lra)
    ltac:(change (@ann (Rn 2) mat21 [3] (@isub (Rn 2) (1, (1, tt)) (mat21 (@izero (Rn 2)))) = izero);
          replace (@isub (Rn 2) (1, (1, tt)) (mat21 (@izero (Rn 2)))) with ((1, (1, tt)) : rv 2)
            by (unfold isub, ineg, mat21; cbn; f_equal; [ring|f_equal; ring]); exact AN)
    fuel o cnt o' cnt' H) as [N C].
  split; [exact N|]. apply C. cbn. lia.
Qed.
Example ex_C89_rate : exists o' cnt', cg_solve 5 (prob21 1) cg_new ((1, (0, tt)) : vc W2) cg_kw0 0 = Ok (o', cnt') /\
  g_conv o' = true /\ (g_nmv o' <= 1)%nat.
Proof.
  destruct ex_C89_spd as (SA & _ & BD & _).
  apply (C89_Rn Rdiv sqrt 2 (prob21 1) cg_kw0 cg_new ((1, (0, tt)) : rv 2) 0 1 3 1); auto; try reflexivity; cbn; try lra; try lia.
  - intros x y _. reflexivity.
  - intros x _. reflexivity.
  - rewrite sqrt_1, Rmult_1_r.
    assert (Q : sqrt 3 * sqrt 3 = 3) by (apply sqrt_sqrt; lra). assert (0 <= sqrt 3) by apply sqrt_pos.
    replace (3 / 1) with 3 by field.
    assert (P : 1.7 <= sqrt 3 <= 1.74) by (split; nra).
    assert (D : (sqrt 3 - 1) / (sqrt 3 + 1) <= 0.28).
    { apply Rmult_le_reg_r with (sqrt 3 + 1); [lra|]. unfold Rdiv. rewrite Rmult_assoc, Rinv_l by lra. lra. }
    assert (0 <= (sqrt 3 - 1) / (sqrt 3 + 1)) by (apply Rmult_le_pos; [lra|left; apply Rinv_0_lt_compat; lra]).
    nra.
Qed.

Print Assumptions C89_optimal.
Print Assumptions C89_eigenvalues.
Print Assumptions C89_rate.
Print Assumptions C89_Rn.
