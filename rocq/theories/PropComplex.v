(** * Property C88: the Krylov solvers on complex data.

    Exact complex arithmetic (CplxSolve.v): [dvc] is any division that is right for nonzero
    divisors, [csq] any branch of the square root.  [cvdot] is [np.dot] (no conjugation),
    [cvnorm] is [np.linalg.norm], [cplx A] applies a real operator to a complex vector. *)
From Coq Require Import List ZArith Lia Bool QArith Qreals Reals Lra Psatz.
From Verif Require Import Base Field Cplx Num ToolsModel CgModel CgProof PropCg KrylovModel CplxSolve CplxScale.
Import ListNotations.
Local Open Scope R_scope.

Lemma Rltb_true : forall a b, Rltb a b = true <-> a < b.
Proof. intros. unfold Rltb. destruct (Rlt_dec a b); split; intros; auto; try discriminate; contradiction. Qed.
Lemma Rleb_true : forall a b, Rleb a b = true <-> a <= b.
Proof. intros. unfold Rleb. destruct (Rle_dec a b); split; intros; auto; try discriminate; contradiction. Qed.
Lemma Rltb_false : forall a b, Rltb a b = false <-> b <= a.
Proof. intros. unfold Rltb. destruct (Rlt_dec a b); split; intros; auto; try discriminate; lra. Qed.
Lemma Rleb_false : forall a b, Rleb a b = false <-> b < a.
Proof. intros. unfold Rleb. destruct (Rle_dec a b); split; intros; auto; try discriminate; lra. Qed.

Section Complex.
Variables (dvc : CR -> CR -> CR) (csq : CR -> CR) (E : IPS).
Hypothesis CSQ : csq_ok csq.
Notation KC := (cK dvc csq).
Notation WC := (cV dvc csq E).
(** The real part of [max(abstol, reltol * n)] for real [reltol] and [n]. *)
Definition cthr (q : kprob WC) (n : R) : R := Rmax (fst (q_abstol q : CR)) (fst (q_reltol q : CR) * n).
Lemma thr_fst : forall (q : kprob WC) n, fst (thr q ((n, 0) : sc KC) : CR) = cthr q n.
Proof.
  intros q n. unfold thr, pymax, cthr. cbn [sltb smul cK kmul FCR fst snd].
  rewrite Rmult_0_r, Rminus_0_r. unfold Rltb, Rmax.
  destruct (Rlt_dec _ _), (Rle_dec _ _); cbn [fst kmul FCR snd]; try lra.
Qed.

(** ** An initial residual whose bilinear square vanishes looks like zero. *)
Lemma zero_thr : forall q : kprob WC, 0 <= cthr q 0.
Proof. intro q. unfold cthr. rewrite Rmult_0_r. apply Rmax_r. Qed.
Lemma root0 : forall v : CR, v = (0, 0) -> cmod (csq v) = 0.
Proof.
  intros v ->. rewrite cmod_csq by exact CSQ. rewrite cmod_real, Rabs_R0. apply sqrt_0.
Qed.

Theorem C88_isotropic_cg : forall (q : kprob WC) (o : cg_obj WC) (b : cv E) (kw : cg_kw WC) fuel cnt,
  q_P q = None -> k_sym kw = false ->
  let x0 := match k_guess kw with Some g => g | None => cvzero end in
  let r0 := match k_guess kw with Some g => cvadd (cvneg b) (q_A q g) | None => cvneg b end in
  let n0 := match k_guess kw with Some _ => 1%nat | None => 0%nat end in
  cvdot r0 r0 = (0, 0) ->
  exists o', cg_solve (Datatypes.S fuel) q o b kw cnt = Ok (o', (cnt + n0)%nat) /\
    g_x o' = Some (x0 : vc WC) /\ g_conv o' = true /\ g_def o' = Some true /\ g_nmv o' = n0 /\
    g_residNorm o' = Some ((0, 0) : sc KC).
Proof.
  intros q o b kw fuel cnt NP SY x0 r0 n0 Z.
  unfold cg_solve. rewrite SY. cbn [negb while].
  set (s := cg_init q kw o b cnt).
  assert (Es : c_x s = x0 /\ c_res s = (0, 0) /\ c_nmv s = n0 /\ c_def s = true /\ c_cnt s = (cnt + n0)%nat).
  { unfold s, cg_init, opmul, prec, x0, n0. unfold r0 in Z. rewrite NP.
    destruct (k_guess kw) as [g|]; cbn [c_x c_res c_nmv c_def c_cnt]; repeat split; try lia.
    - cbn [sabs ssqrt cK vdot cV vadd vneg]. apply f_equal2; [apply root0; exact Z|reflexivity].
    - cbn [sabs ssqrt cK vdot cV vneg]. apply f_equal2; [apply root0; exact Z|reflexivity]. }
  destruct Es as (Ex & Er & En & Ed & Ec).
  assert (TH : forall r : sc KC, r = (0, 0) -> 0 <= fst (thr q r : CR)).
  { intros r ->. rewrite thr_fst. apply zero_thr. }
  assert (C : cg_cond q kw b (c_res s) s = false).
  { unfold cg_cond, sgtb. rewrite Er. cbn [sltb cK fst].
    replace (Rltb (fst (thr q ((0, 0) : sc KC) : CR)) 0) with false; [reflexivity|].
    symmetry. apply Rltb_false. apply TH. reflexivity. }
  rewrite C. eexists. split; [rewrite Ec; reflexivity|]. unfold cg_final.
  cbn [g_x g_conv g_def g_nmv g_residNorm]. rewrite Ex, Er, En, Ed. repeat split.
  cbn [sleb cK fst]. apply Rleb_true. apply TH. reflexivity.
Qed.

Theorem C88_isotropic_family : forall (q : kprob WC) (b : cv E) (kw : kkw WC) fuel cnt,
  let x0 := match w_guess kw with Some g => g | None => cvzero end in
  let r0 := match w_guess kw with Some g => cvsub b (q_A q g) | None => b end in
  let n0 := match w_guess kw with Some _ => 1%nat | None => 0%nat end in
  cvdot r0 r0 = (0, 0) ->
  cgs_solve (Datatypes.S fuel) q (b : vc WC) kw cnt =
    Ok (@mkout KC WC (0, 0) (0, 0) true 0 x0, (cnt + n0)%nat) /\
  bi_solve (Datatypes.S fuel) q (b : vc WC) kw cnt =
    Ok (@mkout KC WC (0, 0) (0, 0) true n0 x0, (cnt + n0)%nat) /\
  tf_solve (Datatypes.S fuel) q (b : vc WC) kw cnt = Err UnboundLocalError.
Proof.
  intros q b kw fuel cnt x0 r0 n0 Z.
  assert (ER : start_r q kw (b : vc WC) cnt = (r0, (cnt + n0)%nat)).
  { unfold start_r, opmul, r0, n0. destruct (w_guess kw) as [g|]; [reflexivity|]. rewrite Nat.add_0_r. reflexivity. }
  assert (EX : start_x kw (b : vc WC) = x0) by (unfold start_x, x0; destruct (w_guess kw); reflexivity).
  assert (E0 : @sabs KC (@ssqrt KC (@vdot KC WC r0 r0)) = (0, 0)).
  { cbn [sabs ssqrt cK vdot cV]. apply f_equal2; [apply root0, Z|reflexivity]. }
  assert (LE : forall th : CR, 0 <= fst th -> @sleb KC (0, 0) th = true) by (intros th H; apply Rleb_true; exact H).
  assert (TH : 0 <= fst (thr q ((0, 0) : sc KC) : CR)) by (rewrite thr_fst; apply zero_thr).
  unfold cgs_solve, bi_solve, tf_solve, tf_init. rewrite ER, EX, E0, (LE _ TH). cbn [orb while s_fin b_fin t_fin negb t_m].
  cbn [s_res s_nmv s_x s_cnt b_res b_nmv b_x b_cnt]. rewrite (LE _ TH). repeat split.
Qed.

(** ** What is reported: the norm CG reports is the bilinear one, which never exceeds the true
    residual norm; CGS and BiCGSTAB, once they have iterated, report the true norm. *)
Lemma clin_zero : forall A : cv E -> cv E, clin A -> A cvzero = cvzero.
Proof.
  intros A L. assert (H : cvzero = cvscale (0, 0) (@cvzero E)) by cveq.
  rewrite H at 1. rewrite (clin_scale A L). cveq.
Qed.

Theorem C88_reported_cg : forall (q : kprob WC) (o : cg_obj WC) (b : cv E) (kw : cg_kw WC) fuel cnt o' cnt',
  clin (q_A q : cv E -> cv E) -> q_P q = None -> k_sym kw = false ->
  cg_solve fuel q o b kw cnt = Ok (o', cnt') ->
  exists (x : cv E) (rho : R), g_x o' = Some (x : vc WC) /\ g_residNorm o' = Some ((rho, 0) : sc KC) /\
    let r := cvsub b (q_A q x) in
    rho = sqrt (cmod (cvdot r r)) /\ rho <= cvnorm r.
Proof.
  intros q o b kw fuel cnt o' cnt' L NP SY H. unfold cg_solve in H. rewrite SY in H. cbn [negb] in H.
  set (s0 := cg_init q kw o b cnt) in *.
  destruct (while _ _ _ _) as [s|] eqn:EW; [|discriminate]. injection H as <- <-.
  apply while_inv with (I := fun s => c_r s = cvsub (q_A q (c_x s)) b /\
    c_res s = (cmod (csq (cvdot (c_r s) (c_r s))), 0)) in EW.
  - destruct EW as [[R N] _]. exists (c_x s), (sqrt (cmod (cvdot (c_r s) (c_r s)))).
    unfold cg_final. cbn [g_x g_residNorm]. rewrite N, cmod_csq by exact CSQ.
    assert (ED : cvdot (c_r s) (c_r s) = cvdot (cvsub b (q_A q (c_x s))) (cvsub b (q_A q (c_x s)))).
    { rewrite R. generalize (q_A q (c_x s) : cv E). intro y. unfold cvdot, cvsub. cbn [fst snd]. ipx. apply f_equal2; ring. }
    split; [reflexivity|]. split; [reflexivity|]. cbv zeta. rewrite ED. split; [reflexivity|].
    rewrite <- (sqrt_square (cvnorm _)) by apply cvnorm_pos. apply sqrt_le_1_alt, cvdot_bound.
  - intros s1 s2 [R N] _ B. unfold cg_body, opmul in B.
    destruct (k_curv kw && _); injection B as <-; cbn [c_r c_x c_res]; [split; assumption|].
    unfold prec. rewrite NP. split; [|reflexivity].
    cbn [vadd vscale cV]. rewrite R, (clin_add _ L), (clin_scale _ L).
    generalize (q_A q (c_x s1) : cv E), (q_A q (c_p s1) : cv E). intros y w.
    match goal with |- context [cvscale ?a w] => generalize a end. intro al. cveq.
  - unfold s0, cg_init, opmul, prec. rewrite NP.
    destruct (k_guess kw) as [g|]; cbn [c_r c_x c_res]; (split; [|reflexivity]); cbn [vadd vneg cV vzeros].
    + generalize (q_A q g : cv E). intro y. cveq.
    + change (q_A q cvzero) with (q_A q (@cvzero E)). rewrite (clin_zero _ L). cveq.
Qed.

Theorem C88_reported_cgs : forall (q : kprob WC) (b : cv E) (kw : kkw WC) fuel cnt o cnt',
  clin (q_A q : cv E -> cv E) -> cgs_solve fuel q (b : vc WC) kw cnt = Ok (o, cnt') -> o_nmv o <> 0%nat ->
  o_residNorm o = (cvnorm (cvsub b (q_A q (o_x o))), 0).
Proof.
  intros q b kw fuel cnt o cnt' L H NZ. unfold cgs_solve in H.
  destruct (start_r q kw (b : vc WC) cnt) as [r0 c0] eqn:ER.
  set (rn := sabs _) in H. set (th := thr q rn) in H.
  destruct (while _ _ _ _) as [s|] eqn:EW; [|discriminate]. injection H as <- <-.
  cbn [o_nmv o_x o_residNorm] in *.
  apply while_inv with (I := fun s => s_r s = cvsub b (q_A q (s_x s)) /\
    (s_nmv s <> 0%nat -> s_res s = (cvnorm (s_r s), 0))) in EW.
  - destruct EW as [[R N] _]. rewrite (N NZ), R. reflexivity.
  - intros s1 s2 [R N] _ B. unfold cgs_body, opmul in B.
    match type of B with (if _ then Ok (mkcgs ?x ?r _ _ _ _ _ _ _) else _) = _ => assert (RR : r = cvsub b (q_A q x)) end.
    { cbn [vadd vsub vscale cV]. rewrite R, (clin_add _ L), (clin_scale _ L).
      generalize (q_A q (s_x s1) : cv E). intro y. 
      match goal with |- context [cvscale ?a (q_A q ?v)] => generalize (q_A q v : cv E), a end. intros w al. cveq. }
    destruct (_ || _) in B; injection B as <-; cbn [s_r s_x s_nmv s_res]; (split; [exact RR|intros _; reflexivity]).
  - cbn [s_r s_x s_nmv s_res]. split; [|congruence].
    unfold start_r, opmul, start_x in *. destruct (w_guess kw) as [g|]; injection ER as <- <-; [reflexivity|].
    cbn [vzeros cV]. change (q_A q cvzero) with (q_A q (@cvzero E)). rewrite (clin_zero _ L). destruct b as [b1 b2]. cveq.
Qed.

Theorem C88_reported_bicgstab : forall (q : kprob WC) (b : cv E) (kw : kkw WC) fuel cnt o cnt',
  clin (q_A q : cv E -> cv E) -> bi_solve fuel q (b : vc WC) kw cnt = Ok (o, cnt') ->
  (match w_guess kw with Some _ => 1%nat | None => 0%nat end < o_nmv o)%nat -> o_conv o = true ->
  o_residNorm o = (cvnorm (cvsub b (q_A q (o_x o))), 0) /\
  cvnorm (cvsub b (q_A q (o_x o))) <= cthr q (fst (o_residNorm0 o : CR)).
Proof.
  intros q b kw fuel cnt o cnt' L H NZ CV. unfold bi_solve in H.
  destruct (start_r q kw (b : vc WC) cnt) as [r0 c0] eqn:ER.
  set (rn := sabs _) in H. set (th := thr q rn) in H. set (n0 := match w_guess kw with Some _ => 1%nat | None => 0%nat end) in *.
  destruct (while _ _ _ _) as [s|] eqn:EW; [|discriminate]. injection H as <- <-.
  cbn [o_nmv o_x o_residNorm o_conv o_residNorm0] in *.
  apply while_inv with (I := fun s => (b_fin s = false -> b_r s = cvsub b (q_A q (b_x s))) /\
    ((n0 < b_nmv s)%nat -> sleb (b_res s) th = true -> b_res s = (cvnorm (cvsub b (q_A q (b_x s))), 0))) in EW.
  - destruct EW as [[R N] _]. specialize (N NZ CV). split; [exact N|].
    rewrite N in CV. cbn [sleb cK fst] in CV. apply Rleb_true in CV. unfold th, rn in CV.
    cbn [sabs cK] in CV. rewrite thr_fst in CV. exact CV.
  - intros s1 s2 [R N] CD B. apply negb_true_iff in CD. specialize (R CD). unfold bi_body, opmul in B.
    set (p := vadd (vsub _ _) (b_r s1)) in B. clearbody p.
    set (qq := prec q p) in B. set (v := q_A q qq) in B. set (al := sdiv (b_rhon s1) (vdot r0 v)) in B.
    set (sv := vsub (b_r s1) (vscale al v)) in B.
    assert (RS : sv = cvsub b (q_A q (cvadd (b_x s1) (cvscale al qq)))).
    { unfold sv. cbn [vsub vscale cV]. rewrite R, (clin_add _ L), (clin_scale _ L). fold v.
      generalize (q_A q (b_x s1) : cv E). intro y. clearbody al v. cveq. }
    destruct (sleb (vnorm sv) th) eqn:T1 in B.
    { injection B as <-. cbn [b_fin b_r b_x b_nmv b_res]. split; [discriminate|]. intros _ _.
      cbn [vnorm cV vadd vscale]. rewrite RS. reflexivity. }
    destruct (_ <=? _)%nat in B.
    { injection B as <-. cbn [b_fin b_r b_x b_nmv b_res]. split; [discriminate|]. intros _ X.
      exfalso. exact (eq_true_false_abs _ X T1). }
    injection B as <-. cbn [b_fin b_r b_x b_nmv b_res].
    set (zz := prec q sv). set (t := q_A q zz). set (om := sdiv (vdot t sv) (vdot t t)).
    assert (RR : vsub sv (vscale om t) = cvsub b (q_A q (vadd (vadd (b_x s1) (vscale om zz)) (vscale al qq)))).
    { cbn [vsub vscale vadd cV]. rewrite RS. rewrite !(clin_add _ L), !(clin_scale _ L). fold v t.
      generalize (q_A q (b_x s1) : cv E). intro y. clearbody om t al v. cveq. }
    split; [intros _; exact RR|]. intros _ _. exact (f_equal (fun u : cv E => (cvnorm u, 0)) RR).
  - cbn [b_r b_x b_nmv b_res b_fin]. split; [intros _|intro X; exfalso; lia].
    unfold start_r, opmul, start_x in *. destruct (w_guess kw) as [g|]; injection ER as <- <-; [reflexivity|].
    cbn [vzeros cV]. change (q_A q cvzero) with (q_A q (@cvzero E)). rewrite (clin_zero _ L). destruct b as [b1 b2]. cveq.
Qed.
End Complex.

(** ** A real system with right-hand side [z b]: the run is [z] times the real run. *)
Definition creal {E : IPS} (u : iv E) : cv E := (u, izero).
Lemma zv_creal : forall (E : IPS) (z : CR) (u : iv E), zv E z u = cvscale z (creal u).
Proof. intros. unfold zv, creal. cveq. Qed.

(** Division of two complex numbers with a common factor. *)
Definition div_agree (dv : R -> R -> R) (dvc : CR -> CR -> CR) : Prop :=
  forall t a b, t <> (0, 0) -> dvc (kmul (f := FCR) t (a, 0)) (kmul (f := FCR) t (b, 0)) = (dv a b, 0).

Section Scaled.
Variables (dv : R -> R -> R) (sq : R -> R) (dvc : CR -> CR -> CR) (csq : CR -> CR) (E : IPS) (z : CR).
Hypotheses (Z0 : z <> (0, 0)) (SQ : sq_ok sq) (CSQ : csq_ok csq) (DV : div_agree dv dvc).
Hypothesis LEN : forall (a : R) (u : iv E), ilen (iscale a u) = ilen u.
Notation KR := (exactK dv sq).
Notation WR := (exactV dv sq E).
Notation KC := (cK dvc csq).
Notation WC := (cV dvc csq E).

(** The results [r] of the real run and [c] of the complex one. *)
Definition times_z (r : res (kout WR * nat)) (c : res (kout WC * nat)) : Prop :=
  match r, c with
  | Ok (o, n), Ok (o', n') =>
      n' = n /\ o_x o' = cvscale z (creal (o_x o)) /\ o_conv o' = o_conv o /\ o_nmv o' = o_nmv o /\
      o_residNorm o' = (cmod z * o_residNorm o, 0) /\ o_residNorm0 o' = (cmod z * o_residNorm0 o, 0)
  | Err e, Err e' => e' = e
  | _, _ => False
  end.

Theorem C88_scaled_family : forall (q : kprob WR) cbrt draws (b : iv E) mmax (guess : option (iv E)) fuel cnt,
  lin (q_A q : iv E -> iv E) -> (forall P, q_P q = Some P -> lin (P : iv E -> iv E)) ->
  let qc := @mkprob KC WC (q_m q) (q_n q) (cplx (q_A q))
              (match q_P q with Some P => Some (cplx P) | None => None end)
              (cmod z * q_abstol q, 0) (q_reltol q, 0) cbrt draws in
  let bc := cvscale z (creal b) in
  let kw := @mkkkw KR WR guess mmax in
  let kwc := @mkkkw KC WC (option_map (fun g => cvscale z (creal g)) guess) mmax in
  times_z (cgs_solve fuel q b kw cnt) (cgs_solve fuel qc bc kwc cnt) /\
  times_z (bi_solve fuel q b kw cnt) (bi_solve fuel qc bc kwc cnt) /\
  times_z (tf_solve fuel q b kw cnt) (tf_solve fuel qc bc kwc cnt).
Proof.
  intros q cbrt draws b mmax guess fuel cnt LA LP qc bc kw kwc.
  assert (EQ : qc = cprob dv sq dvc csq E z q cbrt draws) by reflexivity.
  assert (EB : bc = zv E z b) by (symmetry; apply zv_creal).
  assert (EK : kwc = kw_up dv sq dvc csq E z kw).
  { unfold kwc, kw_up, kw. cbn [w_guess w_mmax]. destruct guess; cbn [option_map]; [now rewrite zv_creal|reflexivity]. }
  assert (TU : forall r, times_z r (res_up dv sq dvc csq E z r)).
  { intros [[o n]|e]; cbn [times_z res_up]; [|reflexivity]. unfold out_up. cbn [o_x o_conv o_nmv o_residNorm o_residNorm0].
    rewrite zv_creal. repeat split. }
  rewrite EQ, EB, EK. split; [|split].
  - rewrite (cgs_scaled dv sq dvc csq E z Z0 SQ CSQ DV q cbrt draws LA LP LEN). apply TU.
  - rewrite (bi_scaled dv sq dvc csq E z Z0 SQ CSQ DV q cbrt draws LA LP LEN). apply TU.
  - rewrite (tf_scaled dv sq dvc csq E z Z0 SQ CSQ DV q cbrt draws LA LP LEN). apply TU.
Qed.
End Scaled.

(** ** CG on a real symmetric positive definite system with right-hand side [z b]: it solves
    the system if the curvature test is off or the phase of [z] passes the test, ... *)
Section ScaledCg.
Variables (dv : R -> R -> R) (sq : R -> R) (dvc : CR -> CR -> CR) (csq : CR -> CR) (n : nat) (z : CR).
Hypotheses (Z0 : z <> (0, 0)) (SQ : sq_ok sq) (CSQ : csq_ok csq) (DVR : dv_ok dv) (DV : div_agree dv dvc).
Notation E := (Rn n).
Notation KR := (exactK dv sq).
Notation WR := (exactV dv sq E).
Notation KC := (cK dvc csq).
Notation WC := (cV dvc csq E).

Theorem C88_scaled_cg : forall (A : iv E -> iv E) (at_ rt : R) cbrt draws m1 m2 (b : iv E) (g : option (iv E)) (curv : bool) cnt,
  selfadj A -> posdef A -> 0 <= at_ ->
  (let w := kmul (f := FCR) z z in
   curv = false \/ (0 < fst w /\ snd w <= Q2R (1 # 100000000) * cmod w)) ->
  let q := @mkprob KC WC m1 m2 (cplx A) None (at_, 0) (rt, 0) cbrt draws in
  let bc := cvscale z (creal b) in
  let x0 := match g with Some g => cvscale z (creal g) | None => cvzero end in
  exists o' cnt' (x : cv E),
    cg_solve (2 * n + 1) q cg_new (bc : vc WC)
      (@mkkw KC WC (option_map (fun g => cvscale z (creal g)) g) None false curv false false) cnt = Ok (o', cnt') /\
    g_conv o' = true /\ g_def o' = Some true /\ g_x o' = Some (x : vc WC) /\
    cvnorm (cvsub bc (cplx A x)) <= Rmax at_ (rt * cvnorm (cvsub bc (cplx A x0))).
Proof.
  intros A at_ rt cbrt draws m1 m2 b g curv cnt SA PA AT PH q bc x0.
  pose proof (cmod_pos z Z0) as ZP.
  set (q0 := @mkprob KR WR m1 m2 A None (at_ / cmod z) rt (fun x => x) []).
  set (kw0 := @mkkw KR WR g None false curv false false).
  assert (EQ : q = cprob dv sq dvc csq E z q0 cbrt draws).
  { unfold q, cprob, q0. cbn [q_m q_n q_A q_P q_abstol q_reltol]. f_equal. unfold zn. apply f_equal2; [|reflexivity].
    field. lra. }
  assert (EB : bc = zv E z b) by (symmetry; apply zv_creal).
  assert (EK : @mkkw KC WC (option_map (fun g => cvscale z (creal g)) g) None false curv false false = cgkw_up dv sq dvc csq E z kw0).
  { unfold cgkw_up, kw0. cbn [k_guess k_mmax k_sym k_curv k_sres k_sit]. destruct g; cbn [option_map]; [now rewrite zv_creal|reflexivity]. }
  destruct (C37_Rn_default dv sq n q0 kw0 cg_new b cnt DVR SQ SA PA eq_refl) as (o' & cnt' & H & CV & DF & _);
    [cbn [q_abstol q0]; apply Rle_mult_inv_pos; assumption|reflexivity|reflexivity|].
  destruct (C36_residual dv sq (Rn n) q0 kw0 cg_new b cnt _ o' cnt' (adjoint_lin _ _ SA) SQ eq_refl eq_refl H) as (x & Hx & _ & _ & RS).
  assert (LA : lin A) by exact (adjoint_lin _ _ SA).
  assert (EN : @cg_new KC WC = obj_up dv sq dvc csq E z cg_new) by reflexivity.
  exists (obj_up dv sq dvc csq E z o'), cnt', (zv E z x).
  split.
  { rewrite EQ, EB, EK, EN.
    rewrite (cg_scaled dv sq dvc csq E z Z0 SQ CSQ DV q0 cbrt draws LA ltac:(discriminate) ltac:(reflexivity)
               ltac:(intro u; apply ip_pos) (2 * n + 1) cg_new b kw0 cnt eq_refl PH).
    rewrite H. reflexivity. }
  split; [exact CV|]. split; [exact DF|]. split; [cbn [g_x obj_up]; rewrite Hx; reflexivity|].
  apply RS in CV. cbn [q_A q0 q_abstol q_reltol] in CV.
  assert (RE : forall y : iv E, cvnorm (cvsub bc (cplx A (zv E z y))) = cmod z * inorm (isub b (A y))).
  { intro y. rewrite EB, (zv_A E z A LA), zv_sub. apply zv_norm. }
  assert (EX0 : x0 = zv E z (@start KR WR kw0 b)).
  { unfold x0, start, kw0. cbn [k_guess]. destruct g; [now rewrite zv_creal|]. apply zv_zero. }
  rewrite EX0, !RE. set (m := inorm (isub b (A (@start KR WR kw0 b)))) in *.
  replace (Rmax at_ (rt * (cmod z * m))) with (cmod z * Rmax (at_ / cmod z) (rt * m)).
  - apply Rmult_le_compat_l; [lra|exact CV].
  - rewrite <- RmaxRmult by lra. f_equal; [field; lra|ring].
Qed.

(** ... and gives up at once otherwise, whatever the matrix. *)
Theorem C88_phase : forall (A : iv E -> iv E) (at_ rt : R) cbrt draws m1 m2 (b : iv E) mmax fuel cnt,
  selfadj A -> posdef A -> b <> izero ->
  (let w := kmul (f := FCR) z z in fst w <= 0 \/ Q2R (1 # 100000000) * cmod w < snd w) ->
  at_ < cmod z * inorm b -> rt < 1 ->
  match mmax with Some m => (0 < m)%nat | None => (0 < n)%nat end ->
  let q := @mkprob KC WC m1 m2 (cplx A) None (at_, 0) (rt, 0) cbrt draws in
  exists o', cg_solve (Datatypes.S (Datatypes.S fuel)) q cg_new (cvscale z (creal b) : vc WC)
      (@mkkw KC WC None mmax false true false false) cnt = Ok (o', (cnt + 1)%nat) /\
    g_conv o' = false /\ g_def o' = Some false /\ g_x o' = Some (cvzero : vc WC) /\ g_nmv o' = 1%nat.
Proof.
  intros A at_ rt cbrt draws m1 m2 b mmax fuel cnt SA PA BN PH AT RT MX q.
  pose proof (cmod_pos z Z0) as ZP. assert (LA : lin A) by exact (adjoint_lin _ _ SA).
  rewrite <- zv_creal. unfold cg_solve. cbn [k_sym negb].
  set (kw := @mkkw KC WC None mmax false true false false).
  set (s := cg_init q kw cg_new (zv E z b : vc WC) cnt).
  assert (IB : 0 < inorm b).
  { destruct (inorm_pos b) as [P|P]; [exact P|]. exfalso. apply BN. apply inorm_zero. auto. }
  assert (ER : c_res s = (cmod z * inorm b, 0)).
  { unfold s, cg_init. cbn [k_guess kw prec q_P q c_res].
    change (@vneg KC WC (zv E z b)) with (cvneg (zv E z b)). rewrite zv_neg.
    change (@vdot KC WC (zv E z (ineg b)) (zv E z (ineg b))) with (cvdot (zv E z (ineg b)) (zv E z (ineg b))).
    rewrite zv_dot. cbn [sabs ssqrt cK]. rewrite (zw_root sq csq z SQ CSQ) by apply ip_pos. unfold zn.
    rewrite (SQ _ (ip_pos _)). rewrite Rabs_right by (apply Rle_ge, sqrt_pos).
    fold (@inorm E (ineg b)). now rewrite inorm_neg. }
  assert (EP : c_p s = zv E z b).
  { unfold s, cg_init. cbn [k_guess kw c_p vneg cV]. rewrite !zv_neg. f_equal. veq. }
  assert (TH : cthr dvc csq E q (cmod z * inorm b) < cmod z * inorm b).
  { unfold cthr. cbn [q_abstol q_reltol q fst]. apply Rmax_lub_lt; [exact AT|]. pose proof (Rmult_lt_0_compat _ _ ZP IB). nra. }
  assert (TF : fst (thr q (c_res s) : CR) < cmod z * inorm b).
  { rewrite ER. rewrite thr_fst. exact TH. }
  assert (C : cg_cond q kw (zv E z b : vc WC) (c_res s) s = true).
  { unfold cg_cond, sgtb. apply andb_true_intro. split; [apply andb_true_intro; split|reflexivity].
    - cbn [sltb cK]. apply Rltb_true. rewrite ER at 2. cbn [fst]. exact TF.
    - apply Nat.ltb_lt. unfold s, cg_init. cbn [k_guess kw c_nmv]. unfold CgModel.mmax. cbn [k_mmax kw].
      destruct mmax; [exact MX|]. cbn [vlen cV zv fst]. change (ilen (iscale (fst z) b)) with n. lia. }
  cbn [while]. rewrite C.
  assert (B : cg_body q kw s = Ok (@mkst KC WC (c_x s) (c_r s) (c_p s) (c_ry s) (c_res s) (c_nmv s + 1) false (c_cnt s + 1)
             (c_hist s) (c_resids s) (c_iters s) (Some (c_p s)))).
  { unfold cg_body, opmul. cbn [k_curv kw q_A q andb]. rewrite EP.
    change (@vdot KC WC (zv E z b) (cplx A (zv E z b))) with (cvdot (zv E z b) (cplx A (zv E z b))).
    rewrite (zv_A E z A LA), zv_dot.
    replace (@curv_bad KC (zw z (ip b (A b)))) with true; [reflexivity|]. symmetry.
    specialize (PA b BN). set (a := ip b (A b)) in *. clearbody a.
    unfold curv_bad, sgtb. cbn [slit simag sreal smul sabs sltb sleb s0 cK fst].
    unfold zw. rewrite cmod_mul, cmod_real. destruct (kmul (f := FCR) z z) as [w1 w2]. cbn [fst snd kmul FCR] in *.
    apply orb_true_intro. destruct PH as [PH|PH]; [right; apply Rleb_true; nra|left; apply Rltb_true].
    rewrite Rabs_right by lra. nra. }
  rewrite B.
  replace (cg_cond q kw (zv E z b : vc WC) (c_res s) _) with false
    by (symmetry; unfold cg_cond; cbn [c_def]; apply andb_false_r).
  eexists. split; [reflexivity|]. unfold cg_final; cbn [g_conv g_def g_x g_nmv]; split; [|split; [reflexivity|]].
  - cbn [c_res sleb cK]. apply Rleb_false. rewrite ER at 2. cbn [fst]. exact TF.
  - split; [|reflexivity]. cbn [c_x]. reflexivity.
Qed.
End ScaledCg.

(** ** A Hermitian positive definite system that CG declares indefinite. *)
Definition her {E : IPS} (u v : cv E) : CR :=
  (ip (fst u) (fst v) + ip (snd u) (snd v), ip (fst u) (snd v) - ip (snd u) (fst v)).
Definition hermitian {E : IPS} (A : cv E -> cv E) : Prop := forall u v, her u (A v) = her (A u) v.
Definition herposdef {E : IPS} (A : cv E -> cv E) : Prop := forall u, u <> cvzero -> 0 < fst (her u (A u)).

(** The matrix with rows (2, i) and (-i, 2). *)
Definition mkc (a b c d : R) : cv (Rn 2) := ((a, (c, tt)), (b, (d, tt))).
Definition Hm (u : cv (Rn 2)) : cv (Rn 2) :=
  let '((a, (c, _)), (b, (d, _))) := u in mkc (2 * a - d) (2 * b + c) (b + 2 * c) (2 * d - a).
Lemma Hm_clin : clin Hm.
Proof.
  split.
  - intros [[a [c []]] [b [d []]]] [[a' [c' []]] [b' [d' []]]]. unfold Hm, mkc, cvadd. cbn. repeat first [reflexivity | ring | apply f_equal2].
  - intros [p r] [[a [c []]] [b [d []]]]. unfold Hm, mkc, cvscale, isub, ineg. cbn. repeat first [reflexivity | ring | apply f_equal2].
Qed.
Lemma Hm_herm : hermitian Hm.
Proof.
  intros [[a [c []]] [b [d []]]] [[a' [c' []]] [b' [d' []]]]. unfold her, Hm, mkc. cbn. apply f_equal2; ring.
Qed.
Lemma Hm_pd : herposdef Hm.
Proof.
  intros [[a [c []]] [b [d []]]] H. unfold her, Hm, mkc. cbn.
  destruct (Req_dec (a * a + b * b + c * c + d * d) 0) as [Z|Z].
  - exfalso. apply H. assert (a = 0) by nra. assert (b = 0) by nra. assert (c = 0) by nra. assert (d = 0) by nra.
    subst. reflexivity.
  - pose proof (Rle_0_sqr (a - d)). pose proof (Rle_0_sqr (b + c)). unfold Rsqr in *.
    assert (0 < a * a + b * b + c * c + d * d) by nra. nra.
Qed.

Theorem C88_hermitian_refuted : exists A : cv (Rn 2) -> cv (Rn 2),
  clin A /\ hermitian A /\ herposdef A /\
  forall dvc csq, cdiv_ok dvc -> csq_ok csq -> forall at_ rt cbrt draws, at_ < 1 / 2 -> rt < 1 / 2 ->
  let W := cV dvc csq (Rn 2) in
  let b := creal ((1, (0, tt)) : iv (Rn 2)) in
  let q := @mkprob (cK dvc csq) W 2 2 A None (at_, 0) (rt, 0) cbrt draws in
  exists o' (x : cv (Rn 2)),
    cg_solve 3 q cg_new (b : vc W) cg_kw0 0 = Ok (o', 2%nat) /\
    g_def o' = Some false /\ g_conv o' = false /\ g_x o' = Some (x : vc W) /\ A x <> b.
Proof.
  exists Hm. split; [exact Hm_clin|]. split; [exact Hm_herm|]. split; [exact Hm_pd|].
  intros dvc csq DV CSQ at_ rt cbrt draws AT RT W b q.
  unfold cg_solve, cg_kw0. cbn [k_sym negb]. set (kw := @mkkw (cK dvc csq) W None None false true false false).
  set (s := cg_init q kw cg_new (b : vc W) 0).
  assert (CM : forall a, 0 <= a -> forall v : CR, cmod v = a * a -> cmod (csq v) = a).
  { intros a Ha v Hv. rewrite cmod_csq by exact CSQ. rewrite Hv. now apply sqrt_square. }
  assert (P0 : c_p s = mkc 1 0 0 0).
  { unfold s, cg_init. cbn. unfold mkc, cvneg, ineg. cbn. repeat first [reflexivity | ring | apply f_equal2]. }
  assert (R0 : c_r s = mkc (-1) 0 0 0).
  { unfold s, cg_init. cbn. unfold mkc, cvneg, ineg. cbn. repeat first [reflexivity | ring | apply f_equal2]. }
  assert (Y0 : c_ry s = (1, 0)).
  { transitivity (@cvdot (Rn 2) (c_r s) (c_r s)); [reflexivity|]. rewrite R0. unfold cvdot, mkc. cbn. apply f_equal2; ring. }
  assert (S0 : c_res s = (1, 0)).
  { transitivity (cmod (csq (c_ry s)), 0); [reflexivity|]. rewrite Y0. apply f_equal2; [|reflexivity].
    apply CM; [lra|]. rewrite cmod_real, Rabs_R1. ring. }
  assert (X0 : c_x s = @cvzero (Rn 2)) by reflexivity.
  assert (TH : fst (thr q (c_res s) : CR) < 1 / 2).
  { rewrite S0. refine (Rle_lt_trans _ _ _ (Req_le _ _ (thr_fst dvc csq (Rn 2) q 1)) _). unfold cthr. cbn [q_abstol q_reltol q fst]. apply Rmax_lub_lt; lra. }
  assert (C0 : cg_cond q kw (b : vc W) (c_res s) s = true).
  { unfold cg_cond, sgtb. rewrite S0 at 2. cbn [sltb cK fst W]. apply andb_true_intro. split; [apply andb_true_intro; split|reflexivity].
    - apply Rltb_true. lra.
    - reflexivity. }
  (* first iteration *)
  assert (B1 : exists s1, cg_body q kw s = Ok s1 /\ c_x s1 = mkc (1/2) 0 0 0 /\ c_p s1 = mkc (-1/4) 0 0 (1/2) /\
            c_res s1 = (1/2, 0) /\ c_nmv s1 = 1%nat /\ c_def s1 = true /\ c_cnt s1 = 1%nat).
  { unfold cg_body, opmul. rewrite P0, R0, Y0, X0. cbn [q_A q k_curv k_sit k_sres kw andb prec q_P].
    assert (EA : Hm (mkc 1 0 0 0) = mkc 2 0 0 (-1)) by (unfold Hm, mkc; repeat first [reflexivity | ring | apply f_equal2]).
    rewrite EA.
    assert (ED : @vdot (cK dvc csq) W (mkc 1 0 0 0) (mkc 2 0 0 (-1)) = (2, 0)).
    { cbn [vdot cV W]. unfold cvdot, mkc. cbn. apply f_equal2; ring. }
    rewrite ED.
    assert (EC : @curv_bad (cK dvc csq) (2, 0) = false).
    { unfold curv_bad, sgtb. cbn [slit simag sreal smul sabs sltb sleb s0 cK fst snd kmul FCR].
      apply orb_false_intro; [apply Rltb_false|apply Rleb_false; lra]. rewrite cmod_real, Rabs_right by lra.
      unfold Q2R. cbn. lra. }
    rewrite EC.
    assert (EL : @sdiv (cK dvc csq) (1, 0) (2, 0) = (1/2, 0)).
    { cbn [sdiv cK]. rewrite DV by (intro X; injection X; lra). cbn [kmul kinv FCR fst snd]. apply f_equal2; field. }
    rewrite EL.
    assert (ER : @vadd (cK dvc csq) W (mkc (-1) 0 0 0) (@vscale (cK dvc csq) W (1/2, 0) (mkc 2 0 0 (-1))) = mkc 0 0 0 (-1/2)).
    { cbn [vadd vscale cV W]. unfold mkc, cvadd, cvscale, isub, ineg. cbn. repeat first [reflexivity | field | apply f_equal2]. }
    rewrite ER.
    assert (EY : @vdot (cK dvc csq) W (mkc 0 0 0 (-1/2)) (mkc 0 0 0 (-1/2)) = (-1/4, 0)).
    { cbn [vdot cV W]. unfold cvdot, mkc. cbn. apply f_equal2; field. }
    rewrite EY.
    assert (EB : @sdiv (cK dvc csq) (-1/4, 0) (1, 0) = (-1/4, 0)).
    { cbn [sdiv cK]. rewrite DV by (intro X; injection X; lra). cbn [kmul kinv FCR fst snd]. apply f_equal2; field. }
    rewrite EB.
    eexists. split; [reflexivity|]. cbn [c_x c_p c_res c_nmv c_def c_cnt]. split; [|split; [|split; [|repeat split; reflexivity]]].
    - cbn [vadd vscale cV W]. unfold mkc, cvadd, cvscale, cvzero, isub, ineg. cbn. repeat first [reflexivity | field | apply f_equal2].
    - cbn [vsub vscale cV W]. unfold mkc, cvsub, cvscale, isub, ineg. cbn. repeat first [reflexivity | field | apply f_equal2].
    - cbn [sabs ssqrt cK]. apply f_equal2; [|reflexivity]. apply CM; [lra|]. rewrite cmod_real.
      rewrite Rabs_left by lra. field. }
  destruct B1 as (s1 & B1 & X1 & P1 & S1 & N1 & D1 & T1).
  assert (C1 : cg_cond q kw (b : vc W) (c_res s) s1 = true).
  { unfold cg_cond, sgtb. rewrite S1, N1, D1. cbn [sltb cK fst]. apply andb_true_intro. split; [apply andb_true_intro; split|reflexivity].
    - apply Rltb_true. exact TH.
    - reflexivity. }
  assert (B2 : exists s2, cg_body q kw s1 = Ok s2 /\ c_x s2 = mkc (1/2) 0 0 0 /\ c_def s2 = false /\ c_cnt s2 = 2%nat /\
            c_res s2 = (1/2, 0)).
  { unfold cg_body, opmul. rewrite P1. cbn [q_A q k_curv kw andb].
    assert (EA : Hm (mkc (-1/4) 0 0 (1/2)) = mkc (-1) 0 0 (5/4)) by (unfold Hm, mkc; repeat first [reflexivity | field | apply f_equal2]).
    rewrite EA.
    assert (ED : @vdot (cK dvc csq) W (mkc (-1/4) 0 0 (1/2)) (mkc (-1) 0 0 (5/4)) = (-3/8, 0)).
    { cbn [vdot cV W]. unfold cvdot, mkc. cbn. apply f_equal2; field. }
    rewrite ED.
    assert (EC : @curv_bad (cK dvc csq) (-3/8, 0) = true).
    { unfold curv_bad. cbn [sreal sleb s0 cK fst]. apply orb_true_intro. right. apply Rleb_true. lra. }
    rewrite EC. eexists. split; [reflexivity|]. cbn [c_x c_def c_cnt c_res]. rewrite X1, T1, S1. repeat split. }
  destruct B2 as (s2 & B2 & X2 & D2 & T2 & S2).
  exists (cg_final q (c_res s) s2), (mkc (1/2) 0 0 0).
  cbn [while]. rewrite C0, B1, C1, B2.
  replace (cg_cond q kw (b : vc W) (c_res s) s2) with false
    by (symmetry; unfold cg_cond; rewrite D2; apply andb_false_r).
  rewrite T2. split; [reflexivity|]. unfold cg_final. cbn [g_def g_conv g_x]. rewrite D2, X2, S2.
  split; [reflexivity|]. split; [cbn [sleb cK fst]; apply Rleb_false; exact TH|]. split; [reflexivity|].
  intro X. unfold b, creal, Hm, mkc in X. cbn in X. injection X. lra.
Qed.

(** ** Satisfiability *)
(** A vector whose bilinear square is zero: (1, i). *)
Example ex_C88_isotropic : exists b : cv (Rn 2), cvdot b b = (0, 0) /\ cvnorm b = sqrt 2.
Proof.
  exists (mkc 1 0 0 1). split; [unfold cvdot, mkc; cbn; apply f_equal2; ring|].
  unfold cvnorm, mkc. cbn. f_equal. ring.
Qed.

(** Divisions that agree. *)
Definition rdiv0 (a b : R) : R := if Req_EM_T b 0 then 0 else a / b.
Definition cdiv0 (a b : CR) : CR := kmul (f := FCR) a (kinv (f := FCR) b).
Lemma cdiv0_ok : cdiv_ok cdiv0. Proof. intros a b _. reflexivity. Qed.
Lemma rdiv0_ok : dv_ok rdiv0. Proof. intros a b H. unfold rdiv0. destruct (Req_EM_T b 0); [contradiction|reflexivity]. Qed.
Lemma div0_agree : div_agree rdiv0 cdiv0.
Proof.
  intros [t1 t2] a b T. unfold cdiv0, rdiv0. cbn [kmul kinv FCR fst snd].
  assert (TP : t1 * t1 + t2 * t2 <> 0).
  { intro X. apply T. assert (t1 = 0) by nra. assert (t2 = 0) by nra. subst; reflexivity. }
  destruct (Req_EM_T b 0) as [->|NB].
  - apply f_equal2; unfold Rdiv; ring.
  - assert (D : (t1 * b - t2 * 0) * (t1 * b - t2 * 0) + (t1 * 0 + t2 * b) * (t1 * 0 + t2 * b) = b * b * (t1 * t1 + t2 * t2)) by ring.
    rewrite D. apply f_equal2; field; repeat split; assumption.
Qed.

(** diag(1, 2) with right-hand side [z b]: solved for z = 1 and for z = i without the curvature
    test, rejected for z = i with it. *)
Example ex_C88 : forall b : iv (Rn 2), b <> izero ->
  let A : iv (Rn 2) -> iv (Rn 2) := fun v : rv 2 => ((fst v, (2 * fst (snd v), tt)) : rv 2) in
  let W := cV cdiv0 csqrt (Rn 2) in
  let q := @mkprob (cK cdiv0 csqrt) W 2 2 (cplx A) None (0, 0) (0, 0) (fun x => x) [] in
  (exists o' cnt' x, cg_solve 5 q cg_new (cvscale (1, 0) (creal b) : vc W) cg_kw0 0 = Ok (o', cnt') /\
     g_x o' = Some x /\ cplx A x = cvscale (1, 0) (creal b)) /\
  (exists o' cnt' x, cg_solve 5 q cg_new (cvscale (0, 1) (creal b) : vc W)
       (@mkkw _ W None None false false false false) 0 = Ok (o', cnt') /\
     g_x o' = Some x /\ cplx A x = cvscale (0, 1) (creal b)) /\
  (exists o', cg_solve 2 q cg_new (cvscale (0, 1) (creal b) : vc W) cg_kw0 0 = Ok (o', 1%nat) /\
     g_conv o' = false /\ g_def o' = Some false /\ g_x o' = Some (cvzero : vc W)).
Proof.
  intros b BN A W q.
  assert (SA : @selfadj (Rn 2) A) by (intros [u0 [u1 []]] [v0 [v1 []]]; cbn; ring).
  assert (PA : @posdef (Rn 2) A).
  { intros [u0 [u1 []]] H. cbn. assert (0 < u0 * u0 + u1 * u1); [|nra].
    destruct (Req_dec (u0 * u0 + u1 * u1) 0) as [Z|Z]; [|nra]. exfalso. apply H.
    assert (u0 = 0) by nra. assert (u1 = 0) by nra. subst. reflexivity. }
  assert (O1 : (1, 0) <> ((0, 0) : CR)) by (intro X; injection X; lra).
  assert (O2 : (0, 1) <> ((0, 0) : CR)) by (intro X; injection X; lra).
  assert (FIN : forall (y x0 x : cv (Rn 2)), cvnorm (cvsub y (cplx A x)) <= Rmax 0 (0 * cvnorm (cvsub y (cplx A x0))) -> cplx A x = y).
  { intros y x0 x H. rewrite Rmult_0_l, Rmax_left in H by lra.
    assert (N : cvnorm (cvsub y (cplx A x)) = 0) by (pose proof (cvnorm_pos (cvsub y (cplx A x))); lra).
    apply cvnorm_zero in N. revert N. generalize (cplx A x). clear. intros [p r] N. destruct y as [y1 y2].
    unfold cvsub, cvzero in N. cbn [fst snd] in N.
    assert (N1 : isub y1 p = izero) by exact (f_equal fst N). assert (N2 : isub y2 r = izero) by exact (f_equal snd N).
    apply f_equal2.
    - apply (@ip_ext (Rn 2)). intro w. apply (f_equal (@ip (Rn 2) w)) in N1. rewrite ip_sub, ip_zero in N1. lra.
    - apply (@ip_ext (Rn 2)). intro w. apply (f_equal (@ip (Rn 2) w)) in N2. rewrite ip_sub, ip_zero in N2. lra. }
  split; [|split].
  - destruct (C88_scaled_cg rdiv0 sqrt cdiv0 csqrt 2 (1, 0) O1 sqrt_ok csqrt_ok rdiv0_ok div0_agree A 0 0
      (fun x => x) [] 2 2 b None true 0 SA PA (Rle_refl 0)) as (o' & cnt' & x & H & _ & _ & Hx & N).
    + right. cbn [kmul FCR fst snd]. unfold cmod, Q2R. cbn [fst snd]. split; [lra|].
      replace (1 * 0 + 0 * 1) with 0 by ring. apply Rmult_le_pos; [cbn; lra|apply sqrt_pos].
    + exists o', cnt', x. split; [exact H|]. split; [exact Hx|]. exact (FIN _ _ _ N).
  - destruct (C88_scaled_cg rdiv0 sqrt cdiv0 csqrt 2 (0, 1) O2 sqrt_ok csqrt_ok rdiv0_ok div0_agree A 0 0
      (fun x => x) [] 2 2 b None false 0 SA PA (Rle_refl 0) (or_introl eq_refl)) as (o' & cnt' & x & H & _ & _ & Hx & N).
    exists o', cnt', x. split; [exact H|]. split; [exact Hx|]. exact (FIN _ _ _ N).
  - assert (M1 : cmod (0, 1) = 1).
    { unfold cmod. cbn [fst snd]. replace (0 * 0 + 1 * 1) with 1 by ring. apply sqrt_1. }
    destruct (C88_phase sqrt cdiv0 csqrt 2 (0, 1) O2 sqrt_ok csqrt_ok A 0 0 (fun x => x) [] 2 2 b None 0 0 SA PA BN)
      as (o' & H & CV & DF & Hx & _).
    + left. cbn [kmul FCR fst snd]. lra.
    + rewrite M1, Rmult_1_l. destruct (inorm_pos b) as [P|P]; [exact P|]. exfalso. apply BN, inorm_zero. auto.
    + lra.
    + lia.
    + exists o'. repeat split; assumption.
Qed.

Print Assumptions C88_isotropic_cg.
Print Assumptions C88_isotropic_family.
Print Assumptions C88_reported_cg.
Print Assumptions C88_reported_cgs.
Print Assumptions C88_reported_bicgstab.
Print Assumptions C88_scaled_family.
Print Assumptions C88_scaled_cg.
Print Assumptions C88_phase.
Print Assumptions C88_hermitian_refuted.
