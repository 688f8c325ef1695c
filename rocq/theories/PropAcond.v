(** Property C103: the estimates [Acond] of LSQR and [condA] of LSMR. *)
From Coq Require Import List Arith Lia Bool QArith ZArith Reals Lra Qreals.
From Verif Require Import Base Num SpanMath ToolsModel ToolsProof PropCg MinresModel MinresProof GkProof PropMinres
  LsqrModel LsqrFlow LsqrMath LsqrProof PropLsqr LsmrModel LsmrFlow LsmrMath LsmrProof PropLsmr AnormLs AnormLm Backward PropAnorm AcondLs AcondLm.
Import ListNotations.
Local Open Scope R_scope.

Lemma norm_one : forall (E : IPS) (z : iv E), 1 * 1 * ip z z <= inorm z * inorm z <= 1 * 1 * ip z z.
Proof. intros E z. rewrite inorm_sq. lra. Qed.

Section Lsqr.
Variables (dv : R -> R -> R) (sq : R -> R).
Hypothesis DV : dv_ok dv.
Hypothesis SQ : sq_ok sq.
Notation KK := (exactK dv sq).
Variables E1 E2 : IPS.
Variables (nv2 : iv E2 -> R).
Notation WV := (exactVn dv sq E1 inorm).
Notation WU := (exactVn dv sq E2 nv2).
Variables (q : lprob WV WU) (kw : ls_kw WV WU) (b : iv E2).
Hypothesis NM : l_M kw = None.
Hypothesis NN : l_N kw = None.
Hypothesis AD : adjoint (lp_A q : iv E1 -> iv E2) (lp_At q : iv E2 -> iv E1).
Hypothesis HW : (1 <= l_window kw)%nat.
Variables (fuel cnt : nat).
Let lim := if (l_itnlim kw =? 0)%Z then (3 * Z.of_nat (lp_n q))%Z else l_itnlim kw.
Hypothesis HF : (Z.to_nat lim < fuel)%nat.
Let A : iv E1 -> iv E2 := lp_A q.
Let At : iv E2 -> iv E1 := lp_At q.
Let d : R := l_damp kw.
Let nres (x : iv E1) : iv E1 := isub (At (isub b (A x))) (iscale (d * d) x).

(** [Acond] is at least the number of iterations, less one if the normal equations are solved. *)
Theorem C103_lsqr_lower : forall o cnt', @ls_solve KK WV WU fuel q kw b cnt = Ok (o, cnt') ->
  INR (o_itn o) - 1 <= (o_Acond o : R) /\ (nres (o_x o) <> izero -> INR (o_itn o) <= (o_Acond o : R)).
Proof.
  intros o cnt' H.
  destruct (ac_solve dv sq DV SQ E1 E2 inorm nv2 1 1 Rle_0_1 (norm_one E1) q kw b NM NN AD HW 0) with (2 := H) as (dd & A1 & A2 & A3 & A4 & A5 & A6).
  - intro z. pose proof (ip_pos (lp_A q z : iv E2)). pose proof (ip_pos z). pose proof (Rle_0_sqr (l_damp kw : R)) as Q. unfold Rsqr in Q. nra.
  - rewrite Rmult_1_l in A5, A6. split; assumption.
Qed.

(** It is at most [sqrt itn] times the ratio of [Anorm] to the smallest singular value of the stacked
    operator [(A; damp I)]. *)
Theorem C103_lsqr_upper : forall o cnt' sg, @ls_solve KK WV WU fuel q kw b cnt = Ok (o, cnt') -> 0 <= sg ->
  (forall z, sg * sg * ip z z <= ip (A z) (A z) + d * d * ip z z) ->
  sg * o_Acond o <= sqrt (INR (o_itn o)) * o_Anorm o /\
  forall F, frob_le A F -> d = 0 -> sg * o_Acond o <= sqrt (INR (o_itn o)) * F.
Proof.
  intros o cnt' sg H S0 SG.
  destruct (ac_solve dv sq DV SQ E1 E2 inorm nv2 1 1 Rle_0_1 (norm_one E1) q kw b NM NN AD HW sg SG fuel cnt o cnt' H) as (dd & A1 & A2 & A3 & A4 & A5 & A6).
  assert (U : sg * o_Acond o <= sqrt (INR (o_itn o)) * o_Anorm o).
  { rewrite A3. replace (sg * (o_Anorm o * sqrt dd)) with (sg * sqrt dd * o_Anorm o) by rring.
    apply Rmult_le_compat_r; [exact A1|]. rewrite <- (sqrt_square sg S0), <- sqrt_mult_alt by nra.
    apply sqrt_le_1_alt. lra. }
  split; [exact U|]. intros F FB D0.
  destruct (C102_lsqr_bound dv sq DV SQ E1 E2 inorm nv2 q kw b NM NN AD HW fuel cnt HF o cnt' F H FB) as [B1 _].
  eapply Rle_trans; [exact U|]. apply Rmult_le_compat_l; [apply sqrt_pos|]. exact (B1 D0).
Qed.
End Lsqr.

Section Lsmr.
Variables (dv : R -> R -> R) (sq : R -> R).
Hypothesis DV : dv_ok dv.
Hypothesis SQ : sq_ok sq.
Notation KK := (exactK dv sq).
Variables E1 E2 : IPS.
Variables (nv1 : iv E1 -> R) (nv2 : iv E2 -> R).
Hypothesis NVP : forall x, 0 <= nv1 x.
Hypothesis NVZ : nv1 izero = 0.
Notation WV := (exactVn dv sq E1 nv1).
Notation WU := (exactVn dv sq E2 nv2).
Variables (q : lprob WV WU) (kw : lm_kw WV WU) (b : iv E2).
Hypothesis NM : m_M kw = None.
Hypothesis NN : m_N kw = None.
Hypothesis AD : adjoint (lp_A q : iv E1 -> iv E2) (lp_At q : iv E2 -> iv E1).
Hypothesis HW : (1 <= m_window kw)%nat.
Variables (fuel cnt : nat) (ob : lm_obj WV).
Let lim := match m_itnlim kw with None => Z.of_nat (Nat.min (lp_m q) (lp_n q)) | Some l => l end.
Hypothesis HF : (Z.to_nat lim < fuel)%nat.
Let A : iv E1 -> iv E2 := lp_A q.
Let At : iv E2 -> iv E1 := lp_At q.
Let d : R := m_damp kw.

(** If [conlim] times the norm of [(A; damp I) v] is at most 1, [v] being the normalised gradient
    [A'b], then LSMR makes one iteration whatever the tolerances are: either that solves an
    undamped consistent system and the solver divides by zero, or it stops with code 1, 2 or 3 and
    returns a multiple of [A'b]. *)
Theorem C103_lsmr_conlim : At b <> izero -> (1 <= lim)%Z -> 0 < (m_conlim kw : R) ->
  (let g := At b in m_conlim kw * m_conlim kw * (ip (A g) (A g) + d * d * ip g g) <= ip g g) ->
  (exists r ob' cnt', @lm_solve KK WV WU fuel q kw ob b cnt = Ok (r, ob', cnt') /\ r_itn r = 1%nat /\
     (r_istop r = 1 \/ r_istop r = 2 \/ r_istop r = 3)%Z /\ exists t, r_x r = iscale t (At b)) \/
  (@lm_solve KK WV WU fuel q kw ob b cnt = Err ZeroDivisionError /\ d = 0 /\ exists t, A (iscale t (At b)) = b).
Proof. exact (cm_solve dv sq DV SQ E1 E2 nv1 nv2 NVP NVZ q kw b NM NN AD HW fuel ob cnt HF). Qed.
End Lsmr.

(** ** [e diag(1, 2)], whose condition number is 2. *)
Section Small.
Variable e : R.
Definition yA (z : iv (Rn 2)) : iv (Rn 2) := v2 (e * fst z) (2 * e * fst (snd z)).
Definition yq : lprob W2 W2 := @mklprob K0 W2 W2 2 2 (yA : vc W2 -> vc W2) (yA : vc W2 -> vc W2).
Definition ykw : lm_kw W2 W2 := @lm_kw0 K0 W2 W2 (fun _ => 0 : sc K0).
Lemma yAD : adjoint yA yA.
Proof. intros [a [c []]] [f [g []]]. cbn. ring. Qed.
Definition yb : iv (Rn 2) := v2 1 1.
Lemma y_frob : 0 <= e -> frob_le yA (e * sqrt 5).
Proof.
  intro E0. replace (e * sqrt 5) with (sqrt (rsum (map (fun z : iv (Rn 2) => ip (yA z) (yA z)) (Num.basis 2)))).
  - exact (C102_frobenius (Rn 2) 2 yA yA yAD).
  - transitivity (sqrt (e * e * 5)); [unfold rsum; cbn; f_equal; ring|].
    rewrite sqrt_mult_alt by nra. rewrite sqrt_square by exact E0. reflexivity.
Qed.
End Small.

Lemma ten_sq : Q2R 100000000 = 100000000.
Proof. unfold Q2R. cbn. lra. Qed.
Lemma ten_m9 : Q2R (1 # 1000000000) = / 1000000000.
Proof. unfold Q2R. cbn. lra. Qed.

(** "istop = 3 means COND(A) seems to be greater than CONLIM" (lsmr.py:138): with the default
    parameters LSMR gives up with code 3 after one iteration, its relative residual still above one
    half, on every multiple [e diag(1, 2)] with [e] at most [5e-9]. *)
Theorem C103_lsmr_condition_refuted : forall e, 0 < e -> e * 200000000 <= 1 ->
  exists r ob' cnt', @lm_solve K0 W2 W2 3 (yq e) ykw lm_obj0 yb 0 = Ok (r, ob', cnt') /\
    (forall z : iv (Rn 2), e * e * ip z z <= ip (yA e z) (yA e z) <= 2 * e * (2 * e) * ip z z) /\
    r_istop r = 3%Z /\ r_itn r = 1%nat /\ inorm (isub yb (yA e (r_x r))) > 1 / 2 * inorm yb.
Proof.
  intros e E0 E1.
  assert (NZ : yA e yb <> izero).
  { intro H. apply (f_equal (fun z : iv (Rn 2) => fst z)) in H. cbn in H. lra. }
  destruct (C103_lsmr_conlim Rdiv sqrt Rdiv_ok sqrt_ok (Rn 2) (Rn 2) inorm inorm (@inorm_pos (Rn 2)) (@inorm_izero (Rn 2)) (yq e) ykw yb eq_refl eq_refl
    (yAD e) ltac:(cbn; lia) 3 0 lm_obj0 ltac:(cbn; lia) NZ ltac:(cbn; lia)) as [(r & ob' & cnt' & H & I & S & t & X)|(_ & _ & t & X)].
  - cbn. rewrite ten_sq. lra.
  - change (m_conlim ykw : R) with (Q2R 100000000). change (m_damp ykw : R) with 0. rewrite ten_sq. cbn.
    assert (Q : e * e * (200000000 * 200000000) <= 1) by nra. assert (0 <= e * e) by nra. nra.
  - exists r, ob', cnt'. split; [exact H|].
    split. { intros [a [c []]]. cbn. split; nra. }
    change (lp_At (yq e) (yb : vc W2)) with (yA e yb) in X. change (r_x r = iscale t (yA e yb) :> iv (Rn 2)) in X.
    set (s := t * (e * e)).
    assert (RX : isub yb (yA e (r_x r)) = v2 (1 - s) (1 - 4 * s)).
    { rewrite X. unfold isub, ineg, s, v2, yA, yb, v2. cbn. f_equal; [ring|f_equal; ring]. }
    destruct (C68_stop_meaning Rdiv sqrt Rdiv_ok sqrt_ok (Rn 2) (Rn 2) inorm inorm (@inorm_pos (Rn 2)) (@inorm_izero (Rn 2)) (yq e) ykw yb eq_refl eq_refl
      (yAD e) ltac:(cbn; lia) 3 0 lm_obj0 ltac:(cbn; lia) r ob' cnt' H NZ) as [S1 S2].
    pose proof (C102_lsmr_bound Rdiv sqrt Rdiv_ok sqrt_ok (Rn 2) (Rn 2) inorm (yq e) ykw yb eq_refl eq_refl
      (yAD e) ltac:(cbn; lia) 3 0 lm_obj0 ltac:(cbn; lia) NZ r ob' cnt' (e * sqrt 5) H (y_frob e ltac:(lra))) as NB.
    pose proof (proj1 (C102_lsmr Rdiv sqrt Rdiv_ok sqrt_ok (Rn 2) (Rn 2) inorm (yq e) ykw yb eq_refl eq_refl
      (yAD e) ltac:(cbn; lia) 3 0 lm_obj0 ltac:(cbn; lia) NZ r ob' cnt' H)) as NP.
    cbv beta in S1, S2. change (lp_A (yq e)) with (yA e) in S1, S2. change (lp_At (yq e)) with (yA e) in S2.
    rewrite RX in S1, S2. rewrite RX. clear RX.
    change (m_damp ykw : R) with 0 in S1, S2. change (m_atol ykw : R) with (Q2R (1 # 1000000000)) in S1, S2.
    change (m_btol ykw : R) with (Q2R (1 # 1000000000)) in S1. rewrite ten_m9 in S1, S2.
    assert (N5 : sqrt 5 * sqrt 5 = 5) by (apply sqrt_sqrt; lra). pose proof (sqrt_pos 5) as P5.
    assert (NX : inorm (r_x r : iv (Rn 2)) = Rabs t * e * sqrt 5).
    { rewrite X, inorm_scale. replace (inorm (yA e yb)) with (e * sqrt 5); [ring|]. unfold inorm. symmetry. apply sqrt_val; [nra|].
      assert (Q : e * sqrt 5 * (e * sqrt 5) = e * e * 5) by (transitivity (e * e * (sqrt 5 * sqrt 5)); [ring|rewrite N5; reflexivity]). cbn. lra. }
    rewrite NX in S1.
    set (N := (1 - s) * (1 - s) + (1 - 4 * s) * (1 - 4 * s)).
    assert (EN : ip (v2 (1 - s) (1 - 4 * s)) (v2 (1 - s) (1 - 4 * s)) = N) by (unfold N; cbn; ring).
    assert (N1 : s * s / 10 + 1 / 2 <= N) by (unfold N; pose proof (Rle_0_sqr (s - 5 / 17)) as Q; unfold Rsqr in Q; nra).
    assert (SN : inorm (v2 (1 - s) (1 - 4 * s)) = sqrt N) by (unfold inorm; rewrite EN; reflexivity).
    assert (MN : sqrt N * sqrt N = N) by (apply sqrt_sqrt; nra). pose proof (sqrt_pos N) as MP.
    assert (B2 : inorm yb * inorm yb = 2) by (rewrite inorm_sq; cbn; ring). pose proof (inorm_pos yb) as BP.
    assert (RES : inorm (v2 (1 - s) (1 - 4 * s)) > 1 / 2 * inorm yb).
    { rewrite SN. apply Rnot_le_gt. intro L. assert (9 / 17 <= N) by (unfold N; pose proof (Rle_0_sqr (s - 5 / 17)) as Q; unfold Rsqr in Q; nra). nra. }
    assert (O0 : ip (v2 (1 - s) (1 - 4 * s)) (v2 (1 - s) (1 - 4 * s)) + 0 * 0 * ip (r_x r : iv (Rn 2)) (r_x r) = N) by (rewrite EN; ring).
    rewrite O0 in S1, S2.
    split; [|split; [exact I|exact RES]].
    destruct S as [S|[S|S]]; [exfalso|exfalso|exact S].
    + specialize (S1 S).
      assert (AS : Rabs t * e * e = Rabs s) by (unfold s; rewrite Rabs_mult, (Rabs_right (e * e)) by nra; ring).
      assert (Q : r_normA r * (Rabs t * e * sqrt 5) <= 5 * Rabs s).
      { rewrite <- AS. apply Rle_trans with (e * sqrt 5 * (Rabs t * e * sqrt 5)).
        - apply Rmult_le_compat_r; [|exact NB]. pose proof (Rabs_pos t). apply Rmult_le_pos; [nra|exact P5].
        - right. transitivity (Rabs t * e * e * (sqrt 5 * sqrt 5)); [ring|rewrite N5; ring]. }
      assert (BB : inorm yb <= 2) by nra.
      assert (S3 : sqrt N <= / 1000000000 * (2 + 5 * Rabs s)).
      { eapply Rle_trans; [exact S1|]. rewrite Rmult_plus_distr_l. apply Rplus_le_compat; [nra|].
        rewrite Rmult_assoc. apply Rmult_le_compat_l; [lra|exact Q]. }
      assert (SS : Rabs s * Rabs s = s * s) by (rewrite <- Rabs_mult; apply Rabs_right; nra).
      pose proof (Rabs_pos s) as SP. set (a := Rabs s) in *.
      assert (S4 : sqrt N <= / 100 * (1 + a)) by lra.
      assert (S5 : sqrt N * sqrt N <= / 100 * (1 + a) * (/ 100 * (1 + a))) by (apply Rmult_le_compat; assumption).
      rewrite MN in S5. nra.
    + specialize (S2 S).
      set (y := isub (yA e (v2 (1 - s) (1 - 4 * s))) (iscale (0 * 0) (r_x r : iv (Rn 2)))) in S2.
      assert (YY : e * e * N <= ip y y).
      { assert (Y0 : ip y y = e * e * ((1 - s) * (1 - s) + 4 * ((1 - 4 * s) * (1 - 4 * s)))) by (unfold y; rewrite X; cbn; ring).
        rewrite Y0. apply Rmult_le_compat_l; [nra|]. unfold N. pose proof (Rle_0_sqr (1 - 4 * s)) as Q. unfold Rsqr in Q. lra. }
      assert (Y1 : e * sqrt N <= inorm y).
      { apply sq_le; [apply inorm_pos|]. rewrite inorm_sq. replace (e * sqrt N * (e * sqrt N)) with (e * e * (sqrt N * sqrt N)) by ring. rewrite MN. exact YY. }
      assert (Y2 : r_normA r * sqrt N <= e * 3 * sqrt N).
      { apply Rmult_le_compat_r; [exact MP|]. eapply Rle_trans; [exact NB|]. apply Rmult_le_compat_l; [lra|]. nra. }
      assert (0 < sqrt N) by (apply sqrt_lt_R0; nra).
      assert (0 < e * sqrt N) by (apply Rmult_lt_0_compat; assumption).
      change (r_normA r * sqrt N) with ((r_normA r : R) * sqrt N) in S2. set (w := (r_normA r : R) * sqrt N) in *. lra.
  - exfalso. apply (f_equal (fun z : iv (Rn 2) => (fst z, fst (snd z)))) in X. cbn in X. injection X as X1 X2. nra.
Qed.

(** "Acond = estimate of cond(Abar)" (lsqr.py:130): for the operator [3] on the line, whose condition
    number is 1, LSQR returns 0. *)
Theorem C103_lsqr_condition_refuted : exists o cnt', let kw := lkw 0 1 W1 W1 in
  @ls_solve K0 W1 W1 2 tq kw (v1 1) 0 = Ok (o, cnt') /\ (forall z, ip (tA z) (tA z) = 3 * 3 * ip z z) /\ (l_damp kw : R) = 0 /\
  o_itn o = 1%nat /\ (o_Acond o : R) = 0.
Proof.
  set (kw := lkw 0 1 W1 W1).
  destruct (ls_exact Rdiv sqrt Rdiv_ok sqrt_ok (Rn 1) (Rn 1) inorm inorm tq kw (v1 1) eq_refl eq_refl tAD ltac:(cbn; lia) 2 0 eq_refl ltac:(change (1 < 2)%nat; lia))
    as (o & c & xs & H & _). exists o, c. split; [exact H|]. split; [intros [z []]; cbn; ring|]. split; [reflexivity|].
  destruct (t_start 0 1) as (st0 & E0 & P & I5 & I6 & I7 & I8 & I9 & I13 & I17 & I18 & I19 & I12 & I14 & I15 & I11 & I20). fold kw in E0, P.
  destruct (ex_body Rdiv sqrt Rdiv_ok sqrt_ok (Rn 1) (Rn 1) inorm inorm tq kw eq_refl eq_refl ltac:(cbn; lia) 1 st0 (v1 1) (v1 1) (v1 1) ltac:(lra) P)
    as (st1 & u' & v' & al' & EB & O).
  assert (Y : isub (tA (v1 1)) (iscale (s_alpha st0) (v1 1)) = izero).
  { rewrite I5. unfold isub, ineg, tA, v1. cbn. change (@izero (Rn 1)) with (v1 0). apply v1_eq. ring. }
  assert (B0 : inorm (isub (tA (v1 1)) (iscale (s_alpha st0) (v1 1))) = 0) by (rewrite Y; apply inorm_izero).
  destruct (an_body Rdiv sqrt Rdiv_ok sqrt_ok (Rn 1) (Rn 1) inorm inorm tq kw eq_refl eq_refl 1 st0 st1 (v1 1) (v1 1) (v1 1) P EB) as [A1 _].
  specialize (A1 B0).
  destruct (ac_body Rdiv sqrt Rdiv_ok sqrt_ok (Rn 1) (Rn 1) inorm inorm 1 1 (norm_one _) tq kw eq_refl 1 st0 st1 (v1 1) (v1 1) (v1 1) P EB) as (_ & _ & A2).
  rewrite A1, I9 in A2.
  unfold ls_solve in H. change (l_wantvar kw) with false in H. cbv iota in H. rewrite E0 in H. cbn [rbind] in H.
  rewrite I6 in H. cbn [while] in H. unfold ls_cond at 1 in H. rewrite I19, I18 in H.
  change (ls_lim tq kw) with 1%Z in *. cbn [negb andb Z.of_nat Z.ltb Z.compare] in H. rewrite EB in H.
  unfold ls_cond in H. rewrite (eo_itn _ _ _ _ _ _ _ _ _ _ _ _ _ _ _ _ O), I18 in H.
  cbn [Nat.add Z.of_nat Pos.of_succ_nat Z.ltb Z.compare Pos.compare Pos.compare_cont] in H. rewrite andb_false_r in H. cbn [rbind] in H.
  injection H as <- _. cbn [o_itn o_Acond]. split; [rewrite (eo_itn _ _ _ _ _ _ _ _ _ _ _ _ _ _ _ _ O), I18; reflexivity|].
  rewrite A2. apply Rmult_0_l.
Qed.

(** ** The hypotheses hold: the damped 3 by 2 problem of PropLsqr for LSQR, [e = 5e-9] for LSMR. *)
Example ex_C103_lsqr : let kw := lkw 2 0 W2 W3 in
  dv_ok Rdiv /\ sq_ok sqrt /\ l_M kw = None /\ l_N kw = None /\ adjoint xA xAt /\ (1 <= l_window kw)%nat /\
  (forall z : iv (Rn 2), 2 * 2 * ip z z <= ip (xA z) (xA z) + l_damp kw * l_damp kw * ip z z) /\
  exists o cnt', @ls_solve K0 W2 W3 7 xq kw xb 0 = Ok (o, cnt').
Proof.
  intro kw. split; [exact Rdiv_ok|]. split; [exact sqrt_ok|]. split; [reflexivity|]. split; [reflexivity|].
  split; [exact xAD|]. split; [cbn; lia|]. split; [|exact (proj1 (proj2 (proj2 (proj2 ex_C102))))].
  intro z. change (l_damp kw : R) with 2. pose proof (ip_pos (xA z)). lra.
Qed.

Example ex_C103_lsmr : let e := / 200000000 in let kw := ykw in
  m_M kw = None /\ m_N kw = None /\ adjoint (yA e) (yA e) /\ (1 <= m_window kw)%nat /\ yA e yb <> izero /\ 0 < (m_conlim kw : R) /\
  (let g := yA e yb in m_conlim kw * m_conlim kw * (ip (yA e g) (yA e g) + m_damp kw * m_damp kw * ip g g) <= ip g g) /\
  exists r ob' cnt', @lm_solve K0 W2 W2 3 (yq e) kw lm_obj0 yb 0 = Ok (r, ob', cnt') /\ r_istop r = 3%Z.
Proof.
  intros e kw. split; [reflexivity|]. split; [reflexivity|]. split; [exact (yAD e)|]. split; [cbn; lia|].
  split. { intro H. apply (f_equal (fun z : iv (Rn 2) => fst z)) in H. cbn in H. unfold e in H. lra. }
  change (m_conlim kw : R) with (Q2R 100000000). change (m_damp kw : R) with 0. rewrite ten_sq.
  split; [lra|]. split; [cbn; unfold e; lra|].
  destruct (C103_lsmr_condition_refuted e) as (r & ob' & cnt' & H & _ & I & _); [unfold e; lra|unfold e; lra|].
  exists r, ob', cnt'. split; assumption.
Qed.

Print Assumptions C103_lsqr_lower.
Print Assumptions C103_lsqr_upper.
Print Assumptions C103_lsqr_condition_refuted.
Print Assumptions C103_lsmr_conlim.
Print Assumptions C103_lsmr_condition_refuted.
