(** * The first iteration of MINRES: what its stopping tests see (minres.py:219-381). *)
From Coq Require Import List Arith Lia Bool QArith ZArith Reals Lra Qreals.
From Verif Require Import Base Num ToolsModel ToolsProof CgModel CgProof PropCg MinresModel MinresProof PropMinres.
Import ListNotations.
Local Open Scope R_scope.

Section Early.
Variables (dv : R -> R -> R) (sq : R -> R) (E : IPS).
Notation KK := (exactK dv sq).
Notation WW := (exactV dv sq E).
Notation eps := (@machine_eps KK).
Hypothesis DV : dv_ok dv.
Hypothesis SQ : sq_ok sq.
Variables (q : kprob WW) (kw : mr_kw WW) (b : iv E).
Let At := fun z : iv E => isub (q_A q z : iv E) (iscale (m_shift kw) z).
Let v : iv E := iscale (/ inorm b) b.
Let al : R := ip v (At v).
Let be : R := inorm (isub (At v) (iscale al v)).
Let ga : R := sqrt (al * al + be * be).
Hypothesis NP : m_precon kw = None.
Hypothesis B0 : 0 < inorm b.
Hypothesis GA : eps <= ga.
Hypothesis WN : (1 <= m_window kw)%nat.
Hypothesis LM : (1 <= mr_lim kw b)%nat.

Lemma me_eps : eps = / 4503599627370496.
Proof. unfold machine_eps. cbn. unfold Q2R. cbn. lra. Qed.
Lemma me_first : forall hist cnt st, @mr_body KK WW q kw eps (inorm b) (mr_lim kw b) (@mr_init KK WW kw b (inorm b) 0 false hist cnt) = Ok st ->
  (r_x st : iv E) = iscale (al * inorm b / (ga * ga)) v /\ r_rnorm st = be / ga * inorm b /\ r_itn st = 1%nat /\
  r_hist st = hist ++ [be / ga * inorm b] /\
  r_istop st = (if Rleb (be / inorm b) (Q2R 10 * eps) then (-1)%Z
    else @mr_tests KK eps (inorm b) (m_rtol kw) 1 (mr_lim kw b) (be / sqrt (al * al + inorm b * inorm b + be * be))
      (ga / sqrt (al * al + inorm b * inorm b + be * be)) (dv (Rmax (Rabs al) ga) (@pymin KK (Rabs al) ga))
      (sqrt (al * al + inorm b * inorm b + be * be) * (inorm b / ga) * eps)) /\
  r_brk st = (0 <? r_istop st)%Z.
Proof.
  intros hist cnt st B.
  pose proof (mr_body_eq dv sq E q kw b NP _ _ _ B) as H1.
  pose proof (mr_body_eq2 dv sq E q kw b NP _ _ _ B ltac:(cbn; lia)) as H2.
  cbv zeta in H1, H2. unfold mr_init, mr_y0 in H1, H2. rewrite NP in H1, H2.
  cbn [r_beta r_y r_r2 r_itn r_cs r_sn r_dbar r_epsln r_phibar r_rhs1 r_rhs2 r_tnorm2 r_ynorm2 r_istop r_x r_hist r_w r_w2
    r_oldb r_r1 r_gmax r_gmin r_iters Nat.add Nat.leb Nat.eqb andb] in H1, H2.
  change (s0 : sc KK) with 0 in H1, H2. change (@slit KK (-1)) with (Q2R (-1)) in H1, H2.
  replace (Q2R (-1)) with (-1) in H1, H2 by (unfold Q2R; cbn; lra).
  assert (Ev : iscale (dv 1 (inorm b)) b = v) by (unfold v; rewrite DV by lra; f_equal; field; lra).
  rewrite Ev in H1, H2.
  change (shifted E (q_A q) (m_shift kw) v) with (At v) in H1, H2. change (ip v (At v)) with al in H1, H2.
  assert (Eb : iscale (inorm b) v = b) by (unfold v; veq; field; lra).
  assert (Ey : iadd (iscale (dv (- al) (inorm b)) b) (At v) = isub (At v) (iscale al v)).
  { rewrite DV by lra. rewrite <- Eb at 2. veq. field. lra. }
  rewrite Ey in H1, H2.
  assert (Ebe : sq (ip (isub (At v) (iscale al v)) (isub (At v) (iscale al v))) = be) by (apply SQ, ip_pos).
  rewrite Ebe in H1, H2.
  replace (-1 * 0 + 0 * al) with 0 in H1, H2 by ring. replace (0 * 0 - -1 * al) with al in H1, H2 by ring.
  replace (- -1 * be) with be in H1, H2 by ring.
  assert (BE : 0 <= be) by apply inorm_pos.
  assert (SG : sq (al * al + be * be) = ga) by (apply SQ; nra). rewrite !SG in H1, H2. rewrite (Rmax_left ga) in H1, H2 by exact GA.
  assert (GP : 0 < ga) by (pose proof me_eps as Q; rewrite Q in GA; lra).
  rewrite !(DV _ ga) in H1 by lra. rewrite !(DV _ ga) in H2 by lra. rewrite !(DV _ (inorm b)) in H2 by lra.
  destruct H1 as (X & _ & _ & _ & _ & _ & _ & _ & _ & _ & _ & _ & _ & HRN & _ & HN & HH & _).
  destruct H2 as (T1 & T2 & T3 & T4 & _ & _ & _ & _ & T9 & T10).
  assert (Zr : @vzeros KK WW (@vlen KK WW b) = @izero E) by reflexivity. rewrite !Zr in X.
  split. { rewrite X. veq. field. lra. }
  split; [exact HRN|]. split; [exact HN|]. split; [exact HH|]. split; [|exact T10].
  rewrite T9. destruct (Rleb (be / inorm b) (Q2R 10 * eps)); [reflexivity|]. cbn [Z.eqb].
  assert (AN : r_Anorm st = sqrt (al * al + inorm b * inorm b + be * be)).
  { rewrite T3, T1. rewrite SQ by nra. f_equal. ring. }
  assert (YN : r_ynorm st = inorm b / ga).
  { rewrite T4, T2. rewrite SQ by (pose proof (Rle_0_sqr (inorm b / ga)) as Q; unfold Rsqr in Q; lra).
    rewrite Rplus_0_r. apply sqrt_square. apply Rlt_le, Rdiv_lt_0_compat; lra. }
  assert (AP : 0 < sqrt (al * al + inorm b * inorm b + be * be)) by (apply sqrt_lt_R0; nra).
  rewrite AN, YN, HRN. assert (QP : 0 < inorm b / ga) by (apply Rdiv_lt_0_compat; lra).
  rewrite DV by nra. rewrite (DV ga) by lra.
  replace (be / ga * inorm b / (sqrt (al * al + inorm b * inorm b + be * be) * (inorm b / ga)))
    with (be / sqrt (al * al + inorm b * inorm b + be * be)) by (field; split; [lra|split; lra]).
  reflexivity.
Qed.

Hypothesis CK : m_check kw = true -> fst (check_symmetric (q_cbrt q) (q_m q) (q_n q) (q_A q) (q_draws q) 0) = true.
Lemma me_start : exists c, @mr_start KK WW q kw b 0 = (inorm b, 0%Z, false, c).
Proof.
  unfold mr_start, mr_y0. rewrite NP. destruct (m_check kw) eqn:C.
  - specialize (CK eq_refl). destruct (check_symmetric _ _ _ _ _ 0) as [ok c]. cbn in CK. subst ok. exists c.
    assert (P : 0 < ip b b) by (apply Rnot_le_lt; intro N; unfold inorm in B0; rewrite (sqrt_neg_0 _ N) in B0; lra).
    cbn. unfold sgtb. cbn. replace (Rltb (ip b b) 0) with false by (symmetry; apply Rltb_false; lra).
    replace (Reqb (ip b b) 0) with false by (symmetry; apply Reqb_false; lra).
    replace (Rltb 0 (ip b b)) with true by (symmetry; apply Rltb_true; lra). cbn. rewrite SQ by lra. reflexivity.
  - exists 0%nat.
    assert (P : 0 < ip b b) by (apply Rnot_le_lt; intro N; unfold inorm in B0; rewrite (sqrt_neg_0 _ N) in B0; lra).
    cbn. unfold sgtb. cbn. replace (Rltb (ip b b) 0) with false by (symmetry; apply Rltb_false; lra).
    replace (Reqb (ip b b) 0) with false by (symmetry; apply Reqb_false; lra).
    replace (Rltb 0 (ip b b)) with true by (symmetry; apply Rltb_true; lra). cbn. rewrite SQ by lra. reflexivity.
Qed.

(** One iteration when the second Lanczos coefficient is small compared with the norm of [b]. *)
Lemma me_stop : lin (q_A q : iv E -> iv E) -> Q2R 10 * eps < be / inorm b -> be / inorm b <= m_rtol kw ->
  forall fuel hist, (2 <= fuel)%nat ->
  exists o c, @mr_solve KK WW fuel q hist b kw 0 = Ok (o, c) /\ u_itn o = 1%nat /\ u_istop o = 1%Z /\ u_conv o = true /\
    (u_x o : iv E) = iscale (al / (ga * ga)) b /\ u_rnorm o = be / ga * inorm b /\
    inorm (isub b (At (u_x o))) = be / ga * inorm b.
Proof.
  intros LA H1 H2 fuel hist F. destruct me_start as [c ST]. unfold mr_solve. rewrite ST.
  set (st0 := @mr_init KK WW kw b (inorm b) 0 false hist c).
  destruct (@mr_body_ok KK WW q kw b eps (inorm b) st0 WN) as [st B].
  destruct (me_first hist c st B) as (X & RN & IT & _ & IS & BR).
  replace (Rleb (be / inorm b) (Q2R 10 * eps)) with false in IS by (symmetry; apply Rleb_false; exact H1).
  assert (BE : 0 <= be) by apply inorm_pos.
  assert (AN : inorm b <= sqrt (al * al + inorm b * inorm b + be * be)).
  { rewrite <- (sqrt_square (inorm b)) at 1 by lra. apply sqrt_le_1_alt. nra. }
  assert (T : sleb (be / sqrt (al * al + inorm b * inorm b + be * be) : sc KK) (m_rtol kw) = true).
  { apply Rleb_true. eapply Rle_trans; [|exact H2]. apply Rmult_le_compat_l; [exact BE|]. apply Rinv_le_contravar; lra. }
  assert (I1 : r_istop st = 1%Z) by (rewrite IS; unfold mr_tests; rewrite T; reflexivity).
  destruct fuel as [|[|fuel]]; try lia. cbn [while].
  assert (C0 : mr_cond (mr_lim kw b) st0 = true) by (unfold mr_cond, st0; cbn [mr_init r_brk r_itn negb andb]; apply Nat.ltb_lt; exact LM).
  rewrite C0, B. rewrite I1 in BR.
  replace (mr_cond (mr_lim kw b) st) with false by (unfold mr_cond; rewrite BR; reflexivity).
  assert (GP : 0 < ga) by (pose proof me_eps as Q; rewrite Q in GA; lra).
  assert (XV : (r_x st : iv E) = iscale (al / (ga * ga)) b).
  { rewrite X. unfold v. veq. field. lra. }
  eexists _, _. split; [reflexivity|]. cbn [u_itn u_istop u_conv u_x u_rnorm]. split; [exact IT|]. split; [exact I1|].
  split; [rewrite I1; reflexivity|]. split; [exact XV|]. split; [exact RN|].
  rewrite XV.
  assert (LT : lin At).
  { destruct LA as [L1 L2]. split; intros; unfold At; rewrite ?L1, ?L2; veq; ring. }
  assert (Eb : iscale (inorm b) v = b) by (unfold v; veq; field; lra).
  assert (VV : ip v v = 1).
  { assert (Q : ip b b = inorm b * inorm b) by (unfold inorm; rewrite sqrt_sqrt by apply ip_pos; reflexivity).
    unfold v. ipx. rewrite Q. field. lra. }
  set (y := isub (At v) (iscale al v)) in *.
  assert (VY : ip v y = 0) by (unfold y; ipx; fold al; rewrite VV; ring).
  assert (YY : ip y y = be * be) by (unfold be, inorm; rewrite sqrt_sqrt by apply ip_pos; reflexivity).
  assert (G2 : ga * ga = al * al + be * be) by (unfold ga; rewrite sqrt_sqrt by nra; reflexivity).
  assert (RS : isub b (At (iscale (al / (ga * ga)) b)) = iscale (inorm b / (ga * ga)) (isub (iscale (be * be) v) (iscale al y))).
  { assert (AB : At b = iscale (inorm b) (iadd y (iscale al v))).
    { transitivity (At (iscale (inorm b) v)); [rewrite Eb; reflexivity|]. rewrite (lin_scale At LT). unfold y. veq. }
    rewrite (lin_scale At LT), AB.
    transitivity (isub (iscale (inorm b) v) (iscale (al / (ga * ga)) (iscale (inorm b) (iadd y (iscale al v))))); [rewrite Eb; reflexivity|].
    apply ip_ext; intro z; ipx. replace (be * be) with (ga * ga - al * al) by lra. field. lra. }
  rewrite RS, inorm_scale, Rabs_pos_eq by (apply Rlt_le, Rdiv_lt_0_compat; nra).
  replace (inorm (isub (iscale (be * be) v) (iscale al y))) with (be * ga).
  { field. lra. }
  unfold inorm. symmetry. apply sqrt_val; [nra|]. ipx. rewrite VV, (ip_sym y v), VY, YY.
  replace (be * ga * (be * ga)) with (be * be * (ga * ga)) by ring. rewrite G2. ring.
Qed.
End Early.
