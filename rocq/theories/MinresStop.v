(** When MINRES goes on: unless [b] is (nearly) an eigenvector, every residual norm but the last one is larger
    than [rtol] times the norm of [b]. *)
From Coq Require Import List Arith Lia Bool QArith ZArith Reals Lra Qreals.
From Verif Require Import Base Num ToolsModel CgModel CgProof MinresModel MinresProof Precon.
Import ListNotations.
Local Open Scope R_scope.

Section Stop.
Variables (dv : R -> R -> R) (sq : R -> R).
Hypothesis DV : dv_ok dv.
Hypothesis SQ : sq_ok sq.
Variable E : IPS.
Notation KK := (exactK dv sq).
Notation WW := (exactV dv sq E).
Variables (q : kprob WW) (kw : mr_kw WW) (b : iv E).
Let At (z : iv E) : iv E := isub (q_A q z : iv E) (iscale (m_shift kw) z).
Let P : iv E -> iv E := match m_precon kw with Some P => P | None => fun z => z end.
Let pnorm (z : iv E) : R := sqrt (ip z (P z)).
Hypothesis SA : selfadj (q_A q : iv E -> iv E).
Hypothesis SP : selfadj P.
Hypothesis PP : posdef P.
Notation eps := (@machine_eps KK : R).
Notation lim := (@mr_lim KK WW kw b).

(** A zero code means that test 1 failed. *)
Lemma mr_tests_on : forall beta1 rtol itn l t1 t2 ac ex,
  @mr_tests KK eps beta1 rtol itn l t1 t2 ac ex = 0%Z -> rtol < (t1 : R).
Proof.
  intros beta1 rtol itn l t1 t2 ac ex H. unfold mr_tests in H.
  destruct (@sleb KK t1 rtol) eqn:C; [discriminate|]. apply Rnot_le_lt. intro L.
  assert (T : @sleb KK t1 rtol = true) by (apply Rleb_true; exact L). congruence.
Qed.

(** The scalars of one iteration that the tests need. *)
Lemma mr_upd_scal : forall beta1 st v (al : R) r2 y cnt (be de gb root ga : R),
  let st' := @mr_upd KK WW kw eps beta1 lim st v al r2 y cnt be de gb root ga in
  let z := dv (r_rhs1 st) ga in
  (r_itn st' = r_itn st + 1)%nat /\ r_brk st' = (0 <? r_istop st')%Z /\
  (r_tnorm2 st' : R) = r_tnorm2 st + al * al + r_beta st * r_beta st + be * be /\
  (r_ynorm2 st' : R) = z * z + r_ynorm2 st /\
  (r_hist st' : list R) = r_hist st ++ [r_phibar st'] /\
  (r_istop st = 0%Z -> ((r_itn st + 1 =? 1)%nat = true -> 10 * eps < dv be beta1) ->
     (0 <= r_istop st')%Z /\
     (r_istop st' = 0%Z -> m_rtol kw < dv (r_phibar st') (sq (r_tnorm2 st') * sq (r_ynorm2 st')))).
Proof.
  intros beta1 st v al r2 y cnt be de gb root ga st' z.
  split; [reflexivity|]. split; [reflexivity|]. split; [reflexivity|]. split; [reflexivity|]. split; [reflexivity|].
  intros I0 NE. subst st'. unfold mr_upd. cbn [r_istop r_phibar r_tnorm2 r_ynorm2]. rewrite I0.
  assert (FI : ((r_itn st + 1 =? 1)%nat && @sleb KK (sdiv (be : sc KK) beta1) (smul (slit 10 : sc KK) (eps : sc KK))) = false).
  { destruct (r_itn st + 1 =? 1)%nat eqn:E1; [|reflexivity]. cbn [andb]. apply Rleb_false.
    specialize (NE eq_refl). change (Q2R 10 * eps < dv be beta1). replace (Q2R 10) with 10 by (unfold Q2R; cbn; lra). exact NE. }
  rewrite FI. clear FI NE.
  match goal with |- context[if (?c && ?d) then 10%Z else 0%Z] => destruct (c && d) eqn:LT end.
  - cbn [Z.eqb]. split; [lia|]. intro X. discriminate X.
  - cbn [Z.eqb]. split.
    + match goal with |- (0 <= ?t)%Z => assert (Rg : In t [0; 1; 2; 3; 4; 6]%Z) by (apply mr_tests_range); destruct t; cbn in Rg; [lia|lia|] end.
      intuition discriminate.
    + intro X. apply mr_tests_on in X. exact X.
Qed.

Hypothesis SG : forall z, kry (fun z => At (P z)) b 1 z -> eps * pnorm z <= pnorm (At (P z)).
Let u : iv E := iscale (/ pnorm b) b.
(** [b] is no eigenvector, as far as the code can tell. *)
Hypothesis NE : 10 * eps * pnorm b < pnorm (isub (At (P u)) (iscale (ip (P u) (At (P u))) u)).


Lemma pd_nonneg : forall z, 0 <= ip z (P z).
Proof.
  intro z. destruct (Req_dec (ip z (P z)) 0) as [E0|E0]; [lra|]. left. apply PP. intros ->. apply E0. apply ip_zerol.
Qed.
Lemma mr_body_upd : forall beta1 st st', @mr_body KK WW q kw eps beta1 lim st = Ok st' ->
  exists v (al : R) (r2 : iv E) cnt, @mr_lan KK WW q kw st = (v, al, r2, P r2, ip r2 (P r2), cnt) /\
    st' = @mr_upd KK WW kw eps beta1 lim st v al r2 (P r2) cnt (sq (ip r2 (P r2))) (mr_delta st al) (mr_gbar st al)
      (mr_root st (mr_gbar st al) (sq (ip r2 (P r2)) : sc KK)) (Rmax (sq (mr_gbar st al * mr_gbar st al + sq (ip r2 (P r2)) * sq (ip r2 (P r2)))) eps).
Proof.
  intros beta1 st st' H. unfold mr_body in H.
  destruct (mr_lan q kw st) as [[[[[v al] r2] y] be2] cnt] eqn:EL.
  assert (Y : y = P r2 /\ be2 = ip r2 (P r2)).
  { unfold mr_lan, opmul in EL. injection EL as _ _ Er Ey Eb _. rewrite Er in Ey, Eb.
    assert (Y0 : y = P r2) by (unfold P; destruct (m_precon kw); symmetry; exact Ey).
    split; [exact Y0|]. rewrite <- Eb. change (ip r2 (match m_precon kw with Some P => P r2 | None => r2 end) = ip r2 (P r2)).
    f_equal. unfold P. destruct (m_precon kw); reflexivity. }
  destruct Y as [-> ->]. exists v, al, r2, cnt. split; [reflexivity|].
  assert (B : @sltb KK (ip r2 (P r2)) s0 = false) by (apply Rltb_false; apply pd_nonneg).
  rewrite B in H. destruct (m_window kw =? 0)%nat; [discriminate|]. injection H as <-.
  f_equal. unfold mr_gamma. rewrite (Rmax_pymax dv sq). reflexivity.
Qed.

Definition mr_on (beta1 : R) (h0 : list R) (st : mr_st WW) : Prop :=
  (r_itn st = 0%nat -> exists c, st = @mr_init KK WW kw b beta1 0 false h0 c) /\
  exists h, (r_hist st : list R) = h0 ++ h /\ length h = r_itn st /\
    (forall i x, nth_error h i = Some x -> (S i < r_itn st)%nat -> m_rtol kw * beta1 < x) /\
    (r_istop st = 0%Z -> forall i x, nth_error h i = Some x -> m_rtol kw * beta1 < x) /\
    (r_brk st = false -> r_istop st = 0%Z) /\
    ((1 <= r_itn st)%nat -> 0 < (r_tnorm2 st : R) /\ 0 < (r_ynorm2 st : R) /\ beta1 * beta1 <= r_tnorm2 st * r_ynorm2 st).

Hypothesis BP : 0 < pnorm b.
(** The first iteration. *)
Lemma mr_first : forall c v al r2 y be2 cnt, let st := @mr_init KK WW kw b (pnorm b) 0 false [] c in
  @mr_lan KK WW q kw st = (v, al, r2, y, be2, cnt) ->
  (al : R) = ip (P u) (At (P u)) /\ (r2 : iv E) = isub (At (P u)) (iscale al u) /\ eps * eps <= al * al + ip r2 (P r2).
Proof.
  intros c v al r2 y be2 cnt st H. pose proof (adjoint_lin _ _ SP) as LP.
  assert (B1 : pnorm b * pnorm b = ip b (P b)) by (apply sqrt_sqrt; apply pd_nonneg).
  assert (BN : pnorm b <> 0) by lra.
  assert (V : (v : iv E) = P u).
  { unfold mr_lan, opmul in H. injection H as Hv _ _ _ _ _. rewrite <- Hv.
    change (iscale (dv 1 (pnorm b)) (match m_precon kw with Some P => P b | None => b end) = P u).
    replace (match m_precon kw with Some P => P b | None => b end : iv E) with (P b) by (unfold P; destruct (m_precon kw); reflexivity).
    unfold u. rewrite (lin_scale P LP), DV by exact BN. f_equal. field. exact BN. }
  assert (UU : ip (P u) u = 1).
  { unfold u. rewrite (lin_scale P LP), ip_scale, ip_scalel, (ip_sym (P b)), <- B1. field. exact BN. }
  assert (AL : (al : R) = ip (P u) (At (P u))).
  { unfold mr_lan, opmul in H. injection H as Hv Ha _ _ _ _. rewrite <- Ha. change (r_itn st + 1)%nat with 1%nat. cbn [Nat.leb].
    rewrite Hv, V. reflexivity. }
  assert (R2 : (r2 : iv E) = isub (At (P u)) (iscale al u)).
  { unfold mr_lan, opmul in H. injection H as Hv Ha Hr _ _ _. rewrite <- Hr. change (r_itn st + 1)%nat with 1%nat in *. cbn [Nat.leb] in *.
    rewrite Ha, Hv, V. change (iadd (iscale (dv (- al) (pnorm b)) b) (At (P u)) = isub (At (P u)) (iscale al u)).
    unfold u at 3. rewrite DV by exact BN. unfold Rdiv. apply ip_ext. intro z. ipx. ring. }
  split; [exact AL|]. split; [exact R2|].
  assert (NR : al * al + ip r2 (P r2) = ip (At (P u)) (P (At (P u)))).
  { rewrite R2, (lin_sub P LP), (lin_scale P LP). rewrite !ip_sub, !ip_subl, !ip_scale, !ip_scalel.
    assert (S1 : ip u (P u) = 1) by (rewrite ip_sym; exact UU). rewrite S1.
    assert (S2 : ip (At (P u)) (P u) = al) by (rewrite ip_sym; symmetry; exact AL). rewrite S2.
    assert (S3 : ip u (P (At (P u))) = al) by (rewrite SP; symmetry; exact AL). rewrite S3. ring. }
  rewrite NR.
  assert (KU : kry (fun z => At (P z)) b 1 u).
  { exists (/ pnorm b), izero. split; [reflexivity|]. unfold At. rewrite (lin_zero P LP), (lin_zero _ (adjoint_lin _ _ SA)). unfold u. veq. }
  pose proof (SG u KU) as G. unfold pnorm at 1 in G. rewrite (ip_sym u), UU, sqrt_1, Rmult_1_r in G.
  pose proof (eps_pos dv sq) as EP. apply Rle_trans with (pnorm (At (P u)) * pnorm (At (P u))).
  - apply Rmult_le_compat; lra.
  - unfold pnorm. rewrite sqrt_sqrt by apply pd_nonneg. lra.
Qed.

Hypothesis RT : 0 <= (m_rtol kw : R).
Lemma mr_on_step : forall h0 st st', mr_on (pnorm b) h0 st -> @mr_cond KK WW lim st = true ->
  @mr_body KK WW q kw eps (pnorm b) lim st = Ok st' -> mr_on (pnorm b) h0 st'.
Proof.
  intros h0 st st' (I0 & h & H1 & H2 & H3 & H4 & H5 & H6) C B.
  unfold mr_cond in C. apply andb_prop in C as [C _]. apply negb_true_iff in C. specialize (H5 C). specialize (H4 H5).
  destruct (mr_body_upd _ _ _ B) as (v & al & r2 & cnt & EL & ->). clear B.
  set (be2 := ip r2 (P r2)) in *. set (be := sq be2) in *.
  assert (BE : be * be = be2) by (unfold be; rewrite SQ by apply pd_nonneg; apply sqrt_sqrt, pd_nonneg).
  set (gb := @mr_gbar KK WW st al) in *. set (ga := Rmax (sq (gb * gb + be * be)) eps).
  pose proof (eps_pos dv sq) as EP.
  assert (GP : eps <= ga) by apply Rmax_r.
  destruct (mr_upd_scal (pnorm b) st v al r2 (P r2) cnt be (mr_delta st al) gb (mr_root st gb (be : sc KK)) ga)
    as (U1 & U2 & U3 & U4 & U5 & U6).
  set (st' := mr_upd _ _ _ _ _ _ _ _ _ _ _ _ _ _ _) in *. clearbody st'.
  assert (FR : r_itn st = 0%nat -> 10 * eps < dv be (pnorm b) /\ 0 < (r_tnorm2 st' : R) /\ 0 < (r_ynorm2 st' : R) /\
    pnorm b * pnorm b <= r_tnorm2 st' * r_ynorm2 st').
  { intro Z. destruct (I0 Z) as [c Ec].
    assert (EL' : @mr_lan KK WW q kw (@mr_init KK WW kw b (pnorm b) 0 false [] c) = (v, al, r2, P r2, be2, cnt)).
    { rewrite <- EL, Ec. reflexivity. }
    destruct (mr_first c v al r2 (P r2) be2 cnt EL') as (F1 & F2 & F3). fold be2 in F3.
    assert (GB : gb = al). { unfold gb. rewrite Ec. unfold mr_gbar. cbn. unfold Q2R. cbn. lra. }
    assert (GA : ga = sqrt (al * al + be2)).
    { unfold ga. rewrite GB, BE, SQ by (pose proof (Rle_0_sqr al) as X; unfold Rsqr in X; pose proof (pd_nonneg r2); unfold be2; lra).
      apply Rmax_left. rewrite <- (sqrt_square eps) by lra. apply sqrt_le_1_alt. exact F3. }
    assert (G2 : ga * ga = al * al + be2).
    { rewrite GA. apply sqrt_sqrt. apply Rle_trans with (eps * eps); [|exact F3]. nra. }
    split; [|].
    - rewrite DV by lra. apply Rmult_lt_reg_r with (pnorm b); [exact BP|]. replace (be / pnorm b * pnorm b) with be by (field; lra).
      eapply Rlt_le_trans; [exact NE|]. rewrite <- F1, <- F2. unfold pnorm, be. fold be2. rewrite SQ by apply pd_nonneg. lra.
    - rewrite Ec in U3, U4. cbn in U3, U4. rewrite BE in U3. rewrite U3, U4. rewrite DV by lra.
      assert (T1 : 0 < pnorm b / ga) by (apply Rdiv_lt_0_compat; lra).
      assert (T2 : ga * (pnorm b / ga) = pnorm b) by (field; lra).
      set (t := pnorm b / ga) in *. clearbody t.
      assert (B2 : 0 < pnorm b * pnorm b) by nra. rewrite <- T2 at 5 6.
      repeat split; try nra. }
  assert (NE1 : (r_itn st + 1 =? 1)%nat = true -> 10 * eps < dv be (pnorm b)).
  { intro X. apply Nat.eqb_eq in X. apply FR. lia. }
  destruct (U6 H5 NE1) as (NN & ON). clear U6.
  assert (POS : 0 < (r_tnorm2 st' : R) /\ 0 < (r_ynorm2 st' : R) /\ pnorm b * pnorm b <= r_tnorm2 st' * r_ynorm2 st').
  { destruct (Nat.eq_dec (r_itn st) 0) as [Z|Z]; [apply FR; exact Z|].
    destruct H6 as (T1 & T2 & T3); [lia|].
    assert (T4 : (r_tnorm2 st : R) <= r_tnorm2 st').
    { rewrite U3. pose proof (Rle_0_sqr al). pose proof (Rle_0_sqr (r_beta st)). pose proof (Rle_0_sqr be). unfold Rsqr in *. lra. }
    assert (T5 : (r_ynorm2 st : R) <= r_ynorm2 st').
    { rewrite U4. pose proof (Rle_0_sqr (dv (r_rhs1 st) ga)). unfold Rsqr in *. lra. }
    split; [lra|]. split; [lra|]. eapply Rle_trans; [exact T3|]. apply Rmult_le_compat; lra. }
  assert (LST : r_istop st' = 0%Z -> m_rtol kw * pnorm b < r_phibar st').
  { intro Z. specialize (ON Z). destruct POS as (T1 & T2 & T3). rewrite !SQ, <- sqrt_mult_alt in ON by lra.
    assert (T4 : pnorm b <= sqrt (r_tnorm2 st' * r_ynorm2 st')).
    { rewrite <- (sqrt_square (pnorm b)) by lra. apply sqrt_le_1_alt. exact T3. }
    set (ay := sqrt _) in *. rewrite DV in ON by lra.
    apply Rle_lt_trans with (m_rtol kw * ay); [apply Rmult_le_compat_l; assumption|].
    apply Rmult_lt_compat_r with (r := ay) in ON; [|lra]. assert (FF : forall p : R, p / ay * ay = p) by (intro; field; lra).
    eapply Rlt_le_trans; [exact ON|right; apply FF]. }
  split; [intro Z; lia|]. exists (h ++ [r_phibar st' : R]).
  split; [rewrite app_assoc, <- H1; exact U5|].
  split; [rewrite app_length; cbn; lia|].
  split.
  { intros i x Hi Li. rewrite nth_error_app1 in Hi by lia. apply (H4 i x Hi). }
  split.
  { intros Z i x Hi. destruct (Nat.lt_ge_cases i (length h)) as [L|L].
    - rewrite nth_error_app1 in Hi by lia. apply (H4 i x Hi).
    - rewrite nth_error_app2 in Hi by lia. destruct (i - length h)%nat as [|j]; [|destruct j; discriminate].
      injection Hi as <-. apply LST, Z. }
  split.
  { intro F. rewrite U2 in F. apply Z.ltb_ge in F. lia. }
  intros _. exact POS.
Qed.

(** The whole run. *)
Lemma mr_on_run : forall fuel hist cnt o cnt', @mr_solve KK WW fuel q hist b kw cnt = Ok (o, cnt') ->
  exists h, (u_hist o : list R) = hist ++ h /\ length h = u_itn o /\
    forall i x, nth_error h i = Some x -> (S i < u_itn o)%nat -> m_rtol kw * pnorm b < x.
Proof.
  intros fuel hist cnt o cnt' H. unfold mr_solve in H.
  destruct (mr_start q kw b cnt) as [[[beta1 istop] done] c0] eqn:ES.
  destruct (while _ _ _ _) as [st|] eqn:W; [|discriminate]. injection H as <- <-. cbn [u_hist u_itn].
  destruct (mr_start_spec _ _ _ _ _ _ _ _ ES) as (_ & DI & _).
  destruct done.
  - destruct fuel as [|fuel]; [discriminate|]. cbn in W. injection W as <-. cbn.
    exists []. rewrite app_nil_r. split; [reflexivity|]. split; [reflexivity|]. intros i x Hi. destruct i; discriminate.
  - specialize (DI eq_refl). subst istop.
    assert (EB : beta1 = pnorm b).
    { unfold mr_start in ES. destruct (if m_check kw then check_symmetric _ _ _ _ _ _ else _) as [ok c1].
      injection ES as Eb _ _ _. rewrite <- Eb. clear Eb.
      assert (B0 : ip b (@mr_y0 KK WW kw b : iv E) = ip b (P b)).
      { change (ip b (match m_precon kw with Some P => P b | None => b end) = ip b (P b)). f_equal. unfold P. destruct (m_precon kw); reflexivity. }
      change ((if @sgtb KK (ip b (@mr_y0 KK WW kw b : iv E)) s0 then sq (ip b (@mr_y0 KK WW kw b : iv E)) else ip b (@mr_y0 KK WW kw b : iv E)) = pnorm b). rewrite B0.
      assert (BB : 0 < ip b (P b)).
      { destruct (Rle_lt_dec (ip b (P b)) 0) as [L|L]; [|exact L]. exfalso. unfold pnorm in BP. rewrite sqrt_neg_0 in BP by exact L. lra. }
      assert (G : @sgtb KK (ip b (P b)) s0 = true) by (apply Rltb_true; exact BB).
      rewrite G. apply SQ. lra. }
    rewrite EB in W. apply while_inv with (I := mr_on (pnorm b) hist) in W.
    + destruct W as [(_ & h & H1 & H2 & H3 & _) _]. exists h. auto.
    + intros s s' I C B. apply (mr_on_step hist s s' I C B).
    + split; [intros _; exists c0; reflexivity|]. exists []. cbn. rewrite app_nil_r.
      split; [reflexivity|]. split; [reflexivity|]. split; [intros i x Hi; destruct i; discriminate|].
      split; [intros _ i x Hi; destruct i; discriminate|]. split; [reflexivity|lia].
Qed.
End Stop.
