(** * CRAIG in exact arithmetic: the reported norms ([self.r1norm], [self.xnorm], [self.Arnorm] and [normal_eqns_resids]). *)
From Coq Require Import List ZArith QArith Reals Lia Lra Bool.
From Verif Require Import Base Num ToolsModel MinresModel MinresProof GkProof LsqrModel LsqrFlow LsqrProof
  CraigModel CraigFlow CraigMath CraigProof.
Import ListNotations.
Local Open Scope R_scope.

Section Exact.
Variables (dv : R -> R -> R) (sq : R -> R).
Hypothesis DV : dv_ok dv.
Hypothesis SQ : sq_ok sq.
Variables E1 E2 : IPS.
Local Notation KK := (exactK dv sq).
Variables (nv1 : iv E1 -> R) (nv2 : iv E2 -> R).
Local Notation WV := (exactVn dv sq E1 nv1).
Local Notation WU := (exactVn dv sq E2 nv2).
Variables (q : lprob WV WU) (b : iv E2).
Let A : iv E1 -> iv E2 := lp_A q.
Let At : iv E2 -> iv E1 := lp_At q.
Hypothesis AD : adjoint A At.
Variable kw : cr_kw WV WU.
Hypothesis NM : c_M kw = None.
Hypothesis NN : c_N kw = None.
Hypothesis HW : (1 <= c_window kw)%nat.
Local Notation live := (cr_live dv sq E1 E2 nv1 nv2 q b).
Local Notation done := (cr_done dv sq E1 E2 nv1 nv2 q b).
Local Notation Inv := (cr_inv dv sq E1 E2 nv1 nv2 q b kw).
Local Notation Step := (cstep dv sq E1 E2 nv1 nv2 q kw).
Local Notation St := (cr_st WV WU).

(** The residual of the augmented system. *)
Definition cn_res (p : iv E1 * iv E2) : R := inorm (isub b (iadd (A (fst p)) (snd p))).

Lemma cn_body : forall (bn : R) lim (st st' : St), g_Nv st = Some (g_v st) -> @cr_body KK WV WU q kw bn lim st = Ok st' ->
  let a := Rabs (g_alpha st * inorm (isub (A (g_v st)) (iscale (g_alpha st) (g_Mu st : iv E2))) * g_s st * g_zeta st) in
  (g_xnorm st' : R) = g_xnorm st + g_c st' * g_zeta st' * (g_c st' * g_zeta st') /\
  g_Ar st' = Some (a : sc KK) /\ g_nresids st' = (if c_sres kw then g_nresids st ++ [a : sc KK] else g_nresids st).
Proof.
  intros bn lim st st' NV H. cbv zeta. unfold cr_body in H. cbv zeta in H. rewrite NM, NN in H.
  destruct (xc_bidiag dv sq DV SQ E1 E2 nv1 nv2 q (g_Mu st) (g_v st) (g_alpha st) (g_cnt st) (g_Nv st) (or_introl NV))
    as (u' & v' & al' & be & cnt' & Nv' & B & BD & _).
  rewrite B in H. cbn [rbind] in H. rewrite (bd_be _ _ _ _ _ _ _ _ _ _ _ _ _ _ BD) in H.
  destruct (cr_rot _ _ _ _) as [[[[[bh s2] ah] c'] s']|]; [|discriminate]. cbn [rbind] in H.
  destruct (cr_upd _ _ _ _ _ _ _ _ _ _ _ _ _) as [[[[[[d tau] r] ze] wb] x]|]; [|discriminate]. cbn [rbind] in H.
  destruct (cr_derr _ _ _ _ _ _ _ _ _) as [[[dE di] i]|]; [|discriminate]. cbn [rbind] in H.
  destruct (cr_tests _ _ _ _ _) as [i'|]; [|discriminate]. cbn [rbind] in H. injection H as <-.
  cbn [g_xnorm g_c g_zeta g_Ar g_nresids]. repeat split.
Qed.

(** [be] in a live state. *)
Lemma cn_be : forall (st : St) sg, live st -> 0 <= sg -> (forall z, inorm (A z) <= sg * inorm z) ->
  let be := inorm (isub (A (g_v st)) (iscale (g_alpha st) (g_Mu st : iv E2))) in be * be <= sg * sg.
Proof.
  intros st sg (U & V & ah & CIn & _) S0 SG be. pose proof (ci_gk CIn) as [GU GV _ GVV _ _ _ _ _ _ (g & D & EU) _ _].
  assert (UA : ip (g_Mu st : iv E2) (A (g_v st)) = g_alpha st).
  { rewrite AD; fold At in EU; change (lp_At q) with At in EU; rewrite EU, ip_addl, ip_scalel, GV.
    rewrite (D (g_v st) GVV). ring. }
  unfold be. rewrite inorm_sq. ipx. rewrite (ip_sym (A (g_v st)) (g_Mu st : iv E2)), UA, GU.
  specialize (SG (g_v st)). assert (N1 : inorm (g_v st : iv E1) = 1) by (unfold inorm; rewrite GV; apply sqrt_1).
  rewrite N1 in SG. pose proof (inorm_sq (A (g_v st))) as Q. pose proof (inorm_pos (A (g_v st))). nra.
Qed.

(** The state before the first iteration. *)
Record cn_start (st : St) (u : iv E2) (ah : R) : Prop := {
  ct_u : u = iscale (1 / inorm b) b;
  ct_Mu : (g_Mu st : iv E2) = u;
  ct_al : (g_alpha st : R) = inorm (At u);
  ct_v : 0 < (g_alpha st : R) -> (g_v st : iv E1) = iscale (1 / g_alpha st) (At u);
  ct_ah0 : 0 < ah; ct_ah : ah * ah = g_alpha st * g_alpha st + 1;
  ct_c : (g_c st * ah : R) = g_alpha st; ct_s : (g_s st * ah : R) = 1;
  ct_ze : (g_zeta st : R) = g_s st * inorm b;
  ct_xn : (g_xnorm st : R) = g_c st * g_zeta st * (g_c st * g_zeta st);
  ct_r1 : (g_r1 st : R) = g_s st * g_zeta st * (g_s st * g_zeta st);
  ct_rn : (g_rnorm st : R) = g_tau st * g_tau st;
  ct_nr : g_nresids st = []; ct_Ar : g_Ar st = None; ct_itn : g_itn st = 0%nat }.
Lemma cn_init : forall cnt st bn, 0 < inorm b -> @cr_init KK WV WU q kw b cnt = Ok (st, bn) ->
  bn = inorm b /\ exists u ah, cn_start st u ah.
Proof.
  intros cnt st bn HB H. unfold cr_init in H. cbv zeta in H. rewrite NM, NN in H.
  destruct (if @sgtb KK (c_conlim kw) (@s0 KK) then _ else _) as [a0|e]; [|discriminate]. cbn [rbind] in H.
  destruct (ex_gk dv sq DV SQ E2 nv2 b) as (u & G1 & G2 & _). rewrite G1 in H. cbn [rbind] in H. specialize (G2 HB).
  replace (@sgtb KK (inorm b) (@s0 KK)) with true in H by (symmetry; apply ex_gt; exact HB).
  destruct (ex_gk dv sq DV SQ E1 nv1 (lp_At q u)) as (v & H1 & H2 & H3). rewrite H1 in H. cbn [rbind] in H.
  change (lp_At q u) with (At u) in *.
  set (al := inorm (At u)) in *. assert (AL : 0 <= al) by apply inorm_pos.
  rewrite (ex_norm2 dv sq SQ) in H. cbn [rbind] in H. change (@s1 KK) with 1 in H. set (ah := sqrt (al * al + 1 * 1)) in *.
  assert (PA : 0 < ah) by (apply norm2_pos; right; lra).
  assert (SA : ah * ah = al * al + 1) by (unfold ah; rewrite norm2_sq; ring).
  rewrite !(ex_div dv sq DV) in H by lra. cbn [rbind] in H. injection H as <- <-.
  split; [reflexivity|]. exists u, ah.
  split; cbn [g_Mu g_alpha g_v g_c g_s g_zeta g_xnorm g_r1 g_rnorm g_tau g_nresids g_Ar g_itn]; try reflexivity; try assumption.
  - field. lra.
  - field. lra.
Qed.

Definition cn_bnd (sg : R) : Prop := 0 <= sg /\ forall z, inorm (A z) <= sg * inorm z.
Definition cn_near (p : iv E1 * iv E2) (a : R) : Prop :=
  cn_res p <= a /\ forall sg, cn_bnd sg -> a <= sqrt (1 + sg * sg) * cn_res p.

Record cn_inv (st : St) (ps : list (iv E1 * iv E2)) : Prop := {
  cn_rot : exists ah de, 0 < ah /\ 1 <= de /\ (g_c st * ah : R) = g_alpha st /\ (g_s st * ah : R) = de /\
    (ah * ah : R) = g_alpha st * g_alpha st + de * de /\ (g_itn st = 0%nat -> de = 1) /\
    (done st \/ forall sg, cn_bnd sg -> de * de <= 1 + sg * sg);
  cn_sum : (g_xnorm st : R) + g_r1 st = g_rnorm st;
  cn_x0 : 0 <= (g_xnorm st : R);
  cn_nr : forall i a, nth_error (g_nresids st) i = Some a ->
    exists p, nth_error ps i = Some p /\ cn_near p a /\ (i = 0%nat -> a = cn_res p);
  cn_Ar : forall a, g_Ar st = Some a ->
    exists p, nth_error ps (g_itn st - 1) = Some p /\ cn_near p a /\ (g_itn st = 1%nat -> a = cn_res p) }.

Lemma cn_step : forall bn lim st ps st' p, 0 < bn -> Inv bn st ps -> cn_inv st ps -> length (g_nresids st) = (if c_sres kw then g_itn st else 0)%nat ->
  @cr_body KK WV WU q kw bn lim st = Ok st' -> Inv bn st' (ps ++ [p]) -> cn_inv st' (ps ++ [p]).
Proof.
  intros bn lim st ps st' p HB I J LN H I'.
  destruct (cn_body bn lim st st' (cv_Nv _ _ _ _ _ _ _ _ _ _ _ _ I) H) as (X1 & X2 & X3).
  destruct (xc_body dv sq DV SQ E1 E2 nv1 nv2 q kw NM NN HW bn lim st HB (cv_Nv _ _ _ _ _ _ _ _ _ _ _ _ I)
    (cv_rnrg _ _ _ _ _ _ _ _ _ _ _ _ I) (cv_rn0 _ _ _ _ _ _ _ _ _ _ _ _ I)) as (st2 & be & bh & s2 & ah & de & H2 & CS & _).
  rewrite H in H2. injection H2 as <-.
  destruct CS as [BD RT _ D' TA ZE RR XX WB RN RG XG R1 IT _].
  destruct I as [V1 V2 V3 V4 V5 V6 V7 V8 V9 V10 V11 V12 V13 V14 V15 V16 V17].
  destruct J as [(ah0 & de0 & P1 & P2 & P3 & P4 & P5 & P6 & P7) J2 J3 J4 J5].
  pose proof (cv_zt _ _ _ _ _ _ _ _ _ _ _ _ I') as ZT'.
  destruct RT as [Rbh Rde Rde0 Rs2 Rah Rah0 Rc Rs].
  set (be0 := inorm (isub (A (g_v st)) (iscale (g_alpha st) (g_Mu st : iv E2)))) in *.
  assert (EB : be = be0) by exact (bd_be _ _ _ _ _ _ _ _ _ _ _ _ _ _ BD).
  set (a := Rabs (g_alpha st * be0 * g_s st * g_zeta st)) in *.
  assert (B0 : 0 <= be0) by apply inorm_pos.
  (* the last pair of [ps] *)
  set (p0 := (g_x st : iv E1, g_r st : iv E2)).
  assert (NP : nth_error ps (g_itn st) = Some p0).
  { destruct (nth_error ps (g_itn st)) as [p1|] eqn:E; [|apply nth_error_None in E; lia].
    assert (L : last ps (izero, izero) = p1) by (apply last_nth_error; rewrite V10; cbn [Nat.sub]; rewrite Nat.sub_0_r; exact E).
    rewrite V11 in L. rewrite <- L. reflexivity. }
  assert (NP' : nth_error (ps ++ [p]) (g_itn st) = Some p0) by (rewrite nth_error_app1 by lia; exact NP).
  assert (ER : cn_res p0 = inorm (isub b (TT A At (g_r st)))).
  { unfold cn_res, p0. cbn [fst snd]. f_equal. unfold CraigMath.TT. fold A At. rewrite V5. reflexivity. }
  assert (EA : a = de0 * cn_res p0 /\ (done st -> cn_res p0 = 0)).
  { split.
    - assert (EA : a = de0 * (Rabs (g_tau st * g_c st) * be0)).
      { unfold a. rewrite V6. replace (g_alpha st * be0 * g_s st * g_tau st) with (de0 * (g_tau st * g_c st) * be0).
        - rewrite !Rabs_mult, (Rabs_pos_eq be0), (Rabs_pos_eq de0) by lra. ring.
        - rewrite <- P3, <- P4. ring. }
      destruct V9 as [(U & V & ahh & CIn & GR & _)|[Z CT]].
      + change (lp_A q) with A in GR. change (lp_At q) with At in GR. rewrite EA, ER, GR. f_equal. rewrite inorm_scale, Rabs_Ropp. reflexivity.
      + change (lp_A q) with A in Z. change (lp_At q) with At in Z. rewrite EA, ER, <- Z. replace (g_tau st * g_c st : R) with 0 by (rewrite Rmult_comm; auto). rewrite Rabs_R0.
        replace (isub b b) with (@izero E2) by veq. rewrite inorm_izero. ring.
    - intros [Z _]. change (lp_A q) with A in Z. change (lp_At q) with At in Z. rewrite ER, <- Z. replace (isub b b) with (@izero E2) by veq. apply inorm_izero. }
  destruct EA as [EA ED].
  assert (R0 : 0 <= cn_res p0) by apply inorm_pos.
  assert (NEAR : cn_near p0 a).
  { split; [rewrite EA; nra|]. intros sg BB. destruct P7 as [DN|P7].
    - rewrite EA, (ED DN). lra.
    - specialize (P7 sg BB). rewrite EA. apply Rmult_le_compat_r; [exact R0|].
      rewrite <- (sqrt_Rsqr de0) by lra. apply sqrt_le_1_alt. exact P7. }
  assert (FST : g_itn st = 0%nat -> a = cn_res p0) by (intro Z; rewrite EA, (P6 Z); ring).
  split.
  - exists ah, de. split; [exact Rah0|]. assert (D1 : 1 <= de) by nra. split; [exact D1|].
    split; [exact Rc|]. split; [exact Rs|]. split; [exact Rah|]. split; [intro Z; lia|].
    destruct V9 as [LV|DN].
    + right. intros sg BB. pose proof BB as [S0 SB]. pose proof (cn_be st sg LV S0 SB) as BL. cbv zeta in BL. fold be0 in BL.
      rewrite Rde, EB.
      assert (S1 : (g_s st * g_s st : R) <= 1).
      { pose proof (Rle_0_sqr (g_alpha st)) as Q. unfold Rsqr in Q.
        apply Rmult_le_reg_r with (ah0 * ah0); [nra|]. replace (g_s st * g_s st * (ah0 * ah0)) with (g_s st * ah0 * (g_s st * ah0)) by ring. rewrite P4, P5. lra. }
      assert (0 <= g_s st * g_s st) by nra.
      replace (g_s st * be0 * (g_s st * be0)) with (g_s st * g_s st * (be0 * be0)) by ring. nra.
    + left. destruct DN as [Z CT].
      assert (T0 : (g_tau st' : R) = 0).
      { apply Rmult_eq_reg_r with ah; [|lra]. rewrite TA, Rbh. transitivity (- be * (g_c st * g_tau st)); [ring|]. rewrite CT. ring. }
      split; [|rewrite T0; ring]. rewrite RR, T0. replace (iadd (g_r st : iv E2) (iscale 0 (g_d st' : iv E2))) with (g_r st : iv E2) by veq.
      exact Z.
  - rewrite X1, R1, RN, <- J2, <- ZT'.
    assert (CS1 : (g_c st' * g_c st' + g_s st' * g_s st' : R) = 1).
    { apply Rmult_eq_reg_r with (ah * ah); [|nra]. transitivity (g_c st' * ah * (g_c st' * ah) + g_s st' * ah * (g_s st' * ah)); [ring|].
      rewrite Rc, Rs, Rah. ring. }
    transitivity (g_xnorm st + g_r1 st + (g_c st' * g_c st' + g_s st' * g_s st') * (g_zeta st' * g_zeta st')); [ring|]. rewrite CS1. ring.
  - rewrite X1. nra.
  - rewrite X3. intros i a' Hi.
    assert (OLD : nth_error (g_nresids st) i = Some a' -> exists p1, nth_error (ps ++ [p]) i = Some p1 /\ cn_near p1 a' /\ (i = 0%nat -> a' = cn_res p1)).
    { intro Hi'. destruct (J4 i a' Hi') as (p1 & N1 & Q). exists p1. split; [|exact Q].
      rewrite nth_error_app1; [exact N1|]. apply nth_error_Some. congruence. }
    destruct (c_sres kw); [|exact (OLD Hi)].
    destruct (Nat.lt_ge_cases i (length (g_nresids st))) as [L|L].
    + rewrite nth_error_app1 in Hi by exact L. exact (OLD Hi).
    + rewrite nth_error_app2 in Hi by exact L. destruct (i - length (g_nresids st))%nat as [|k] eqn:Ek; [|destruct k; discriminate].
      injection Hi as <-. replace i with (g_itn st) by lia. exists p0. split; [exact NP'|]. split; [exact NEAR|].
      intro Z. apply FST. lia.
  - rewrite X2. intros a' Ha. injection Ha as <-. exists p0. replace (g_itn st' - 1)%nat with (g_itn st) by lia.
    split; [exact NP'|]. split; [exact NEAR|]. intro Z. apply FST. lia.
Qed.

Lemma cn_inv0 : forall (st : St) u ah ps, cn_start st u ah -> (g_zeta st : R) = g_tau st -> cn_inv st ps.
Proof.
  intros st u ah ps [T1 T2 T3 T4 T5 T6 T7 T8 T9 T10 T11 T12 T13 T14 T15] ZT. split.
  - exists ah, 1. split; [assumption|]. split; [lra|]. split; [assumption|]. split; [assumption|]. split; [lra|].
    split; [reflexivity|]. right. intros sg [S0 _]. nra.
  - rewrite T10, T11, T12, <- ZT.
    assert (CS1 : (g_c st * g_c st + g_s st * g_s st : R) = 1).
    { apply Rmult_eq_reg_r with (ah * ah); [|nra]. transitivity (g_c st * ah * (g_c st * ah) + g_s st * ah * (g_s st * ah)); [ring|].
      rewrite T7, T8, T6. ring. }
    transitivity ((g_c st * g_c st + g_s st * g_s st) * (g_zeta st * g_zeta st)); [ring|]. rewrite CS1. ring.
  - rewrite T10. nra.
  - rewrite T13. intros [|i] a; discriminate.
  - rewrite T14. discriminate.
Qed.

(** Any call that returns. *)
Lemma cn_run : forall fuel cnt r cnt', 0 < inorm b -> @cr_solve KK WV WU fuel q kw b cnt = Ok (r, cnt') ->
  exists ps, length ps = S (go_itn r) /\ last ps (izero, izero) = (go_x r : iv E1, go_r r : iv E2) /\
    (c_sit kw = true -> go_itp r = map fst ps /\ go_itd r = map snd ps) /\ (1 <= go_itn r)%nat /\
    (forall i p, nth_error ps i = Some p -> fst p = At (snd p)) /\
    (go_r1norm r * go_r1norm r : R) + go_xnorm r = go_r2norm r * go_r2norm r /\ 0 <= (go_r1norm r : R) /\ 0 <= (go_xnorm r : R) /\
    (go_r2norm r * go_r2norm r : R) = ip (go_x r : iv E1) (go_x r : iv E1) + ip (go_r r : iv E2) (go_r r : iv E2) /\
    (forall i a, nth_error (go_nresids r) i = Some a ->
      exists p, nth_error ps i = Some p /\ cn_near p a /\ (i = 0%nat -> a = cn_res p)) /\
    (exists p, nth_error ps (go_itn r - 1) = Some p /\ cn_near p (go_Arnorm r) /\ (go_itn r = 1%nat -> go_Arnorm r = cn_res p)).
Proof.
  intros fuel cnt r cnt' HB H. unfold cr_solve in H. destruct (c_wantvar kw); [discriminate|].
  destruct (cr_xinit dv sq DV SQ E1 E2 nv1 nv2 q b AD kw NM NN HW cnt HB) as (st0 & p0 & H0 & I0).
  destruct (cn_init cnt st0 _ HB H0) as (_ & u & ah & CT).
  destruct (cr_init_spec q kw _ _ _ _ H0) as (J1 & J2 & J3 & J4 & J5 & J6 & F0).
  rewrite H0 in H. cbn [rbind] in H.
  destruct (while fuel _ _ st0) as [st|e] eqn:W; [|discriminate]. cbn [rbind] in H.
  apply (while_inv _ _ (fun st => cr_flow q kw st0 st /\ exists ps, Inv (inorm b) st ps /\ cn_inv st ps)) in W.
  - destruct W as [[F [ps [IV J]]] CF].
    destruct (g_Ar st) as [Ar|] eqn:EA.
    2:{ destruct (pysqrt _) as [?|?] in H; [|discriminate]. cbn [rbind] in H. destruct (pysqrt _) as [?|?] in H; discriminate. }
    destruct IV as [V1 V2 V3 V4 V5 V6 V7 V8 V9 V10 V11 V12 V13 V14 V15 V16 V17].
    rewrite (ex_sqrt dv sq SQ) in H by exact V4. cbn [rbind] in H. rewrite (ex_sqrt dv sq SQ) in H by lra. cbn [rbind] in H.
    injection H as <- <-. exists ps. cbn [go_itn go_x go_r go_itp go_itd go_nresids go_Arnorm go_r1norm go_r2norm go_xnorm].
    destruct J as [_ K2 K3 K4 K5].
    split; [exact V10|]. split; [exact V11|]. split; [apply V14|].
    assert (N1 : (1 <= g_itn st)%nat).
    { destruct (Nat.eq_dec (g_itn st) 0) as [Z|Z]; [|lia]. rewrite (cf_zero _ _ _ _ F Z), (ct_Ar _ _ _ CT) in EA. discriminate. }
    split; [exact N1|]. split; [intros j p Hp; apply (V12 j p Hp)|].
    rewrite !sqrt_sqrt by lra. split; [lra|]. split; [apply sqrt_pos|]. split; [exact K3|].
    split; [|split; [exact K4|exact (K5 Ar EA)]].
    rewrite V7. symmetry. apply (gal_nrg dv sq E1 E2 nv1 nv2 q b AD (S (g_itn st)) (g_x st : iv E1, g_r st : iv E2)).
    split; [exact V5|]. split; [exact V8|]. intros z Hz. apply (cr_gal dv sq E1 E2 nv1 nv2 q b AD st V9 z Hz).
  - intros s s' [F [ps [IV J]]] C B.
    assert (BK : g_brk s = false). { unfold cr_cond in C. apply andb_prop in C as [_ C]. apply negb_true_iff in C. exact C. }
    destruct (cr_step_inv dv sq DV SQ E1 E2 nv1 nv2 q b AD kw NM NN HW (inorm b) (cr_lim q kw) s ps HB IV C (cf_run _ _ _ _ F BK))
      as (s2 & p & B2 & IV' & N).
    rewrite B in B2. injection B2 as <-. split; [apply (cr_step_flow q kw (inorm b) st0 s s' J1 F C B)|].
    exists (ps ++ [p]). split; [exact IV'|]. apply (cn_step (inorm b) (cr_lim q kw) s ps s' p HB IV J); [|exact B|exact IV'].
    apply (cf_res _ _ _ _ F).
  - split; [exact F0|]. exists [p0]. split; [exact I0|]. apply (cn_inv0 st0 u ah [p0] CT). exact (cv_zt _ _ _ _ _ _ _ _ _ _ _ _ I0).
Qed.

(** A call with [itnlim = 1]. *)
Lemma cn_one : forall fuel cnt r cnt', 0 < inorm b -> c_itnlim kw = 1%Z -> @cr_solve KK WV WU fuel q kw b cnt = Ok (r, cnt') ->
  exists st0 st1 u ah be bh s2 ah' de, cn_start st0 u ah /\ Step st0 st1 be bh s2 ah' de /\
    (g_xnorm st1 : R) = g_xnorm st0 + g_c st1 * g_zeta st1 * (g_c st1 * g_zeta st1) /\
    go_xnorm r = g_xnorm st1 /\ (go_r1norm r * go_r1norm r : R) = g_r1 st1 /\
    (go_Arnorm r : R) = Rabs (g_alpha st0 * be * g_s st0 * g_zeta st0).
Proof.
  intros fuel cnt r cnt' HB L1 H. unfold cr_solve in H. destruct (c_wantvar kw); [discriminate|].
  destruct (cr_xinit dv sq DV SQ E1 E2 nv1 nv2 q b AD kw NM NN HW cnt HB) as (st0 & p0 & H0 & I0).
  destruct (cn_init cnt st0 _ HB H0) as (_ & u & ah & CT).
  destruct (cr_init_spec q kw _ _ _ _ H0) as (J1 & J2 & J3 & J4 & J5 & J6 & F0).
  rewrite H0 in H. cbn [rbind] in H.
  assert (LM : cr_lim q kw = 1%Z) by (unfold cr_lim; rewrite L1; reflexivity). rewrite LM in H.
  destruct (xc_body dv sq DV SQ E1 E2 nv1 nv2 q kw NM NN HW (inorm b) 1%Z st0 HB (cv_Nv _ _ _ _ _ _ _ _ _ _ _ _ I0)
    (cv_rnrg _ _ _ _ _ _ _ _ _ _ _ _ I0) (cv_rn0 _ _ _ _ _ _ _ _ _ _ _ _ I0)) as (st1 & be & bh & s2 & ah' & de & H2 & CS & i & _).
  destruct (cn_body (inorm b) 1%Z st0 st1 (cv_Nv _ _ _ _ _ _ _ _ _ _ _ _ I0) H2) as (X1 & X2 & _).
  assert (C0 : cr_cond 1 st0 = true).
  { unfold cr_cond. rewrite J2, J4. replace (@seqb KK (inorm b) (@s0 KK)) with false; [reflexivity|]. symmetry. apply Reqb_false. cbn. lra. }
  assert (C1 : cr_cond 1 st1 = false).
  { unfold cr_cond. rewrite (cs_itn _ _ _ _ _ _ _ _ _ _ _ _ _ _ _ CS), J2. reflexivity. }
  destruct fuel as [|[|fuel]].
  - discriminate.
  - cbn [while] in H. rewrite C0, H2 in H. discriminate.
  - cbn [while] in H. rewrite C0, H2 in H. rewrite C1 in H. cbn [rbind] in H.
    assert (R1 : 0 <= (g_r1 st1 : R)).
    { rewrite (cs_r1 _ _ _ _ _ _ _ _ _ _ _ _ _ _ _ CS), (ct_r1 _ _ _ CT). nra. }
    assert (RN : 0 <= (g_rnorm st1 : R)).
    { rewrite (cs_rnorm _ _ _ _ _ _ _ _ _ _ _ _ _ _ _ CS), (ct_rn _ _ _ CT). nra. }
    rewrite !(ex_sqrt dv sq SQ) in H by assumption. cbn [rbind] in H. rewrite X2 in H. injection H as <- <-.
    exists st0, st1, u, ah, be, bh, s2, ah', de. split; [exact CT|]. split; [exact CS|]. split; [exact X1|].
    cbn [go_xnorm go_r1norm go_Arnorm]. split; [reflexivity|]. split; [apply sqrt_sqrt; exact R1|].
    rewrite (bd_be _ _ _ _ _ _ _ _ _ _ _ _ _ _ (cs_bd _ _ _ _ _ _ _ _ _ _ _ _ _ _ _ CS)). reflexivity.
Qed.
End Exact.
