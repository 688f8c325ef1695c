(** * C97: convergence of CG, CGS and BiCGSTAB in floating point

    The solvers update the iterate and the residual separately, so with rounding errors the residual they test
    is not the residual of the iterate they return.  The theorems bound the difference, whatever the scalars
    are (their arithmetic may even be wrong). *)
From Coq Require Import List ZArith QArith Qreals Reals Lia Lra Bool Psatz.
From Verif Require Import Base Num ToolsModel CgModel KrylovModel FlArith FlRound.
Import ListNotations.
Local Open Scope R_scope.

Section Float.
Context {K : Scal} {W : Vs K} {E : IPS} {u h : R} (F : flarith W E u h).
Variables (q : kprob W) (A : iv E -> iv E) (nA c : R).
(** small roundoff, an operator computed with a relative error *)
Record fl_op : Prop := mkflop {
  fo_u : 0 <= u <= / 8; fo_h : 0 <= h; fo_n : 0 <= nA; fo_c : 0 <= c;
  fo_lin : lin A; fo_bound : forall x, inorm (A x) <= nA * inorm x;
  fo_A : forall x, fv F x -> fv F (q_A q x) -> inorm (isub (vv F (q_A q x)) (A (vv F x))) <= c * inorm (vv F x) }.
Hypothesis FO : fl_op.

(** ** CG *)
Section Cg.
Variables (kw : cg_kw W) (o : cg_obj W) (rhs : vc W) (X : R).
Notation b := (vv F rhs).
Notation dr := (drifts nA c u h (inorm b) X).
Notation cond := (fun cnt => cg_cond q kw rhs (c_res (cg_init q kw o rhs cnt))).
Hypothesis XB : forall cnt k st, rounds (cond cnt) (cg_body q kw) k (cg_init q kw o rhs cnt) = Ok st ->
  fv F (c_x st) -> inorm (vv F (c_x st)) <= X.

Lemma cgf_init : forall cnt, let st := cg_init q kw o rhs cnt in fv F (c_x st) -> fv F (c_r st) ->
  gap A b (vv F (c_x st)) (vv F (c_r st)) <= dr (c_nmv st).
Proof.
  intros cnt st FX FR. pose proof (XB cnt 0 st eq_refl FX) as HX. destruct FO as [FU FH FN FC FL FB FA].
  unfold st in *. clear st. unfold cg_init, opmul in *. destruct (k_guess kw) as [g|]; cbn in FX, FR, HX |- *.
  - apply (fl_add F) in FR. destruct FR as (R1 & R2 & R3). apply (fl_neg F) in R1. destruct R1 as [R1 R4].
    rewrite R4 in R3.
    assert (G : gap A b (vv F g) (vv F (vadd (vneg rhs) (q_A q g))) <= drift nA c u h (inorm b) X).
    { apply (start_gap A b nA c u h (inorm b) X FB FN FC FU FH (Rle_refl _) _ (vv F (q_A q g))); [exact HX| |exact R3].
      apply FA; assumption. }
    assert (X0 : 0 <= X) by (pose proof (inorm_pos (vv F g)); lra).
    pose proof (drift_pos b nA c u h (inorm b) X FN FC FU FH (Rle_refl _) X0) as D0.
    unfold drifts. cbn. eapply Rle_trans; [exact G|].
    assert (0 <= u * drift nA c u h (inorm b) X) by (apply Rmult_le_pos; lra). lra.
  - rewrite (fl_zeros F). apply (fl_neg F) in FR. destruct FR as [_ R4]. rewrite R4.
    unfold gap. rewrite (lin_zero A FL). replace (isub (isub izero b) (ineg b)) with (@izero E) by veq.
    rewrite inorm_izero. unfold drifts. cbn. lra.
Qed.

Lemma cgf_rounds : forall cnt k st, rounds (cond cnt) (cg_body q kw) k (cg_init q kw o rhs cnt) = Ok st ->
  fv F (c_x st) -> fv F (c_r st) -> gap A b (vv F (c_x st)) (vv F (c_r st)) <= dr (c_nmv st) /\
  c_res st = sabs (ssqrt (vdot (c_r st) (prec q (c_r st)))).
Proof.
  intros cnt. induction k as [|k IH]; intros st HR FX FR.
  - cbn in HR. injection HR as <-. split; [apply cgf_init; assumption|].
    unfold cg_init, opmul. destruct (k_guess kw); reflexivity.
  - pose proof (XB cnt (S k) st HR FX) as HX'. cbn [rounds] in HR.
    destruct (rounds (cond cnt) (cg_body q kw) k (cg_init q kw o rhs cnt)) as [st1|e] eqn:R1; [|discriminate].
    destruct (cond cnt st1); [|discriminate].
    unfold cg_body, opmul in HR.
    destruct (k_curv kw && curv_bad (vdot (c_p st1) (q_A q (c_p st1)))).
    + injection HR as <-. cbn in FX, FR, HX' |- *. destruct (IH st1 eq_refl FX FR) as [I1 I2].
      split; [|exact I2]. eapply Rle_trans; [exact I1|].
      destruct FO as [FU FH FN FC FL FB FA].
      assert (X0 : 0 <= X) by (pose proof (inorm_pos (vv F (c_x st1))); lra).
      apply (drifts_mono b); auto; [lra|lia].
    + injection HR as <-. cbn in FX, FR, HX' |- *.
      split; [|reflexivity].
      pose proof (fl_add F _ _ FX) as (X1 & X2 & X3). pose proof (fl_add F _ _ FR) as (Y1 & Y2 & Y3).
      pose proof (fl_scale F _ _ X2) as (X4 & X5). pose proof (fl_scale F _ _ Y2) as (Y4 & Y5).
      destruct (IH st1 eq_refl X1 Y1) as [I1 _]. pose proof (XB cnt k st1 R1 X1) as HX.
      destruct FO as [FU FH FN FC FL FB FA].
      assert (X0 : 0 <= X) by (pose proof (inorm_pos (vv F (c_x st1))); lra).
      replace (c_nmv st1 + 1)%nat with (S (c_nmv st1)) by lia.
      eapply Rle_trans; [|apply (drifts_step b); [exact FN|exact FC|exact FU|exact FH|apply Rle_refl|exact X0|exact I1]].
      eapply (step_gap A b nA c u h (inorm b) X FL FB FN FC FU FH (Rle_refl _));
        [exact HX|exact HX'|exact X5|exact X3|apply (FA _ X4 Y4)|exact Y5|exact Y3].
Qed.

(** A run that ends with [converged] set returns an iterate whose true residual exceeds the tested one, [G], by
    at most the accumulated rounding errors of its products. *)
Theorem C97_cg : forall fuel cnt o' cnt' x G,
  (k_sym kw = false \/ fst (check_symmetric (q_cbrt q) (q_m q) (q_n q) (q_A q) (q_draws q) cnt) = true) ->
  (forall r, sleb (sabs (ssqrt (vdot r (prec q r)))) (thr q (c_res (cg_init q kw o rhs cnt))) = true ->
     fv F r /\ inorm (vv F r) <= G) ->
  cg_solve fuel q o rhs kw cnt = Ok (o', cnt') -> g_conv o' = true -> g_x o' = Some x -> fv F x ->
  inorm (isub b (A (vv F x))) <= G + dr (g_nmv o').
Proof.
  intros fuel cnt o' cnt' x G CK HG H CV GX FX. unfold cg_solve in H.
  set (ck := if k_sym kw then _ else _) in H. destruct ck as [ok cnt1] eqn:Eck.
  assert (ok = true) as ->.
  { unfold ck in Eck. destruct CK as [CK|CK].
    - rewrite CK in Eck. injection Eck as <- _. reflexivity.
    - destruct (k_sym kw); [|injection Eck as <- _; reflexivity]. rewrite Eck in CK. exact CK. }
  cbn [negb] in H. cbv zeta in H.
  destruct (while _ _ _ _) as [st|e] eqn:HW; [|discriminate]. injection H as <- _.
  apply while_rounds in HW. destruct HW as (k & _ & HR & _). cbn in CV, GX. injection GX as <-.
  assert (E0 : c_res (cg_init q kw o rhs cnt1) = c_res (cg_init q kw o rhs cnt)).
  { unfold cg_init, opmul. destruct (k_guess kw); reflexivity. }
  assert (ER : c_res st = sabs (ssqrt (vdot (c_r st) (prec q (c_r st))))).
  { clear CV FX. revert st HR. induction k as [|k IH]; intros st HR.
    - cbn in HR. injection HR as <-. unfold cg_init, opmul. destruct (k_guess kw); reflexivity.
    - cbn [rounds] in HR. destruct (rounds _ _ k _) as [st1|] eqn:R1; [|discriminate].
      destruct (cg_cond _ _ _ _ st1); [|discriminate]. unfold cg_body, opmul in HR.
      destruct (k_curv kw && _); injection HR as <-; cbn; [apply IH; reflexivity|reflexivity]. }
  rewrite ER, E0 in CV. destruct (HG _ CV) as [FR NR].
  destruct (cgf_rounds cnt1 k st HR FX FR) as [GP _].
  pose proof (gap_true A b (vv F (c_x st)) (vv F (c_r st))) as T. cbn [cg_final g_nmv]. lra.
Qed.
End Cg.
(** The residual b - A x is the opposite of the one above. *)
Lemma neg_sub : forall r' r t : iv E, inorm (isub r' (isub r t)) <= u * inorm (isub r t) + h ->
  inorm (isub (ineg r') (iadd (ineg r) t)) <= u * inorm (iadd (ineg r) t) + h.
Proof.
  intros r' r t H.
  replace (iadd (ineg r) t) with (ineg (isub r t)) by veq.
  replace (isub (ineg r') (ineg (isub r t))) with (ineg (isub r' (isub r t))) by veq.
  rewrite !inorm_neg. exact H.
Qed.

Section Other.
Variables (kw : kkw W) (rhs : vc W) (X : R).
Notation b := (vv F rhs).
Notation dr := (drifts nA c u h (inorm b) X).
Notation r0 cnt := (fst (start_r q kw rhs cnt)).
Definition fl_rn (cnt : nat) : sc K := sabs (ssqrt (vdot (r0 cnt) (r0 cnt))).
Definition fl_th (cnt : nat) : sc K := thr q (fl_rn cnt).

Lemma start_f : forall cnt, inorm (vv F (start_x kw rhs)) <= X -> fv F (start_x kw rhs) -> fv F (r0 cnt) ->
  gap A b (vv F (start_x kw rhs)) (ineg (vv F (r0 cnt))) <= dr 1.
Proof.
  intros cnt HX FX FR. destruct FO as [FU FH FN FC FL FB FA]. unfold start_x, start_r, opmul in *.
  assert (X0 : 0 <= X) by (pose proof (inorm_pos (vv F (match w_guess kw with Some g => g | None => vzeros (vlen rhs) end))); lra).
  destruct (w_guess kw) as [g|]; cbn in FX, FR, HX |- *.
  - apply (fl_sub F) in FR. destruct FR as (R1 & R2 & R3). apply neg_sub in R3.
    assert (G : gap A b (vv F g) (ineg (vv F (vsub rhs (q_A q g)))) <= drift nA c u h (inorm b) X).
    { apply (start_gap A b nA c u h (inorm b) X FB FN FC FU FH (Rle_refl _) _ (vv F (q_A q g))); [exact HX| |exact R3].
      apply FA; assumption. }
    pose proof (drift_pos b nA c u h (inorm b) X FN FC FU FH (Rle_refl _) X0) as D0.
    unfold drifts. cbn. eapply Rle_trans; [exact G|].
    assert (0 <= u * drift nA c u h (inorm b) X) by (apply Rmult_le_pos; lra). lra.
  - rewrite (fl_zeros F). unfold gap. rewrite (lin_zero A FL).
    replace (isub (isub izero b) (ineg b)) with (@izero E) by veq. rewrite inorm_izero.
    apply (drifts_pos b); auto; lra.
Qed.

(** ** CGS *)
Notation cgs0 cnt mx := (mkcgs (start_x kw rhs) (r0 cnt) (r0 cnt) (r0 cnt) (vdot (r0 cnt) (r0 cnt)) (fl_rn cnt) 0
  (snd (start_r q kw rhs cnt)) (sleb (fl_rn cnt) (fl_th cnt) || (mx <=? 0)%nat)).
Notation mx := (mmax (w_mmax kw) rhs).
Notation cgsR cnt := (rounds (fun st => negb (s_fin st)) (cgs_body q (r0 cnt) (fl_th cnt) mx)).

Lemma cgsf_rounds : forall cnt,
  (forall k st, cgsR cnt k (cgs0 cnt mx) = Ok st -> fv F (s_x st) -> inorm (vv F (s_x st)) <= X) ->
  forall k st, cgsR cnt k (cgs0 cnt mx) = Ok st ->
  (s_res st = vnorm (s_r st) \/ s_res st = sabs (ssqrt (vdot (s_r st) (s_r st)))) /\
  (fv F (s_x st) -> fv F (s_r st) -> gap A b (vv F (s_x st)) (ineg (vv F (s_r st))) <= dr (S (s_nmv st))).
Proof.
  intros cnt XB. induction k as [|k IH]; intros st HR.
  - pose proof (XB 0%nat st HR) as HX. cbn in HR. injection HR as <-. cbn in HX |- *. split; [right; reflexivity|].
    intros FX FR. apply start_f; auto.
  - pose proof (XB (S k) st HR) as HX'. cbn [rounds] in HR.
    destruct (rounds _ _ k _) as [st1|e] eqn:R1; [|discriminate].
    destruct (negb (s_fin st1)); [|discriminate].
    pose proof (XB k st1 R1) as HX. destruct (IH st1 eq_refl) as [_ I1]. clear IH.
    unfold cgs_body, opmul in HR. cbv zeta in HR.
    set (y := prec q (s_p st1)) in *. set (al := sdiv (s_rho st1) (vdot (r0 cnt) (q_A q y))) in *.
    set (qq := vsub (s_u st1) (vscale al (q_A q y))) in *. set (z := prec q (vadd (s_u st1) qq)) in *.
    assert (SX : s_x st = vadd (s_x st1) (vscale al z) /\ s_r st = vsub (s_r st1) (vscale al (q_A q z)) /\
      s_res st = vnorm (s_r st) /\ s_nmv st = (s_nmv st1 + 1 + 1)%nat).
    { match type of HR with (if ?b then _ else _) = _ => destruct b end; injection HR as <-; cbn; repeat split; reflexivity. }
    destruct SX as (S1 & S2 & S3 & S4). split; [left; exact S3|]. intros FX FR. specialize (HX' FX).
    rewrite S1 in FX, HX' |- *. rewrite S2 in FR |- *. rewrite S4.
    pose proof (fl_add F _ _ FX) as (X1 & X2 & X3). pose proof (fl_sub F _ _ FR) as (Y1 & Y2 & Y3).
    pose proof (fl_scale F _ _ X2) as (X4 & X5). pose proof (fl_scale F _ _ Y2) as (Y4 & Y5).
    specialize (I1 X1 Y1). specialize (HX X1). apply neg_sub in Y3.
    destruct FO as [FU FH FN FC FL FB FA].
    assert (X0 : 0 <= X) by (pose proof (inorm_pos (vv F (s_x st1))); lra).
    apply Rle_trans with (dr (S (S (s_nmv st1)))); [|apply (drifts_mono b); auto; [lra|lia]].
    eapply Rle_trans; [|apply (drifts_step b); [exact FN|exact FC|exact FU|exact FH|apply Rle_refl|exact X0|exact I1]].
    eapply (step_gap A b nA c u h (inorm b) X FL FB FN FC FU FH (Rle_refl _));
        [exact HX|exact HX'|exact X5|exact X3|apply (FA _ X4 Y4)|exact Y5|exact Y3].
Qed.

Theorem C97_cgs : forall fuel cnt out cnt' G,
  (forall k st, cgsR cnt k (cgs0 cnt mx) = Ok st -> fv F (s_x st) -> inorm (vv F (s_x st)) <= X) ->
  (forall r, sleb (vnorm r) (fl_th cnt) = true \/ sleb (sabs (ssqrt (vdot r r))) (fl_th cnt) = true ->
     fv F r /\ inorm (vv F r) <= G) ->
  cgs_solve fuel q rhs kw cnt = Ok (out, cnt') -> o_conv out = true -> fv F (o_x out) ->
  inorm (isub b (A (vv F (o_x out)))) <= G + dr (S (o_nmv out)).
Proof.
  intros fuel cnt out cnt' G XB HG H CV FX. pose proof (cgsf_rounds cnt XB) as I. clear XB. unfold cgs_solve in H. cbv zeta in H.
  destruct (start_r q kw rhs cnt) as [rr cc] eqn:ES.
  destruct (while _ _ _ _) as [st|e] eqn:HW; [|discriminate]. injection H as <- _. cbn [o_conv o_x o_nmv] in CV, FX |- *.
  apply while_rounds in HW. destruct HW as (k & _ & HR & _). specialize (I k st).
  unfold fl_th, fl_rn in I, HG. rewrite ES in I, HG. cbn [fst snd] in I, HG.
  destruct (I HR) as [I1 I2]. clear I.
  assert (Q : fv F (s_r st) /\ inorm (vv F (s_r st)) <= G).
  { apply HG. destruct I1 as [<-|<-]; [left|right]; exact CV. }
  destruct Q as [FR NR]. specialize (I2 FX FR).
  pose proof (gap_true A b (vv F (s_x st)) (ineg (vv F (s_r st)))) as T. rewrite inorm_neg in T. lra.
Qed.

(** ** BiCGSTAB *)
Notation bi0 cnt := (mkbi (start_x kw rhs) (r0 cnt) (vzeros (vlen rhs)) (vzeros (vlen rhs)) s1 (vdot (r0 cnt) (r0 cnt)) s1 s1
  (fl_rn cnt) (match w_guess kw with Some _ => 1%nat | None => 0%nat end) (snd (start_r q kw rhs cnt))
  (sleb (fl_rn cnt) (fl_th cnt) || (mx <=? match w_guess kw with Some _ => 1 | None => 0 end)%nat)).
Notation biR cnt := (rounds (fun st => negb (b_fin st)) (bi_body q (r0 cnt) (fl_th cnt) mx)).

(** The points the iterate passes through in one round from [st]: x + omega z, then x + omega z + alpha q (or only
    x + alpha q), bicgstab.py:87-145. *)
Definition bi_mid (r0 : vc W) (st : bi_st W) : vc W :=
  let beta := sdiv (smul (sdiv (b_rhon st) (b_rho st)) (b_alpha st)) (b_omega st) in
  let p := vadd (vsub (vscale beta (b_p st)) (vscale (smul beta (b_omega st)) (b_v st))) (b_r st) in
  let v := q_A q (prec q p) in
  let s := vsub (b_r st) (vscale (sdiv (b_rhon st) (vdot r0 v)) v) in
  let z := prec q s in
  let t := q_A q z in
  vadd (b_x st) (vscale (sdiv (vdot t s) (vdot t t)) z).

Lemma bif_rounds : forall cnt,
  (forall k st, biR cnt k (bi0 cnt) = Ok st ->
     (fv F (b_x st) -> inorm (vv F (b_x st)) <= X) /\ (fv F (bi_mid (r0 cnt) st) -> inorm (vv F (bi_mid (r0 cnt) st)) <= X)) ->
  forall k st, biR cnt k (bi0 cnt) = Ok st -> exists r,
  (b_fin st = false -> r = b_r st) /\
  ((b_res st = vnorm r \/ b_res st = sabs (ssqrt (vdot r r))) \/ sleb (b_res st) (fl_th cnt) = false) /\
  (sleb (b_res st) (fl_th cnt) = false /\ b_fin st = true \/
   (fv F (b_x st) -> fv F r -> gap A b (vv F (b_x st)) (ineg (vv F r)) <= dr (2 * b_nmv st + 1))).
Proof.
  intros cnt XB. induction k as [|k IH]; intros st HR.
  - destruct (XB 0%nat st HR) as [HX _]. cbn in HR. injection HR as <-. cbn in HX |- *. exists (r0 cnt).
    split; [reflexivity|]. split; [left; right; reflexivity|]. right.
    intros FX FR. destruct FO as [FU FH FN FC FL FB FA].
    assert (X0 : 0 <= X) by (pose proof (inorm_pos (vv F (start_x kw rhs))); specialize (HX FX); lra).
    eapply Rle_trans; [apply start_f; auto|]. apply (drifts_mono b); auto; [lra|lia].
  - destruct (XB (S k) st HR) as [HX' _]. cbn [rounds] in HR.
    destruct (rounds _ _ k _) as [st1|e] eqn:R1; [|discriminate].
    destruct (negb (b_fin st1)) eqn:NF; [|discriminate]. apply negb_true_iff in NF.
    destruct (XB k st1 R1) as [HX HM]. destruct (IH st1 eq_refl) as (r & I0 & _ & I1). clear IH.
    specialize (I0 NF). subst r.
    assert (I2 : fv F (b_x st1) -> fv F (b_r st1) -> gap A b (vv F (b_x st1)) (ineg (vv F (b_r st1))) <= dr (2 * b_nmv st1 + 1)).
    { destruct I1 as [[_ Q]|Q]; [congruence|exact Q]. }
    clear I1. unfold bi_mid in HM. unfold bi_body, opmul in HR. cbv zeta in HR, HM.
    set (beta := sdiv (smul (sdiv (b_rhon st1) (b_rho st1)) (b_alpha st1)) (b_omega st1)) in *.
    set (p := vadd (vsub (vscale beta (b_p st1)) (vscale (smul beta (b_omega st1)) (b_v st1))) (b_r st1)) in *.
    set (qq := prec q p) in *. set (v := q_A q qq) in *. set (al := sdiv (b_rhon st1) (vdot (r0 cnt) v)) in *.
    set (s := vsub (b_r st1) (vscale al v)) in *.
    destruct FO as [FU FH FN FC FL FB FA].
    destruct (sleb (vnorm s) (fl_th cnt)) eqn:T1.
    + injection HR as <-. cbn in HX' |- *. exists s. split; [discriminate|]. split; [left; left; reflexivity|].
      right. intros FX FR. specialize (HX' FX).
      pose proof (fl_add F _ _ FX) as (X1 & X2 & X3). pose proof (fl_sub F _ _ FR) as (Y1 & Y2 & Y3).
      pose proof (fl_scale F _ _ X2) as (X4 & X5). pose proof (fl_scale F _ _ Y2) as (Y4 & Y5).
      specialize (I2 X1 Y1). specialize (HX X1). apply neg_sub in Y3.
      assert (X0 : 0 <= X) by (pose proof (inorm_pos (vv F (b_x st1))); lra).
      apply Rle_trans with (dr (S (2 * b_nmv st1 + 1))); [|apply (drifts_mono b); auto; [lra|lia]].
      eapply Rle_trans; [|apply (drifts_step b); [exact FN|exact FC|exact FU|exact FH|apply Rle_refl|exact X0|exact I2]].
      eapply (step_gap A b nA c u h (inorm b) X FL FB FN FC FU FH (Rle_refl _));
        [exact HX|exact HX'|exact X5|exact X3|apply (FA _ X4 Y4)|exact Y5|exact Y3].
    + destruct (mx <=? b_nmv st1 + 1)%nat.
      * injection HR as <-. cbn. exists s. split; [discriminate|]. split; [left; left; reflexivity|]. left. auto.
      * set (z := prec q s) in *. set (t := q_A q z) in *. set (om := sdiv (vdot t s) (vdot t t)) in *.
        injection HR as <-. cbn in HX' |- *. exists (vsub s (vscale om t)).
        split; [reflexivity|]. split; [left; left; reflexivity|]. right. intros FX FR. specialize (HX' FX).
        pose proof (fl_add F _ _ FX) as (X1 & X2 & X3). pose proof (fl_add F _ _ X1) as (Z1 & Z2 & Z3).
        pose proof (fl_scale F _ _ X2) as (X4 & X5). pose proof (fl_scale F _ _ Z2) as (Z4 & Z5).
        pose proof (fl_sub F _ _ FR) as (Y1 & Y2 & Y3). pose proof (fl_sub F _ _ Y1) as (V1 & V2 & V3).
        pose proof (fl_scale F _ _ Y2) as (Y4 & Y5). pose proof (fl_scale F _ _ V2) as (V4 & V5).
        specialize (I2 Z1 V1). specialize (HX Z1). specialize (HM X1). apply neg_sub in Y3. apply neg_sub in V3.
        fold s in V3.
        assert (X0 : 0 <= X) by (pose proof (inorm_pos (vv F (b_x st1))); lra).
        pose proof (step_two A b nA c u h (inorm b) X FL FB FN FC FU FH (Rle_refl _) _ _ _ _ _ _ _ _ _ _ _ _ _ _ _ _
          HX HM HX' Z5 Z3 X5 X3 (FA _ X4 V4) V5 V3 (FA _ Z4 Y4) Y5 Y3) as ST.
        eapply Rle_trans; [exact ST|].
        set (D := drift nA c u h (inorm b) X) in *. set (g := gap A b _ _) in *.
        assert (D0 : 0 <= D) by (apply (drift_pos b); auto; lra).
        pose proof (drifts_step b nA c u h (inorm b) X FN FC FU FH (Rle_refl _) _ g X0 I2) as Q1. fold D in Q1.
        set (g1 := (1 + 2 * u) * (g + D)) in *.
        pose proof (drifts_step b nA c u h (inorm b) X FN FC FU FH (Rle_refl _) _ g1 X0 Q1) as Q2. fold D in Q2.
        set (g2 := (1 + 2 * u) * (g1 + D)) in *.
        pose proof (drifts_step b nA c u h (inorm b) X FN FC FU FH (Rle_refl _) _ g2 X0 Q2) as Q3. fold D in Q3.
        apply Rle_trans with (dr (S (S (S (2 * b_nmv st1 + 1))))); [|apply (drifts_mono b); auto; [lra|lia]].
        eapply Rle_trans; [|exact Q3].
        assert (G0 : 0 <= g1).
        { unfold g1. apply Rmult_le_pos; [lra|]. pose proof (gap_pos A b (vv F (b_x st1)) (ineg (vv F (b_r st1)))). fold g in H. lra. }
        assert (g1 + D <= g2) by (unfold g2; assert (0 <= u * (g1 + D)) by (apply Rmult_le_pos; lra); lra).
        apply Rmult_le_compat_l; lra.
Qed.

Theorem C97_bicgstab : forall fuel cnt out cnt' G,
  (forall k st, biR cnt k (bi0 cnt) = Ok st ->
     (fv F (b_x st) -> inorm (vv F (b_x st)) <= X) /\ (fv F (bi_mid (r0 cnt) st) -> inorm (vv F (bi_mid (r0 cnt) st)) <= X)) ->
  (forall r, sleb (vnorm r) (fl_th cnt) = true \/ sleb (sabs (ssqrt (vdot r r))) (fl_th cnt) = true ->
     fv F r /\ inorm (vv F r) <= G) ->
  bi_solve fuel q rhs kw cnt = Ok (out, cnt') -> o_conv out = true -> fv F (o_x out) ->
  inorm (isub b (A (vv F (o_x out)))) <= G + dr (2 * o_nmv out + 1).
Proof.
  intros fuel cnt out cnt' G XB HG H CV FX. pose proof (bif_rounds cnt XB) as I. clear XB. unfold bi_solve in H. cbv zeta in H.
  destruct (start_r q kw rhs cnt) as [rr cc] eqn:ES.
  destruct (while _ _ _ _) as [st|e] eqn:HW; [|discriminate]. injection H as <- _. cbn [o_conv o_x o_nmv] in CV, FX |- *.
  apply while_rounds in HW. destruct HW as (k & _ & HR & _). specialize (I k st).
  unfold fl_th, fl_rn in I, HG. rewrite ES in I, HG. cbn [fst snd] in I, HG.
  destruct (I HR) as (r & _ & I1 & I2). clear I.
  assert (Q : fv F r /\ inorm (vv F r) <= G).
  { apply HG. destruct I1 as [[Q|Q]|Q]; [left|right|congruence]; rewrite <- Q; exact CV. }
  destruct Q as [FR NR]. destruct I2 as [[Q _]|I2]; [congruence|]. specialize (I2 FX FR).
  pose proof (gap_true A b (vv F (b_x st)) (ineg (vv F r))) as T. rewrite inorm_neg in T. lra.
Qed.
End Other.
End Float.

(** ** Rounded arithmetic, dense matrices, no preconditioner *)
Section Rounded.
Variables (rnd : R -> R) (Om u : R) (n : nat).
Hypothesis U0 : 0 <= u <= / 8.
Hypothesis RND : forall x, Rabs (rnd x - x) <= u * Rabs x.
Notation K := (roundK rnd Om).
Notation W := (roundV rnd Om n).
Notation nrm := (@inorm (Rn n)).
Variables (q : kprob W) (M : mt n n).
Hypothesis QA : forall x, q_A q x = ob x (fmv rnd Om M).
Hypothesis QP : q_P q = None.
Notation u0 := (proj1 U0).
Notation F := (round_fl rnd Om u u0 RND n).
(** the norm of a vector whose computed norm is [t] *)
Definition gnorm (t : R) : R := t / (1 - u) ^ (n + 2).
Notation rdrift B X k := (drifts (fro M) (gam u n * fro M) u 0 B X k).
Definition true_res (b x : rv n) : R := nrm (@isub (Rn n) b (mv M x)).

Lemma round_op : @fl_op K W (Rn n) u 0 F q (mv M) (fro M) (gam u n * fro M).
Proof.
  constructor.
  - exact U0.
  - lra.
  - apply sqrt_pos.
  - apply Rmult_le_pos; [apply gam_pos; exact u0|apply sqrt_pos].
  - apply mv_lin.
  - apply mv_bound.
  - intros x [y ->] [z H]. rewrite QA in H |- *. cbn [ob] in H |- *. cbn [vv round_fl ov]. rewrite H.
    apply (fmv_err rnd Om u u0 RND n n M y z H).
Qed.
Lemma round_norm : forall (r : vc W) (th : sc K),
  sleb (vnorm r) th = true \/ sleb (sabs (ssqrt (vdot r r))) th = true ->
  exists t, th = Some t /\ fv F r /\ nrm (vv F r) <= gnorm t.
Proof.
  intros r th H. assert (P : 0 < (1 - u) ^ (n + 2)) by (apply pow_lt; lra).
  destruct r as [r|]; [|destruct H as [H|H]; discriminate]. cbn in H.
  destruct (ob (fdot rnd Om r r) (osqrt rnd Om)) as [s|] eqn:D; [|destruct H as [H|H]; discriminate].
  destruct (low_norm rnd Om u u0 RND ltac:(lra) n r s D) as [S0 S1].
  destruct th as [t|]; [|destruct H as [H|H]; discriminate]. cbn in H. rewrite (Rabs_pos_eq s S0) in H.
  assert (L : Rleb s t = true) by tauto. apply Rleb_true in L.
  exists t. split; [reflexivity|]. split; [exists r; reflexivity|]. cbn [vv round_fl ov]. unfold gnorm.
  apply (Rmult_le_reg_l ((1 - u) ^ (n + 2)) _ _ P). eapply Rle_trans; [exact S1|].
  replace ((1 - u) ^ (n + 2) * (t / (1 - u) ^ (n + 2))) with t by (field; apply Rgt_not_eq, P). exact L.
Qed.

Theorem C97_rounded_cg : forall (kw : cg_kw W) o (b x : rv n) fuel cnt o' cnt' X,
  (forall cnt k st y, rounds (cg_cond q kw (Some b : vc W) (c_res (cg_init q kw o (Some b : vc W) cnt))) (cg_body q kw) k
      (cg_init q kw o (Some b : vc W) cnt) = Ok st -> c_x st = Some y -> nrm y <= X) ->
  k_sym kw = false ->
  cg_solve fuel q o (Some b : vc W) kw cnt = Ok (o', cnt') -> g_conv o' = true -> g_x o' = Some (Some x) ->
  exists t, thr q (c_res (cg_init q kw o (Some b : vc W) cnt)) = Some t /\
    true_res b x <= gnorm t + rdrift (nrm b) X (g_nmv o').
Proof.
  intros kw o b x fuel cnt o' cnt' X XB KS H CV GX.
  assert (XB' : forall cnt k st, rounds (cg_cond q kw (Some b : vc W) (c_res (cg_init q kw o (Some b : vc W) cnt))) (cg_body q kw) k
      (cg_init q kw o (Some b : vc W) cnt) = Ok st -> fv F (c_x st) -> nrm (vv F (c_x st)) <= X).
  { intros c1 k st HR [y FY]. cbn [vv round_fl]. rewrite FY. cbn [ov]. exact (XB c1 k st y HR FY). }
  set (th := thr q (c_res (cg_init q kw o (Some b : vc W) cnt))).
  destruct th as [t|] eqn:TH.
  - exists t. split; [reflexivity|].
    apply (@C97_cg K W (Rn n) u 0 F q (mv M) (fro M) (gam u n * fro M) round_op kw o (Some b) X XB' fuel cnt o' cnt' (Some x) (gnorm t));
      [left; exact KS| |exact H|exact CV|exact GX|exists x; reflexivity].
    intros r HL. unfold th in TH. rewrite TH in HL. unfold prec in HL. rewrite QP in HL.
    destruct (round_norm r (Some t) (or_intror HL)) as (t' & ET & Q). injection ET as <-. exact Q.
  - exfalso.
    assert (Q : inorm (isub (vv F (Some b : vc W)) (mv M (vv F (Some x : vc W)))) <= - 1 - rdrift (nrm b) X (g_nmv o') + rdrift (nrm b) X (g_nmv o')).
    { apply (@C97_cg K W (Rn n) u 0 F q (mv M) (fro M) (gam u n * fro M) round_op kw o (Some b) X XB' fuel cnt o' cnt' (Some x));
        [left; exact KS| |exact H|exact CV|exact GX|exists x; reflexivity].
      intros r HL. unfold th in TH. rewrite TH in HL. unfold prec in HL. rewrite QP in HL.
      destruct (round_norm r None (or_intror HL)) as (t' & ET & _). discriminate. }
    pose proof (inorm_pos (isub (vv F (Some b : vc W)) (mv M (vv F (Some x : vc W))))). lra.
Qed.
End Rounded.

(** The hypotheses hold: 53-bit rounding to nearest ... *)
Definition rexp (x : R) : Z := Int_part (ln (Rabs x) / ln 2).
Definition rnd53 (x : R) : R :=
  if Reqb x 0 then 0
  else IZR (Int_part (x / powerRZ 2 (rexp x - 52) + / 2)) * powerRZ 2 (rexp x - 52).
Theorem C97_rounding : forall x, Rabs (rnd53 x - x) <= / 2 ^ 53 * Rabs x.
Proof.
  intro x. unfold rnd53. destruct (Reqb x 0) eqn:Z.
  - apply Reqb_true in Z. subst x. rewrite Rminus_0_r, Rabs_R0. lra.
  - apply Reqb_false in Z. set (e := rexp x). set (s := powerRZ 2 (e - 52)).
    assert (S0 : 0 < s) by (apply powerRZ_lt; lra). assert (L2 : 0 < ln 2) by (rewrite <- ln_1; apply ln_increasing; lra).
    assert (A0 : 0 < Rabs x) by (apply Rabs_pos_lt; exact Z).
    assert (Q : s * 2 ^ 52 <= Rabs x).
    { replace (2 ^ 52) with (powerRZ 2 52) by reflexivity. unfold s. rewrite <- powerRZ_add by lra.
      replace (e - 52 + 52)%Z with e by lia. rewrite powerRZ_Rpower by lra. unfold Rpower.
      assert (EL : forall a b, a <= b -> exp a <= exp b).
      { intros a b [L|L]; [left; apply exp_increasing; exact L|subst; right; reflexivity]. }
      rewrite <- (exp_ln (Rabs x) A0). apply EL. unfold e, rexp.
      destruct (base_Int_part (ln (Rabs x) / ln 2)) as [B _].
      apply Rle_trans with (ln (Rabs x) / ln 2 * ln 2); [apply Rmult_le_compat_r; lra|]. right. field. lra. }
    destruct (base_Int_part (x / s + / 2)) as [B1 B2]. set (m := IZR (Int_part (x / s + / 2))) in *.
    replace (m * s - x) with ((m - x / s) * s) by (field; lra).
    rewrite Rabs_mult, (Rabs_pos_eq s) by lra.
    assert (Rabs (m - x / s) <= / 2) by (apply Rabs_le; lra).
    apply Rle_trans with (/ 2 * s); [apply Rmult_le_compat_r; lra|].
    apply (Rmult_le_reg_l (2 ^ 53)); [apply pow_lt; lra|].
    replace (2 ^ 53 * (/ 2 ^ 53 * Rabs x)) with (Rabs x) by (field; lra).
    replace (2 ^ 53 * (/ 2 * s)) with (s * 2 ^ 52) by field. exact Q.
Qed.

(** ... and a run in which every operation errs by 1/16: x = b in one unknown, tolerance 1.  The solver returns
    17/16 after one step. *)
Definition ernd (x : R) : R := 17 / 16 * x.
Lemma ernd_rel : forall x, Rabs (ernd x - x) <= / 16 * Rabs x.
Proof. intro x. unfold ernd. replace (17 / 16 * x - x) with (/ 16 * x) by field. rewrite Rabs_mult, (Rabs_pos_eq (/ 16)); lra. Qed.
Notation eW := (roundV ernd 1000 1).
Definition e_q : kprob eW :=
  mkprob (W := eW) 1 1 (fun x => ob x (fmv ernd 1000 (((1, tt), tt) : mt 1 1))) None (Some 1) (Some 0) (fun x => x) [].
Definition e_kw : cg_kw eW := @cg_kw0 _ eW.
Definition e_o : cg_obj eW := mkcg (W := eW) None None [] [] [] None false None 0 None.
Lemma ero : forall z y, 17 / 16 * z = y -> -1000 <= y <= 1000 -> ro ernd 1000 z = Some y.
Proof.
  intros z y <- H. unfold ro, ernd. destruct (Rleb _ _) eqn:L; [reflexivity|].
  apply Rleb_false in L. assert (Rabs (17 / 16 * z) <= 1000) by (apply Rabs_le; lra). lra.
Qed.
Notation e_b := (Some (1, tt) : vc eW).
Ltac ev z y := rewrite (ero z y ltac:(field) ltac:(lra)); cbn [ob ob2 option_map].
Lemma edv : forall a b y, b <> 0 -> 17 / 16 * (a / b) = y -> -1000 <= y <= 1000 -> odiv ernd 1000 a b = Some y.
Proof. intros a b y B H1 H2. unfold odiv. rewrite (proj2 (Reqb_false b 0) B). apply ero; assumption. Qed.
Lemma e_init : forall cnt, cg_init e_q e_kw e_o e_b cnt =
  mkst (W := eW) (Some (0, tt)) (Some (-1, tt)) (Some (1, tt)) (Some (289 / 256)) (Some (289 / 256)) 0 true cnt [Some (289 / 256)] [] [] None.
Proof.
  intro cnt. unfold cg_init. cbn. replace (-1 * (-1 * 1)) with 1 by ring. replace (-1 * 1 * (-1 * 1)) with 1 by ring. replace (-1 * 1) with (-1) by ring.
  ev 1 (17 / 16). ev (17 / 16 + 0) (289 / 256). unfold osqrt.
  rewrite (proj2 (Rltb_false (289 / 256) 0)) by lra.
  replace (sqrt (289 / 256)) with (17 / 16) by (symmetry; apply sqrt_lem_1; lra).
  ev (17 / 16) (289 / 256). rewrite Rabs_pos_eq by lra. reflexivity.
Qed.
Lemma e_thr : thr e_q (Some (289 / 256)) = Some 1.
Proof.
  unfold thr, pymax. cbn. ev (0 * (289 / 256)) 0. cbn. rewrite (proj2 (Rltb_false 1 0)) by lra. reflexivity.
Qed.
Definition e_st (cnt : nat) : cg_st eW :=
  mkst (W := eW) (Some (17 / 16, tt)) (Some (561 / 4096, tt)) (Some (17 / 16 * (9537 / 65536 * (9537 / 65536) - 561 / 4096), tt)) (Some (9537 / 65536 * (9537 / 65536))) (Some (162129 / 1048576)) 1 true cnt
    [Some (289 / 256); Some (162129 / 1048576)] [] [] None.
Lemma e_body : forall cnt, cg_body e_q e_kw
  (mkst (W := eW) (Some (0, tt)) (Some (-1, tt)) (Some (1, tt)) (Some (289 / 256)) (Some (289 / 256)) 0 true cnt [Some (289 / 256)] [] [] None)
  = Ok (e_st (S cnt)).
Proof.
  intro cnt. unfold cg_body. cbn. ev (1 * 1) (17 / 16). ev (17 / 16 + 0) (289 / 256). cbn [fst].
  ev (1 * (289 / 256)) (4913 / 4096). ev (4913 / 4096 + 0) (83521 / 65536).
  unfold curv_bad. cbn. replace (Q2R (QArith_base.Qmake 1 100000000)) with (/ 100000000) by (unfold Q2R; cbn; lra).
  ev (/ 100000000) (17 / 1600000000). rewrite (Rabs_pos_eq (83521 / 65536)) by lra.
  ev (17 / 1600000000 * (83521 / 65536)) (17 / 16 * (17 / 1600000000 * (83521 / 65536))). cbn.
  rewrite (proj2 (Rltb_false _ 0)) by lra. rewrite (proj2 (Rleb_false (83521 / 65536) 0)) by lra. cbn [orb].
  rewrite (edv (289 / 256) (83521 / 65536) (16 / 17)) by (try field; lra). cbn [fst ob2].
  ev (16 / 17 * 1) 1. cbn [fst]. ev (0 + 1) (17 / 16).
  ev (16 / 17 * (289 / 256)) (289 / 256). cbn [fst]. ev (-1 + 289 / 256) (561 / 4096). cbn [fst].
  ev (561 / 4096 * (561 / 4096)) (17 / 16 * (561 / 4096 * (561 / 4096))).
  ev (17 / 16 * (561 / 4096 * (561 / 4096)) + 0) (9537 / 65536 * (9537 / 65536)).
  rewrite (edv (9537 / 65536 * (9537 / 65536)) (289 / 256) (17 / 16 * (561 / 4096 * (561 / 4096)))) by (try field; lra). cbn [fst ob2].
  ev (17 / 16 * (561 / 4096 * (561 / 4096)) * 1) (9537 / 65536 * (9537 / 65536)). cbn [fst].
  ev (9537 / 65536 * (9537 / 65536) - 561 / 4096) (17 / 16 * (9537 / 65536 * (9537 / 65536) - 561 / 4096)).
  unfold osqrt. rewrite (proj2 (Rltb_false _ 0)) by lra. rewrite sqrt_square by lra.
  ev (9537 / 65536) (162129 / 1048576). rewrite Rabs_pos_eq by lra. rewrite Nat.add_1_r. reflexivity.
Qed.
Lemma e_cond0 : forall cnt, cg_cond e_q e_kw e_b (Some (289 / 256))
  (mkst (W := eW) (Some (0, tt)) (Some (-1, tt)) (Some (1, tt)) (Some (289 / 256)) (Some (289 / 256)) 0 true cnt [Some (289 / 256)] [] [] None) = true.
Proof.
  intro cnt. unfold cg_cond. rewrite e_thr. unfold sgtb. cbn. rewrite (proj2 (Rltb_true 1 (289 / 256))) by lra. reflexivity.
Qed.
Lemma e_cond1 : forall cnt, cg_cond e_q e_kw e_b (Some (289 / 256)) (e_st cnt) = false.
Proof.
  intro cnt. unfold cg_cond. rewrite e_thr. unfold sgtb. cbn. rewrite (proj2 (Rltb_false 1 (162129 / 1048576))) by lra. reflexivity.
Qed.
Example C97_rounded_ex :
  (forall cnt k st y, rounds (cg_cond e_q e_kw e_b (c_res (cg_init e_q e_kw e_o e_b cnt))) (cg_body e_q e_kw) k
      (cg_init e_q e_kw e_o e_b cnt) = Ok st -> c_x st = Some y -> @inorm (Rn 1) y <= 17 / 16) /\
  exists o' cnt', cg_solve 2 e_q e_o e_b e_kw 0 = Ok (o', cnt') /\ g_conv o' = true /\
    g_x o' = Some (Some (17 / 16, tt)) /\ thr e_q (c_res (cg_init e_q e_kw e_o e_b 0)) = Some 1 /\
    true_res 1 (((1, tt), tt) : mt 1 1) (1, tt) (17 / 16, tt) = / 16.
Proof.
  assert (N : forall a, @inorm (Rn 1) (a, tt) = Rabs a).
  { intro a. unfold inorm. cbn. rewrite Rplus_0_r. apply sqrt_Rsqr_abs. }
  split.
  - intros cnt k st y HR HX. rewrite e_init in HR. cbn [c_res] in HR. destruct k as [|[|k]].
    + cbn in HR. injection HR as <-. cbn in HX. injection HX as <-. rewrite N, Rabs_R0. lra.
    + cbn [rounds] in HR. rewrite e_cond0, e_body in HR. injection HR as <-. cbn in HX. injection HX as <-.
      rewrite N, Rabs_pos_eq; lra.
    + exfalso. revert st y HR HX. induction k as [|k IH]; intros st y HR HX.
      * cbn [rounds] in HR. rewrite e_cond0, e_body, e_cond1 in HR. discriminate.
      * assert (Q : exists e, rounds (cg_cond e_q e_kw e_b (Some (289 / 256))) (cg_body e_q e_kw) (S (S k))
          (mkst (W := eW) (Some (0, tt)) (Some (-1, tt)) (Some (1, tt)) (Some (289 / 256)) (Some (289 / 256)) 0 true cnt [Some (289 / 256)] [] [] None) = Err e).
        { clear IH HX HR. induction k as [|k [e IH]].
          - cbn [rounds]. rewrite e_cond0, e_body, e_cond1. eexists. reflexivity.
          - exists e. cbn [rounds] in IH |- *. rewrite IH. reflexivity. }
        destruct Q as [e Q]. cbn [rounds] in HR, Q. rewrite Q in HR. discriminate.
  - unfold cg_solve. cbn [k_sym e_kw cg_kw0 negb]. rewrite e_init. cbn [c_res while]. rewrite e_cond0, e_body.
    cbn [while]. rewrite e_cond1. eexists _, _. split; [reflexivity|]. unfold cg_final. rewrite e_thr. cbn.
    repeat split; try reflexivity.
    + apply Rleb_true. lra.
    + unfold true_res, isub, ineg. cbn. rewrite N. rewrite <- (Rabs_Ropp _), Rabs_pos_eq; lra.
Qed.

Print Assumptions C97_cg.
Print Assumptions C97_cgs.
Print Assumptions C97_bicgstab.
Print Assumptions C97_rounded_cg.
Print Assumptions C97_rounding.
