(** When LSQR and LSMR go on: the iterates before the last one fail the first stopping test. *)
From Coq Require Import List Arith Lia Bool QArith ZArith Reals Lra Qreals.
From Verif Require Import Base Num ToolsModel ToolsProof CgModel MinresProof GkProof
  LsqrModel LsqrFlow LsqrMath LsqrProof LsmrModel LsmrFlow LsmrProof.
Import ListNotations.
Local Open Scope R_scope.

Lemma last_nth : forall {A} (l : list A) (x d : A), nth_error l (length l - 1) = Some x -> last l d = x.
Proof.
  intros A l x d H. destruct l as [|a l] using rev_ind; [discriminate|]. rewrite last_last.
  rewrite app_length in H. cbn [length] in H. rewrite nth_error_app2 in H by lia.
  replace (length l + 1 - 1 - length l)%nat with 0%nat in H by lia. injection H as ->. reflexivity.
Qed.

Section Lsqr.
Variables (dv : R -> R -> R) (sq : R -> R).
Hypothesis DV : dv_ok dv.
Hypothesis SQ : sq_ok sq.
Variables E1 E2 : IPS.
Variables (nv1 : iv E1 -> R) (nv2 : iv E2 -> R).
Notation KK := (exactK dv sq).
Notation WV := (exactVn dv sq E1 nv1).
Notation WU := (exactVn dv sq E2 nv2).
Variables (q : lprob WV WU) (kw : ls_kw WV WU) (b : iv E2).
Hypothesis NM : l_M kw = None.
Hypothesis NN : l_N kw = None.
Notation A := (lp_A q : iv E1 -> iv E2).
Notation At := (lp_At q : iv E2 -> iv E1).
Hypothesis AD : adjoint A At.
Hypothesis HW : (1 <= l_window kw)%nat.
Notation d := (l_damp kw : R).
Notation lim := (ls_lim q kw).
Notation dr := (dres2 A b d).
Notation nr := (nres A At b d).
Notation gh := (ls_gh dv sq E1 E2 nv1 nv2 q kw b).
Notation ph := (ls_ph dv sq E1 E2 nv1 nv2 q kw b).
Hypothesis AT : 0 <= (l_atol kw : R).

(** A zero code means that test 1 failed. *)
Lemma ls_tests_on : forall late i (bn An Ac rn Ar xn : R), 0 < bn -> 0 <= An -> 0 <= xn ->
  @ls_tests KK WV WU kw late i bn An Ac rn Ar xn = Ok 0%Z -> l_btol kw * bn < rn.
Proof.
  intros late i bn An Ac rn Ar xn HB HA HX H. unfold ls_tests in H.
  rewrite (ex_div dv sq DV rn bn) in H by lra. cbn [rbind] in H.
  rb H t2 T2. rb H t3 T3. clear T2 T3.
  rewrite (ex_div dv sq DV) in H by lra. cbn [rbind] in H.
  rb H t1 T1. clear T1.
  rewrite (ex_div dv sq DV) in H by lra. cbn [rbind] in H.
  injection H as H.
  match type of H with (if ?c then _ else _) = _ => destruct c eqn:C1 end; [discriminate|].
  assert (C : (l_btol kw : R) + l_atol kw * An * xn / bn < rn / bn).
  { apply Rnot_le_lt. intro L. assert (T : @sleb KK (rn / bn) ((l_btol kw : R) + l_atol kw * An * xn / bn) = true) by (apply Rleb_true; exact L).
    cbn in *. congruence. }
  assert (0 <= l_atol kw * An * xn / bn).
  { apply Rmult_le_pos; [apply Rmult_le_pos; [apply Rmult_le_pos; assumption|assumption]|left; apply Rinv_0_lt_compat; exact HB]. }
  apply Rmult_lt_reg_r with (/ bn); [apply Rinv_0_lt_compat; exact HB|].
  rewrite Rmult_assoc, Rinv_r by lra. unfold Rdiv in *. lra.
Qed.

Lemma ls_run : forall fuel cnt o cnt', l_wantvar kw = false -> (Z.to_nat lim < fuel)%nat ->
  @ls_solve KK WV WU fuel q kw b cnt = Ok (o, cnt') ->
  exists xs, length xs = o_itn o /\
    (forall i x, nth_error xs i = Some x ->
       kry (fun z => At (A z)) (At b) (S i) x /\ forall z, kry (fun z => At (A z)) (At b) (S i) z -> dr x <= dr z) /\
    (forall i x, nth_error xs i = Some x -> (S i < o_itn o)%nat -> l_btol kw * inorm b < sqrt (dr x)).
Proof.
  intros fuel cnt o cnt' HV HF H.
  destruct (ex_init dv sq DV SQ E1 E2 nv1 nv2 q kw b NM NN AD HW cnt) as (st0 & E0 & I0 & G0 & B0 & P0 & BP).
  unfold ls_solve in H. rewrite HV, E0 in H. cbn [rbind] in H.
  destruct (while fuel (ls_cond lim) (ls_body q kw (s_beta st0) lim) st0) as [st|] eqn:W; [|discriminate].
  cbn [rbind] in H. injection H as <- <-. cbn [o_itn].
  pose proof (ls_init_spec _ _ _ _ _ E0) as (I1 & _).
  pose (J := fun st : ls_st WV WU => exists xs bs, gh st xs /\ ph cnt st /\ ls_flow q kw st0 st bs /\ (s_brk st = false -> 0 < inorm b) /\
     (forall i x, nth_error xs i = Some x -> (S i < s_itn st)%nat -> l_btol kw * inorm b < sqrt (dr x)) /\
     (s_brk st = false -> s_itn st <> 0%nat -> l_btol kw * inorm b < sqrt (dr (s_x st)))).
  assert (JJ : J st).
  { apply while_inv with (I := J) in W; [apply W| |].
    - intros s s' (xs & bs & G & PH & F & HB & K1 & K2) C EB.
      destruct (ls_step_flow q kw _ _ _ _ _ I1 F C EB) as [F' EI].
      unfold ls_cond in C. apply andb_prop in C as [C _]. apply negb_true_iff in C. specialize (HB C).
      destruct (ls_loop_step dv sq DV SQ E1 E2 nv1 nv2 q kw b NM NN AD HW (s_beta st0) cnt s xs) as (s2 & EB2 & _ & [x' G'] & P');
        [rewrite B0; exact HB|exact G|exact PH|exact C|].
      rewrite EB in EB2. injection EB2 as <-.
      exists (xs ++ [x']), (bs ++ [s_beta s']). split; [exact G'|]. split; [exact P'|]. split; [exact F'|]. split; [intros _; exact HB|]. split.
      + intros i x Hx Li. rewrite EI in Li. pose proof (gh_len _ _ _ _ _ _ _ _ _ _ _ G) as Lx.
        rewrite nth_error_app1 in Hx by lia.
        destruct (Nat.eq_dec (S i) (s_itn s)) as [Q|Q]; [|apply (K1 i x Hx); lia].
        assert (Ex : s_x s = (x : iv E1)).
        { rewrite (gh_x _ _ _ _ _ _ _ _ _ _ _ G). 
          assert (H2 : @nth_error (iv E1) xs (@length (iv E1) xs - 1) = Some x).
          { replace (@length (iv E1) xs - 1)%nat with i; [exact Hx|]. change (@length (iv E1) xs = s_itn s) in Lx. lia. }
          exact (@last_nth (iv E1) xs x izero H2). }
        rewrite <- Ex. apply K2; [exact C|lia].
      + intros Q _. pose proof (lf_run _ _ _ _ _ F' Q) as R0.
        destruct (ls_body_tests q kw _ _ _ EB) as (late & i & _ & T). rewrite R0 in T.
        pose proof (gh_ok _ _ _ _ _ _ _ _ _ _ _ G') as (O1 & _ & O3 & _). rewrite <- O1.
        rewrite B0 in T. apply (ls_tests_on late i (inorm b) (s_Anorm s') (s_Acond s') (s_r2norm s') (s_Arnorm s') (s_xnorm s') HB).
        * exact (gh_An _ _ _ _ _ _ _ _ _ _ _ G').
        * rewrite O3. apply inorm_pos.
        * exact T.
    - exists [], []. split; [exact G0|]. split; [exact P0|]. split; [apply (ls_init_spec _ _ _ _ _ E0)|]. split; [exact BP|].
      split; [intros i x Hx; destruct i; discriminate|]. intros _ Q. contradiction. }
  destruct JJ as (xs & bs & G & _ & _ & _ & K1 & _). exists xs. split; [apply (gh_len _ _ _ _ _ _ _ _ _ _ _ G)|].
  split; [apply (gh_kry _ _ _ _ _ _ _ _ _ _ _ G)|exact K1].
Qed.
End Lsqr.

Section Lsmr.
Variables (dv : R -> R -> R) (sq : R -> R).
Hypothesis DV : dv_ok dv.
Hypothesis SQ : sq_ok sq.
Variables E1 E2 : IPS.
Variables (nv1 : iv E1 -> R) (nv2 : iv E2 -> R).
Hypothesis NVP : forall z, 0 <= nv1 z.
Hypothesis NVZ : nv1 izero = 0.
Notation KK := (exactK dv sq).
Notation WV := (exactVn dv sq E1 nv1).
Notation WU := (exactVn dv sq E2 nv2).
Variables (q : lprob WV WU) (kw : lm_kw WV WU) (b : iv E2).
Hypothesis NM : m_M kw = None.
Hypothesis NN : m_N kw = None.
Notation A := (lp_A q : iv E1 -> iv E2).
Notation At := (lp_At q : iv E2 -> iv E1).
Hypothesis AD : adjoint A At.
Hypothesis HW : (1 <= m_window kw)%nat.
Notation d := (m_damp kw : R).
Notation lim := (lm_lim q kw).
Notation dr := (dres2 A b d).
Notation nr := (nres A At b d).
Notation gh := (lm_gh dv sq E1 E2 nv1 nv2 q kw b (inorm b)).
Notation ph := (lm_ph dv sq E1 E2 nv1 nv2 q kw b).
Hypothesis AT : 0 <= (m_atol kw : R).

(** A zero code means that tests 1 and 2 failed. *)
Lemma lm_tests_on : forall late i (bn An Ac rn Ar xn : R), 0 < bn -> 0 < An -> 0 <= xn -> 0 < rn ->
  @lm_tests KK WV WU kw late i bn An Ac rn Ar xn = Ok 0%Z ->
  m_btol kw * bn < rn /\ m_atol kw * (An * rn) < Ar.
Proof.
  intros late i bn An Ac rn Ar xn HB HA HX HR H. unfold lm_tests in H.
  assert (P : 0 < An * rn) by (apply Rmult_lt_0_compat; assumption).
  rewrite (ex_div dv sq DV rn bn) in H by lra. cbn [rbind] in H.
  rewrite (ex_div dv sq DV) in H by (cbn; lra). cbn [rbind] in H.
  rb H t3 T3. clear T3. rb H t1 T1. clear T1. injection H as H.
  assert (ED : @sdiv KK (@smul KK (@smul KK (m_atol kw) An) xn) bn = (m_atol kw * An * xn / bn : R)) by (apply DV; lra).
  match type of H with (if ?c then _ else _) = _ => destruct c eqn:C1 end; [discriminate|].
  match type of H with (if ?c then _ else _) = _ => destruct c eqn:C2 end; [discriminate|]. clear H.
  assert (D1 : (m_btol kw : R) + m_atol kw * An * xn / bn < rn / bn).
  { apply Rnot_le_lt. intro L. assert (T : @sleb KK (rn / bn) ((m_btol kw : R) + m_atol kw * An * xn / bn) = true) by (apply Rleb_true; exact L).
    change (Rleb (rn / bn) ((m_btol kw : R) + @sdiv KK (@smul KK (@smul KK (m_atol kw) An) xn) bn) = false) in C1.
    rewrite ED in C1. cbn in *. congruence. }
  assert (D2 : (m_atol kw : R) < Ar / (An * rn)).
  { apply Rnot_le_lt. intro L. assert (T : @sleb KK (Ar / (An * rn)) (m_atol kw) = true) by (apply Rleb_true; exact L).
    cbn in *. congruence. }
  split.
  - assert (0 <= m_atol kw * An * xn / bn).
    { apply Rmult_le_pos; [apply Rmult_le_pos; [apply Rmult_le_pos; lra|assumption]|left; apply Rinv_0_lt_compat; exact HB]. }
    apply Rmult_lt_reg_r with (/ bn); [apply Rinv_0_lt_compat; exact HB|].
    rewrite Rmult_assoc, Rinv_r by lra. unfold Rdiv in *. lra.
  - apply Rmult_lt_reg_r with (/ (An * rn)); [apply Rinv_0_lt_compat; exact P|].
    rewrite Rmult_assoc, Rinv_r by lra. unfold Rdiv in D2. lra.
Qed.

Lemma lm_body_last : forall bn st st', @lm_body KK WV WU q kw bn lim st = Ok st' -> 0 <= (t_normA2 st : R) ->
  (exists late i, @lm_tests KK WV WU kw late i bn (t_normA st') (t_condA st') (t_normr st') (t_normar st') (t_normx st') = Ok (t_istop st')) /\
  (t_normA2 st : R) <= t_normA2 st' /\ sqrt (t_normA2 st) <= (t_normA st' : R).
Proof.
  intros bn st st' H A2. unfold lm_body in H. cbv zeta in H.
  rb H r E1'. clear E1'. destruct r as [[[[[Mu' v'] Nv'] al] be] cnt].
  rb H r E2'. clear E2'. destruct r as [[[[[[chat shat] c] s] rho] thn] alb].
  rb H r E2'. clear E2'. destruct r as [[[[[[thb rht] cb] sb] rhb] ze] zeb].
  rb H r E3'. clear E3'. destruct r as [[x h] hb].
  rb H r E4'. clear E4'. destruct r as [[[nrg2 dErr] dirs] istop].
  rb H r E5'. clear E5'. destruct r as [[[[[[bdd tht] rhd] bd] tau] dd] nr0].
  rb H r E6'. destruct r as [[[[nA2 nA] mx] mn] cA].
  rb H i E7'. injection H as <-. cbn [t_normA t_condA t_normr t_normar t_normx t_istop t_normA2].
  split; [eauto|]. unfold lm_na in E6'. cbv zeta in E6'. rb E6' sr E8. rb E6' cc E9. injection E6' as <- <- <- <- <-.
  pose proof (Rle_0_sqr al) as Q1. pose proof (Rle_0_sqr be) as Q2. unfold Rsqr in Q1, Q2.
  change (@smul KK) with Rmult in *. change (@sadd KK) with Rplus in *.
  rewrite (ex_sqrt dv sq SQ) in E8 by (cbn in *; lra). injection E8 as <-. split; [cbn in *; lra|].
  apply sqrt_le_1_alt. cbn in *. lra.
Qed.

Lemma lm_run : forall fuel ob cnt r ob' cnt', (Z.to_nat lim < fuel)%nat -> At b <> izero ->
  @lm_solve KK WV WU fuel q kw ob b cnt = Ok (r, ob', cnt') ->
  exists xs, length xs = r_itn r /\
    (forall i x, nth_error xs i = Some x ->
       kry (fun z => At (A z)) (At b) (S i) x /\ forall z, kry (fun z => At (A z)) (At b) (S i) z -> inorm (nr x) <= inorm (nr z)) /\
    (forall i x, nth_error xs i = Some x -> (S i < r_itn r)%nat ->
       m_btol kw * inorm b < sqrt (dr x) /\ m_atol kw * (inorm (At b) * sqrt (dr x)) < inorm (nr x) * inorm b).
Proof.
  intros fuel ob cnt r ob' cnt' HF NZ H.
  destruct (em_init dv sq DV SQ E1 E2 nv1 nv2 NVZ q kw b NM NN AD HW cnt NZ) as (st0 & E0 & I0 & B0 & BE & HB & NA & G0 & P0).
  unfold lm_solve in H. rewrite E0 in H. cbn [rbind] in H.
  destruct (while fuel (lm_cond lim) (lm_body q kw (t_beta st0) lim) st0) as [st|] eqn:W; [|discriminate].
  cbn [rbind] in H. injection H as <- <- <-. cbn [r_itn].
  pose proof (lm_init_spec _ _ _ _ _ E0) as (I1 & _ & _ & _ & IN & _ & _ & _ & F0).
  assert (LB : inorm (At b) = (t_alpha st0 : R) * inorm b).
  { destruct (mg_ok _ _ _ _ _ _ _ _ _ _ _ _ G0) as (_ & O2 & _). rewrite IN in O2.
    rewrite (mg_x _ _ _ _ _ _ _ _ _ _ _ _ G0) in O2. cbn [last] in O2.
    unfold nres in O2. rewrite (lin_zero _ (adjoint_lin _ _ AD)) in O2.
    change ((t_alpha st0 : R) * t_beta st0 = inorm (isub (At (isub b izero)) (iscale (d * d) izero))) in O2. rewrite BE in O2.
    rewrite O2. f_equal. replace (isub b izero) with b by veq. veq. }
  assert (A1 : 0 <= (t_alpha st0 : R)).
  { pose proof (inorm_pos (At b)) as Q. rewrite LB in Q. apply Rmult_le_reg_r with (inorm b); [exact HB|]. lra. }
  assert (A0 : (t_normA2 st0 : R) = t_alpha st0 * t_alpha st0).
  { clear - E0. unfold lm_init in E0. cbv zeta in E0. rb E0 a1 F1. destruct a1 as [[? ?] ?]. rb E0 a2 F2. destruct a2 as [[[? ?] ?] ?].
    rb E0 a3 F3. injection E0 as <-. reflexivity. }
  pose (J := fun st : lm_st WV WU => exists xs, gh st xs /\ ph st /\ lm_flow q kw st0 st /\ (t_normA2 st0 : R) <= t_normA2 st /\
     let go x := m_btol kw * inorm b < sqrt (dr x) /\ m_atol kw * (inorm (At b) * sqrt (dr x)) < inorm (nr x) * inorm b in
     (forall i x, nth_error xs i = Some x -> (S i < t_itn st)%nat -> go x) /\
     (t_brk st = false -> t_itn st <> 0%nat -> go (t_x st : iv E1))).
  assert (JJ : J st).
  { apply while_inv with (I := J) in W; [apply W| |].
    - intros s s' (xs & G & PH & F & A2 & K1 & K2) C EB.
      destruct (lm_step_flow q kw _ _ _ _ I1 F C EB) as [F' EI].
      unfold lm_cond in C. apply andb_prop in C as [C _]. apply negb_true_iff in C.
      pose proof EB as EB0. rewrite BE in EB.
      destruct (lm_loop_step dv sq DV SQ E1 E2 nv1 nv2 NVP q kw b NM NN AD HW (inorm b) s xs HB G (proj1 PH C)) as (x' & _ & _ & K3 & K4).
      destruct (Req_dec (dr x') 0) as [Z|Z]; [rewrite (K3 Z) in EB; discriminate|].
      destruct (K4 Z) as (s2 & EB2 & _ & G' & P'). rewrite EB in EB2. injection EB2 as <-.
      pose proof (Rle_0_sqr (t_alpha st0)) as SQ0. unfold Rsqr in SQ0.
      destruct (lm_body_last _ _ _ EB) as ((late & i & T) & L1 & L2); [lra|].
      exists (xs ++ [x']). split; [exact G'|]. split; [exact P'|]. split; [exact F'|]. split; [lra|]. cbv zeta. split.
      + intros j x Hx Li. rewrite EI in Li. pose proof (mg_len _ _ _ _ _ _ _ _ _ _ _ _ G) as Lx.
        rewrite nth_error_app1 in Hx by lia.
        destruct (Nat.eq_dec (S j) (t_itn s)) as [Q|Q]; [|apply (K1 j x Hx); lia].
        assert (Ex : t_x s = (x : iv E1)).
        { rewrite (mg_x _ _ _ _ _ _ _ _ _ _ _ _ G).
          assert (H2 : @nth_error (iv E1) xs (@length (iv E1) xs - 1) = Some x).
          { replace (@length (iv E1) xs - 1)%nat with j; [exact Hx|]. change (@length (iv E1) xs = t_itn s) in Lx. lia. }
          exact (@last_nth (iv E1) xs x izero H2). }
        rewrite <- Ex. apply K2; [exact C|lia].
      + intros Q _. pose proof (mf_run _ _ _ _ F' Q) as R0. rewrite R0 in T.
        destruct (mg_ok _ _ _ _ _ _ _ _ _ _ _ _ G') as (O1 & O2 & O3).
        assert (Ex : t_x s' = (x' : iv E1)) by (rewrite (mg_x _ _ _ _ _ _ _ _ _ _ _ _ G'); apply last_last).
        assert (RP : 0 < (t_normr s' : R)).
        { rewrite O1, Ex. apply sqrt_lt_R0. unfold dres2 in Z |- *.
          pose proof (ip_pos (isub b (A x'))). pose proof (ip_pos x'). pose proof (Rle_0_sqr d). unfold Rsqr in *. nra. }
        destruct (lm_tests_on late i (inorm b) (t_normA s') (t_condA s') (t_normr s') (t_normar s') (t_normx s') HB) as [T1 T2].
        * exact (mg_nA _ _ _ _ _ _ _ _ _ _ _ _ G').
        * rewrite O3. apply NVP.
        * exact RP.
        * exact T.
        * rewrite O1 in T1, T2, RP. rewrite O2 in T2. split; [exact T1|]. rewrite LB.
          assert (LA : (t_alpha st0 : R) <= t_normA s').
          { eapply Rle_trans; [|exact L2]. rewrite <- (sqrt_square (t_alpha st0)) by exact A1. apply sqrt_le_1_alt. rewrite <- A0. exact A2. }
          apply Rle_lt_trans with (m_atol kw * (t_normA s' * sqrt (dr (t_x s'))) * inorm b).
          -- replace (m_atol kw * (t_alpha st0 * inorm b * sqrt (dr (t_x s')))) with (m_atol kw * (t_alpha st0 * sqrt (dr (t_x s'))) * inorm b) by ring.
             apply Rmult_le_compat_r; [lra|]. apply Rmult_le_compat_l; [exact AT|]. apply Rmult_le_compat_r; [lra|exact LA].
          -- apply Rmult_lt_compat_r; [exact HB|exact T2].
    - exists []. split; [exact G0|]. split; [exact P0|]. split; [exact F0|]. split; [apply Rle_refl|]. cbv zeta.
      split; [intros i x Hx; destruct i; discriminate|]. intros _ Q. contradiction. }
  destruct JJ as (xs & G & _ & _ & _ & K1 & _). exists xs. split; [apply (mg_len _ _ _ _ _ _ _ _ _ _ _ _ G)|].
  split; [|exact K1]. intros i x Hx. destruct (mg_kry _ _ _ _ _ _ _ _ _ _ _ _ G i x Hx) as (Q1 & Q2 & _). auto.
Qed.
End Lsmr.
