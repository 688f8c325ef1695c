(** * LSMR in exact arithmetic: what the condition test (lsmr.py:407-411, 424, 446) does in the first iteration. *)
From Coq Require Import List ZArith QArith Reals Lia Lra Bool.
From Verif Require Import Base Num ToolsModel SpanMath MinresModel MinresProof GkProof LsqrModel LsqrFlow LsqrMath LsqrProof AnormLs
  LsmrModel LsmrFlow LsmrMath LsmrProof.
Import ListNotations.
Local Open Scope R_scope.

Section Exact.
Variables (dv : R -> R -> R) (sq : R -> R).
Hypothesis DV : dv_ok dv.
Hypothesis SQ : sq_ok sq.
Variables E1 E2 : IPS.
Local Notation KK := (exactK dv sq).
Variables (nv1 : iv E1 -> R) (nv2 : iv E2 -> R).
Local Notation WV := (exactVn dv sq E1 nv1).
Local Notation WU := (exactVn dv sq E2 nv2).
Hypothesis NVP : forall x, 0 <= nv1 x.
Hypothesis NVZ : nv1 izero = 0.
Variables (q : lprob WV WU) (kw : lm_kw WV WU) (b : iv E2).
Hypothesis NM : m_M kw = None.
Hypothesis NN : m_N kw = None.
Local Notation A := (lp_A q : iv E1 -> iv E2).
Local Notation At := (lp_At q : iv E2 -> iv E1).
Hypothesis AD : adjoint A At.
Hypothesis HW : (1 <= m_window kw)%nat.
Local Notation d := (m_damp kw : R).
Local Notation lim := (lm_lim q kw).
Local Notation AA := (AtA A At).
Local Notation St := (lm_st WV WU).
Local Notation pre := (lm_pre dv sq E1 E2 nv1 nv2).
Local Notation nr := (nres A At b d).
Local Notation dr := (dres2 A b d).

Lemma cm_tests : forall late i (bn An Ac rn Ar xn : R) j, 0 < Ac -> 0 < (m_conlim kw : R) -> (m_conlim kw : R) <= Ac ->
  @lm_tests KK WV WU kw late i bn An Ac rn Ar xn = Ok j -> (j = 1 \/ j = 2 \/ j = 3)%Z.
Proof.
  intros late i bn An Ac rn Ar xn j HA HC HL H. unfold lm_tests in H.
  destruct (@pydiv KK rn bn) as [t1|]; [|discriminate]. cbn [rbind] in H.
  destruct (@pydiv KK Ar _) as [t2|]; [|discriminate]. cbn [rbind] in H.
  rewrite (ex_div dv sq DV) in H by lra. cbn [rbind] in H. cbv zeta in H.
  rewrite (proj2 (ex_gt dv sq (m_conlim kw)) HC), (ex_div dv sq DV) in H by lra. cbn [rbind] in H.
  assert (T3 : @sleb KK (@s1 KK / Ac) (@s1 KK / m_conlim kw) = true).
  { apply Rleb_true. cbn. unfold Rdiv. rewrite !Rmult_1_l. apply Rinv_le_contravar; assumption. }
  rewrite T3 in H. apply (f_equal (fun r => match r with Ok k => k | Err _ => 0%Z end)) in H. cbv beta iota in H. rewrite <- H. clear H.
  match goal with |- context [if ?c then 1%Z else _] => destruct c end; [auto|].
  match goal with |- context [if ?c then 2%Z else _] => destruct c end; auto.
Qed.

Lemma cm_na : forall (nA2 al be mx mn rht : R) out, 0 <= nA2 -> 0 < mn -> 0 < rht ->
  @lm_na KK 1 nA2 al be mx mn 1 rht = Ok out -> 0 < (snd out : R) /\ 1 / rht <= (snd out : R).
Proof.
  intros nA2 al be mx mn rht out H1 H2 H3 H. unfold lm_na in H. cbv zeta in H.
  change (@sadd KK nA2 (@smul KK be be)) with (nA2 + be * be) in H.
  rewrite (ex_sqrt dv sq SQ) in H by nra. cbn [rbind] in H. change ((1 <? 1)%nat) with false in H. cbv iota in H.
  set (m := @pymin KK mn rht) in H. set (M := @pymax KK (@pymax KK mx (1 : R)) rht) in H.
  assert (M2 : 0 < m /\ m <= rht).
  { unfold m, pymin. destruct (sltb (rht : sc KK) (mn : sc KK)) eqn:L; [split; [exact H3|apply Rle_refl]|]. apply Rltb_false in L. split; assumption. }
  assert (M3 : 1 <= M).
  { apply Rle_trans with (@pymax KK mx (1 : R)).
    - unfold pymax. destruct (sltb (mx : sc KK) ((1 : R) : sc KK)) eqn:L; [apply Rle_refl|]. apply Rltb_false in L. exact L.
    - unfold M. generalize (@pymax KK mx (1 : R)). intro a. unfold pymax. destruct (sltb a (rht : sc KK)) eqn:L; [|apply Rle_refl].
      apply Rltb_true in L. left. exact L. }
  rewrite (ex_div dv sq DV) in H by lra. cbn [rbind] in H. injection H as <-. cbn [snd].
  split; [apply Rdiv_lt_0_compat; lra|].
  unfold Rdiv. apply Rmult_le_compat; [lra| |exact M3|apply Rinv_le_contravar; lra].
  left. apply Rinv_0_lt_compat. exact H3.
Qed.

(** The first iteration in which the loop variables still have the values of lines 238-268. *)
Lemma cm_body : forall (bn : R) (st st' : St) u v, 0 < bn -> pre st u v -> t_itn st = 0%nat -> (t_rhobar st : R) = 1 -> (t_cbar st : R) = 1 ->
  0 < (m_conlim kw : R) ->
  m_conlim kw * m_conlim kw * (t_alphabar st * t_alphabar st + d * d + ip (isub (A v) (iscale (t_alpha st) u)) (isub (A v) (iscale (t_alpha st) u))) <= 1 ->
  @lm_body KK WV WU q kw bn lim st = Ok st' -> (t_istop st' = 1 \/ t_istop st' = 2 \/ t_istop st' = 3)%Z /\ t_brk st' = true.
Proof.
  intros bn st st' u v HB P I0 RB CB HC HS H.
  assert (RHO : (t_rho st' : R) * t_rho st' = t_alphabar st * t_alphabar st + d * d + ip (isub (A v) (iscale (t_alpha st) u)) (isub (A v) (iscale (t_alpha st) u)) /\ 0 < (t_rho st' : R)).
  { destruct (em_body dv sq DV SQ E1 E2 nv1 nv2 NVP q kw NM NN HW bn st u v HB P)
      as (u' & v' & al' & be & r1 & cs1 & sn1 & rho1 & c & s & cb' & sb' & rhob' & ct & sn & rt & Q & N0 & BE & BO).
    destruct (Req_dec (nxt_nr2 dv sq E1 E2 nv1 nv2 st cs1 sn1 c s cb' rhob' ct sn) 0) as [Z0|Z0]; [rewrite (BE Z0) in H; discriminate|].
    destruct (BO Z0) as (st2 & EB2 & O). rewrite H in EB2. injection EB2 as <-.
    rewrite (mo_rho _ _ _ _ _ _ _ _ _ _ _ _ _ _ _ _ _ _ _ _ _ _ _ _ O).
    destruct Q as [q1 q2 q3 q4 q5 q6 q7 q8 q9 _ _ _ _ _ _ _ _ _ _].
    split; [|exact q9]. rewrite <- inorm_sq, <- q1, <- q2, <- q3, <- q7.
    transitivity (r1 * r1 + s * rho1 * (s * rho1)).
    - rewrite <- q6. replace (s * rho1 * (s * rho1)) with (s * s * (rho1 * rho1)) by ring. rewrite q8. ring.
    - replace (sn1 * r1 * (sn1 * r1)) with (sn1 * sn1 * (r1 * r1)) by ring. rewrite q4. ring. }
  destruct RHO as [RHO RP]. rewrite <- RHO in HS.
  destruct P as [P1 P2 P3 P4 P5 P6 P7 P8 P9 P10 P11 P12 P13].
  unfold lm_body in H. cbv zeta in H. rewrite I0 in H.
  destruct (lm_bidiag _ _ _ _ _ _ _) as [[[[[[Mu' v'] Nv'] al'] be] cnt']|]; [|discriminate]. cbn [rbind] in H.
  destruct (lm_rot1 _ _ _ _) as [[[[[[[ch sh] c] s] rho] tn] ab]|]; [|discriminate]. cbn [rbind] in H.
  unfold lm_rot2 in H. cbv zeta in H.
  destruct (symOrtho (smul (t_cbar st) rho) tn) as [[[cb sb] rb]|]; [|discriminate]. cbn [rbind] in H.
  destruct (lm_upx _ _ _ _ _ _ _ _ _ _ _) as [[[x h] hb]|]; [|discriminate]. cbn [rbind] in H.
  destruct (lm_derr _ _ _ _ _ _ _) as [[[[nrg dE] di] i]|]; [|discriminate]. cbn [rbind] in H.
  destruct (lm_nr _ _ _ _ _ _ _ _ _ _ _ _ _ _) as [[[[[[[bdd tt] rd] bd] ta] dd] nr]|]; [|discriminate]. cbn [rbind] in H.
  destruct (lm_na _ _ _ _ _ _ _ _) as [[[[[nA2 nA] mx] mn] cA]|] eqn:EN; [|discriminate]. cbn [rbind] in H.
  destruct (lm_tests _ _ _ _ _ _ _ _ _) as [i'|] eqn:ET; [|discriminate]. cbn [rbind] in H. injection H as <-.
  cbn [t_rho] in RP, HS. cbn [t_istop t_brk].
  rewrite RB, CB in EN. change (0 + 1)%nat with 1%nat in EN.
  change (@smul KK (1 : R) rho) with (1 * (rho : R)) in EN.
  apply cm_na in EN; [|lra|exact P12|lra]. cbn [snd] in EN. destruct EN as [E1' E2'].
  apply cm_tests in ET; [split; [exact ET|apply Z.ltb_lt; lia]|exact E1'|exact HC|].
  apply Rle_trans with (1 / (1 * (rho : R))); [|exact E2'].
  rewrite Rmult_1_l. apply Rmult_le_reg_r with (rho : R); [exact RP|].
  replace (1 / (rho : R) * rho) with 1 by (field; apply Rgt_not_eq; exact RP).
  apply Rnot_lt_le. intro C. apply (Rlt_not_le _ _ (Rmult_le_0_lt_compat 1 (m_conlim kw * rho) 1 (m_conlim kw * rho) ltac:(lra) ltac:(lra) C C)).
  rewrite Rmult_1_l. eapply Rle_trans; [|exact HS]. right.
  match goal with |- ?l = ?r => change (l = r :> R) end. ring.
Qed.

Theorem cm_solve : forall fuel ob cnt, (Z.to_nat lim < fuel)%nat -> At b <> izero -> (1 <= lim)%Z -> 0 < (m_conlim kw : R) ->
  (let g := At b in m_conlim kw * m_conlim kw * (ip (A g) (A g) + d * d * ip g g) <= ip g g) ->
  (exists r ob' cnt', @lm_solve KK WV WU fuel q kw ob b cnt = Ok (r, ob', cnt') /\ r_itn r = 1%nat /\
     (r_istop r = 1 \/ r_istop r = 2 \/ r_istop r = 3)%Z /\ exists t, r_x r = iscale t (At b)) \/
  (@lm_solve KK WV WU fuel q kw ob b cnt = Err ZeroDivisionError /\ d = 0 /\ exists t, A (iscale t (At b)) = b).
Proof.
  intros fuel ob cnt HF NZ HL HC HS. cbv zeta in HS.
  pose proof (adjoint_lin A At AD) as LA. pose proof (adjoint_lin_t A At AD) as LT.
  destruct (em_init dv sq DV SQ E1 E2 nv1 nv2 NVZ q kw b NM NN AD HW cnt NZ) as (st0 & E0 & I0 & B0 & BE & HB & NA & G0 & P0).
  assert (A0 : (t_rhobar st0 : R) = 1 /\ (t_cbar st0 : R) = 1 /\ (t_alphabar st0 : R) = t_alpha st0 /\
     exists c, (t_v st0 : iv E1) = iscale c (At b)).
  { unfold lm_init in E0. rewrite NM, NN in E0. destruct (ex_gk dv sq DV SQ E2 nv2 b) as (u & G1 & G2 & _). rewrite G1 in E0. cbn [rbind] in E0.
    rewrite (proj2 (ex_gt dv sq (inorm b)) HB) in E0.
    destruct (ex_gk dv sq DV SQ E1 nv1 (lp_At q u)) as (v & H1 & H2 & H3). rewrite H1 in E0. cbn [rbind] in E0. cbv zeta in E0.
    pose proof (inorm_pos (lp_At q u : iv E1)) as IP.
    rewrite (ex_sqrt dv sq SQ) in E0 by (cbn; nra). cbn [rbind] in E0.
    injection E0 as <-. cbn [t_normA t_normA2 t_alpha t_normar t_beta t_rhobar t_cbar t_alphabar t_v]. 
    split; [reflexivity|]. split; [reflexivity|]. split; [reflexivity|].
    cbn [t_normar] in NA. cbn in NA.
    assert (IA : 0 < inorm (lp_At q u : iv E1)). { destruct IP as [IP|IP]; [exact IP|]. exfalso. apply NA. rewrite <- IP. ring. }
    exists (1 / inorm (lp_At q u : iv E1) * (1 / inorm b)). rewrite (H2 IA), (G2 HB), (lin_scale At LT).
    apply ip_ext. intro z. ipx. ring. }
  destruct A0 as (RB & CB & AB & c & VC).
  pose proof (proj1 P0 B0) as LV.
  destruct (lm_loop_step dv sq DV SQ E1 E2 nv1 nv2 NVP q kw b NM NN AD HW (inorm b) st0 [] HB G0 LV) as (x' & K1 & K2 & K3 & K4).
  rewrite I0 in K1. destruct K1 as (t & z & KZ & KE). cbn in KZ. subst z.
  assert (XT : x' = iscale t (At b)).
  { rewrite KE. unfold AtA. rewrite (lin_zero A LA), (lin_zero At LT). apply ip_ext. intro z. ipx. ring. }
  assert (C0 : lm_cond lim st0 = true).
  { unfold lm_cond. rewrite B0, I0. cbn [negb andb]. apply Z.ltb_lt. lia. }
  destruct fuel as [|[|fuel]]; [lia|lia|].
  unfold lm_solve. rewrite E0. cbn [rbind]. rewrite BE. cbn [while]. rewrite C0.
  destruct (Req_dec (dr x') 0) as [Z|Z].
  - right. rewrite (K3 Z). cbn [rbind]. destruct (dr_zero dv sq E1 E2 nv1 nv2 q kw b AD x' Z NZ) as [Z1 Z2].
    split; [reflexivity|]. split; [exact Z2|]. exists t. rewrite <- XT. exact Z1.
  - left. destruct (K4 Z) as (st1 & EB & EI & G1 & P1). rewrite EB. cbn [rbind].
    assert (IS : (t_istop st1 = 1 \/ t_istop st1 = 2 \/ t_istop st1 = 3)%Z /\ t_brk st1 = true).
    { destruct LV as (U & V & u & v & xl & tu & te & su & se & xx & cs2 & zs & p & g & gu & ge & P & M).
      pose proof (mi_li _ _ _ _ _ _ _ _ _ _ _ _ _ _ _ _ _ _ _ _ _ _ _ _ _ _ _ _ _ _ _ _ _ _ _ M) as LL.
      pose proof (li_gk _ _ _ _ _ _ _ _ _ _ _ _ _ _ _ _ _ _ _ _ _ _ LL) as G.
      pose proof (an_Av dv sq E1 E2 nv1 nv2 q AD _ _ _ _ _ G) as AV. cbv zeta in AV.
      refine (cm_body (inorm b) st0 st1 u v HB P I0 RB CB HC _ EB).
      pose proof (gk_vv _ _ _ _ _ _ _ G) as VV.
      rewrite (mp_v _ _ _ _ _ _ _ _ _ P) in VC.
      rewrite AB. 
      assert (AVc : ip (A v) (A v) = c * c * ip (A (At b)) (A (At b))) by (rewrite VC, (lin_scale A LA); ipx; ring).
      assert (VVc : c * c * ip (At b) (At b) = 1) by (rewrite <- VV, VC; ipx; ring).
      replace (t_alpha st0 * t_alpha st0 + d * d + ip (isub (A v) (iscale (t_alpha st0) u)) (isub (A v) (iscale (t_alpha st0) u)))
        with (c * c * (ip (A (At b)) (A (At b)) + d * d * ip (At b) (At b))).
      2:{ transitivity (c * c * ip (A (At b)) (A (At b)) + d * d * (c * c * ip (At b) (At b))); [ring|]. rewrite <- AVc, VVc, AV. ring. }
      rewrite <- VVc. apply Rle_trans with (c * c * (m_conlim kw * m_conlim kw * (ip (A (At b)) (A (At b)) + d * d * ip (At b) (At b)))).
      - right. match goal with |- ?l = ?r => change (l = r :> R) end. ring.
      - apply Rmult_le_compat_l; [nra|exact HS]. }
    destruct IS as [IS BK].
    assert (C1 : lm_cond lim st1 = false) by (unfold lm_cond; rewrite BK; reflexivity).
    destruct fuel; cbn [while]; rewrite C1; cbn [rbind]; do 3 eexists; (split; [reflexivity|]); cbn [r_itn r_istop r_x];
      (split; [rewrite EI, I0; reflexivity|]); (split; [exact IS|]); exists t; rewrite <- XT; exact (mg_x _ _ _ _ _ _ _ _ _ _ _ _ G1).
Qed.
End Exact.
