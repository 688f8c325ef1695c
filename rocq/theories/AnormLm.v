(** * LSMR in exact arithmetic: what [normA] (lsmr.py:403-405) is. *)
From Coq Require Import List ZArith QArith Reals Lia Lra Bool.
From Verif Require Import Base Num ToolsModel SpanMath MinresModel MinresProof GkProof LsqrModel LsqrFlow LsqrMath LsqrProof AnormLs
  LsmrModel LsmrFlow LsmrMath LsmrProof.
Import ListNotations.
Local Open Scope R_scope.

Section Exact.
Variables (dv : R -> R -> R) (sq : R -> R).
Hypothesis DV : dv_ok dv.
Hypothesis SQ : sq_ok sq.
Variables E1 E2 : IPS.
Local Notation KK := (exactK dv sq).
Variables (nv1 : iv E1 -> R) (nv2 : iv E2 -> R).
Local Notation WV := (exactVn dv sq E1 nv1).
Local Notation WU := (exactVn dv sq E2 nv2).
Hypothesis NVP : forall x, 0 <= nv1 x.
Hypothesis NVZ : nv1 izero = 0.
Variables (q : lprob WV WU) (kw : lm_kw WV WU) (b : iv E2).
Hypothesis NM : m_M kw = None.
Hypothesis NN : m_N kw = None.
Local Notation A := (lp_A q : iv E1 -> iv E2).
Local Notation At := (lp_At q : iv E2 -> iv E1).
Hypothesis AD : adjoint A At.
Hypothesis HW : (1 <= m_window kw)%nat.
Local Notation d := (m_damp kw : R).
Local Notation lim := (lm_lim q kw).
Local Notation AA := (AtA A At).
Local Notation St := (lm_st WV WU).
Local Notation pre := (lm_pre dv sq E1 E2 nv1 nv2).
Local Notation nlist := (an_list dv sq E1 E2 nv1 nv2 q b).

Lemma am_body : forall (bn : R) (st st' : St) u v, pre st u v -> @lm_body KK WV WU q kw bn lim st = Ok st' ->
  let be := inorm (isub (A v) (iscale (t_alpha st) u)) in
  (t_normA st' * t_normA st' : R) = t_normA2 st + be * be /\
  (t_normA2 st' : R) = t_normA2 st + be * be + t_alpha st' * t_alpha st'.
Proof.
  intros bn st st' u v P H be. destruct P as [P1 P2 P3 P4 P5 P6 P7 P8 P9 P10 P11 P12 P13].
  unfold lm_body in H. cbv zeta in H. rewrite P1, P2, P3 in H.
  destruct (em_bidiag dv sq DV SQ E1 E2 nv1 nv2 q kw NM NN u v (t_alpha st) (t_cnt st)) as (u' & v' & al' & cnt' & B1 & _).
  rewrite B1 in H. cbn [rbind] in H. fold be in H.
  destruct (lm_rot1 _ _ _ _) as [[[[[[[ch sh] c] s] rho] tn] ab]|]; [|discriminate]. cbn [rbind] in H.
  destruct (lm_rot2 _ _ _ _ _) as [[[[[[[tb rt] cb] sb] rb] ze] zb]|]; [|discriminate]. cbn [rbind] in H.
  destruct (lm_upx _ _ _ _ _ _ _ _ _ _ _) as [[[x h] hb]|]; [|discriminate]. cbn [rbind] in H.
  destruct (lm_derr _ _ _ _ _ _ _) as [[[[nrg dE] di] i]|]; [|discriminate]. cbn [rbind] in H.
  destruct (lm_nr _ _ _ _ _ _ _ _ _ _ _ _ _ _) as [[[[[[[bdd tt] rd] bd] ta] dd] nr]|]; [|discriminate]. cbn [rbind] in H.
  destruct (lm_na _ _ _ _ _ _ _ _) as [[[[[nA2 nA] mx] mn] cA]|] eqn:EN; [|discriminate]. cbn [rbind] in H.
  destruct (lm_tests _ _ _ _ _ _ _ _ _) as [i'|]; [|discriminate]. cbn [rbind] in H. injection H as <-.
  cbn [t_normA t_normA2 t_alpha]. unfold lm_na in EN. cbv zeta in EN.
  assert (Q : 0 <= (t_normA2 st : R) + be * be) by nra.
  change (@sadd KK (t_normA2 st) (@smul KK be be)) with ((t_normA2 st : R) + be * be) in EN.
  rewrite (ex_sqrt dv sq SQ) in EN by exact Q. cbn [rbind] in EN.
  destruct (pydiv _ _) as [cA'|]; [|discriminate]. cbn [rbind] in EN. injection EN as <- <- _ _ _.
  split; [apply sqrt_sqrt; exact Q|reflexivity].
Qed.

Definition am_live (st : St) : Prop := exists U V u v xl tu te su se xx cs2 zs p g gu ge,
  pre st u v /\
  MI A At b d (t_itn st) U V u v (t_alpha st) xl (t_h st) tu te su se (t_alphabar st) (t_betadd st) (t_d st)
    xx cs2 zs (t_x st) (t_hbar st) p g gu ge (t_rho st) (t_rhobar st) (t_cbar st) (t_sbar st) (t_zetabar st) (t_rhodold st)
    (lm_X dv sq E1 E2 nv1 nv2 st) /\
  nlist V /\ (t_normA2 st : R) = wsum A V + t_alpha st * t_alpha st.

Definition am_ok (itn : nat) (nA : R) : Prop :=
  (itn = 0%nat /\ nA * inorm b = inorm (At b)) \/
  exists W, nlist W /\ length W = itn /\ (1 <= itn)%nat /\ nA * nA = wsum A W.

Definition am_inv (st : St) : Prop := am_ok (t_itn st) (t_normA st) /\ 0 <= (t_normA st : R) /\ (t_brk st = false -> am_live st).

Lemma am_step : forall bn st, 0 < bn -> am_inv st -> t_brk st = false -> forall st',
  @lm_body KK WV WU q kw bn lim st = Ok st' -> am_inv st'.
Proof.
  intros bn st HB (_ & _ & L) NB st' EB. specialize (L NB).
  destruct L as (U & V & u & v & xl & tu & te & su & se & xx & cs2 & zs & p & g & gu & ge & P & M & KV & EA).
  pose proof (am_body bn st st' u v P EB) as [A1 A2]. cbv zeta in A1, A2.
  destruct (em_body dv sq DV SQ E1 E2 nv1 nv2 NVP q kw NM NN HW bn st u v HB P)
    as (u' & v' & al' & be & r1 & cs1 & sn1 & rho1 & c & s & cb' & sb' & rhob' & ct & sn & rt & Q & N0 & BE & BO).
  destruct (Req_dec (nxt_nr2 dv sq E1 E2 nv1 nv2 st cs1 sn1 c s cb' rhob' ct sn) 0) as [Z0|Z0]; [rewrite (BE Z0) in EB; discriminate|].
  destruct (BO Z0) as (st2 & EB2 & O). rewrite EB in EB2. injection EB2 as <-. clear BE BO.
  pose proof (lv_min dv sq E1 E2 nv1 nv2 q kw b AD st U V u v xl tu te su se xx cs2 zs p g gu ge P M u' v' al' be r1 cs1 sn1 rho1 c s cb' sb' rhob' ct sn rt Q) as [MN MM].
  pose proof (lv_dead dv sq E1 E2 nv1 nv2 q kw b AD st U V u v xl tu te su se xx cs2 zs p g gu ge M u' v' al' be r1 cs1 sn1 rho1 c s cb' sb' rhob' ct sn rt Q) as DE.
  pose proof (lv_next dv sq E1 E2 nv1 nv2 q kw b AD st U V u v xl tu te su se xx cs2 zs p g gu ge P M u' v' al' be r1 cs1 sn1 rho1 c s cb' sb' rhob' ct sn rt Q) as NX.
  pose proof (mi_li _ _ _ _ _ _ _ _ _ _ _ _ _ _ _ _ _ _ _ _ _ _ _ _ _ _ _ _ _ _ _ _ _ _ _ M) as LL.
  pose proof (li_gk _ _ _ _ _ _ _ _ _ _ _ _ _ _ _ _ _ _ _ _ _ _ LL) as G.
  pose proof (an_Av dv sq E1 E2 nv1 nv2 q AD _ _ _ _ _ G) as AV. cbv zeta in AV.
  rewrite <- (inorm_sq (isub (A v) (iscale (t_alpha st) u))) in AV.
  pose proof (li_lenV _ _ _ _ _ _ _ _ _ _ _ _ _ _ _ _ _ _ _ _ _ _ LL) as LV.
  assert (KV' : nlist (v :: V)).
  { destruct KV as [OO K]. split.
    - apply onl_cons; [exact OO|exact (gk_vv _ _ _ _ _ _ _ G)|exact (gk_vV _ _ _ _ _ _ _ G)].
    - intros z [<-|I]; cbn [length].
      + rewrite LV. exact (li_kv _ _ _ _ _ _ _ _ _ _ _ _ _ _ _ _ _ _ _ _ _ _ LL).
      + apply kry_S; [exact (sym_AtA A At AD)|apply K; exact I]. }
  assert (SUM : (t_normA st' * t_normA st' : R) = wsum A (v :: V)).
  { rewrite A1, EA, wsum_cons, AV. match goal with |- ?l = ?r => change (l = r :> R) end. ring. }
  assert (SUM2 : (t_normA2 st' : R) = wsum A (v :: V) + t_alpha st' * t_alpha st').
  { rewrite A2, EA, wsum_cons, AV. match goal with |- ?l = ?r => change (l = r :> R) end. ring. }
  destruct O as [mo_hb0 mo_x0 mo_h0 mo_Mu0 mo_v0 mo_Nv0 mo_al0 mo_rb0 mo_rho0 mo_rhob0 mo_cb0 mo_sb0 mo_zb0 mo_pb0 mo_rhod0 mo_X0 mo_d0
    mo_nrg0 mo_nA0 mo_nA10 mo_mn0 mo_nr0 mo_nar0 mo_nx0 mo_i0 mo_brk0 mo_itn0 mo_stop0 _ _ _ _ _ _].
  split; [|split; [left; exact mo_nA10|]].
  { right. exists (v :: V). split; [exact KV'|]. cbn [length]. split; [lia|]. split; [lia|exact SUM]. }
  intro NB'. destruct (Req_dec (s * al') 0) as [Z|Z].
  { exfalso. destruct (DE Z) as [D1 _]. rewrite <- mo_x0 in D1. rewrite mo_stop0 in NB'; [discriminate|].
    rewrite mo_nar0, mo_zb0, <- MN, <- mo_x0, D1. apply inorm_izero. }
  destruct (NX Z) as (HBe & HAl & HC & HCB & HCT & tu' & te' & su' & se' & xx' & cs2' & zs' & p' & g' & gu' & ge' & M').
  exists (u :: U), (v :: V). do 10 eexists. exists p', g', gu', ge'. split; [|split; [|split; [exact KV'|exact SUM2]]].
  - split.
    + exact mo_Mu0.
    + exact mo_v0.
    + exact mo_Nv0.
    + rewrite mo_rb0. apply Rmult_integral_contrapositive; split; lra.
    + rewrite mo_rho0. exact (mr_rho _ _ _ _ _ _ _ _ _ _ _ _ _ _ _ _ _ _ _ _ _ _ _ _ _ _ _ Q).
    + rewrite mo_rhob0. exact (mr_rhob _ _ _ _ _ _ _ _ _ _ _ _ _ _ _ _ _ _ _ _ _ _ _ _ _ _ _ Q).
    + rewrite mo_cb0. exact HCB.
    + rewrite mo_rhod0. apply Rmult_lt_0_compat; [exact HCT|]. exact (mr_rhob _ _ _ _ _ _ _ _ _ _ _ _ _ _ _ _ _ _ _ _ _ _ _ _ _ _ _ Q).
    + exact mo_nrg0.
    + rewrite mo_d0. unfold nxt_d. pose proof (mp_d _ _ _ _ _ _ _ _ _ P). pose proof (Rle_0_sqr (sn1 * t_betadd st)). unfold Rsqr in *. lra.
    + exact mo_nA0.
    + exact mo_mn0.
    + rewrite mo_brk0 in NB'. apply Z.ltb_ge in NB'. lia.
  - rewrite mo_itn0, mo_al0, mo_rb0, mo_d0, mo_x0, mo_hb0, mo_rho0, mo_rhob0, mo_cb0, mo_sb0, mo_zb0, mo_rhod0, mo_X0, Nat.add_1_r.
    replace (t_betadd st' : R) with (- (s * (cs1 * t_betadd st))) by (rewrite mo_pb0; ring).
    replace (t_h st' : iv E1) with (iadd (iscale (- (s * al') / rho1) (t_h st)) v'); [exact M'|].
    rewrite mo_h0. apply ip_ext. intro z. ipx. pose proof (mr_rho _ _ _ _ _ _ _ _ _ _ _ _ _ _ _ _ _ _ _ _ _ _ _ _ _ _ _ Q). field. lra.
Qed.

Theorem am_solve : forall fuel ob cnt r ob' cnt', At b <> izero -> @lm_solve KK WV WU fuel q kw ob b cnt = Ok (r, ob', cnt') ->
  am_ok (r_itn r) (r_normA r) /\ 0 <= (r_normA r : R).
Proof.
  intros fuel ob cnt r ob' cnt' NZ H.
  destruct (em_init dv sq DV SQ E1 E2 nv1 nv2 NVZ q kw b NM NN AD HW cnt NZ) as (st0 & E0 & I0 & B0 & BE & HB & NA & G0 & P0).
  unfold lm_solve in H. rewrite E0 in H. cbn [rbind] in H.
  destruct (while fuel (lm_cond lim) (lm_body q kw (t_beta st0) lim) st0) as [st|] eqn:W; [|discriminate].
  cbn [rbind] in H. injection H as <- <- <-. cbn [r_itn r_normA].
  assert (A0 : (t_normA st0 * t_normA st0 : R) = t_normA2 st0 /\ (t_normA2 st0 : R) = t_alpha st0 * t_alpha st0 /\
     (t_normar st0 : R) = t_alpha st0 * t_beta st0 /\ 0 <= (t_alpha st0 : R) /\ (t_normA st0 : R) = sqrt (t_alpha st0 * t_alpha st0)).
  { clear W. unfold lm_init in E0. rewrite NM, NN in E0. destruct (ex_gk dv sq DV SQ E2 nv2 b) as (u & G1 & _). rewrite G1 in E0. cbn [rbind] in E0.
    rewrite (proj2 (ex_gt dv sq (inorm b)) HB) in E0.
    destruct (ex_gk dv sq DV SQ E1 nv1 (lp_At q u)) as (v & H1 & _). rewrite H1 in E0. cbn [rbind] in E0. cbv zeta in E0.
    pose proof (inorm_pos (lp_At q u : iv E1)) as IP.
    rewrite (ex_sqrt dv sq SQ) in E0 by (cbn; nra). cbn [rbind] in E0.
    injection E0 as <-. cbn [t_normA t_normA2 t_alpha t_normar t_beta]. 
    split; [apply sqrt_sqrt; cbn; nra|]. split; [reflexivity|]. split; [reflexivity|]. split; [exact IP|reflexivity]. }
  destruct A0 as (S1 & S2 & S3 & S4 & S5).
  assert (J0 : am_inv st0).
  { split; [|split; [rewrite S5; apply sqrt_pos|]].
    - left. split; [exact I0|]. rewrite S5, sqrt_square by exact S4.
      destruct (mg_ok _ _ _ _ _ _ _ _ _ _ _ _ G0) as (_ & O2 & _). rewrite S3, BE in O2.
      pose proof (mg_x _ _ _ _ _ _ _ _ _ _ _ _ G0) as X0. cbn [last] in X0. rewrite X0 in O2.
      etransitivity; [exact O2|]. f_equal. unfold nres. rewrite (lin_zero A (adjoint_lin A At AD)).
      apply ip_ext. intro z. ipx. rewrite !(ip_At A At AD). ipx. ring.
    - intros _. destruct P0 as [PL _]. specialize (PL B0).
      destruct PL as (U & V & u & v & xl & tu & te & su & se & xx & cs2 & zs & p & g & gu & ge & P & M).
      pose proof (li_lenV _ _ _ _ _ _ _ _ _ _ _ _ _ _ _ _ _ _ _ _ _ _ (mi_li _ _ _ _ _ _ _ _ _ _ _ _ _ _ _ _ _ _ _ _ _ _ _ _ _ _ _ _ _ _ _ _ _ _ _ M)) as LV.
      rewrite I0 in LV. destruct V; [|discriminate].
      exists U, [], u, v, xl, tu, te, su, se, xx, cs2, zs, p, g, gu, ge. split; [exact P|]. split; [exact M|].
      split; [split; [apply onl_nil|intros w []]|]. rewrite S2. unfold wsum, rsum. cbn [map fold_right].
      match goal with |- ?l = ?r => change (l = r :> R) end. ring. }
  apply while_inv with (I := am_inv) in W; [destruct W as [(W1 & W2 & _) _]; split; assumption| |exact J0].
  intros s s' I C EB. unfold lm_cond in C. apply andb_prop in C as [C _]. apply negb_true_iff in C.
  exact (am_step (t_beta st0) s ltac:(rewrite BE; exact HB) I C s' EB).
Qed.
End Exact.
