(** * Proofs about the LSMR model: exact arithmetic. *)
From Coq Require Import List ZArith QArith Qreals Reals Lia Lra Bool.
From Verif Require Import Base Num SpanMath ToolsModel ToolsProof MinresModel MinresProof GkProof LsqrModel LsqrFlow LsqrMath LsqrProof
  LsmrModel LsmrFlow LsmrMath.
Import ListNotations.
Local Open Scope R_scope.

(** A failing loop fails in some reachable state. *)
Lemma while_err : forall {St : Type} (c : St -> bool) (body : St -> res St) (I : St -> Prop),
  (forall s s', I s -> c s = true -> body s = Ok s' -> I s') ->
  forall fuel s e, I s -> while fuel c body s = Err e -> e <> EFuel ->
  exists s', I s' /\ c s' = true /\ body s' = Err e.
Proof.
  intros St c body I HI. induction fuel as [|f IH]; intros s e Is H N; cbn in H; [congruence|].
  destruct (c s) eqn:C; [|discriminate].
  destruct (body s) as [s'|e'] eqn:B.
  - apply (IH s' e); [apply (HI s s' Is C B)|exact H|exact N].
  - injection H as ->. eauto.
Qed.

Section Exact.
Variables (dv : R -> R -> R) (sq : R -> R).
Hypothesis DV : dv_ok dv.
Hypothesis SQ : sq_ok sq.
Local Notation KK := (exactK dv sq).

Lemma so_rot : forall a b : R, exists c s r : R, @symOrtho KK a b = Ok (c, s, r) /\
  c * r = a /\ s * r = b /\ s * s = 1 - c * c /\ 0 <= r /\ (a <> 0 \/ b <> 0 -> 0 < r) /\ r * r = a * a + b * b.
Proof.
  intros a b. destruct (symOrtho_spec dv sq DV SQ a b) as (c & s & r & E & H1 & H2 & H3 & H4).
  exists c, s, r. split; [exact E|].
  split. { rewrite <- H2. transitivity (c * c * a + s * (c * b)); [ring|]. replace (c * b) with (s * a) by lra.
    transitivity ((c * c + s * s) * a); [ring|]. rewrite H1. ring. }
  split. { rewrite <- H2. transitivity (s * s * b + c * (s * a)); [ring|]. replace (s * a) with (c * b) by lra.
    transitivity ((c * c + s * s) * b); [ring|]. rewrite H1. ring. }
  split; [lra|]. rewrite H4. split; [apply sqrt_pos|]. split; [apply norm2_pos|apply norm2_sq].
Qed.

Variables E1 E2 : IPS.
Variables (nv1 : iv E1 -> R) (nv2 : iv E2 -> R).
Hypothesis NVP : forall z, 0 <= nv1 z.
Hypothesis NVZ : nv1 izero = 0.
Local Notation WV := (exactVn dv sq E1 nv1).
Local Notation WU := (exactVn dv sq E2 nv2).
Variables (q : lprob WV WU) (kw : lm_kw WV WU) (b : iv E2).
Hypothesis NM : m_M kw = None.
Hypothesis NN : m_N kw = None.
Local Notation A := (lp_A q : iv E1 -> iv E2).
Local Notation At := (lp_At q : iv E2 -> iv E1).
Hypothesis AD : adjoint A At.
Hypothesis HW : (1 <= m_window kw)%nat.
Local Notation d := (m_damp kw : R).
Local Notation lim := (lm_lim q kw).
Local Notation dr := (dres2 A b d).
Local Notation nr := (nres A At b d).
Local Notation AA := (AtA A At).

(** ** Components. *)
Lemma em_bidiag : forall (u : iv E2) (v : iv E1) (al : R) cnt,
  let y := isub (A v) (iscale al u) in
  let be := inorm y in
  exists u' v' al' cnt',
    @lm_bidiag KK WV WU q kw u v (Some v) al cnt = Ok (u', v', Some v', al', be, cnt') /\
    (be = 0 -> v' = v /\ al' = al /\ u' = y) /\
    (0 < be -> u' = iscale (1 / be) y /\
       let z := isub (At u') (iscale be v) in
       al' = inorm z /\ (0 < al' -> v' = iscale (1 / al') z) /\ (al' = 0 -> v' = z)).
Proof.
  intros u v al cnt y be. unfold lm_bidiag. cbv zeta.
  change (@vsub KK WU (lp_A q v) (@vscale KK WU al u)) with y.
  rewrite NM. destruct (ex_gk dv sq DV SQ E2 nv2 y) as (u' & G1 & G2 & G3).
  rewrite G1. cbn [rbind]. fold be in G2, G3.
  change (inorm y) with be.
  destruct (@sgtb KK be (@s0 KK)) eqn:EB.
  - apply ex_gt in EB.
    rewrite NN. destruct (ex_gk dv sq DV SQ E1 nv1 (@vsub KK WV (lp_At q u') (@vscale KK WV be v))) as (v' & H1 & H2 & H3).
    rewrite H1. cbn [rbind]. eexists _, _, _, _. split; [reflexivity|]. split; [intro; lra|].
    intros _. split; [exact (G2 EB)|]. cbv zeta. split; [reflexivity|]. split; [exact H2|exact H3].
  - apply ex_gtf in EB. eexists _, _, _, _. split; [reflexivity|].
    split; [auto 10|]. intro; lra.
Qed.

Lemma em_upx : forall (x h hb v : iv E1) (thb rho rhoo rhbo ze rhb thn : R), rhoo * rhbo <> 0 -> rho * rhb <> 0 -> rho <> 0 ->
  @lm_upx KK WV x h hb v thb rho rhoo rhbo ze rhb thn =
    let hb' := isub h (iscale (thb * rho / (rhoo * rhbo)) hb) in
    Ok (iadd x (iscale (ze / (rho * rhb)) hb'), isub v (iscale (thn / rho) h), hb').
Proof.
  intros. unfold lm_upx. rewrite (ex_div dv sq DV) by assumption. cbn [rbind].
  rewrite (ex_div dv sq DV) by assumption. cbn [rbind]. rewrite (ex_div dv sq DV) by assumption. reflexivity.
Qed.

Lemma em_derr : forall itn (ze nrg2 : R) (dE di : list R) i, 0 <= nrg2 -> i = 0%Z -> exists dE' di' i',
  @lm_derr KK WV WU kw itn ze nrg2 dE di i = Ok (nrg2 + ze * ze, dE', di', i') /\ (i' = 0 \/ i' = 8)%Z /\
  (m_etol kw = 0 -> (forall l, 0 <= m_lnorm kw l) -> i' = i).
Proof.
  intros itn ze nrg2 dE di i Hn Hi. unfold lm_derr. cbv zeta.
  destruct (Nat.eqb_spec (m_window kw) 0) as [Z|Z]; [lia|].
  destruct (m_window kw <? itn)%nat.
  - change (@sadd KK nrg2 (@smul KK ze ze)) with (nrg2 + ze * ze).
    rewrite (ex_sqrt dv sq SQ) by nra. cbn [rbind].
    eexists _, _, _. split; [reflexivity|]. split; [destruct (sltb _ _); lia|].
    intros Z1 Z2. match goal with |- context [sltb ?x ?y] => replace (sltb x y) with false; [reflexivity|] end.
    symmetry. apply Rltb_false. rewrite Z1. cbn. rewrite Rmult_0_l. apply Z2.
  - eexists _, _, _. split; [reflexivity|split; [left; exact Hi|reflexivity]].
Qed.

Lemma em_na : forall itn (nA2 al be mx mn rhbo rht : R), 0 < nA2 -> 0 < mn -> 0 < rhbo -> 0 < rht ->
  exists mx' mn' cA, @lm_na KK itn nA2 al be mx mn rhbo rht =
    Ok (nA2 + be * be + al * al, sqrt (nA2 + be * be), mx', mn', cA) /\ 0 < mn' /\ 0 < cA /\ 0 < sqrt (nA2 + be * be).
Proof.
  intros itn nA2 al be mx mn rhbo rht H1 H2 H3 H4. unfold lm_na. cbv zeta.
  change (@sadd KK nA2 (@smul KK be be)) with (nA2 + be * be).
  rewrite (ex_sqrt dv sq SQ) by nra. cbn [rbind].
  set (mn' := if (1 <? itn)%nat then @pymin KK mn rhbo else mn).
  assert (M1 : 0 < mn'). { unfold mn', pymin. destruct (1 <? itn)%nat; [|exact H2]. destruct (sltb _ _); assumption. }
  assert (M2 : 0 < @pymin KK mn' rht). { unfold pymin. destruct (sltb _ _); assumption. }
  assert (M3 : forall a, 0 < @pymax KK a rht).
  { intro a. unfold pymax. destruct (sltb (a : sc KK) (rht : sc KK)) eqn:L; [exact H4|]. apply Rltb_false in L. lra. }
  rewrite (ex_div dv sq DV) by (apply Rgt_not_eq; exact M2). cbn [rbind].
  eexists _, _, _. split; [reflexivity|]. split; [exact M1|].
  split; [apply Rdiv_lt_0_compat; [apply M3|exact M2]|]. apply sqrt_lt_R0. nra.
Qed.

Lemma em_tests : forall late i (bn An Ac rn Ar xn : R), 0 < bn -> 0 < An -> 0 < Ac -> 0 <= rn -> 0 <= Ar -> 0 <= xn -> (i = 0 \/ i = 8)%Z ->
  (rn = 0 -> @lm_tests KK WV WU kw late i bn An Ac rn Ar xn = Err ZeroDivisionError) /\
  (rn <> 0 -> exists r, @lm_tests KK WV WU kw late i bn An Ac rn Ar xn = Ok r /\ (0 <= r)%Z /\ (Ar = 0 -> (0 < r)%Z) /\
     (r = 1%Z -> rn <= m_btol kw * bn + m_atol kw * An * xn) /\
     (r = 2%Z -> Ar <= m_atol kw * (An * rn)) /\
     (m_atol kw = 0 -> m_btol kw = 0 -> m_conlim kw = 0 -> Ar <> 0 -> r = if late then 7%Z else i)).
Proof.
  intros late i bn An Ac rn Ar xn HB HA HC HR HAr HX HI. unfold lm_tests.
  rewrite (ex_div dv sq DV rn bn) by lra. cbn [rbind]. split.
  - intros ->. unfold pydiv at 1.
    replace (seqb (@smul KK An 0) (@s0 KK)) with true; [reflexivity|]. symmetry. apply Reqb_true. cbn. ring.
  - intro RN. assert (PA : 0 < An * rn) by (apply Rmult_lt_0_compat; lra).
    rewrite (ex_div dv sq DV Ar) by (cbn; lra). cbn [rbind].
    rewrite (ex_div dv sq DV) by lra. cbn [rbind]. cbv zeta.
    assert (CT : exists ct : R, (if @sgtb KK (m_conlim kw) (@s0 KK) then @pydiv KK (@s1 KK) (m_conlim kw) else Ok (@s0 KK)) = Ok ct /\
      (m_conlim kw = 0 -> ct = 0)).
    { destruct (@sgtb KK (m_conlim kw) (@s0 KK)) eqn:G.
      - apply ex_gt in G. rewrite (ex_div dv sq DV) by lra. eexists. split; [reflexivity|]. intro Z. lra.
      - eexists. split; [reflexivity|]. reflexivity. }
    destruct CT as (ct & CT & CT0). rewrite CT. cbn [rbind]. eexists. split; [reflexivity|].
    set (t1 := @sdiv KK (rn / bn) (@sadd KK (@s1 KK) (@sdiv KK (@smul KK An xn) bn))).
    assert (Q : 0 <= An * xn / bn). { unfold Rdiv. apply Rmult_le_pos; [nra|]. left. apply Rinv_0_lt_compat. exact HB. }
    assert (T1 : 0 < (t1 : R)).
    { unfold t1. cbn. rewrite (DV (An * xn) bn) by lra. rewrite DV by lra.
      apply Rdiv_lt_0_compat; [apply Rdiv_lt_0_compat; lra|lra]. }
    assert (B6 : sleb (@sadd KK (@s1 KK) (@s1 KK / Ac)) (@s1 KK) = false).
    { apply Rleb_false. cbn. assert (0 < 1 / Ac) by (apply Rdiv_lt_0_compat; lra). lra. }
    assert (B4 : sleb (@sadd KK (@s1 KK) t1) (@s1 KK) = false).
    { apply Rleb_false. cbn. cbn in T1. lra. }
    assert (B5 : Ar = 0 -> sleb (@sadd KK (@s1 KK) (Ar / @smul KK An rn)) (@s1 KK) = true).
    { intros ->. apply Rleb_true. cbn. unfold Rdiv. rewrite Rmult_0_l. lra. }
    assert (B5' : Ar <> 0 -> sleb (@sadd KK (@s1 KK) (Ar / @smul KK An rn)) (@s1 KK) = false).
    { intro N. apply Rleb_false. cbn. assert (0 < Ar / (An * rn)) by (apply Rdiv_lt_0_compat; lra). lra. }
    rewrite B6, B4.
    match goal with |- context [sleb (rn / bn : sc KK) ?r] => set (rtol := r); destruct (sleb (rn / bn : sc KK) rtol) eqn:C1 end.
    + apply Rleb_true in C1. unfold rtol in C1. cbn in C1. rewrite DV in C1 by lra.
      assert (R1 : rn <= m_btol kw * bn + m_atol kw * An * xn).
      { apply Rmult_le_compat_r with (r := bn) in C1; [|lra].
        replace (rn / bn * bn) with rn in C1 by (field; lra).
        replace ((m_btol kw + m_atol kw * An * xn / bn) * bn) with (m_btol kw * bn + m_atol kw * An * xn) in C1 by (field; lra).
        exact C1. }
      split; [lia|]. split; [lia|]. split; [intros _; exact R1|]. split; [lia|].
      intros Z1 Z2 _ _. exfalso. rewrite Z1, Z2 in R1. lra.
    + destruct (sleb (Ar / @smul KK An rn : sc KK) (m_atol kw)) eqn:C2.
      * apply Rleb_true in C2. change (Ar / (An * rn) <= m_atol kw) in C2.
        split; [lia|]. split; [lia|]. split; [lia|]. split.
        -- intros _. apply Rmult_le_compat_r with (r := An * rn) in C2; [|lra].
           replace (Ar / (An * rn) * (An * rn)) with Ar in C2 by (field; lra). exact C2.
        -- intros Z1 _ _ N. exfalso. rewrite Z1 in C2. assert (0 < Ar / (An * rn)) by (apply Rdiv_lt_0_compat; lra). lra.
      * destruct (sleb (@s1 KK / Ac : sc KK) ct) eqn:C3.
        -- split; [lia|]. split; [lia|]. split; [lia|]. split; [lia|].
           intros _ _ Z _. exfalso. rewrite (CT0 Z) in C3. apply Rleb_true in C3.
           assert (0 < 1 / Ac) by (apply Rdiv_lt_0_compat; lra). cbn in C3. lra.
        -- destruct (Req_dec Ar 0) as [Z|N].
           ++ rewrite (B5 Z). split; [lia|]. split; [lia|]. split; [lia|]. split; [lia|]. intros; contradiction.
           ++ rewrite (B5' N). split; [destruct late; lia|]. split; [intro; contradiction|].
              split; [destruct late; lia|]. split; [destruct late; lia|]. reflexivity.
Qed.

(** ** One iteration of the model. *)
Record lm_pre (st : lm_st WV WU) (u : iv E2) (v : iv E1) : Prop := {
  mp_Mu : t_Mu st = u; mp_v : t_v st = v; mp_Nv : t_Nv st = Some v;
  mp_rb : (t_alphabar st : R) <> 0;
  mp_rho : 0 < (t_rho st : R); mp_rhob : 0 < (t_rhobar st : R); mp_cb : 0 < (t_cbar st : R); mp_rhod : 0 < (t_rhodold st : R);
  mp_nrg : 0 <= (t_nrg2 st : R); mp_d : 0 <= (t_d st : R); mp_nA : 0 < (t_normA2 st : R); mp_mn : 0 < (t_minrbar st : R);
  mp_i : t_istop st = 0%Z }.

(** [betad - taud]. *)
Definition lm_X (st : lm_st WV WU) : R :=
  (t_betad st : R) - ((t_zeta st : R) - t_thetil st * t_tautil st) / t_rhodold st.

(** The scalars of an iteration and the relations between them. *)
Record mrel (st : lm_st WV WU) (u : iv E2) (v : iv E1) (u' : iv E2) (v' : iv E1)
  (al' be r1 cs1 sn1 rho1 c s cb' sb' rhob' ct sn rt : R) : Prop := {
  mr_be : be = inorm (isub (A v) (iscale (t_alpha st) u));
  mr_c1 : cs1 * r1 = t_alphabar st; mr_s1 : sn1 * r1 = d; mr_1 : sn1 * sn1 = 1 - cs1 * cs1; mr_r1 : 0 < r1;
  mr_c : c * rho1 = r1; mr_s : s * rho1 = be; mr_2 : s * s = 1 - c * c; mr_rho : 0 < rho1;
  mr_cb : cb' * rhob' = t_cbar st * rho1; mr_sb : sb' * rhob' = s * al'; mr_3 : sb' * sb' = 1 - cb' * cb'; mr_rhob : 0 < rhob';
  mr_ct : ct * rt = t_rhodold st; mr_st : sn * rt = t_sbar st * rho1; mr_4 : sn * sn = 1 - ct * ct; mr_rt : 0 < rt;
  mr_be0 : be = 0 -> v' = v /\ al' = t_alpha st;
  mr_bep : 0 < be -> u' = iscale (1 / be) (isub (A v) (iscale (t_alpha st) u)) /\
       let z := isub (At u') (iscale be v) in
       al' = inorm z /\ (0 < al' -> v' = iscale (1 / al') z) }.

Definition nxt_hb (st : lm_st WV WU) (rho1 : R) : iv E1 :=
  isub (t_h st) (iscale (t_sbar st * rho1 * rho1 / (t_rho st * t_rhobar st)) (t_hbar st)).
Definition nxt_x (st : lm_st WV WU) (rho1 cb' rhob' : R) : iv E1 :=
  iadd (t_x st) (iscale (cb' * t_zetabar st / (rho1 * rhob')) (nxt_hb st rho1)).
Definition nxt_X (st : lm_st WV WU) (cs1 c cb' rhob' ct sn : R) : R :=
  - sn * lm_X st + ct * (c * (cs1 * t_betadd st)) - cb' * t_zetabar st / (ct * rhob').
Definition nxt_d (st : lm_st WV WU) (sn1 : R) : R := t_d st + sn1 * t_betadd st * (sn1 * t_betadd st).
Definition nxt_nr2 (st : lm_st WV WU) (cs1 sn1 c s cb' rhob' ct sn : R) : R :=
  nxt_d st sn1 + nxt_X st cs1 c cb' rhob' ct sn * nxt_X st cs1 c cb' rhob' ct sn + s * (cs1 * t_betadd st) * (s * (cs1 * t_betadd st)).

Record mout (bn : R) (st st' : lm_st WV WU) (u' : iv E2) (v' : iv E1)
  (al' cs1 sn1 rho1 c s cb' sb' rhob' ct sn : R) : Prop := {
  mo_hb : (t_hbar st' : iv E1) = nxt_hb st rho1;
  mo_x : (t_x st' : iv E1) = nxt_x st rho1 cb' rhob';
  mo_h : (t_h st' : iv E1) = isub v' (iscale (s * al' / rho1) (t_h st));
  mo_Mu : t_Mu st' = u'; mo_v : t_v st' = v'; mo_Nv : t_Nv st' = Some v';
  mo_al : (t_alpha st' : R) = al'; mo_rb : (t_alphabar st' : R) = c * al';
  mo_rho : (t_rho st' : R) = rho1; mo_rhob : (t_rhobar st' : R) = rhob'; mo_cb : (t_cbar st' : R) = cb'; mo_sb : (t_sbar st' : R) = sb';
  mo_zb : (t_zetabar st' : R) = - sb' * t_zetabar st;
  mo_pb : (t_betadd st' : R) = - s * (cs1 * t_betadd st);
  mo_rhod : (t_rhodold st' : R) = ct * rhob';
  mo_X : lm_X st' = nxt_X st cs1 c cb' rhob' ct sn;
  mo_d : (t_d st' : R) = nxt_d st sn1;
  mo_nrg : 0 <= (t_nrg2 st' : R); mo_nA : 0 < (t_normA2 st' : R); mo_nA1 : 0 < (t_normA st' : R); mo_mn : 0 < (t_minrbar st' : R);
  mo_nr : (t_normr st' : R) = sqrt (nxt_nr2 st cs1 sn1 c s cb' rhob' ct sn);
  mo_nar : (t_normar st' : R) = Rabs (t_zetabar st'); mo_nx : (t_normx st' : R) = nv1 (t_x st' : iv E1);
  mo_i : (0 <= t_istop st')%Z; mo_brk : t_brk st' = (0 <? t_istop st')%Z; mo_itn : t_itn st' = (t_itn st + 1)%nat;
  mo_stop : (t_normar st' : R) = 0 -> t_brk st' = true;
  mo_t1 : t_istop st' = 1%Z -> (t_normr st' : R) <= m_btol kw * bn + m_atol kw * t_normA st' * t_normx st';
  mo_t2 : t_istop st' = 2%Z -> (t_normar st' : R) <= m_atol kw * (t_normA st' * t_normr st');
  mo_t0 : (m_atol kw : R) = 0 -> (m_btol kw : R) = 0 -> (m_conlim kw : R) = 0 -> (m_etol kw : R) = 0 -> (forall l, 0 <= (m_lnorm kw l : R)) ->
    (t_normar st' : R) <> 0 -> (Z.of_nat (t_itn st') < lim)%Z -> t_istop st' = 0%Z;
  mo_resids : t_resids st' = if m_sres kw then t_resids st ++ [t_normr st'] else t_resids st;
  mo_nresids : t_nresids st' = if m_sres kw then t_nresids st ++ [t_normar st'] else t_nresids st;
  mo_iters : t_iters st' = if m_sit kw then t_iters st ++ [t_x st'] else t_iters st }.

Lemma em_body : forall (bn : R) (st : lm_st WV WU) u v, 0 < bn -> lm_pre st u v ->
  exists u' v' al' be r1 cs1 sn1 rho1 c s cb' sb' rhob' ct sn rt,
  mrel st u v u' v' al' be r1 cs1 sn1 rho1 c s cb' sb' rhob' ct sn rt /\
  let n2 := nxt_nr2 st cs1 sn1 c s cb' rhob' ct sn in
  0 <= n2 /\
  (n2 = 0 -> @lm_body KK WV WU q kw bn lim st = Err ZeroDivisionError) /\
  (n2 <> 0 -> exists st', @lm_body KK WV WU q kw bn lim st = Ok st' /\
     mout bn st st' u' v' al' cs1 sn1 rho1 c s cb' sb' rhob' ct sn).
Proof.
  intros bn st u v HB [P1 P2 P3 P4 P5 P6 P7 P8 P9 P10 P11 P12 P13].
  destruct (em_bidiag u v (t_alpha st) (t_cnt st)) as (u' & v' & al' & cnt' & B1 & B2 & B3).
  cbv zeta in B1, B2, B3. set (y := isub (A v) (iscale (t_alpha st) u)) in *. set (be := inorm y) in *.
  destruct (so_rot (t_alphabar st) d) as (cs1 & sn1 & r1 & S1 & S2 & S3 & S4 & S5 & S6 & _).
  specialize (S6 (or_introl P4)).
  destruct (so_rot r1 be) as (c & s & rho1 & Q1 & Q2 & Q3 & Q4 & Q5 & Q6 & _).
  specialize (Q6 ltac:(left; lra)).
  assert (PCR : 0 < t_cbar st * rho1) by (apply Rmult_lt_0_compat; assumption).
  destruct (so_rot (t_cbar st * rho1) (s * al')) as (cb' & sb' & rhob' & T1 & T2 & T3 & T4 & T5 & T6 & _).
  specialize (T6 ltac:(left; lra)).
  destruct (so_rot (t_rhodold st) (t_sbar st * rho1)) as (ct & sn & rt & U1 & U2 & U3 & U4 & U5 & U6 & _).
  specialize (U6 ltac:(left; lra)).
  assert (CT : 0 < ct) by (apply Rmult_lt_reg_r with rt; [exact U6|]; rewrite U2, Rmult_0_l; exact P8).
  assert (RD : 0 < ct * rhob') by (apply Rmult_lt_0_compat; assumption).
  exists u', v', al', be, r1, cs1, sn1, rho1, c, s, cb', sb', rhob', ct, sn, rt.
  split. { split; try assumption; try reflexivity.
    - intro Z. destruct (B2 Z) as (F1 & F2 & _). auto.
    - intro Z. destruct (B3 Z) as (F1 & F2 & F3 & _). auto. }
  cbv zeta. set (n2 := nxt_nr2 st cs1 sn1 c s cb' rhob' ct sn).
  assert (DN : 0 <= nxt_d st sn1) by (unfold nxt_d; pose proof (Rle_0_sqr (sn1 * t_betadd st)); unfold Rsqr in *; lra).
  assert (N0 : 0 <= n2).
  { unfold n2, nxt_nr2. pose proof (Rle_0_sqr (nxt_X st cs1 c cb' rhob' ct sn)). pose proof (Rle_0_sqr (s * (cs1 * t_betadd st))). unfold Rsqr in *. lra. }
  split; [exact N0|].
  unfold lm_body. cbv zeta. rewrite P1, P2, P3, B1. cbn [rbind].
  unfold lm_rot1. rewrite S1. cbn [rbind]. rewrite Q1. cbn [rbind].
  unfold lm_rot2. cbv zeta.
  change (@smul KK (t_cbar st) rho1) with (t_cbar st * rho1). change (@smul KK s al') with (s * al'). rewrite T1. cbn [rbind].
  rewrite em_upx; [|apply Rgt_not_eq, Rmult_lt_0_compat; assumption|apply Rgt_not_eq, Rmult_lt_0_compat; assumption|lra].
  cbn [rbind]. cbv zeta.
  destruct (em_derr (t_itn st + 1) (cb' * t_zetabar st) (t_nrg2 st) (t_dErr st) (t_dirs st) (t_istop st) P9 P13)
    as (dE & di & i1 & D1 & D2 & D3).
  change (@smul KK cb' (t_zetabar st)) with (cb' * t_zetabar st).
  rewrite D1. cbn [rbind].
  unfold lm_nr. cbv zeta.
  change (@smul KK (t_sbar st) rho1) with (t_sbar st * rho1). rewrite U1. cbn [rbind].
  rewrite (ex_div dv sq DV _ rt) by lra. cbn [rbind].
  change (@smul KK ct rhob') with (ct * rhob').
  rewrite (ex_div dv sq DV _ (ct * rhob')) by lra. cbn [rbind].
  match goal with |- context [@pysqrt KK ?t] => assert (NT : t = n2) end.
  { unfold n2, nxt_nr2, nxt_X, nxt_d, lm_X. cbn. rewrite <- U2. field. lra. }
  rewrite NT. rewrite (ex_sqrt dv sq SQ n2 N0). cbn [rbind].
  destruct (em_na (t_itn st + 1) (t_normA2 st) al' be (t_maxrbar st) (t_minrbar st) (t_rhobar st) (t_cbar st * rho1) P11 P12 P6 PCR)
    as (mx & mn & cA & NA1 & NA2 & NA3 & NA4).
  rewrite NA1. cbn [rbind].
  match goal with |- context [@lm_tests KK _ _ _ ?a1 ?a2 ?a3 ?a4 ?a5 ?a6 ?a7 ?a8] =>
    destruct (em_tests a1 a2 a3 a4 a5 a6 a7 a8 HB NA4 NA3 (sqrt_pos _) (Rabs_pos _) (NVP _) D2) as (TE & TO) end.
  split.
  - intro Z. rewrite TE; [reflexivity|]. rewrite Z. apply sqrt_0.
  - intro Z. destruct TO as (r & TO & R0 & RS & R1 & R2 & R7).
    { intro Q. apply sqrt_eq_0 in Q; [contradiction|exact N0]. }
    rewrite TO. cbn [rbind]. eexists. split; [reflexivity|].
    split; cbn [t_x t_Mu t_v t_Nv t_h t_hbar t_alpha t_beta t_alphabar t_rho t_rhobar t_cbar t_sbar t_zetabar t_zeta t_betadd
      t_betad t_rhodold t_tautil t_thetil t_d t_normA2 t_normA t_maxrbar t_minrbar t_normr t_normar t_normx t_nrg2 t_istop t_itn
      t_brk t_resids t_nresids t_iters]; try reflexivity.
    + unfold lm_X, nxt_X. cbn [t_betad t_zeta t_thetil t_tautil t_rhodold]. cbn. unfold lm_X. rewrite <- U2. field. lra.
    + unfold nxt_d. cbn. ring.
    + change (0 <= (t_nrg2 st : R) + cb' * t_zetabar st * (cb' * t_zetabar st)). pose proof (Rle_0_sqr (cb' * t_zetabar st)). unfold Rsqr in *. lra.
    + pose proof (Rle_0_sqr be). pose proof (Rle_0_sqr al'). unfold Rsqr in *. lra.
    + exact NA4.
    + exact NA2.
    + exact R0.
    + intro Q. apply Z.ltb_lt. apply RS. exact Q.
    + exact R1.
    + exact R2.
    + intros Z1 Z2 Z3 Z4 Z5 Q L. rewrite (R7 Z1 Z2 Z3 Q).
      replace (lim <=? Z.of_nat (t_itn st + 1))%Z with false by (symmetry; apply Z.leb_gt; exact L).
      rewrite (D3 Z4 Z5). exact P13.
Qed.

(** ** The invariant of the loop, as long as the bidiagonalization has not broken down. *)
Section Live.
Variables (st : lm_st WV WU) (U : list (iv E2)) (V : list (iv E1)) (u : iv E2) (v xl : iv E1)
  (tu : iv E2) (te : iv E1) (su : iv E2) (se : iv E1) (xx cs2 zs : R) (p g : iv E1) (gu : iv E2) (ge : iv E1).
Hypothesis P : lm_pre st u v.
Hypothesis M : MI A At b d (t_itn st) U V u v (t_alpha st) xl (t_h st) tu te su se (t_alphabar st) (t_betadd st) (t_d st)
  xx cs2 zs (t_x st) (t_hbar st) p g gu ge (t_rho st) (t_rhobar st) (t_cbar st) (t_sbar st) (t_zetabar st) (t_rhodold st) (lm_X st).
Variables (u' : iv E2) (v' : iv E1) (al' be r1 cs1 sn1 rho1 c s cb' sb' rhob' ct sn rt : R).
Hypothesis Q : mrel st u v u' v' al' be r1 cs1 sn1 rho1 c s cb' sb' rhob' ct sn rt.
Let y := isub (A v) (iscale (t_alpha st) u).
Let x' := nxt_x st rho1 cb' rhob'.
Let bh := c * (cs1 * t_betadd st).
Let tt := bh / rho1.
Let I := mi_li _ _ _ _ _ _ _ _ _ _ _ _ _ _ _ _ _ _ _ _ _ _ _ _ _ _ _ _ _ _ _ _ _ _ _ M.
Let G := li_gk _ _ _ _ _ _ _ _ _ _ _ _ _ _ _ _ _ _ _ _ _ _ I.

Lemma lv_cases : be = 0 \/ 0 < be.
Proof. rewrite (mr_be _ _ _ _ _ _ _ _ _ _ _ _ _ _ _ _ _ _ _ Q). pose proof (inorm_pos y). fold y. lra. Qed.

Lemma lv_be2 : be * be = ip y y.
Proof. rewrite (mr_be _ _ _ _ _ _ _ _ _ _ _ _ _ _ _ _ _ _ _ Q). apply inorm_sq. Qed.

Lemma lv_s0 : be = 0 -> s = 0.
Proof.
  intro Z. pose proof (mr_s _ _ _ _ _ _ _ _ _ _ _ _ _ _ _ _ _ _ _ Q) as H. pose proof (mr_rho _ _ _ _ _ _ _ _ _ _ _ _ _ _ _ _ _ _ _ Q).
  rewrite Z in H. apply Rmult_integral in H as [H|H]; lra.
Qed.

Lemma lv_tt : tt * rho1 = bh.
Proof. unfold tt. field. pose proof (mr_rho _ _ _ _ _ _ _ _ _ _ _ _ _ _ _ _ _ _ _ Q). lra. Qed.

Lemma lv_y : 0 < be -> y = iscale be u' /\ ip u' u' = 1.
Proof.
  intro HB. destruct (mr_bep _ _ _ _ _ _ _ _ _ _ _ _ _ _ _ _ _ _ _ Q HB) as (EU & _). fold y in EU.
  split.
  - rewrite EU. apply ip_ext. intro z. ipx. field. lra.
  - rewrite EU, (mr_be _ _ _ _ _ _ _ _ _ _ _ _ _ _ _ _ _ _ _ Q). apply unit_norm.
    pose proof (mr_be _ _ _ _ _ _ _ _ _ _ _ _ _ _ _ _ _ _ _ Q) as E. fold y in E. lra.
Qed.

Lemma lv_z : 0 < be -> isub (At u') (iscale be v) = iscale al' v' /\ 0 <= al' /\ (0 < al' -> ip v' v' = 1).
Proof.
  intro HB. destruct (mr_bep _ _ _ _ _ _ _ _ _ _ _ _ _ _ _ _ _ _ _ Q HB) as (_ & EA & EV). cbv zeta in EA, EV.
  set (z := isub (At u') (iscale be v)) in *. pose proof (inorm_pos z) as ZP.
  destruct (Req_dec al' 0) as [Z|Z].
  - rewrite Z. rewrite EA in Z. rewrite (inorm_zero z Z). split; [apply ip_ext; intro t; ipx; ring|]. split; lra.
  - assert (HP : 0 < al') by lra. split; [|split; [lra|]].
    + rewrite (EV HP). apply ip_ext. intro t. ipx. field. lra.
    + intros _. rewrite (EV HP), EA. apply unit_norm. lra.
Qed.

Lemma lv_Aty : At y = iadd (iscale (be * be) v) (iscale (rho1 * (s * al')) v').
Proof.
  pose proof (adjoint_lin_t A At AD) as LT.
  destruct lv_cases as [Z|HB].
  - assert (Y0 : y = izero). { apply ip_def. rewrite <- lv_be2, Z. ring. }
    rewrite Y0, (lin_zero At LT), Z, (lv_s0 Z). apply ip_ext. intro t. ipx. ring.
  - destruct (lv_y HB) as [EY _]. destruct (lv_z HB) as [EZ _].
    rewrite EY, (lin_scale At LT).
    replace (rho1 * (s * al')) with (be * al') by (rewrite <- (mr_s _ _ _ _ _ _ _ _ _ _ _ _ _ _ _ _ _ _ _ Q); ring).
    apply ip_ext. intro t. pose proof (f_equal (ip t) EZ) as F. revert F. ipx. intro F. 
    transitivity (be * (ip t (At u') - be * ip t v) + be * be * ip t v); [ring|]. rewrite F. ring.
Qed.

Lemma lv_v' : forall z, dp (v :: V) z -> s * al' * ip z v' = 0.
Proof.
  intros z D. destruct lv_cases as [Z|HB]; [rewrite (lv_s0 Z); ring|].
  destruct (lv_y HB) as [EY U1]. destruct (lv_z HB) as [EZ _].
  pose proof (gk_z A At AD G u' be HB EY U1 z D) as H.
  rewrite EZ, ip_scale in H. rewrite Rmult_assoc, H. ring.
Qed.

Lemma lv_xl : forall z, dp (v :: V) z -> ip z (nr (iadd xl (iscale tt (t_h st)))) = 0.
Proof.
  intros z D. destruct lv_cases as [Z|HB].
  - rewrite (lm_nres_dead A At AD b d I be r1 cs1 sn1 rho1 c s tt lv_be2 (mr_c1 _ _ _ _ _ _ _ _ _ _ _ _ _ _ _ _ _ _ _ Q)
      (mr_s1 _ _ _ _ _ _ _ _ _ _ _ _ _ _ _ _ _ _ _ Q) (mr_1 _ _ _ _ _ _ _ _ _ _ _ _ _ _ _ _ _ _ _ Q)
      (mr_c _ _ _ _ _ _ _ _ _ _ _ _ _ _ _ _ _ _ _ Q) (mr_s _ _ _ _ _ _ _ _ _ _ _ _ _ _ _ _ _ _ _ Q)
      (mr_2 _ _ _ _ _ _ _ _ _ _ _ _ _ _ _ _ _ _ _ Q)).
    + apply ip_zero.
    + pose proof (mr_rho _ _ _ _ _ _ _ _ _ _ _ _ _ _ _ _ _ _ _ Q). lra.
    + exact lv_tt.
    + exact Z.
  - destruct (lv_y HB) as [EY U1].
    rewrite (lm_nres A At AD b d I be r1 cs1 sn1 rho1 c s tt (mr_c1 _ _ _ _ _ _ _ _ _ _ _ _ _ _ _ _ _ _ _ Q)
      (mr_s1 _ _ _ _ _ _ _ _ _ _ _ _ _ _ _ _ _ _ _ Q) (mr_1 _ _ _ _ _ _ _ _ _ _ _ _ _ _ _ _ _ _ _ Q)
      (mr_c _ _ _ _ _ _ _ _ _ _ _ _ _ _ _ _ _ _ _ Q) (mr_s _ _ _ _ _ _ _ _ _ _ _ _ _ _ _ _ _ _ _ Q)
      (mr_2 _ _ _ _ _ _ _ _ _ _ _ _ _ _ _ _ _ _ _ Q) lv_tt u' EY).
    rewrite ip_scale, (gk_z A At AD G u' be HB EY U1 z D). ring.
Qed.

Lemma lv_dr : dr x' = nxt_nr2 st cs1 sn1 c s cb' rhob' ct sn.
Proof.
  unfold x', nxt_x, nxt_hb.
  rewrite (mm_dres A At AD b d M be r1 cs1 sn1 rho1 c s (s * al') v' (mr_c1 _ _ _ _ _ _ _ _ _ _ _ _ _ _ _ _ _ _ _ Q)
      (mr_s1 _ _ _ _ _ _ _ _ _ _ _ _ _ _ _ _ _ _ _ Q) (mr_1 _ _ _ _ _ _ _ _ _ _ _ _ _ _ _ _ _ _ _ Q)
      (mr_c _ _ _ _ _ _ _ _ _ _ _ _ _ _ _ _ _ _ _ Q) (mr_s _ _ _ _ _ _ _ _ _ _ _ _ _ _ _ _ _ _ _ Q)
      (mr_2 _ _ _ _ _ _ _ _ _ _ _ _ _ _ _ _ _ _ _ Q) (mr_rho _ _ _ _ _ _ _ _ _ _ _ _ _ _ _ _ _ _ _ Q)
      lv_Aty lv_v' cb' rhob' (mr_rhob _ _ _ _ _ _ _ _ _ _ _ _ _ _ _ _ _ _ _ Q) ct sn rt
      (mr_ct _ _ _ _ _ _ _ _ _ _ _ _ _ _ _ _ _ _ _ Q) (mr_st _ _ _ _ _ _ _ _ _ _ _ _ _ _ _ _ _ _ _ Q)
      (mr_4 _ _ _ _ _ _ _ _ _ _ _ _ _ _ _ _ _ _ _ Q) (mr_rt _ _ _ _ _ _ _ _ _ _ _ _ _ _ _ _ _ _ _ Q) lv_xl).
  fold bh. fold tt.
  rewrite (lm_norm A At AD b d I be r1 cs1 sn1 rho1 c s tt lv_be2 (mr_c1 _ _ _ _ _ _ _ _ _ _ _ _ _ _ _ _ _ _ _ Q)
      (mr_s1 _ _ _ _ _ _ _ _ _ _ _ _ _ _ _ _ _ _ _ Q) (mr_1 _ _ _ _ _ _ _ _ _ _ _ _ _ _ _ _ _ _ _ Q)
      (mr_c _ _ _ _ _ _ _ _ _ _ _ _ _ _ _ _ _ _ _ Q) (mr_s _ _ _ _ _ _ _ _ _ _ _ _ _ _ _ _ _ _ _ Q)
      (mr_2 _ _ _ _ _ _ _ _ _ _ _ _ _ _ _ _ _ _ _ Q) lv_tt).
  unfold nxt_nr2, nxt_d, nxt_X. fold bh. ring.
Qed.

Lemma lv_nr : nr x' = iscale (- sb' * t_zetabar st) (isub (iscale cb' v') (iscale sb' g)).
Proof.
  exact (mm_nres A At AD b d M be r1 cs1 sn1 rho1 c s (s * al') v' (mr_c1 _ _ _ _ _ _ _ _ _ _ _ _ _ _ _ _ _ _ _ Q)
      (mr_s1 _ _ _ _ _ _ _ _ _ _ _ _ _ _ _ _ _ _ _ Q) (mr_1 _ _ _ _ _ _ _ _ _ _ _ _ _ _ _ _ _ _ _ Q)
      (mr_c _ _ _ _ _ _ _ _ _ _ _ _ _ _ _ _ _ _ _ Q) (mr_s _ _ _ _ _ _ _ _ _ _ _ _ _ _ _ _ _ _ _ Q)
      (mr_2 _ _ _ _ _ _ _ _ _ _ _ _ _ _ _ _ _ _ _ Q) (mr_rho _ _ _ _ _ _ _ _ _ _ _ _ _ _ _ _ _ _ _ Q)
      lv_Aty cb' sb' rhob' (mr_cb _ _ _ _ _ _ _ _ _ _ _ _ _ _ _ _ _ _ _ Q) (mr_sb _ _ _ _ _ _ _ _ _ _ _ _ _ _ _ _ _ _ _ Q)
      (mr_3 _ _ _ _ _ _ _ _ _ _ _ _ _ _ _ _ _ _ _ Q) (mr_rhob _ _ _ _ _ _ _ _ _ _ _ _ _ _ _ _ _ _ _ Q)).
Qed.

Lemma lv_dead : s * al' = 0 -> nr x' = izero /\ sb' = 0.
Proof.
  intro Z.
  assert (S0 : sb' = 0) by exact (mm_dead _ _ _ (mr_sb _ _ _ _ _ _ _ _ _ _ _ _ _ _ _ _ _ _ _ Q) (mr_rhob _ _ _ _ _ _ _ _ _ _ _ _ _ _ _ _ _ _ _ Q) Z).
  split; [|exact S0]. rewrite lv_nr, S0. apply ip_ext. intro t. ipx. ring.
Qed.

Lemma lv_kx : kry AA (At b) (S (t_itn st)) x'.
Proof. exact (mm_kx A At AD b d M rho1 cb' rhob'). Qed.

Lemma lv_dim : forall n, dim_le E1 n \/ dim_le E2 n \/ rank_le A n -> (t_itn st < n)%nat.
Proof.
  intros n DN. destruct DN as [DN|[DN|DN]].
  - rewrite <- (li_lenV _ _ _ _ _ _ _ _ _ _ _ _ _ _ _ _ _ _ _ _ _ _ I). exact (gk_dim A At U V u v _ n G DN).
  - rewrite <- (li_lenU _ _ _ _ _ _ _ _ _ _ _ _ _ _ _ _ _ _ _ _ _ _ I). exact (gk_dim_u A At U V u v _ n G DN).
  - rewrite <- (li_lenV _ _ _ _ _ _ _ _ _ _ _ _ _ _ _ _ _ _ _ _ _ _ I). exact (gk_rank A At AD U V u v _ n G DN).
Qed.

(** The invariant after the iteration. *)
Lemma lv_next : s * al' <> 0 -> 0 < be /\ 0 < al' /\ 0 < c /\ 0 < cb' /\ 0 < ct /\
  exists tu' te' su' se' xx' cs2' zs' p' g' gu' ge',
  MI A At b d (S (t_itn st)) (u :: U) (v :: V) u' v' al' (iadd xl (iscale tt (t_h st)))
    (iadd (iscale (- (s * al') / rho1) (t_h st)) v') tu' te' su' se' (c * al') (- (s * (cs1 * t_betadd st))) (nxt_d st sn1)
    xx' cs2' zs' x' (nxt_hb st rho1) p' g' gu' ge' rho1 rhob' cb' sb' (- sb' * t_zetabar st) (ct * rhob')
    (nxt_X st cs1 c cb' rhob' ct sn).
Proof.
  intro N. destruct Q as [Qbe Qc1 Qs1 Q1 Qr1 Qc Qs Q2 Qrho Qcb Qsb Q3 Qrhob Qct Qst Q4 Qrt _ _].
  assert (HB : 0 < be). { destruct lv_cases as [Z|HB]; [|exact HB]. exfalso. apply N. rewrite (lv_s0 Z). ring. }
  destruct (lv_y HB) as [EY U1]. destruct (lv_z HB) as (EZ & AP & V1).
  assert (HA : 0 < al'). { destruct AP as [AP|AP]; [exact AP|]. exfalso. apply N. rewrite <- AP. ring. }
  specialize (V1 HA).
  assert (HC : 0 < c). { apply Rmult_lt_reg_r with rho1; [exact Qrho|]. lra. }
  assert (HCB : 0 < cb').
  { apply Rmult_lt_reg_r with rhob'; [exact Qrhob|]. rewrite Qcb, Rmult_0_l. apply Rmult_lt_0_compat; [apply (mp_cb _ _ _ P)|exact Qrho]. }
  assert (HCT : 0 < ct).
  { apply Rmult_lt_reg_r with rt; [exact Qrt|]. rewrite Qct, Rmult_0_l. apply (mp_rhod _ _ _ P). }
  do 5 (split; [assumption|]).
  pose proof (lm_cs2 A At b d I) as C2.
  set (gb := cs2 * rho1). set (rh := c * (cs1 * t_betadd st) - zs * rho1).
  set (ga := sqrt (gb * gb + s * al' * (s * al'))).
  assert (GB : gb <> 0). { unfold gb. intro Z. apply Rmult_integral in Z as [Z|Z]; [contradiction|lra]. }
  assert (GA : 0 < ga) by (apply norm2_pos; left; exact GB).
  assert (R1 : rho1 <> 0) by lra. assert (R2 : r1 <> 0) by lra.
  assert (K1 : gb * gb = cs2 * cs2 * (rho1 * rho1)) by (unfold gb; ring).
  assert (K2 : rh / gb * gb = rh) by (field; exact GB).
  assert (K3 : ga * ga = gb * gb + s * al' * (s * al')) by apply norm2_sq.
  assert (K0 : ga <> 0) by lra.
  assert (K4 : gb / ga * ga = gb) by (field; exact K0).
  assert (K5 : s * al' / ga * ga = s * al') by (field; exact K0).
  assert (K6 : rh / ga * ga = rh) by (field; exact K0).
  pose proof (lm_step A At AD b d I be r1 cs1 sn1 rho1 c s tt Qc1 Qs1 Q1 Qc Qs Q2 R1 R2 lv_tt u' EY rh gb (rh / gb)
    eq_refl K1 K2 v' al' HB U1 HA EZ V1 HC ga (gb / ga) (s * al' / ga) (rh / ga) K3 K0 K4 K5 K6) as L.
  apply (li_flip A At AD) in L. rewrite Ropp_involutive in L.
  do 11 eexists.
  exact (mm_step A At AD b d M be r1 cs1 sn1 rho1 c s (s * al') v' Qc1 Qs1 Q1 Qc Qs Q2 Qrho lv_Aty lv_v' cb' sb' rhob' Qcb Qsb Q3 Qrhob
    ct sn rt Qct Qst Q4 Qrt al' u' L eq_refl).
Qed.

Lemma lv_min : inorm (nr x') = Rabs (- sb' * t_zetabar st) /\
  forall z, kry AA (At b) (S (t_itn st)) z -> inorm (nr x') <= inorm (nr z).
Proof.
  destruct (Req_dec (s * al') 0) as [Z|Z].
  - destruct (lv_dead Z) as [NX S0]. rewrite NX, inorm_izero, S0. split.
    + replace (- 0 * t_zetabar st) with 0 by ring. symmetry. apply Rabs_R0.
    + intros z _. apply inorm_pos.
  - destruct (lv_next Z) as (_ & _ & _ & _ & _ & tu' & te' & su' & se' & xx' & cs2' & zs' & p' & g' & gu' & ge' & M').
    destruct (LsmrMath.mi_min A At AD b d _ _ _ _ _ _ _ _ _ _ _ _ _ _ _ _ _ _ _ _ _ _ _ _ _ _ _ _ _ _ _ M') as [N1 N2].
    split; [exact N1|]. intros z K. apply N2. exact (lm_kry A At AD b d I z K).
Qed.
End Live.

Definition lm_live (st : lm_st WV WU) : Prop := exists U V u v xl tu te su se xx cs2 zs p g gu ge,
  lm_pre st u v /\
  MI A At b d (t_itn st) U V u v (t_alpha st) xl (t_h st) tu te su se (t_alphabar st) (t_betadd st) (t_d st)
    xx cs2 zs (t_x st) (t_hbar st) p g gu ge (t_rho st) (t_rhobar st) (t_cbar st) (t_sbar st) (t_zetabar st) (t_rhodold st) (lm_X st).
Definition lm_ph (st : lm_st WV WU) : Prop :=
  (t_brk st = false -> lm_live st) /\
  forall n, dim_le E1 n \/ dim_le E2 n \/ rank_le A n -> (t_itn st <= n)%nat /\ ((n <= t_itn st)%nat -> nr (t_x st) = izero).

Definition lm_okx (st : lm_st WV WU) : Prop :=
  (t_normr st : R) = sqrt (dr (t_x st)) /\ (t_normar st : R) = inorm (nr (t_x st)) /\ (t_normx st : R) = nv1 (t_x st : iv E1).

Record lm_gh (bn : R) (st : lm_st WV WU) (xs : list (iv E1)) : Prop := {
  mg_len : length xs = t_itn st;
  mg_x : (t_x st : iv E1) = last xs izero;
  mg_res : t_resids st = if m_sres kw then map (fun x => sqrt (dr x)) (izero :: xs) else [];
  mg_nres : t_nresids st = if m_sres kw then map (fun x => inorm (nr x)) (izero :: xs) else [];
  mg_it : t_iters st = if m_sit kw then izero :: xs else [];
  mg_ok : lm_okx st;
  mg_nA : 0 < (t_normA st : R);
  mg_t1 : t_istop st = 1%Z -> (t_normr st : R) <= m_btol kw * bn + m_atol kw * t_normA st * t_normx st;
  mg_t2 : t_istop st = 2%Z -> (t_normar st : R) <= m_atol kw * (t_normA st * t_normr st);
  mg_t0 : (m_atol kw : R) = 0 -> (m_btol kw : R) = 0 -> (m_conlim kw : R) = 0 -> (m_etol kw : R) = 0 -> (forall l, 0 <= (m_lnorm kw l : R)) ->
    nr (t_x st) <> izero -> (Z.of_nat (t_itn st) < lim)%Z -> t_brk st = false;
  mg_kry : forall i x, nth_error xs i = Some x ->
    kry AA (At b) (S i) x /\ (forall z, kry AA (At b) (S i) z -> inorm (nr x) <= inorm (nr z)) /\ dr x <> 0 }.

(** One round of the loop: it raises exactly when the new iterate has residual 0. *)
Lemma lm_loop_step : forall bn st xs, 0 < bn -> lm_gh bn st xs -> lm_live st ->
  exists x', kry AA (At b) (S (t_itn st)) x' /\ (forall z, kry AA (At b) (S (t_itn st)) z -> inorm (nr x') <= inorm (nr z)) /\
  (dr x' = 0 -> @lm_body KK WV WU q kw bn lim st = Err ZeroDivisionError) /\
  (dr x' <> 0 -> exists st', @lm_body KK WV WU q kw bn lim st = Ok st' /\ t_itn st' = (t_itn st + 1)%nat /\
    lm_gh bn st' (xs ++ [x']) /\ lm_ph st').
Proof.
  intros bn st xs HB GH (U & V & u & v & xl & tu & te & su & se & xx & cs2 & zs & p & g & gu & ge & P & M).
  destruct (em_body bn st u v HB P) as (u' & v' & al' & be & r1 & cs1 & sn1 & rho1 & c & s & cb' & sb' & rhob' & ct & sn & rt & Q & N0 & BE & BO).
  pose proof (lv_dr st U V u v xl tu te su se xx cs2 zs p g gu ge M u' v' al' be r1 cs1 sn1 rho1 c s cb' sb' rhob' ct sn rt Q) as DR.
  pose proof (lv_min st U V u v xl tu te su se xx cs2 zs p g gu ge P M u' v' al' be r1 cs1 sn1 rho1 c s cb' sb' rhob' ct sn rt Q) as [MN MM].
  pose proof (lv_kx st U V u v xl tu te su se xx cs2 zs p g gu ge M rho1 cb' rhob') as KX.
  pose proof (lv_dead st U V u v xl tu te su se xx cs2 zs p g gu ge M u' v' al' be r1 cs1 sn1 rho1 c s cb' sb' rhob' ct sn rt Q) as DE.
  pose proof (lv_next st U V u v xl tu te su se xx cs2 zs p g gu ge P M u' v' al' be r1 cs1 sn1 rho1 c s cb' sb' rhob' ct sn rt Q) as NX.
  pose proof (lv_dim st U V u v xl tu te su se xx cs2 zs p g gu ge M) as DI.
  exists (nxt_x st rho1 cb' rhob'). split; [exact KX|]. split; [exact MM|].
  split. { intro Z. apply BE. rewrite <- DR. exact Z. }
  intro NZ. destruct BO as (st' & EB & O); [rewrite <- DR; exact NZ|].
  exists st'. split; [exact EB|]. destruct O.
  split; [assumption|].
  assert (EQ : nr (t_x st') = izero -> t_brk st' = true).
  { intro Z. apply mo_stop0. rewrite mo_nar0, mo_zb0, <- MN, <- mo_x0, Z. apply inorm_izero. }
  assert (OK : lm_okx st').
  { split; [|split].
    - rewrite mo_nr0, mo_x0, DR. reflexivity.
    - rewrite mo_nar0, mo_zb0, mo_x0, MN. reflexivity.
    - exact mo_nx0. }
  split.
  - destruct GH. destruct OK as (O1 & O2 & O3). split.
    + rewrite app_length, mg_len0, mo_itn0. reflexivity.
    + rewrite last_last. exact mo_x0.
    + rewrite mo_resids0, mg_res0, O1, mo_x0. destruct (m_sres kw); [|reflexivity]. rewrite app_comm_cons, map_app. reflexivity.
    + rewrite mo_nresids0, mg_nres0, O2, mo_x0. destruct (m_sres kw); [|reflexivity]. rewrite app_comm_cons, map_app. reflexivity.
    + rewrite mo_iters0, mg_it0, mo_x0. destruct (m_sit kw); reflexivity.
    + split; [exact O1|split; [exact O2|exact O3]].
    + exact mo_nA2.
    + exact mo_t3.
    + exact mo_t4.
    + intros Z1 Z2 Z3 Z4 Z5 NN0 L. rewrite mo_brk0, (mo_t5 Z1 Z2 Z3 Z4 Z5); [reflexivity| |exact L].
      rewrite O2. intro F. apply NN0. apply inorm_zero. exact F.
    + intros i x N. destruct (Nat.lt_ge_cases i (length xs)) as [L|L].
      * rewrite nth_error_app1 in N by exact L. apply mg_kry0. exact N.
      * rewrite nth_error_app2 in N by exact L.
        destruct (i - length xs)%nat as [|j] eqn:J; [|destruct j; discriminate].
        injection N as <-. replace i with (t_itn st) by lia. auto.
  - split.
    + intro NB. destruct (Req_dec (s * al') 0) as [Z|Z].
      { destruct (DE Z) as [D1 _]. rewrite <- mo_x0 in D1. rewrite (EQ D1) in NB. discriminate. }
      destruct (NX Z) as (HBe & HAl & HC & HCB & HCT & tu' & te' & su' & se' & xx' & cs2' & zs' & p' & g' & gu' & ge' & M').
      do 12 eexists. exists p', g', gu', ge'. split.
      * split.
        -- exact mo_Mu0.
        -- exact mo_v0.
        -- exact mo_Nv0.
        -- rewrite mo_rb0. apply Rmult_integral_contrapositive; split; lra.
        -- rewrite mo_rho0. apply (mr_rho _ _ _ _ _ _ _ _ _ _ _ _ _ _ _ _ _ _ _ Q).
        -- rewrite mo_rhob0. apply (mr_rhob _ _ _ _ _ _ _ _ _ _ _ _ _ _ _ _ _ _ _ Q).
        -- rewrite mo_cb0. exact HCB.
        -- rewrite mo_rhod0. apply Rmult_lt_0_compat; [exact HCT|]. apply (mr_rhob _ _ _ _ _ _ _ _ _ _ _ _ _ _ _ _ _ _ _ Q).
        -- exact mo_nrg0.
        -- rewrite mo_d0. unfold nxt_d. pose proof (mp_d _ _ _ P). pose proof (Rle_0_sqr (sn1 * t_betadd st)). unfold Rsqr in *. lra.
        -- exact mo_nA0.
        -- exact mo_mn0.
        -- rewrite mo_brk0 in NB. apply Z.ltb_ge in NB. lia.
      * rewrite mo_itn0, mo_al0, mo_rb0, mo_d0, mo_x0, mo_hb0, mo_rho0, mo_rhob0, mo_cb0, mo_sb0, mo_zb0, mo_rhod0, mo_X0, Nat.add_1_r.
        replace (t_betadd st' : R) with (- (s * (cs1 * t_betadd st))) by (rewrite mo_pb0; ring).
        replace (t_h st' : iv E1) with (iadd (iscale (- (s * al') / rho1) (t_h st)) v'); [exact M'|].
        rewrite mo_h0. apply ip_ext. intro z. ipx. pose proof (mr_rho _ _ _ _ _ _ _ _ _ _ _ _ _ _ _ _ _ _ _ Q). field. lra.
    + intros n DN. specialize (DI n DN). rewrite mo_itn0. split; [lia|]. intro L.
      destruct (Req_dec (s * al') 0) as [Z|Z]; [rewrite mo_x0; apply DE; exact Z|exfalso].
      destruct (NX Z) as (_ & _ & _ & _ & _ & tu' & te' & su' & se' & xx' & cs2' & zs' & p' & g' & gu' & ge' & M').
      pose proof (mi_li _ _ _ _ _ _ _ _ _ _ _ _ _ _ _ _ _ _ _ _ _ _ _ _ _ _ _ _ _ _ _ _ _ _ _ M') as I'.
      pose proof (li_gk _ _ _ _ _ _ _ _ _ _ _ _ _ _ _ _ _ _ _ _ _ _ I') as GG.
      assert (S (t_itn st) < n)%nat; [|lia]. destruct DN as [DN|[DN|DN]].
      * rewrite <- (li_lenV _ _ _ _ _ _ _ _ _ _ _ _ _ _ _ _ _ _ _ _ _ _ I'). exact (gk_dim A At _ _ _ _ _ n GG DN).
      * rewrite <- (li_lenU _ _ _ _ _ _ _ _ _ _ _ _ _ _ _ _ _ _ _ _ _ _ I'). exact (gk_dim_u A At _ _ _ _ _ n GG DN).
      * rewrite <- (li_lenV _ _ _ _ _ _ _ _ _ _ _ _ _ _ _ _ _ _ _ _ _ _ I'). exact (gk_rank A At AD _ _ _ _ _ n GG DN).
Qed.

(** The start, for [A'b <> 0]. *)
Lemma em_init : forall cnt, At b <> izero -> exists st0, @lm_init KK WV WU q kw b cnt = Ok st0 /\ t_itn st0 = 0%nat /\
  t_brk st0 = false /\ (t_beta st0 : R) = inorm b /\ 0 < inorm b /\ (t_normar st0 : R) <> 0 /\
  lm_gh (inorm b) st0 [] /\ lm_ph st0.
Proof.
  intros cnt NZ. pose proof (adjoint_lin A At AD) as LA. pose proof (adjoint_lin_t A At AD) as LT.
  unfold lm_init. cbv zeta. rewrite NM.
  destruct (ex_gk dv sq DV SQ E2 nv2 b) as (u & G1 & G2 & G3). rewrite G1. cbn [rbind].
  assert (D0 : dr izero = ip b b).
  { unfold dres2. rewrite (lin_zero A LA). ipx. ring. }
  assert (R0 : nr izero = At b).
  { unfold nres. rewrite (lin_zero A LA). apply ip_ext. intro z. ipx. rewrite !(ip_At A At AD). ipx. ring. }
  assert (EB : 0 < inorm b).
  { pose proof (inorm_pos b) as [H|H]; [exact H|]. exfalso. apply NZ. rewrite (inorm_zero b (eq_sym H)). apply (lin_zero At LT). }
  rewrite (proj2 (ex_gt dv sq (inorm b)) EB).
  rewrite NN. destruct (ex_gk dv sq DV SQ E1 nv1 (lp_At q u)) as (v & H1 & H2 & H3). rewrite H1. cbn [rbind].
  assert (EBu : b = iscale (inorm b) u).
  { rewrite (G2 EB). apply ip_ext. intro z. ipx. field. lra. }
  assert (U1 : ip u u = 1) by (rewrite (G2 EB); apply unit_norm; exact EB).
  assert (AL : inorm (At u) * inorm b = inorm (At b)).
  { rewrite EBu at 2. rewrite (lin_scale At LT), inorm_scale, Rabs_right by lra. ring. }
  assert (AP : 0 < inorm (At u)).
  { pose proof (inorm_pos (At u)) as [H|H]; [exact H|]. exfalso. apply NZ. apply inorm_zero. rewrite <- AL, <- H. ring. }
  assert (EA : At u = iscale (inorm (At u)) v).
  { rewrite (H2 AP). apply ip_ext. intro z. ipx. field. lra. }
  assert (V1 : ip v v = 1) by (rewrite (H2 AP); apply unit_norm; exact AP).
  pose proof (Rmult_lt_0_compat _ _ AP AP) as AP2. pose proof (Rmult_lt_0_compat _ _ AP EB) as APB.
  rewrite (ex_sqrt dv sq SQ) by (cbn; change (0 <= inorm (At u) * inorm (At u)); lra). cbn [rbind].
  assert (SE : @seqb KK (@smul KK (inorm (lp_At q u)) (inorm b)) (@s0 KK) = false).
  { apply Reqb_false. cbn. change (inorm (At u) * inorm b <> 0). lra. }
  rewrite SE. cbn [negb andb].
  eexists. split; [reflexivity|]. split; [reflexivity|]. split; [reflexivity|]. split; [reflexivity|].
  split; [exact EB|]. split; [cbn [t_normar]; change (inorm (At u) * inorm b <> 0); lra|].
  pose proof NVZ as NXX.
  split.
  - split; cbn [t_itn t_x t_resids t_nresids t_iters t_normr t_normar t_normx t_normA t_istop t_brk]; try reflexivity; try lia.
    + cbn [map]. rewrite D0. reflexivity.
    + cbn [map]. rewrite R0, <- AL. reflexivity.
    + split; [|split]; cbn [t_normr t_normar t_normx t_x].
      * change (inorm b = sqrt (dr izero)). rewrite D0. reflexivity.
      * change (inorm (At u) * inorm b = inorm (nr izero)). rewrite R0. exact AL.
      * change (0 = nv1 (@izero E1)). symmetry. exact NXX.
    + apply sqrt_lt_R0. exact AP2.
    + intros i x N. destruct i; discriminate.
  - pose proof (li_start0 A At AD b d u v (inorm b) (inorm (At u)) EB AP U1 V1 EBu EA) as L.
    split.
    + intros _. exists [], [], u, v, izero, u, izero, izero, izero, 0, (-1), 0, izero, v, izero, izero. split.
      * split; cbn [t_Mu t_v t_Nv t_alphabar t_rho t_rhobar t_cbar t_rhodold t_nrg2 t_d t_normA2 t_minrbar t_istop]; try reflexivity; try (cbn; lra).
        change (0 < Q2R (10 ^ 100)). rewrite <- RMicromega.Q2R_0. apply Qlt_Rlt. vm_compute. reflexivity.
      * cbn [t_itn t_alpha t_h t_alphabar t_betadd t_d t_x t_hbar t_rho t_rhobar t_cbar t_sbar t_zetabar t_rhodold].
        match goal with |- MI _ _ _ _ _ _ _ _ _ _ _ _ _ _ _ _ _ _ _ _ _ _ _ _ _ _ _ _ _ _ _ _ _ _ ?x => replace x with 0 end.
        { exact (mi_start A At AD b d u v (inorm b) (inorm (At u)) EB AP U1 V1 EBu EA). }
        unfold lm_X. cbn [t_betad t_zeta t_thetil t_tautil t_rhodold]. cbn. field.
    + intros n DN. cbn [t_itn]. split; [lia|]. intro L0.
      pose proof (li_gk _ _ _ _ _ _ _ _ _ _ _ _ _ _ _ _ _ _ _ _ _ _ L) as GG. exfalso.
      assert (0 < n)%nat; [|lia]. destruct DN as [DN|[DN|DN]].
      * exact (gk_dim A At _ _ _ _ _ n GG DN).
      * exact (gk_dim_u A At _ _ _ _ _ n GG DN).
      * exact (gk_rank A At AD _ _ _ _ _ n GG DN).
Qed.

(** What a completed run delivers. *)
Definition lm_post (r : lm_ret WV) (ob' : lm_obj WV) (xs : list (iv E1)) : Prop :=
  length xs = r_itn r /\ (r_x r : iv E1) = last xs izero /\ a_x ob' = Some (r_x r) /\
  a_resids ob' = (if m_sres kw then map (fun x => sqrt (dr x)) (izero :: xs) else []) /\
  a_nresids ob' = (if m_sres kw then map (fun x => inorm (nr x)) (izero :: xs) else []) /\
  a_iters ob' = (if m_sit kw then izero :: xs else []) /\
  (let x := r_x r : iv E1 in
   (r_normr r : R) = sqrt (dr x) /\ (r_normar r : R) = inorm (nr x) /\ (r_normx r : R) = nv1 x) /\
  (r_istop r = 1%Z -> (r_normr r : R) <= m_btol kw * inorm b + m_atol kw * r_normA r * r_normx r) /\
  (r_istop r = 2%Z -> (r_normar r : R) <= m_atol kw * (r_normA r * r_normr r)) /\
  (forall i x, nth_error xs i = Some x ->
     kry AA (At b) (S i) x /\ (forall z, kry AA (At b) (S i) z -> inorm (nr x) <= inorm (nr z)) /\ dr x <> 0) /\
  (forall n, dim_le E1 n \/ dim_le E2 n \/ rank_le A n -> (r_itn r <= n)%nat /\ ((n <= r_itn r)%nat -> nr (r_x r) = izero)) /\
  ((m_atol kw : R) = 0 -> (m_btol kw : R) = 0 -> (m_conlim kw : R) = 0 -> (m_etol kw : R) = 0 ->
   (forall l, 0 <= (m_lnorm kw l : R)) -> nr (r_x r) <> izero -> (lim <= Z.of_nat (r_itn r))%Z).

Theorem lm_exact : forall fuel ob cnt, (Z.to_nat lim < fuel)%nat -> At b <> izero ->
  (exists r ob' cnt' xs, @lm_solve KK WV WU fuel q kw ob b cnt = Ok (r, ob', cnt') /\ lm_post r ob' xs) \/
  (@lm_solve KK WV WU fuel q kw ob b cnt = Err ZeroDivisionError /\
   exists k x, (Z.of_nat k < lim)%Z /\ kry AA (At b) (S k) x /\
     (forall z, kry AA (At b) (S k) z -> inorm (nr x) <= inorm (nr z)) /\ dr x = 0).
Proof.
  intros fuel ob cnt HF NZ. destruct (em_init cnt NZ) as (st0 & E0 & I0 & B0 & BE & HB & NA & G0 & P0).
  pose (Inv := fun st : lm_st WV WU => (exists xs, lm_gh (inorm b) st xs) /\ lm_ph st).
  assert (I00 : Inv st0) by (split; eauto).
  assert (ST : forall st, Inv st -> lm_cond lim st = true -> exists x', 
     kry AA (At b) (S (t_itn st)) x' /\ (forall z, kry AA (At b) (S (t_itn st)) z -> inorm (nr x') <= inorm (nr z)) /\
     (dr x' = 0 -> @lm_body KK WV WU q kw (t_beta st0) lim st = Err ZeroDivisionError) /\
     (dr x' <> 0 -> exists st', @lm_body KK WV WU q kw (t_beta st0) lim st = Ok st' /\ Inv st' /\ t_itn st' = (t_itn st + 1)%nat)).
  { intros st [[xs G] [PL PD]] C. unfold lm_cond in C. apply andb_prop in C as [C _]. apply negb_true_iff in C.
    rewrite BE. destruct (lm_loop_step (inorm b) st xs HB G (PL C)) as (x' & K1 & K2 & K3 & K4).
    exists x'. split; [exact K1|]. split; [exact K2|]. split; [exact K3|].
    intro N. destruct (K4 N) as (st' & EB & EI & G' & P'). exists st'. split; [exact EB|]. split; [split; eauto|exact EI]. }
  assert (PR : forall st st', Inv st -> lm_cond lim st = true -> lm_body q kw (t_beta st0) lim st = Ok st' -> Inv st').
  { intros st st' I C EB. destruct (ST st I C) as (x' & _ & _ & K3 & K4).
    destruct (Req_dec (dr x') 0) as [Z|Z]; [rewrite (K3 Z) in EB; discriminate|].
    destruct (K4 Z) as (s2 & EB2 & I' & _). rewrite EB in EB2. injection EB2 as <-. exact I'. }
  pose proof (lm_solve_nofuel q kw fuel ob b cnt HF) as NF.
  unfold lm_solve in *. rewrite E0 in *. cbn [rbind] in *.
  destruct (while fuel (lm_cond lim) (lm_body q kw (t_beta st0) lim) st0) as [st|e] eqn:W; cbn [rbind] in *.
  - left. pose proof (while_inv (lm_cond lim) (lm_body q kw (t_beta st0) lim) Inv) as WI.
    destruct (WI PR fuel st0 st I00 W) as [[[xs G] [PL PD]] CF].
    eexists _, _, _, xs. split; [reflexivity|].
    unfold lm_post. cbn [r_itn r_x r_istop r_normr r_normar r_normA r_normx a_x a_resids a_nresids a_iters].
    split; [apply (mg_len _ _ _ G)|]. split; [apply (mg_x _ _ _ G)|].
    split. { replace (@seqb KK (t_normar st0) (@s0 KK)) with false; [reflexivity|]. symmetry. apply Reqb_false. exact NA. }
    split; [apply (mg_res _ _ _ G)|]. split; [apply (mg_nres _ _ _ G)|]. split; [apply (mg_it _ _ _ G)|].
    split; [apply (mg_ok _ _ _ G)|]. split; [apply (mg_t1 _ _ _ G)|]. split; [apply (mg_t2 _ _ _ G)|].
    split; [apply (mg_kry _ _ _ G)|]. split; [exact PD|].
    intros Z1 Z2 Z3 Z4 Z5 N. destruct (Z.lt_ge_cases (Z.of_nat (t_itn st)) lim) as [L|L]; [|exact L].
    pose proof (mg_t0 _ _ _ G Z1 Z2 Z3 Z4 Z5 N L) as NB. unfold lm_cond in CF. rewrite NB in CF. cbn [negb andb] in CF.
    apply Z.ltb_ge in CF. exact CF.
  - right. destruct (while_err (lm_cond lim) (lm_body q kw (t_beta st0) lim) Inv PR fuel st0 e I00 W) as (st & I & C & EB); [congruence|].
    destruct (ST st I C) as (x' & K1 & K2 & K3 & K4).
    destruct (Req_dec (dr x') 0) as [Z|Z].
    + rewrite (K3 Z) in EB. injection EB as <-. split; [reflexivity|].
      exists (t_itn st), x'. unfold lm_cond in C. apply andb_prop in C as [_ C]. apply Z.ltb_lt in C. auto.
    + destruct (K4 Z) as (s2 & EB2 & _). rewrite EB in EB2. discriminate.
Qed.

(** [A'b = 0]. *)
Lemma lm_exact_zero : forall fuel ob cnt, (0 < fuel)%nat -> At b = izero ->
  exists r ob' cnt', @lm_solve KK WV WU fuel q kw ob b cnt = Ok (r, ob', cnt') /\
    r_istop r = 0%Z /\ r_itn r = 0%nat /\ (r_x r : iv E1) = izero /\ a_x ob' = a_x ob /\ (r_normr r : R) = inorm b.
Proof.
  intros fuel ob cnt HF Z.
  assert (I : exists st0, @lm_init KK WV WU q kw b cnt = Ok st0 /\ (t_alpha st0 * t_beta st0 = 0 :> R) /\ (t_beta st0 : R) = inorm b).
  { unfold lm_init. cbv zeta. rewrite NM. destruct (ex_gk dv sq DV SQ E2 nv2 b) as (u & G1 & G2 & G3). rewrite G1. cbn [rbind].
    destruct (@sgtb KK (inorm b) (@s0 KK)) eqn:EB.
    - apply ex_gt in EB. rewrite NN. destruct (ex_gk dv sq DV SQ E1 nv1 (lp_At q u)) as (v & H1 & H2 & H3). rewrite H1. cbn [rbind].
      assert (A0 : inorm (At u) = 0).
      { rewrite (G2 EB), (lin_scale At (adjoint_lin_t A At AD)), Z.
        replace (iscale (1 / inorm b) (@izero E1)) with (@izero E1) by veq. apply inorm_izero. }
      rewrite (ex_sqrt dv sq SQ) by (change (0 <= inorm (At u) * inorm (At u)); rewrite A0; lra). cbn [rbind].
      eexists. split; [reflexivity|]. cbn [t_alpha t_beta]. split; [change (inorm (At u) * inorm b = 0); rewrite A0; ring|reflexivity].
    - cbn [rbind]. rewrite (ex_sqrt dv sq SQ) by (cbn; lra). cbn [rbind].
      eexists. split; [reflexivity|]. cbn [t_alpha t_beta]. split; [apply Rmult_0_l|reflexivity]. }
  destruct I as (st0 & E0 & N0 & B0).
  destruct (lm_zero q kw fuel ob b cnt st0 E0) as (r & ob' & H & H1 & H2 & H3 & H4 & H5 & _); [apply Reqb_true; exact N0|exact HF|].
  exists r, ob', (t_cnt st0). split; [exact H|]. split; [exact H1|]. split; [exact H2|]. split; [exact H3|]. split; [exact H4|].
  rewrite H5. exact B0.
Qed.

(** A residual of 0 is possible only without damping. *)
Lemma dr_zero : forall x, dr x = 0 -> At b <> izero -> A x = b /\ d = 0.
Proof.
  intros x Z NZ. unfold dres2 in Z. pose proof (ip_pos (isub b (A x))) as P1. pose proof (ip_pos (iscale d x)) as P2.
  pose proof (adjoint_lin A At AD) as LA. pose proof (adjoint_lin_t A At AD) as LT.
  assert (S2 : ip (iscale d x) (iscale d x) = d * d * ip x x) by (ipx; ring).
  assert (Z1 : ip (isub b (A x)) (isub b (A x)) = 0) by lra.
  assert (Z2 : d * d * ip x x = 0) by lra.
  apply ip_def in Z1.
  assert (EB : A x = b). { apply ip_ext. intro z. pose proof (f_equal (ip z) Z1) as F. rewrite ip_sub, ip_zero in F. lra. }
  split; [exact EB|]. apply Rmult_integral in Z2 as [Z2|Z2]; [apply Rmult_integral in Z2 as [Z2|Z2]; exact Z2|].
  exfalso. apply NZ. apply ip_def in Z2. rewrite <- EB, Z2, (lin_zero A LA). apply (lin_zero At LT).
Qed.

Lemma dr_consistent : forall x z, d = 0 -> A z = b -> nr x = izero -> dr x = 0.
Proof.
  intros x z D0 EZ N.
  pose proof (adjoint_lin A At AD) as LA. pose proof (adjoint_lin_t A At AD) as LT.
  unfold nres in N. unfold dres2. rewrite D0 in *.
  set (h := isub z x).
  assert (R : isub b (A x) = A h) by (unfold h; rewrite (lin_sub A LA), EZ; reflexivity).
  rewrite R in *.
  assert (Q : ip h (At (A h)) = 0).
  { transitivity (ip h (isub (At (A h)) (iscale (0 * 0) x))); [ipx; ring|]. rewrite N. apply ip_zero. }
  rewrite (ip_At A At AD) in Q. rewrite Q. ring.
Qed.
End Exact.
