(** * Proofs about the CRAIG and CRAIG-MR models: exact arithmetic, no preconditioners. *)
From Coq Require Import List ZArith QArith Reals Lia Lra Bool.
From Verif Require Import Base Num ToolsModel MinresModel MinresProof GkProof LsqrModel LsqrFlow LsqrProof
  CraigModel CraigFlow CraigMath.
Import ListNotations.
Local Open Scope R_scope.

Lemma last_nth_error : forall {T} (l : list T) d x, nth_error l (length l - 1) = Some x -> last l d = x.
Proof.
  intros T l d x. induction l as [|a l IH]; intro H; [discriminate|]. destruct l as [|a' l]; [injection H as <-; reflexivity|].
  cbn [length] in IH, H |- *. replace (S (S (length l)) - 1)%nat with (S (S (length l) - 1)) in H by lia. exact (IH H).
Qed.

Section Exact.
Variables (dv : R -> R -> R) (sq : R -> R).
Hypothesis DV : dv_ok dv.
Hypothesis SQ : sq_ok sq.
Variables E1 E2 : IPS.
Local Notation KK := (exactK dv sq).
Variables (nv1 : iv E1 -> R) (nv2 : iv E2 -> R).
Local Notation WV := (exactVn dv sq E1 nv1).
Local Notation WU := (exactVn dv sq E2 nv2).
Variables (q : lprob WV WU) (b : iv E2).
Let A : iv E1 -> iv E2 := lp_A q.
Let At : iv E2 -> iv E1 := lp_At q.
Hypothesis AD : adjoint A At.
Let LA : lin A := adjoint_lin A At AD.
Let LAt : lin At := adjoint_lin_t A At AD.
Notation TT := (TT A At).
Notation AAt := (AAt A At).

(** The relation between old and new vectors in one step of the bidiagonalisation. *)
Record bd (u : iv E2) (v : iv E1) (al : R) (u' : iv E2) (v' : iv E1) (al' be : R) : Prop := {
  bd_be : be = inorm (isub (A v) (iscale al u));
  bd_0 : be = 0 -> v' = v /\ al' = al;
  bd_u : 0 < be -> u' = iscale (1 / be) (isub (A v) (iscale al u));
  bd_al : 0 < be -> al' = inorm (isub (At u') (iscale be v));
  bd_v : 0 < be -> 0 < al' -> v' = iscale (1 / al') (isub (At u') (iscale be v));
  bd_v0 : 0 < be -> al' = 0 -> v' = izero }.

Lemma xc_bidiag : forall (u : iv E2) (v : iv E1) (al : R) cnt Nv,
  Nv = Some v \/ Nv = None /\ inorm (isub (A v) (iscale al u)) = 0 ->
  exists u' v' al' be cnt' Nv',
  @cr_bidiag KK WV WU q None None u v Nv al cnt = Ok (u', u', v', Nv', al', be, cnt') /\
  bd u v al u' v' al' be /\ (Nv = Some v -> Nv' = Some v') /\
  (Nv = None -> Nv' = None /\ v' = v /\ al' = al /\ be = 0 /\ u' = isub (A v) (iscale al u)).
Proof.
  intros u v al cnt Nv HN. set (y := isub (A v) (iscale al u)). set (be := inorm y). unfold cr_bidiag. cbv zeta.
  change (@vsub KK WU (lp_A q v) (@vscale KK WU al u)) with y.
  destruct (ex_gk dv sq DV SQ E2 nv2 y) as (u' & G1 & G2 & G3).
  rewrite G1. cbn [rbind]. fold be in G2, G3.
  change (inorm y) with be.
  destruct (@sgtb KK be (@s0 KK)) eqn:EB.
  - apply ex_gt in EB. destruct HN as [->|[_ Z]]; [|fold y be in Z; lra].
    destruct (ex_gk dv sq DV SQ E1 nv1 (@vsub KK WV (lp_At q u') (@vscale KK WV be v))) as (v' & H1 & H2 & H3).
    rewrite H1. cbn [rbind]. eexists _, _, _, _, _, _. split; [reflexivity|].
    change (@vsub KK WV (lp_At q u') (@vscale KK WV be v)) with (isub (At u') (iscale be v)) in *.
    split; [|split; [reflexivity|discriminate]]. split; try reflexivity.
    + intro; lra.
    + exact G2.
    + intros _. exact H2.
    + intros _ Z. rewrite (H3 Z). apply inorm_zero. exact Z.
  - apply ex_gtf in EB. assert (P : 0 <= be) by apply inorm_pos.
    eexists _, _, _, _, _, _. split; [reflexivity|]. split.
    + split; try (intro; lra); auto.
    + assert (Z2 : be = 0) by lra. rewrite (G3 Z2). auto 10.
Qed.

Record rt (c s al' be bh s2 ah c' s' de : R) : Prop := {
  rt_bh : bh = c * be;
  rt_de : de * de = s * be * (s * be) + 1; rt_de0 : 0 < de;
  rt_s2 : s2 = s * be / de;
  rt_ah : ah * ah = al' * al' + de * de; rt_ah0 : 0 < ah;
  rt_c : c' * ah = al'; rt_s : s' * ah = de }.

Lemma xc_rot : forall c s al' be : R, exists bh s2 ah c' s' de,
  @cr_rot KK c s al' be = Ok (bh, s2, ah, c', s') /\ rt c s al' be bh s2 ah c' s' de.
Proof.
  intros c s al' be. unfold cr_rot. cbv zeta.
  change (@smul KK s be) with (s * be). change (@smul KK c be) with (c * be). set (g := s * be).
  rewrite (ex_norm2 dv sq SQ). cbn [rbind]. change (@s1 KK) with 1. set (de := sqrt (g * g + 1 * 1)).
  assert (PD : 0 < de) by (apply norm2_pos; right; lra).
  assert (SD : de * de = g * g + 1) by (unfold de; rewrite norm2_sq; ring).
  rewrite (ex_div dv sq DV) by lra. cbn [rbind]. rewrite (ex_div dv sq DV) by lra. cbn [rbind].
  rewrite (ex_norm2 dv sq SQ). cbn [rbind]. set (ah := sqrt (al' * al' + de * de)).
  assert (PA : 0 < ah) by (apply norm2_pos; right; lra).
  assert (SA : ah * ah = al' * al' + de * de) by (unfold ah; apply norm2_sq).
  rewrite (ex_div dv sq DV) by lra. cbn [rbind]. rewrite (ex_div dv sq DV) by lra. cbn [rbind].
  eexists _, _, _, _, _, de. split; [reflexivity|]. split; try assumption; try reflexivity; field; lra.
Qed.

Lemma xc_derr : forall w (et : R) ln itn (t nrg2 : R) (dE di : list R) i, (1 <= w)%nat -> 0 <= nrg2 -> exists dE' di' i',
  @cr_derr KK w et ln itn t nrg2 dE di i = Ok (dE', di', i') /\ (i' = i \/ i' = 8%Z) /\
  (et = 0 -> (forall l, 0 <= ln l) -> i' = i).
Proof.
  intros w et ln itn t nrg2 dE di i HW Hn. unfold cr_derr. cbv zeta.
  destruct (Nat.eqb_spec w 0) as [Z|Z]; [lia|].
  destruct (w <? itn)%nat.
  - rewrite (ex_sqrt dv sq SQ) by exact Hn. cbn [rbind].
    eexists _, _, _. split; [reflexivity|]. split; [destruct (sltb _ _); auto|].
    intros Z1 Z2. match goal with |- context [sltb ?x ?y] => replace (sltb x y) with false; [reflexivity|] end.
    symmetry. apply Rltb_false. rewrite Z1. cbn. rewrite Rmult_0_l. apply Z2.
  - eexists _, _, _. split; [reflexivity|split; [left; reflexivity|reflexivity]].
Qed.

(** ** CRAIG *)
Section Cr.
Variable kw : cr_kw WV WU.
Hypothesis NM : c_M kw = None.
Hypothesis NN : c_N kw = None.
Hypothesis HW : (1 <= c_window kw)%nat.

Definition cr_t1 (rnorm bn : R) : R := sqrt rnorm / bn.

Lemma xc_tests : forall late i (rn bn : R), 0 < rn -> 0 < bn ->
  @cr_tests KK WV WU kw late i rn bn = Ok (if Rleb (sqrt rn / bn) (c_btol kw) then 1%Z else if late then 7%Z else i).
Proof.
  intros late i rn bn HR HB. unfold cr_tests. rewrite (ex_sqrt dv sq SQ) by lra. cbn [rbind].
  rewrite (ex_div dv sq DV) by lra. cbn [rbind].
  assert (P : 0 < sqrt rn / bn) by (apply Rdiv_lt_0_compat; [apply sqrt_lt_R0; exact HR|exact HB]).
  replace (sleb (@sadd KK (@s1 KK) (sqrt rn / bn)) (@s1 KK)) with false.
  2:{ symmetry. apply Rleb_false. cbn. lra. }
  reflexivity.
Qed.

(** The vectors and scalars of an iteration. *)
Record cstep (st st' : cr_st WV WU) (be bh s2 ah de : R) : Prop := {
  cs_bd : bd (g_Mu st) (g_v st) (g_alpha st) (g_Mu st') (g_v st') (g_alpha st') be;
  cs_rt : rt (g_c st) (g_s st) (g_alpha st') be bh s2 ah (g_c st') (g_s st') de;
  cs_Nv : g_Nv st' = Some (g_v st' : iv E1);
  cs_d : (g_d st' : iv E2) = iscale (1 / ah) (isub (g_Mu st' : iv E2) (iscale bh (g_d st : iv E2)));
  cs_tau : (g_tau st' : R) * ah = - bh * g_tau st;
  cs_zeta : (g_zeta st' : R) * ah = - bh * g_zeta st;
  cs_r : (g_r st' : iv E2) = iadd (g_r st : iv E2) (iscale (g_tau st') (g_d st' : iv E2));
  cs_x : (g_x st' : iv E1) = iadd (g_x st : iv E1) (iscale (g_zeta st')
           (iadd (iscale (g_c st') (g_v st' : iv E1)) (iscale (g_s st') (iscale s2 (g_wbar st : iv E1)))));
  cs_wbar : (g_wbar st' : iv E1) =
           iadd (iscale (- g_c st') (iscale s2 (g_wbar st : iv E1))) (iscale (g_s st') (g_v st' : iv E1));
  cs_rnorm : (g_rnorm st' : R) = g_rnorm st + g_tau st' * g_tau st';
  cs_rnrg : (g_rnrg2 st' : R) = g_rnrg2 st + g_tau st' * g_tau st';
  cs_xnrg : (g_xnrg2 st' : R) = g_xnrg2 st + g_zeta st' * g_zeta st';
  cs_r1 : (g_r1 st' : R) = g_r1 st + g_s st' * g_zeta st' * (g_s st' * g_zeta st');
  cs_itn : g_itn st' = (g_itn st + 1)%nat;
  cs_lists : g_norms st' = (if c_sres kw then g_norms st ++ [g_xnrg2 st'] else g_norms st) /\
             g_resids st' = (if c_sres kw then g_resids st ++ [g_rnorm st'] else g_resids st) /\
             g_itp st' = (if c_sit kw then g_itp st ++ [g_x st'] else g_itp st) /\
             g_itd st' = (if c_sit kw then g_itd st ++ [g_r st'] else g_itd st) }.

Lemma xc_body : forall (bn : R) lim (st : cr_st WV WU), 0 < bn -> g_Nv st = Some (g_v st) -> 0 <= (g_rnrg2 st : R) -> 0 < (g_rnorm st : R) ->
  exists st' be bh s2 ah de, @cr_body KK WV WU q kw bn lim st = Ok st' /\ cstep st st' be bh s2 ah de /\
    exists i, (i = g_istop st \/ i = 8%Z) /\ (c_etol kw = 0 -> (forall l, 0 <= c_lnorm kw l) -> i = g_istop st) /\
      g_istop st' = (if Rleb (sqrt (g_rnorm st') / bn) (c_btol kw) then 1%Z
                     else if (lim <=? Z.of_nat (g_itn st'))%Z then 7%Z else i) /\
      g_brk st' = (0 <? g_istop st')%Z.
Proof.
  intros bn lim st HB NV NG RN. unfold cr_body. cbv zeta. rewrite NM, NN.
  destruct (xc_bidiag (g_Mu st) (g_v st) (g_alpha st) (g_cnt st) (g_Nv st) (or_introl NV))
    as (u' & v' & al' & be & cnt' & Nv' & H & BD & NV').
  destruct NV' as [NV' _]. specialize (NV' NV).
  rewrite H. cbn [rbind].
  destruct (xc_rot (g_c st) (g_s st) al' be) as (bh & s2 & ah & c' & s' & de & H2 & RT). rewrite H2. cbn [rbind].
  pose proof (rt_ah0 _ _ _ _ _ _ _ _ _ _ RT) as PA.
  unfold cr_upd. cbv zeta.
  rewrite (ex_div dv sq DV) by lra. cbn [rbind]. rewrite (ex_div dv sq DV) by lra. cbn [rbind].
  change (@smul KK (@sneg KK bh) (g_tau st)) with (- bh * (g_tau st : R)).
  change (@smul KK (@sneg KK bh) (g_zeta st)) with (- bh * (g_zeta st : R)).
  set (tau' := - bh * (g_tau st : R) / ah). set (zeta' := - bh * (g_zeta st : R) / ah).
  change (@smul KK tau' tau') with (tau' * tau').
  change (@sadd KK (g_rnrg2 st) (tau' * tau')) with ((g_rnrg2 st : R) + tau' * tau').
  change (@sadd KK (g_rnorm st) (tau' * tau')) with ((g_rnorm st : R) + tau' * tau').
  destruct (xc_derr (c_window kw) (c_etol kw) (c_lnorm kw) (g_itn st + 1) tau' ((g_rnrg2 st : R) + tau' * tau')
    (g_dErr st) (g_dirs st) (g_istop st) HW ltac:(nra)) as (dE' & di' & i' & H3 & I1 & I2).
  rewrite H3. cbn [rbind].
  rewrite xc_tests by nra. cbn [rbind].
  eexists _, be, bh, s2, ah, de. split; [reflexivity|]. split.
  - split; cbn [g_Mu g_v g_alpha g_c g_s g_Nv g_d g_tau g_zeta g_r g_x g_wbar g_rnorm g_rnrg2 g_xnrg2 g_r1 g_itn g_norms g_resids
                g_itp g_itd]; try assumption; try reflexivity.
    + cbn. rewrite DV by lra. reflexivity.
    + unfold tau'. field. lra.
    + unfold zeta'. field. lra.
    + auto.
  - exists i'. cbn [g_istop g_rnorm g_itn g_brk]. auto.
Qed.

Definition E_ (p : iv E1 * iv E2) : R := ip (fst p) (fst p) + ip (snd p) (snd p).

(** The Galerkin iterate of [(AA' + I) r = b] in the Krylov space of dimension [k]. *)
Definition galerkin (k : nat) (p : iv E1 * iv E2) : Prop :=
  fst p = At (snd p) /\ kry AAt b k (snd p) /\ forall z, kry AAt b k z -> ip z (isub b (TT (snd p))) = 0.

Definition cr_live (st : cr_st WV WU) : Prop := exists U V ah,
  CI A At b (g_itn st) U V (g_Mu st) (g_v st) (g_alpha st) (g_c st) (g_s st) ah (g_d st) /\
  isub b (TT (g_r st)) = iscale (- (g_tau st * g_c st)) (isub (A (g_v st)) (iscale (g_alpha st) (g_Mu st : iv E2))) /\
  ip b (g_d st : iv E2) = g_tau st /\
  (g_v st : iv E1) = iadd (iscale (g_c st) (At (g_d st))) (iscale (g_s st) (g_wbar st : iv E1)).
Definition cr_done (st : cr_st WV WU) : Prop := b = TT (g_r st) /\ (g_c st * g_tau st : R) = 0.

Record cr_inv (bn : R) (st : cr_st WV WU) (ps : list (iv E1 * iv E2)) : Prop := {
  cv_Nv : g_Nv st = Some (g_v st);
  cv_rnrg : 0 <= (g_rnrg2 st : R);
  cv_rn0 : 0 < (g_rnorm st : R);
  cv_r10 : 0 <= (g_r1 st : R);
  cv_x : (g_x st : iv E1) = At (g_r st);
  cv_zt : (g_zeta st : R) = g_tau st;
  cv_rn : (g_rnorm st : R) = ip b (g_r st : iv E2);
  cv_kr : kry AAt b (S (g_itn st)) (g_r st);
  cv_ph : cr_live st \/ cr_done st;
  cv_len : length ps = S (g_itn st);
  cv_last : last ps (izero, izero) = (g_x st : iv E1, g_r st : iv E2);
  cv_ps : forall i p, nth_error ps i = Some p -> galerkin (S i) p;
  cv_nrg : (g_xnrg2 st : R) = E_ (last ps (izero, izero)) - E_ (hd (izero, izero) ps);
  cv_lists : (c_sit kw = true -> g_itp st = map fst ps /\ g_itd st = map snd ps) /\
             (c_sres kw = true -> (g_resids st : list R) = map E_ ps /\
                (g_norms st : list R) = map (fun p => E_ p - E_ (hd (izero, izero) ps)) ps);
  cv_test : (1 <= g_itn st)%nat -> g_brk st = false -> (c_btol kw : R) < sqrt (g_rnorm st) / bn;
  cv_one : g_istop st = 1%Z -> g_itn st = 1%nat;
  cv_no4 : g_istop st <> 4%Z }.

Lemma cr_gal : forall st, cr_live st \/ cr_done st ->
  forall z, kry AAt b (S (g_itn st)) z -> ip z (isub b (TT (g_r st))) = 0.
Proof.
  intros st [(U & V & ah & CIn & RR & _)|[E _]] z Hz.
  - rewrite RR, ip_scale. rewrite (ci_gal A At AD b CIn z Hz). ring.
  - rewrite <- E. ipx. ring.
Qed.

Lemma gal_nrg : forall k p, galerkin k p -> E_ p = ip b (snd p).
Proof.
  intros k [x r] (H1 & H2 & H3). cbn [fst snd] in *. unfold E_. cbn [fst snd]. rewrite H1.
  rewrite <- (TT_ip A At AD). specialize (H3 r H2). ipx_in H3. rewrite (ip_sym b). lra.
Qed.

Lemma hd_app : forall {T} (l l' : list T) d, l <> [] -> hd d (l ++ l') = hd d l.
Proof. intros T [|a l] l' d H; [congruence|reflexivity]. Qed.

(** The new phase. *)
Lemma cr_phase : forall st st' be bh s2 ah de, cstep st st' be bh s2 ah de ->
  (g_zeta st : R) = g_tau st -> (g_x st : iv E1) = At (g_r st) -> (g_rnorm st : R) = ip b (g_r st : iv E2) ->
  kry AAt b (S (g_itn st)) (g_r st) ->
  cr_live st \/ cr_done st ->
  (cr_live st' \/ cr_done st') /\ (g_zeta st' : R) = g_tau st' /\ (g_x st' : iv E1) = At (g_r st') /\
  (g_rnorm st' : R) = ip b (g_r st' : iv E2) /\ kry AAt b (S (g_itn st')) (g_r st').
Proof.
  intros st st' be bh s2 ah de [BD RT NV' D' TA ZE RR XX WB RN RG XG R1 IT LI] ZT X0 RN0 KR PH.
  destruct RT as [Rbh Rde Rde0 Rs2 Rah Rah0 Rc Rs].
  assert (ZT' : (g_zeta st' : R) = g_tau st').
  { apply Rmult_eq_reg_r with ah; [|lra]. rewrite ZE, TA, ZT. reflexivity. }
  assert (KR1 : kry AAt b (S (g_itn st')) (g_r st)).
  { rewrite IT, Nat.add_1_r. apply kry_S; [exact (sym_AAt A At AD)|exact KR]. }
  assert (DN : isub b (TT (g_r st)) = izero -> (g_tau st' : R) = 0 ->
     (cr_live st' \/ cr_done st') /\ (g_zeta st' : R) = g_tau st' /\ (g_x st' : iv E1) = At (g_r st') /\
     (g_rnorm st' : R) = ip b (g_r st' : iv E2) /\ kry AAt b (S (g_itn st')) (g_r st')).
  { intros Z T0.
    assert (Er : (g_r st' : iv E2) = g_r st) by (rewrite RR, T0; veq).
    assert (Ex : (g_x st' : iv E1) = g_x st) by (rewrite XX, ZT', T0; veq).
    split; [right; split; [|rewrite T0; ring]|split; [exact ZT'|split; [|split]]].
    - rewrite Er. apply ip_ext. intro w. pose proof (f_equal (ip w) Z) as H. ipx_in H. lra.
    - rewrite Ex, Er. exact X0.
    - rewrite RN, T0, Er, RN0. ring.
    - rewrite Er. exact KR1. }
  destruct PH as [(U & V & ah0 & CIn & GR & GB & GV)|[E0 CT]].
  2:{ apply DN.
      - rewrite <- E0. veq.
      - apply Rmult_eq_reg_r with ah; [|lra]. rewrite TA, Rbh. transitivity (- be * (g_c st * g_tau st)); [ring|].
        rewrite CT. ring. }
  destruct BD as [B0 B1 B2 B3 B4 B5].
  set (y := isub (A (g_v st)) (iscale (g_alpha st) (g_Mu st : iv E2))) in *.
  destruct (Rle_lt_or_eq_dec 0 be) as [PB|ZB]; [rewrite B0; apply inorm_pos| |].
  2:{ assert (Y0 : y = izero) by (apply inorm_zero; congruence).
      apply DN.
      - rewrite GR, Y0. veq.
      - apply Rmult_eq_reg_r with ah; [|lra]. rewrite TA, Rbh, <- ZB. ring. }
  specialize (B2 PB). specialize (B3 PB). specialize (B4 PB). specialize (B5 PB).
  assert (Yu : y = iscale be (g_Mu st')). { rewrite B2. apply ip_ext. intro w. ipx. field. lra. }
  assert (U1 : ip (g_Mu st' : iv E2) (g_Mu st') = 1).
  { rewrite B2, B0. apply unit_norm. rewrite <- B0. exact PB. }
  set (z := isub (At (g_Mu st')) (iscale be (g_v st : iv E1))) in *.
  assert (AL : 0 <= (g_alpha st' : R)) by (rewrite B3; apply inorm_pos).
  assert (Zv : z = iscale (g_alpha st') (g_v st')).
  { destruct (Rle_lt_or_eq_dec 0 (g_alpha st') AL) as [P|Z].
    - rewrite (B4 P). apply ip_ext. intro w. ipx. field. lra.
    - rewrite <- Z. apply ip_ext. intro w. rewrite ip_scale.
      assert (z = izero) as -> by (apply inorm_zero; rewrite <- B3; auto). ipx. ring. }
  assert (HD : iscale ah (g_d st') = isub (g_Mu st' : iv E2) (iscale (g_c st * be) (g_d st : iv E2))).
  { rewrite D', Rbh. apply ip_ext. intro w. ipx. field. lra. }
  assert (TA2 : (g_tau st' : R) * ah = - (g_c st * be) * g_tau st) by (rewrite TA, Rbh; ring).
  assert (GR' : isub b (TT (g_r st')) =
     iscale (- (g_tau st' * g_c st')) (isub (A (g_v st')) (iscale (g_alpha st') (g_Mu st' : iv E2)))).
  { rewrite RR. exact (cg_r A At AD b CIn be (g_Mu st') Yu (g_v st') (g_alpha st') Zv de ah (g_c st')
        (g_d st') Rde Rah Rah0 Rc HD (g_r st) (g_tau st) (g_tau st') GR TA2). }
  assert (GB' : ip b (g_d st' : iv E2) = g_tau st').
  { exact (cg_bd A At AD b CIn be (g_Mu st') PB Yu ah (g_d st') Rah0 HD (g_tau st) (g_tau st') TA2 GB). }
  assert (GW : At (g_d st') = iadd (iscale (g_c st') (g_v st' : iv E1)) (iscale (g_s st') (iscale s2 (g_wbar st : iv E1)))).
  { rewrite Rs2. apply (cg_w A At AD be (g_Mu st') (g_v st') (g_alpha st') Zv de ah (g_c st') (g_s st') (g_d st')
      Rah0 Rc Rs HD (g_wbar st) GV). lra. }
  assert (X' : (g_x st' : iv E1) = At (g_r st')).
  { rewrite XX, RR, (lin_add At LAt), (lin_scale At LAt), GW, ZT', X0. reflexivity. }
  assert (KD : kry AAt b (S (S (g_itn st))) (g_d st')).
  { exact (st_kd A At AD b CIn be (g_Mu st') PB Yu ah (g_d st') Rah0 HD). }
  split; [|split; [exact ZT'|split; [exact X'|split]]].
  - destruct (Rle_lt_or_eq_dec 0 (g_alpha st') AL) as [P|Z].
    + left. exists ((g_Mu st : iv E2) :: U), ((g_v st : iv E1) :: V), ah. rewrite IT, Nat.add_1_r.
      split; [|split; [exact GR'|split; [exact GB'|]]].
      * apply (ci_step A At AD b CIn be (g_Mu st') PB Yu U1 (g_v st') (g_alpha st') Zv de ah (g_c st') (g_s st') (g_d st')
                 Rde Rah Rah0 Rc Rs HD P).
        rewrite (B4 P), B3. apply unit_norm. rewrite <- B3. exact P.
      * rewrite WB, GW. apply ip_ext. intro w. ipx.
        assert (S1 : (g_s st' * g_s st' : R) = 1 - g_c st' * g_c st').
        { exact (st_1 be (g_alpha st') de ah (g_c st') (g_s st') Rde Rah Rc Rs). }
        ring [S1].
    + right. assert (C0 : (g_c st' : R) = 0).
      { apply Rmult_eq_reg_r with ah; [|lra]. rewrite Rc, <- Z. ring. }
      split; [|rewrite C0; ring].
      apply ip_ext. intro w. pose proof (f_equal (ip w) GR') as H. rewrite C0 in H. ipx_in H. lra.
  - rewrite RN, RN0, RR, ip_add, ip_scale, GB'. reflexivity.
  - rewrite RR. apply kry_add; [exact (sym_AAt A At AD)|exact KR1|].
    apply kry_scale; [exact (sym_AAt A At AD)|]. rewrite IT, Nat.add_1_r. exact KD.
Qed.

Lemma cr_step_inv : forall (bn : R) lim (st : cr_st WV WU) ps, 0 < bn -> cr_inv bn st ps -> cr_cond lim st = true ->
  g_istop st = 0%Z ->
  exists st' p, @cr_body KK WV WU q kw bn lim st = Ok st' /\ cr_inv bn st' (ps ++ [p]) /\ g_itn st' = (g_itn st + 1)%nat.
Proof.
  intros bn lim st ps HB I C I0. destruct I as [V1 V2 V3 V4 V5 V6 V7 V8 V9 V10 V11 V12 V13 V14 V15 V16 V17].
  destruct (xc_body bn lim st HB V1 V2 V3) as (st' & be & bh & s2 & ah & de & H & CS & i & W1 & W2 & W3 & W4).
  destruct (cr_phase st st' be bh s2 ah de CS V6 V5 V7 V8 V9) as (P1 & P2 & P3 & P4 & P5).
  pose proof CS as [BD RT NV' D' TA ZE RR XX WB RN RG XG R1 IT (L1 & L2 & L3 & L4)].
  assert (RM : (g_rnorm st : R) <= g_rnorm st') by nra.
  assert (NE : ps <> []) by (intro Z; rewrite Z in V10; discriminate).
  set (p := (g_x st' : iv E1, g_r st' : iv E2)).
  assert (GP : galerkin (S (g_itn st')) p).
  { split; [exact P3|]. split; [exact P5|]. intros z Hz. apply (cr_gal st' P1 z Hz). }
  assert (EP : E_ p = g_rnorm st') by (rewrite (gal_nrg _ _ GP), P4; reflexivity).
  assert (EL : E_ (last ps (izero, izero)) = g_rnorm st).
  { rewrite V11, V7. apply (gal_nrg (S (g_itn st)) (g_x st : iv E1, g_r st : iv E2)).
    split; [exact V5|]. split; [exact V8|]. intros z Hz. apply (cr_gal st V9 z Hz). }
  assert (XN : (g_xnrg2 st' : R) = E_ p - E_ (hd (izero, izero) ps)).
  { rewrite XG, V13, EP, EL, P2, RN. ring. }
  exists st', p. split; [exact H|]. split; [|exact IT].
  split.
  - exact NV'.
  - nra.
  - nra.
  - nra.
  - exact P3.
  - exact P2.
  - exact P4.
  - exact P5.
  - exact P1.
  - rewrite app_length, V10, IT. cbn [length]. lia.
  - rewrite last_snoc. reflexivity.
  - intros j pj Hj. destruct (Nat.lt_ge_cases j (length ps)) as [L|L].
    + rewrite nth_error_app1 in Hj by exact L. apply V12. exact Hj.
    + rewrite nth_error_app2 in Hj by exact L. destruct (j - length ps)%nat as [|k] eqn:J; [|destruct k; discriminate].
      injection Hj as <-. replace (S j) with (S (g_itn st')) by lia. exact GP.
  - rewrite last_snoc, hd_app by exact NE. exact XN.
  - destruct V14 as [W5 W6]. rewrite hd_app by exact NE. rewrite !map_app, L1, L2, L3, L4. cbn [map].
    split; intro Z; rewrite Z.
    + destruct (W5 Z) as [-> ->]. split; reflexivity.
    + destruct (W6 Z) as [-> ->]. rewrite EP, XN, EP. split; reflexivity.
  - intros _ Bk. destruct (Rleb (sqrt (g_rnorm st') / bn) (c_btol kw)) eqn:E.
    + rewrite W4, W3 in Bk. discriminate.
    + apply Rleb_false in E. lra.
  - intro Z. rewrite W3 in Z. destruct (Rleb (sqrt (g_rnorm st') / bn) (c_btol kw)) eqn:E.
    + apply Rleb_true in E. destruct (Nat.eq_dec (g_itn st) 0) as [Z0|N0]; [lia|]. exfalso.
      unfold cr_cond in C. apply andb_prop in C as [_ C]. apply negb_true_iff in C.
      specialize (V15 ltac:(lia) C).
      assert (sqrt (g_rnorm st) / bn <= sqrt (g_rnorm st') / bn); [|lra].
      apply Rmult_le_compat_r; [apply Rlt_le, Rinv_0_lt_compat; exact HB|apply sqrt_le_1_alt; exact RM].
    + destruct (lim <=? _)%Z; [discriminate|]. rewrite I0 in W1. lia.
  - rewrite W3, I0 in *. destruct (Rleb _ _); [discriminate|]. destruct (lim <=? _)%Z; [discriminate|]. lia.
Qed.

Lemma cr_xinit : forall cnt, 0 < inorm b -> exists st p, @cr_init KK WV WU q kw b cnt = Ok (st, inorm b) /\
  cr_inv (inorm b) st [p].
Proof.
  intros cnt HB. unfold cr_init. cbv zeta. rewrite NM, NN.
  assert (CL : exists a, (if @sgtb KK (c_conlim kw) (@s0 KK) then @pydiv KK (@s1 KK) (c_conlim kw) else Ok (@s0 KK)) = Ok a).
  { destruct (@sgtb KK (c_conlim kw) (@s0 KK)) eqn:G; [|eauto]. apply ex_gt in G.
    rewrite (ex_div dv sq DV) by (intro Z; rewrite Z in G; lra). eauto. }
  destruct CL as [a0 ->]. cbn [rbind].
  destruct (ex_gk dv sq DV SQ E2 nv2 b) as (u & G1 & G2 & _). rewrite G1. cbn [rbind]. specialize (G2 HB).
  replace (@sgtb KK (inorm b) (@s0 KK)) with true by (symmetry; apply ex_gt; exact HB).
  destruct (ex_gk dv sq DV SQ E1 nv1 (lp_At q u)) as (v & H1 & H2 & H3). rewrite H1. cbn [rbind].
  change (lp_At q u) with (At u) in *.
  set (al := inorm (At u)) in *. assert (AL : 0 <= al) by apply inorm_pos.
  rewrite (ex_norm2 dv sq SQ). cbn [rbind]. change (@s1 KK) with 1. set (ah := sqrt (al * al + 1 * 1)).
  assert (PA : 0 < ah) by (apply norm2_pos; right; lra).
  assert (SA : ah * ah = al * al + 1) by (unfold ah; rewrite norm2_sq; ring).
  rewrite !(ex_div dv sq DV) by lra. cbn [rbind].
  set (d := @vdivs KK WU u ah). set (tau := inorm b / ah). set (c := al / ah). set (s := 1 / ah).
  assert (Hd : d = iscale (1 / ah) u) by (unfold d; cbn; rewrite DV by lra; reflexivity).
  assert (Hd2 : iscale ah d = u) by (rewrite Hd; apply ip_ext; intro w; ipx; field; lra).
  assert (EB : b = iscale (inorm b) u) by (rewrite G2; apply ip_ext; intro w; ipx; field; lra).
  assert (U1 : ip u u = 1) by (rewrite G2; apply unit_norm; exact HB).
  assert (Zv : At u = iscale al v).
  { destruct (Rle_lt_or_eq_dec 0 al AL) as [P|Z].
    - rewrite (H2 P). apply ip_ext. intro w. ipx. field. lra.
    - assert (At u = izero) as -> by (apply inorm_zero; auto). rewrite <- Z. apply ip_ext. intro w. ipx. ring. }
  assert (Cc : c * ah = al) by (unfold c; field; lra). assert (Ss : s * ah = 1) by (unfold s; field; lra).
  assert (SC : s * s = 1 - c * c).
  { apply Rmult_eq_reg_r with (ah * ah); [|nra]. transitivity (s * ah * (s * ah)); [ring|].
    rewrite Ss. transitivity (ah * ah - c * ah * (c * ah)); [|ring]. rewrite Cc. lra. }
  assert (Td : TT d = iadd (iscale ah u) (iscale c (isub (A v) (iscale al u)))).
  { rewrite Hd, TT_scale by exact AD. unfold CraigMath.TT. rewrite Zv, (lin_scale A LA).
    apply ip_ext. intro w. ipx. apply Rmult_eq_reg_l with ah; [|lra]. unfold c. field_simplify; [|lra|lra].
    replace (ah ^ 2) with (al * al + 1) by (rewrite <- SA; ring). ring. }
  assert (BD : ip b d = tau).
  { rewrite Hd, ip_scale. transitivity (1 / ah * ip (iscale (inorm b) u) u); [rewrite <- EB; reflexivity|].
    rewrite ip_scalel, U1. unfold tau. field. lra. }
  assert (KD : kry AAt b 1 d).
  { rewrite Hd. apply kry_scale; [exact (sym_AAt A At AD)|]. rewrite G2. apply kry_scale; [exact (sym_AAt A At AD)|].
    apply kry_b. exact (sym_AAt A At AD). }
  assert (AR : At (iscale tau d) = iscale (s * inorm b) (iscale c v)).
  { rewrite Hd, !(lin_scale At LAt), Zv. apply ip_ext. intro w. ipx. unfold tau, s, c. field. lra. }
  assert (RES : isub b (TT (iscale tau d)) = iscale (- (tau * c)) (isub (A v) (iscale al u))).
  { rewrite TT_scale, Td by exact AD. apply ip_ext. intro w. ipx.
    transitivity (ip w (iscale (inorm b) u) - tau * (ah * ip w u + c * (ip w (A v) - al * ip w u))); [rewrite <- EB; ring|].
    ipx. unfold tau. field. lra. }
  eexists _, (iscale (s * inorm b) (iscale c v), iscale tau d). split; [reflexivity|].
  set (st := mkcr _ _ _ _ _ _ _ _ _ _ _ _ _ _ _ _ _ _ _ _ _ _ _ _ _ _ _ _ _).
  assert (PH : cr_live st \/ cr_done st).
  { destruct (Rle_lt_or_eq_dec 0 al AL) as [P|Z].
    - left. exists [], [], ah. split; [|split; [exact RES|split; [exact BD|]]].
      + apply (ci_start A At AD b u v al (inorm b)); auto.
        rewrite (H2 P). apply unit_norm. exact P.
      + change (v = iadd (iscale c (At d)) (iscale s (iscale s v))).
        rewrite Hd, (lin_scale At LAt), Zv. apply ip_ext. intro w. ipx.
        assert (1 / ah * al = c) as X by (unfold c; field; lra).
        transitivity (c * (1 / ah * al) * ip w v + s * s * ip w v); [rewrite X, SC; ring|ring].
    - right. assert (C0 : c = 0) by (unfold c; rewrite <- Z; field; lra). split.
      + change (b = TT (iscale tau d)). apply ip_ext. intro w. pose proof (f_equal (ip w) RES) as H. rewrite C0 in H.
        ipx_in H. lra.
      + change (c * tau = 0). rewrite C0. ring. }
  assert (GP : galerkin 1 (iscale (s * inorm b) (iscale c v), iscale tau d)).
  { split; [symmetry; exact AR|]. split.
    - apply kry_scale; [exact (sym_AAt A At AD)|exact KD].
    - exact (cr_gal st PH). }
  pose proof (gal_nrg _ _ GP) as NR. cbn [snd] in NR. rewrite ip_scale, BD in NR.
  split; cbn [g_Nv g_rnrg2 g_rnorm g_r1 g_x g_r g_v g_zeta g_tau g_itn g_xnrg2 g_itp g_itd g_resids g_norms g_brk g_istop
              length last hd map st].
  - reflexivity.
  - apply Rle_refl.
  - change (0 < tau * tau). assert (0 < tau) by (apply Rdiv_lt_0_compat; assumption). nra.
  - change (0 <= s * (s * inorm b) * (s * (s * inorm b))). nra.
  - symmetry. exact AR.
  - change (s * inorm b = tau). unfold s, tau. field. lra.
  - change (tau * tau = ip b (iscale tau d)). rewrite ip_scale, BD. reflexivity.
  - apply kry_scale; [exact (sym_AAt A At AD)|exact KD].
  - exact PH.
  - reflexivity.
  - reflexivity.
  - intros [|i] p Hp; [|destruct i; discriminate]. injection Hp as <-. exact GP.
  - change (0 = E_ (iscale (s * inorm b) (iscale c v), iscale tau d) - E_ (iscale (s * inorm b) (iscale c v), iscale tau d)). ring.
  - split; intro Z; rewrite Z; split; try reflexivity.
    + rewrite NR. reflexivity.
    + f_equal. change (0 = E_ (iscale (s * inorm b) (iscale c v), iscale tau d) - E_ (iscale (s * inorm b) (iscale c v), iscale tau d)). ring.
  - intros Z. exfalso. lia.
  - discriminate.
  - discriminate.
Qed.

(** The run in exact arithmetic. *)
Record cr_spec (r : cr_out WV WU) (ps : list (iv E1 * iv E2)) : Prop := {
  cp_len : length ps = S (go_itn r);
  cp_last : last ps (izero, izero) = (go_x r : iv E1, go_r r : iv E2);
  cp_ps : forall i p, nth_error ps i = Some p -> galerkin (S i) p;
  cp_sit : c_sit kw = true -> go_itp r = map fst ps /\ go_itd r = map snd ps;
  cp_sres : c_sres kw = true -> (go_resids r : list R) = map E_ ps /\
     (go_norms r : list R) = map (fun p => E_ p - E_ (hd (izero, izero) ps)) ps;
  cp_r2 : (go_r2norm r : R) = sqrt (E_ (last ps (izero, izero)));
  cp_one : go_istop r = 1%Z -> go_itn r = 1%nat;
  cp_no4 : go_istop r <> 4%Z;
  cp_dim : forall n, dim_le E1 n \/ dim_le E2 n -> (n <= go_itn r)%nat -> TT (go_r r) = b }.

Lemma cr_exact : forall fuel cnt, 0 < inorm b -> c_wantvar kw = false -> (1 <= cr_lim q kw)%Z ->
  (Z.to_nat (cr_lim q kw) < fuel)%nat ->
  exists r cnt' ps, @cr_solve KK WV WU fuel q kw b cnt = Ok (r, cnt') /\ cr_spec r ps.
Proof.
  intros fuel cnt HB HV HL HF. unfold cr_solve. rewrite HV.
  destruct (cr_xinit cnt HB) as (st0 & p0 & H0 & I0).
  destruct (cr_init_spec q kw _ _ _ _ H0) as (J1 & J2 & J3 & J4 & J5 & J6 & F0).
  rewrite H0. cbn [rbind].
  set (I := fun st => cr_flow q kw st0 st /\ exists ps, cr_inv (inorm b) st ps).
  assert (ST : forall st, I st -> cr_cond (cr_lim q kw) st = true ->
     exists st', cr_body q kw (inorm b) (cr_lim q kw) st = Ok st' /\ I st' /\
       (Z.to_nat (cr_lim q kw) - g_itn st' < Z.to_nat (cr_lim q kw) - g_itn st)%nat).
  { intros st [F [ps IV]] C.
    assert (BK : g_brk st = false). { unfold cr_cond in C. apply andb_prop in C as [_ C]. apply negb_true_iff in C. exact C. }
    destruct (cr_step_inv (inorm b) (cr_lim q kw) st ps HB IV C (cf_run _ _ _ _ F BK)) as (st' & p & B & IV' & N).
    exists st'. split; [exact B|]. split.
    - split; [apply (cr_step_flow q kw (inorm b) st0 st st' J1 F C B)|eauto].
    - unfold cr_cond in C. apply andb_prop in C as [C _]. apply Z.ltb_lt in C. lia. }
  destruct (while_term (cr_cond (cr_lim q kw)) (cr_body q kw (inorm b) (cr_lim q kw)) I
    (fun st => (Z.to_nat (cr_lim q kw) - g_itn st)%nat) ST fuel st0) as (st & W).
  { split; [exact F0|eauto]. }
  { cbv beta. lia. }
  rewrite W. cbn [rbind].
  assert (IS : I st /\ cr_cond (cr_lim q kw) st = false).
  { revert W. apply while_inv.
    - intros s s' Is C B. destruct (ST s Is C) as (s2 & B2 & I2 & _). rewrite B2 in B. injection B as <-. exact I2.
    - split; [exact F0|eauto]. }
  destruct IS as [[F [ps IV]] CF].
  assert (N1 : (1 <= g_itn st)%nat).
  { destruct (Nat.eq_dec (g_itn st) 0) as [Z|Z]; [|lia]. exfalso. rewrite (cf_zero _ _ _ _ F Z) in CF.
    unfold cr_cond in CF. rewrite J2, J4 in CF. cbn [Z.of_nat] in CF.
    replace (@seqb KK (inorm b) (@s0 KK)) with false in CF.
    - rewrite andb_true_r in CF. apply Z.ltb_ge in CF. lia.
    - symmetry. apply Reqb_false. cbn. lra. }
  pose proof (cf_Ar _ _ _ _ F N1) as AR. destruct (g_Ar st) as [Ar|] eqn:EA; [|congruence].
  destruct IV as [V1 V2 V3 V4 V5 V6 V7 V8 V9 V10 V11 V12 V13 V14 V15 V16 V17].
  rewrite (ex_sqrt dv sq SQ) by exact V4. cbn [rbind]. rewrite (ex_sqrt dv sq SQ) by lra. cbn [rbind].
  eexists _, _, ps. split; [reflexivity|].
  split; cbn [go_itn go_x go_r go_itp go_itd go_resids go_norms go_r2norm go_istop]; try assumption.
  - apply V14.
  - apply V14.
  - f_equal. rewrite V7, V11. symmetry. apply (gal_nrg (S (g_itn st)) (g_x st : iv E1, g_r st : iv E2)).
    split; [exact V5|]. split; [exact V8|]. intros z Hz. apply (cr_gal st V9 z Hz).
  - intros n DM HN. destruct V9 as [(U & V & ah & CIn & _)|[E _]]; [exfalso|symmetry; exact E].
    destruct DM as [DM|DM].
    + pose proof (gk_dim A At U V _ _ _ n (ci_gk CIn) DM) as L. rewrite (ci_lV CIn) in L. lia.
    + pose proof (gk_dim_u A At U V _ _ _ n (ci_gk CIn) DM) as L. rewrite (ci_lU CIn) in L. lia.
Qed.

(** A Galerkin iterate in an invariant Krylov space is the solution. *)
Lemma gal_inv : forall k p, galerkin k p -> (forall z, kry AAt b (S k) z -> kry AAt b k z) ->
  TT (snd p) = b.
Proof.
  intros k [x r] (H1 & H2 & H3) HI. cbn [fst snd] in *.
  assert (K : kry AAt b k (isub b (TT r))).
  { apply HI. pose proof (sym_AAt A At AD) as SA.
    replace (isub b (TT r)) with (isub (isub b (AAt r)) r) by (unfold CraigMath.TT, CraigMath.AAt; veq).
    apply kry_sub; [exact SA| |apply kry_S; [exact SA|exact H2]].
    apply kry_sub; [exact SA| |apply kry_A; exact H2].
    apply kry_b. exact SA. }
  specialize (H3 _ K). apply ip_def in H3. apply ip_ext. intro w. pose proof (f_equal (ip w) H3) as H. ipx_in H. lra.
Qed.

(** What [TT r = b] says about [x = A'r]. *)
Lemma tt_normal : forall x r, x = At r -> TT r = b ->
  iadd (A x) r = b /\ iadd (At (A x)) x = At b.
Proof.
  intros x r -> H. unfold CraigMath.TT in H. split; [exact H|]. rewrite <- H, (lin_add At LAt). reflexivity.
Qed.

Lemma cr_zero : forall fuel cnt, b = izero -> c_wantvar kw = false -> @cr_solve KK WV WU fuel q kw b cnt = Err UnboundLocalError.
Proof.
  intros fuel cnt Z HV. unfold cr_solve. rewrite HV. unfold cr_init. cbv zeta. rewrite NM, NN.
  assert (CL : exists a, (if @sgtb KK (c_conlim kw) (@s0 KK) then @pydiv KK (@s1 KK) (c_conlim kw) else Ok (@s0 KK)) = Ok a).
  { destruct (@sgtb KK (c_conlim kw) (@s0 KK)) eqn:G; [|eauto]. apply ex_gt in G.
    rewrite (ex_div dv sq DV) by (intro Z0; rewrite Z0 in G; lra). eauto. }
  destruct CL as [a0 ->]. cbn [rbind].
  destruct (ex_gk dv sq DV SQ E2 nv2 b) as (u & G1 & _). rewrite G1. cbn [rbind].
  assert (B0 : inorm b = 0) by (rewrite Z; apply inorm_izero).
  replace (@sgtb KK (inorm b) (@s0 KK)) with false by (symmetry; apply ex_gtf; lra). cbn [rbind].
  rewrite (ex_norm2 dv sq SQ). cbn [rbind]. change (@s1 KK) with 1. change (@s0 KK) with 0.
  assert (0 < sqrt (0 * 0 + 1 * 1)) by (apply norm2_pos; right; lra).
  rewrite !(ex_div dv sq DV) by lra. reflexivity.
Qed.

Lemma cr_noiter : forall fuel cnt, (cr_lim q kw <= 0)%Z -> c_wantvar kw = false -> (0 < fuel)%nat ->
  @cr_solve KK WV WU fuel q kw b cnt = Err UnboundLocalError.
Proof.
  intros fuel cnt HL HV HF. pose proof (inorm_pos b) as P.
  destruct (Rle_lt_or_eq_dec 0 (inorm b) P) as [HB|Z0].
  2:{ apply cr_zero; [apply inorm_zero; auto|exact HV]. }
  unfold cr_solve. rewrite HV. destruct (cr_xinit cnt HB) as (st0 & p0 & H0 & I0).
  destruct (cr_init_spec q kw _ _ _ _ H0) as (J1 & J2 & J3 & J4 & J5 & J6 & F0).
  rewrite H0. cbn [rbind]. destruct fuel as [|f]; [lia|]. cbn [while].
  replace (cr_cond (cr_lim q kw) st0) with false.
  2:{ symmetry. unfold cr_cond. rewrite J2. replace (Z.of_nat 0 <? cr_lim q kw)%Z with false; [reflexivity|].
      symmetry. apply Z.ltb_ge. cbn. exact HL. }
  cbn [rbind]. rewrite (ex_sqrt dv sq SQ) by exact (cv_r10 _ _ _ I0). cbn [rbind].
  rewrite (ex_sqrt dv sq SQ) by exact (Rlt_le _ _ (cv_rn0 _ _ _ I0)). cbn [rbind]. rewrite J5. reflexivity.
Qed.
End Cr.

(** ** CRAIG-MR *)
Section Cm.
Variable kw : cm_kw WV WU.
Hypothesis NM : h_M kw = None.
Hypothesis NN : h_N kw = None.
Hypothesis HW : (1 <= h_window kw)%nat.

(** The minimal-residual iterate of [(AA' + I) x = b] in the Krylov space of dimension [k]. *)
Definition mres (k : nat) (x : iv E2) : Prop :=
  kry AAt b k x /\ forall z, kry AAt b k z -> ip (TT z) (isub b (TT x)) = 0.

Record mstep (st st' : cm_st WV WU) (be bh ah de rho ch sh : R) : Prop := {
  ms_bd : bd (h_Mu st) (h_v st) (h_alpha st) (h_Mu st') (h_v st') (h_alpha st') be;
  ms_rt : exists s2, rt (h_c st) (h_s st) (h_alpha st') be bh s2 ah (h_c st') (h_s st') de;
  ms_Nv : h_Nv st' = Some (h_v st' : iv E1) \/
    h_Nv st' = None /\ (h_v st' : iv E1) = izero /\ (h_alpha st' : R) = 0;
  ms_rho : 0 < rho; ms_ch : ch * rho = h_atil st; ms_sh : sh * rho = bh; ms_1 : sh * sh = 1 - ch * ch;
  ms_ch0 : ch <> 0;
  ms_dbar : (h_dbar st' : iv E2) = iscale (1 / rho) (isub (h_d st : iv E2) (iscale (h_theta st) (h_dbar st : iv E2)));
  ms_theta : (h_theta st' : R) = sh * ah; ms_atil : (h_atil st' : R) = - ch * ah;
  ms_zhat : (h_zhat st' : R) = sh * h_zhat st;
  ms_d : (h_d st' : iv E2) = iscale (1 / ah) (isub (h_Mu st' : iv E2) (iscale bh (h_d st : iv E2)));
  ms_x : (h_x st' : iv E2) = iadd (h_x st : iv E2) (iscale (ch * h_zhat st) (h_dbar st' : iv E2));
  ms_nrg : (h_nrg2 st' : R) = h_nrg2 st + ch * h_zhat st * (ch * h_zhat st);
  ms_itn : h_itn st' = (h_itn st + 1)%nat;
  ms_lists : h_norms st' = (if h_sres kw then h_norms st ++ [h_nrg2 st'] else h_norms st) /\
             h_nresids st' = (if h_sres kw then h_nresids st ++ [Rabs (ch * h_zhat st)] else h_nresids st) /\
             h_iters st' = (if h_sit kw then h_iters st ++ [h_x st'] else h_iters st) }.

Definition nvok (st : cm_st WV WU) : Prop := h_Nv st = Some (h_v st) \/
  h_Nv st = None /\ (h_v st : iv E1) = izero /\ (h_alpha st : R) = 0.

Lemma divmul : forall a r : R, r <> 0 -> a = a / r * r.
Proof. intros. field. assumption. Qed.

Lemma xm_body : forall lim (st : cm_st WV WU), nvok st -> (h_atil st : R) <> 0 -> 0 <= (h_nrg2 st : R) ->
  exists st' be bh ah de rho ch sh, @cm_body KK WV WU q kw lim st = Ok st' /\ mstep st st' be bh ah de rho ch sh.
Proof.
  intros lim st NV AT NG. unfold cm_body. cbv zeta. rewrite NM, NN.
  assert (NV2 : h_Nv st = Some (h_v st) \/ h_Nv st = None /\
    inorm (isub (A (h_v st)) (iscale (h_alpha st) (h_Mu st : iv E2))) = 0).
  { destruct NV as [H|(H & Hv & Ha)]; [auto|right]. split; [exact H|]. rewrite Hv, Ha, (lin_zero A LA).
    assert (isub izero (iscale 0 (h_Mu st : iv E2)) = izero) as -> by veq. apply inorm_izero. }
  destruct (xc_bidiag (h_Mu st) (h_v st) (h_alpha st) (h_cnt st) (h_Nv st) NV2)
    as (u' & v' & al' & be & cnt' & Nv' & H & BD & NVa & NVb).
  rewrite H. cbn [rbind].
  destruct (xc_rot (h_c st) (h_s st) al' be) as (bh & s2 & ah & c' & s' & de & H2 & RT). rewrite H2. cbn [rbind].
  pose proof (rt_ah0 _ _ _ _ _ _ _ _ _ _ RT) as PA.
  unfold cm_upd. cbv zeta. rewrite (ex_norm2 dv sq SQ). cbn [rbind].
  set (rho := sqrt (h_atil st * h_atil st + bh * bh)).
  assert (PR : 0 < rho) by (apply norm2_pos; left; exact AT).
  assert (SR : rho * rho = h_atil st * h_atil st + bh * bh) by apply norm2_sq.
  rewrite !(ex_div dv sq DV) by lra. cbn [rbind].
  set (ch := (h_atil st : R) / rho). set (sh := bh / rho).
  change (@smul KK ch (h_zhat st)) with (ch * (h_zhat st : R)).
  change (@smul KK (ch * (h_zhat st : R)) (ch * (h_zhat st : R))) with (ch * (h_zhat st : R) * (ch * (h_zhat st : R))).
  set (zeta := ch * (h_zhat st : R)).
  change (@sadd KK (h_nrg2 st) (zeta * zeta)) with ((h_nrg2 st : R) + zeta * zeta).
  destruct (xc_derr (h_window kw) (h_etol kw) (h_lnorm kw) (h_itn st + 1) zeta ((h_nrg2 st : R) + zeta * zeta)
    (h_dErr st) (h_dirs st) (h_istop st) HW ltac:(nra)) as (dE' & di' & i' & H3 & _ & _).
  rewrite H3. cbn [rbind].
  eexists _, be, bh, ah, de, rho, ch, sh. split; [reflexivity|].
  split; cbn [h_Mu h_v h_alpha h_c h_s h_Nv h_d h_dbar h_x h_zhat h_atil h_theta h_nrg2 h_itn h_norms h_nresids h_iters];
    try assumption; try reflexivity.
  - exists s2. exact RT.
  - destruct NV as [N1|(N1 & N2 & N3)].
    + left. apply NVa. exact N1.
    + right. destruct (NVb N1) as (M1 & -> & -> & _). auto.
  - unfold ch. field. lra.
  - unfold sh. field. lra.
  - unfold ch, sh. apply Rmult_eq_reg_r with (rho * rho); [|nra].
    transitivity (bh * bh); [field; lra|].
    transitivity (rho * rho - (h_atil st : R) * h_atil st); [|field; lra]. rewrite SR. ring.
  - intro Z. apply AT. assert (HA := divmul (h_atil st) rho (Rgt_not_eq _ _ PR)). fold ch in HA.
    rewrite HA, Z. apply Rmult_0_l.
  - cbn. rewrite DV by lra. reflexivity.
  - cbn. rewrite DV by lra. reflexivity.
  - auto.
Qed.

(** The facts about [x], [dbar] that hold until the solution is reached. *)
Record mfact (st : cm_st WV WU) (U : list (iv E2)) (ah : R) (p : iv E2) : Prop := {
  mf_r : isub b (TT (h_x st)) = iscale (h_zhat st) p;
  mf_p : ip p p = 1;
  mf_pd : dp ((h_Mu st : iv E2) :: U) p;
  mf_g : dp ((h_Mu st : iv E2) :: U) (TT (h_dbar st));
  mf_gp : ip (TT (h_dbar st)) p = 0;
  mf_u : iscale ah (h_Mu st : iv E2) = iadd (iscale (h_theta st) (TT (h_dbar st))) (iscale (h_atil st) p);
  mf_U : forall t, In t U -> ip p (TT t) = 0;
  mf_kd : kry AAt b (h_itn st) (h_dbar st) }.

Definition cm_live (st : cm_st WV WU) : Prop := exists U V ah p,
  CI A At b (h_itn st) U V (h_Mu st) (h_v st) (h_alpha st) (h_c st) (h_s st) ah (h_d st) /\ mfact st U ah p.
Definition cm_last (st : cm_st WV WU) : Prop := (h_alpha st : R) = 0 /\ (h_v st : iv E1) = izero /\ (h_c st : R) = 0 /\
  (exists U ah p, mfact st U ah p /\ TT (h_d st) = iscale ah (h_Mu st : iv E2)) /\
  kry AAt b (S (h_itn st)) (h_d st) /\
  (forall n, dim_le E1 n -> (h_itn st <= n)%nat) /\ (forall m, dim_le E2 m -> (h_itn st < m)%nat).
Definition cm_done (st : cm_st WV WU) : Prop := b = TT (h_x st) /\ (h_zhat st : R) = 0.

Record cm_inv (st : cm_st WV WU) (xs : list (iv E2)) : Prop := {
  cw_Nv : nvok st;
  cw_at : (h_atil st : R) <> 0;
  cw_c : 0 <= (h_c st : R);
  cw_al : 0 <= (h_alpha st : R);
  cw_z0 : 0 <= (h_zhat st : R);
  cw_z : inorm (isub b (TT (h_x st))) = h_zhat st;
  cw_nrg : (h_nrg2 st : R) = ip b b - h_zhat st * h_zhat st;
  cw_mres : mres (h_itn st) (h_x st);
  cw_ph : cm_live st \/ cm_last st \/ cm_done st;
  cw_len : length xs = S (h_itn st);
  cw_last : last xs izero = h_x st;
  cw_xs : forall i x, nth_error xs i = Some x -> mres i x;
  cw_it : h_sit kw = true -> h_iters st = xs;
  cw_nm : h_sres kw = true -> (h_norms st : list R) = map (fun x => ip (TT x) (TT x)) xs;
  cw_nr : h_sres kw = true -> length (h_nresids st) = h_itn st /\
    forall i x x', nth_error xs i = Some x -> nth_error xs (S i) = Some x' ->
      nth_error (h_nresids st) i = Some (inorm (TT (isub x' x))) }.

Lemma gk_dim_u' : forall U V u v al u' m, GK A At U V u v al -> ip u' u' = 1 ->
  (forall t, dp (u :: U) t -> ip t u' = 0) -> dim_le E2 m -> (S (length U) < m)%nat.
Proof.
  intros U V u v al u' m G H1 HO D. assert (L : (length (u' :: u :: U) <= m)%nat); [|cbn in L; lia].
  apply D.
  - constructor; [|constructor; [|apply (gk_Uo _ _ _ _ _ _ _ G)]].
    + apply Forall_forall. intros t Ht. rewrite ip_sym. apply HO, dp_in. exact Ht.
    + apply Forall_forall. intros t Ht. rewrite ip_sym. apply (gk_uU _ _ _ _ _ _ _ G t Ht).
  - constructor; [apply unit_nz, H1|]. constructor; [apply unit_nz, (gk_uu _ _ _ _ _ _ _ G)|].
    apply Forall_forall. intros t Ht. apply unit_nz, (gk_U1 _ _ _ _ _ _ _ G t Ht).
Qed.

(** The new phase, and the residual. *)
Lemma cm_phase : forall st st' be bh ah de rho ch sh, mstep st st' be bh ah de rho ch sh ->
  0 <= (h_zhat st : R) -> 0 <= (h_c st : R) -> mres (h_itn st) (h_x st) ->
  cm_live st \/ cm_last st \/ cm_done st ->
  (cm_live st' \/ cm_last st' \/ cm_done st') /\ mres (h_itn st') (h_x st') /\
  inorm (isub b (TT (h_x st'))) = h_zhat st' /\ 0 <= (h_zhat st' : R).
Proof.
  intros st st' be bh ah de rho ch sh [BD (s2 & RT) NV RH CH SH S1 C0 DB TH AT ZH D' XX NG IT LI] Z0 HC MR PH.
  destruct RT as [Rbh Rde Rde0 Rs2 Rah Rah0 Rc Rs].
  pose proof (sym_AAt A At AD) as SA.
  assert (DN : b = TT (h_x st') -> (h_zhat st' : R) = 0 -> kry AAt b (h_itn st') (h_x st') ->
    (cm_live st' \/ cm_last st' \/ cm_done st') /\ mres (h_itn st') (h_x st') /\
    inorm (isub b (TT (h_x st'))) = h_zhat st' /\ 0 <= (h_zhat st' : R)).
  { intros Eb Z K. assert (ZZ : isub b (TT (h_x st')) = izero) by (rewrite <- Eb; veq).
    split; [right; right; split; assumption|]. split; [|rewrite Z, ZZ, inorm_izero; lra].
    split; [exact K|]. intros z _. rewrite ZZ. ipx. ring. }
  destruct PH as [(U & V & ah0 & p & CIn & MF)|[(A0 & V0 & C1 & (U & ah0 & p & MF & TD) & KD & D1 & D2)|[E0 ZZ]]].
  3:{ assert (Ex : (h_x st' : iv E2) = h_x st) by (rewrite XX, ZZ; veq).
      apply DN; [rewrite Ex; exact E0|rewrite ZH, ZZ; ring|]. rewrite Ex, IT, Nat.add_1_r. apply kry_S; [exact SA|apply MR]. }
  2:{ destruct MF as [M1 M2 M3 M4 M5 M6 M7 M8].
      assert (S0 : sh = 0). { apply Rmult_eq_reg_r with rho; [|lra]. rewrite SH, Rbh, C1. ring. }
      assert (CC : ch * ch = 1) by (rewrite S0 in S1; lra).
      assert (KB : kry AAt b (h_itn st') (h_dbar st')).
      { rewrite DB, IT, Nat.add_1_r. apply kry_scale; [exact SA|]. apply kry_sub; [exact SA|exact KD|].
        apply kry_scale; [exact SA|]. apply kry_S; [exact SA|exact M8]. }
      apply DN.
      - assert (TB : TT (h_dbar st') = iscale ch p).
        { rewrite DB, TT_scale, TT_sub, TT_scale, TD, M6 by exact AD. apply ip_ext. intro w. ipx. rewrite <- CH.
          field. lra. }
        rewrite XX, TT_add, TT_scale, TB by exact AD. apply ip_ext. intro w. pose proof (f_equal (ip w) M1) as H.
        ipx_in H. ipx. transitivity (ip w (TT (h_x st)) + ch * ch * h_zhat st * ip w p); [rewrite CC; lra|ring].
      - rewrite ZH, S0. ring.
      - rewrite XX. apply kry_add; [exact SA| |apply kry_scale; [exact SA|exact KB]].
        rewrite IT, Nat.add_1_r. apply kry_S; [exact SA|apply MR]. }
  destruct MF as [M1 M2 M3 M4 M5 M6 M7 M8].
  destruct BD as [B0 B1 B2 B3 B4 B5].
  set (y := isub (A (h_v st)) (iscale (h_alpha st) (h_Mu st : iv E2))) in *.
  assert (SH2 : sh * rho = h_c st * be) by (rewrite SH, Rbh; reflexivity).
  assert (KB : kry AAt b (h_itn st') (h_dbar st')).
  { rewrite DB, IT, Nat.add_1_r. apply kry_scale; [exact SA|]. apply kry_sub; [exact SA|exact (ci_kd CIn)|].
    apply kry_scale; [exact SA|]. apply kry_S; [exact SA|exact M8]. }
  assert (KX : kry AAt b (h_itn st') (h_x st')).
  { rewrite XX. apply kry_add; [exact SA| |apply kry_scale; [exact SA|exact KB]].
    rewrite IT, Nat.add_1_r. apply kry_S; [exact SA|apply MR]. }
  assert (PB : 0 <= be) by (rewrite B0; apply inorm_pos).
  assert (Z1 : 0 <= (h_zhat st' : R)).
  { rewrite ZH. apply Rmult_le_pos; [|exact Z0]. apply Rmult_le_reg_r with rho; [exact RH|].
    rewrite SH2, Rmult_0_l. apply Rmult_le_pos; assumption. }
  destruct (Rle_lt_or_eq_dec 0 be PB) as [PB'|ZB].
  2:{ assert (Y0 : y = izero) by (apply inorm_zero; congruence).
      assert (S0 : sh = 0). { apply Rmult_eq_reg_r with rho; [|lra]. rewrite SH2, <- ZB. ring. }
      assert (Yu : y = iscale be (h_Mu st')) by (rewrite Y0, <- ZB; veq).
      pose proof (mg_r A At AD b CIn be (h_Mu st') Yu (h_x st) p (h_dbar st) (h_zhat st) (h_atil st) (h_theta st)
        M1 M6 rho ch sh RH CH SH2 S1) as HR.
      rewrite <- DB, <- XX, S0 in HR.
      apply DN; [|rewrite ZH, S0; ring|exact KX].
      apply ip_ext. intro w. pose proof (f_equal (ip w) HR) as H. ipx_in H. lra. }
  specialize (B2 PB'). specialize (B3 PB'). specialize (B4 PB'). specialize (B5 PB').
  assert (Yu : y = iscale be (h_Mu st')). { rewrite B2. apply ip_ext. intro w. ipx. field. lra. }
  assert (U1 : ip (h_Mu st' : iv E2) (h_Mu st') = 1).
  { rewrite B2, B0. apply unit_norm. rewrite <- B0. exact PB'. }
  set (z := isub (At (h_Mu st')) (iscale be (h_v st : iv E1))) in *.
  assert (AL : 0 <= (h_alpha st' : R)) by (rewrite B3; apply inorm_pos).
  assert (Zv : z = iscale (h_alpha st') (h_v st')).
  { destruct (Rle_lt_or_eq_dec 0 (h_alpha st') AL) as [P|Z].
    - rewrite (B4 P). apply ip_ext. intro w. ipx. field. lra.
    - rewrite <- Z. apply ip_ext. intro w. rewrite ip_scale.
      assert (z = izero) as -> by (apply inorm_zero; rewrite <- B3; auto). ipx. ring. }
  assert (HD : iscale ah (h_d st') = isub (h_Mu st' : iv E2) (iscale (h_c st * be) (h_d st : iv E2))).
  { rewrite D', Rbh. apply ip_ext. intro w. ipx. field. lra. }
  set (p' := isub (iscale sh p) (iscale ch (h_Mu st' : iv E2))).
  assert (HR : isub b (TT (h_x st')) = iscale (h_zhat st') p').
  { pose proof (mg_r A At AD b CIn be (h_Mu st') Yu (h_x st) p (h_dbar st) (h_zhat st) (h_atil st) (h_theta st)
        M1 M6 rho ch sh RH CH SH2 S1) as H. rewrite <- DB, <- XX, <- ZH in H. exact H. }
  assert (HP : ip p' p' = 1).
  { exact (mg_p A At AD b CIn be (h_Mu st') PB' Yu U1 p M2 M3 ch sh S1). }
  assert (MR' : mres (h_itn st') (h_x st')).
  { split; [exact KX|]. intros t Ht. rewrite HR, ip_scale, ip_sym. rewrite IT, Nat.add_1_r in Ht.
    unfold p'. rewrite (mg_opt A At AD b CIn be (h_Mu st') PB' Yu U1 p (h_dbar st) (h_atil st) (h_theta st)
      M2 M3 M4 M5 M6 M7 rho ch sh RH CH SH2 t Ht). ring. }
  assert (MF' : mfact st' ((h_Mu st : iv E2) :: U) ah p').
  { split.
    - exact HR.
    - exact HP.
    - apply mg_pd. exact M3.
    - rewrite DB. exact (mg_g A At AD b CIn be (h_Mu st') Yu p (h_dbar st) (h_atil st) (h_theta st) M3 M6 rho ch sh RH CH SH2).
    - rewrite DB. exact (mg_gp A At AD b CIn be (h_Mu st') PB' Yu U1 p (h_dbar st) (h_atil st) (h_theta st)
        M2 M3 M6 rho ch sh RH CH SH2).
    - rewrite DB, TH, AT. exact (mg_u A At AD b CIn be (h_Mu st') Yu ah p (h_dbar st) (h_atil st) (h_theta st)
        M6 rho ch sh RH CH SH2 S1).
    - exact (mg_U A At AD b CIn be (h_Mu st') PB' Yu U1 p (h_dbar st) (h_atil st) (h_theta st)
        M2 M3 M4 M5 M6 M7 rho ch sh RH CH SH2).
    - exact KB. }
  split; [|split; [exact MR'|split; [|exact Z1]]].
  2:{ rewrite HR. apply inorm_eq; [exact Z1|]. ipx. rewrite HP. ring. }
  destruct (Rle_lt_or_eq_dec 0 (h_alpha st') AL) as [P|Z].
  - left. exists ((h_Mu st : iv E2) :: U), ((h_v st : iv E1) :: V), ah, p'. split; [|exact MF'].
    rewrite IT, Nat.add_1_r.
    apply (ci_step A At AD b CIn be (h_Mu st') PB' Yu U1 (h_v st') (h_alpha st') Zv de ah (h_c st') (h_s st') (h_d st')
             Rde Rah Rah0 Rc Rs HD P).
    rewrite (B4 P), B3. apply unit_norm. rewrite <- B3. exact P.
  - right; left. assert (C1 : (h_c st' : R) = 0).
    { apply Rmult_eq_reg_r with ah; [|lra]. rewrite Rc, <- Z. ring. }
    split; [auto|]. split; [apply B5; auto|]. split; [exact C1|]. split; [|split; [|split]].
    + exists ((h_Mu st : iv E2) :: U), ah, p'. split; [exact MF'|].
      rewrite (st_Td A At AD b CIn be (h_Mu st') Yu (h_v st') (h_alpha st') Zv de ah (h_c st') (h_d st') Rde Rah Rah0 Rc HD), C1.
      veq.
    + rewrite IT, Nat.add_1_r. exact (st_kd A At AD b CIn be (h_Mu st') PB' Yu ah (h_d st') Rah0 HD).
    + intros n DM. pose proof (gk_dim A At U V _ _ _ n (ci_gk CIn) DM) as L. rewrite (ci_lV CIn) in L. lia.
    + intros m DM. pose proof (gk_dim_u' U V _ _ _ (h_Mu st') m (ci_gk CIn) U1) as L. rewrite (ci_lU CIn) in L.
      rewrite IT, Nat.add_1_r. apply L; [|exact DM].
      intros t Ht. exact (gk_u' A At AD (ci_gk CIn) (h_Mu st') be PB' Yu t Ht).
Qed.

Lemma mres_nrg : forall k x, mres k x -> ip (TT x) (TT x) = ip b b - ip (isub b (TT x)) (isub b (TT x)).
Proof.
  intros k x [H1 H2]. specialize (H2 x H1). ipx_in H2. ipx. rewrite (ip_sym b (TT x)). lra.
Qed.

Lemma cm_step_inv : forall lim (st : cm_st WV WU) xs, cm_inv st xs ->
  exists st' x, @cm_body KK WV WU q kw lim st = Ok st' /\ cm_inv st' (xs ++ [x]).
Proof.
  intros lim st xs [V1 V2 V3 VA V4 V5 V6 V7 V8 V9 V10 V11 V12 V13 V14].
  assert (NG : 0 <= (h_nrg2 st : R)).
  { rewrite V6, <- V5, (inorm_sq (isub b (TT (h_x st)))). rewrite <- (mres_nrg _ _ V7). apply ip_pos. }
  destruct (xm_body lim st V1 V2 NG) as (st' & be & bh & ah & de & rho & ch & sh & H & MS).
  destruct (cm_phase st st' be bh ah de rho ch sh MS V4 V3 V7 V8) as (P1 & P2 & P3 & P4).
  destruct MS as [BD (s2 & RT) NV RH CH SH S1 C0 DB TH AT ZH D' XX NG' IT (L1 & L2 & L3)].
  destruct RT as [Rbh Rde Rde0 Rs2 Rah Rah0 Rc Rs].
  assert (AL : 0 <= (h_alpha st' : R)).
  { destruct BD as [B0 B1 B2 B3 B4 B5]. destruct (Rle_lt_or_eq_dec 0 be) as [PB|ZB]; [rewrite B0; apply inorm_pos| |].
    - rewrite (B3 PB). apply inorm_pos.
    - destruct (B1 (eq_sym ZB)) as [_ ->]. exact VA. }
  assert (ZZ : (h_nrg2 st' : R) = ip b b - h_zhat st' * h_zhat st').
  { rewrite NG', V6, ZH.
    transitivity (ip b b - (1 - ch * ch) * (h_zhat st * h_zhat st)); [ring|]. rewrite <- S1. ring. }
  exists st', (h_x st'). split; [exact H|]. split.
  - exact NV.
  - rewrite AT. intro Z. assert (ch * ah = 0) by lra. assert (ch <> 0) by exact C0. nra.
  - apply Rmult_le_reg_r with ah; [exact Rah0|]. rewrite Rc, Rmult_0_l. exact AL.
  - exact AL.
  - exact P4.
  - exact P3.
  - exact ZZ.
  - exact P2.
  - exact P1.
  - rewrite app_length, V9, IT. cbn [length]. lia.
  - apply last_snoc.
  - intros j x Hj. destruct (Nat.lt_ge_cases j (length xs)) as [L|L].
    + rewrite nth_error_app1 in Hj by exact L. apply V11. exact Hj.
    + rewrite nth_error_app2 in Hj by exact L. destruct (j - length xs)%nat as [|k] eqn:J; [|destruct k; discriminate].
      injection Hj as <-. replace j with (h_itn st') by lia. exact P2.
  - intro Z. rewrite L3, Z, (V12 Z). reflexivity.
  - intro Z. rewrite L1, Z, (V13 Z), map_app. cbn [map]. do 2 f_equal.
    rewrite (mres_nrg _ _ P2), ZZ, <- (inorm_sq (isub b (TT (h_x st')))), P3. reflexivity.
  - intro Z. destruct (V14 Z) as [W1 W2]. rewrite L2, Z. rewrite app_length, W1, IT. split; [reflexivity|].
    intros j x x' Hx Hx'.
    assert (LJ : (j < h_itn st')%nat).
    { assert (S j < length (xs ++ [h_x st' : iv E2]))%nat by (apply nth_error_Some; congruence).
      rewrite app_length, V9 in H0. cbn [length] in H0. lia. }
    rewrite nth_error_app1 in Hx by lia.
    destruct (Nat.eq_dec j (h_itn st)) as [E|E].
    + rewrite nth_error_app2 in Hx' by lia. rewrite E, V9, Nat.sub_diag in Hx'. injection Hx' as <-.
      rewrite nth_error_app2 by lia. rewrite E, W1, Nat.sub_diag. cbn [nth_error]. f_equal.
      assert (Ex : x = h_x st).
      { rewrite <- V10. symmetry. apply last_nth_error.
        rewrite V9. cbn [Nat.sub]. rewrite Nat.sub_0_r, <- E. exact Hx. }
      subst x. symmetry. apply inorm_eq; [apply Rabs_pos|]. rewrite <- Rabs_mult, Rabs_pos_eq by nra.
      assert (K : kry AAt b (h_itn st') (isub (h_x st') (h_x st))).
      { apply kry_sub; [exact (sym_AAt A At AD)|apply P2|]. rewrite IT, Nat.add_1_r.
        apply kry_S; [exact (sym_AAt A At AD)|apply V7]. }
      pose proof (proj2 P2 _ K) as O. rewrite TT_sub in O |- * by exact AD.
      assert (Q1 : ip (isub b (TT (h_x st))) (isub b (TT (h_x st))) = h_zhat st * h_zhat st).
      { rewrite <- inorm_sq, V5. reflexivity. }
      assert (Q2 : ip (isub b (TT (h_x st'))) (isub b (TT (h_x st'))) = h_zhat st' * h_zhat st').
      { rewrite <- inorm_sq, P3. reflexivity. }
      rewrite ZH in Q2.
      assert (Q3 : ch * h_zhat st * (ch * h_zhat st) = h_zhat st * h_zhat st - sh * h_zhat st * (sh * h_zhat st)).
      { transitivity (h_zhat st * h_zhat st - (1 - ch * ch) * (h_zhat st * h_zhat st)); [ring|]. rewrite <- S1. ring. }
      rewrite Q3, <- Q1, <- Q2. clear - O. ipx_in O. ipx.
      rewrite (ip_sym b (TT (h_x st))), (ip_sym b (TT (h_x st'))), (ip_sym (TT (h_x st')) (TT (h_x st))) in *. lra.
    + rewrite nth_error_app1 in Hx' by lia. rewrite nth_error_app1 by lia. apply (W2 j x x' Hx Hx').
Qed.

Lemma cm_xinit : forall cnt, exists st, @cm_init KK WV WU q kw b cnt = Ok st /\ cm_inv st [izero].
Proof.
  intro cnt. pose proof (sym_AAt A At AD) as SA. unfold cm_init. cbv zeta. rewrite NM, NN.
  assert (BZ : isub b (TT izero) = b) by (rewrite TT_zero by exact AD; veq).
  destruct (ex_gk dv sq DV SQ E2 nv2 b) as (u & G1 & G2 & _). rewrite G1. cbn [rbind].
  assert (MR0 : mres 0 izero).
  { split; [reflexivity|]. intros z ->. rewrite TT_zero by exact AD. rewrite ip_sym. ipx. ring. }
  assert (FIN : forall (v : iv E1) Nv (al : R) cnt', 0 <= al -> (Nv = Some v \/ Nv = None /\ v = izero /\ al = 0) ->
    let ah := sqrt (al * al + 1 * 1) in
    forall st, st = @mkcm KK WV WU (@vzeros KK WU (lp_m q)) u v Nv (@vdivs KK WU u ah) (@vzeros KK WU (lp_m q)) al (al / ah) (1 / ah)
        (inorm b) ah 0 0 (repeat 0 (h_window kw)) 0 0 cnt' false
        (if h_sres kw then [0] else []) [] [] (if h_sit kw then [@vzeros KK WU (lp_m q)] else []) ->
    (cm_live st \/ cm_last st \/ cm_done st) -> cm_inv st [izero]).
  { intros v Nv al cnt' AL HN ah st Est PH.
    assert (PA : 0 < ah) by (apply norm2_pos; right; lra).
    split; try exact PH; try rewrite Est;
      cbn [h_Nv h_v h_alpha h_c h_atil h_zhat h_x h_nrg2 h_itn h_norms h_nresids h_iters length last map].
    - exact HN.
    - apply Rgt_not_eq. exact PA.
    - apply Rmult_le_pos; [exact AL|]. apply Rlt_le, Rinv_0_lt_compat. exact PA.
    - exact AL.
    - apply inorm_pos.
    - change (@vzeros KK WU (lp_m q)) with (@izero E2). rewrite BZ. reflexivity.
    - change (0 = ip b b - inorm b * inorm b). rewrite inorm_sq. ring.
    - exact MR0.
    - reflexivity.
    - reflexivity.
    - intros [|i] x Hx; [|destruct i; discriminate]. injection Hx as <-. exact MR0.
    - intros ->. reflexivity.
    - intros ->. rewrite TT_zero by exact AD. f_equal. symmetry. ipx. ring.
    - intros _. split; [reflexivity|]. intros [|i] x x' H H'; [discriminate|destruct i; discriminate]. }
  destruct (Rle_lt_or_eq_dec 0 (inorm b) (inorm_pos b)) as [HB|ZB].
  2:{ replace (@sgtb KK (inorm b) (@s0 KK)) with false by (symmetry; apply ex_gtf; lra). cbn [rbind].
      rewrite (ex_norm2 dv sq SQ). cbn [rbind]. change (@s1 KK) with 1. change (@s0 KK) with 0.
      assert (0 < sqrt (0 * 0 + 1 * 1)) by (apply norm2_pos; right; lra).
      rewrite !(ex_div dv sq DV) by lra. cbn [rbind]. eexists. split; [reflexivity|].
      apply (FIN izero None 0 cnt (Rle_refl 0)); [auto|reflexivity|].
      right; right. split; [|symmetry; exact ZB]. cbn [h_x]. change (@vzeros KK WU (lp_m q)) with (@izero E2).
      rewrite TT_zero by exact AD. apply inorm_zero. auto. }
  replace (@sgtb KK (inorm b) (@s0 KK)) with true by (symmetry; apply ex_gt; exact HB). specialize (G2 HB).
  destruct (ex_gk dv sq DV SQ E1 nv1 (lp_At q u)) as (v & H1 & H2 & H3). rewrite H1. cbn [rbind].
  change (lp_At q u) with (At u) in *.
  set (al := inorm (At u)) in *. assert (AL : 0 <= al) by apply inorm_pos.
  rewrite (ex_norm2 dv sq SQ). cbn [rbind]. change (@s1 KK) with 1. set (ah := sqrt (al * al + 1 * 1)).
  assert (PA : 0 < ah) by (apply norm2_pos; right; lra).
  assert (SAA : ah * ah = al * al + 1) by (unfold ah; rewrite norm2_sq; ring).
  rewrite !(ex_div dv sq DV) by lra. cbn [rbind]. eexists. split; [reflexivity|].
  eapply (FIN v (Some v) al _ AL); [left; reflexivity|reflexivity|].
  set (d := @vdivs KK WU u ah).
  assert (Hd : d = iscale (1 / ah) u) by (unfold d; cbn; rewrite DV by lra; reflexivity).
  assert (Hd2 : iscale ah d = u) by (rewrite Hd; apply ip_ext; intro w; ipx; field; lra).
  assert (EB : b = iscale (inorm b) u) by (rewrite G2; apply ip_ext; intro w; ipx; field; lra).
  assert (U1 : ip u u = 1) by (rewrite G2; apply unit_norm; exact HB).
  assert (Zv : At u = iscale al v).
  { destruct (Rle_lt_or_eq_dec 0 al AL) as [P|Z].
    - rewrite (H2 P). apply ip_ext. intro w. ipx. field. lra.
    - assert (At u = izero) as -> by (apply inorm_zero; auto). rewrite <- Z. apply ip_ext. intro w. ipx. ring. }
  assert (Cc : al / ah * ah = al) by (field; lra). assert (Ss : 1 / ah * ah = 1) by (field; lra).
  assert (TZ : TT izero = izero) by (apply TT_zero; exact AD).
  set (st := mkcm _ _ _ _ _ _ _ _ _ _ _ _ _ _ _ _ _ _ _ _ _ _).
  assert (MF : mfact st [] ah u).
  { split; cbn [h_x h_zhat h_Mu h_dbar h_theta h_atil h_itn st]; change (@vzeros KK WU (lp_m q)) with (@izero E2).
    - rewrite BZ. exact EB.
    - exact U1.
    - apply dp_in. left. reflexivity.
    - rewrite TZ. apply dp_zero.
    - rewrite TZ, ip_sym. ipx. ring.
    - rewrite TZ. apply ip_ext. intro w. ipx. fold ah. ring.
    - intros t [].
    - reflexivity. }
  assert (KU : kry AAt b 1 u).
  { rewrite G2. apply kry_scale; [exact SA|]. apply kry_b. exact SA. }
  destruct (Rle_lt_or_eq_dec 0 al AL) as [P|Z].
  - left. exists [], [], ah, u. split; [|exact MF].
    apply (ci_start A At AD b u v al (inorm b)); auto. rewrite (H2 P). apply unit_norm. exact P.
  - right; left. split; [symmetry; exact Z|]. split; [|split; [|split; [|split; [|split]]]].
    + cbn [h_v st]. rewrite (H3 (eq_sym Z)). apply inorm_zero. auto.
    + change (al / ah = 0). rewrite <- Z. field. lra.
    + exists [], ah, u. split; [exact MF|]. change (TT d = iscale ah u). rewrite Hd, TT_scale by exact AD.
      unfold CraigMath.TT. rewrite Zv, <- Z, (lin_scale A LA). apply ip_ext. intro w. ipx.
      apply Rmult_eq_reg_l with ah; [|lra]. transitivity (ip w u); [field; lra|].
      transitivity (ah * ah * ip w u); [rewrite SAA, <- Z; ring|ring].
    + change (kry AAt b 1 d). rewrite Hd. apply kry_scale; [exact SA|exact KU].
    + intros n _. cbn [h_itn st]. lia.
    + intros m DM. cbn [h_itn st]. assert (L : (length [u] <= m)%nat); [|cbn in L; lia].
      apply DM; repeat constructor. apply unit_nz. exact U1.
Qed.

(** The run in exact arithmetic. *)
Record cm_spec (r : cm_out WU) (xs : list (iv E2)) : Prop := {
  hp_len : length xs = S (ho_itn r);
  hp_last : last xs izero = (ho_x r : iv E2);
  hp_xs : forall i x, nth_error xs i = Some x -> mres i x;
  hp_sit : h_sit kw = true -> ho_iters r = xs;
  hp_nm : h_sres kw = true -> (ho_norms r : list R) = map (fun x => ip (TT x) (TT x)) xs;
  hp_nr : h_sres kw = true -> length (ho_nresids r) = ho_itn r /\
    forall i x x', nth_error xs i = Some x -> nth_error xs (S i) = Some x' ->
      nth_error (ho_nresids r) i = Some (inorm (TT (isub x' x)));
  hp_dim1 : forall n, dim_le E1 n -> (n < ho_itn r)%nat -> TT (ho_x r) = b;
  hp_dim2 : forall m, dim_le E2 m -> (m <= ho_itn r)%nat -> TT (ho_x r) = b }.

Lemma cm_exact : forall fuel cnt, (Z.to_nat (cm_lim q kw) < fuel)%nat ->
  exists r cnt' xs, @cm_solve KK WV WU fuel q kw b cnt = Ok (r, cnt') /\ cm_spec r xs.
Proof.
  intros fuel cnt HF. unfold cm_solve.
  destruct (cm_xinit cnt) as (st0 & H0 & I0).
  destruct (cm_init_spec q kw _ _ _ H0) as (J1 & J2 & J3 & J4 & J5 & F0).
  rewrite H0. cbn [rbind].
  set (I := fun st => cm_flow q kw st0 st /\ exists xs, cm_inv st xs).
  assert (ST : forall st, I st -> cm_cond (cm_lim q kw) st = true ->
     exists st', cm_body q kw (cm_lim q kw) st = Ok st' /\ I st' /\
       (Z.to_nat (cm_lim q kw) - h_itn st' < Z.to_nat (cm_lim q kw) - h_itn st)%nat).
  { intros st [F [xs IV]] C.
    destruct (cm_step_inv (cm_lim q kw) st xs IV) as (st' & p & B & IV').
    destruct (cm_step_flow q kw st0 st st' F C B) as [F' N].
    exists st'. split; [exact B|]. split; [split; [exact F'|eauto]|].
    unfold cm_cond in C. apply andb_prop in C as [C _]. apply Z.ltb_lt in C. lia. }
  destruct (while_term (cm_cond (cm_lim q kw)) (cm_body q kw (cm_lim q kw)) I
    (fun st => (Z.to_nat (cm_lim q kw) - h_itn st)%nat) ST fuel st0) as (st & W).
  { split; [exact F0|eauto]. }
  { cbv beta. lia. }
  rewrite W. cbn [rbind].
  assert (IS : I st /\ cm_cond (cm_lim q kw) st = false).
  { revert W. apply while_inv.
    - intros s s' Is C B. destruct (ST s Is C) as (s2 & B2 & I2 & _). rewrite B2 in B. injection B as <-. exact I2.
    - split; [exact F0|eauto]. }
  destruct IS as [[F [xs IV]] CF].
  destruct IV as [V1 V2 V3 VA V4 V5 V6 V7 V8 V9 V10 V11 V12 V13 V14].
  eexists _, _, xs. split; [reflexivity|].
  split; cbn [ho_itn ho_x ho_iters ho_norms ho_nresids]; try assumption.
  - intros n DM HN. destruct V8 as [(U & V & ah & p & CIn & _)|[(_ & _ & _ & _ & _ & L & _)|[E _]]]; [| |symmetry; exact E].
    + pose proof (gk_dim A At U V _ _ _ n (ci_gk CIn) DM) as L. rewrite (ci_lV CIn) in L. lia.
    + specialize (L n DM). lia.
  - intros n DM HN. destruct V8 as [(U & V & ah & p & CIn & _)|[(_ & _ & _ & _ & _ & _ & L)|[E _]]]; [| |symmetry; exact E].
    + pose proof (gk_dim_u A At U V _ _ _ n (ci_gk CIn) DM) as L. rewrite (ci_lU CIn) in L. lia.
    + specialize (L n DM). lia.
Qed.

(** A minimal-residual iterate in an invariant Krylov space is the solution. *)
Lemma mres_inv : forall k x, mres (S k) x -> (forall z, kry AAt b (S (S k)) z -> kry AAt b (S k) z) -> TT x = b.
Proof.
  intros k x [H2 H3] HI. pose proof (sym_AAt A At AD) as SA.
  assert (K : kry AAt b (S k) (isub b (TT x))).
  { apply HI.
    replace (isub b (TT x)) with (isub (isub b (AAt x)) x) by (unfold CraigMath.TT, CraigMath.AAt; veq).
    apply kry_sub; [exact SA| |apply kry_S; [exact SA|exact H2]].
    apply kry_sub; [exact SA| |apply kry_A; exact H2]. apply kry_b. exact SA. }
  specialize (H3 _ K). rewrite ip_sym, (TT_ip A At AD) in H3.
  pose proof (ip_pos (At (isub b (TT x)))). pose proof (ip_pos (isub b (TT x))).
  assert (Z : ip (isub b (TT x)) (isub b (TT x)) = 0) by lra. apply ip_def in Z.
  apply ip_ext. intro w. pose proof (f_equal (ip w) Z) as H4. ipx_in H4. lra.
Qed.
End Cm.
End Exact.
