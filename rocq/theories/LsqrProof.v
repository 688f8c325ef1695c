(** * Proofs about the LSQR model: exact arithmetic. *)
From Coq Require Import List ZArith QArith Qreals Reals Lia Lra Bool.
From Verif Require Import Base Num SpanMath ToolsModel ToolsProof MinresModel MinresProof GkProof LsqrModel LsqrFlow LsqrMath.
Import ListNotations.
Local Open Scope R_scope.

Section Arith.
Variables (dv : R -> R -> R) (sq : R -> R).
Hypothesis DV : dv_ok dv.
Hypothesis SQ : sq_ok sq.
Local Notation KK := (exactK dv sq).

Lemma ex_sqrt : forall a : R, 0 <= a -> @pysqrt KK a = Ok (sqrt a).
Proof.
  intros a H. unfold pysqrt. cbn. replace (Rltb a 0) with false by (symmetry; apply Rltb_false; exact H).
  rewrite SQ by exact H. reflexivity.
Qed.
Lemma ex_div : forall a b : R, b <> 0 -> @pydiv KK a b = Ok (a / b).
Proof. exact (pydiv_ok dv sq DV). Qed.
Lemma ex_norm2 : forall a b : R, @pnorm2 KK a b = Ok (sqrt (a * a + b * b)).
Proof. intros a b. unfold pnorm2. apply ex_sqrt. cbn. nra. Qed.
Lemma ex_norm4 : forall a b c d : R, @pnorm4 KK a b c d = Ok (sqrt (a * a + b * b + c * c + d * d)).
Proof. intros. unfold pnorm4. apply ex_sqrt. cbn. nra. Qed.
Lemma ex_gt : forall a : R, @sgtb KK a (@s0 KK) = true <-> 0 < a.
Proof. intro a. apply Rltb_true. Qed.
Lemma ex_gtf : forall a : R, @sgtb KK a (@s0 KK) = false <-> a <= 0.
Proof. intro a. apply Rltb_false. Qed.

Lemma ex_gk : forall (E : IPS) (nv : iv E -> R) (y : iv E), exists y',
  @gk_norm KK (exactVn dv sq E nv) None y = Ok (y', y', inorm y) /\
  (0 < inorm y -> y' = iscale (1 / inorm y) y) /\ (inorm y = 0 -> y' = y).
Proof.
  intros E nv y. unfold gk_norm. cbn [vdot exactVn].
  rewrite ex_sqrt by apply ip_pos. cbn [rbind]. fold (@inorm E y).
  destruct (@sgtb KK (inorm y) (@s0 KK)) eqn:G.
  - apply ex_gt in G. eexists. split; [reflexivity|]. split; [|intro; lra].
    intros _. cbn. rewrite DV by lra. reflexivity.
  - apply ex_gtf in G. eexists. split; [reflexivity|]. split; [intro; lra|reflexivity].
Qed.

Lemma sqrt_zero_iff : forall a, 0 <= a -> sqrt a = 0 -> a = 0.
Proof. intros a H Z. apply sqrt_eq_0; assumption. Qed.

Lemma sumsq_zero : forall a b : R, a * a + b * b = 0 -> a = 0 /\ b = 0.
Proof. intros a b H. split; nra. Qed.

Lemma norm2_pos : forall a b : R, a <> 0 \/ b <> 0 -> 0 < sqrt (a * a + b * b).
Proof. intros a b H. apply sqrt_lt_R0. destruct H; nra. Qed.
Lemma norm2_sq : forall a b : R, sqrt (a * a + b * b) * sqrt (a * a + b * b) = a * a + b * b.
Proof. intros. apply sqrt_sqrt. nra. Qed.
Lemma rot_one : forall a b r : R, r <> 0 -> r * r = a * a + b * b -> b / r * (b / r) = 1 - a / r * (a / r).
Proof. intros a b r N H. apply Rmult_eq_reg_r with (r * r); [|nra]. field_simplify; [|exact N|exact N]. nra. Qed.
Lemma rot_one' : forall a b r : R, r <> 0 -> r * r = a * a + b * b -> a / r * (a / r) + b / r * (b / r) = 1.
Proof. intros a b r N H. rewrite (rot_one a b r N H). ring. Qed.
End Arith.

Section Exact.
Variables (dv : R -> R -> R) (sq : R -> R).
Hypothesis DV : dv_ok dv.
Hypothesis SQ : sq_ok sq.
Variables E1 E2 : IPS.
Local Notation KK := (exactK dv sq).
Variables (nv1 : iv E1 -> R) (nv2 : iv E2 -> R).
Local Notation WV := (exactVn dv sq E1 nv1).
Local Notation WU := (exactVn dv sq E2 nv2).
Variables (q : lprob WV WU) (kw : ls_kw WV WU) (b : iv E2).
Hypothesis NM : l_M kw = None.
Hypothesis NN : l_N kw = None.
Local Notation A := (lp_A q : iv E1 -> iv E2).
Local Notation At := (lp_At q : iv E2 -> iv E1).
Hypothesis AD : adjoint A At.
Hypothesis HW : (1 <= l_window kw)%nat.
Local Notation d := (l_damp kw : R).
Local Notation lim := (ls_lim q kw).
Local Notation dr := (dres2 A b d).
Local Notation nr := (nres A At b d).
Local Notation AA := (AtA A At).

(** ** Components. *)
Lemma ex_bidiag : forall (u : iv E2) (v : iv E1) (al An : R) cnt,
  let y := isub (A v) (iscale al u) in
  let be := inorm y in
  exists u' v' al' An' cnt',
    @ls_bidiag KK WV WU q kw u u v v al An cnt = Ok (u', u', v', v', al', be, An', cnt') /\
    (be = 0 -> v' = v /\ al' = al /\ An' = An /\ cnt' = (cnt + 1)%nat /\ u' = y) /\
    (0 < be -> u' = iscale (1 / be) y /\ be <= An' /\ cnt' = (cnt + 2)%nat /\
       let z := isub (At u') (iscale be v) in
       al' = inorm z /\ (0 < al' -> v' = iscale (1 / al') z) /\ (al' = 0 -> v' = z)).
Proof.
  intros u v al An cnt y be. unfold ls_bidiag. cbv zeta.
  change (@vsub KK WU (lp_A q v) (@vscale KK WU al u)) with y.
  rewrite NM. destruct (ex_gk dv sq DV SQ E2 nv2 y) as (u' & G1 & G2 & G3).
  rewrite G1. cbn [rbind]. fold be in G2, G3.
  change (inorm y) with be.
  destruct (@sgtb KK be (@s0 KK)) eqn:EB.
  - apply ex_gt in EB. rewrite (ex_norm4 dv sq SQ). cbn [rbind].
    rewrite NN. destruct (ex_gk dv sq DV SQ E1 nv1 (@vsub KK WV (lp_At q u') (@vscale KK WV be v))) as (v' & H1 & H2 & H3).
    rewrite H1. cbn [rbind]. eexists _, _, _, _, _. split; [reflexivity|]. split; [intro; lra|].
    intros _. split; [exact (G2 EB)|]. split; [|split; [lia|]].
    + rewrite <- (sqrt_square be) at 1 by lra. apply sqrt_le_1; nra.
    + cbv zeta. split; [reflexivity|]. split; [exact H2|exact H3].
  - apply ex_gtf in EB. eexists _, _, _, _, _. split; [reflexivity|].
    split; [auto 10|]. intro; lra.
Qed.

Lemma ex_rot : forall rb pb al be : R, let r1 := sqrt (rb * rb + d * d) in r1 <> 0 ->
  let rho := sqrt (r1 * r1 + be * be) in
  let cs1 := rb / r1 in let sn1 := d / r1 in let c := r1 / rho in let s := be / rho in
  @ls_rot KK d rb pb al be =
    Ok (sn1 * pb, rho, s * al, - c * al, c * (cs1 * pb), s * (cs1 * pb), s * (c * (cs1 * pb))).
Proof.
  intros rb pb al be r1 N rho cs1 sn1 c s.
  assert (NR : rho <> 0). { unfold rho. apply Rgt_not_eq, norm2_pos. left. exact N. }
  unfold ls_rot. rewrite (ex_norm2 dv sq SQ). cbn [rbind]. fold r1.
  rewrite !(ex_div dv sq DV) by exact N. cbn [rbind].
  rewrite (ex_norm2 dv sq SQ). cbn [rbind]. fold rho.
  rewrite !(ex_div dv sq DV) by exact NR. cbn [rbind]. reflexivity.
Qed.

Lemma ex_upx : forall (x w v : iv E1) (phi rho th : R), rho <> 0 ->
  @ls_upx KK WV x w v phi rho th =
    Ok (iadd x (iscale (phi / rho) w), iadd (iscale (- th / rho) w) v, nv1 (iscale (1 / rho) w)).
Proof. intros. unfold ls_upx. rewrite !(ex_div dv sq DV) by assumption. reflexivity. Qed.

Lemma ex_derr : forall itn (phi nrg2 : R) (dE di : list R) i, 0 <= nrg2 -> (0 <= i)%Z -> exists dE' di' i',
  @ls_derr KK WV WU kw itn phi nrg2 dE di i = Ok (nrg2 + phi * phi, dE', di', i') /\ (0 <= i')%Z.
Proof.
  intros itn phi nrg2 dE di i Hn Hi. unfold ls_derr. cbv zeta.
  destruct (Nat.eqb_spec (l_window kw) 0) as [Z|Z]; [lia|].
  destruct (l_window kw <? itn)%nat.
  - change (@sadd KK nrg2 (@smul KK phi phi)) with (nrg2 + phi * phi).
    rewrite (ex_sqrt dv sq SQ) by nra. cbn [rbind].
    eexists _, _, _. split; [reflexivity|]. destruct (sltb _ _); lia.
  - eexists _, _, _. split; [reflexivity|exact Hi].
Qed.

Lemma ex_xn : forall cs2 sn2 z xx rho th phi : R, 0 <= xx -> cs2 <> 0 -> rho <> 0 ->
  let gb := - cs2 * rho in let rh := phi - sn2 * rho * z in let zb := rh / gb in
  let ga := sqrt (gb * gb + th * th) in
  @ls_xn KK cs2 sn2 z xx rho th phi = Ok (sqrt (xx + zb * zb), gb / ga, th / ga, rh / ga, xx + rh / ga * (rh / ga)) /\
  gb <> 0 /\ 0 < ga.
Proof.
  intros cs2 sn2 z xx rho th phi HX HC HR gb rh zb ga.
  assert (NG : gb <> 0). { unfold gb. intro Z. apply Rmult_integral in Z as [Z|Z]; lra. }
  assert (PG : 0 < ga) by (apply norm2_pos; auto).
  split; [|auto]. unfold ls_xn. cbv zeta.
  change (@smul KK (@sneg KK cs2) rho) with gb. change (@ssub KK phi (@smul KK (@smul KK sn2 rho) z)) with rh.
  rewrite (ex_div dv sq DV) by exact NG. cbn [rbind]. fold zb.
  change (@sadd KK xx (@smul KK zb zb)) with (xx + zb * zb).
  rewrite (ex_sqrt dv sq SQ) by nra. cbn [rbind].
  rewrite (ex_norm2 dv sq SQ). cbn [rbind]. fold ga.
  rewrite !(ex_div dv sq DV) by lra. cbn [rbind]. reflexivity.
Qed.

Lemma ex_norms : forall An dd pb ps res2 al tau xx : R, 0 <= dd -> 0 <= res2 ->
  let r2 := pb * pb + (res2 + ps * ps) in
  exists Ac r1n,
  @ls_norms KK d An dd pb ps res2 al tau xx = Ok (Ac, res2 + ps * ps, sqrt r2, al * Rabs tau, r1n) /\
  (0 <= r2 - d * d * xx -> r1n = sqrt (r2 - d * d * xx)).
Proof.
  intros An dd pb ps res2 al tau xx H1 H2 r2. unfold ls_norms. cbv zeta.
  rewrite (ex_sqrt dv sq SQ) by exact H1. cbn [rbind].
  change (@sadd KK (@smul KK pb pb) (@sadd KK res2 (@smul KK ps ps))) with r2.
  assert (P : 0 <= r2) by (unfold r2; nra).
  rewrite (ex_sqrt dv sq SQ) by exact P. cbn [rbind].
  change (@ssub KK (@smul KK (sqrt r2) (sqrt r2)) (@smul KK (@smul KK (l_damp kw) (l_damp kw)) xx)) with (sqrt r2 * sqrt r2 - d * d * xx).
  rewrite sqrt_sqrt by exact P.
  change (@sabs KK (r2 - d * d * xx)) with (Rabs (r2 - d * d * xx)).
  rewrite (ex_sqrt dv sq SQ) by apply Rabs_pos. cbn [rbind].
  eexists _, _. split; [reflexivity|]. intro N.
  replace (sltb (r2 - d * d * xx : sc KK) (@s0 KK)) with false by (symmetry; apply Rltb_false; exact N).
  rewrite Rabs_right by lra. reflexivity.
Qed.

Lemma ex_tests : forall late i (bn An Ac rn Ar xn : R), 0 < bn -> 0 <= An -> 0 <= xn -> (0 <= i)%Z ->
  exists r, @ls_tests KK WV WU kw late i bn An Ac rn Ar xn = Ok r /\ (0 <= r)%Z /\
    (rn = 0 -> (0 < r)%Z) /\ (An <> 0 -> Ar = 0 -> (0 < r)%Z).
Proof.
  intros late i bn An Ac rn Ar xn HB HA HX HI. unfold ls_tests.
  rewrite (ex_div dv sq DV rn bn) by lra. cbn [rbind].
  assert (T2 : exists t2, (if seqb (An : sc KK) (@s0 KK) || seqb (rn : sc KK) (@s0 KK) then Ok None
         else rbind (@pydiv KK Ar (@smul KK An rn)) (fun t => Ok (Some t))) = Ok t2 /\
         (An <> 0 -> rn <> 0 -> Ar = 0 -> t2 = Some 0)).
  { destruct (seqb (An : sc KK) (@s0 KK)) eqn:EA; cbn [orb].
    - eexists. split; [reflexivity|]. apply Reqb_true in EA. cbn in EA. congruence.
    - destruct (seqb (rn : sc KK) (@s0 KK)) eqn:ER.
      + eexists. split; [reflexivity|]. apply Reqb_true in ER. cbn in ER. congruence.
      + apply Reqb_false in EA, ER. rewrite (ex_div dv sq DV) by (cbn; intro Z; apply Rmult_integral in Z; tauto).
        eexists. split; [reflexivity|]. intros _ _ ->. f_equal. unfold Rdiv. apply Rmult_0_l. }
  destruct T2 as (t2 & T2 & T2'). rewrite T2. cbn [rbind].
  assert (T3 : exists t3, (if seqb (Ac : sc KK) (@s0 KK) then Ok None
         else rbind (@pydiv KK (@s1 KK) Ac) (fun t => Ok (Some t))) = Ok t3).
  { destruct (seqb (Ac : sc KK) (@s0 KK)) eqn:EA; [eauto|]. apply Reqb_false in EA.
    rewrite (ex_div dv sq DV) by exact EA. cbn [rbind]. eauto. }
  destruct T3 as (t3 & T3). rewrite T3. cbn [rbind].
  rewrite (ex_div dv sq DV) by lra. cbn [rbind].
  assert (Q : 0 <= An * xn / bn). { unfold Rdiv. apply Rmult_le_pos; [nra|]. left. apply Rinv_0_lt_compat. exact HB. }
  rewrite (ex_div dv sq DV) by (change (1 + An * xn / bn <> 0); lra). cbn [rbind].
  rewrite (ex_div dv sq DV) by lra. cbn [rbind].
  eexists. split; [reflexivity|].
  set (t1 := rn / bn / (@sadd KK (@s1 KK) (@smul KK An xn / bn))) in *.
  assert (R0 : rn = 0 -> t1 = 0).
  { intros ->. unfold t1. unfold Rdiv. rewrite Rmult_0_l. apply Rmult_0_l. }
  match goal with |- context [sleb (rn / bn : sc KK) ?r] => generalize (sleb (rn / bn : sc KK) r) end. intro b1.
  generalize (@ls_le KK (l_infle kw) t2 (l_atol kw)). intro b2.
  generalize (@ls_le KK (l_infle kw) t3 (@s0 KK)). intro b3.
  generalize (@ls_le1 KK (l_infle kw) t3). intro b6.
  assert (B4 : rn = 0 -> sleb (@sadd KK (@s1 KK) t1) (@s1 KK) = true).
  { intro Z. rewrite (R0 Z). apply Rleb_true. cbn. lra. }
  assert (B5 : An <> 0 -> rn <> 0 -> Ar = 0 -> @ls_le1 KK (l_infle kw) t2 = true).
  { intros Z1 Z2 Z3. rewrite (T2' Z1 Z2 Z3). apply Rleb_true. cbn. lra. }
  destruct (sleb (@sadd KK (@s1 KK) t1) (@s1 KK)).
  - split; [|split; [intros _|intros _ _]]; destruct b1, b2, b3; lia.
  - assert (RN : rn <> 0) by (intro Z; specialize (B4 Z); discriminate).
    split; [|split; [intro; contradiction|]].
    + destruct b1, b2, b3, (@ls_le1 KK (l_infle kw) t2), b6, late; lia.
    + intros Z1 Z2. rewrite (B5 Z1 RN Z2). destruct b1, b2, b3; lia.
Qed.

(** ** One iteration of the model. *)
Record ls_pre (st : ls_st WV WU) (u : iv E2) (v w : iv E1) : Prop := {
  lp_Mu : s_Mu st = u; lp_u : s_u st = u;
  lp_vN : s_vN st = Some (v, v);
  lp_w : s_w st = Some w;
  lp_r1 : (s_rhobar st : R) <> 0 \/ d <> 0;
  lp_cs2 : (s_cs2 st : R) <> 0;
  lp_xx : 0 <= (s_xxnorm st : R); lp_res2 : 0 <= (s_res2 st : R); lp_dd : 0 <= (s_ddnorm st : R);
  lp_nrg : 0 <= (s_nrg2 st : R); lp_An : 0 <= (s_Anorm st : R); lp_i : (0 <= s_istop st)%Z }.

Lemma dres2_pos : forall x, 0 <= dr x.
Proof. intro x. unfold dres2. pose proof (ip_pos (isub b (A x))). pose proof (ip_pos x). nra. Qed.

Lemma dres2_min : forall x z, ip (isub z x) (nr x) = 0 -> dr x <= dr z.
Proof.
  intros x z H. set (h := isub z x) in *.
  assert (Z : z = iadd x h) by (unfold h; veq).
  unfold nres in H. rewrite ip_sub, ip_scale, (ip_At A At AD) in H.
  assert (Q : dr z = dr x - 2 * (ip (A h) (isub b (A x)) - d * d * ip h x) + ip (A h) (A h) + d * d * ip h h).
  { unfold dres2. rewrite Z, (lin_add A (adjoint_lin A At AD)). ipx.
    rewrite (ip_sym (A h) b), (ip_sym (A h) (A x)), (ip_sym h x), (ip_sym (A x) b). ring. }
  rewrite Q, H. pose proof (ip_pos (A h)). pose proof (ip_pos h). nra.
Qed.

Section Body.
Variables (bn : R) (st : ls_st WV WU) (u : iv E2) (v w : iv E1).
Hypothesis HB : 0 < bn.
Hypothesis P : ls_pre st u v w.
Let y := isub (A v) (iscale (s_alpha st) u).
Let be := inorm y.
Let rb : R := s_rhobar st.
Let pb : R := s_phibar st.
Let r1 := sqrt (rb * rb + d * d).
Let rho := sqrt (r1 * r1 + be * be).
Let cs1 := rb / r1.
Let sn1 := d / r1.
Let c := r1 / rho.
Let s := be / rho.
Let phi := c * (cs1 * pb).
Let x' : iv E1 := iadd (s_x st) (iscale (phi / rho) w).

Lemma eb_r1 : 0 < r1.
Proof. apply norm2_pos. apply (lp_r1 _ _ _ _ P). Qed.
Lemma eb_rho : 0 < rho.
Proof. apply norm2_pos. left. pose proof eb_r1. lra. Qed.

Definition gb : R := - s_cs2 st * rho.
Definition rh : R := phi - s_sn2 st * rho * s_z st.

Record eb_out (st' : ls_st WV WU) (u' : iv E2) (v' : iv E1) (al' : R) : Prop := {
  eo_x : (s_x st' : iv E1) = x';
  eo_Mu : s_Mu st' = u'; eo_u : s_u st' = u'; eo_vN : s_vN st' = Some (v', v');
  eo_w : s_w st' = Some (iadd (iscale (- (s * al') / rho) w) v');
  eo_al : s_alpha st' = al';
  eo_rb : (s_rhobar st' : R) = - c * al';
  eo_pb : (s_phibar st' : R) = s * (cs1 * pb);
  eo_res2 : (s_res2 st' : R) = s_res2 st + sn1 * pb * (sn1 * pb);
  eo_Ar : (s_Arnorm st' : R) = al' * Rabs (s * phi);
  eo_r2 : (s_r2norm st' : R) = sqrt (s * (cs1 * pb) * (s * (cs1 * pb)) + (s_res2 st + sn1 * pb * (sn1 * pb)));
  eo_r1 : 0 <= s * (cs1 * pb) * (s * (cs1 * pb)) + (s_res2 st + sn1 * pb * (sn1 * pb)) - d * d * s_xxnorm st' ->
    (s_r1norm st' : R) = sqrt (s * (cs1 * pb) * (s * (cs1 * pb)) + (s_res2 st + sn1 * pb * (sn1 * pb)) - d * d * s_xxnorm st');
  eo_xn : (s_xnorm st' : R) = sqrt (s_xxnorm st + rh / gb * (rh / gb));
  eo_ga : let ga := sqrt (gb * gb + s * al' * (s * al')) in 0 < ga /\
    (s_cs2 st' : R) = gb / ga /\ (s_sn2 st' : R) = s * al' / ga /\ (s_z st' : R) = rh / ga /\
    (s_xxnorm st' : R) = s_xxnorm st + rh / ga * (rh / ga);
  eo_gb : gb <> 0;
  eo_dd : 0 <= (s_ddnorm st' : R); eo_nrg : 0 <= (s_nrg2 st' : R); eo_An : 0 <= (s_Anorm st' : R);
  eo_i : (0 <= s_istop st')%Z; eo_brk : s_brk st' = (0 <? s_istop st')%Z;
  eo_itn : s_itn st' = (s_itn st + 1)%nat;
  eo_stop1 : (s_r2norm st' : R) = 0 -> s_brk st' = true;
  eo_stop2 : 0 < be -> (s_Arnorm st' : R) = 0 -> s_brk st' = true;
  eo_resids : s_resids st' = if l_sres kw then s_resids st ++ [s_r2norm st'] else s_resids st;
  eo_nresids : s_nresids st' = if l_sres kw then s_nresids st ++ [s_Arnorm st'] else s_nresids st;
  eo_iters : s_iters st' = if l_sit kw then s_iters st ++ [s_x st'] else s_iters st;
  eo_be0 : be = 0 -> v' = v /\ al' = s_alpha st /\ s_cnt st' = (s_cnt st + 1)%nat /\ u' = y;
  eo_bep : 0 < be -> u' = iscale (1 / be) y /\ s_cnt st' = (s_cnt st + 2)%nat /\
    let z := isub (At u') (iscale be v) in
    al' = inorm z /\ (0 < al' -> v' = iscale (1 / al') z) /\ (al' = 0 -> v' = z) }.

Lemma ex_body : exists st' u' v' al',
  @ls_body KK WV WU q kw bn lim st = Ok st' /\ eb_out st' u' v' al'.
Proof.
  pose proof eb_r1 as R1. pose proof eb_rho as RH.
  destruct P as [P1 P2 P3 P4 P5 P6 P7 P8 P9 P10 P11 P12].
  destruct (ex_bidiag u v (s_alpha st) (s_Anorm st) (s_cnt st)) as (u' & v' & al' & An' & cnt' & B1 & B2 & B3).
  cbv zeta in B1, B2, B3. fold y in B1, B2, B3. fold be in B1, B2, B3.
  assert (AN : 0 <= An').
  { destruct (Req_dec be 0) as [Z|Z]; [destruct (B2 Z) as (_ & _ & -> & _); exact P11|].
    assert (0 < be) by (pose proof (inorm_pos y); unfold be in *; lra). destruct (B3 H) as (_ & L & _). lra. }
  unfold ls_body. rewrite P3, P1, P2, B1. cbn [rbind].
  change (s_rhobar st) with rb. change (s_phibar st) with pb.
  rewrite (ex_rot rb pb al' be) by (fold r1; lra). cbn [rbind].
  fold r1. fold rho. fold cs1. fold sn1. fold c. fold s. fold phi.
  rewrite P4. rewrite ex_upx by lra. cbn [rbind]. fold x'.
  destruct (ex_derr (s_itn st + 1) phi (s_nrg2 st) (s_dErr st) (s_dirs st) (s_istop st) P10 P12)
    as (dE & di & i1 & D1 & D2).
  rewrite D1. cbn [rbind].
  destruct (ex_xn (s_cs2 st) (s_sn2 st) (s_z st) (s_xxnorm st) rho (s * al') phi P7 P6 ltac:(lra)) as (X1 & X2 & X3).
  fold gb in X1, X2, X3. fold rh in X1. rewrite X1. cbn [rbind].
  match goal with |- context [@ls_norms KK ?a1 ?a2 ?a3 ?a4 ?a5 ?a6 ?a7 ?a8 ?a9] =>
    destruct (ex_norms a2 a3 a4 a5 a6 a7 a8 a9) as (Ac & r1n & N1 & N2) end.
  { cbn. nra. }
  { exact P8. }
  rewrite N1. cbn [rbind].
  match goal with |- context [@ls_tests KK _ _ _ ?a1 ?a2 ?a3 ?a4 ?a5 ?a6 ?a7 ?a8] =>
    destruct (ex_tests a1 a2 a3 a4 a5 a6 a7 a8) as (i2 & T1 & T2 & T3 & T4) end;
    [exact HB|exact AN|apply sqrt_pos|exact D2|].
  rewrite T1. cbn [rbind]. eexists _, u', v', al'. split; [reflexivity|].
  split; cbn [s_x s_Mu s_u s_vN s_w s_alpha s_rhobar s_phibar s_res2 s_Arnorm s_r2norm s_r1norm s_xnorm s_cs2 s_sn2 s_z
    s_xxnorm s_ddnorm s_nrg2 s_Anorm s_istop s_brk s_itn s_resids s_nresids s_iters s_cnt]; try reflexivity.
  - exact N2.
  - cbv zeta. auto.
  - exact X2.
  - change (0 <= s_ddnorm st + nv1 (iscale (1 / rho) w) * nv1 (iscale (1 / rho) w)). nra.
  - change (0 <= s_nrg2 st + phi * phi). nra.
  - exact AN.
  - exact T2.
  - intro Z. apply Z.ltb_lt. apply T3. exact Z.
  - intros PB Z. apply Z.ltb_lt. apply T4; [|exact Z]. destruct (B3 PB) as (_ & L & _). lra.
  - intro Z. destruct (B2 Z) as (F1 & F2 & _ & F3). auto.
  - intro PB. destruct (B3 PB) as (F1 & _ & F2 & F3). auto.
Qed.

(** What holds of the quantities computed in an iteration. *)
Definition okx (st' : ls_st WV WU) : Prop :=
  let x := s_x st' : iv E1 in
  (s_r2norm st' : R) = sqrt (dr x) /\ (s_Arnorm st' : R) = inorm (nr x) /\ (s_xnorm st' : R) = inorm x /\
  inorm (isub b (A x)) <= (s_r1norm st' : R) <= s_r2norm st' /\
  (d = 0 -> (s_r1norm st' : R) = inorm (isub b (A x))).

Definition ls_dead (st' : ls_st WV WU) : Prop :=
  exists u v w, ls_pre st' u v w /\ (s_phibar st' : R) = 0 /\ (s_res2 st' : R) = dr (s_x st') /\
    nr (s_x st') = izero /\ (s_xxnorm st' : R) = @ip E1 (s_x st') (s_x st') /\
    (s_sn2 st' : R) * s_z st' = 0 /\ d <> 0 /\ u = izero /\ A v <> izero.

Lemma okx_r1 : forall (st' : ls_st WV WU) (zb zz xx : R), 0 <= xx -> zz * zz <= zb * zb ->
  (s_r2norm st' : R) = sqrt (dr (s_x st')) ->
  @ip E1 (s_x st') (s_x st') = xx + zb * zb ->
  (s_xxnorm st' : R) = xx + zz * zz ->
  (0 <= dr (s_x st') - d * d * s_xxnorm st' -> (s_r1norm st' : R) = sqrt (dr (s_x st') - d * d * s_xxnorm st')) ->
  inorm (isub b (A (s_x st'))) <= (s_r1norm st' : R) <= s_r2norm st' /\
  (d = 0 -> (s_r1norm st' : R) = inorm (isub b (A (s_x st')))).
Proof.
  intros st' zb zz xx HX HZ H2 HN HXX H1.
  assert (D : dr (s_x st') - d * d * s_xxnorm st' =
    ip (isub b (A (s_x st'))) (isub b (A (s_x st'))) + d * d * (zb * zb - zz * zz)).
  { unfold dres2. rewrite HN, HXX. ring. }
  pose proof (ip_pos (isub b (A (s_x st')))) as PR.
  assert (Q : 0 <= d * d * (zb * zb - zz * zz)) by (apply Rmult_le_pos; nra).
  rewrite H1 by (rewrite D; nra). rewrite H2. split; [split|].
  - unfold inorm. rewrite D. apply sqrt_le_1; nra.
  - apply sqrt_le_1; [rewrite D; nra|apply dres2_pos|]. rewrite HXX. nra.
  - intro Z. unfold inorm. f_equal. rewrite D, Z. ring.
Qed.

Section Live.
Context {U : list (iv E2)} {V : list (iv E1)} {tu : iv E2} {te : iv E1} {su : iv E2} {se : iv E1}.
Hypothesis I : LI A At b d (s_itn st) U V u v (s_alpha st) (s_x st) w tu te su se rb pb
  (s_res2 st) (s_xxnorm st) (s_cs2 st) (s_sn2 st * s_z st).
Variables (st' : ls_st WV WU) (u' : iv E2) (v' : iv E1) (al' : R).
Hypothesis O : eb_out st' u' v' al'.

Let Hbe : be * be = ip y y := inorm_sq y.
Let R1 : 0 < r1 := eb_r1.
Let RH : 0 < rho := eb_rho.
Let Hc1 : cs1 * r1 = rb.
Proof. unfold cs1. field. lra. Qed.
Let Hs1 : sn1 * r1 = d.
Proof. unfold sn1. field. lra. Qed.
Let H1 : sn1 * sn1 = 1 - cs1 * cs1.
Proof. apply rot_one; [lra|]. apply norm2_sq. Qed.
Let Hc : c * rho = r1.
Proof. unfold c. field. lra. Qed.
Let Hs : s * rho = be.
Proof. unfold s. field. lra. Qed.
Let H2 : s * s = 1 - c * c.
Proof. apply rot_one; [lra|]. apply norm2_sq. Qed.
Let Htt : phi / rho * rho = c * (cs1 * pb).
Proof. unfold phi. field. lra. Qed.
Let Hr : rho <> 0.
Proof. lra. Qed.
Let be0 : 0 <= be := inorm_pos y.
Let Hcp : 0 < c.
Proof. unfold c. apply Rdiv_lt_0_compat; assumption. Qed.

Lemma el_dr : dr (s_x st') = s * (cs1 * pb) * (s * (cs1 * pb)) + (s_res2 st + sn1 * pb * (sn1 * pb)).
Proof.
  rewrite (eo_x _ _ _ _ O).
  exact (lm_norm A At AD b d I be r1 cs1 sn1 rho c s (phi / rho) Hbe Hc1 Hs1 H1 Hc Hs H2 Htt).
Qed.

Lemma el_dead : be = 0 -> nr (s_x st') = izero.
Proof.
  rewrite (eo_x _ _ _ _ O).
  exact (lm_nres_dead A At AD b d I be r1 cs1 sn1 rho c s (phi / rho) Hbe Hc1 Hs1 H1 Hc Hs H2 Hr Htt).
Qed.

Lemma el_y : 0 < be -> y = iscale be u' /\ ip u' u' = 1.
Proof.
  intro B. destruct (eo_bep _ _ _ _ O B) as (-> & _). split.
  - apply ip_ext. intro z. ipx. field. lra.
  - apply unit_norm. exact B.
Qed.

Lemma el_nr : 0 < be -> nr (s_x st') = iscale (- (s * phi)) (isub (At u') (iscale be v)).
Proof.
  intro B. destruct (el_y B) as [Y _]. rewrite (eo_x _ _ _ _ O).
  exact (lm_nres A At AD b d I be r1 cs1 sn1 rho c s (phi / rho) Hc1 Hs1 H1 Hc Hs H2 Htt u' Y).
Qed.

Lemma el_cases : be = 0 \/ 0 < be.
Proof. lra. Qed.

Lemma el_s0 : be = 0 -> s = 0.
Proof. intro Z. unfold s. rewrite Z. unfold Rdiv. ring. Qed.

Lemma el_Ar : (s_Arnorm st' : R) = inorm (nr (s_x st')).
Proof.
  rewrite (eo_Ar _ _ _ _ O). destruct el_cases as [Z|B].
  - rewrite (el_dead Z), inorm_izero, (el_s0 Z), Rmult_0_l, Rabs_R0. ring.
  - rewrite (el_nr B), inorm_scale, Rabs_Ropp.
    destruct (eo_bep _ _ _ _ O B) as (_ & _ & AL & _). rewrite AL. ring.
Qed.

Let Hrh : rh = c * (cs1 * pb) - s_sn2 st * s_z st * rho.
Proof. unfold rh, phi. ring. Qed.
Let Hgb : gb * gb = s_cs2 st * s_cs2 st * (rho * rho).
Proof. unfold gb. ring. Qed.
Let Ngb : gb <> 0 := eo_gb _ _ _ _ O.
Let Hzb : rh / gb * gb = rh.
Proof. field. exact Ngb. Qed.

Lemma el_xn : @ip E1 (s_x st') (s_x st') = s_xxnorm st + rh / gb * (rh / gb).
Proof.
  rewrite (eo_x _ _ _ _ O).
  exact (lm_xnorm A At b d I cs1 rho c (phi / rho) Hr Htt rh gb (rh / gb) Hrh Hgb Hzb).
Qed.

Lemma el_ok : okx st'.
Proof.
  pose proof el_dr as DR. pose proof el_xn as XN.
  assert (R2 : (s_r2norm st' : R) = sqrt (dr (s_x st'))) by (rewrite (eo_r2 _ _ _ _ O), DR; reflexivity).
  split; [exact R2|]. split; [exact el_Ar|].
  split. { rewrite (eo_xn _ _ _ _ O). unfold inorm. rewrite XN. reflexivity. }
  destruct (eo_ga _ _ _ _ O) as (GA & _ & _ & _ & XX). cbv zeta in *.
  set (ga := sqrt (gb * gb + s * al' * (s * al'))) in *.
  apply (okx_r1 st' (rh / gb) (rh / ga) (s_xxnorm st)).
  - apply (lp_xx _ _ _ _ P).
  - assert (G2 : ga * ga = gb * gb + s * al' * (s * al')) by apply norm2_sq.
    assert (PG : 0 < gb * gb) by nra. assert (PA : 0 < ga * ga) by nra.
    replace (rh / ga * (rh / ga)) with (rh * rh * / (ga * ga)) by (field; lra).
    replace (rh / gb * (rh / gb)) with (rh * rh * / (gb * gb)) by (field; exact Ngb).
    apply Rmult_le_compat_l; [nra|]. apply Rinv_le_contravar; [exact PG|]. rewrite G2. nra.
  - exact R2.
  - exact XN.
  - exact XX.
  - rewrite DR. exact (eo_r1 _ _ _ _ O).
Qed.

Lemma el_kx : kry AA (At b) (S (s_itn st)) (s_x st').
Proof. rewrite (eo_x _ _ _ _ O). exact (lm_kx A At AD b d I (phi / rho)). Qed.

Lemma el_min : forall z, kry AA (At b) (S (s_itn st)) z -> dr (s_x st') <= dr z.
Proof.
  intros z K. apply dres2_min. destruct el_cases as [Z|B].
  - rewrite (el_dead Z). apply ip_zero.
  - rewrite (el_nr B), ip_scale. destruct (el_y B) as [Y U1].
    rewrite (gk_z A At AD (li_gk _ _ _ _ _ _ _ _ _ _ _ _ _ _ _ _ _ _ _ _ _ _ I) u' be B Y U1); [ring|].
    apply (lm_kry A At AD b d I). apply kry_sub; [exact (sym_AtA A At AD)|exact K|exact el_kx].
Qed.

Lemma el_next :
  (nr (s_x st') = izero /\ (s_brk st' = true \/ ls_dead st')) \/
  exists tu' te' su' se', ls_pre st' u' v' (iadd (iscale (- (s * al') / rho) w) v') /\
  LI A At b d (s_itn st') (u :: U) (v :: V) u' v' (s_alpha st') (s_x st') (iadd (iscale (- (s * al') / rho) w) v')
    tu' te' su' se' (s_rhobar st') (s_phibar st') (s_res2 st') (s_xxnorm st') (s_cs2 st') (s_sn2 st' * s_z st') /\
  s_cnt st' = (s_cnt st + 2)%nat.
Proof.
  destruct (eo_ga _ _ _ _ O) as (GA & CS2 & SN2 & ZZ & XX). cbv zeta in *.
  set (ga := sqrt (gb * gb + s * al' * (s * al'))) in *.
  assert (G2 : ga * ga = gb * gb + s * al' * (s * al')) by apply norm2_sq.
  assert (CN : (s_cs2 st' : R) <> 0).
  { rewrite CS2. unfold Rdiv. intro Z. apply Rmult_integral in Z as [Z|Z]; [contradiction|].
    apply Rinv_neq_0_compat in Z; [exact Z|lra]. }
  assert (XP : 0 <= (s_xxnorm st' : R)) by (rewrite XX; pose proof (lp_xx _ _ _ _ P); nra).
  assert (RP : 0 <= (s_res2 st' : R)) by (rewrite (eo_res2 _ _ _ _ O); pose proof (lp_res2 _ _ _ _ P); nra).
  assert (PRE : (s_rhobar st' : R) <> 0 \/ d <> 0 -> ls_pre st' u' v' (iadd (iscale (- (s * al') / rho) w) v')).
  { intro RR. split; [apply (eo_Mu _ _ _ _ O)|apply (eo_u _ _ _ _ O)|apply (eo_vN _ _ _ _ O)|apply (eo_w _ _ _ _ O)
      |exact RR|exact CN|exact XP|exact RP|apply (eo_dd _ _ _ _ O)|apply (eo_nrg _ _ _ _ O)|apply (eo_An _ _ _ _ O)
      |apply (eo_i _ _ _ _ O)]. }
  destruct el_cases as [Z|B].
  - left. split; [exact (el_dead Z)|]. pose proof (el_s0 Z) as S0. destruct (eo_be0 _ _ _ _ O Z) as (EV & EA & _ & EU).
    destruct (Req_dec d 0) as [D0|DN].
    { left. assert (Q : (s_r2norm st' : R) = 0); [|exact (eo_stop1 _ _ _ _ O Q)].
      rewrite (eo_r2 _ _ _ _ O), (li_d0 _ _ _ _ _ _ _ _ _ _ _ _ _ _ _ _ _ _ _ _ _ _ I D0), S0.
      unfold sn1. rewrite D0. unfold Rdiv. rewrite !Rmult_0_l, !Rplus_0_l. apply sqrt_0. }
    right. exists u', v', (iadd (iscale (- (s * al') / rho) w) v'). split; [apply PRE; right; exact DN|].
    split; [rewrite (eo_pb _ _ _ _ O), S0; change (0 * (cs1 * pb) = 0); ring|].
    split; [rewrite (eo_res2 _ _ _ _ O), el_dr, S0; change (s_res2 st + sn1 * pb * (sn1 * pb) = 0 * (cs1 * pb) * (0 * (cs1 * pb)) + (s_res2 st + sn1 * pb * (sn1 * pb)) :> R); ring|].
    split; [exact (el_dead Z)|].
    split.
    { rewrite XX, el_xn. f_equal.
      replace (rh / ga * (rh / ga)) with (rh * rh * / (ga * ga)) by (field; lra).
      rewrite G2, S0. replace (gb * gb + 0 * al' * (0 * al')) with (gb * gb) by ring. field. exact Ngb. }
    split; [rewrite SN2, S0; unfold Rdiv; rewrite !Rmult_0_l; reflexivity|]. split; [exact DN|].
    assert (Y0 : y = izero) by (apply inorm_zero; exact Z). split; [rewrite EU; exact Y0|].
    rewrite EV. intro AV. pose proof (li_gk _ _ _ _ _ _ _ _ _ _ _ _ _ _ _ _ _ _ _ _ _ _ I) as G.
    assert (Q : ip u y = 0) by (rewrite Y0; apply ip_zero).
    unfold y in Q. rewrite ip_sub, ip_scale, AV, ip_zero, (gk_uu _ _ _ _ _ _ _ G) in Q.
    pose proof (gk_al _ _ _ _ _ _ _ G). lra.
  - destruct (el_y B) as [Y U1]. destruct (eo_bep _ _ _ _ O B) as (EU & EC & EAL & EV & _).
    destruct (Req_dec al' 0) as [Z|Z].
    { left. assert (Q : (s_Arnorm st' : R) = 0) by (rewrite (eo_Ar _ _ _ _ O), Z; change (0 * Rabs (s * phi) = 0); ring).
      split; [apply inorm_zero; rewrite <- el_Ar; exact Q|]. left. exact (eo_stop2 _ _ _ _ O B Q). }
    assert (AP : 0 < al') by (rewrite EAL in *; pose proof (inorm_pos (isub (At u') (iscale be v))); lra).
    right.
    specialize (EV AP).
    assert (V1 : ip v' v' = 1) by (rewrite EV, EAL; apply unit_norm; rewrite <- EAL; exact AP).
    assert (HV : isub (At u') (iscale be v) = iscale al' v').
    { rewrite EV. apply ip_ext. intro z. ipx. field. lra. }
    pose proof (lm_step A At AD b d I be r1 cs1 sn1 rho c s (phi / rho) Hc1 Hs1 H1 Hc Hs H2 Hr ltac:(lra) Htt u' Y
      rh gb (rh / gb) Hrh Hgb Hzb v' al' B U1 AP HV V1 Hcp ga (gb / ga) (s * al' / ga) (rh / ga) G2 ltac:(lra)
      ltac:(field; lra) ltac:(field; lra) ltac:(field; lra)) as L.
    eexists _, _, _, _. split; [apply PRE; left; rewrite (eo_rb _ _ _ _ O); change (- c * al' <> 0); intro Q; apply Rmult_integral in Q; lra|].
    split; [|exact EC].
    rewrite (eo_itn _ _ _ _ O), Nat.add_1_r, (eo_al _ _ _ _ O), (eo_x _ _ _ _ O), XX, CS2, SN2, ZZ.
    rewrite (eo_rb _ _ _ _ O), (eo_pb _ _ _ _ O), (eo_res2 _ _ _ _ O).
    rewrite (Ropp_mult_distr_l c al') in L. exact L.
Qed.

End Live.

Section Dead.
Hypothesis D : (s_phibar st : R) = 0 /\ (s_res2 st : R) = dr (s_x st) /\
    nr (s_x st) = izero /\ (s_xxnorm st : R) = @ip E1 (s_x st) (s_x st) /\
    (s_sn2 st : R) * s_z st = 0 /\ d <> 0 /\ u = izero /\ A v <> izero.
Variables (st' : ls_st WV WU) (u' : iv E2) (v' : iv E1) (al' : R).
Hypothesis O : eb_out st' u' v' al'.

Lemma ed_x : (s_x st' : iv E1) = s_x st.
Proof.
  rewrite (eo_x _ _ _ _ O). unfold x', phi. destruct D as [D1 _]. unfold pb. rewrite D1.
  apply ip_ext. intro z. ipx. unfold Rdiv. ring.
Qed.

Lemma ed_next : okx st' /\ nr (s_x st') = izero /\ s_brk st' = true.
Proof.
  destruct D as (D1 & D2 & D3 & D4 & D5 & D6 & D7 & D8).
  assert (PB : pb = 0) by exact D1.
  assert (PH : phi = 0) by (unfold phi; rewrite PB; ring).
  assert (RHZ : rh = 0).
  { unfold rh. rewrite PH. transitivity (- (s_sn2 st * s_z st * rho)); [ring|]. rewrite D5. ring. }
  destruct (eo_ga _ _ _ _ O) as (GA & CS2 & SN2 & ZZ & XX). cbv zeta in *.
  set (ga := sqrt (gb * gb + s * al' * (s * al'))) in *.
  assert (Ngb : gb <> 0) by apply (eo_gb _ _ _ _ O).
  assert (XX' : (s_xxnorm st' : R) = @ip E1 (s_x st') (s_x st')).
  { rewrite XX, RHZ, ed_x, D4. unfold Rdiv. rewrite !Rmult_0_l, Rplus_0_r. reflexivity. }
  assert (R2 : (s_r2norm st' : R) = sqrt (dr (s_x st'))).
  { rewrite (eo_r2 _ _ _ _ O), PB, D2, ed_x. f_equal. ring. }
  split.
  - split; [exact R2|]. split.
    { rewrite (eo_Ar _ _ _ _ O), PH, Rmult_0_r, Rabs_R0, ed_x, D3, inorm_izero. apply Rmult_0_r. }
    split. { rewrite (eo_xn _ _ _ _ O), RHZ, ed_x, D4. unfold inorm. f_equal. unfold Rdiv. rewrite !Rmult_0_l, Rplus_0_r. reflexivity. }
    apply (okx_r1 st' 0 0 (s_xxnorm st')).
    + rewrite XX'. apply ip_pos.
    + lra.
    + exact R2.
    + rewrite XX'. ring.
    + change ((s_xxnorm st' : R) = s_xxnorm st' + 0 * 0). ring.
    + intro Q. rewrite (eo_r1 _ _ _ _ O).
      * rewrite PB, D2, ed_x. f_equal. ring.
      * rewrite PB, D2. rewrite ed_x in Q. replace (s * (cs1 * 0) * (s * (cs1 * 0)) + (dr (s_x st) + sn1 * 0 * (sn1 * 0))) with (dr (s_x st)) by ring. exact Q.
  - split; [rewrite ed_x; exact D3|]. apply (eo_stop2 _ _ _ _ O).
    + assert (Q : y = A v). { unfold y. rewrite D7. apply ip_ext. intro z. ipx. ring. }
      unfold be. rewrite Q. pose proof (inorm_pos (A v)). destruct (Req_dec (inorm (A v)) 0) as [Z|Z]; [|lra].
      apply inorm_zero in Z. contradiction.
    + rewrite (eo_Ar _ _ _ _ O), PH, Rmult_0_r, Rabs_R0. apply Rmult_0_r.
Qed.
End Dead.
End Body.

Lemma li_start : forall u v be al, 0 < be -> 0 < al -> ip u u = 1 -> ip v v = 1 ->
  b = iscale be u -> At u = iscale al v ->
  LI A At b d 0 [] [] u v al izero v u izero izero izero al be 0 0 (-1) 0.
Proof.
  intros u v be al HB HA U1 V1 EB EA.
  pose proof (adjoint_lin A At AD) as LA. pose proof (adjoint_lin_t A At AD) as LT.
  pose proof (sym_AtA A At AD) as LL.
  assert (B0 : forall z, ip z (At b) = be * al * ip z v).
  { intro z. rewrite EB, (lin_scale At LT), EA. ipx. ring. }
  assert (KV : kry AA (At b) 1 v).
  { exists (/ (be * al)), izero. split; [reflexivity|]. unfold AtA. rewrite (lin_zero A LA), (lin_zero At LT).
    apply ip_ext. intro z. ipx. rewrite B0. field. split; lra. }
  assert (A0 : A izero = izero) by apply (lin_zero A LA).
  assert (T0 : At izero = izero) by apply (lin_zero At LT).
  assert (Z0 : iadd (@izero E1) (iscale 0 v) = izero) by veq.
  split; try (apply dp_zero); try reflexivity.
  - apply gk_start; assumption.
  - intros z ->. apply dp_zero.
  - exact KV.
  - exact KV.
  - rewrite EA. apply kry_scale; try exact LL. exact KV.
  - apply dp_in. left. reflexivity.
  - apply dp_in. left. reflexivity.
  - apply ip_ext. intro z. ipx. ring.
  - apply ip_ext. intro z. ipx. ring.
  - ipx. rewrite U1. ring.
  - ipx. ring.
  - ipx. ring.
  - rewrite A0, EB. apply ip_ext. intro z. ipx. ring.
  - apply ip_ext. intro z. ipx. ring.
  - rewrite EA. apply ip_ext. intro z. ipx. ring.
  - rewrite T0. apply ip_ext. intro z. ipx. ring.
  - lra.
  - rewrite Z0. apply dp_zero.
  - rewrite Z0. apply ip_zero.
  - rewrite Z0. apply ip_zerol.
  - rewrite V1. ring.
Qed.

(** ** The loop. *)
Definition ls_live (c0 : nat) (st : ls_st WV WU) : Prop :=
  exists U V u v w tu te su se, ls_pre st u v w /\
    LI A At b d (s_itn st) U V u v (s_alpha st) (s_x st) w tu te su se (s_rhobar st) (s_phibar st)
      (s_res2 st) (s_xxnorm st) (s_cs2 st) (s_sn2 st * s_z st) /\
    s_cnt st = (c0 + 2 * s_itn st + 1)%nat.

Definition ls_ph (c0 : nat) (st : ls_st WV WU) : Prop :=
  ls_live c0 st \/
  (nr (s_x st) = izero /\ (s_brk st = true \/ ls_dead st) /\
   forall n, dim_le E1 n \/ dim_le E2 n \/ rank_le A n -> (s_itn st <= n + 1 /\ (ls_dead st -> s_brk st = false -> s_itn st <= n))%nat).

Record ls_gh (st : ls_st WV WU) (xs : list (iv E1)) : Prop := {
  gh_len : length xs = s_itn st;
  gh_x : (s_x st : iv E1) = last xs izero;
  gh_res : s_resids st = if l_sres kw then map (fun x => sqrt (dr x)) (izero :: xs) else [];
  gh_nres : s_nresids st = if l_sres kw then map (fun x => inorm (nr x)) (izero :: xs) else [];
  gh_it : s_iters st = if l_sit kw then izero :: xs else [];
  gh_ok : okx st;
  gh_An : 0 <= (s_Anorm st : R);
  gh_kry : forall i x, nth_error xs i = Some x ->
    kry AA (At b) (S i) x /\ forall z, kry AA (At b) (S i) z -> dr x <= dr z }.

Lemma ls_gh_step : forall (st : ls_st WV WU) xs (st' : ls_st WV WU) (x' : iv E1), ls_gh st xs -> (s_x st' : iv E1) = x' ->
  s_itn st' = (s_itn st + 1)%nat -> okx st' -> 0 <= (s_Anorm st' : R) ->
  s_resids st' = (if l_sres kw then s_resids st ++ [s_r2norm st'] else s_resids st) ->
  s_nresids st' = (if l_sres kw then s_nresids st ++ [s_Arnorm st'] else s_nresids st) ->
  s_iters st' = (if l_sit kw then s_iters st ++ [s_x st'] else s_iters st) ->
  kry AA (At b) (S (s_itn st)) x' -> (forall z, kry AA (At b) (S (s_itn st)) z -> dr x' <= dr z) ->
  ls_gh st' (xs ++ [x']).
Proof.
  intros st xs st' x' G EX EI OK AN R1 R2 R3 KX KM. pose proof OK as (O1 & O2 & _).
  split.
  - rewrite app_length, (gh_len _ _ G), EI. reflexivity.
  - rewrite last_last. exact EX.
  - rewrite R1, (gh_res _ _ G), O1, EX. destruct (l_sres kw); [|reflexivity].
    rewrite app_comm_cons, map_app. reflexivity.
  - rewrite R2, (gh_nres _ _ G), O2, EX. destruct (l_sres kw); [|reflexivity].
    rewrite app_comm_cons, map_app. reflexivity.
  - rewrite R3, (gh_it _ _ G), EX. destruct (l_sit kw); reflexivity.
  - exact OK.
  - exact AN.
  - intros i x N. destruct (Nat.lt_ge_cases i (length xs)) as [L|L].
    + rewrite nth_error_app1 in N by exact L. apply (gh_kry _ _ G). exact N.
    + rewrite nth_error_app2 in N by exact L.
      destruct (i - length xs)%nat as [|j] eqn:J; [|destruct j; discriminate].
      injection N as <-. replace i with (s_itn st) by (rewrite <- (gh_len _ _ G); lia). auto.
Qed.

Lemma gh_kx : forall st xs, ls_gh st xs -> kry AA (At b) (s_itn st) (s_x st).
Proof.
  intros st xs G. rewrite (gh_x _ _ G), <- (gh_len _ _ G).
  destruct xs as [|x0 xs] using rev_ind; [reflexivity|].
  rewrite last_last, app_length. cbn [length]. rewrite Nat.add_1_r.
  apply (proj1 (gh_kry _ _ G (length xs) x0 ltac:(rewrite nth_error_app2, Nat.sub_diag by lia; reflexivity))).
Qed.

Lemma ls_loop_step : forall bn c0 st xs, 0 < bn -> ls_gh st xs -> ls_ph c0 st -> s_brk st = false ->
  exists st', @ls_body KK WV WU q kw bn lim st = Ok st' /\ s_itn st' = (s_itn st + 1)%nat /\
    (exists x', ls_gh st' (xs ++ [x'])) /\ ls_ph c0 st'.
Proof.
  intros bn c0 st xs HB G PH NB. destruct PH as [(U & V & u & v & w & tu & te & su & se & P & I & EC)|(N0 & [X|DD] & DIM)].
  - destruct (ex_body bn st u v w HB P) as (st' & u' & v' & al' & EB & O).
    exists st'. split; [exact EB|]. split; [apply (eo_itn _ _ _ _ _ _ _ _ O)|]. split.
    + exists (s_x st'). apply (ls_gh_step st xs); [exact G|reflexivity|apply (eo_itn _ _ _ _ _ _ _ _ O)| |apply (eo_An _ _ _ _ _ _ _ _ O)|
        apply (eo_resids _ _ _ _ _ _ _ _ O)|apply (eo_nresids _ _ _ _ _ _ _ _ O)|apply (eo_iters _ _ _ _ _ _ _ _ O)| |].
      * exact (el_ok st u v w P I st' u' v' al' O).
      * exact (el_kx st u v w I st' u' v' al' O).
      * exact (el_min st u v w P I st' u' v' al' O).
    + destruct (el_next st u v w P I st' u' v' al' O) as [(N & Q)|(tu' & te' & su' & se' & P' & I' & C')].
      * right. split; [exact N|]. split; [exact Q|]. intros n DN.
        assert (s_itn st < n)%nat.
        { pose proof (li_gk _ _ _ _ _ _ _ _ _ _ _ _ _ _ _ _ _ _ _ _ _ _ I) as GG. destruct DN as [DN|[DN|DN]].
          - rewrite <- (li_lenV _ _ _ _ _ _ _ _ _ _ _ _ _ _ _ _ _ _ _ _ _ _ I). exact (gk_dim A At U V u v _ n GG DN).
          - rewrite <- (li_lenU _ _ _ _ _ _ _ _ _ _ _ _ _ _ _ _ _ _ _ _ _ _ I). exact (gk_dim_u A At U V u v _ n GG DN).
          - rewrite <- (li_lenV _ _ _ _ _ _ _ _ _ _ _ _ _ _ _ _ _ _ _ _ _ _ I). exact (gk_rank A At AD U V u v _ n GG DN). }
        rewrite (eo_itn _ _ _ _ _ _ _ _ O). split; [lia|]. intros _ _. lia.
      * left. exists (u :: U), (v :: V), u', v'. eexists _, tu', te', su', se'. split; [exact P'|]. split; [exact I'|].
        rewrite C', EC, (eo_itn _ _ _ _ _ _ _ _ O). lia.
  - congruence.
  - pose proof DD as (u & v & w & P & D).
    destruct (ex_body bn st u v w HB P) as (st' & u' & v' & al' & EB & O).
    destruct (ed_next st u v w D st' u' v' al' O) as (OK & N' & BR).
    pose proof (ed_x st u v w D st' u' v' al' O) as EX.
    exists st'. split; [exact EB|]. split; [apply (eo_itn _ _ _ _ _ _ _ _ O)|]. split.
    + exists (s_x st'). apply (ls_gh_step st xs); [exact G|reflexivity|apply (eo_itn _ _ _ _ _ _ _ _ O)|exact OK|apply (eo_An _ _ _ _ _ _ _ _ O)|
        apply (eo_resids _ _ _ _ _ _ _ _ O)|apply (eo_nresids _ _ _ _ _ _ _ _ O)|apply (eo_iters _ _ _ _ _ _ _ _ O)| |].
      * rewrite EX. apply kry_S; [exact (sym_AtA A At AD)|]. exact (gh_kx st xs G).
      * intros z _. apply dres2_min. rewrite N'. apply ip_zero.
    + right. split; [exact N'|]. split; [left; exact BR|]. intros n DN.
      destruct (DIM n DN) as [_ D2]. specialize (D2 DD NB). rewrite (eo_itn _ _ _ _ _ _ _ _ O). split; [lia|]. intros _ Q. congruence.
Qed.

Lemma ex_init : forall cnt, exists st0, @ls_init KK WV WU q kw b cnt = Ok st0 /\ s_itn st0 = 0%nat /\
  ls_gh st0 [] /\ (s_beta st0 : R) = inorm b /\ ls_ph cnt st0 /\ (s_brk st0 = false -> 0 < inorm b).
Proof.
  intro cnt. pose proof (adjoint_lin A At AD) as LA. pose proof (adjoint_lin_t A At AD) as LT.
  unfold ls_init. cbv zeta. rewrite NM.
  destruct (ex_gk dv sq DV SQ E2 nv2 b) as (u & G1 & G2 & G3). rewrite G1. cbn [rbind].
  assert (D0 : dr izero = ip b b).
  { unfold dres2. rewrite (lin_zero A LA). ipx. ring. }
  assert (R0 : nr izero = At b).
  { unfold nres. rewrite (lin_zero A LA). apply ip_ext. intro z. ipx. rewrite !(ip_At A At AD). ipx. ring. }
  assert (B0 : isub b (A izero) = b).
  { rewrite (lin_zero A LA). apply ip_ext. intro z. ipx. ring. }
  assert (ARN : forall al, al * inorm b = inorm (At b) ->
    (forall st : ls_st WV WU, s_x st = (izero : iv E1) -> s_itn st = 0%nat ->
      (s_Arnorm st : R) = al * inorm b -> (s_r1norm st : R) = inorm b -> (s_r2norm st : R) = inorm b ->
      (s_xnorm st : R) = 0 -> (s_Anorm st : R) = 0 ->
      s_resids st = (if l_sres kw then [s_r2norm st] else []) ->
      s_nresids st = (if l_sres kw then [s_Arnorm st] else []) ->
      s_iters st = (if l_sit kw then [s_x st] else []) -> ls_gh st [])).
  { intros al HA st H1 H2 H3 H4 H5 H6 HAn H7 H8 H9. split.
    - rewrite H2. reflexivity.
    - exact H1.
    - rewrite H7, H5. cbn [map]. rewrite D0. reflexivity.
    - rewrite H8, H3, HA. cbn [map]. rewrite R0. reflexivity.
    - rewrite H9, H1. reflexivity.
    - unfold okx. cbv zeta. rewrite H1, H3, H4, H5, H6, D0, R0, B0, inorm_izero.
      split; [reflexivity|]. split; [exact HA|]. split; [reflexivity|]. split; [split; lra|reflexivity].
    - rewrite HAn. apply Rle_refl.
    - intros i x N. destruct i; discriminate. }
  destruct (@sgtb KK (inorm b) (@s0 KK)) eqn:EB.
  - apply ex_gt in EB. rewrite NN.
    destruct (ex_gk dv sq DV SQ E1 nv1 (lp_At q u)) as (v & H1 & H2 & H3). rewrite H1. cbn [rbind].
    assert (EBu : b = iscale (inorm b) u).
    { rewrite (G2 EB). apply ip_ext. intro z. ipx. field. lra. }
    assert (U1 : ip u u = 1) by (rewrite (G2 EB); apply unit_norm; exact EB).
    assert (AL : inorm (At u) * inorm b = inorm (At b)).
    { rewrite EBu at 2. rewrite (lin_scale At LT), inorm_scale, Rabs_right by lra. ring. }
    eexists. split; [reflexivity|]. split; [reflexivity|].
    split; [apply (ARN (inorm (At u)) AL); reflexivity|]. split; [reflexivity|]. split; [|intros _; exact EB].
    destruct (Req_dec (inorm (At u)) 0) as [Z|Z].
    + right. split; [cbn [s_x]; change (nr izero = izero); rewrite R0; apply inorm_zero; rewrite <- AL, Z; apply Rmult_0_l|].
      split; [left; apply Reqb_true; cbn; rewrite Z; apply Rmult_0_l|].
      intros n DN. cbn [s_itn]. split; lia.
    + left. assert (AP : 0 < inorm (At u)) by (pose proof (inorm_pos (At u)); lra).
      assert (EA : At u = iscale (inorm (At u)) v).
      { rewrite (H2 AP). apply ip_ext. intro z. ipx. field. lra. }
      assert (V1 : ip v v = 1) by (rewrite (H2 AP); apply unit_norm; exact AP).
      pose proof (li_start u v (inorm b) (inorm (At u)) EB AP U1 V1 EBu EA) as L.
      assert (CM : (slit (-1) : sc KK) = (-1 : R)) by (cbn; unfold Q2R; cbn; lra).
      exists [], [], u, v, v, u, izero, izero, izero. split; [|split].
      * split; cbn [s_Mu s_u s_vN s_w s_rhobar s_cs2 s_xxnorm s_res2 s_ddnorm s_nrg2 s_Anorm s_istop]; try reflexivity; try apply Rle_refl.
        -- replace (@sgtb KK (inorm (lp_At q u)) (@s0 KK)) with true by (symmetry; apply ex_gt; exact AP). reflexivity.
        -- left. exact Z.
        -- rewrite CM. lra.
      * cbn [s_itn s_alpha s_x s_rhobar s_phibar s_res2 s_xxnorm s_cs2 s_sn2 s_z]. rewrite CM.
        replace (0 * 0) with 0 in L by ring.
        replace ((@s0 KK : R) * (@s0 KK : R)) with 0 by (cbn; ring). exact L.
      * cbn [s_cnt s_itn]. lia.
  - apply ex_gtf in EB. pose proof (inorm_pos b).
    assert (Z : inorm b = 0) by lra. pose proof (inorm_zero b Z) as BZ.
    assert (AL : (0 : R) * inorm b = inorm (At b)).
    { rewrite BZ, (lin_zero At LT), !inorm_izero. ring. }
    cbn [rbind]. eexists. split; [reflexivity|]. split; [reflexivity|].
    split; [apply (ARN 0 AL); reflexivity|]. split; [reflexivity|].
    split; [|cbn [s_brk]; intro Q; apply Reqb_false in Q; exfalso; apply Q; apply Rmult_0_l].
    right. split; [cbn [s_x]; change (nr izero = izero); rewrite R0, BZ, (lin_zero At LT); reflexivity|].
    split; [left; apply Reqb_true; cbn; apply Rmult_0_l|].
    intros n DN. cbn [s_itn]. split; lia.
Qed.

Theorem ls_exact : forall fuel cnt, l_wantvar kw = false -> (Z.to_nat lim < fuel)%nat ->
  exists o cnt' xs, @ls_solve KK WV WU fuel q kw b cnt = Ok (o, cnt') /\
    length xs = o_itn o /\ (o_x o : iv E1) = last xs izero /\
    o_resids o = (if l_sres kw then map (fun x => sqrt (dr x)) (izero :: xs) else []) /\
    o_nresids o = (if l_sres kw then map (fun x => inorm (nr x)) (izero :: xs) else []) /\
    o_iters o = (if l_sit kw then izero :: xs else []) /\
    (let x := o_x o : iv E1 in
     (o_r2norm o : R) = sqrt (dr x) /\ (o_Arnorm o : R) = inorm (nr x) /\ (o_xnorm o : R) = inorm x /\
     inorm (isub b (A x)) <= (o_r1norm o : R) <= o_r2norm o /\
     (d = 0 -> (o_r1norm o : R) = inorm (isub b (A x)))) /\
    0 <= (o_Anorm o : R) /\
    (forall i x, nth_error xs i = Some x ->
       kry AA (At b) (S i) x /\ forall z, kry AA (At b) (S i) z -> dr x <= dr z) /\
    (nr (o_x o) <> izero -> cnt' = (cnt + 2 * o_itn o + 1)%nat) /\
    forall n, dim_le E1 n \/ dim_le E2 n \/ rank_le A n -> (o_itn o <= n + 1)%nat /\ ((n <= o_itn o)%nat -> nr (o_x o) = izero).
Proof.
  intros fuel cnt HV HF. destruct (ex_init cnt) as (st0 & E0 & I0 & G0 & B0 & P0 & BP).
  pose (Inv := fun st => (exists xs, ls_gh st xs) /\ ls_ph cnt st).
  assert (ST : forall st, Inv st -> ls_cond lim st = true -> (0 < inorm b) ->
    exists st', ls_body q kw (s_beta st0) lim st = Ok st' /\ Inv st' /\ s_itn st' = (s_itn st + 1)%nat).
  { intros st [[xs G] PH] C HB. unfold ls_cond in C. apply andb_prop in C as [C _]. apply negb_true_iff in C.
    destruct (ls_loop_step (s_beta st0) cnt st xs ltac:(rewrite B0; exact HB) G PH C) as (st' & EB & EI & [x' G'] & P').
    exists st'. split; [exact EB|]. split; [split; eauto|exact EI]. }
  assert (W : exists st, while fuel (ls_cond lim) (ls_body q kw (s_beta st0) lim) st0 = Ok st /\ Inv st /\ ls_cond lim st = false).
  { destruct (ls_cond lim st0) eqn:C0.
    - assert (HB : 0 < inorm b).
      { apply BP. unfold ls_cond in C0. apply andb_prop in C0 as [C0 _]. apply negb_true_iff in C0. exact C0. }
      destruct (while_term (ls_cond lim) (ls_body q kw (s_beta st0) lim) Inv (fun st => (Z.to_nat lim - s_itn st)%nat)) with (fuel := fuel) (s := st0) as [st W].
      + intros st I C. destruct (ST st I C HB) as (st' & EB & I' & EI). exists st'. split; [exact EB|]. split; [exact I'|].
        unfold ls_cond in C. apply andb_prop in C as [_ C]. apply Z.ltb_lt in C. lia.
      + split; eauto.
      + lia.
      + exists st. split; [exact W|].
        apply while_inv with (I := Inv) in W; [exact W| |split; eauto].
        intros s s' I C EB. destruct (ST s I C HB) as (s2 & EB2 & I' & _). rewrite EB in EB2. injection EB2 as <-. exact I'.
    - exists st0. destruct fuel as [|f]; [lia|]. cbn [while]. rewrite C0. split; [reflexivity|]. split; [split; eauto|reflexivity]. }
  destruct W as (st & W & [[xs G] PH] & CF).
  unfold ls_solve. rewrite HV, E0. cbn [rbind]. rewrite W. cbn [rbind].
  eexists _, _, xs. split; [reflexivity|].
  cbn [o_itn o_x o_resids o_nresids o_iters o_r2norm o_Arnorm o_xnorm o_r1norm o_istop o_Anorm].
  split; [apply (gh_len _ _ G)|]. split; [apply (gh_x _ _ G)|]. split; [apply (gh_res _ _ G)|].
  split; [apply (gh_nres _ _ G)|]. split; [apply (gh_it _ _ G)|]. split; [apply (gh_ok _ _ G)|]. split; [apply (gh_An _ _ G)|].
  split; [apply (gh_kry _ _ G)|].
  split.
  { intro N. destruct PH as [(U & V & u & v & w & tu & te & su & se & P & I & EC)|(N0 & _)]; [exact EC|contradiction]. }
  intros n DN. destruct PH as [(U & V & u & v & w & tu & te & su & se & P & I & EC)|(N0 & _ & DIM)].
  - assert (s_itn st < n)%nat; [|split; [lia|intro; lia]].
    pose proof (li_gk _ _ _ _ _ _ _ _ _ _ _ _ _ _ _ _ _ _ _ _ _ _ I) as GG. destruct DN as [DN|[DN|DN]].
    + rewrite <- (li_lenV _ _ _ _ _ _ _ _ _ _ _ _ _ _ _ _ _ _ _ _ _ _ I). exact (gk_dim A At U V u v _ n GG DN).
    + rewrite <- (li_lenU _ _ _ _ _ _ _ _ _ _ _ _ _ _ _ _ _ _ _ _ _ _ I). exact (gk_dim_u A At U V u v _ n GG DN).
    + rewrite <- (li_lenV _ _ _ _ _ _ _ _ _ _ _ _ _ _ _ _ _ _ _ _ _ _ I). exact (gk_rank A At AD U V u v _ n GG DN).
  - split; [apply (DIM n DN)|]. intros _. exact N0.
Qed.

(** The iterate after breakdown solves the least-squares problem; without damping it is the
    solution of smallest norm. *)
Lemma nres_opt : forall x, nr x = izero -> forall z, dr x <= dr z.
Proof. intros x H z. apply dres2_min. rewrite H. apply ip_zero. Qed.

Lemma kry_range : forall k x, kry AA (At b) k x -> exists t, x = At t.
Proof.
  intros k x K. pose proof (adjoint_lin_t A At AD) as LT. destruct k as [|k].
  - exists izero. rewrite (lin_zero At LT). exact K.
  - destruct K as (a & z & _ & ->). exists (iadd (iscale a b) (A z)).
    rewrite (lin_add At LT), (lin_scale At LT). reflexivity.
Qed.

Lemma nres_minnorm : d = 0 -> forall k x z, kry AA (At b) k x -> nr x = izero -> nr z = izero ->
  inorm x <= inorm z /\ (inorm z = inorm x -> z = x).
Proof.
  intros D0 k x z K NX NZ. destruct (kry_range k x K) as [t ->].
  pose proof (adjoint_lin A At AD) as LA. pose proof (adjoint_lin_t A At AD) as LT.
  set (h := isub z (At t)).
  assert (N : At (A h) = izero).
  { apply ip_ext. intro y0. unfold h. rewrite (lin_sub A LA), (lin_sub At LT), ip_sub.
    unfold nres in NX, NZ. rewrite D0 in NX, NZ.
    assert (Q1 : ip y0 (At (isub b (A z))) = 0).
    { transitivity (ip y0 (isub (At (isub b (A z))) (iscale (0 * 0) z))); [ipx; ring|]. rewrite NZ. apply ip_zero. }
    assert (Q2 : ip y0 (At (isub b (A (At t)))) = 0).
    { transitivity (ip y0 (isub (At (isub b (A (At t)))) (iscale (0 * 0) (At t)))); [ipx; ring|]. rewrite NX. apply ip_zero. }
    rewrite (lin_sub At LT), ip_sub in Q1, Q2. rewrite ip_zero. lra. }
  assert (AH : A h = izero).
  { apply ip_def. rewrite <- (ip_At A At AD), N. apply ip_zero. }
  assert (O : ip h (At t) = 0). { rewrite (ip_At A At AD), AH. apply ip_zerol. }
  assert (Z : z = iadd (At t) h) by (unfold h; veq).
  assert (NN2 : ip z z = ip (At t) (At t) + ip h h).
  { rewrite Z. ipx. rewrite (ip_sym (At t) h), O. ring. }
  split.
  - unfold inorm. apply sqrt_le_1; [apply ip_pos|apply ip_pos|]. rewrite NN2. pose proof (ip_pos h). lra.
  - intro E. assert (H0 : ip h h = 0).
    { apply (f_equal (fun r => r * r)) in E. rewrite !inorm_sq in E. lra. }
    apply ip_def in H0. rewrite Z, H0. veq.
Qed.

(** What the stopping codes 1 and 2 mean. *)
Lemma ls_tests_mean : forall late i (bn An Ac rn Ar xn : R) r, 0 < bn ->
  (i = 0 \/ i = 8)%Z ->
  @ls_tests KK WV WU kw late i bn An Ac rn Ar xn = Ok r ->
  (r = 1%Z -> rn <= l_btol kw * bn + l_atol kw * An * xn) /\
  (r = 2%Z -> 0 <= An -> 0 <= rn -> l_infle kw (l_atol kw) = false -> Ar <= l_atol kw * (An * rn)).
Proof.
  intros late i bn An Ac rn Ar xn r HB HI H. unfold ls_tests in H.
  rewrite (ex_div dv sq DV rn bn) in H by lra. cbn [rbind] in H.
  rb H t2 T2. rb H t3 T3. clear T3.
  rewrite (ex_div dv sq DV) in H by lra. cbn [rbind] in H.
  rb H t1 T1. clear T1.
  rewrite (ex_div dv sq DV) in H by lra. cbn [rbind] in H.
  injection H as H.
  match type of H with (if ?c then _ else _) = _ => destruct c eqn:C1 end.
  - split; [|intro; lia]. intros _. apply Rleb_true in C1. cbn in C1.
    apply Rmult_le_compat_r with (r := bn) in C1; [|lra].
    replace (rn / bn * bn) with rn in C1 by (field; lra).
    replace ((l_btol kw + l_atol kw * An * xn / bn) * bn) with (l_btol kw * bn + l_atol kw * An * xn) in C1 by (field; lra).
    exact C1.
  - match type of H with (if ?c then _ else _) = _ => destruct c eqn:C2 end.
    + split; [intro; lia|]. intros _ HA HR IN. unfold ls_le in C2.
      destruct t2 as [t|]; [|congruence].
      destruct (seqb (An : sc KK) (@s0 KK) || seqb (rn : sc KK) (@s0 KK)) eqn:EZ; [discriminate|].
      apply orb_false_iff in EZ as [Z1 Z2]. apply Reqb_false in Z1, Z2. cbn in Z1, Z2.
      rewrite (ex_div dv sq DV) in T2 by (cbn; intro Z; apply Rmult_integral in Z; tauto). cbn [rbind] in T2.
      injection T2 as <-. apply Rleb_true in C2. change (Ar / (An * rn) <= l_atol kw) in C2.
      assert (0 < An * rn) by (apply Rmult_lt_0_compat; lra).
      apply Rmult_le_compat_r with (r := An * rn) in C2; [|lra].
      replace (Ar / (An * rn) * (An * rn)) with Ar in C2 by (field; lra). exact C2.
    + split; intro Q; rewrite Q in H; clear -H HI;
        repeat match type of H with context [if ?c then _ else _] => destruct c end; lia.
Qed.

Lemma ls_stop : forall fuel cnt o cnt', l_wantvar kw = false ->
  @ls_solve KK WV WU fuel q kw b cnt = Ok (o, cnt') -> (Z.to_nat lim < fuel)%nat ->
  (o_istop o = 1%Z -> (o_r2norm o : R) <= l_btol kw * inorm b + l_atol kw * o_Anorm o * o_xnorm o) /\
  (o_istop o = 2%Z -> l_infle kw (l_atol kw) = false ->
     (o_Arnorm o : R) <= l_atol kw * (o_Anorm o * o_r2norm o)).
Proof.
  intros fuel cnt o cnt' HV H HF.
  destruct (ls_exact fuel cnt HV HF) as (o2 & c2 & xs & H2 & _ & _ & _ & _ & _ & (R2 & _) & HA & _).
  rewrite H in H2. injection H2 as <- _. cbv zeta in R2.
  destruct (ex_init cnt) as (st0 & E0 & I0 & G0 & B0 & P0 & BP).
  unfold ls_solve in H. rewrite HV, E0 in H. cbn [rbind] in H.
  destruct (while fuel (ls_cond lim) (ls_body q kw (s_beta st0) lim) st0) as [st|] eqn:W; [|discriminate].
  cbn [rbind] in H. injection H as <- <-. cbn [o_istop o_r2norm o_Anorm o_xnorm o_Arnorm o_x] in *.
  pose proof (ls_init_spec _ _ _ _ _ E0) as (I1 & _).
  pose (J := fun st : ls_st WV WU => (s_brk st = false -> s_istop st = 0%Z /\ 0 < inorm b) /\
     ((s_istop st = 0%Z) \/ (0 < inorm b /\ exists late i, (i = 0 \/ i = 8)%Z /\
     @ls_tests KK WV WU kw late i (inorm b) (s_Anorm st) (s_Acond st) (s_r2norm st) (s_Arnorm st) (s_xnorm st) = Ok (s_istop st)))).
  assert (JJ : J st /\ exists bs, ls_flow q kw st0 st bs).
  { apply while_inv with (I := fun st => J st /\ exists bs, ls_flow q kw st0 st bs) in W; [apply W| |].
    - intros s s' [[JS _] [bs F]] C EB.
      destruct (ls_step_flow q kw _ _ _ _ _ I1 F C EB) as [F' _]. split; [|eauto].
      unfold ls_cond in C. apply andb_prop in C as [C _]. apply negb_true_iff in C. destruct (JS C) as [JS1 JS2].
      split; [intro Q; split; [exact (lf_run _ _ _ _ _ F' Q)|exact JS2]|].
      right. split; [exact JS2|]. destruct (ls_body_tests q kw _ _ _ EB) as (late & i & HI & T).
      exists late, i. split; [rewrite JS1 in HI; exact HI|]. rewrite <- B0. exact T.
    - split; [|exists []; apply (ls_init_spec _ _ _ _ _ E0)]. split; [|left; exact I1].
      intro Q. split; [exact I1|exact (BP Q)]. }
  destruct JJ as [[_ [Z|(HB & late & i & HI & T)]] _]; [split; intro; lia|].
  destruct (ls_tests_mean late i _ _ _ _ _ _ _ HB HI T) as [M1 M2].
  split; [exact M1|]. intros Q IN. apply M2; [exact Q|exact HA| |exact IN].
  rewrite R2. apply sqrt_pos.
Qed.
End Exact.
