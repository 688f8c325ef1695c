(** * MINRES when [b] is orthogonal to [(A - shift I) b]: the condition estimate is infinite at once. *)
From Coq Require Import List ZArith QArith Qreals Reals Lia Lra Bool.
From Verif Require Import Base Num ToolsModel ToolsProof CgModel Ieee MinresModel MinresProof MinresNan.
Import ListNotations.
Local Open Scope R_scope.

Section Orth.
Variables (q : kprob xV) (kw : mr_kw xV) (bl av : list R) (sh rtol : R).
Notation n := (length bl).
Notation b := (fins bl : vc xV).
Notation eps := (@machine_eps xK).
Notation e := (Q2R (1 # 4503599627370496)).
Notation A := (q_A q : list xr -> list xr).
Notation lim := (@mr_lim xK xV kw b).
Hypothesis NP : m_precon kw = None.
Hypothesis SH : (m_shift kw : xr) = Fin sh.
Hypothesis RT : (m_rtol kw : xr) = Fin rtol.
Hypothesis WI : (1 <= m_window kw)%nat.
Hypothesis B0 : 0 < rdot bl bl.
Let b1 := sqrt (rdot bl bl).
Let v1 := map (Rmult (1 / b1)) bl.
Let yv := zipw Rminus av (map (Rmult sh) v1).
Hypothesis LA : length av = n.
Hypothesis EA : A (fins v1) = fins av.
Hypothesis OR : rdot v1 yv = 0.
Let be := sqrt (rdot yv yv).
Let an := sqrt (b1 * b1 + be * be).
(** The other stopping tests do not apply at the first iteration. *)
Hypothesis H10 : 10 * e * b1 < be.
Hypothesis HE : e <= be.
Hypothesis HX : e * an < be.
Hypothesis HT : rtol * an < be.

Lemma or_eps : (eps : xr) = Fin e.
Proof. reflexivity. Qed.
Lemma or_b1 : 0 < b1.
Proof. apply sqrt_lt_R0. exact B0. Qed.
Lemma or_be : 0 < be.
Proof. assert (0 < e) by apply Q2R_pos_lit. lra. Qed.
Lemma or_be2 : be * be = rdot yv yv.
Proof. apply sqrt_sqrt, rdot_pos. Qed.
Lemma or_an : 0 < an.
Proof. apply sqrt_lt_R0. pose proof or_b1. pose proof or_be. nra. Qed.
Lemma or_len : length yv = n.
Proof. unfold yv. apply zipw_len; [exact LA|]. rewrite map_length. unfold v1. apply map_length. Qed.

Lemma zip0 : forall (a : R) u v, length u = length v -> a = 0 -> zipw Rplus (map (Rmult a) u) v = v.
Proof.
  intros a u v L ->. revert v L. unfold zipw. induction u as [|x u IH]; intros [|y v] L; try discriminate; [reflexivity|].
  cbn. f_equal; [ring|]. apply IH. injection L as L. exact L.
Qed.

Lemma xdivF : forall a c, c <> 0 -> xdiv (Fin a) (Fin c) = Fin (a / c).
Proof. intros a c H. cbn. destruct (Req_EM_T c 0); [contradiction|reflexivity]. Qed.
Lemma xsqrtF : forall a, 0 <= a -> xsqrt (Fin a) = Fin (sqrt a).
Proof. intros a H. cbn. destruct (Rlt_dec a 0); [lra|reflexivity]. Qed.
Lemma xleF : forall a c, c < a -> xleb (Fin a) (Fin c) = false.
Proof.
  intros a c H. unfold xleb. apply orb_false_iff. split; [apply Rltb_false|apply Reqb_false]; lra.
Qed.

Lemma or_first : forall hist cnt,
  exists st', @mr_body xK xV q kw eps (Fin b1 : sc xK) lim (@mr_init xK xV kw b (Fin b1) 0 false hist cnt) = Ok st' /\
    (r_x st' : list xr) = repeat (Fin 0) n /\ r_istop st' = 4%Z /\ r_brk st' = true /\ r_itn st' = 1%nat /\
    (r_Acond st' : xr) = PInf /\ (r_rnorm st' : xr) = Fin b1.
Proof.
  intros hist cnt. set (st := @mr_init xK xV kw b (Fin b1) 0 false hist cnt).
  pose proof or_b1 as BP. pose proof or_be as BEP. pose proof or_be2 as BE2. pose proof or_an as ANP.
  assert (EL : @mr_lan xK xV q kw st = (fins v1 : vc xV, Fin 0 : sc xK, fins yv : vc xV,
     fins yv : vc xV, Fin (rdot yv yv) : sc xK, (cnt + 1)%nat)).
  { unfold mr_lan, opmul. rewrite NP. change (r_beta st) with (Fin b1). change (r_cnt st) with cnt.
    assert (Y : (r_y st : list xr) = fins bl) by (unfold st, mr_init, mr_y0; rewrite NP; reflexivity).
    rewrite Y. clear Y. change (r_r2 st) with (fins bl : vc xV). change (r_itn st) with 0%nat. cbn [Nat.add Nat.leb].
    assert (V : @vscale xK xV (sdiv s1 (Fin b1 : sc xK)) (fins bl : vc xV) = fins v1).
    { change (map (xmul (xdiv (Fin 1) (Fin b1))) (fins bl) = fins v1). rewrite xdivF by lra. apply fins_scale. }
    rewrite V. rewrite EA.
    assert (Yp : @vsub xK xV (fins av : vc xV) (@vscale xK xV (m_shift kw) (fins v1 : vc xV)) = fins yv).
    { change (zipw xsub (fins av) (map (xmul (m_shift kw)) (fins v1)) = fins yv).
      rewrite SH, fins_scale, (fins_zip xsub Rminus) by reflexivity. reflexivity. }
    rewrite Yp. cbv zeta.
    assert (AA : @vdot xK xV (fins v1 : vc xV) (fins yv : vc xV) = Fin 0).
    { change (xdot (fins v1) (fins yv) = Fin 0). rewrite fins_dot, OR. reflexivity. }
    rewrite AA.
    match goal with |- context [@vadd xK xV ?a ?c] => assert (YY : @vadd xK xV a c = fins yv) end.
    { change (zipw xadd (map (xmul (xdiv (Fin (- 0)) (Fin b1))) (fins bl)) (fins yv) = fins yv).
      rewrite xdivF, fins_scale, (fins_zip xadd Rplus) by (reflexivity || lra). rewrite zip0; [reflexivity|rewrite or_len; reflexivity|field; lra]. }
    rewrite YY.
    change (@vdot xK xV (fins yv : vc xV) (fins yv : vc xV)) with (xdot (fins yv) (fins yv)). rewrite fins_dot. reflexivity. }
  unfold mr_body. rewrite EL.
  replace (@sltb xK (Fin (rdot yv yv)) s0) with false by (symmetry; apply Rltb_false; apply rdot_pos).
  destruct (Nat.eqb_spec (m_window kw) 0) as [Z|_]; [lia|].
  assert (M1 : Q2R (-1) = -1) by (unfold Q2R; cbn; lra).
  assert (SB : @ssqrt xK (Fin (rdot yv yv)) = Fin be) by (apply xsqrtF, rdot_pos).
  rewrite SB.
  assert (DE : @mr_delta xK xV st (Fin 0) = Fin 0).
  { change (Fin (Q2R (-1) * 0 + 0 * 0) = Fin 0). f_equal. ring. }
  assert (GB : @mr_gbar xK xV st (Fin 0) = Fin 0).
  { change (Fin (0 * 0 - Q2R (-1) * 0) = Fin 0). f_equal. ring. }
  rewrite DE, GB.
  assert (N2 : forall a c, a = 0 -> c = be -> @normof2 xK (Fin a) (Fin c) = Fin be).
  { intros a c -> ->. change (xsqrt (Fin (0 * 0 + be * be)) = Fin be). rewrite xsqrtF by nra. f_equal.
    replace (0 * 0 + be * be) with (be * be) by ring. apply sqrt_square. lra. }
  assert (GA : @mr_gamma xK eps (Fin 0) (Fin be) = Fin be).
  { unfold mr_gamma. rewrite N2 by reflexivity. unfold pymax. rewrite or_eps.
    change (@sltb xK (Fin be) (Fin e)) with (Rltb be e). replace (Rltb be e) with false; [reflexivity|].
    symmetry. apply Rltb_false. exact HE. }
  assert (RO : @mr_root xK xV st (Fin 0) (Fin be) = Fin be).
  { unfold mr_root. change (@smul xK (sneg (r_cs st)) (Fin be)) with (Fin (- Q2R (-1) * be)). apply N2; [reflexivity|].
    rewrite M1. ring. }
  rewrite GA, RO.
  eexists. split; [reflexivity|].
  assert (XZ : (r_x st : list xr) = fins (map (Rmult 0) bl)).
  { rewrite scale0. unfold st. cbn. unfold fins. rewrite map_length. reflexivity. }
  assert (W2Z : (r_w2 st : list xr) = fins (map (Rmult 0) bl)) by exact XZ.
  assert (WZ : (r_w st : list xr) = fins (map (Rmult 0) bl)) by exact XZ.
  assert (X1 : forall c, (r_x (@mr_upd xK xV kw eps (Fin b1) lim st (fins v1 : vc xV) (Fin 0 : sc xK) (fins yv : vc xV)
    (fins yv : vc xV) c (Fin be : sc xK) (Fin 0 : sc xK) (Fin 0 : sc xK) (Fin be : sc xK) (Fin be : sc xK)) : list xr)
     = repeat (Fin 0) n).
  { intro c.
    change (zipw xadd (r_x st) (map (xmul (xmul (xdiv (Fin 0) (Fin be)) (Fin b1))) (map (xmul (xdiv (Fin 1) (Fin be)))
       (zipw xsub (zipw xsub (fins v1) (map (xmul (Fin 0)) (r_w2 st))) (map (xmul (Fin 0)) (r_w st))))) = repeat (Fin 0) n).
    rewrite !xdivF, XZ, W2Z, WZ by lra. cbn [xmul].
    rewrite !fins_scale, !(fins_zip xsub Rminus), !fins_scale, (fins_zip xadd Rplus) by reflexivity.
    rewrite <- scale0. apply (f_equal fins). unfold v1. clear. unfold zipw.
    generalize (1 / b1) as c1. generalize (1 / be) as c2. replace (0 / be * b1) with 0 by (unfold Rdiv; ring).
    intros c2 c1. induction bl as [|y l IH]; [reflexivity|]. cbn. f_equal; [ring|]. exact IH. }
  split; [apply X1|].
  assert (TN : @sadd xK (sadd (sadd (r_tnorm2 st) (smul (Fin 0 : sc xK) (Fin 0 : sc xK))) (smul (r_beta st) (r_beta st)))
     (smul (Fin be : sc xK) (Fin be : sc xK)) = Fin (b1 * b1 + be * be)).
  { change (Fin (0 + 0 * 0 + b1 * b1 + be * be) = Fin (b1 * b1 + be * be)). f_equal. ring. }
  assert (AN : @ssqrt xK (Fin (b1 * b1 + be * be)) = Fin an) by (apply xsqrtF; nra).
  assert (ZV : @sdiv xK (r_rhs1 st) (Fin be : sc xK) = Fin (b1 / be)) by (apply xdivF; lra).
  assert (Y2 : @sadd xK (smul (Fin (b1 / be) : sc xK) (Fin (b1 / be) : sc xK)) (r_ynorm2 st) = Fin (b1 / be * (b1 / be))).
  { change (Fin (b1 / be * (b1 / be) + 0) = Fin (b1 / be * (b1 / be))). f_equal. ring. }
  assert (YP : 0 < b1 / be) by (apply Rdiv_lt_0_compat; lra).
  assert (YN : @ssqrt xK (Fin (b1 / be * (b1 / be))) = Fin (b1 / be)).
  { change (xsqrt (Fin (b1 / be * (b1 / be))) = Fin (b1 / be)). rewrite xsqrtF by nra. f_equal. apply sqrt_square. lra. }
  assert (PB : @smul xK (sdiv (Fin be : sc xK) (Fin be : sc xK)) (r_phibar st) = Fin b1).
  { change (xmul (xdiv (Fin be) (Fin be)) (Fin b1) = Fin b1). rewrite xdivF by lra. cbn. f_equal. field. lra. }
  assert (GX : @pymax xK (sabs (Fin 0 : sc xK)) (Fin be : sc xK) = Fin be).
  { unfold pymax. change (@sabs xK (Fin 0)) with (Fin (Rabs 0)). change (@sltb xK (Fin (Rabs 0)) (Fin be)) with (Rltb (Rabs 0) be).
    rewrite Rabs_R0, (proj2 (Rltb_true _ _) BEP). reflexivity. }
  assert (GN : @pymin xK (sabs (Fin 0 : sc xK)) (Fin be : sc xK) = Fin 0).
  { unfold pymin. change (@sabs xK (Fin 0)) with (Fin (Rabs 0)). change (@sltb xK (Fin be) (Fin (Rabs 0))) with (Rltb be (Rabs 0)).
    rewrite Rabs_R0. replace (Rltb be 0) with false; [reflexivity|]. symmetry. apply Rltb_false. lra. }
  assert (AC : @sdiv xK (Fin be : sc xK) (Fin 0 : sc xK) = PInf).
  { cbn. destruct (Req_EM_T 0 0); [|lra]. unfold xinf. destruct (Rlt_dec 0 be); [reflexivity|lra]. }
  assert (T1 : @sdiv xK (Fin b1 : sc xK) (smul (Fin an : sc xK) (Fin (b1 / be) : sc xK)) = Fin (be / an)).
  { change (xdiv (Fin b1) (Fin (an * (b1 / be))) = Fin (be / an)).
    assert (0 < an * (b1 / be)) by (apply Rmult_lt_0_compat; lra). rewrite xdivF by lra. f_equal. field. lra. }
  assert (T2 : @sdiv xK (Fin be : sc xK) (Fin an : sc xK) = Fin (be / an)) by (apply xdivF; lra).
  assert (TP : 0 < be / an) by (apply Rdiv_lt_0_compat; lra).
  assert (TT : rtol < be / an).
  { apply Rmult_lt_reg_r with an; [exact ANP|]. replace (be / an * an) with be by (field; lra). lra. }
  assert (IS : forall c, r_istop (@mr_upd xK xV kw eps (Fin b1) lim st (fins v1 : vc xV) (Fin 0 : sc xK) (fins yv : vc xV)
    (fins yv : vc xV) c (Fin be : sc xK) (Fin 0 : sc xK) (Fin 0 : sc xK) (Fin be : sc xK) (Fin be : sc xK)) = 4%Z).
  { intro c. unfold mr_upd. cbn [r_istop]. change (r_itn st) with 0%nat. cbn [Nat.add Nat.eqb].
    replace (m_window kw <? 1)%nat with false by (symmetry; apply Nat.ltb_ge; exact WI). cbn [andb].
    rewrite TN, AN, ZV, Y2, YN, PB, GX, GN, AC, T1, T2, or_eps, RT.
    assert (L : @sleb xK (sdiv (Fin be : sc xK) (Fin b1 : sc xK)) (smul (slit 10) (Fin e : sc xK)) = false).
    { change (xleb (xdiv (Fin be) (Fin b1)) (Fin (Q2R 10 * e)) = false). rewrite xdivF by lra. apply xleF.
      replace (Q2R 10) with 10 by (unfold Q2R; cbn; lra).
      apply Rmult_lt_reg_r with b1; [exact BP|]. replace (be / b1 * b1) with be by (field; lra). lra. }
    rewrite L. change (r_istop st) with 0%Z. cbn [Z.eqb].
    unfold mr_tests, sgeb.
    assert (L1 : @sleb xK (sadd (s1 : sc xK) (Fin (be / an) : sc xK)) s1 = false).
    { change (xleb (Fin (1 + be / an)) (Fin 1) = false). apply xleF. lra. }
    assert (L2 : @sleb xK (sdiv (slit (1 # 10)) (Fin e : sc xK)) (PInf : sc xK) = true).
    { change (xleb (xdiv (Fin (Q2R (1 # 10))) (Fin e)) PInf = true).
      assert (0 < e) by apply Q2R_pos_lit. rewrite xdivF by lra. reflexivity. }
    assert (L3 : @sleb xK (Fin b1 : sc xK) (smul (smul (Fin an : sc xK) (Fin (b1 / be) : sc xK)) (Fin e : sc xK)) = false).
    { change (xleb (Fin b1) (Fin (an * (b1 / be) * e)) = false). apply xleF.
      replace (an * (b1 / be) * e) with (b1 * (e * an / be)) by (field; lra).
      assert (Q : e * an / be < 1).
      { apply Rmult_lt_reg_r with be; [exact BEP|]. replace (e * an / be * be) with (e * an) by (field; lra). lra. }
      nra. }
    assert (L4 : @sleb xK (Fin (be / an) : sc xK) (Fin rtol : sc xK) = false) by (apply xleF; exact TT).
    rewrite L1, L2, L3, L4. destruct (lim <=? 1)%nat; reflexivity. }
  split; [apply IS|]. split.
  { match goal with |- r_brk ?s = true => change ((0 <? r_istop s)%Z = true) end. rewrite IS. reflexivity. }
  split; [reflexivity|]. split.
  - unfold mr_upd. cbn [r_Acond]. change (r_itn st) with 0%nat. cbn [Nat.add Nat.eqb]. rewrite GX, GN. exact AC.
  - unfold mr_upd. cbn [r_rnorm]. exact PB.
Qed.

Lemma or_solve : forall fuel hist cnt,
  (m_check kw = true -> fst (check_symmetric (q_cbrt q) (q_m q) (q_n q) (q_A q) (q_draws q) cnt) = true) ->
  (1 <= lim)%nat -> (2 <= fuel)%nat ->
  exists o cnt', @mr_solve xK xV fuel q hist b kw cnt = Ok (o, cnt') /\
    (u_x o : list xr) = repeat (Fin 0) n /\ u_istop o = 4%Z /\ u_conv o = true /\ u_itn o = 1%nat /\
    (u_Acond o : xr) = PInf /\ (u_rnorm o : xr) = Fin b1.
Proof.
  intros fuel hist cnt CH L1 LF. pose proof or_b1 as BP.
  assert (ST : exists c0, @mr_start xK xV q kw b cnt = (Fin b1 : sc xK, 0%Z, false, c0)).
  { unfold mr_start, mr_y0. rewrite NP.
    change (@vdot xK xV b b) with (xdot (fins bl) (fins bl)). rewrite fins_dot.
    assert (F1 : @sltb xK (Fin (rdot bl bl)) s0 = false) by (apply Rltb_false; lra).
    assert (F2 : @seqb xK (Fin (rdot bl bl)) s0 = false) by (apply Reqb_false; lra).
    assert (F3 : @sgtb xK (Fin (rdot bl bl)) s0 = true) by (apply Rltb_true; lra).
    rewrite F1, F2, F3.
    assert (F4 : @ssqrt xK (Fin (rdot bl bl)) = Fin b1) by (apply xsqrtF; lra).
    rewrite F4. destruct (m_check kw).
    - destruct (check_symmetric _ _ _ _ _ _) as [ok c0]. specialize (CH eq_refl). cbn in CH. subst ok. exists c0. reflexivity.
    - exists cnt. reflexivity. }
  destruct ST as [c0 ST]. unfold mr_solve. rewrite ST.
  destruct (or_first hist c0) as (st & B & X & I & K & N & AC & RN).
  destruct fuel as [|[|fuel]]; [lia|lia|]. cbn [while].
  assert (C0 : mr_cond lim (@mr_init xK xV kw b (Fin b1) 0 false hist c0) = true).
  { unfold mr_cond. cbn [mr_init r_brk r_itn negb andb]. apply Nat.ltb_lt. exact L1. }
  rewrite C0. unfold mr_body in *. rewrite B.
  replace (mr_cond lim st) with false by (unfold mr_cond; rewrite K; reflexivity).
  eexists _, _. split; [reflexivity|]. cbn [u_x u_istop u_conv u_itn u_Acond u_rnorm]. rewrite I. auto 10.
Qed.
End Orth.
