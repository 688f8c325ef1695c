(** * MINRES started on an eigenvector: the iteration after the exact solution divides by zero. *)
From Coq Require Import List ZArith QArith Qreals Reals Lia Lra Bool.
From Verif Require Import Base Num ToolsModel ToolsProof CgModel Ieee MinresModel MinresProof.
Import ListNotations.
Local Open Scope R_scope.

Section Eigen.
Variables (q : kprob xV) (kw : mr_kw xV) (bl : list R) (lam sh : R).
Notation n := (length bl).
Notation b := (fins bl : vc xV).
Notation eps := (@machine_eps xK).
Notation A := (q_A q : list xr -> list xr).
Notation lim := (@mr_lim xK xV kw b).
Hypothesis NP : m_precon kw = None.
Hypothesis SH : (m_shift kw : xr) = Fin sh.
Hypothesis WI : (1 <= m_window kw)%nat.
Hypothesis AL : forall z, length z = n -> length (A z) = n.
Hypothesis B0 : 0 < rdot bl bl.
(** [b] is an eigenvector: the product with [b/|b|] is exact. *)
Let b1 := sqrt (rdot bl bl).
Let v1 := map (Rmult (1 / b1)) bl.
Hypothesis EV : A (fins v1) = fins (map (Rmult lam) v1).

Lemma b1_pos : 0 < b1.
Proof. apply sqrt_lt_R0. exact B0. Qed.
Lemma b1_sq : b1 * b1 = rdot bl bl.
Proof. apply sqrt_sqrt. lra. Qed.
Lemma n_pos : (1 <= n)%nat.
Proof. destruct bl; [|cbn; lia]. cbv in B0. lra. Qed.

Lemma fins_len : forall l, length (fins l) = length l.
Proof. intro. apply map_length. Qed.

Record ev_st (st : mr_st xV) : Prop := {
  ev_v : map (xmul (xdiv (Fin 1) (r_beta st))) (r_y st) = nans n;
  ev_r1 : length (r_r1 st : list xr) = n; ev_r2 : length (r_r2 st : list xr) = n;
  ev_w : length (r_w st : list xr) = n; ev_w2 : length (r_w2 st : list xr) = n; ev_x : length (r_x st : list xr) = n;
  ev_stop : r_istop st = (-1)%Z; ev_brk : r_brk st = false; ev_itn : (1 <= r_itn st)%nat;
  ev_nan : (2 <= r_itn st)%nat -> (r_x st : list xr) = nans n }.

Lemma ev_lan : forall st, ev_st st ->
  @mr_lan xK xV q kw st =
    (nans n : vc xV, NaN : sc xK, nans n : vc xV, nans n : vc xV, NaN : sc xK, (r_cnt st + 1)%nat).
Proof.
  intros st [E1 E2 E3 E4 E5 E6 E7 E8 E9 E10].
  assert (LN : length (nans n) = n) by apply repeat_length.
  pose proof n_pos as NPOS.
  unfold mr_lan, opmul. rewrite NP.
  change (@vscale xK xV (sdiv s1 (r_beta st)) (r_y st)) with (map (xmul (xdiv (Fin 1) (r_beta st))) (r_y st)).
  rewrite E1. cbv zeta.
  replace (2 <=? r_itn st + 1)%nat with true by (symmetry; apply Nat.leb_le; lia). cbv iota.
  match goal with |- context [@vdot xK xV (nans n) ?z] => set (y := z : list xr) end.
  assert (LY : length y = n).
  { unfold y. apply zipw_len; [apply zipw_len|]; [apply AL; exact LN|apply map_len; exact LN|apply map_len; exact E2]. }
  clearbody y.
  change (@vdot xK xV (nans n) y) with (xdot (nans n) y). rewrite (xdot_nans y n NPOS LY).
  match goal with |- context [@vadd xK xV ?a ?c] => assert (Y : @vadd xK xV a c = nans n) end.
  { cbn. change (zipw xadd (map (xmul NaN) (r_r2 st)) y = nans n).
    rewrite (scale_NaN _ n E3). apply zipw_nans_l; [reflexivity|exact LY]. }
  rewrite Y. change (@vdot xK xV (nans n) (nans n)) with (xdot (nans n) (nans n)).
  rewrite (xdot_nans _ n NPOS LN). reflexivity.
Qed.

Lemma ev_step : forall beta1 st st', ev_st st ->
  @mr_body xK xV q kw eps beta1 lim st = Ok st' -> ev_st st' /\ r_itn st' = (r_itn st + 1)%nat.
Proof.
  intros beta1 st st' EE H. unfold mr_body in H. rewrite (ev_lan st EE) in H.
  destruct EE as [E1 E2 E3 E4 E5 E6 E7 E8 E9 E10].
  assert (LN : length (nans n) = n) by apply repeat_length.
  cbn [sltb xK xltb] in H. destruct (Nat.eqb_spec (m_window kw) 0) as [Z|_]; [lia|].
  assert (G : @mr_gbar xK xV st NaN = NaN).
  { unfold mr_gbar. cbn. rewrite xmul_NaN. apply xsub_NaN. }
  change (@ssqrt xK NaN) with (NaN : sc xK) in H.
  rewrite G in H. change (@mr_gamma xK eps NaN NaN) with (NaN : sc xK) in H.
  generalize dependent (@mr_delta xK xV st NaN). intros de H.
  generalize dependent (@mr_root xK xV st NaN NaN). intros root H.
  injection H as <-. split; [|reflexivity].
  assert (LW : length (zipw xsub (zipw xsub (nans n) (map (xmul (r_epsln st)) (r_w2 st))) (map (xmul de) (r_w st))) = n).
  { apply zipw_len; [apply zipw_len|]; [exact LN|apply map_len; exact E5|apply map_len; exact E4]. }
  assert (XN : zipw xadd (r_x st) (map (xmul NaN) (map (xmul NaN)
     (zipw xsub (zipw xsub (nans n) (map (xmul (r_epsln st)) (r_w2 st))) (map (xmul de) (r_w st))))) = nans n).
  { rewrite (scale_NaN _ n LW), scale_nans. apply zipw_nans_r; [apply xadd_NaN|exact E6]. }
  assert (IS : r_istop (@mr_upd xK xV kw eps beta1 lim st (nans n : vc xV) (NaN : sc xK) (nans n : vc xV)
    (nans n : vc xV) (r_cnt st + 1) (NaN : sc xK) de (NaN : sc xK) root (NaN : sc xK)) = (-1)%Z).
  { unfold mr_upd. cbn [r_istop].
    replace (r_itn st + 1 =? 1)%nat with false by (symmetry; apply Nat.eqb_neq; lia). cbn [andb].
    rewrite E7.
    match goal with |- context [sltb ?a (smul (m_etol kw) (ssqrt (sadd ?c ?d)))] =>
      assert (L : sltb a (smul (m_etol kw) (ssqrt (sadd c d))) = false) end.
    { cbn. rewrite xadd_NaN. cbn. rewrite xmul_NaN. apply xltb_NaN. }
    rewrite L, andb_false_r. reflexivity. }
  split.
  - cbn. apply (scale_NaN _ n LN).
  - exact E3.
  - exact LN.
  - change (length (map (xmul NaN) (zipw xsub (zipw xsub (nans n) (map (xmul (r_epsln st)) (r_w2 st))) (map (xmul de) (r_w st)))) = n).
    rewrite map_length. exact LW.
  - exact E4.
  - change (length (zipw xadd (r_x st) (map (xmul NaN) (map (xmul NaN)
     (zipw xsub (zipw xsub (nans n) (map (xmul (r_epsln st)) (r_w2 st))) (map (xmul de) (r_w st)))))) = n).
    rewrite XN. exact LN.
  - exact IS.
  - change ((0 <? r_istop (@mr_upd xK xV kw eps beta1 lim st (nans n : vc xV) (NaN : sc xK) (nans n : vc xV)
    (nans n : vc xV) (r_cnt st + 1) (NaN : sc xK) de (NaN : sc xK) root (NaN : sc xK)))%Z = false).
    rewrite IS. reflexivity.
  - cbn. lia.
  - intros _. exact XN.
Qed.

Lemma zip_add_scale : forall a c u, zipw Rplus (map (Rmult a) u) (map (Rmult c) u) = map (Rmult (a + c)) u.
Proof.
  intros a c u. unfold zipw. induction u as [|x u IH]; [reflexivity|]. cbn in *. rewrite IH. f_equal. ring.
Qed.
Lemma zip_sub_scale : forall a c u, zipw Rminus (map (Rmult a) u) (map (Rmult c) u) = map (Rmult (a - c)) u.
Proof.
  intros a c u. unfold zipw. induction u as [|x u IH]; [reflexivity|]. cbn in *. rewrite IH. f_equal. ring.
Qed.
Lemma scale_scale : forall a c u, map (Rmult a) (map (Rmult c) u) = map (Rmult (a * c)) u.
Proof. intros. rewrite map_map. apply map_ext. intro. ring. Qed.
Lemma scale0 : forall u, fins (map (Rmult 0) u) = repeat (Fin 0) (length u).
Proof. induction u as [|x u IH]; [reflexivity|]. cbn. unfold fins in IH. rewrite IH. f_equal. f_equal. ring. Qed.

Lemma ev_first : forall hist cnt st',
  let st := @mr_init xK xV kw b (Fin b1) 0 false hist cnt in
  @mr_body xK xV q kw eps (Fin b1 : sc xK) lim st = Ok st' -> ev_st st' /\ r_itn st' = 1%nat.
Proof.
  intros hist cnt st' st H. pose proof b1_pos as BP. pose proof b1_sq as BS.
  assert (EL : @mr_lan xK xV q kw st = (fins v1 : vc xV, Fin (lam - sh) : sc xK, repeat (Fin 0) n : vc xV,
     repeat (Fin 0) n : vc xV, Fin 0 : sc xK, (cnt + 1)%nat)).
  { unfold mr_lan, opmul. rewrite NP. change (r_beta st) with (Fin b1). change (r_cnt st) with cnt.
    assert (Y : (r_y st : list xr) = fins bl) by (unfold st, mr_init, mr_y0; rewrite NP; reflexivity).
    rewrite Y. clear Y. change (r_r2 st) with (fins bl : vc xV). change (r_itn st) with 0%nat. cbn [Nat.add Nat.leb].
    assert (D : xdiv (Fin 1) (Fin b1) = Fin (1 / b1)) by (cbn; destruct (Req_EM_T b1 0); [lra|reflexivity]).
    assert (V : @vscale xK xV (sdiv s1 (Fin b1 : sc xK)) (fins bl : vc xV) = fins v1).
    { change (map (xmul (xdiv (Fin 1) (Fin b1))) (fins bl) = fins v1). rewrite D. apply fins_scale. }
    rewrite V. rewrite EV.
    assert (Yp : @vsub xK xV (fins (map (Rmult lam) v1) : vc xV) (@vscale xK xV (m_shift kw) (fins v1 : vc xV))
        = fins (map (Rmult (lam - sh)) v1)).
    { change (zipw xsub (fins (map (Rmult lam) v1)) (map (xmul (m_shift kw)) (fins v1)) = fins (map (Rmult (lam - sh)) v1)).
      rewrite SH, fins_scale, (fins_zip xsub Rminus) by reflexivity. rewrite zip_sub_scale. reflexivity. }
    rewrite Yp. cbv zeta.
    assert (AA : @vdot xK xV (fins v1 : vc xV) (fins (map (Rmult (lam - sh)) v1) : vc xV) = Fin (lam - sh)).
    { change (xdot (fins v1) (fins (map (Rmult (lam - sh)) v1)) = Fin (lam - sh)). rewrite fins_dot. f_equal.
      unfold v1. rewrite scale_scale, rdot_scale, <- BS. field. lra. }
    rewrite AA.
    match goal with |- context [@vadd xK xV ?a ?c] => assert (YY : @vadd xK xV a c = repeat (Fin 0) n) end.
    { assert (D2 : xdiv (Fin (- (lam - sh))) (Fin b1) = Fin (- (lam - sh) / b1)) by (cbn; destruct (Req_EM_T b1 0); [lra|reflexivity]).
      change (zipw xadd (map (xmul (xdiv (Fin (- (lam - sh))) (Fin b1))) (fins bl)) (fins (map (Rmult (lam - sh)) v1)) = repeat (Fin 0) n).
      rewrite D2, fins_scale, (fins_zip xadd Rplus) by reflexivity. unfold v1. rewrite scale_scale, zip_add_scale.
      replace (- (lam - sh) / b1 + (lam - sh) * (1 / b1)) with 0 by (field; lra). apply scale0. }
    rewrite YY. 
    assert (DD : @vdot xK xV (repeat (Fin 0) n : vc xV) (repeat (Fin 0) n : vc xV) = Fin 0).
    { change (xdot (repeat (Fin 0) n) (repeat (Fin 0) n) = Fin 0). rewrite <- scale0, fins_dot, rdot_scale. f_equal. ring. }
    rewrite DD. reflexivity. }
  unfold mr_body in H. rewrite EL in H.
  replace (@sltb xK (Fin 0) s0) with false in H by (symmetry; apply Rltb_false; lra).
  destruct (Nat.eqb_spec (m_window kw) 0) as [Z|_]; [lia|].
  assert (SQ0 : @ssqrt xK (Fin 0) = Fin 0).
  { cbn. destruct (Rlt_dec 0 0); [lra|]. rewrite sqrt_0. reflexivity. }
  rewrite SQ0 in H.
  generalize dependent (@mr_delta xK xV st (Fin (lam - sh))). intros de H.
  generalize dependent (@mr_root xK xV st (mr_gbar st (Fin (lam - sh))) (Fin 0)). intros root H.
  generalize dependent (@mr_gamma xK eps (mr_gbar st (Fin (lam - sh))) (Fin 0)). intros gamma H.
  generalize dependent (@mr_gbar xK xV st (Fin (lam - sh))). intros gbar H.
  injection H as <-. split; [|reflexivity].
  assert (LZ : length (repeat (Fin 0) n) = n) by apply repeat_length.
  assert (LV : length (fins v1) = n) by (rewrite fins_len; unfold v1; apply map_length).
  assert (LB : length (fins bl) = n) by apply fins_len.
  assert (WZ : (r_w st : list xr) = repeat (Fin 0) n) by (unfold st; cbn; rewrite fins_len; reflexivity).
  assert (W2Z : (r_w2 st : list xr) = repeat (Fin 0) n) by (unfold st; cbn; rewrite fins_len; reflexivity).
  assert (XZ : (r_x st : list xr) = repeat (Fin 0) n) by (unfold st; cbn; rewrite fins_len; reflexivity).
  assert (LW : length (zipw xsub (zipw xsub (fins v1) (map (xmul (r_epsln st)) (r_w2 st))) (map (xmul de) (r_w st))) = n).
  { rewrite WZ, W2Z. apply zipw_len; [apply zipw_len|]; [exact LV|apply map_len; exact LZ|apply map_len; exact LZ]. }
  assert (IS : r_istop (@mr_upd xK xV kw eps (Fin b1) lim st (fins v1 : vc xV) (Fin (lam - sh) : sc xK) (repeat (Fin 0) n : vc xV)
    (repeat (Fin 0) n : vc xV) (cnt + 1) (Fin 0 : sc xK) de gbar root gamma) = (-1)%Z).
  { unfold mr_upd. cbn [r_istop]. change (r_itn st) with 0%nat. cbn [Nat.add Nat.eqb andb].
    replace (m_window kw <? 1)%nat with false by (symmetry; apply Nat.ltb_ge; exact WI). cbn [andb].
    assert (L : @sleb xK (sdiv (Fin 0 : sc xK) (Fin b1 : sc xK)) (smul (slit 10) eps) = true).
    { cbn. destruct (Req_EM_T b1 0); [lra|]. unfold xleb. cbn. apply orb_true_iff. left. apply Rltb_true.
      replace (0 / b1) with 0 by (field; lra). apply Rmult_lt_0_compat; unfold Q2R; cbn; lra. }
    rewrite L. reflexivity. }
  split.
  - change (map (xmul (xdiv (Fin 1) (Fin 0))) (repeat (Fin 0) n) = nans n).
    replace (xdiv (Fin 1) (Fin 0)) with PInf; [apply scale_inf_zero|].
    cbn. destruct (Req_EM_T 0 0); [|lra]. unfold xinf. destruct (Rlt_dec 0 1); [reflexivity|lra].
  - exact LB.
  - exact LZ.
  - change (length (map (xmul (xdiv (Fin 1) gamma)) (zipw xsub (zipw xsub (fins v1) (map (xmul (r_epsln st)) (r_w2 st))) (map (xmul de) (r_w st)))) = n).
    rewrite map_length. exact LW.
  - rewrite <- LZ, <- WZ. reflexivity.
  - change (length (zipw xadd (r_x st) (map (xmul (xmul (xdiv gbar gamma) (r_phibar st))) (map (xmul (xdiv (Fin 1) gamma)) (zipw xsub (zipw xsub (fins v1) (map (xmul (r_epsln st)) (r_w2 st))) (map (xmul de) (r_w st)))))) = n).
    apply zipw_len; [rewrite XZ; exact LZ|]. apply map_len, map_len. exact LW.
  - exact IS.
  - change ((0 <? r_istop (@mr_upd xK xV kw eps (Fin b1) lim st (fins v1 : vc xV) (Fin (lam - sh) : sc xK) (repeat (Fin 0) n : vc xV)
    (repeat (Fin 0) n : vc xV) (cnt + 1) (Fin 0 : sc xK) de gbar root gamma))%Z = false).
    rewrite IS. reflexivity.
  - cbn. lia.
  - cbn. lia.
Qed.

Lemma ev_solve : forall fuel hist cnt,
  (m_check kw = true -> fst (check_symmetric (q_cbrt q) (q_m q) (q_n q) (q_A q) (q_draws q) cnt) = true) ->
  (2 <= lim)%nat -> (lim < fuel)%nat ->
  exists o cnt', @mr_solve xK xV fuel q hist b kw cnt = Ok (o, cnt') /\
    (u_x o : list xr) = nans n /\ u_istop o = (-1)%Z /\ u_conv o = false /\ u_itn o = lim.
Proof.
  intros fuel hist cnt CH L2 LF. pose proof b1_pos as BP.
  destruct (@mr_flow_spec xK xV q kw b fuel hist cnt LF WI) as (o & cnt' & HS & _).
  exists o, cnt'. split; [exact HS|].
  unfold mr_solve in HS.
  assert (ST : exists c0, @mr_start xK xV q kw b cnt = (Fin b1 : sc xK, 0%Z, false, c0)).
  { unfold mr_start, mr_y0. rewrite NP.
    change (@vdot xK xV b b) with (xdot (fins bl) (fins bl)). rewrite fins_dot.
    assert (F1 : @sltb xK (Fin (rdot bl bl)) s0 = false) by (apply Rltb_false; lra).
    assert (F2 : @seqb xK (Fin (rdot bl bl)) s0 = false) by (apply Reqb_false; lra).
    assert (F3 : @sgtb xK (Fin (rdot bl bl)) s0 = true) by (apply Rltb_true; lra).
    rewrite F1, F2, F3.
    assert (F4 : @ssqrt xK (Fin (rdot bl bl)) = Fin b1) by (cbn; destruct (Rlt_dec (rdot bl bl) 0); [lra|reflexivity]).
    rewrite F4. destruct (m_check kw).
    - destruct (check_symmetric _ _ _ _ _ _) as [ok c0]. specialize (CH eq_refl). cbn in CH. subst ok. exists c0. reflexivity.
    - exists cnt. reflexivity. }
  destruct ST as [c0 ST]. rewrite ST in HS.
  destruct (while _ _ _ _) as [st|] eqn:EW; [|discriminate].
  injection HS as <- _. cbn [u_x u_istop u_conv u_itn].
  apply while_inv with (I := fun st => st = @mr_init xK xV kw b (Fin b1) 0 false hist c0 \/ (ev_st st /\ (r_itn st <= lim)%nat)) in EW.
  - destruct EW as [[->|[[E1 E2 E3 E4 E5 E6 E7 E8 E9 E10] LI]] C].
    + unfold mr_cond in C. cbn [mr_init r_brk r_itn negb andb] in C. apply Nat.ltb_ge in C. lia.
    + unfold mr_cond in C. rewrite E8 in C. cbn [negb andb] in C. apply Nat.ltb_ge in C.
      rewrite E7. split; [apply E10; lia|]. split; [reflexivity|]. split; [reflexivity|lia].
  - intros s s' I C B. right. unfold mr_cond in C. apply andb_prop in C as [_ C]. apply Nat.ltb_lt in C.
    destruct I as [->|[I _]].
    + destruct (ev_first _ _ _ B) as [I N]. split; [exact I|]. lia.
    + destruct (ev_step _ _ _ I B) as [I' N]. split; [exact I'|]. lia.
  - left. reflexivity.
Qed.
End Eigen.
