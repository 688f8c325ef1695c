(** * Exact arithmetic: one LSQR iteration, as mathematics.

    The damped problem is the least-squares problem for [(A; d I)] and [(b; 0)]; vectors of the
    augmented range are kept as pairs of components. *)
From Coq Require Import List ZArith Reals Lia Lra Bool.
From Verif Require Import Base Num MinresProof GkProof.
Import ListNotations.
Local Open Scope R_scope.

Section Lsqr.
Context {E1 E2 : IPS}.
Variables (A : iv E1 -> iv E2) (At : iv E2 -> iv E1).
Hypothesis AD : adjoint A At.
Let LA : lin A := adjoint_lin A At AD.
Let LAt : lin At := adjoint_lin_t A At AD.
Variables (b : iv E2) (d : R).

(** Squared norm of the damped residual, and the residual of the normal equations. *)
Definition dres2 (x : iv E1) : R := ip (isub b (A x)) (isub b (A x)) + d * d * ip x x.
Definition nres (x : iv E1) : iv E1 := isub (At (isub b (A x))) (iscale (d * d) x).
Definition AtA (x : iv E1) : iv E1 := At (A x).

Record LI (k : nat) (U : list (iv E2)) (V : list (iv E1)) (u : iv E2) (v : iv E1) (al : R)
  (x w : iv E1) (tu : iv E2) (te : iv E1) (su : iv E2) (se : iv E1)
  (rb pb res2 xx cs2 zs : R) : Prop := {
  li_gk : GK A At U V u v al;
  li_lenU : length U = k; li_lenV : length V = k;
  li_kry : forall z, kry AtA (At b) k z -> dp V z;
  li_kx : kry AtA (At b) k x;
  li_kw : kry AtA (At b) (S k) w;
  li_kv : kry AtA (At b) (S k) v;
  li_ku : kry AtA (At b) (S k) (At u);
  li_tu : dp (u :: U) tu; li_te : dp V te; li_su : dp U su; li_se : dp V se;
  li_w : dp (v :: V) w; li_x : dp V x;
  li_Aw : A w = iadd (iscale rb tu) (isub (A v) (iscale al u));
  li_dw : iscale d w = iadd (iscale rb te) (iscale d v);
  li_t1 : ip tu tu + ip te te = 1;
  li_ts : ip tu su + ip te se = 0;
  li_ss : ip su su + ip se se = res2;
  li_ru : isub b (A x) = iadd (iscale pb tu) su;
  li_re : iscale (- d) x = iadd (iscale pb te) se;
  li_Att : iadd (At tu) (iscale d te) = iscale rb v;
  li_Ats : iadd (At su) (iscale d se) = izero;
  li_rb : rb <> 0;
  li_d0 : d = 0 -> res2 = 0;
  li_Y : dp (v :: V) (iadd x (iscale zs w));
  li_YY : ip (iadd x (iscale zs w)) (iadd x (iscale zs w)) = xx;
  li_Yw : ip (iadd x (iscale zs w)) w = 0;
  li_w1 : cs2 * cs2 * ip w w = 1 }.

Section Step.
Context {k : nat} {U : list (iv E2)} {V : list (iv E1)} {u : iv E2} {v : iv E1} {al : R}
  {x w : iv E1} {tu : iv E2} {te : iv E1} {su : iv E2} {se : iv E1} {rb pb res2 xx cs2 zs : R}.
Hypothesis I : LI k U V u v al x w tu te su se rb pb res2 xx cs2 zs.

Let y := isub (A v) (iscale al u).

(** The rotations: [r1 = norm(rb, d)], [rho = norm(r1, be)], [tt = phi / rho]. *)
Variables (be r1 cs1 sn1 rho c s tt : R).
Hypothesis Hbe : be * be = ip y y.
Hypothesis Hc1 : cs1 * r1 = rb.
Hypothesis Hs1 : sn1 * r1 = d.
Hypothesis H1 : sn1 * sn1 = 1 - cs1 * cs1.
Hypothesis Hc : c * rho = r1.
Hypothesis Hs : s * rho = be.
Hypothesis H2 : s * s = 1 - c * c.
Hypothesis Hr : rho <> 0.
Hypothesis Hr1 : r1 <> 0.
Let pb1 := cs1 * pb.
Let ps := sn1 * pb.
Let phi := c * pb1.
Hypothesis Htt : tt * rho = phi.

Let x' := iadd x (iscale tt w).

Lemma lm_E1 : tt * rb = c * c * cs1 * cs1 * pb.
Proof. rewrite <- Hc1, <- Hc. replace (tt * (cs1 * (c * rho))) with (tt * rho * (cs1 * c)) by ring. rewrite Htt. unfold phi, pb1. ring. Qed.
Lemma lm_E2 : tt * d = c * c * cs1 * sn1 * pb.
Proof. rewrite <- Hs1, <- Hc. replace (tt * (sn1 * (c * rho))) with (tt * rho * (sn1 * c)) by ring. rewrite Htt. unfold phi, pb1. ring. Qed.
Lemma lm_E3 : tt * be = s * phi.
Proof. rewrite <- Hs. replace (tt * (s * rho)) with (tt * rho * s) by ring. rewrite Htt. ring. Qed.

(** The new residual (both components). *)
Definition ru' : iv E2 :=
  iadd (isub (iscale (s * s * pb1 * cs1) tu) (iscale tt y)) (iadd su (iscale (ps * sn1) tu)).
Definition re' : iv E1 :=
  iadd (iscale (s * s * pb1) (iadd (iscale cs1 te) (iscale sn1 v)))
       (iadd se (iscale ps (isub (iscale sn1 te) (iscale cs1 v)))).

Lemma lm_ru : isub b (A x') = ru'.
Proof.
  unfold x', ru'. rewrite (lin_add A LA), (lin_scale A LA), (li_Aw _ _ _ _ _ _ _ _ _ _ _ _ _ _ _ _ _ _ I).
  fold y. pose proof (li_ru _ _ _ _ _ _ _ _ _ _ _ _ _ _ _ _ _ _ I) as R.
  apply ip_ext. intro z. pose proof (f_equal (ip z) R) as Rz. ipx_in Rz. ipx.
  transitivity (ip z b - ip z (A x) - tt * rb * ip z tu - tt * ip z y); [ring|].
  rewrite Rz, lm_E1. unfold pb1, ps. ring [H1 H2].
Qed.

Lemma lm_re : iscale (- d) x' = re'.
Proof.
  unfold x', re'. pose proof (li_re _ _ _ _ _ _ _ _ _ _ _ _ _ _ _ _ _ _ I) as R.
  pose proof (li_dw _ _ _ _ _ _ _ _ _ _ _ _ _ _ _ _ _ _ I) as D.
  apply ip_ext. intro z. pose proof (f_equal (ip z) R) as Rz. ipx_in Rz.
  pose proof (f_equal (ip z) D) as Dz. ipx_in Dz. ipx.
  transitivity (- d * ip z x - tt * (d * ip z w)); [ring|].
  rewrite Rz, Dz.
  transitivity (pb * ip z te + ip z se - tt * rb * ip z te - tt * d * ip z v); [ring|].
  rewrite lm_E1, lm_E2. unfold pb1, ps. ring [H1 H2].
Qed.

Let tuy : ip tu y = 0.
Proof. apply (gk_y A At AD (li_gk _ _ _ _ _ _ _ _ _ _ _ _ _ _ _ _ _ _ I)), (li_tu _ _ _ _ _ _ _ _ _ _ _ _ _ _ _ _ _ _ I). Qed.
Let suy : ip su y = 0.
Proof.
  apply (gk_y A At AD (li_gk _ _ _ _ _ _ _ _ _ _ _ _ _ _ _ _ _ _ I)).
  apply (dp_weak U); [apply (li_su _ _ _ _ _ _ _ _ _ _ _ _ _ _ _ _ _ _ I)|]. intros z Hz. right. exact Hz.
Qed.
Let tev : ip te v = 0.
Proof. apply (gk_v_dp A At (li_gk _ _ _ _ _ _ _ _ _ _ _ _ _ _ _ _ _ _ I)), (li_te _ _ _ _ _ _ _ _ _ _ _ _ _ _ _ _ _ _ I). Qed.
Let sev : ip se v = 0.
Proof. apply (gk_v_dp A At (li_gk _ _ _ _ _ _ _ _ _ _ _ _ _ _ _ _ _ _ I)), (li_se _ _ _ _ _ _ _ _ _ _ _ _ _ _ _ _ _ _ I). Qed.

Lemma lm_norm : dres2 x' = s * pb1 * (s * pb1) + (res2 + ps * ps).
Proof.
  unfold dres2. rewrite lm_ru.
  replace (d * d * ip x' x') with (ip (iscale (- d) x') (iscale (- d) x')) by (ipx; ring).
  rewrite lm_re. unfold ru', re'. ipx.
  rewrite (ip_sym y tu), (ip_sym y su), (ip_sym v te), (ip_sym v se), tuy, suy, tev, sev,
    (gk_vv _ _ _ _ _ _ _ (li_gk _ _ _ _ _ _ _ _ _ _ _ _ _ _ _ _ _ _ I)), <- Hbe, (ip_sym su tu), (ip_sym se te).
  pose proof (li_t1 _ _ _ _ _ _ _ _ _ _ _ _ _ _ _ _ _ _ I) as T1.
  pose proof (li_ts _ _ _ _ _ _ _ _ _ _ _ _ _ _ _ _ _ _ I) as TS.
  pose proof (li_ss _ _ _ _ _ _ _ _ _ _ _ _ _ _ _ _ _ _ I) as SS.
  rewrite <- SS.
  replace (ip te te) with (1 - ip tu tu) by lra.
  replace (ip te se) with (- ip tu su) by lra.
  pose proof lm_E3 as E3. unfold phi in E3.
  assert (E4 : tt * tt * (be * be) = s * s * (c * c) * (pb1 * pb1)).
  { replace (tt * tt * (be * be)) with (tt * be * (tt * be)) by ring. rewrite E3. ring. }
  assert (P1 : pb1 * cs1 + ps * sn1 = pb) by (unfold pb1, ps; ring [H1]).
  transitivity (tt * tt * (be * be) + (ip su su + ip se se) + ps * ps * (cs1 * cs1 + sn1 * sn1) + s * s * pb1 * (s * s * pb1) * (cs1 * cs1 + sn1 * sn1)).
  2:{ rewrite E4. unfold pb1, ps. ring [H1 H2]. }
  unfold pb1, ps. ring.
Qed.

(** The residual of the normal equations, in terms of the next right vector. *)
Lemma lm_nres0 : nres x' = isub (iscale (s * s * pb1 * r1) v) (iscale tt (At y)).
Proof.
  unfold nres. rewrite lm_ru.
  replace (iscale (d * d) x') with (iscale (- d) re') by (rewrite <- lm_re; veq).
  pose proof (li_Att _ _ _ _ _ _ _ _ _ _ _ _ _ _ _ _ _ _ I) as T.
  pose proof (li_Ats _ _ _ _ _ _ _ _ _ _ _ _ _ _ _ _ _ _ I) as S.
  unfold ru', re'. rewrite ?(lin_add At LAt), ?(lin_sub At LAt), ?(lin_scale At LAt), ?(lin_add At LAt), ?(lin_scale At LAt).
  apply ip_ext. intro z. pose proof (f_equal (ip z) T) as Tz. ipx_in Tz.
  pose proof (f_equal (ip z) S) as Sz. ipx_in Sz. ipx.
  replace (ip z (At tu)) with (rb * ip z v - d * ip z te) by lra.
  replace (ip z (At su)) with (- (d * ip z se)) by lra.
  rewrite <- Hc1, <- Hs1. unfold pb1, ps.
  ring [H1].
Qed.

Lemma lm_nres_dead : be = 0 -> nres x' = izero.
Proof.
  intro B. rewrite lm_nres0.
  assert (Y0 : y = izero) by (apply ip_def; rewrite <- Hbe, B; ring).
  assert (S0 : s = 0). { rewrite B in Hs. apply Rmult_integral in Hs as [Z|Z]; [exact Z|contradiction]. }
  rewrite Y0, (lin_zero At LAt), S0. veq.
Qed.

Variables (u' : iv E2).
Let z' := isub (At u') (iscale be v).
Hypothesis Hu' : y = iscale be u'.

Lemma lm_nres : nres x' = iscale (- (s * phi)) z'.
Proof.
  rewrite lm_nres0, Hu', (lin_scale At LAt). unfold z'.
  pose proof lm_E3 as E3.
  assert (E5 : s * s * pb1 * r1 = s * phi * be).
  { rewrite <- Hc, <- Hs. unfold phi. ring. }
  apply ip_ext. intro z. ipx. rewrite E5.
  transitivity (s * phi * be * ip z v - tt * be * ip z (At u')); [ring|]. rewrite E3. ring.
Qed.

(** *** The estimate of [norm(x)].  [gb = -cs2 rho], [rh = phi - sn2 rho z], [zb = rh / gb]. *)
Variables (rh gb zb : R).
Hypothesis Hrh : rh = phi - zs * rho.
Hypothesis Hgb : gb * gb = cs2 * cs2 * (rho * rho).
Hypothesis Hzb : zb * gb = rh.

Lemma lm_cs2 : cs2 <> 0.
Proof. intro Z. pose proof (li_w1 _ _ _ _ _ _ _ _ _ _ _ _ _ _ _ _ _ _ I) as W. rewrite Z in W. lra. Qed.

Lemma lm_xY : x' = iadd (iadd x (iscale zs w)) (iscale (rh / rho) w).
Proof.
  unfold x'. assert (T : tt = zs + rh / rho).
  { rewrite Hrh. apply Rmult_eq_reg_r with rho; [|exact Hr]. rewrite Htt. field. exact Hr. }
  rewrite T. veq.
Qed.

Lemma lm_w1 : rh / rho * (rh / rho) * ip w w = zb * zb.
Proof.
  pose proof (li_w1 _ _ _ _ _ _ _ _ _ _ _ _ _ _ _ _ _ _ I) as W. pose proof lm_cs2 as NC.
  replace (ip w w) with (1 / (cs2 * cs2)) by (rewrite <- W; field; exact NC).
  rewrite <- Hzb. apply Rmult_eq_reg_r with (rho * rho); [|intro Z; apply Rmult_integral in Z; tauto].
  transitivity (zb * zb * (gb * gb) / (cs2 * cs2)); [field; auto|]. rewrite Hgb. field. exact NC.
Qed.

Lemma lm_xnorm : ip x' x' = xx + zb * zb.
Proof.
  rewrite lm_xY.
  pose proof (li_YY _ _ _ _ _ _ _ _ _ _ _ _ _ _ _ _ _ _ I) as YY.
  pose proof (li_Yw _ _ _ _ _ _ _ _ _ _ _ _ _ _ _ _ _ _ I) as YW.
  set (Y := iadd x (iscale zs w)) in *.
  rewrite ip_add, !ip_addl, !ip_scalel, !ip_scale, (ip_sym w Y), YW, YY, <- lm_w1. ring.
Qed.

(** *** The next state. *)
Variables (v' : iv E1) (al' : R).
Hypothesis Hb0 : 0 < be.
Hypothesis Hu1 : ip u' u' = 1.
Hypothesis Ha' : 0 < al'.
Hypothesis Hv' : z' = iscale al' v'.
Hypothesis Hv1 : ip v' v' = 1.
Hypothesis Hcp : 0 < c.
Let th := s * al'.
Variables (ga cs2' sn2' zz : R).
Hypothesis Hga : ga * ga = gb * gb + th * th.
Hypothesis Hga0 : ga <> 0.
Hypothesis Hcs2' : cs2' * ga = gb.
Hypothesis Hsn2' : sn2' * ga = th.
Hypothesis Hzz : zz * ga = rh.

Let tu' := isub (iscale (s * cs1) tu) (iscale c u').
Let te' := iscale s (iadd (iscale cs1 te) (iscale sn1 v)).
Let su' := iadd su (iscale (ps * sn1) tu).
Let se' := iadd se (iscale ps (isub (iscale sn1 te) (iscale cs1 v))).
Let w' := iadd (iscale (- th / rho) w) v'.

Let G := li_gk _ _ _ _ _ _ _ _ _ _ _ _ _ _ _ _ _ _ I.
Let G' : GK A At (u :: U) (v :: V) u' v' al' := gk_step A At AD G u' be Hb0 Hu' Hu1 v' al' Ha' Hv' Hv1.
Let u'_dp : forall t, dp (u :: U) t -> ip t u' = 0 := gk_u' A At AD G u' be Hb0 Hu'.
Let v'_dp : forall t, dp (v :: V) t -> ip t v' = 0 := gk_v_dp A At G'.

Let dpu : forall z, dp U z -> dp (u :: U) z.
Proof. intros z H. apply (dp_weak U); [exact H|]. intros t Ht. right. exact Ht. Qed.
Let dpv : forall z, dp V z -> dp (v :: V) z.
Proof. intros z H. apply (dp_weak V); [exact H|]. intros t Ht. right. exact Ht. Qed.
Let dpv0 : dp (v :: V) v.
Proof. apply dp_in. left. reflexivity. Qed.

Let d_w : d = 0 \/ d <> 0 := Req_dec d 0.

Lemma lm_Av' : A v' = iadd (iscale al' u') (isub (A v') (iscale al' u')).
Proof. veq. Qed.

Lemma lm_rho2 : rho * rho = r1 * r1 + be * be.
Proof. rewrite <- Hc, <- Hs. ring [H2]. Qed.
Lemma lm_thr : th / rho * rb = s * c * cs1 * al'.
Proof. unfold th. rewrite <- Hc1, <- Hc. field. exact Hr. Qed.
Lemma lm_thd : th / rho * d = s * c * sn1 * al'.
Proof. unfold th. rewrite <- Hs1, <- Hc. field. exact Hr. Qed.
Lemma lm_thb : th / rho * be = s * s * al'.
Proof. unfold th. rewrite <- Hs. field. exact Hr. Qed.

Lemma lm_Aw' : A w' = iadd (iscale (- (c * al')) tu') (isub (A v') (iscale al' u')).
Proof.
  unfold w', tu'. rewrite (lin_add A LA), (lin_scale A LA), (li_Aw _ _ _ _ _ _ _ _ _ _ _ _ _ _ _ _ _ _ I).
  fold y. rewrite Hu'. apply ip_ext. intro z. ipx.
  transitivity (- (th / rho * rb) * ip z tu - th / rho * be * ip z u' + ip z (A v')); [field; exact Hr|].
  rewrite lm_thr, lm_thb. ring [H2].
Qed.

Lemma lm_dw' : iscale d w' = iadd (iscale (- (c * al')) te') (iscale d v').
Proof.
  unfold w', te'. pose proof (li_dw _ _ _ _ _ _ _ _ _ _ _ _ _ _ _ _ _ _ I) as D.
  apply ip_ext. intro z. pose proof (f_equal (ip z) D) as Dz. ipx_in Dz. ipx.
  transitivity (- (th / rho) * (d * ip z w) + d * ip z v'); [field; exact Hr|]. rewrite Dz.
  transitivity (- (th / rho * rb) * ip z te - th / rho * d * ip z v + d * ip z v'); [ring|].
  rewrite lm_thr, lm_thd. ring.
Qed.

Lemma lm_Y : iadd x' (iscale (sn2' * zz) w') =
  iadd (iadd x (iscale zs w)) (iadd (iscale (rh / rho * (gb * gb) / (ga * ga)) w) (iscale (th * rh / (ga * ga)) v')).
Proof.
  rewrite lm_xY. unfold w'.
  assert (S2 : sn2' = th / ga) by (rewrite <- Hsn2'; field; exact Hga0).
  assert (Z2 : zz = rh / ga) by (rewrite <- Hzz; field; exact Hga0).
  rewrite S2, Z2. apply ip_ext. intro z. ipx.
  replace (gb * gb) with (ga * ga - th * th) by lra. field. auto.
Qed.

Lemma lm_kry : forall z, kry AtA (At b) (S k) z -> dp (v :: V) z.
Proof.
  intros z [a [z0 [K ->]]]. apply (li_kry _ _ _ _ _ _ _ _ _ _ _ _ _ _ _ _ _ _ I) in K.
  apply dp_add.
  - apply dp_scale.
    pose proof (li_ru _ _ _ _ _ _ _ _ _ _ _ _ _ _ _ _ _ _ I) as R.
    assert (B : b = iadd (A x) (iadd (iscale pb tu) su)) by (rewrite <- R; veq).
    apply (gk_At_dp A At AD U V u v al b G).
    rewrite B. apply dp_add; [apply (gk_A_dp A At AD U V u v al x G (li_x _ _ _ _ _ _ _ _ _ _ _ _ _ _ _ _ _ _ I))|].
    apply dp_add; [apply dp_scale, (li_tu _ _ _ _ _ _ _ _ _ _ _ _ _ _ _ _ _ _ I)|apply dpu, (li_su _ _ _ _ _ _ _ _ _ _ _ _ _ _ _ _ _ _ I)].
  - unfold AtA. apply (gk_At_dp A At AD U V u v al _ G), (gk_A_dp A At AD U V u v al z0 G K).
Qed.

Lemma sym_AtA : selfadj AtA.
Proof. intros a c0. unfold AtA. rewrite (ip_At A At AD), <- AD. reflexivity. Qed.

Lemma lm_kx : kry AtA (At b) (S k) x'.
Proof.
  unfold x'. pose proof sym_AtA as LL. apply kry_add; try exact LL.
  - apply kry_S; try exact LL. apply (li_kx _ _ _ _ _ _ _ _ _ _ _ _ _ _ _ _ _ _ I).
  - apply kry_scale; try exact LL. apply (li_kw _ _ _ _ _ _ _ _ _ _ _ _ _ _ _ _ _ _ I).
Qed.

Lemma lm_ku' : kry AtA (At b) (S (S k)) (At u').
Proof.
  pose proof sym_AtA as LL.
  assert (E : At u' = iscale (1 / be) (isub (AtA v) (iscale al (At u)))).
  { unfold AtA. rewrite <- (lin_scale At LAt al u), <- (lin_sub At LAt), <- (lin_scale At LAt). f_equal.
    fold y. rewrite Hu'. apply ip_ext. intro z. ipx. field. lra. }
  rewrite E. apply kry_scale; try exact LL. apply kry_sub; try exact LL.
  - apply kry_A; try exact LL. apply (li_kv _ _ _ _ _ _ _ _ _ _ _ _ _ _ _ _ _ _ I).
  - apply kry_scale; try exact LL. apply kry_S; try exact LL. apply (li_ku _ _ _ _ _ _ _ _ _ _ _ _ _ _ _ _ _ _ I).
Qed.

Lemma lm_kv' : kry AtA (At b) (S (S k)) v'.
Proof.
  pose proof sym_AtA as LL.
  assert (E : v' = iscale (1 / al') (isub (At u') (iscale be v))).
  { fold z'. rewrite Hv'. apply ip_ext. intro z. ipx. field. lra. }
  rewrite E. apply kry_scale; try exact LL. apply kry_sub; try exact LL; try exact lm_ku'.
  apply kry_scale; try exact LL. apply kry_S; try exact LL. apply (li_kv _ _ _ _ _ _ _ _ _ _ _ _ _ _ _ _ _ _ I).
Qed.

Lemma lm_step : LI (S k) (u :: U) (v :: V) u' v' al' x' w' tu' te' su' se' (- (c * al')) (s * pb1) (res2 + ps * ps)
  (xx + zz * zz) cs2' (sn2' * zz).
Proof.
  pose proof (li_t1 _ _ _ _ _ _ _ _ _ _ _ _ _ _ _ _ _ _ I) as T1.
  pose proof (li_ts _ _ _ _ _ _ _ _ _ _ _ _ _ _ _ _ _ _ I) as TS.
  pose proof (li_ss _ _ _ _ _ _ _ _ _ _ _ _ _ _ _ _ _ _ I) as SS.
  assert (Dtu : dp (u :: U) tu) by apply (li_tu _ _ _ _ _ _ _ _ _ _ _ _ _ _ _ _ _ _ I).
  assert (Dsu : dp (u :: U) su) by apply dpu, (li_su _ _ _ _ _ _ _ _ _ _ _ _ _ _ _ _ _ _ I).
  assert (Dte : dp (v :: V) te) by apply dpv, (li_te _ _ _ _ _ _ _ _ _ _ _ _ _ _ _ _ _ _ I).
  assert (Dse : dp (v :: V) se) by apply dpv, (li_se _ _ _ _ _ _ _ _ _ _ _ _ _ _ _ _ _ _ I).
  assert (Dw : dp (v :: V) w) by apply (li_w _ _ _ _ _ _ _ _ _ _ _ _ _ _ _ _ _ _ I).
  assert (DY : dp (v :: V) (iadd x (iscale zs w))) by apply (li_Y _ _ _ _ _ _ _ _ _ _ _ _ _ _ _ _ _ _ I).
  assert (W : forall z, dp (u :: U) z -> dp (u' :: u :: U) z).
  { intros z H. apply (dp_weak (u :: U)); [exact H|]. intros t Ht. right. exact Ht. }
  assert (W1 : forall z, dp (v :: V) z -> dp (v' :: v :: V) z).
  { intros z H. apply (dp_weak (v :: V)); [exact H|]. intros t Ht. right. exact Ht. }
  assert (Dv' : dp (v' :: v :: V) v') by (apply dp_in; left; reflexivity).
  pose proof (gk_vv _ _ _ _ _ _ _ G) as VV.
  split.
  - exact G'.
  - cbn. f_equal. apply (li_lenU _ _ _ _ _ _ _ _ _ _ _ _ _ _ _ _ _ _ I).
  - cbn. f_equal. apply (li_lenV _ _ _ _ _ _ _ _ _ _ _ _ _ _ _ _ _ _ I).
  - exact lm_kry.
  - exact lm_kx.
  - unfold w'. pose proof sym_AtA as LL. apply kry_add; try exact LL; try exact lm_kv'.
    apply kry_scale; try exact LL. apply kry_S; try exact LL. apply (li_kw _ _ _ _ _ _ _ _ _ _ _ _ _ _ _ _ _ _ I).
  - exact lm_kv'.
  - exact lm_ku'.
  - unfold tu'. apply dp_sub; [apply dp_scale, W, Dtu|]. apply dp_scale, dp_in. left. reflexivity.
  - unfold te'. apply dp_scale, dp_add; apply dp_scale; assumption.
  - unfold su'. apply dp_add; [exact Dsu|]. apply dp_scale. exact Dtu.
  - unfold se'. apply dp_add; [exact Dse|]. apply dp_scale, dp_sub; apply dp_scale; assumption.
  - unfold w'. apply dp_add; [apply dp_scale, W1, Dw|exact Dv'].
  - unfold x'. apply dp_add; [apply dpv, (li_x _ _ _ _ _ _ _ _ _ _ _ _ _ _ _ _ _ _ I)|apply dp_scale, Dw].
  - exact lm_Aw'.
  - exact lm_dw'.
  - unfold tu', te'. ipx. rewrite (ip_sym u' tu), (u'_dp tu Dtu), Hu1, (ip_sym v te), tev, VV.
    replace (ip te te) with (1 - ip tu tu) by lra. ring [H1 H2].
  - unfold tu', te', su', se'. ipx.
    rewrite (ip_sym u' tu), (u'_dp tu Dtu), (ip_sym u' su), (u'_dp su Dsu), (ip_sym v te), (ip_sym v se), tev, sev, VV.
    replace (ip te te) with (1 - ip tu tu) by lra. replace (ip te se) with (- ip tu su) by lra. ring [H1 H2].
  - unfold su', se'. ipx. rewrite (ip_sym su tu), (ip_sym se te), (ip_sym v te), (ip_sym v se), tev, sev, VV.
    rewrite <- SS. replace (ip te te) with (1 - ip tu tu) by lra. replace (ip te se) with (- ip tu su) by lra. ring [H1].
  - rewrite lm_ru. unfold ru', tu', su'. rewrite Hu'. apply ip_ext. intro z. ipx.
    transitivity ((s * s * pb1 * cs1) * ip z tu - tt * be * ip z u' + (ip z su + ps * sn1 * ip z tu)); [ring|].
    rewrite lm_E3. unfold phi. ring.
  - rewrite lm_re. unfold re', te', se'. veq.
  - unfold tu', te'. rewrite (lin_sub At LAt), !(lin_scale At LAt).
    pose proof (li_Att _ _ _ _ _ _ _ _ _ _ _ _ _ _ _ _ _ _ I) as T.
    assert (AU : At u' = iadd (iscale al' v') (iscale be v)) by (rewrite <- Hv'; unfold z'; veq).
    rewrite AU. apply ip_ext. intro z. pose proof (f_equal (ip z) T) as Tz. ipx_in Tz. ipx.
    replace (ip z (At tu)) with (rb * ip z v - d * ip z te) by lra.
    rewrite <- Hc1, <- Hs1, <- Hs, <- Hc. ring [H1].
  - unfold su', se'. rewrite (lin_add At LAt), (lin_scale At LAt).
    pose proof (li_Att _ _ _ _ _ _ _ _ _ _ _ _ _ _ _ _ _ _ I) as T.
    pose proof (li_Ats _ _ _ _ _ _ _ _ _ _ _ _ _ _ _ _ _ _ I) as S.
    apply ip_ext. intro z. pose proof (f_equal (ip z) T) as Tz. ipx_in Tz.
    pose proof (f_equal (ip z) S) as Sz. ipx_in Sz. ipx.
    replace (ip z (At tu)) with (rb * ip z v - d * ip z te) by lra.
    replace (ip z (At su)) with (- (d * ip z se)) by lra.
    rewrite <- Hc1, <- Hs1. ring.
  - apply Ropp_neq_0_compat. apply Rmult_integral_contrapositive. lra.
  - intro D. rewrite (li_d0 _ _ _ _ _ _ _ _ _ _ _ _ _ _ _ _ _ _ I D).
    assert (Z : sn1 = 0). { rewrite D in Hs1. apply Rmult_integral in Hs1 as [Z|Z]; [exact Z|contradiction]. }
    unfold ps. rewrite Z. ring.
  - rewrite lm_Y. apply dp_add; [apply W1, DY|]. apply dp_add; [apply dp_scale, W1, Dw|apply dp_scale, Dv'].
  - rewrite lm_Y.
    pose proof (li_YY _ _ _ _ _ _ _ _ _ _ _ _ _ _ _ _ _ _ I) as YY.
    pose proof (li_Yw _ _ _ _ _ _ _ _ _ _ _ _ _ _ _ _ _ _ I) as YW.
    set (Y := iadd x (iscale zs w)) in *. clearbody Y.
    ipx. rewrite (ip_sym w Y), (ip_sym v' Y), (ip_sym v' w), (v'_dp Y DY), (v'_dp w Dw), YW, YY, Hv1.
    pose proof lm_w1 as LW.
    transitivity (xx + (rh / rho * (rh / rho) * ip w w) * (gb * gb) * (gb * gb) / (ga * ga * (ga * ga)) + th * rh / (ga * ga) * (th * rh / (ga * ga))).
    { field. auto. }
    rewrite LW.
    replace (zb * zb * (gb * gb) * (gb * gb)) with (rh * rh * (gb * gb)) by (rewrite <- Hzb; ring).
    rewrite <- Hzz. replace (gb * gb) with (ga * ga - th * th) by lra. field. exact Hga0.
  - rewrite lm_Y. unfold w'.
    pose proof (li_Yw _ _ _ _ _ _ _ _ _ _ _ _ _ _ _ _ _ _ I) as YW.
    set (Y := iadd x (iscale zs w)) in *. clearbody Y.
    ipx. rewrite (ip_sym v' w), (v'_dp Y DY), (v'_dp w Dw), YW, Hv1.
    pose proof (li_w1 _ _ _ _ _ _ _ _ _ _ _ _ _ _ _ _ _ _ I) as W0. pose proof lm_cs2 as NC.
    assert (NR : rho * rho * ip w w * (cs2 * cs2) = rho * rho).
    { transitivity (rho * rho * (cs2 * cs2 * ip w w)); [ring|]. rewrite W0. ring. }
    replace (ip w w) with (1 / (cs2 * cs2)) by (rewrite <- W0; field; exact NC). rewrite Hgb. field. auto.
  - unfold w'. ipx. rewrite (ip_sym v' w), (v'_dp w Dw), Hv1.
    pose proof (li_w1 _ _ _ _ _ _ _ _ _ _ _ _ _ _ _ _ _ _ I) as W0. pose proof lm_cs2 as NC.
    replace (ip w w) with (1 / (cs2 * cs2)) by (rewrite <- W0; field; exact NC).
    apply Rmult_eq_reg_r with (ga * ga); [|intro Z; apply Rmult_integral in Z; tauto].
    transitivity (cs2' * ga * (cs2' * ga) * (th * th / (rho * rho * (cs2 * cs2)) + 1)); [field; auto|].
    rewrite Hcs2', Rmult_1_l, Hga, Hgb. field. auto.
Qed.
End Step.
End Lsqr.
