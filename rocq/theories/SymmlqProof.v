(** * SYMMLQ: control flow in any arithmetic, and the method in exact arithmetic. *)
From Coq Require Import List ZArith QArith Reals Lra Lia Bool.
From Verif Require Import Base Num ToolsModel CgModel MinresProof SymmlqModel.
Import ListNotations.

(** ** The Lanczos process and the LQ factorisation. *)
Section LQ.
Context {E : IPS}.
Variables (A : iv E -> iv E) (b : iv E) (beta1 : R).
Hypothesis SA : selfadj A.
Hypothesis B1 : (0 < beta1)%R.
Let LA : lin A := adjoint_lin A A SA.
Local Open Scope R_scope.
Local Notation kry := (MinresProof.kry A b).

(** After [j] rotations: [u] the current Lanczos vector, [V] the previous ones, [y] the next one
    times its norm [be]; [x] the LQ point, [w] the last column of [V Q'] (the direction of the CG
    point); [c], [e] such that [dbar = c be], [rhs2 = e be]. *)
Record SI (j : nat) (V : list (iv E)) (u y x w : iv E) (be gb c snp rh e yn2 : R) : Prop := {
  si_len : length V = j;
  si_uu : ip u u = 1;
  si_uV : forall v, In v V -> ip v u = 0;
  si_V1 : forall v, In v V -> ip v v = 1;
  si_Vo : orthog V;
  si_be : be = inorm y;
  si_yu : ip u y = 0;
  si_yV : forall v, In v V -> ip v y = 0;
  si_AV : forall v, In v V -> dp (u :: V) (A v);
  si_Au : dp (u :: V) (isub (A u) y);
  si_b : dp (u :: V) b;
  si_kd : forall z, kry j z -> dp V z;
  si_ku : kry (S j) u;
  si_kAu : kry (S j) (isub (A u) y);
  si_dec : forall z, kry (S j) z -> exists a z0, kry j z0 /\ z = iadd (iscale a u) z0;
  si_Aw : A w = iadd (iscale gb u) (iscale c y);
  si_r : isub b (A x) = iadd (iscale rh u) (iscale e y);
  si_q : e * gb - rh * c = - (snp * beta1);
  si_snp : 0 < snp;
  si_ww : ip w w = 1;
  si_kw : kry (S j) w;
  si_x : exists z, kry j z /\ x = A z;
  si_xw : ip x w = 0;
  si_xx : ip x x = yn2;
  si_I : exists z, kry j z /\ A u = iadd (A z) (iadd (iscale gb w) y);
  si_J : exists z, kry j z /\ u = iadd (A z) (iscale c w);
  si_inj : forall d, kry (S j) d -> ip d u = 0 -> (forall z, kry (S j) z -> ip (A d) z = 0) -> d = izero }.
Arguments si_len {j V u y x w be gb c snp rh e yn2} _.
Arguments si_uu {j V u y x w be gb c snp rh e yn2} _.
Arguments si_uV {j V u y x w be gb c snp rh e yn2} _.
Arguments si_V1 {j V u y x w be gb c snp rh e yn2} _.
Arguments si_Vo {j V u y x w be gb c snp rh e yn2} _.
Arguments si_be {j V u y x w be gb c snp rh e yn2} _.
Arguments si_yu {j V u y x w be gb c snp rh e yn2} _.
Arguments si_yV {j V u y x w be gb c snp rh e yn2} _.
Arguments si_AV {j V u y x w be gb c snp rh e yn2} _.
Arguments si_Au {j V u y x w be gb c snp rh e yn2} _.
Arguments si_b {j V u y x w be gb c snp rh e yn2} _.
Arguments si_kd {j V u y x w be gb c snp rh e yn2} _.
Arguments si_ku {j V u y x w be gb c snp rh e yn2} _.
Arguments si_kAu {j V u y x w be gb c snp rh e yn2} _.
Arguments si_dec {j V u y x w be gb c snp rh e yn2} _.
Arguments si_Aw {j V u y x w be gb c snp rh e yn2} _.
Arguments si_r {j V u y x w be gb c snp rh e yn2} _.
Arguments si_q {j V u y x w be gb c snp rh e yn2} _.
Arguments si_snp {j V u y x w be gb c snp rh e yn2} _.
Arguments si_ww {j V u y x w be gb c snp rh e yn2} _.
Arguments si_kw {j V u y x w be gb c snp rh e yn2} _.
Arguments si_x {j V u y x w be gb c snp rh e yn2} _.
Arguments si_xw {j V u y x w be gb c snp rh e yn2} _.
Arguments si_xx {j V u y x w be gb c snp rh e yn2} _.
Arguments si_I {j V u y x w be gb c snp rh e yn2} _.
Arguments si_J {j V u y x w be gb c snp rh e yn2} _.
Arguments si_inj {j V u y x w be gb c snp rh e yn2} _.

(** The point of the LQ method after [j] steps: the element of [A K_j] whose residual is
    orthogonal to [K_j]. *)
Definition lq_point (j : nat) (x : iv E) : Prop :=
  (exists z, kry j z /\ x = A z) /\ (forall z, kry j z -> ip (isub b (A x)) z = 0).
(** The point of the Lanczos-CG method after [k] steps. *)
Definition cg_point (k : nat) (x : iv E) : Prop :=
  kry k x /\ (forall z, kry k z -> ip (isub b (A x)) z = 0).

Section Facts.
Variables (j : nat) (V : list (iv E)) (u y x w : iv E) (be gb c snp rh e yn2 : R).
Hypothesis I : SI j V u y x w be gb c snp rh e yn2.

Lemma si_k : forall z, kry (S j) z -> ip z y = 0.
Proof.
  intros z Hz. destruct (si_dec I z Hz) as (a & z0 & K & ->). rewrite ip_addl, ip_scalel, (si_yu I).
  rewrite (si_kd I z0 K y (si_yV I)). ring.
Qed.
Lemma si_k0 : forall z, kry j z -> ip z u = 0.
Proof. intros z Hz. apply (si_kd I z Hz). apply (si_uV I). Qed.
Lemma si_kj : forall z, kry j z -> kry (S j) z.
Proof. intros z Hz. apply kry_S; assumption. Qed.
Lemma si_yy : ip y y = be * be.
Proof. rewrite (si_be I). symmetry. apply inorm_sq. Qed.
Lemma si_be0 : 0 <= be.
Proof. rewrite (si_be I). apply inorm_pos. Qed.
Lemma si_kx : kry (S j) x.
Proof. destruct (si_x I) as (z & K & ->). apply kry_A. exact K. Qed.

Lemma si_lq : lq_point j x.
Proof.
  split; [apply (si_x I)|]. intros z Hz. rewrite (si_r I), ip_addl, !ip_scalel.
  rewrite (ip_sym u z), (si_k0 z Hz), (ip_sym y z), (si_k z (si_kj z Hz)). ring.
Qed.

Lemma si_lqnorm : inorm (isub b (A x)) = sqrt (rh * rh + (e * be) * (e * be)).
Proof.
  rewrite (si_r I). unfold inorm. f_equal. ipx. rewrite (ip_sym y u), (si_yu I), (si_uu I), si_yy. ring.
Qed.

Lemma si_uw : ip u w = c.
Proof.
  destruct (si_J I) as (z & K & J).
  assert (Q : ip (A z) w = 0).
  { rewrite <- (SA z w), (si_Aw I), ip_add, !ip_scale, (si_k0 z K), (si_k z (si_kj z K)). ring. }
  rewrite J, ip_addl, ip_scalel, Q, (si_ww I). ring.
Qed.

(** The CG point. *)
Let xc := iadd x (iscale (rh / gb) w).

Lemma si_cg_res : gb <> 0 -> isub b (A xc) = iscale ((e * gb - rh * c) / gb) y.
Proof.
  intro G. unfold xc. rewrite (lin_add A LA), (lin_scale A LA), (si_Aw I).
  pose proof (si_r I) as R. apply ip_ext. intro z.
  assert (R' : ip z b - ip z (A x) = rh * ip z u + e * ip z y).
  { rewrite <- ip_sub, R. ipx. ring. }
  ipx. replace (ip z b - (ip z (A x) + rh / gb * (gb * ip z u + c * ip z y)))
    with ((ip z b - ip z (A x)) - rh / gb * (gb * ip z u + c * ip z y)) by ring.
  rewrite R'. field. exact G.
Qed.

Lemma si_cgnorm : gb <> 0 -> inorm (isub b (A xc)) = snp * beta1 * be / Rabs gb.
Proof.
  intro G. rewrite (si_cg_res G), inorm_scale, <- (si_be I), (si_q I).
  unfold Rdiv. rewrite Rabs_mult, Rabs_Ropp, Rabs_right, Rabs_inv.
  - ring.
  - pose proof (si_snp I). nra.
Qed.

Lemma si_cg : gb <> 0 -> cg_point (S j) xc.
Proof.
  intro G. split.
  - unfold xc. apply kry_add; [exact SA|apply si_kx|]. apply kry_scale; [exact SA|]. apply (si_kw I).
  - intros z Hz. rewrite (si_cg_res G), ip_scalel, (ip_sym y z), (si_k z Hz). ring.
Qed.

Lemma si_cg_exists : forall xx, cg_point (S j) xx -> gb <> 0.
Proof.
  intros xx [K H] G0. pose proof (H w (si_kw I)) as Q.
  assert (P1 : ip (isub b (A x)) w = rh * c).
  { rewrite (si_r I), ip_addl, !ip_scalel, si_uw, (ip_sym y w), (si_k w (si_kw I)). ring. }
  assert (P2 : ip (A (isub xx x)) w = 0).
  { rewrite <- (SA _ w), (si_Aw I), G0, ip_add, !ip_scale, (si_k (isub xx x)); [ring|].
    apply kry_sub; [exact SA|exact K|apply si_kx]. }
  rewrite (lin_sub A LA), ip_subl in P2. rewrite ip_subl in Q, P1.
  pose proof (si_q I) as SQ. rewrite G0 in SQ. pose proof (si_snp I). nra.
Qed.

Lemma si_cg_unique : gb <> 0 -> forall xx, cg_point (S j) xx -> xx = xc.
Proof.
  intros G xx [K H]. destruct (si_cg G) as [K' H'].
  assert (D : isub xx xc = izero).
  { assert (O : forall z, kry (S j) z -> ip (A (isub xx xc)) z = 0).
    { intros z Hz. pose proof (H z Hz) as H1. pose proof (H' z Hz) as H2.
      rewrite (lin_sub A LA). rewrite ip_subl in *. lra. }
    apply (si_inj I).
    - apply kry_sub; assumption.
    - pose proof (O w (si_kw I)) as Q. rewrite <- (SA _ w), (si_Aw I), ip_add, !ip_scale in Q.
      rewrite (si_k (isub xx xc)) in Q by (apply kry_sub; assumption).
      apply Rmult_eq_reg_l with gb; [|exact G]. lra.
    - exact O. }
  apply ip_ext. intro z. assert (Q : ip z (isub xx xc) = 0) by (rewrite D; apply ip_zero).
  rewrite ip_sub in Q. lra.
Qed.

(** An invariant Krylov space on which [A] is injective. *)
Lemma si_break : be = 0 -> (forall z, kry (S j) z -> A z = izero -> z = izero) -> gb <> 0.
Proof.
  intros B0 INJ G0. assert (Y0 : y = izero) by (apply inorm_zero; rewrite <- (si_be I); exact B0).
  assert (W0 : w = izero).
  { apply INJ; [apply (si_kw I)|]. rewrite (si_Aw I), G0, Y0. veq. }
  pose proof (si_ww I) as Q. rewrite W0, ip_zero in Q. lra.
Qed.

(** ** One iteration. *)
Hypothesis BP : 0 < be.
Let u' := iscale (1 / be) y.
Let p := isub (A u') (iscale be u).
Let al := ip u' p.
Let y' := isub p (iscale al u').
Let be' := inorm y'.
Let ga := sqrt (gb * gb + be * be).
Let cs := gb / ga.
Let sn := be / ga.
Let de := cs * (c * be) + sn * al.
Let gb' := sn * (c * be) - cs * al.
Let z := rh / ga.
Let w1 := iadd (iscale cs w) (iscale sn u').
Let x' := iadd x (iscale z w1).
Let w' := isub (iscale sn w) (iscale cs u').

Lemma ss_ga2 : ga * ga = gb * gb + be * be.
Proof. unfold ga. apply sqrt_sqrt. nra. Qed.
Lemma ss_ga : 0 < ga.
Proof. apply sqrt_lt_R0. nra. Qed.
Lemma ss_rot : cs * cs + sn * sn = 1.
Proof.
  unfold cs, sn. pose proof ss_ga. pose proof ss_ga2. field_simplify; [|lra].
  replace (gb ^ 2 + be ^ 2) with (ga * ga) by (rewrite ss_ga2; ring). field. lra.
Qed.
Lemma ss_sn : 0 < sn.
Proof. unfold sn. apply Rdiv_lt_0_compat; [exact BP|apply ss_ga]. Qed.
Lemma ss_y : y = iscale be u'.
Proof. unfold u'. apply ip_ext. intro t. ipx. field. lra. Qed.
Lemma ss_zu' : forall t, kry (S j) t -> ip t u' = 0.
Proof. intros t Ht. unfold u'. rewrite ip_scale, (si_k t Ht). ring. Qed.
Lemma ss_u'1 : ip u' u' = 1.
Proof. unfold u'. rewrite ip_scale, ip_scalel, si_yy. field. lra. Qed.
Lemma ss_u'V : forall v, In v (u :: V) -> ip v u' = 0.
Proof.
  intros v Hv. unfold u'. rewrite ip_scale. destruct Hv as [<- | Hv].
  - rewrite (si_yu I). ring. - rewrite (si_yV I v Hv). ring.
Qed.
Lemma ss_u'd : forall t, dp (u :: V) t -> ip t u' = 0.
Proof. intros t D. apply D. apply ss_u'V. Qed.
Lemma ss_Au' : ip (A u) u' = be.
Proof.
  assert (Q : ip (isub (A u) y) u' = 0) by (apply ss_u'd, (si_Au I)).
  rewrite ip_subl in Q. assert (Y : ip y u' = be).
  { rewrite ss_y at 1. rewrite ip_scalel, ss_u'1. ring. }
  lra.
Qed.
Lemma ss_y'u' : ip u' y' = 0.
Proof. unfold y'. rewrite ip_sub, ip_scale, ss_u'1. fold al. ring. Qed.
Lemma ss_y'V : forall v, In v (u :: V) -> ip v y' = 0.
Proof.
  intros v Hv. unfold y', p. rewrite !ip_sub, !ip_scale, (ss_u'V v Hv), (SA v u').
  destruct Hv as [<- | Hv].
  - rewrite ss_Au', (si_uu I). ring.
  - rewrite (si_uV I v Hv), (ss_u'd (A v)); [ring|]. apply (si_AV I v Hv).
Qed.
Lemma ss_Au1 : A u' = iadd (iadd (iscale be u) (iscale al u')) y'.
Proof. unfold y', p. apply ip_ext. intro t. ipx. ring. Qed.
Lemma ss_ku' : kry (S (S j)) u'.
Proof.
  unfold u'. apply kry_scale; [exact SA|].
  assert (Q : y = isub (A u) (isub (A u) y)) by veq. rewrite Q.
  apply kry_sub; [exact SA| |].
  - apply kry_A. apply (si_ku I).
  - apply kry_S; [exact SA|apply (si_kAu I)].
Qed.
Lemma ss_rot1 : forall t, ip t w = cs * ip t w1 + sn * ip t w'.
Proof.
  intro t. unfold w1, w'. ipx.
  replace (cs * (cs * ip t w + sn * ip t u') + sn * (sn * ip t w - cs * ip t u'))
    with ((cs * cs + sn * sn) * ip t w) by ring. rewrite ss_rot. ring.
Qed.
Lemma ss_rot2 : forall t, ip t u' = sn * ip t w1 - cs * ip t w'.
Proof.
  intro t. unfold w1, w'. ipx.
  replace (sn * (cs * ip t w + sn * ip t u') - cs * (sn * ip t w - cs * ip t u'))
    with ((cs * cs + sn * sn) * ip t u') by ring. rewrite ss_rot. ring.
Qed.
Lemma ss_w1 : exists z0, kry (S j) z0 /\ w1 = A z0.
Proof.
  destruct (si_I I) as (z0 & K & Q). exists (iscale (1 / ga) (isub u z0)). split.
  - apply kry_scale; [exact SA|]. apply kry_sub; [exact SA|apply (si_ku I)|apply si_kj, K].
  - rewrite (lin_scale A LA), (lin_sub A LA). apply ip_ext. intro t.
    assert (Q' : ip t (A u) = ip t (A z0) + (gb * ip t w + ip t y)) by (rewrite Q; ipx; ring).
    ipx. rewrite Q'. unfold w1, u'. ipx. unfold cs, sn. pose proof ss_ga. field. lra.
Qed.
Lemma ss_kw1 : kry (S (S j)) w1.
Proof. destruct ss_w1 as (z0 & K & ->). apply kry_A. exact K. Qed.
Lemma ss_Aw1 : A w1 = iadd (iadd (iscale ga u) (iscale de u')) (iscale sn y').
Proof.
  unfold w1. rewrite (lin_add A LA), !(lin_scale A LA), (si_Aw I), ss_Au1. apply ip_ext. intro t. 
  assert (Y : ip t y = be * ip t u') by (rewrite ss_y at 1; apply ip_scale).
  ipx. rewrite Y.
  replace ga with ((gb * gb + be * be) / ga) by (pose proof ss_ga; rewrite <- ss_ga2; field; lra).
  unfold de, cs, sn. pose proof ss_ga. field. lra.
Qed.
Lemma ss_Aw' : A w' = iadd (iscale gb' u') (iscale (- cs) y').
Proof.
  unfold w'. rewrite (lin_sub A LA), !(lin_scale A LA), (si_Aw I), ss_Au1. apply ip_ext. intro t.
  assert (Y : ip t y = be * ip t u') by (rewrite ss_y at 1; apply ip_scale).
  ipx. rewrite Y. unfold gb', cs, sn. pose proof ss_ga. field. lra.
Qed.

Lemma ss_dec : forall t, kry (S (S j)) t -> exists a z0, kry (S j) z0 /\ t = iadd (iscale a u') z0.
Proof.
  intros t (a & t' & T & ->). destruct (si_dec I t' T) as (a' & z0 & Z & ->).
  exists (a' * be), (iadd (iadd (iscale a b) (A z0)) (iscale a' (isub (A u) y))). split.
  - apply kry_add; [exact SA| |].
    + exists a, z0. split; [exact Z|reflexivity].
    + apply kry_scale; [exact SA|]. apply (si_kAu I).
  - rewrite (lin_add A LA), (lin_scale A LA). apply ip_ext. intro s.
    assert (Y : ip s y = be * ip s u') by (rewrite ss_y at 1; apply ip_scale).
    ipx. rewrite Y. ring.
Qed.
Lemma ss_y'k : forall t, kry (S (S j)) t -> ip t y' = 0.
Proof.
  intros t Ht. destruct (ss_dec t Ht) as (a & z0 & K & ->). rewrite ip_addl, ip_scalel, ss_y'u'.
  destruct (si_dec I z0 K) as (a' & z1 & K1 & ->). rewrite ip_addl, ip_scalel.
  rewrite (ss_y'V u (or_introl eq_refl)).
  rewrite (si_kd I z1 K1 y'); [ring|]. intros v Hv. apply ss_y'V. right. exact Hv.
Qed.

Lemma ss_step : SI (S j) (u :: V) u' y' x' w' be' gb' (- cs) (snp * sn)
  (e * be - de * z) (- sn * z) (z * z + yn2).
Proof.
  pose proof ss_rot as ROT. pose proof ss_ga as GA. pose proof ss_sn as SN.
  assert (WU : ip w u' = 0) by (apply ss_zu', (si_kw I)).
  assert (XU : ip x u' = 0) by (apply ss_zu', si_kx).
  assert (IV' : incl (u :: V) (u' :: u :: V)) by (intros v Hv; right; exact Hv).
  assert (UU : ip u u' = 0) by (apply ss_u'V; left; reflexivity).
  split.
  - cbn. f_equal. apply (si_len I).
  - apply ss_u'1.
  - apply ss_u'V.
  - intros v [<- | Hv]; [apply (si_uu I)|apply (si_V1 I v Hv)].
  - constructor; [|apply (si_Vo I)]. apply Forall_forall. intros v Hv. rewrite ip_sym. apply (si_uV I v Hv).
  - reflexivity.
  - apply ss_y'u'.
  - apply ss_y'V.
  - intros v [<- | Hv].
    + assert (Q : A u = iadd (isub (A u) y) (iscale be u')) by (rewrite <- ss_y; veq).
      rewrite Q. apply dp_add.
      * eapply dp_weak; [apply (si_Au I)|exact IV'].
      * apply dp_scale, dp_in. left. reflexivity.
    + eapply dp_weak; [apply (si_AV I v Hv)|exact IV'].
  - assert (Q : isub (A u') y' = iadd (iscale be u) (iscale al u')) by (rewrite ss_Au1; veq).
    rewrite Q. apply dp_add; apply dp_scale, dp_in; [right; left|left]; reflexivity.
  - eapply dp_weak; [apply (si_b I)|exact IV'].
  - intros t (a & t' & T & ->). apply dp_add; [apply dp_scale, (si_b I)|].
    intros s Hs. rewrite <- (SA t' s). apply (si_kd I t' T). intros v Hv. rewrite (SA v s).
    apply (si_AV I v Hv). exact Hs.
  - apply ss_ku'.
  - assert (Q : isub (A u') y' = iadd (iscale be u) (iscale al u')) by (rewrite ss_Au1; veq).
    rewrite Q. apply kry_add; [exact SA| |]; apply kry_scale; [exact SA| |exact SA|].
    + apply kry_S; [exact SA|apply (si_ku I)].
    + apply ss_ku'.
  - apply ss_dec.
  - apply ss_Aw'.
  - unfold x'. rewrite (lin_add A LA), (lin_scale A LA), ss_Aw1.
    pose proof (si_r I) as R. apply ip_ext. intro t.
    assert (R' : ip t b - ip t (A x) = rh * ip t u + e * ip t y) by (rewrite <- ip_sub, R; ipx; ring).
    assert (Y : ip t y = be * ip t u') by (rewrite ss_y at 1; apply ip_scale).
    ipx.
    replace (ip t b - (ip t (A x) + z * (ga * ip t u + de * ip t u' + sn * ip t y')))
      with ((ip t b - ip t (A x)) - z * (ga * ip t u + de * ip t u' + sn * ip t y')) by ring.
    rewrite R', Y. unfold z. field. lra.
  - pose proof (si_q I) as Q.
    assert (D : sn * gb' + cs * de = c * be).
    { unfold gb', de. replace (c * be) with ((cs * cs + sn * sn) * (c * be)) at 3 by (rewrite ROT; ring). ring. }
    transitivity (cs * (e * be) - z * (sn * gb' + cs * de)); [ring|]. rewrite D.
    replace (snp * sn * beta1) with (sn * (snp * beta1)) by ring.
    replace (snp * beta1) with (rh * c - e * gb) by lra. unfold cs, sn, z. field. lra.
  - pose proof (si_snp I). nra.
  - unfold w'. ipx. rewrite (si_ww I), (ip_sym u' w), WU, ss_u'1.
    transitivity (cs * cs + sn * sn); [ring|exact ROT].
  - unfold w'. apply kry_sub; [exact SA| |]; apply kry_scale; [exact SA| |exact SA|apply ss_ku'].
    apply kry_S; [exact SA|apply (si_kw I)].
  - destruct (si_x I) as (z0 & K & X). destruct ss_w1 as (z1 & K1 & W1).
    exists (iadd z0 (iscale z z1)). split.
    + apply kry_add; [exact SA|apply si_kj, K|]. apply kry_scale; [exact SA|exact K1].
    + unfold x'. rewrite X, W1, (lin_add A LA), (lin_scale A LA). reflexivity.
  - unfold x', w', w1. ipx. rewrite (si_xw I), XU, (si_ww I), WU, (ip_sym u' w), WU, ss_u'1. ring.
  - unfold x', w1. ipx. rewrite (ip_sym w x), (ip_sym u' x), (si_xw I), XU, (si_ww I), WU, (ip_sym u' w), WU, ss_u'1, (si_xx I).
    transitivity (z * z * (cs * cs + sn * sn) + yn2); [ring|rewrite ROT; ring].
  - destruct (si_J I) as (z0 & K & J). destruct ss_w1 as (z1 & K1 & W1).
    exists (iadd (iscale be z0) (iscale de z1)). split.
    + apply kry_add; [exact SA| |]; apply kry_scale; try exact SA; [apply si_kj, K|exact K1].
    + rewrite ss_Au1, (lin_add A LA), !(lin_scale A LA), <- W1. apply ip_ext. intro t.
      assert (J' : ip t u = ip t (A z0) + c * ip t w) by (rewrite J at 1; ipx; ring).
      ipx. rewrite J', ss_rot1, ss_rot2.
      assert (D1 : c * be * cs + al * sn = de) by (unfold de; ring).
      assert (D2 : c * be * sn - al * cs = gb') by (unfold gb'; ring).
      rewrite <- D1, <- D2. ring.
  - destruct ss_w1 as (z1 & K1 & W1). exists (iscale sn z1). split.
    + apply kry_scale; [exact SA|exact K1].
    + rewrite (lin_scale A LA), <- W1. apply ip_ext. intro t. rewrite ss_rot2. ipx. ring.
  - intros d Kd Du Od. destruct (ss_dec d Kd) as (a & z0 & K & D).
    assert (A0 : a = 0).
    { rewrite D, ip_addl, ip_scalel, ss_u'1, (ss_zu' z0 K) in Du. lra. }
    assert (D0 : d = z0) by (rewrite D, A0; veq).
    apply (si_inj I).
    + rewrite D0. exact K.
    + pose proof (Od w1 ss_kw1) as Q. rewrite <- (SA d w1), ss_Aw1, !ip_add, !ip_scale, Du, (ss_y'k d Kd) in Q.
      apply Rmult_eq_reg_l with ga; lra.
    + intros t Ht. apply Od. apply kry_S; assumption.
Qed.
End Facts.
End LQ.

(** ** Control flow, in any arithmetic. *)
Section Flow.
Context {K : Scal} {W : Vs K}.
Variables (q : kprob W) (kw : @sy_kw K) (beta1 : sc K) (lim c0 l0 : nat).

Definition chk : nat := if y_check kw then 1%nat else 0%nat.
Definition stored (n : nat) : nat := if y_sit kw then n else 0%nat.

(** The state at the top of the loop, after leaving it by the tests, and after leaving it at
    line 315. *)
Definition sy_run (st : sy_st W) : Prop :=
  y_brk st = false /\ y_nmv st = (y_itn st + 1)%nat /\ (y_nmv st <= Nat.max 1 lim)%nat /\
  (y_istop st = 0%Z \/ y_istop st = (-1)%Z /\ y_itn st = 0%nat) /\
  (y_lqdiag st = None <-> y_itn st = 0%nat) /\ length (y_iters st) = (l0 + stored (y_itn st))%nat.
Definition sy_met (st : sy_st W) : Prop :=
  y_brk st = true /\ (1 <= y_itn st)%nat /\ y_nmv st = y_itn st /\ (y_nmv st < lim)%nat /\
  In (y_istop st) [-1; 1; 2; 3; 4]%Z /\ y_lqdiag st <> None /\
  length (y_iters st) = (l0 + stored (y_itn st - 1))%nat.
Definition sy_ind (st : sy_st W) : Prop :=
  y_brk st = true /\ (1 <= y_itn st)%nat /\ y_nmv st = (y_itn st + 1)%nat /\ (y_nmv st <= lim)%nat /\
  y_istop st = 6%Z /\ y_lqdiag st <> None /\
  length (y_iters st) = (l0 + stored (y_itn st - 1))%nat.
Definition sy_flow (st : sy_st W) : Prop :=
  y_cnt st = (c0 + y_nmv st + chk)%nat /\ (sy_run st \/ sy_met st \/ sy_ind st).

Lemma sy_tests_in : forall eps nmv acond epsx epsr cgnorm, (nmv < lim)%nat ->
  In (sy_tests eps beta1 nmv lim acond epsx epsr cgnorm) [0; 1; 2; 3; 4]%Z.
Proof.
  intros eps nmv acond epsx epsr cgnorm L. unfold sy_tests.
  replace (lim <=? nmv)%nat with false by (symmetry; apply Nat.leb_gt; exact L). cbv zeta.
  destruct (sleb cgnorm epsr); [cbn; tauto|]. destruct (sleb cgnorm epsx); [cbn; tauto|].
  destruct (sgeb epsx beta1); [cbn; tauto|]. destruct (sgeb acond _); cbn; tauto.
Qed.

Lemma sy_flow_step : forall st st', sy_flow st -> sy_cond lim st = true ->
  sy_body q kw beta1 lim st = Ok st' -> sy_flow st'.
Proof.
  intros st st' [C F] HC H. unfold sy_cond in HC. apply andb_prop in HC. destruct HC as [HB HL].
  apply negb_true_iff in HB. apply Nat.ltb_lt in HL.
  destruct F as [F|[F|F]]; [|destruct F as [F _]; congruence|destruct F as [F _]; congruence].
  destruct F as (_ & N & L & IS & LQ & LI).
  unfold sy_body in H. remember (sy_top kw beta1 lim st) as t eqn:Et.
  assert (TI : In (y_istop t) [-1; 0; 1; 2; 3; 4]%Z /\ y_brk t = negb (y_istop t =? 0)%Z /\ y_itn t = (y_itn st + 1)%nat /\
    y_nmv t = y_nmv st /\ y_cnt t = y_cnt st /\ y_lqdiag t <> None /\ y_iters t = y_iters st).
  { rewrite Et. cbn [sy_top y_istop y_brk y_itn y_nmv y_cnt y_lqdiag y_iters].
    split; [|split; [reflexivity|split; [reflexivity|split; [reflexivity|split; [reflexivity|split; [discriminate|reflexivity]]]]]].
    destruct IS as [-> | [-> _]].
    - change (0 =? 0)%Z with true. cbv iota. right. apply sy_tests_in. exact HL.
    - left. reflexivity. }
  clear Et. destruct TI as (T1 & T2 & T3 & T4 & T5 & T6 & T7).
  destruct (y_brk t) eqn:EB.
  - injection H as <-. split; [rewrite T5, T4; exact C|]. right. left.
    split; [exact EB|]. split; [lia|]. split; [lia|]. split; [lia|]. split.
    + destruct T1 as [T1|[T1|T1]]; [left; exact T1| |right; exact T1].
      rewrite <- T1 in T2. discriminate.
    + split; [exact T6|]. rewrite T7, LI, T3. f_equal. f_equal. lia.
  - assert (I0 : y_istop t = 0%Z) by (apply Z.eqb_eq; destruct (y_istop t =? 0)%Z; [reflexivity|discriminate]).
    unfold sy_lan, opmul in H. set (v := vscale _ (y_y t)) in H. cbv beta iota zeta in H.
    set (r2 := vsub _ (vscale _ (y_r2 t))) in H. clearbody r2. set (al := vdot v _) in H. clearbody al.
    set (yy := sy_prec q r2) in H. clearbody yy.
    destruct (sltb (vdot r2 yy) s0).
    + injection H as <-. split; [cbn [sy_indef y_cnt y_nmv]; rewrite T5, T4, C; lia|]. right. right.
      unfold sy_ind. cbn [sy_indef y_brk y_itn y_nmv y_istop y_lqdiag y_iters].
      split; [reflexivity|]. split; [lia|]. split; [lia|]. split; [lia|]. split; [reflexivity|]. split; [exact T6|].
      rewrite T7, LI, T3. f_equal. f_equal. lia.
    + injection H as <-. split; [cbn [sy_upd y_cnt y_nmv]; rewrite T5, T4, C; lia|]. left.
      unfold sy_run. cbn [sy_upd y_brk y_itn y_nmv y_istop y_lqdiag y_iters].
      split; [reflexivity|]. split; [lia|]. split; [lia|]. split; [left; exact I0|]. split.
      * split; [intro X; exfalso; apply T6; exact X|intro X; exfalso; lia].
      * unfold stored in *. destruct (y_sit kw).
        -- rewrite app_length, T7, LI, T3. cbn. lia.
        -- rewrite T7, LI. reflexivity.
Qed.

Lemma sy_body_ok : forall st, exists st', sy_body q kw beta1 lim st = Ok st'.
Proof.
  intro st. unfold sy_body. destruct (y_brk _); [eexists; reflexivity|].
  destruct (sy_lan q kw _) as [[[[[v al] r2] y] be] cnt]. destruct (sltb be s0); eexists; reflexivity.
Qed.

Lemma sy_while_ok : forall fuel st, sy_flow st -> (Nat.max 1 lim < fuel + y_nmv st)%nat ->
  exists st', while fuel (sy_cond lim) (sy_body q kw beta1 lim) st = Ok st' /\ sy_flow st' /\ sy_cond lim st' = false.
Proof.
  induction fuel as [|fuel IH]; intros st F N.
  - exfalso. rewrite Nat.add_0_l in N. destruct F as [_ [F|[F|F]]].
    + destruct F as (_ & F1 & F2 & _). lia.
    + destruct F as (_ & _ & _ & F & _). lia.
    + destruct F as (_ & _ & _ & F & _). lia.
  - cbn [while]. destruct (sy_cond lim st) eqn:C; [|exists st; auto].
    destruct (sy_body_ok st) as [st' B]. rewrite B. pose proof (sy_flow_step _ _ F C B) as F'.
    destruct (y_brk st') eqn:EB.
    + destruct fuel as [|fuel].
      * exfalso. unfold sy_cond in C. apply andb_prop in C. destruct C as [_ C]. apply Nat.ltb_lt in C. lia.
      * exists st'. cbn [while]. unfold sy_cond. rewrite EB. cbn. auto.
    + apply IH; [exact F'|]. destruct F' as [_ [F'|[F'|F']]]; [|destruct F' as [F' _]; congruence|destruct F' as [F' _]; congruence].
      destruct F as [_ [F|[F|F]]].
      * destruct F as (_ & F1 & _). destruct F' as (_ & F2 & _).
        assert (y_itn st' = (y_itn st + 1)%nat).
        { clear - B EB. unfold sy_body in B. remember (sy_top kw beta1 lim st) as t eqn:Et.
          assert (T3 : y_itn t = (y_itn st + 1)%nat) by (rewrite Et; reflexivity).
          clear Et. destruct (y_brk t) eqn:E; [injection B as <-; congruence|].
          destruct (sy_lan q kw t) as [[[[[v al] r2] y] be] cnt]. destruct (sltb be s0); injection B as <-; exact T3. }
        lia.
      * destruct F as [F _]. unfold sy_cond in C. rewrite F in C. discriminate.
      * destruct F as [F _]. unfold sy_cond in C. rewrite F in C. discriminate.
Qed.
End Flow.

Section FlowSolve.
Context {K : Scal} {W : Vs K}.
Variables (q : kprob W) (kw : @sy_kw K).

Lemma sy_first_flow : forall b y beta1 iters lim c0 st,
  sy_first q kw (opmul (q_A q)) b y beta1 0%Z false iters c0 = (st, false) ->
  sy_flow kw lim c0 (length iters) st /\ y_nmv st = 1%nat /\ y_itn st = 0%nat.
Proof.
  intros b y beta1 iters lim c0 st H. unfold sy_first, opmul in H. cbv beta iota zeta in H.
  set (v := vscale _ y) in H. clearbody v. set (y1 := q_A q v) in H. clearbody y1.
  destruct (y_check kw) eqn:CK.
  - set (P := sy_asym q _ _) in H. destruct P; cbv beta iota zeta in H.
    + destruct (sltb _ s0) in H; discriminate.
    + destruct (sltb _ s0) in H; [discriminate|]. cbv beta iota zeta in H. injection H as <-.
      unfold sy_flow, chk, sy_run, stored. rewrite CK. cbn [y_cnt y_nmv y_itn y_brk y_istop y_lqdiag y_iters].
      split; [|split; reflexivity]. split; [lia|]. left. split; [reflexivity|]. split; [reflexivity|]. split; [lia|].
      split; [destruct (sleb _ _); [right; split; reflexivity|left; reflexivity]|]. split; [split; reflexivity|].
      destruct (y_sit kw); lia.
  - cbv beta iota zeta in H. destruct (sltb _ s0) in H; [discriminate|]. cbv beta iota zeta in H. injection H as <-.
    unfold sy_flow, chk, sy_run, stored. rewrite CK. cbn [y_cnt y_nmv y_itn y_brk y_istop y_lqdiag y_iters].
    split; [|split; reflexivity]. split; [lia|]. left. split; [reflexivity|]. split; [reflexivity|]. split; [lia|].
    split; [destruct (sleb _ _); [right; split; reflexivity|left; reflexivity]|]. split; [split; reflexivity|].
    destruct (y_sit kw); lia.
Qed.

Lemma sy_first_done : forall b y beta1 i d iters c0 st d',
  sy_first q kw (opmul (q_A q)) b y beta1 i d iters c0 = (st, d') ->
  y_lqdiag st = None /\ (d = true -> d' = true).
Proof.
  intros b y beta1 i d iters c0 st d' H. unfold sy_first, opmul in H. cbv beta iota zeta in H.
  set (v := vscale _ y) in H. clearbody v. set (y1 := q_A q v) in H. clearbody y1.
  destruct (y_check kw).
  - destruct (sy_asym q _ _) in H; cbv beta iota zeta in H;
      destruct (sltb _ s0) in H; injection H as <- <-; split; cbn; auto.
  - cbv beta iota zeta in H. destruct (sltb _ s0) in H; injection H as <- <-; split; cbn; auto.
Qed.

Definition sy_outcome (b : vc W) (it0 : list (vc W)) (cnt : nat) (r : res (sy_out W * nat)) : Prop :=
  match r with
  | Err IndexError => vlen (sy_prec q b) = 0%nat
  | Err UnboundLocalError => (1 <= vlen (sy_prec q b))%nat
  | Err _ => False
  | Ok (o, cnt') =>
      (1 <= vlen (sy_prec q b))%nat /\ sltb s0 (vdot b (sy_prec q b)) = true /\ (2 <= sy_lim kw b)%nat /\
      (1 <= u_itn o)%nat /\ cnt' = (cnt + u_nmv o + chk kw)%nat /\
      u_xnorm o = vnorm (u_x o) /\ u_rnorm o = vnorm (vsub b (sy_shift kw (q_A q (u_x o)) (u_x o))) /\
      (In (u_istop o) [-1; 1; 2; 3; 4]%Z /\ u_nmv o = (u_itn o + 1)%nat /\ (u_nmv o <= sy_lim kw b)%nat /\
         length (u_iters o) = (length it0 + stored kw (u_itn o))%nat \/
       u_istop o = 6%Z /\ u_nmv o = (u_itn o + 2)%nat /\ (u_nmv o <= sy_lim kw b + 1)%nat /\
         length (u_iters o) = (length it0 + stored kw (u_itn o))%nat \/
       u_istop o = 0%Z /\ u_nmv o = (u_itn o + 2)%nat /\ u_nmv o = (sy_lim kw b + 1)%nat /\
         length (u_iters o) = (length it0 + stored kw (u_itn o + 1))%nat)
  end.

Lemma sy_solve_flow : forall fuel b it0 cnt, (sy_lim kw b < fuel)%nat ->
  sy_outcome b it0 cnt (sy_solve fuel (Some (opmul (q_A q))) q it0 b kw cnt).
Proof.
  intros fuel b it0 cnt HF. unfold sy_solve. set (y := sy_prec q b).
  destruct (vlen y =? 0)%nat eqn:EL; [apply Nat.eqb_eq in EL; exact EL|]. apply Nat.eqb_neq in EL.
  assert (L1 : (1 <= vlen y)%nat) by lia.
  set (S1 := match q_P q with Some P => _ | None => _ end).
  assert (HS : snd S1 = false -> fst S1 = 0%Z).
  { unfold S1. destruct (q_P q); [destruct (y_check kw && _)|]; cbn; congruence. }
  destruct S1 as [i0 d0]. cbn in HS.
  set (S2 := if sltb (vdot b y) s0 then _ else _).
  assert (HS2 : snd S2 = false -> fst S2 = 0%Z).
  { unfold S2. destruct (sltb (vdot b y) s0); cbn; [discriminate|exact HS]. }
  destruct S2 as [i1 d1]. cbn in HS2. unfold sgtb. destruct (sltb s0 (vdot b y)) eqn:EP; [|exact L1].
  set (its := if y_sit kw then it0 ++ [vzeros (vlen b)] else it0).
  destruct (sy_first q kw (opmul (q_A q)) b y (ssqrt (vdot b y)) i1 (d1 || seqb (vdot b y) s0) its cnt) as [st d] eqn:ES.
  destruct (sy_first_done _ _ _ _ _ _ _ _ _ ES) as [LQ DD].
  destruct d.
  - cbv iota. unfold sy_final. rewrite LQ. exact L1.
  - destruct (d1 || seqb (vdot b y) s0) eqn:ED; [discriminate (DD eq_refl)|].
    apply orb_false_iff in ED. destruct ED as [-> _]. rewrite (HS2 eq_refl) in ES.
    destruct (sy_first_flow _ _ _ _ (sy_lim kw b) _ _ ES) as (F & N1 & I0).
    destruct (sy_while_ok q kw (ssqrt (vdot b y)) (sy_lim kw b) cnt (length its) fuel st F) as (st' & EW & F' & C'); [lia|].
    rewrite EW. unfold sy_final, opmul. cbv beta iota zeta. destruct F' as [FC F'].
    assert (LI : length its = (length it0 + stored kw 1)%nat).
    { unfold its, stored. destruct (y_sit kw); [rewrite app_length; reflexivity|lia]. }
    destruct F' as [F'|[F'|F']]; unfold sy_run, sy_met, sy_ind in F'.
    + destruct F' as (B' & F1 & F2 & F3 & F4 & F5).
      unfold sy_cond in C'. rewrite B' in C'. cbn [negb andb] in C'. apply Nat.ltb_ge in C'.
      destruct (y_lqdiag st') as [[lqn dg]|] eqn:ELQ; [|exact L1].
      assert (NI : y_itn st' <> 0%nat) by (intro X; apply F4 in X; discriminate).
      cbn [sy_outcome u_itn u_nmv u_xnorm u_x u_rnorm u_istop u_iters].
      split; [exact L1|]. split; [exact EP|]. split; [lia|]. split; [lia|]. split; [lia|]. split; [reflexivity|]. split; [reflexivity|].
      right. right. split; [destruct F3 as [F3|[_ F3]]; [exact F3|contradiction]|]. split; [lia|]. split; [lia|].
      rewrite F5, LI. unfold stored. destruct (y_sit kw); lia.
    + destruct F' as (B' & F1 & F2 & F3 & F4 & F5 & F6). destruct (y_lqdiag st') as [[lqn dg]|]; [|congruence].
      cbn [sy_outcome u_itn u_nmv u_xnorm u_x u_rnorm u_istop u_iters].
      split; [exact L1|]. split; [exact EP|]. split; [lia|]. split; [lia|]. split; [lia|]. split; [reflexivity|]. split; [reflexivity|].
      left. split; [exact F4|]. split; [lia|]. split; [lia|]. rewrite F6, LI. unfold stored. destruct (y_sit kw); lia.
    + destruct F' as (B' & F1 & F2 & F3 & F4 & F5 & F6). destruct (y_lqdiag st') as [[lqn dg]|]; [|congruence].
      cbn [sy_outcome u_itn u_nmv u_xnorm u_x u_rnorm u_istop u_iters].
      split; [exact L1|]. split; [exact EP|]. split; [lia|]. split; [lia|]. split; [lia|]. split; [reflexivity|]. split; [reflexivity|].
      right. left. split; [exact F4|]. split; [lia|]. split; [lia|]. rewrite F6, LI. unfold stored. destruct (y_sit kw); lia.
Qed.
End FlowSolve.

(** ** The model in exact arithmetic, without preconditioner. *)
Section Exact.
Variables (dv : R -> R -> R) (sq : R -> R).
Hypothesis DV : dv_ok dv.
Hypothesis SQ : sq_ok sq.
Variable E : IPS.
Local Notation KK := (exactK dv sq).
Local Notation WW := (exactV dv sq E).
Variables (q : kprob WW) (kw : @sy_kw KK) (b : iv E).
Hypothesis NP : q_P q = None.
Hypothesis SA : selfadj (q_A q : iv E -> iv E).
Local Open Scope R_scope.
Local Notation eps := (@machine_eps KK).

(** The shift, 0 when absent; the shifted operator. *)
Definition sy_sh : R := match y_shift kw with Some s => s | None => 0 end.
Local Notation At := (shifted E (q_A q) sy_sh).
Local Notation res z := (inorm (isub b (At z))).

Lemma sy_shift_eq : forall z, @sy_shift KK WW kw (q_A q z) z = At z.
Proof.
  intro z. unfold sy_shift, shifted, sy_sh. destruct (y_shift kw) as [s|].
  - change (@seqb KK s (@s0 KK)) with (Reqb s 0). destruct (Reqb s 0) eqn:Z; [|reflexivity].
    apply Reqb_true in Z. rewrite Z. change ((q_A q z : iv E) = isub (q_A q z) (iscale 0 z)). veq.
  - change ((q_A q z : iv E) = isub (q_A q z) (iscale 0 z)). veq.
Qed.

Lemma sy_At_sym : selfadj At.
Proof. intros u v. unfold shifted. rewrite ip_sub, ip_subl, ip_scale, ip_scalel, (SA u v). reflexivity. Qed.
Let SAt := sy_At_sym.
Let LAt : lin At := adjoint_lin At At SAt.

Variable beta1 : R.
Hypothesis B1 : 0 < beta1.
Variable it0 : list (iv E).

(** The LQ point and the direction of the CG point: the loop keeps their components along [b]
    apart. *)
Definition sy_X (st : sy_st WW) : iv E := iadd (y_x st : iv E) (iscale (y_bstep st / beta1) b).
Definition sy_W (st : sy_st WW) : iv E := iadd (y_w st : iv E) (iscale (y_snprod st / beta1) b).

Record sy_live (j : nat) (st : sy_st WW) : Prop := {
  sl_ex : exists V u c e,
    SI At b beta1 j V u (y_y st) (sy_X st) (sy_W st) (y_beta st) (y_gbar st) c (y_snprod st) (y_rhs1 st) e (y_ynorm2 st) /\
    y_dbar st = c * y_beta st /\ y_rhs2 st = e * y_beta st /\ (y_r1 st : iv E) = iscale (y_oldb st) u;
  sl_oldb : 0 < y_oldb st;
  sl_r2 : y_r2 st = y_y st;
  sl_tn : 0 <= y_tnorm st;
  sl_tn1 : j = 0%nat \/ 0 < y_tnorm st;
  sl_e : j = 0%nat -> y_beta st <= eps -> y_istop st = (-1)%Z;
  sl_it : if y_sit kw then exists zs, (y_iters st : list (iv E)) = it0 ++ zs /\ length zs = S j /\
            forall i z, nth_error zs i = Some z -> exists c, lq_point At b i (iadd z (iscale c b))
          else (y_iters st : list (iv E)) = it0 }.

Lemma sy_eps_pos : 0 < eps.
Proof. apply MinresProof.eps_pos. Qed.

(** The quantities computed at the top of the loop. *)
Lemma sy_top_vals : forall lim (st : sy_st WW),
  let t := @sy_top KK WW kw beta1 lim st in
  let an := sq (y_tnorm st) in
  let yn := sq (y_ynorm2 st) in
  let dg := if Reqb (y_gbar st) 0 then an * eps else y_gbar st in
  let lqn := sq (y_rhs1 st * y_rhs1 st + y_rhs2 st * y_rhs2 st) in
  let cgn := dv (y_snprod st * beta1 * y_beta st) (Rabs dg) in
  y_cgnorm t = cgn /\ y_lqdiag t = Some (lqn, dg) /\ y_anorm t = an /\
  y_brk t = negb (y_istop t =? 0)%Z /\
  (y_istop st <> 0%Z -> y_istop t = y_istop st) /\
  (y_istop st = 0%Z -> cgn <= an * yn * y_rtol kw -> y_istop t = 1%Z) /\
  (y_istop st = 0%Z -> cgn <= an * yn * eps -> y_istop t = 1%Z \/ y_istop t = 2%Z) /\
  (y_istop st = 0%Z -> y_istop t = 1%Z -> cgn <= an * yn * y_rtol kw) /\
  (y_istop st = 0%Z -> y_istop t = 2%Z -> cgn <= an * yn * eps) /\
  (y_istop st = 0%Z -> y_istop t = 3%Z -> beta1 <= an * yn * eps).
Proof.
  intros lim st. cbv zeta. split; [reflexivity|]. split; [reflexivity|]. split; [reflexivity|]. split; [reflexivity|].
  cbn [sy_top y_istop].
  set (ac := if sltb _ _ then _ else _). clearbody ac.
  change (@sleb KK) with Rleb. change (@seqb KK) with Reqb. change (@ssqrt KK) with sq. change (@s0 KK) with 0.
  change (@smul KK) with Rmult. change (@sdiv KK) with dv. change (@sabs KK) with Rabs. change (@sadd KK) with Rplus.
  set (cgn := dv _ _). set (er := sq (y_tnorm st) * sq (y_ynorm2 st) * y_rtol kw).
  set (ex := sq (y_tnorm st) * sq (y_ynorm2 st) * eps). clearbody cgn er ex.
  unfold sy_tests. change (@sleb KK) with Rleb. unfold sgeb. change (@sleb KK) with Rleb.
  split. { intro N. apply Z.eqb_neq in N. rewrite N. reflexivity. }
  split. { intros -> H. cbn [Z.eqb]. apply Rleb_true in H. rewrite H. reflexivity. }
  split. { intros -> H. cbn [Z.eqb]. apply Rleb_true in H. rewrite H. destruct (Rleb cgn er); auto. }
  split.
  { intros ->. cbn [Z.eqb]. destruct (Rleb cgn er) eqn:C1; [intros _; apply Rleb_true; exact C1|].
    destruct (Rleb cgn ex); [discriminate|]. destruct (Rleb beta1 ex); [discriminate|].
    destruct (Rleb _ ac); [discriminate|]. destruct (lim <=? y_nmv st)%nat; discriminate. }
  split.
  { intros ->. cbn [Z.eqb]. destruct (Rleb cgn er) eqn:C1; [discriminate|].
    destruct (Rleb cgn ex) eqn:C2; [intros _; apply Rleb_true; exact C2|]. destruct (Rleb beta1 ex); [discriminate|].
    destruct (Rleb _ ac); [discriminate|]. destruct (lim <=? y_nmv st)%nat; discriminate. }
  intros ->. cbn [Z.eqb]. destruct (Rleb cgn er) eqn:C1; [discriminate|].
  destruct (Rleb cgn ex) eqn:C2; [discriminate|]. destruct (Rleb beta1 ex) eqn:C3; [intros _; apply Rleb_true; exact C3|].
  destruct (Rleb _ ac); [discriminate|]. destruct (lim <=? y_nmv st)%nat; discriminate.
Qed.

Lemma sy_live_top : forall j lim st, sy_live j st -> y_brk (@sy_top KK WW kw beta1 lim st) = false ->
  sy_live j (@sy_top KK WW kw beta1 lim st).
Proof.
  intros j lim st [L1 L2 L3 L4 L5 L6 L7] B. destruct (sy_top_vals lim st) as (_ & _ & _ & T1 & T2 & _).
  split; try assumption. intros J X. rewrite (T2); [exact (L6 J X)|]. rewrite (L6 J X). discriminate.
Qed.

(** A vanishing [beta] always ends the loop. *)
Lemma sy_live_beta : forall j lim st, sy_live j st -> y_brk (@sy_top KK WW kw beta1 lim st) = false ->
  0 < y_beta st.
Proof.
  intros j lim st L B. destruct (sl_ex _ _ L) as (V & u & c & e & I & _).
  destruct (sy_top_vals lim st) as (TC & _ & TA & T1 & T2 & T3 & T4 & _). cbv zeta in *.
  assert (I0 : y_istop (@sy_top KK WW kw beta1 lim st) = 0%Z).
  { rewrite T1 in B. apply Z.eqb_eq. destruct (_ =? 0)%Z; [reflexivity|discriminate]. }
  destruct (Z.eq_dec (y_istop st) 0) as [Z|NZ]; [|rewrite (T2 NZ) in I0; contradiction].
  destruct (Rtotal_order (y_beta st) 0) as [N|[Z0|P]]; [|exfalso|exact P].
  { exfalso. pose proof (si_be0 _ _ _ _ _ _ _ _ _ _ _ _ _ _ _ _ I). lra. }
  pose proof sy_eps_pos as EP.
  assert (TP : 0 < y_tnorm st).
  { destruct (sl_tn1 _ _ L) as [J|T]; [|exact T]. exfalso.
    assert (X : y_istop st = (-1)%Z) by (apply (sl_e _ _ L J); rewrite Z0; lra). rewrite Z in X. discriminate. }
  assert (AP : 0 < sq (y_tnorm st)) by (rewrite SQ by lra; apply sqrt_lt_R0; exact TP).
  assert (YP : 0 <= y_ynorm2 st).
  { rewrite <- (si_xx _ _ _ _ _ _ _ _ _ _ _ _ _ _ _ _ I). apply ip_pos. }
  assert (YS : 0 <= sq (y_ynorm2 st)) by (rewrite SQ by exact YP; apply sqrt_pos).
  set (dg := if Reqb (y_gbar st) 0 then _ else _) in *.
  assert (DN : Rabs dg <> 0).
  { apply Rabs_no_R0. unfold dg. destruct (Reqb (y_gbar st) 0) eqn:G; [nra|]. apply Reqb_false. exact G. }
  destruct T4 as [X|X]; [exact Z| |rewrite X in I0; discriminate|rewrite X in I0; discriminate].
  rewrite DV, Z0 by exact DN. replace (y_snprod st * beta1 * 0 / Rabs dg) with 0 by (field; exact DN).
  apply Rmult_le_pos; [|lra]. apply Rmult_le_pos; lra.
Qed.

Lemma sy_step : forall j lim (st st' : sy_st WW), sy_live j st ->
  @sy_body KK WW q kw beta1 lim st = Ok st' -> y_brk (@sy_top KK WW kw beta1 lim st) = false ->
  sy_live (S j) st' /\ y_brk st' = false.
Proof.
  intros j lim st st' L0 H B. pose proof (sy_live_beta _ _ _ L0 B) as BP.
  pose proof (sy_live_top _ _ _ L0 B) as L. unfold sy_body in H. rewrite B in H.
  change (0 < y_beta (@sy_top KK WW kw beta1 lim st)) in BP.
  set (t := @sy_top KK WW kw beta1 lim st) in *. clearbody t. clear L0 B st.
  destruct (sl_ex _ _ L) as (V & u & c & e & I & HD & HR2 & HR1). pose proof (sl_oldb _ _ L) as OB.
  unfold sy_lan, opmul in H. cbv beta iota zeta in H.
  set (v := vscale _ (y_y t)) in H.
  rewrite sy_shift_eq in H. unfold sy_prec in H. rewrite NP in H.
  set (u' := iscale (1 / y_beta t) (y_y t : iv E)).
  assert (Ev : v = u').
  { unfold v, u'. change (iscale (dv 1 (y_beta t)) (y_y t : iv E) = iscale (1 / y_beta t) (y_y t : iv E)).
    rewrite DV by lra. reflexivity. }
  rewrite Ev in H. clearbody v. clear Ev.
  set (p := @vsub KK WW (At u') _) in H.
  set (p0 := isub (At u') (iscale (y_beta t) u)).
  assert (Ep : p = p0).
  { unfold p, p0. change (isub (At u') (iscale (dv (y_beta t) (y_oldb t)) (y_r1 t : iv E)) = isub (At u') (iscale (y_beta t) u)).
    f_equal. rewrite HR1, DV by lra. apply ip_ext. intro z. ipx. field. lra. }
  rewrite Ep in H. clearbody p. clear Ep.
  set (al := @vdot KK WW u' p0) in H. change (@vdot KK WW u' p0) with (ip u' p0) in al.
  set (r2 := @vsub KK WW p0 _) in H. set (y' := isub p0 (iscale al u')).
  assert (Er : r2 = y').
  { unfold r2, y'. change (isub p0 (iscale (dv al (y_beta t)) (y_r2 t : iv E)) = isub p0 (iscale al u')).
    f_equal. rewrite (sl_r2 _ _ L), DV by lra. unfold u'. apply ip_ext. intro z. ipx. field. lra. }
  rewrite Er in H. clearbody r2. clear Er.
  assert (NN : @sltb KK (@vdot KK WW y' y') (@s0 KK) = false) by (apply Rltb_false, ip_pos).
  rewrite NN in H. clear NN.
  assert (Eb : @ssqrt KK (@vdot KK WW y' y') = inorm y') by (apply SQ, ip_pos).
  rewrite Eb in H. clear Eb. injection H as H.
  pose proof (ss_step At b beta1 SAt _ _ _ _ _ _ _ _ _ _ _ _ _ I BP) as MS.
  fold u' p0 in MS. change (ip u' p0) with al in MS. fold y' in MS. 
  set (be := y_beta t) in *. set (gb := y_gbar t) in *.
  set (ga := sqrt (gb * gb + be * be)) in *.
  assert (GA : 0 < ga) by (apply sqrt_lt_R0; nra).
  set (be' := inorm y') in *. clearbody al.
  assert (B'0 : 0 <= be') by apply inorm_pos.
  assert (GX : @ssqrt KK (@sadd KK (@smul KK (y_gbar t) (y_gbar t)) (@smul KK (y_beta t) (y_beta t))) = ga) by (change (sq (gb * gb + be * be) = ga); apply SQ; nra).
  assert (UX : sy_X st' = iadd (sy_X t) (iscale (y_rhs1 t / ga) (iadd (iscale (gb / ga) (sy_W t)) (iscale (be / ga) u')))).
  { rewrite <- H. unfold sy_X, sy_W. cbn [sy_upd y_x y_bstep]. rewrite GX.
    change (@smul KK) with Rmult. change (@sdiv KK) with dv. change (@sadd KK) with Rplus.
    change (@vadd KK WW) with (@iadd E). change (@vscale KK WW) with (@iscale E).
    rewrite !(DV _ ga) by lra. fold gb be. apply ip_ext. intro z. ipx. field. lra. }
  assert (UW : sy_W st' = isub (iscale (be / ga) (sy_W t)) (iscale (gb / ga) u')).
  { rewrite <- H. unfold sy_W. cbn [sy_upd y_w y_snprod]. rewrite GX.
    change (@smul KK) with Rmult. change (@sdiv KK) with dv.
    change (@vsub KK WW) with (@isub E). change (@vscale KK WW) with (@iscale E).
    rewrite !(DV _ ga) by lra. fold gb be. apply ip_ext. intro z. ipx. field. lra. }
  assert (UI : y_iters st' = if y_sit kw then y_iters t ++ [y_x st'] else y_iters t) by (rewrite <- H; reflexivity).
  assert (UF : (y_y st' : iv E) = y' /\ y_beta st' = be' /\ y_gbar st' = be / ga * (y_dbar t) - gb / ga * al /\
     y_snprod st' = y_snprod t * (be / ga) /\ y_rhs1 st' = y_rhs2 t - (gb / ga * y_dbar t + be / ga * al) * (y_rhs1 t / ga) /\
     y_ynorm2 st' = y_rhs1 t / ga * (y_rhs1 t / ga) + y_ynorm2 t /\
     y_dbar st' = - (gb / ga) * be' /\ y_rhs2 st' = - (be / ga * be') * (y_rhs1 t / ga) /\
     y_r1 st' = y_r2 t /\ y_r2 st' = y' /\ y_oldb st' = be /\
     y_tnorm st' = y_tnorm t + al * al + be * be + be' * be' /\ y_brk st' = false).
  { rewrite <- H. cbn [sy_upd y_y y_beta y_gbar y_snprod y_rhs1 y_ynorm2 y_dbar y_rhs2 y_r1 y_r2 y_oldb y_tnorm y_brk].
    rewrite GX.
    change (@smul KK) with Rmult. change (@sdiv KK) with dv. change (@sadd KK) with Rplus. change (@ssub KK) with Rminus.
    change (@sneg KK) with Ropp.
    rewrite !(DV _ ga) by lra. fold gb be.
    repeat split; reflexivity. }
  clear H GX. destruct UF as (U1 & U2 & U3 & U4 & U5 & U6 & U7 & U8 & U9 & U10 & U11 & U12 & U13).
  split; [|exact U13]. split.
  - exists (u :: V), u', (- (gb / ga)), (- (be / ga) * (y_rhs1 t / ga)). split; [|split; [|split]].
    + rewrite U1, UX, UW, U2, U3, U4, U5, U6, HD, HR2. exact MS.
    + rewrite U7, U2. reflexivity.
    + rewrite U8, U2. match goal with |- ?l = ?r => change (@eq R l r) end. ring.
    + rewrite U9, U11, (sl_r2 _ _ L). unfold u'. apply ip_ext. intro z. ipx. field. lra.
  - rewrite U11. exact BP.
  - rewrite U10, U1. reflexivity.
  - rewrite U12. pose proof (sl_tn _ _ L). nra.
  - right. rewrite U12. pose proof (sl_tn _ _ L). nra.
  - discriminate.
  - rewrite UI. pose proof (sl_it _ _ L) as IT. destruct (y_sit kw); [|exact IT].
    destruct IT as (zs & Z1 & Z2 & Z3). exists (zs ++ [y_x st' : iv E]). rewrite Z1. split; [symmetry; apply app_assoc|].
    split; [rewrite app_length, Z2; cbn; lia|]. intros i z Hi. destruct (lt_dec i (length zs)) as [Li|Li].
    + rewrite nth_error_app1 in Hi by exact Li. apply Z3. exact Hi.
    + rewrite nth_error_app2 in Hi by lia. destruct (i - length zs)%nat eqn:Ei; [|destruct n; discriminate].
      injection Hi as <-. exists (y_bstep st' / beta1). replace i with (S j) by lia.
      change (iadd (y_x st' : iv E) (iscale (y_bstep st' / beta1) b)) with (sy_X st').
      rewrite UX. apply (si_lq _ _ _ SAt _ _ _ _ _ _ _ _ _ _ _ _ _ MS).
Qed.

Hypothesis BN : beta1 = inorm b.
Hypothesis CB : y_check kw = true -> 0 <= q_cbrt q eps.

Lemma sy_init_live : forall cnt,
  exists st, @sy_first KK WW q kw (opmul (q_A q)) b b beta1 0%Z false
      (if y_sit kw then it0 ++ [(izero : iv E)] else it0) cnt = (st, false) /\ sy_live 0 st.
Proof.
  intro cnt. unfold sy_first, opmul. cbv beta iota zeta.
  set (v := @vscale KK WW _ b). set (u := iscale (1 / beta1) b).
  assert (Ev : v = u).
  { unfold v, u. change (iscale (dv 1 beta1) b = iscale (1 / beta1) b). rewrite DV by lra. reflexivity. }
  rewrite Ev. clearbody v. clear Ev.
  rewrite sy_shift_eq. unfold sy_prec. rewrite NP.
  assert (BB : ip b b = beta1 * beta1) by (rewrite BN; symmetry; apply inorm_sq).
  assert (U1 : ip u u = 1) by (unfold u; rewrite ip_scale, ip_scalel, BB; field; lra).
  assert (BU : b = iscale beta1 u) by (unfold u; apply ip_ext; intro z; ipx; field; lra).
  set (al := @vdot KK WW u (At u)). change (@vdot KK WW u (At u)) with (ip u (At u)) in al.
  set (y1 := @vsub KK WW (At u) _). set (y := isub (At u) (iscale al u)).
  assert (Ey : y1 = y).
  { unfold y1, y. change (isub (At u) (iscale (dv al beta1) b) = isub (At u) (iscale al u)). f_equal.
    rewrite DV by lra. rewrite BU at 1. apply ip_ext. intro z. ipx. field. lra. }
  rewrite Ey. clearbody y1. clear Ey.
  assert (YU : ip u y = 0) by (unfold y; rewrite ip_sub, ip_scale, U1; fold al; ring).
  set (y2 := @vsub KK WW y _).
  assert (Ey2 : y2 = y).
  { unfold y2. change (isub y (iscale (dv (ip u y) (ip u u)) u) = y). rewrite U1, YU, DV by lra.
    apply ip_ext. intro z. ipx. field. }
  rewrite Ey2. clearbody y2. clear Ey2.
  assert (CK : (if y_check kw
       then if sy_asym q (@vdot KK WW (q_A q u) (q_A q u)) (@vdot KK WW u (q_A q (q_A q u)))
            then (6%Z, true, (cnt + 1 + 1)%nat) else (0%Z, false, (cnt + 1 + 1)%nat)
       else (0%Z, false, (cnt + 1)%nat)) = (0%Z, false, (if y_check kw then cnt + 1 + 1 else cnt + 1)%nat)).
  { destruct (y_check kw) eqn:CKE; [|reflexivity].
    assert (SY : sy_asym q (@vdot KK WW (q_A q u) (q_A q u)) (@vdot KK WW u (q_A q (q_A q u))) = false).
    { unfold sy_asym. apply Rltb_false.
      change (Rabs (ip (q_A q u : iv E) (q_A q u) - ip u (q_A q (q_A q u))) <= (ip (q_A q u : iv E) (q_A q u) + eps) * q_cbrt q eps).
      rewrite (SA u (q_A q u)). rewrite Rminus_diag_eq by reflexivity. rewrite Rabs_R0.
      apply Rmult_le_pos; [|apply CB; reflexivity]. pose proof (ip_pos (q_A q u : iv E)). pose proof sy_eps_pos. lra. }
    rewrite SY. reflexivity. }
  rewrite CK. clear CK. cbv beta iota zeta.
  assert (NN : @sltb KK (@vdot KK WW y y) (@s0 KK) = false) by (apply Rltb_false, ip_pos).
  rewrite NN. clear NN. cbv beta iota zeta.
  assert (Eb : @ssqrt KK (@vdot KK WW y y) = inorm y) by (apply SQ, ip_pos).
  rewrite Eb. clear Eb. set (be := inorm y). 
  eexists. split; [reflexivity|].
  set (ct := if y_check kw then _ else _). clearbody ct.
  set (its := if y_sit kw then _ else _).
  set (is := if sleb _ _ then _ else _).
  split; cbn [y_y y_r1 y_r2 y_beta y_gbar y_snprod y_rhs1 y_ynorm2 y_dbar y_rhs2 y_oldb y_tnorm y_istop y_iters].
  - exists [], u, 1, 0. unfold sy_X, sy_W. cbn [y_x y_w y_bstep y_snprod].
    assert (X0 : iadd (izero : iv E) (iscale (0 / beta1) b) = izero) by (apply ip_ext; intro z; ipx; field; lra).
    assert (W0 : iadd (izero : iv E) (iscale (1 / beta1) b) = u) by (unfold u; veq).
    change (@vzeros KK WW (@vlen KK WW b)) with (izero : iv E). change (@s0 KK) with 0. change (@s1 KK) with 1.
    rewrite X0, W0.
    assert (KU : kry At b 1 u) by (unfold u; apply kry_scale; [exact SAt|apply kry_b; exact SAt]).
    assert (DE : forall z, kry At b 1 z -> exists a, z = iscale a u).
    { intros z (a & z' & Z & ->). cbn in Z. subst z'. exists (a * beta1). rewrite (lin_zero At LAt).
      rewrite BU at 1. veq. }
    assert (AU : isub (At u) y = iscale al u) by (unfold y; veq).
    split; [|split; [|split]].
    + split.
      * reflexivity. * exact U1. * intros w []. * intros w []. * constructor. * reflexivity. * exact YU.
      * intros w []. * intros w [].
      * rewrite AU. apply dp_scale, dp_in. left. reflexivity.
      * rewrite BU. apply dp_scale, dp_in. left. reflexivity.
      * intros z ->. apply dp_zero.
      * exact KU.
      * rewrite AU. apply kry_scale; [exact SAt|exact KU].
      * intros z Hz. destruct (DE z Hz) as [a ->]. exists a, izero. split; [reflexivity|]. veq.
      * unfold y. veq.
      * rewrite (lin_zero At LAt). rewrite BU at 1. veq.
      * ring.
      * lra.
      * exact U1.
      * exact KU.
      * exists izero. split; [reflexivity|]. symmetry. apply (lin_zero At LAt).
      * apply ip_zerol.
      * apply ip_zero.
      * exists izero. split; [reflexivity|]. rewrite (lin_zero At LAt). unfold y. veq.
      * exists izero. split; [reflexivity|]. rewrite (lin_zero At LAt). veq.
      * intros d Hd Du _. destruct (DE d Hd) as [a ->]. rewrite ip_scalel, U1 in Du.
        assert (a = 0) as -> by lra. veq.
    + symmetry. apply Rmult_1_l.
    + symmetry. apply Rmult_0_l.
    + exact BU.
  - exact B1.
  - reflexivity.
  - change (0 <= al * al + be * be). nra.
  - left. reflexivity.
  - intros _ X. unfold is. change (@sleb KK be eps) with (Rleb be eps). apply Rleb_true in X.
    change (@sleb KK) with Rleb. rewrite X. reflexivity.
  - unfold its. destruct (y_sit kw); [|reflexivity]. exists [izero]. split; [reflexivity|]. split; [reflexivity|].
    intros [|i] z Hi; [|destruct i; discriminate]. injection Hi as <-. exists 0. split.
    + exists izero. split; [reflexivity|]. rewrite (lin_zero At LAt). veq.
    + intros z ->. apply ip_zero.
Qed.

(** The state when the loop is left. *)
Definition sy_left (lim : nat) (st : sy_st WW) : Prop :=
  (y_brk st = false /\ sy_live (y_itn st) st) \/
  (exists s0, sy_live (y_itn s0) s0 /\ sy_run kw lim (length it0 + stored kw 1) s0 /\
     st = @sy_top KK WW kw beta1 lim s0 /\ y_brk st = true).

Lemma sy_loop : forall lim cnt st st', sy_live 0 st -> y_itn st = 0%nat ->
  sy_flow kw lim cnt (length it0 + stored kw 1) st ->
  forall fuel, while fuel (sy_cond lim) (@sy_body KK WW q kw beta1 lim) st = Ok st' ->
  sy_left lim st' /\ sy_flow kw lim cnt (length it0 + stored kw 1) st' /\ sy_cond lim st' = false.
Proof.
  intros lim cnt st st' L I0 F fuel H.
  assert (RB : y_brk st = false).
  { destruct F as [_ [F|[F|F]]]; [apply F| |]; destruct F as (_ & F & _); lia. }
  apply while_inv with (I := fun s => sy_left lim s /\ sy_flow kw lim cnt (length it0 + stored kw 1) s) in H.
  - destruct H as [[H1 H2] H3]. auto.
  - intros s s' [LS FS] C HB. split; [|eapply sy_flow_step; eassumption].
    destruct LS as [[B LS]|(s0 & _ & _ & _ & B)]; [|unfold sy_cond in C; rewrite B in C; discriminate].
    assert (RN : sy_run kw lim (length it0 + stored kw 1) s).
    { destruct FS as [_ [FS|[FS|FS]]]; [exact FS| |]; destruct FS as [FS _]; congruence. }
    destruct (y_brk (@sy_top KK WW kw beta1 lim s)) eqn:BT.
    + right. exists s. unfold sy_body in HB. rewrite BT in HB. injection HB as <-. auto.
    + left. destruct (sy_step _ _ _ _ LS HB BT) as [LS' B']. split; [exact B'|].
      replace (y_itn s') with (S (y_itn s)); [exact LS'|].
      clear - HB. unfold sy_body in HB. remember (@sy_top KK WW kw beta1 lim s) as t eqn:Et.
      assert (T3 : y_itn t = S (y_itn s)) by (rewrite Et; cbn; lia).
      clear Et. destruct (y_brk t); [injection HB as <-; congruence|].
      destruct (sy_lan q kw t) as [[[[[v al] r2] y] be] ct]. destruct (sltb be _); injection HB as <-; symmetry; exact T3.
  - split; [|exact F]. left. split; [exact RB|]. rewrite I0. exact L.
Qed.

(** What is returned when a test ends the loop. *)
Lemma sy_met_exact : forall lim (s0 : sy_st WW) lqn dg (x : iv E), sy_live (y_itn s0) s0 ->
  sy_run kw lim (length it0 + stored kw 1) s0 ->
  let t := @sy_top KK WW kw beta1 lim s0 in
  y_lqdiag t = Some (lqn, dg) -> x = @sy_point KK WW q b beta1 lqn dg t ->
  let k := y_itn t in
  exists xl, lq_point At b (k - 1) xl /\
    (forall xc, cg_point At b k xc ->
       (x = xl \/ x = xc) /\ res x <= res xl /\ res x <= res xc /\
       (y_istop t = 1%Z -> res x <= y_rtol kw * y_anorm t * inorm xl) /\
       (y_istop t = 2%Z -> res x <= eps * y_anorm t * inorm xl)) /\
    (y_istop t = 3%Z -> inorm b <= eps * y_anorm t * inorm xl) /\
    ((forall z, kry At b k z -> kry At b k (At z)) \/ dim_le E k ->
     (forall z, kry At b k z -> At z = izero -> z = izero) -> At x = b) /\
    (forall n, dim_le E n -> (k <= n)%nat).
Proof.
  intros lim s0 lqn dg x L RN t ELQ EX k.
  assert (Ek : k = S (y_itn s0)) by (unfold k, t; cbn; lia).
  assert (Ek1 : (k - 1)%nat = y_itn s0) by lia. rewrite Ek1.
  destruct (sl_ex _ _ L) as (V & u & c & e & I & HD & HR2 & HR1).
  destruct (sy_top_vals lim s0) as (TC & TL & TA & T1 & T2 & T3 & T4 & T5 & T6 & T7). cbv zeta in *. fold t in TC, TL, TA, T1, T2, T3, T4, T5, T6, T7.
  assert (ELQ' : Some (sq (y_rhs1 s0 * y_rhs1 s0 + y_rhs2 s0 * y_rhs2 s0),
       if Reqb (y_gbar s0) 0 then sq (y_tnorm s0) * eps else y_gbar s0) = Some (lqn, dg)) by (etransitivity; [symmetry; exact TL|exact ELQ]).
  assert (EL : sq (y_rhs1 s0 * y_rhs1 s0 + y_rhs2 s0 * y_rhs2 s0) = lqn)
    by exact (f_equal (fun o => match o with Some (l, _) => l | None => 0 end) ELQ').
  assert (ED : (if Reqb (y_gbar s0) 0 then sq (y_tnorm s0) * eps else y_gbar s0) = dg)
    by exact (f_equal (fun o => match o with Some (_, d) => d | None => 0 end) ELQ').
  clear TL ELQ ELQ'.
  set (xl := sy_X s0). set (gb := y_gbar s0) in *. set (be := y_beta s0) in *.
  assert (YN : sq (y_ynorm2 s0) = inorm xl).
  { rewrite <- (si_xx _ _ _ _ _ _ _ _ _ _ _ _ _ _ _ _ I). apply SQ, ip_pos. }
  assert (LQ : lqn = res xl).
  { rewrite <- EL, HR2. unfold xl. rewrite (si_lqnorm _ _ _ _ _ _ _ _ _ _ _ _ _ _ _ _ I). apply SQ.
    fold be. nra. }
  set (xg := iadd xl (iscale (y_rhs1 s0 / dg) (sy_W s0))).
  assert (PT : x = if Rltb (y_cgnorm t) lqn then iadd xl (iscale (dv (y_rhs1 s0) dg) (sy_W s0)) else xl).
  { rewrite EX. unfold sy_point, sy_prec. rewrite NP. change (@sltb KK (y_cgnorm t) lqn) with (Rltb (y_cgnorm t) lqn).
    destruct (Rltb (y_cgnorm t) lqn).
    - change (iadd (iadd (y_x s0 : iv E) (iscale (dv (y_rhs1 s0) dg) (y_w s0 : iv E)))
        (iscale (dv (y_snprod s0 * dv (y_rhs1 s0) dg + y_bstep s0) beta1) b) =
        iadd (sy_X s0) (iscale (dv (y_rhs1 s0) dg) (sy_W s0))).
      unfold sy_X, sy_W. rewrite (DV _ beta1) by lra. apply ip_ext. intro z. ipx. field. lra.
    - change (iadd (y_x s0 : iv E) (iscale (dv (y_bstep s0) beta1) b) = sy_X s0).
      unfold sy_X. rewrite (DV _ beta1) by lra. reflexivity. }
  assert (SI0 : y_istop t = 1%Z \/ y_istop t = 2%Z \/ y_istop t = 3%Z -> y_istop s0 = 0%Z).
  { intro X. destruct RN as (_ & _ & _ & [Z|[Z _]] & _); [exact Z|]. rewrite T2, Z in X by (rewrite Z; discriminate).
    destruct X as [X|[X|X]]; discriminate. }
  assert (GOOD : gb <> 0 -> (x = xl \/ x = xg) /\ res x <= res xl /\ res x <= res xg /\ dg = gb /\
     y_cgnorm t = res xg).
  { intro G. assert (Dg : dg = gb).
    { rewrite <- ED. destruct (Reqb gb 0) eqn:Z; [apply Reqb_true in Z; contradiction|reflexivity]. }
    assert (CG : y_cgnorm t = res xg).
    { rewrite TC. rewrite ED, Dg, DV by (apply Rabs_no_R0; exact G).
      unfold xg, xl. rewrite Dg. symmetry. apply (si_cgnorm _ _ _ SAt B1 _ _ _ _ _ _ _ _ _ _ _ _ _ I G). }
    rewrite (DV _ dg) in PT by (rewrite Dg; exact G). fold xg in PT. rewrite PT, CG, LQ.
    destruct (Rltb (res xg) (res xl)) eqn:LT.
    - apply Rltb_true in LT. split; [right; reflexivity|]. split; [lra|]. split; [lra|]. split; [exact Dg|reflexivity].
    - apply Rltb_false in LT. split; [left; reflexivity|]. split; [lra|]. split; [lra|]. split; [exact Dg|reflexivity]. }
  exists xl. split; [apply (si_lq _ _ _ SAt _ _ _ _ _ _ _ _ _ _ _ _ _ I)|]. split; [|split; [|split]].
  - intros xc CG. rewrite Ek in CG. pose proof (si_cg_exists _ _ _ SAt B1 _ _ _ _ _ _ _ _ _ _ _ _ _ I xc CG) as G. fold gb in G.
    destruct (GOOD G) as (G1 & G2 & G3 & Dg & CN).
    assert (EC : xc = xg).
    { unfold xg. rewrite Dg. apply (si_cg_unique _ _ _ SAt _ _ _ _ _ _ _ _ _ _ _ _ _ I G xc CG). }
    rewrite EC. split; [exact G1|]. split; [exact G2|]. split; [exact G3|]. rewrite TA. split; intro IS.
    + eapply Rle_trans; [exact G3|]. rewrite <- CN. rewrite TC.
      rewrite <- YN. pose proof (T5 (SI0 (or_introl IS)) IS) as Q. lra.
    + eapply Rle_trans; [exact G3|]. rewrite <- CN. rewrite TC.
      rewrite <- YN. pose proof (T6 (SI0 (or_intror (or_introl IS))) IS) as Q. lra.
  - intro IS. rewrite TA, <- YN, <- BN. pose proof (T7 (SI0 (or_intror (or_intror IS))) IS) as Q. lra.
  - intros D INJ. rewrite Ek in D, INJ.
    assert (Y0 : ip (y_y s0 : iv E) (y_y s0) = 0).
    { destruct D as [D|D].
      - apply (si_k _ _ _ _ _ _ _ _ _ _ _ _ _ _ _ _ I).
        assert (Q : (y_y s0 : iv E) = isub (At u) (isub (At u) (y_y s0 : iv E))) by veq. rewrite Q.
        apply kry_sub; [exact SAt|apply D, (si_ku _ _ _ _ _ _ _ _ _ _ _ _ _ _ _ _ I)|apply (si_kAu _ _ _ _ _ _ _ _ _ _ _ _ _ _ _ _ I)].
      - destruct (Req_dec (ip (y_y s0 : iv E) (y_y s0)) 0) as [Z|NZ]; [exact Z|exfalso].
        assert (LE : (length ((y_y s0 : iv E) :: u :: V) <= S (y_itn s0))%nat).
        { apply D.
          - constructor; [|constructor; [|apply (si_Vo _ _ _ _ _ _ _ _ _ _ _ _ _ _ _ _ I)]].
            + constructor; [rewrite ip_sym; apply (si_yu _ _ _ _ _ _ _ _ _ _ _ _ _ _ _ _ I)|].
              apply Forall_forall. intros v Hv. rewrite ip_sym. apply (si_yV _ _ _ _ _ _ _ _ _ _ _ _ _ _ _ _ I v Hv).
            + apply Forall_forall. intros v Hv. rewrite ip_sym. apply (si_uV _ _ _ _ _ _ _ _ _ _ _ _ _ _ _ _ I v Hv).
          - constructor; [intro Z; apply NZ; rewrite Z; apply ip_zero|].
            constructor; [apply unit_nz, (si_uu _ _ _ _ _ _ _ _ _ _ _ _ _ _ _ _ I)|].
            apply Forall_forall. intros v Hv. apply unit_nz, (si_V1 _ _ _ _ _ _ _ _ _ _ _ _ _ _ _ _ I v Hv). }
        cbn in LE. rewrite (si_len _ _ _ _ _ _ _ _ _ _ _ _ _ _ _ _ I) in LE. lia. }
    assert (B0 : be = 0).
    { rewrite (si_be _ _ _ _ _ _ _ _ _ _ _ _ _ _ _ _ I). change (sqrt (ip (y_y s0 : iv E) (y_y s0)) = 0). rewrite Y0. apply sqrt_0. }
    pose proof (si_break _ _ _ _ _ _ _ _ _ _ _ _ _ _ _ _ I B0 INJ) as G. fold gb in G.
    destruct (GOOD G) as (_ & _ & G3 & _ & CN).
    assert (Z : res x <= 0).
    { eapply Rle_trans; [exact G3|]. rewrite <- CN, TC, B0.
      rewrite ED. assert (Dn : Rabs dg <> 0).
      { apply Rabs_no_R0. rewrite <- ED. destruct (Reqb gb 0) eqn:Z; [apply Reqb_true in Z; contradiction|exact G]. }
      rewrite DV by exact Dn. right. field. exact Dn. }
    pose proof (inorm_pos (isub b (At x))). assert (N : res x = 0) by lra.
    apply inorm_zero in N. apply ip_ext. intro z. assert (Q : ip z (isub b (At x)) = 0) by (rewrite N; apply ip_zero).
    rewrite ip_sub in Q. lra.
  - intros n D. rewrite Ek.
    assert (LE : (length (u :: V) <= n)%nat).
    { apply D.
      - constructor; [|apply (si_Vo _ _ _ _ _ _ _ _ _ _ _ _ _ _ _ _ I)].
        apply Forall_forall. intros v Hv. rewrite ip_sym. apply (si_uV _ _ _ _ _ _ _ _ _ _ _ _ _ _ _ _ I v Hv).
      - constructor; [apply unit_nz, (si_uu _ _ _ _ _ _ _ _ _ _ _ _ _ _ _ _ I)|].
        apply Forall_forall. intros v Hv. apply unit_nz, (si_V1 _ _ _ _ _ _ _ _ _ _ _ _ _ _ _ _ I v Hv). }
    cbn in LE. rewrite (si_len _ _ _ _ _ _ _ _ _ _ _ _ _ _ _ _ I) in LE. exact LE.
Qed.
End Exact.
