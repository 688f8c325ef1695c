(** * Exact arithmetic: one LSMR iteration, as mathematics.

    LSMR runs the same bidiagonalisation as LSQR.  The invariant carries the LSQR iterate [xl] as a
    ghost: LSMR's residual is LSQR's plus a multiple of a unit vector [(gu, ge)] orthogonal to it. *)
From Coq Require Import List ZArith Reals Lia Lra Bool.
From Verif Require Import Base Num MinresProof GkProof LsqrMath.
Import ListNotations.
Local Open Scope R_scope.

Section Lsmr.
Context {E1 E2 : IPS}.
Variables (A : iv E1 -> iv E2) (At : iv E2 -> iv E1).
Hypothesis AD : adjoint A At.
Let LA : lin A := adjoint_lin A At AD.
Let LAt : lin At := adjoint_lin_t A At AD.
Variables (b : iv E2) (d : R).
Local Notation LI := (LI A At b d).
Local Notation dres2 := (dres2 A b d).
Local Notation nres := (nres A At b d).
Local Notation AA := (AtA A At).

(** The operator of the damped normal equations. *)
Definition Nop (z : iv E1) : iv E1 := iadd (At (A z)) (iscale (d * d) z).

Lemma Nop_add : forall y z, Nop (iadd y z) = iadd (Nop y) (Nop z).
Proof. intros. unfold Nop. rewrite (lin_add A LA), (lin_add At LAt). veq. Qed.
Lemma Nop_scale : forall a z, Nop (iscale a z) = iscale a (Nop z).
Proof. intros. unfold Nop. rewrite (lin_scale A LA), (lin_scale At LAt). veq. Qed.
Lemma Nop_sub : forall y z, Nop (isub y z) = isub (Nop y) (Nop z).
Proof. intros. unfold Nop. rewrite (lin_sub A LA), (lin_sub At LAt). veq. Qed.
Lemma Nop_ip : forall y z, ip y (Nop z) = ip (A y) (A z) + d * d * ip y z.
Proof. intros. unfold Nop. ipx. rewrite (ip_At A At AD). reflexivity. Qed.
Lemma Nop_sym : forall y z, ip y (Nop z) = ip (Nop y) z.
Proof. intros. rewrite (ip_sym (Nop y)), !Nop_ip, (ip_sym y z), (ip_sym (A y)). reflexivity. Qed.
Lemma nres_Nop : forall z, nres z = isub (At b) (Nop z).
Proof. intros. unfold LsqrMath.nres, Nop. rewrite (lin_sub At LAt). veq. Qed.
Lemma nres_step : forall y z, nres (iadd y z) = isub (nres y) (Nop z).
Proof. intros. rewrite !nres_Nop, Nop_add. veq. Qed.

Lemma li_flip : forall k U V u v al x w tu te su se rb pb res2 xx cs2 zs,
  LI k U V u v al x w tu te su se rb pb res2 xx cs2 zs ->
  LI k U V u v al x w (ineg tu) (ineg te) su se (- rb) (- pb) res2 xx cs2 zs.
Proof.
  intros k U V u v al x w tu te su se rb pb res2 xx cs2 zs [H1 H2 H3 H4 H5 H6 H7 H8 H9 H10 H11 H12 H13 H14 H15 H16
    H17 H18 H19 H20 H21 H22 H23 H24 H25 H26 H27 H28 H29].
  split; try assumption.
  - apply dp_scale. exact H9.
  - apply dp_scale. exact H10.
  - rewrite H15. veq.
  - rewrite H16. veq.
  - ipx. lra.
  - ipx. lra.
  - rewrite H20. veq.
  - rewrite H21. veq.
  - unfold ineg. rewrite (lin_scale At LAt). apply ip_ext. intro z. pose proof (f_equal (ip z) H22) as Z. ipx_in Z. ipx. lra.
  - lra.
Qed.

Lemma li_start0 : forall u v be al, 0 < be -> 0 < al -> ip u u = 1 -> ip v v = 1 ->
  b = iscale be u -> At u = iscale al v ->
  LI 0 [] [] u v al izero v u izero izero izero al be 0 0 (-1) 0.
Proof.
  intros u v be al HB HA U1 V1 EB EA.
  pose proof (sym_AtA A At AD) as LLL.
  assert (B0 : forall z, ip z (At b) = be * al * ip z v).
  { intro z. rewrite EB, (lin_scale At LAt), EA. ipx. ring. }
  assert (KV : kry AA (At b) 1 v).
  { exists (/ (be * al)), izero. split; [reflexivity|]. unfold AtA. rewrite (lin_zero A LA), (lin_zero At LAt).
    apply ip_ext. intro z. ipx. rewrite B0. field. split; lra. }
  assert (A0 : A izero = izero) by apply (lin_zero A LA).
  assert (T0 : At izero = izero) by apply (lin_zero At LAt).
  assert (Z0 : iadd (@izero E1) (iscale 0 v) = izero) by veq.
  split; try (apply dp_zero); try reflexivity.
  - apply gk_start; assumption.
  - intros z ->. apply dp_zero.
  - exact KV.
  - exact KV.
  - rewrite EA. apply kry_scale; try exact LLL. exact KV.
  - apply dp_in. left. reflexivity.
  - apply dp_in. left. reflexivity.
  - apply ip_ext. intro z. ipx. ring.
  - apply ip_ext. intro z. ipx. ring.
  - ipx. rewrite U1. ring.
  - ipx. ring.
  - ipx. ring.
  - rewrite A0, EB. apply ip_ext. intro z. ipx. ring.
  - apply ip_ext. intro z. ipx. ring.
  - rewrite EA. apply ip_ext. intro z. ipx. ring.
  - rewrite T0. apply ip_ext. intro z. ipx. ring.
  - lra.
  - rewrite Z0. apply dp_zero.
  - rewrite Z0. apply ip_zero.
  - rewrite Z0. apply ip_zerol.
  - rewrite V1. ring.
Qed.

Record MI (k : nat) (U : list (iv E2)) (V : list (iv E1)) (u : iv E2) (v : iv E1) (al : R)
  (xl h : iv E1) (tu : iv E2) (te : iv E1) (su : iv E2) (se : iv E1) (rb pb res2 xx cs2 zs : R)
  (x hb p q : iv E1) (gu : iv E2) (ge : iv E1) (rho rhob cb sb zb rhod X : R) : Prop := {
  mi_li : LI k U V u v al xl h tu te su se rb pb res2 xx cs2 zs;
  mi_vh : ip v h = 1;
  mi_x : nres x = iscale zb q;
  mi_hb : Nop hb = iscale (rho * rhob) p;
  mi_v : v = iadd (iscale sb p) (iscale cb q);
  mi_qq : ip q q = 1;
  mi_qd : dp (v :: V) q;
  mi_qN : forall z, dp V z -> ip q (Nop z) = 0;
  mi_xd : dp V x; mi_hd : dp V hb;
  mi_kx : kry AA (At b) k x; mi_kh : kry AA (At b) k hb;
  mi_gu : iscale rhod (A hb) = iscale (rho * rhob) gu;
  mi_ge : iscale (rhod * d) hb = iscale (rho * rhob) ge;
  mi_g1 : sb = 0 \/ ip gu gu + ip ge ge = 1;
  mi_xu : isub (A xl) (A x) = iscale X gu;
  mi_xe : iscale d (isub xl x) = iscale X ge;
  mi_X : X * rhod = - (pb * rb * sb);
  mi_zb : zb = pb * rb * cb;
  mi_rho : 0 < rho; mi_rhob : 0 < rhob; mi_cb : 0 < cb; mi_rhod : 0 < rhod }.

Lemma mi_start : forall u v be al, 0 < be -> 0 < al -> ip u u = 1 -> ip v v = 1 ->
  b = iscale be u -> At u = iscale al v ->
  MI 0 [] [] u v al izero v u izero izero izero al be 0 0 (-1) 0 izero izero izero v izero izero 1 1 1 0 (al * be) 1 0.
Proof.
  intros u v be al HB HA U1 V1 EB EA.
  pose proof (li_start0 u v be al HB HA U1 V1 EB EA) as L.
  assert (N0 : nres izero = At b).
  { unfold LsqrMath.nres. rewrite (lin_zero A LA). apply ip_ext. intro z. ipx. rewrite !(ip_At A At AD). ipx. ring. }
  split; try exact L; try lra; try (apply dp_zero); try reflexivity.
  - rewrite N0, EB, (lin_scale At LAt), EA. veq.
  - unfold Nop. rewrite (lin_zero A LA), (lin_zero At LAt). veq.
  - veq.
  - apply dp_in. left. reflexivity.
  - intros z D. unfold Nop. assert (Z : z = izero).
    { apply ip_def. apply D. intros t []. }
    rewrite Z, (lin_zero A LA), (lin_zero At LAt). ipx. ring.
  - rewrite (lin_zero A LA). veq.
  - veq.
  - rewrite (lin_zero A LA). veq.
  - veq.
Qed.

Section Step.
Context {k : nat} {U : list (iv E2)} {V : list (iv E1)} {u : iv E2} {v : iv E1} {al : R}
  {xl h : iv E1} {tu : iv E2} {te : iv E1} {su : iv E2} {se : iv E1} {rb pb res2 xx cs2 zs : R}
  {x hb p q : iv E1} {gu : iv E2} {ge : iv E1} {rho rhob cb sb zb rhod X : R}.
Hypothesis M : MI k U V u v al xl h tu te su se rb pb res2 xx cs2 zs x hb p q gu ge rho rhob cb sb zb rhod X.
Let I : LI k U V u v al xl h tu te su se rb pb res2 xx cs2 zs.
Proof. exact (mi_li _ _ _ _ _ _ _ _ _ _ _ _ _ _ _ _ _ _ _ _ _ _ _ _ _ _ _ _ _ _ _ M). Qed.
Let G : GK A At U V u v al.
Proof. exact (li_gk _ _ _ _ _ _ _ _ _ _ _ _ _ _ _ _ _ _ _ _ _ _ I). Qed.

Let y := isub (A v) (iscale al u).
(** [rho1] is the new [rho]; [th] is [thetanew]. *)
Variables (be r1 cs1 sn1 rho1 c s : R) (th : R) (v' : iv E1).
Hypothesis Hbe : be * be = ip y y.
Hypothesis Hc1 : cs1 * r1 = rb.
Hypothesis Hs1 : sn1 * r1 = d.
Hypothesis H1 : sn1 * sn1 = 1 - cs1 * cs1.
Hypothesis Hc : c * rho1 = r1.
Hypothesis Hs : s * rho1 = be.
Hypothesis H2 : s * s = 1 - c * c.
Hypothesis Hr : 0 < rho1.
Hypothesis Hy : At y = iadd (iscale (be * be) v) (iscale (rho1 * th) v').
Hypothesis Hv' : forall z, dp (v :: V) z -> th * ip z v' = 0.
(** The second rotation. *)
Variables (cb' sb' rhob' : R).
Hypothesis Hcb : cb' * rhob' = cb * rho1.
Hypothesis Hsb : sb' * rhob' = th.
Hypothesis H3 : sb' * sb' = 1 - cb' * cb'.
Hypothesis Hrb' : 0 < rhob'.
(** The rotation behind the residual estimate. *)
Variables (ct st rt : R).
Hypothesis Hct : ct * rt = rhod.
Hypothesis Hst : st * rt = sb * rho1.
Hypothesis H4 : st * st = 1 - ct * ct.
Hypothesis Hrt : 0 < rt.

Let f1 := sb * rho1 * rho1 / (rho * rhob).
Let hb' := isub h (iscale f1 hb).
Let z1 := cb' * zb.
Let f2 := z1 / (rho1 * rhob').
Let x' := iadd x (iscale f2 hb').
Let p' := iadd (iscale cb' q) (iscale sb' v').
Let q' := isub (iscale cb' v') (iscale sb' q).
Let rhod' := ct * rhob'.
Let bh := c * (cs1 * pb).
Let xl' := iadd xl (iscale (bh / rho1) h).
Let gu' := isub (iscale (ct / rho1) (A h)) (iscale st gu).
Let ge' := isub (iscale (ct / rho1 * d) h) (iscale st ge).
Let X' := - st * X + ct * bh - z1 / rhod'.

Let rho0 : 0 < rho := mi_rho _ _ _ _ _ _ _ _ _ _ _ _ _ _ _ _ _ _ _ _ _ _ _ _ _ _ _ _ _ _ _ M.
Let rhob0 : 0 < rhob := mi_rhob _ _ _ _ _ _ _ _ _ _ _ _ _ _ _ _ _ _ _ _ _ _ _ _ _ _ _ _ _ _ _ M.
Let cb0 : 0 < cb := mi_cb _ _ _ _ _ _ _ _ _ _ _ _ _ _ _ _ _ _ _ _ _ _ _ _ _ _ _ _ _ _ _ M.
Let rhod0 : 0 < rhod := mi_rhod _ _ _ _ _ _ _ _ _ _ _ _ _ _ _ _ _ _ _ _ _ _ _ _ _ _ _ _ _ _ _ M.

Lemma mm_cb' : 0 < cb'.
Proof. apply Rmult_lt_reg_r with rhob'; [exact Hrb'|]. rewrite Hcb. nra. Qed.
Lemma mm_ct : 0 < ct.
Proof. apply Rmult_lt_reg_r with rt; [exact Hrt|]. rewrite Hct. lra. Qed.
Lemma mm_rhod' : 0 < rhod'.
Proof. unfold rhod'. apply Rmult_lt_0_compat; [exact mm_ct|exact Hrb']. Qed.

Lemma mm_rho2 : rho1 * rho1 = rb * rb + d * d + be * be.
Proof. rewrite <- Hc1, <- Hs1, <- Hs, <- Hc. ring [H1 H2]. Qed.

Lemma mm_Nh : Nop h = iadd (iscale (rho1 * rho1) v) (iscale (rho1 * th) v').
Proof.
  unfold Nop. replace (iscale (d * d) h) with (iscale d (iscale d h)) by veq.
  rewrite (li_Aw _ _ _ _ _ _ _ _ _ _ _ _ _ _ _ _ _ _ _ _ _ _ I), (li_dw _ _ _ _ _ _ _ _ _ _ _ _ _ _ _ _ _ _ _ _ _ _ I).
  fold y. rewrite (lin_add At LAt), (lin_scale At LAt), Hy, mm_rho2.
  apply ip_ext. intro z. pose proof (f_equal (ip z) (li_Att _ _ _ _ _ _ _ _ _ _ _ _ _ _ _ _ _ _ _ _ _ _ I)) as T. ipx_in T. ipx.
  replace (ip z (At tu)) with (rb * ip z v - d * ip z te) by lra. ring.
Qed.

Lemma mm_dpu : forall z, dp V z -> dp (v :: V) z.
Proof. intros z H. apply (dp_weak V); [exact H|]. intros t Ht. right. exact Ht. Qed.
Lemma mm_dN : forall z, dp V z -> dp (v :: V) (Nop z).
Proof.
  intros z H. unfold Nop. apply dp_add; [|apply dp_scale, mm_dpu, H].
  apply (gk_At_dp A At AD U V u v al _ G), (gk_A_dp A At AD U V u v al z G H).
Qed.

(** [h] is [N]-orthogonal to the earlier directions. *)
Lemma mm_hN : forall z, dp V z -> ip z (Nop h) = 0.
Proof.
  intros z H. rewrite mm_Nh. ipx. rewrite (gk_v_dp A At G z H).
  pose proof (Hv' z (mm_dpu z H)). replace (rho1 * th * ip z v') with (rho1 * (th * ip z v')) by ring. rewrite H0. ring.
Qed.
Lemma mm_hh : ip h (Nop h) = rho1 * rho1.
Proof.
  rewrite mm_Nh. ipx. rewrite (ip_sym h v), (mi_vh _ _ _ _ _ _ _ _ _ _ _ _ _ _ _ _ _ _ _ _ _ _ _ _ _ _ _ _ _ _ _ M).
  pose proof (Hv' h (li_w _ _ _ _ _ _ _ _ _ _ _ _ _ _ _ _ _ _ _ _ _ _ I)) as E.
  replace (rho1 * th * ip h v') with (rho1 * (th * ip h v')) by ring. rewrite E. ring.
Qed.

Lemma mm_Nhb : Nop hb' = iscale (rho1 * rhob') p'.
Proof.
  unfold hb', p', f1. rewrite Nop_sub, Nop_scale, mm_Nh, (mi_hb _ _ _ _ _ _ _ _ _ _ _ _ _ _ _ _ _ _ _ _ _ _ _ _ _ _ _ _ _ _ _ M).
  apply ip_ext. intro z. pose proof (f_equal (ip z) (mi_v _ _ _ _ _ _ _ _ _ _ _ _ _ _ _ _ _ _ _ _ _ _ _ _ _ _ _ _ _ _ _ M)) as E. ipx_in E. ipx. rewrite E.
  transitivity (rho1 * (cb * rho1) * ip z q + rho1 * th * ip z v'); [field; lra|].
  rewrite <- Hcb, <- Hsb. ring.
Qed.

Lemma mm_nres : nres x' = iscale (- sb' * zb) q'.
Proof.
  unfold x'. rewrite nres_step, (mi_x _ _ _ _ _ _ _ _ _ _ _ _ _ _ _ _ _ _ _ _ _ _ _ _ _ _ _ _ _ _ _ M), Nop_scale, mm_Nhb.
  unfold p', q', f2, z1. apply ip_ext. intro z. ipx.
  transitivity (zb * ip z q - cb' * zb * (cb' * ip z q + sb' * ip z v')); [field; lra|]. ring [H3].
Qed.

Lemma mm_dead : th = 0 -> sb' = 0.
Proof. intro Z. rewrite Z in Hsb. apply Rmult_integral in Hsb as [Q|Q]; [exact Q|lra]. Qed.

Lemma mm_vhb : ip v hb' = 1.
Proof.
  unfold hb'. ipx. rewrite (mi_vh _ _ _ _ _ _ _ _ _ _ _ _ _ _ _ _ _ _ _ _ _ _ _ _ _ _ _ _ _ _ _ M), (ip_sym v hb).
  rewrite (gk_v_dp A At G hb (mi_hd _ _ _ _ _ _ _ _ _ _ _ _ _ _ _ _ _ _ _ _ _ _ _ _ _ _ _ _ _ _ _ M)). ring.
Qed.
Lemma mm_hbd : dp (v :: V) hb'.
Proof.
  unfold hb'. apply dp_sub; [apply (li_w _ _ _ _ _ _ _ _ _ _ _ _ _ _ _ _ _ _ _ _ _ _ I)|].
  apply dp_scale, mm_dpu, (mi_hd _ _ _ _ _ _ _ _ _ _ _ _ _ _ _ _ _ _ _ _ _ _ _ _ _ _ _ _ _ _ _ M).
Qed.
Lemma mm_xd : dp (v :: V) x'.
Proof. unfold x'. apply dp_add; [apply mm_dpu, (mi_xd _ _ _ _ _ _ _ _ _ _ _ _ _ _ _ _ _ _ _ _ _ _ _ _ _ _ _ _ _ _ _ M)|apply dp_scale, mm_hbd]. Qed.
Lemma mm_khb : kry AA (At b) (S k) hb'.
Proof.
  pose proof (sym_AtA A At AD) as LL. unfold hb'. apply kry_sub; try exact LL.
  - apply (li_kw _ _ _ _ _ _ _ _ _ _ _ _ _ _ _ _ _ _ _ _ _ _ I).
  - apply kry_scale; try exact LL. apply kry_S; try exact LL. apply (mi_kh _ _ _ _ _ _ _ _ _ _ _ _ _ _ _ _ _ _ _ _ _ _ _ _ _ _ _ _ _ _ _ M).
Qed.
Lemma mm_kx : kry AA (At b) (S k) x'.
Proof.
  pose proof (sym_AtA A At AD) as LL. unfold x'. apply kry_add; try exact LL.
  - apply kry_S; try exact LL. apply (mi_kx _ _ _ _ _ _ _ _ _ _ _ _ _ _ _ _ _ _ _ _ _ _ _ _ _ _ _ _ _ _ _ M).
  - apply kry_scale; try exact LL. exact mm_khb.
Qed.

(** Splitting off the component along [v]. *)
Lemma dp_split : forall z, dp (v :: V) z -> ip v z = 0 -> dp V z.
Proof.
  intros z D Z t Ht.
  pose proof (D (isub t (iscale (ip v t) v))) as Q.
  assert (E : ip z (isub t (iscale (ip v t) v)) = 0).
  { apply Q. intros w [<-|Hw].
    - ipx. rewrite (gk_vv _ _ _ _ _ _ _ G). ring.
    - ipx. rewrite (Ht w Hw), (gk_vV _ _ _ _ _ _ _ G w Hw). ring. }
  ipx_in E. rewrite (ip_sym z v), Z in E. lra.
Qed.

(** *** The residual. *)
Lemma mm_gu : iscale rhod' (A hb') = iscale (rho1 * rhob') gu'.
Proof.
  unfold hb', gu', rhod', f1. rewrite (lin_sub A LA), (lin_scale A LA).
  apply ip_ext. intro z.
  pose proof (f_equal (ip z) (mi_gu _ _ _ _ _ _ _ _ _ _ _ _ _ _ _ _ _ _ _ _ _ _ _ _ _ _ _ _ _ _ _ M)) as E. ipx_in E. ipx.
  assert (EH : ip z (A hb) = rho * rhob / rhod * ip z gu).
  { apply Rmult_eq_reg_l with rhod; [|lra]. rewrite E. field. lra. }
  rewrite EH. assert (E3 : st * rhod = sb * rho1 * ct) by (rewrite <- Hct, <- Hst; ring).
  transitivity (ct * rhob' * ip z (A h) - rhob' * rho1 * (sb * rho1 * ct) / rhod * ip z gu); [field; lra|].
  rewrite <- E3. field. lra.
Qed.
Lemma mm_ge : iscale (rhod' * d) hb' = iscale (rho1 * rhob') ge'.
Proof.
  unfold hb', ge', rhod', f1.
  apply ip_ext. intro z.
  pose proof (f_equal (ip z) (mi_ge _ _ _ _ _ _ _ _ _ _ _ _ _ _ _ _ _ _ _ _ _ _ _ _ _ _ _ _ _ _ _ M)) as E. ipx_in E. ipx.
  assert (EH : d * ip z hb = rho * rhob / rhod * ip z ge).
  { apply Rmult_eq_reg_l with rhod; [|lra]. rewrite <- Rmult_assoc, E. field. lra. }
  assert (E3 : st * rhod = sb * rho1 * ct) by (rewrite <- Hct, <- Hst; ring).
  transitivity (ct * rhob' * d * ip z h - rhob' * ct * (sb * rho1 * rho1) / (rho * rhob) * (d * ip z hb)); [field; lra|].
  rewrite EH.
  transitivity (ct * rhob' * d * ip z h - rhob' * rho1 * (sb * rho1 * ct) / rhod * ip z ge); [field; lra|].
  rewrite <- E3. field. lra.
Qed.

(** [(A h, d h)] is orthogonal to [(gu, ge)]. *)
Lemma mm_hg : ip (A h) gu + d * ip h ge = 0.
Proof.
  pose proof (mm_hN hb (mi_hd _ _ _ _ _ _ _ _ _ _ _ _ _ _ _ _ _ _ _ _ _ _ _ _ _ _ _ _ _ _ _ M)) as E. rewrite Nop_ip in E.
  pose proof (f_equal (ip (A h)) (mi_gu _ _ _ _ _ _ _ _ _ _ _ _ _ _ _ _ _ _ _ _ _ _ _ _ _ _ _ _ _ _ _ M)) as EA. ipx_in EA.
  pose proof (f_equal (ip h) (mi_ge _ _ _ _ _ _ _ _ _ _ _ _ _ _ _ _ _ _ _ _ _ _ _ _ _ _ _ _ _ _ _ M)) as E3. ipx_in E3.
  rewrite (ip_sym (A hb)), (ip_sym hb) in E.
  apply Rmult_eq_reg_l with (rho * rhob); [|nra]. rewrite Rmult_0_r, Rmult_plus_distr_l.
  rewrite <- EA. replace (rho * rhob * (d * ip h ge)) with (d * (rho * rhob * ip h ge)) by ring. rewrite <- E3.
  transitivity (rhod * (ip (A h) (A hb) + d * d * ip h hb)); [ring|]. rewrite E. ring.
Qed.

Lemma mm_g1 : ip gu' gu' + ip ge' ge' = 1.
Proof.
  unfold gu', ge'. pose proof mm_hg as HG. pose proof mm_hh as HH. rewrite Nop_ip in HH. ipx.
  rewrite (ip_sym gu (A h)), (ip_sym ge h).
  transitivity (ct * ct / (rho1 * rho1) * (ip (A h) (A h) + d * d * ip h h) - 2 * (ct * st / rho1) * (ip (A h) gu + d * ip h ge)
    + st * st * (ip gu gu + ip ge ge)); [field; lra|].
  rewrite HH, HG. destruct (mi_g1 _ _ _ _ _ _ _ _ _ _ _ _ _ _ _ _ _ _ _ _ _ _ _ _ _ _ _ _ _ _ _ M) as [Z|Z].
  - assert (S0 : st = 0). { rewrite Z, Rmult_0_l in Hst. apply Rmult_integral in Hst as [Q|Q]; [exact Q|lra]. }
    rewrite S0. assert (C1 : ct * ct = 1) by (rewrite S0 in H4; lra). rewrite C1. field. lra.
  - rewrite Z. replace (st * st) with (1 - ct * ct) by lra. field. lra.
Qed.

Lemma mm_bh : rho1 * bh = pb * rb.
Proof. unfold bh. rewrite <- Hc1, <- Hc. ring. Qed.
Lemma mm_orth : ct * X + st * bh = 0.
Proof.
  apply Rmult_eq_reg_r with rt; [|lra].
  transitivity (X * (ct * rt) + bh * (st * rt)); [ring|]. rewrite Hct, Hst, (mi_X _ _ _ _ _ _ _ _ _ _ _ _ _ _ _ _ _ _ _ _ _ _ _ _ _ _ _ _ _ _ _ M), <- mm_bh. ring.
Qed.
Lemma mm_Xst : X = - st * (- st * X + ct * bh).
Proof. pose proof mm_orth as O. transitivity (ct * (ct * X) + st * st * X); [ring [H4]|]. replace (ct * X) with (- (st * bh)) by lra. ring. Qed.
Lemma mm_bct : bh = ct * (- st * X + ct * bh).
Proof. pose proof mm_orth as O. transitivity (- st * (ct * X) + ct * ct * bh); [|ring]. replace (ct * X) with (- (st * bh)) by lra. transitivity (st * st * bh + ct * ct * bh); [ring [H4]|ring]. Qed.

Lemma mm_xu : isub (A xl') (A x') = iscale X' gu'.
Proof.
  unfold xl', x'. rewrite !(lin_add A LA), !(lin_scale A LA).
  pose proof mm_rhod' as RD.
  assert (HB : A hb' = iscale (rho1 * rhob' / rhod') gu').
  { apply ip_ext. intro z. pose proof (f_equal (ip z) mm_gu) as E. ipx_in E. ipx.
    apply Rmult_eq_reg_l with rhod'; [|lra]. rewrite E. field. lra. }
  rewrite HB. unfold f2, X'. apply ip_ext. intro z.
  pose proof (f_equal (ip z) (mi_xu _ _ _ _ _ _ _ _ _ _ _ _ _ _ _ _ _ _ _ _ _ _ _ _ _ _ _ _ _ _ _ M)) as E. ipx_in E. ipx.
  transitivity (X * ip z gu + bh / rho1 * ip z (A h) - z1 / rhod' * ip z gu').
  { rewrite <- E. field. split; [|split]; lra. }
  set (Y := - st * X + ct * bh).
  replace (Y - z1 / rhod') with (- (z1 / rhod') + Y) by ring.
  pose proof mm_Xst as EX. pose proof mm_bct as EB2. fold Y in EX, EB2. clearbody Y.
  rewrite EX, EB2. unfold gu'. ipx. field. split; lra.
Qed.
Lemma mm_xe : iscale d (isub xl' x') = iscale X' ge'.
Proof.
  unfold xl', x'. pose proof mm_rhod' as RD.
  assert (HB : iscale d hb' = iscale (rho1 * rhob' / rhod') ge').
  { apply ip_ext. intro z. pose proof (f_equal (ip z) mm_ge) as E. ipx_in E. ipx.
    apply Rmult_eq_reg_l with rhod'; [|lra]. rewrite <- Rmult_assoc, E. field. lra. }
  unfold f2, X'. apply ip_ext. intro z.
  pose proof (f_equal (ip z) (mi_xe _ _ _ _ _ _ _ _ _ _ _ _ _ _ _ _ _ _ _ _ _ _ _ _ _ _ _ _ _ _ _ M)) as E. ipx_in E.
  pose proof (f_equal (ip z) HB) as EB. ipx_in EB.
  transitivity (X * ip z ge + bh / rho1 * d * ip z h - z1 / rhod' * ip z ge').
  { ipx. transitivity (d * (ip z xl - ip z x) + bh / rho1 * d * ip z h - z1 / (rho1 * rhob') * (d * ip z hb')); [ring|].
    rewrite EB, E. field. split; [|split]; lra. }
  ipx. set (Y := - st * X + ct * bh).
  replace (Y - z1 / rhod') with (- (z1 / rhod') + Y) by ring.
  pose proof mm_Xst as EX. pose proof mm_bct as EB2. fold Y in EX, EB2. clearbody Y.
  rewrite EX, EB2. unfold ge'. ipx. field. split; lra.
Qed.

(** LSQR's next residual is orthogonal to all directions so far. *)
Hypothesis Hxl : forall z, dp (v :: V) z -> ip z (nres xl') = 0.

Lemma mm_dres : dres2 x' = dres2 xl' + X' * X'.
Proof.
  pose proof mm_rhod' as RD.
  pose proof (Hxl hb' mm_hbd) as O. unfold LsqrMath.nres in O. rewrite ip_sub, ip_scale, (ip_At A At AD) in O.
  pose proof (f_equal (ip (isub b (A xl'))) mm_gu) as EA. rewrite !ip_scale in EA.
  pose proof (f_equal (ip xl') mm_ge) as E3. rewrite !ip_scale in E3.
  assert (OG : ip (isub b (A xl')) gu' - d * ip xl' ge' = 0).
  { apply Rmult_eq_reg_l with (rho1 * rhob'); [|nra]. rewrite Rmult_0_r.
    transitivity (rho1 * rhob' * ip (isub b (A xl')) gu' - d * (rho1 * rhob' * ip xl' ge')); [ring|].
    rewrite <- EA, <- E3, (ip_sym _ (A hb')), (ip_sym xl'). transitivity (rhod' * (ip (A hb') (isub b (A xl')) - d * d * ip hb' xl')); [ring|].
    rewrite O. ring. }
  assert (R1 : isub b (A x') = iadd (isub b (A xl')) (iscale X' gu')).
  { rewrite <- mm_xu. veq. }
  assert (R2 : d * d * ip x' x' = ip (isub (iscale d xl') (iscale X' ge')) (isub (iscale d xl') (iscale X' ge'))).
  { rewrite <- mm_xe. ipx. ring. }
  unfold LsqrMath.dres2. rewrite R2, R1.
  transitivity (ip (isub b (A xl')) (isub b (A xl')) + d * d * ip xl' xl' + X' * X' * (ip gu' gu' + ip ge' ge')
     + 2 * X' * (ip (isub b (A xl')) gu' - d * ip xl' ge')).
  - set (r := isub b (A xl')). clearbody r. clear - r. ipx. rewrite (ip_sym gu' r), (ip_sym ge' xl'). ring.
  - rewrite OG, mm_g1. ring.
Qed.

(** *** The next state. *)
Section Next.
Variables (al' : R) (u' : iv E2).
Context {tu' : iv E2} {te' : iv E1} {su' : iv E2} {se' : iv E1} {res2' xx' cs2' zs' : R}.
Let h' := iadd (iscale (- th / rho1) h) v'.
Hypothesis I' : LI (S k) (u :: U) (v :: V) u' v' al' xl' h' tu' te' su' se' (c * al') (- (s * (cs1 * pb))) res2' xx' cs2' zs'.
Hypothesis Hth : th = s * al'.
Let G' : GK A At (u :: U) (v :: V) u' v' al'.
Proof. exact (li_gk _ _ _ _ _ _ _ _ _ _ _ _ _ _ _ _ _ _ _ _ _ _ I'). Qed.
Let v'd : forall z, dp (v :: V) z -> ip z v' = 0 := gk_v_dp A At G'.

Lemma mm_q'N : forall z, dp (v :: V) z -> ip q' (Nop z) = 0.
Proof.
  assert (Q0 : ip q' (Nop hb') = 0).
  { rewrite mm_Nhb. unfold q', p'. ipx.
    pose proof (v'd q (mi_qd _ _ _ _ _ _ _ _ _ _ _ _ _ _ _ _ _ _ _ _ _ _ _ _ _ _ _ _ _ _ _ M)) as QV.
    rewrite (ip_sym v' q), QV, (gk_vv _ _ _ _ _ _ _ G'), (mi_qq _ _ _ _ _ _ _ _ _ _ _ _ _ _ _ _ _ _ _ _ _ _ _ _ _ _ _ _ _ _ _ M). ring. }
  intros z D.
  set (z0 := isub z (iscale (ip v z) hb')).
  assert (D0 : dp V z0).
  { apply dp_split.
    - unfold z0. apply dp_sub; [exact D|apply dp_scale, mm_hbd].
    - unfold z0. ipx. rewrite mm_vhb. ring. }
  assert (Z : z = iadd z0 (iscale (ip v z) hb')) by (unfold z0; veq).
  rewrite Z, Nop_add, Nop_scale, ip_add, ip_scale, Q0.
  assert (Q1 : ip q' (Nop z0) = 0).
  { unfold q'. rewrite ip_subl, !ip_scalel, (mi_qN _ _ _ _ _ _ _ _ _ _ _ _ _ _ _ _ _ _ _ _ _ _ _ _ _ _ _ _ _ _ _ M z0 D0), (ip_sym v'), (v'd _ (mm_dN z0 D0)). ring. }
  rewrite Q1. ring.
Qed.

Lemma mm_step : MI (S k) (u :: U) (v :: V) u' v' al' xl' h' tu' te' su' se' (c * al') (- (s * (cs1 * pb))) res2' xx' cs2' zs'
  x' hb' p' q' gu' ge' rho1 rhob' cb' sb' (- sb' * zb) rhod' X'.
Proof.
  pose proof mm_rhod' as RD. pose proof mm_cb' as CB.
  pose proof (v'd q (mi_qd _ _ _ _ _ _ _ _ _ _ _ _ _ _ _ _ _ _ _ _ _ _ _ _ _ _ _ _ _ _ _ M)) as QV.
  pose proof (mi_qq _ _ _ _ _ _ _ _ _ _ _ _ _ _ _ _ _ _ _ _ _ _ _ _ _ _ _ _ _ _ _ M) as QQ.
  pose proof (gk_vv _ _ _ _ _ _ _ G') as VV.
  pose proof (mi_zb _ _ _ _ _ _ _ _ _ _ _ _ _ _ _ _ _ _ _ _ _ _ _ _ _ _ _ _ _ _ _ M) as ZB.
  assert (BZ : bh * (cb' * rhob') = zb).
  { rewrite Hcb, ZB, <- mm_bh. ring. }
  split.
  - exact I'.
  - unfold h'. ipx. rewrite (ip_sym v' h), (v'd h (li_w _ _ _ _ _ _ _ _ _ _ _ _ _ _ _ _ _ _ _ _ _ _ I)), VV. ring.
  - exact mm_nres.
  - exact mm_Nhb.
  - unfold p', q'. apply ip_ext. intro z. ipx. ring [H3].
  - unfold q'. ipx. rewrite (ip_sym v' q), QV, VV, QQ. ring [H3].
  - unfold q'. apply dp_sub; apply dp_scale; [apply dp_in; left; reflexivity|].
    apply (dp_weak (v :: V)); [apply (mi_qd _ _ _ _ _ _ _ _ _ _ _ _ _ _ _ _ _ _ _ _ _ _ _ _ _ _ _ _ _ _ _ M)|]. intros t Ht. right. exact Ht.
  - exact mm_q'N.
  - exact mm_xd.
  - exact mm_hbd.
  - exact mm_kx.
  - exact mm_khb.
  - exact mm_gu.
  - exact mm_ge.
  - right. exact mm_g1.
  - exact mm_xu.
  - exact mm_xe.
  - unfold X'. rewrite Rmult_minus_distr_r.
    replace (z1 / rhod' * rhod') with z1 by (field; lra).
    transitivity (bh * rhob' - z1).
    { unfold rhod'. rewrite mm_bct at 2. ring. }
    unfold z1. rewrite <- BZ.
    transitivity (bh * th * sb').
    { rewrite <- Hsb. transitivity (bh * rhob' * (sb' * sb')); [|ring]. ring [H3]. }
    rewrite Hth. unfold bh. ring.
  - rewrite <- BZ. transitivity (- (bh * cb') * (sb' * rhob')); [ring|]. rewrite Hsb, Hth. unfold bh. ring.
  - exact Hr.
  - exact Hrb'.
  - exact CB.
  - exact RD.
Qed.
End Next.
End Step.

(** The invariant makes [x] the minimiser of the normal residual over the Krylov space. *)
Lemma mi_min : forall k U V u v al xl h tu te su se rb pb res2 xx cs2 zs x hb p q gu ge rho rhob cb sb zb rhod X,
  MI k U V u v al xl h tu te su se rb pb res2 xx cs2 zs x hb p q gu ge rho rhob cb sb zb rhod X ->
  inorm (nres x) = Rabs zb /\ forall z, dp V z -> inorm (nres x) <= inorm (nres z).
Proof.
  intros k U V u v al xl h tu te su se rb pb res2 xx cs2 zs x hb p q gu ge rho rhob cb sb zb rhod X M.
  pose proof (mi_qq _ _ _ _ _ _ _ _ _ _ _ _ _ _ _ _ _ _ _ _ _ _ _ _ _ _ _ _ _ _ _ M) as QQ.
  assert (N1 : inorm (nres x) = Rabs zb).
  { rewrite (mi_x _ _ _ _ _ _ _ _ _ _ _ _ _ _ _ _ _ _ _ _ _ _ _ _ _ _ _ _ _ _ _ M), inorm_scale. unfold inorm. rewrite QQ, sqrt_1. ring. }
  split; [exact N1|]. intros z D. rewrite N1.
  assert (Z : nres z = isub (nres x) (Nop (isub z x))).
  { rewrite <- nres_step. f_equal. veq. }
  assert (IQ : ip q (nres z) = zb).
  { rewrite Z, ip_sub, (mi_qN _ _ _ _ _ _ _ _ _ _ _ _ _ _ _ _ _ _ _ _ _ _ _ _ _ _ _ _ _ _ _ M).
    - rewrite (mi_x _ _ _ _ _ _ _ _ _ _ _ _ _ _ _ _ _ _ _ _ _ _ _ _ _ _ _ _ _ _ _ M), ip_scale, QQ. ring.
    - apply dp_sub; [exact D|apply (mi_xd _ _ _ _ _ _ _ _ _ _ _ _ _ _ _ _ _ _ _ _ _ _ _ _ _ _ _ _ _ _ _ M)]. }
  pose proof (cauchy q (nres z)) as C. rewrite IQ, QQ, Rmult_1_l, <- inorm_sq in C.
  pose proof (inorm_pos (nres z)) as P.
  apply Rsqr_incr_0_var; [|exact P]. unfold Rsqr. rewrite <- Rabs_mult, Rabs_right by (pose proof (Rle_0_sqr zb); unfold Rsqr in *; lra). exact C.
Qed.
End Lsmr.
