(** * Polynomials in a self-adjoint operator: Chebyshev bounds and annihilating polynomials.

    Used for the convergence rates of the Krylov solvers (PropRate.v, PropRateLs.v).  Nothing here is a model of
    code.  The bound on [T_k(Y)] is obtained from the identity
    [T_k(Y)^2 + (1 - Y^2) U_(k-1)(Y)^2 = 1], so that no spectral theorem is needed and the space may
    have any dimension. *)
From Coq Require Import List Arith Lia Bool Reals Lra.
From Verif Require Import Base Num MinresProof.
Import ListNotations.
Local Open Scope R_scope.

Section Kry.
Context {E : IPS} (B : iv E -> iv E) (v : iv E).
Hypothesis LB : lin B.

Lemma lk_zero : forall k, kry B v k izero.
Proof.
  induction k as [|k IH]; [reflexivity|]. exists 0, izero. split; [exact IH|].
  rewrite (lin_zero B LB). veq.
Qed.
Lemma lk_add : forall k u w, kry B v k u -> kry B v k w -> kry B v k (iadd u w).
Proof.
  induction k as [|k IH]; cbn; intros u w.
  - intros -> ->. veq.
  - intros (a & u' & U & ->) (c & w' & W & ->). exists (a + c), (iadd u' w'). split; [auto|].
    rewrite (lin_add B LB). veq.
Qed.
Lemma lk_scale : forall k c u, kry B v k u -> kry B v k (iscale c u).
Proof.
  induction k as [|k IH]; cbn; intros c u.
  - intros ->. veq.
  - intros (a & u' & U & ->). exists (c * a), (iscale c u'). split; [auto|].
    rewrite (lin_scale B LB). veq.
Qed.
Lemma lk_sub : forall k u w, kry B v k u -> kry B v k w -> kry B v k (isub u w).
Proof. intros. unfold isub, ineg. apply lk_add; [|apply lk_scale]; assumption. Qed.
Lemma lk_B : forall k u, kry B v k u -> kry B v (S k) (B u).
Proof. intros k u H. exists 0, u. split; [exact H|]. veq. Qed.
Lemma lk_v : forall k, kry B v (S k) v.
Proof. intros k. exists 1, izero. split; [apply lk_zero|]. rewrite (lin_zero B LB). veq. Qed.
Lemma lk_S : forall k u, kry B v k u -> kry B v (S k) u.
Proof.
  induction k as [|k IH]; intros u H.
  - cbn in H. subst u. apply lk_zero.
  - destruct H as (a & u' & U & ->). exists a, u'. split; [apply IH; exact U|reflexivity].
Qed.
Lemma lk_le : forall k l u, (k <= l)%nat -> kry B v k u -> kry B v l u.
Proof. intros k l u H. induction H; [auto|]. intro. apply lk_S. auto. Qed.

(** ** The product of the factors [B - l] applied to [v]. *)
Fixpoint ann (ls : list R) (u : iv E) : iv E :=
  match ls with [] => u | l :: ls => isub (B (ann ls u)) (iscale l (ann ls u)) end.
Lemma ann_form : forall ls, (forall l, In l ls -> l <> 0) ->
  exists s z, s <> 0 /\ kry B v (length ls) z /\ ann ls v = isub (iscale s v) (B z).
Proof.
  induction ls as [|l ls IH]; intro N.
  - exists 1, izero. split; [lra|]. split; [reflexivity|]. cbn. rewrite (lin_zero B LB). veq.
  - destruct IH as (s & z & Ns & Kz & E0); [intros; apply N; now right|].
    exists (- l * s), (isub (iscale (- l) z) (ann ls v)). split; [|split].
    + assert (l <> 0) by (apply N; now left). nra.
    + cbn [length]. apply lk_sub; [apply lk_S, lk_scale; exact Kz|]. rewrite E0.
      apply lk_sub; [apply lk_scale, lk_v|]. apply lk_B. exact Kz.
    + cbn [ann]. rewrite (lin_sub B LB (iscale (- l) z)), (lin_scale B LB (- l)). rewrite E0. veq.
Qed.
Lemma ann_kry : forall ls, (forall l, In l ls -> l <> 0) -> ann ls v = izero ->
  exists z, kry B v (length ls) z /\ B z = v.
Proof.
  intros ls N Z. destruct (ann_form ls N) as (s & z & Ns & Kz & E0). rewrite Z in E0.
  exists (iscale (/ s) z). split; [apply lk_scale; exact Kz|].
  rewrite (lin_scale B LB). apply ip_ext. intro w.
  assert (Q : ip w izero = ip w (isub (iscale s v) (B z))) by (rewrite <- E0; reflexivity).
  rewrite ip_zero, ip_sub, ip_scale in Q. rewrite ip_scale. replace (ip w (B z)) with (s * ip w v) by lra.
  field. exact Ns.
Qed.

(** ** Scaled Chebyshev polynomials.  [ct k] is [(M-m)^k T_k((M+m-2B)/(M-m)) v] and [cu k] the same
    for [U_(k-1)]. *)
Variables (m M : R).
Hypothesis m0 : 0 < m.
Hypothesis mM : m < M.
Let c := M + m.
Let d := M - m.
Definition cy (u : iv E) : iv E := isub (iscale (M + m) u) (iscale 2 (B u)).
Definition cd (u : iv E) : iv E := isub (iscale ((M - m) * (M - m)) u) (cy (cy u)).
Fixpoint ctu (k : nat) : iv E * iv E :=
  match k with
  | O => (v, izero)
  | S k => let '(t, u) := ctu k in (isub (cy t) (cd u), iadd t (cy u))
  end.
Definition ct k := fst (ctu k).
Definition cu k := snd (ctu k).
Lemma ct_S : forall k, ct (S k) = isub (cy (ct k)) (cd (cu k)).
Proof. intro k. unfold ct, cu. cbn [ctu]. destruct (ctu k). reflexivity. Qed.
Lemma cu_S : forall k, cu (S k) = iadd (ct k) (cy (cu k)).
Proof. intro k. unfold ct, cu. cbn [ctu]. destruct (ctu k). reflexivity. Qed.

(** the same recurrence for numbers ([B = 0]), and its solution *)
Fixpoint stu (k : nat) : R * R :=
  match k with
  | O => (1, 0)
  | S k => let '(t, u) := stu k in (c * t - (d * d - c * c) * u, t + c * u)
  end.
Lemma stu_closed : forall k,
  2 * fst (stu k) = (sqrt M + sqrt m) ^ (2 * k) + (sqrt M - sqrt m) ^ (2 * k) /\
  4 * sqrt M * sqrt m * snd (stu k) = (sqrt M + sqrt m) ^ (2 * k) - (sqrt M - sqrt m) ^ (2 * k).
Proof.
  assert (QM : sqrt M * sqrt M = M) by (apply sqrt_sqrt; lra).
  assert (Qm : sqrt m * sqrt m = m) by (apply sqrt_sqrt; lra).
  set (p := sqrt M) in *. set (r := sqrt m) in *.
  assert (Ec : c = p * p + r * r) by (unfold c; lra).
  assert (Ed : d = p * p - r * r) by (unfold d; lra).
  induction k as [|k [I1 I2]].
  - cbn. split; ring.
  - cbn [stu]. destruct (stu k) as [t u]. cbn [fst snd] in *.
    replace (2 * S k)%nat with (S (S (2 * k))) by lia. cbn [pow].
    set (X := (p + r) ^ (2 * k)) in *. set (Y := (p - r) ^ (2 * k)) in *.
    rewrite Ec, Ed. split.
    + replace (2 * ((p * p + r * r) * t - ((p * p - r * r) * (p * p - r * r) - (p * p + r * r) * (p * p + r * r)) * u))
        with ((p * p + r * r) * (2 * t) + 2 * p * r * (4 * p * r * u)) by ring. rewrite I1, I2. ring.
    + replace (4 * p * r * (t + (p * p + r * r) * u))
        with (2 * p * r * (2 * t) + (p * p + r * r) * (4 * p * r * u)) by ring. rewrite I1, I2. ring.
Qed.

Lemma lin_cy : lin cy.
Proof.
  split; intros; unfold cy.
  - rewrite (lin_add B LB). veq.
  - rewrite (lin_scale B LB). veq.
Qed.
Lemma kry_cy : forall k u, kry B v k u -> kry B v (S k) (cy u).
Proof. intros k u H. unfold cy. apply lk_sub; apply lk_scale; [apply lk_S|apply lk_B]; exact H. Qed.
(** [cd = 4 (B - m) (M - B)] *)
Lemma cd_eq : forall u, cd u = iscale 4 (isub (B (isub (iscale M u) (B u))) (iscale m (isub (iscale M u) (B u)))).
Proof.
  intro u. unfold cd, cy. repeat rewrite ?(lin_sub B LB), ?(lin_scale B LB). apply ip_ext. intro w. ipx. ring.
Qed.
Lemma ctu_kry : forall k, kry B v (S k) (ct k) /\ kry B v k (cu k) /\
  exists z y, kry B v k z /\ kry B v k y /\ ct k = isub (iscale (fst (stu k)) v) (B z) /\
    cu k = isub (iscale (snd (stu k)) v) (B y).
Proof.
  induction k as [|k (K1 & K2 & z & y & Kz & Ky & Et & Eu)].
  - split; [exact (lk_v 0)|]. split; [reflexivity|]. exists izero, izero. split; [reflexivity|].
    split; [reflexivity|]. cbn. rewrite (lin_zero B LB). unfold ct, cu. cbn. split; veq.
  - assert (KU : kry B v (S k) (cu (S k))) by (rewrite cu_S; apply lk_add; [exact K1|apply kry_cy; exact K2]).
    assert (AL : ct (S k) = isub (cy (cu (S k))) (iscale (d * d) (cu k))).
    { rewrite ct_S, cu_S. unfold cd. rewrite (lin_add cy lin_cy). unfold d. veq. }
    split; [|split].
    + rewrite AL. apply lk_sub; [apply kry_cy; exact KU|]. apply lk_scale. apply lk_S. apply lk_S. exact K2.
    + exact KU.
    + set (y' := iadd (iadd z (iscale c y)) (iscale 2 (cu k))).
      assert (KY : kry B v (S k) y').
      { unfold y'. apply lk_S. apply lk_add; [apply lk_add|]; try apply lk_scale; assumption. }
      assert (EU : cu (S k) = isub (iscale (snd (stu (S k))) v) (B y')).
      { rewrite cu_S. unfold cy, y'. cbn [stu]. destruct (stu k) as [t u]. cbn [fst snd] in *.
        rewrite !(lin_add B LB), !(lin_scale B LB). fold c.
        apply ip_ext. intro w. ipx.
        assert (Q1 : ip w (ct k) = t * ip w v - ip w (B z)) by (rewrite Et; ipx; ring).
        assert (Q2 : ip w (cu k) = u * ip w v - ip w (B y)) by (rewrite Eu; ipx; ring).
        rewrite Q1, Q2. unfold c. ring. }
      exists (isub (iadd (iscale c y') (iscale 2 (cu (S k)))) (iscale (d * d) y)), y'.
      split; [|split; [exact KY|split; [|exact EU]]].
      * apply lk_sub; [apply lk_add; apply lk_scale; assumption|]. apply lk_scale. apply lk_S. exact Ky.
      * rewrite AL. unfold cy. rewrite (lin_sub B LB (iadd _ _)), (lin_add B LB (iscale c y')), !(lin_scale B LB).
        apply ip_ext. intro w. ipx.
        assert (Q1 : ip w (cu (S k)) = snd (stu (S k)) * ip w v - ip w (B y')) by (rewrite EU; ipx; ring).
        assert (Q2 : ip w (cu k) = snd (stu k) * ip w v - ip w (B y)) by (rewrite Eu; ipx; ring).
        rewrite Q1, Q2. cbn [stu]. destruct (stu k) as [t u]. cbn [fst snd]. unfold c, d. ring.
Qed.

(** ** A symmetric bilinear form for which [B] is self-adjoint and lies between [m] and [M] on the
    Krylov spaces. *)
Variable f : iv E -> iv E -> R.
Hypothesis fs : forall u w, f u w = f w u.
Hypothesis fa : forall w u u', f w (iadd u u') = f w u + f w u'.
Hypothesis fc : forall w a u, f w (iscale a u) = a * f w u.
Hypothesis fB : forall u w, f u (B w) = f (B u) w.
Hypothesis fm : forall k z, kry B v k z -> m * f z z <= f z (B z) <= M * f z z.

Lemma f_al : forall w u u', f (iadd u u') w = f u w + f u' w.
Proof. intros. rewrite fs, fa, !(fs w). reflexivity. Qed.
Lemma f_cl : forall w a u, f (iscale a u) w = a * f u w.
Proof. intros. rewrite fs, fc, (fs w). reflexivity. Qed.
Lemma f_sub : forall w u u', f w (isub u u') = f w u - f w u'.
Proof. intros. unfold isub, ineg. rewrite fa, fc. ring. Qed.
Lemma f_subl : forall w u u', f (isub u u') w = f u w - f u' w.
Proof. intros. rewrite fs, f_sub, !(fs w). reflexivity. Qed.
Lemma f_pos : forall k z, kry B v k z -> 0 <= f z z.
Proof. intros k z K. pose proof (fm k z K). assert (0 < M - m) by lra. nra. Qed.
Lemma f_cy : forall u w, f u (cy w) = f (cy u) w.
Proof. intros. unfold cy. rewrite f_sub, f_subl, !fc, !f_cl, fB. ring. Qed.

Lemma cd_pos : forall k z, kry B v k z -> 0 <= f z (cd z).
Proof.
  intros k z K. rewrite cd_eq, fc.
  set (a := isub (iscale M z) (B z)). set (e := isub (B z) (iscale m z)).
  assert (Ka : kry B v (S k) a) by (apply lk_sub; [apply lk_scale, lk_S|apply lk_B]; exact K).
  assert (Ke : kry B v (S k) e) by (apply lk_sub; [apply lk_B|apply lk_scale, lk_S]; exact K).
  pose proof (fm _ _ Ka) as Ba. pose proof (fm _ _ Ke) as Be.
  assert (I : (M - m) * f z (isub (B a) (iscale m a)) = (f a (B a) - m * f a a) + (M * f e e - f e (B e))).
  { unfold a, e. repeat rewrite ?(lin_sub B LB), ?(lin_scale B LB).
    repeat rewrite ?f_sub, ?fc, ?f_subl, ?f_cl.
    rewrite <- ?(fB z), <- ?(fB (B z)). rewrite ?(fB (B z)). rewrite <- ?(fB z). ring. }
  assert (0 <= (M - m) * f z (isub (B a) (iscale m a))) by (rewrite I; lra).
  assert (0 < M - m) by lra. nra.
Qed.

(** the Pell identity *)
Lemma pell : forall k, f (ct k) (ct k) + f (cu k) (cd (cu k)) = (d ^ k) * (d ^ k) * f v v.
Proof.
  assert (FD : forall u w, f u (cd w) = f (cd u) w).
  { intros. unfold cd. rewrite f_sub, f_subl, fc, f_cl, !f_cy. reflexivity. }
  assert (CC : forall u, cy (cd u) = cd (cy u)).
  { intro u. unfold cd. rewrite (lin_sub cy lin_cy), (lin_scale cy lin_cy). reflexivity. }
  assert (DD : forall u w, f u (cd w) = d * d * f u w - f (cy u) (cy w)).
  { intros. unfold cd. rewrite f_sub, fc, f_cy. reflexivity. }
  induction k as [|k IH].
  - unfold ct, cu. cbn. rewrite DD. assert (Z : f izero izero = 0).
    { replace (@izero E) with (iscale 0 (@izero E)) by veq. rewrite fc. ring. }
    assert (Zc : cy izero = izero) by (apply (lin_zero cy lin_cy)). rewrite Zc, Z. ring.
  - rewrite ct_S, cu_S. set (t := ct k) in *. set (u := cu k) in *. cbn [pow].
    assert (Q1 : f (isub (cy t) (cd u)) (isub (cy t) (cd u)) = f (cy t) (cy t) - 2 * f (cy t) (cd u) + f (cd u) (cd u)).
    { rewrite f_sub, !f_subl, (fs (cd u) (cy t)). ring. }
    assert (Ld : forall a e, cd (iadd a e) = iadd (cd a) (cd e)).
    { intros. unfold cd. rewrite !(lin_add cy lin_cy). veq. }
    assert (Q2 : f (iadd t (cy u)) (cd (iadd t (cy u))) = f t (cd t) + 2 * f (cy t) (cd u) + f (cy u) (cd (cy u))).
    { rewrite Ld, fa, !f_al. rewrite (FD (cy u) t), (fs (cd (cy u)) t), <- CC, f_cy. ring. }
    assert (Q3 : f (cd u) (cd u) = d * d * f u (cd u) - f (cy u) (cd (cy u))).
    { rewrite (DD (cd u) u), (fs (cd u) u), CC, (fs (cd (cy u))). reflexivity. }
    rewrite Q1, Q2, Q3, (DD t t).
    replace (d * d ^ k * (d * d ^ k) * f v v) with (d * d * (d ^ k * d ^ k * f v v)) by ring.
    rewrite <- IH. ring.
Qed.

Definition crate : R := (sqrt M - sqrt m) / (sqrt M + sqrt m).
Lemma crate_range : 0 < crate < 1.
Proof.
  assert (0 < sqrt m) by (apply sqrt_lt_R0; lra). assert (sqrt m < sqrt M) by (apply sqrt_lt_1; lra).
  unfold crate. split.
  - apply Rdiv_lt_0_compat; lra.
  - apply Rmult_lt_reg_r with (sqrt M + sqrt m); [lra|]. unfold Rdiv. rewrite Rmult_assoc, Rinv_l; lra.
Qed.

(** There is a polynomial of degree [k] with value 1 at 0 that reduces [v] by the factor [2 crate^k]. *)
Theorem cheb : forall k, exists z, kry B v k z /\
  f (isub v (B z)) (isub v (B z)) <= (2 * crate ^ k) * (2 * crate ^ k) * f v v.
Proof.
  intro k. destruct (ctu_kry k) as (K1 & K2 & z & y & Kz & Ky & Et & Eu).
  destruct (stu_closed k) as [C1 _]. set (s := fst (stu k)) in *.
  assert (P1 : 0 < sqrt m) by (apply sqrt_lt_R0; lra). assert (P2 : sqrt m < sqrt M) by (apply sqrt_lt_1; lra).
  assert (QM : sqrt M * sqrt M = M) by (apply sqrt_sqrt; lra).
  assert (Qm : sqrt m * sqrt m = m) by (apply sqrt_sqrt; lra).
  set (a := sqrt M + sqrt m) in *. set (e := sqrt M - sqrt m) in *.
  assert (Pa : 0 < a ^ k) by (apply pow_lt; unfold a; lra). assert (Pe : 0 < e ^ k) by (apply pow_lt; unfold e; lra).
  assert (E2 : forall x : R, x ^ (2 * k) = x ^ k * x ^ k) by (intro x; replace (2 * k)%nat with (k + k)%nat by lia; apply pow_add).
  rewrite !E2 in C1.
  assert (Ps : a ^ k * a ^ k <= 2 * s) by (rewrite C1; assert (0 < e ^ k * e ^ k) by nra; lra).
  assert (Pss : 0 < s) by (assert (0 < a ^ k * a ^ k) by nra; lra).
  assert (D0 : d ^ k = a ^ k * e ^ k) by (rewrite <- Rpow_mult_distr; f_equal; unfold d, a, e; lra).
  assert (R0 : crate ^ k * a ^ k = e ^ k).
  { rewrite <- Rpow_mult_distr. f_equal. unfold crate. fold a e. field. unfold a. lra. }
  exists (iscale (/ s) z). split; [apply lk_scale; exact Kz|].
  assert (V : isub v (B (iscale (/ s) z)) = iscale (/ s) (ct k)).
  { rewrite (lin_scale B LB). apply ip_ext. intro w. ipx. rewrite Et. ipx. field. lra. }
  rewrite V, fc, f_cl.
  pose proof (pell k) as P. pose proof (cd_pos k (cu k) K2) as Q. pose proof (f_pos 1 v (lk_v 0)) as Fv.
  assert (T1 : f (ct k) (ct k) <= d ^ k * d ^ k * f v v) by lra.
  assert (T2 : d ^ k * / s <= 2 * crate ^ k).
  { apply Rmult_le_reg_r with s; [lra|]. rewrite Rmult_assoc, Rinv_l, Rmult_1_r by lra.
    rewrite D0. rewrite <- R0.
    assert (0 < crate ^ k) by (apply pow_lt; apply crate_range).
    replace (a ^ k * (crate ^ k * a ^ k)) with (crate ^ k * (a ^ k * a ^ k)) by ring.
    replace (2 * crate ^ k * s) with (crate ^ k * (2 * s)) by ring. apply Rmult_le_compat_l; lra. }
  assert (0 < / s) by (apply Rinv_0_lt_compat; lra).
  assert (0 < d ^ k) by (rewrite D0; nra).
  apply Rle_trans with ((d ^ k * / s) * (d ^ k * / s) * f v v).
  - replace ((d ^ k * / s) * (d ^ k * / s) * f v v) with (/ s * (/ s * (d ^ k * d ^ k * f v v))) by ring.
    apply Rmult_le_compat_l; [lra|]. apply Rmult_le_compat_l; [lra|]. exact T1.
  - apply Rmult_le_compat_r; [exact Fv|].
    assert (0 <= d ^ k * / s) by nra. apply Rmult_le_compat; lra.
Qed.
End Kry.
Arguments ann {E} B ls u.

(** ** The energy form [<u, B w>]. *)
Section Energy.
Context {E : IPS} (B : iv E -> iv E) (v : iv E).
Hypothesis SB : selfadj B.
Let LB : lin B := adjoint_lin B B SB.
Variables (m M : R).
Hypothesis m0 : 0 < m.
Hypothesis mM : m < M.
Hypothesis Bm : forall k z, kry B v k z -> m * ip z z <= ip z (B z) <= M * ip z z.

Lemma energy_between : forall k z, kry B v k z -> m * ip z (B z) <= ip z (B (B z)) <= M * ip z (B z).
Proof.
  intros k z K. pose proof (Bm k z K) as Bz.
  assert (E0 : ip z (B (B z)) = ip (B z) (B z)) by apply SB. rewrite E0. split.
  - pose proof (ip_pos (isub (B z) (iscale m z))) as P. repeat rewrite ?ip_sub, ?ip_scale, ?ip_subl, ?ip_scalel in P.
    rewrite (ip_sym (B z) z) in P. nra.
  - set (a := isub (iscale M z) (B z)).
    pose proof (Bm (S k) a ltac:(apply lk_sub; [exact LB|apply lk_scale, lk_S; [exact LB|exact LB|exact K]|apply lk_B; exact K])) as Ba.
    pose proof (Bm (S k) (B z) ltac:(apply lk_B; exact K)) as BB.
    assert (I : M * (M * ip z (B z) - ip (B z) (B z)) = (M * ip (B z) (B z) - ip (B z) (B (B z))) + ip a (B a)).
    { unfold a. repeat rewrite ?(lin_sub B LB), ?(lin_scale B LB).
      repeat rewrite ?ip_sub, ?ip_scale, ?ip_subl, ?ip_scalel. rewrite E0.
      rewrite <- (SB z (B z)) in *. ring_simplify. rewrite ?E0. ring. }
    assert (0 <= ip a (B a)) by (pose proof (ip_pos a); nra). nra.
Qed.
Theorem cheb_energy : forall k, exists z, kry B v k z /\
  ip (isub v (B z)) (B (isub v (B z))) <= (2 * crate m M ^ k) * (2 * crate m M ^ k) * ip v (B v).
Proof.
  intro k. apply (cheb B v LB m M m0 mM (fun u w => ip u (B w))).
  - intros u w. rewrite SB. apply ip_sym.
  - intros. rewrite (lin_add B LB). apply ip_add.
  - intros. rewrite (lin_scale B LB). apply ip_scale.
  - intros. apply SB.
  - exact energy_between.
Qed.
End Energy.

(** ** Krylov spaces of shifted operators, and images. *)
Section Move.
Context {E : IPS} (B : iv E -> iv E).
Hypothesis LB : lin B.
Lemma kry_image : forall v k z, kry B v k z -> kry B (B v) k (B z).
Proof.
  intros v. induction k as [|k IH]; cbn; intros z.
  - intros ->. apply (lin_zero B LB).
  - intros (a & z' & K & ->). exists a, (B z'). split; [apply IH; exact K|].
    rewrite (lin_add B LB), (lin_scale B LB). reflexivity.
Qed.
Lemma kry_shift : forall s v k z, kry (fun u => iadd (B u) (iscale s u)) v k z -> kry B v k z.
Proof.
  intros s v. induction k as [|k IH]; cbn; intros z; [auto|].
  intros (a & z' & K & ->). apply IH in K.
  change (kry B v (S k) (iadd (iscale a v) (iadd (B z') (iscale s z')))).
  apply lk_add; [exact LB|apply lk_scale, lk_v; exact LB|].
  apply lk_add; [exact LB|apply lk_B; exact K|]. apply lk_scale, lk_S; [exact LB..|exact K].
Qed.
End Move.
