(** * Backward errors of least-squares residuals, and Frobenius norms through orthonormal lists. *)
From Coq Require Import List ZArith Reals Lia Lra.
From Verif Require Import Base Num ToolsProof MinresProof GkProof.
Import ListNotations.
Local Open Scope R_scope.

Lemma rsum_add : forall {T} (f g : T -> R) l, rsum (map (fun x => f x + g x) l) = rsum (map f l) + rsum (map g l).
Proof. intros T f g l. induction l as [|x l IH]; unfold rsum in *; cbn; [lra|]. rewrite IH. lra. Qed.
Lemma rsum_le : forall {T} (f g : T -> R) l, (forall x, In x l -> f x <= g x) -> rsum (map f l) <= rsum (map g l).
Proof.
  intros T f g l H. induction l as [|x l IH]; unfold rsum in *; cbn; [lra|].
  assert (f x <= g x) by (apply H; left; reflexivity). assert (fold_right Rplus 0 (map f l) <= fold_right Rplus 0 (map g l)) by (apply IH; intros; apply H; right; assumption). lra.
Qed.

Lemma bessel1 : forall {E : IPS} (v : iv E) W, orthog W -> (forall w, In w W -> ip w w = 1) ->
  rsum (map (fun w => ip v w * ip v w) W) <= ip v v.
Proof.
  intros E v W O U. replace (rsum (map (fun w => ip v w * ip v w) W)) with (bsum v W).
  - apply bessel; [exact O|]. apply Forall_forall. intros w I Z. specialize (U w I). rewrite Z, ip_zero in U. lra.
  - clear O. induction W as [|w W IH]; [reflexivity|]. unfold rsum in *. cbn. rewrite (U w (or_introl eq_refl)).
    rewrite IH by (intros; apply U; right; assumption). field.
Qed.

(** The rows of [A] are the images of the coordinate vectors under its transpose. *)
Definition rowsum {E : IPS} {m : nat} (At : iv (Rn m) -> iv E) : R :=
  rsum (map (fun e : iv (Rn m) => ip (At e) (At e)) (basis m)).

Lemma frob_rn : forall (E : IPS) m (A : iv E -> iv (Rn m)) At, adjoint A At -> forall W, orthog W -> (forall w, In w W -> ip w w = 1) ->
  rsum (map (fun w => ip (A w) (A w)) W) <= rowsum At.
Proof.
  intros E m A At AD W O U. unfold rowsum.
  apply Rle_trans with (rsum (map (fun e : iv (Rn m) => rsum (map (fun w => ip (At e) w * ip (At e) w) W)) (basis m))).
  - right. transitivity (rsum (map (fun w => rsum (map (fun e : iv (Rn m) => ip (At e) w * ip (At e) w) (basis m))) W)).
    + f_equal. apply map_ext. intro w. symmetry.
      transitivity (rsum (map (fun e : rv m => rvdot e (A w) * rvdot e (A w)) (basis m))).
      * f_equal. apply map_ext. intro e. rewrite <- (AD e w). reflexivity.
      * apply (parseval m (A w)).
    + clear O U. induction (basis m : list (iv (Rn m))) as [|e B IH].
      * induction W as [|w W IH]; [reflexivity|]. unfold rsum in *. cbn in *. rewrite IH. lra.
      * cbn [map]. change (rsum (map (fun w => ip (At e) w * ip (At e) w + rsum (map (fun e : iv (Rn m) => ip (At e) w * ip (At e) w) B)) W)
          = rsum (map (fun w => ip (At e) w * ip (At e) w) W) + rsum (map (fun e : iv (Rn m) => rsum (map (fun w => ip (At e) w * ip (At e) w) W)) B)).
        rewrite rsum_add, IH. reflexivity.
  - apply rsum_le. intros e _. apply bessel1; assumption.
Qed.

Lemma cs_abs : forall {E : IPS} (u v : iv E), Rabs (ip u v) <= inorm u * inorm v.
Proof.
  intros E u v. apply Rabs_le. split; [|apply cauchy_norm].
  pose proof (cauchy_norm (ineg u) v) as C. unfold ineg in C. rewrite inorm_scale, ip_scalel in C.
  replace (Rabs (-1)) with 1 in C by (rewrite Rabs_left; lra). lra.
Qed.

Section BW.
Context {E1 E2 : IPS}.
Variables (A : iv E1 -> iv E2) (At : iv E2 -> iv E1).
Hypothesis AD : adjoint A At.
Variables (b : iv E2) (x : iv E1).

Theorem backward1 : forall p t, 0 <= p -> 0 <= t -> inorm (isub b (A x)) <= p + t * inorm x ->
  exists (D : iv E1 -> iv E2) (f : iv E2), lin D /\ (forall z, inorm (D z) <= t * inorm z) /\ inorm f <= p /\
    iadd (A x) (D x) = iadd b f.
Proof.
  intros p t P0 T0 H. set (r := isub b (A x)) in *. pose proof (inorm_pos x) as X0. pose proof (inorm_pos r) as R0.
  assert (AX : A x = isub b r) by (unfold r; veq).
  destruct (Req_dec (p + t * inorm x) 0) as [Z|Z].
  { assert (RZ : r = izero) by (apply inorm_zero; lra).
    exists (fun _ => izero), izero. split; [split; intros; veq|]. split; [intro z; rewrite inorm_izero; pose proof (inorm_pos z); nra|].
    split; [rewrite inorm_izero; exact P0|]. rewrite AX, RZ. veq. }
  assert (S0 : 0 < p + t * inorm x) by (assert (0 <= t * inorm x) by nra; lra).
  destruct (Req_dec (inorm x) 0) as [XZ|XN].
  { exists (fun _ => izero), (ineg r). split; [split; intros; veq|]. split; [intro z; rewrite inorm_izero; pose proof (inorm_pos z); nra|].
    split; [rewrite XZ in H; unfold ineg; rewrite inorm_scale; replace (Rabs (-1)) with 1 by (rewrite Rabs_left; lra); lra|]. rewrite AX. veq. }
  assert (XP : 0 < inorm x) by lra.
  set (th := t * inorm x / (p + t * inorm x)).
  assert (TH : th * (p + t * inorm x) = t * inorm x) by (unfold th; field; exact Z).
  assert (TH0 : 0 <= th) by (unfold th; apply Rmult_le_pos; [nra|left; apply Rinv_0_lt_compat; exact S0]).
  assert (TH1 : th <= 1) by nra.
  exists (fun z => iscale (th * (ip x z / (inorm x * inorm x))) r), (iscale (- (1 - th)) r).
  split. { split; intros; apply ip_ext; intro w; ipx; field; exact XN. }
  split; [|split].
  - intro z. rewrite inorm_scale, Rabs_mult, (Rabs_pos_eq th) by exact TH0.
    unfold Rdiv. rewrite Rabs_mult, (Rabs_pos_eq (/ (inorm x * inorm x))) by (left; apply Rinv_0_lt_compat; nra).
    pose proof (cs_abs x z) as CS. pose proof (inorm_pos z) as Z0.
    apply Rmult_le_reg_r with (r := inorm x * inorm x); [nra|].
    replace (th * (Rabs (ip x z) * / (inorm x * inorm x)) * inorm r * (inorm x * inorm x)) with (Rabs (ip x z) * (th * inorm r)) by (field; exact XN).
    assert (th * inorm r <= t * inorm x) by nra.
    assert (0 <= th * inorm r) by nra.
    apply Rle_trans with (inorm x * inorm z * (th * inorm r)); [apply Rmult_le_compat_r; assumption|].
    replace (t * inorm z * (inorm x * inorm x)) with (inorm x * inorm z * (t * inorm x)) by ring.
    apply Rmult_le_compat_l; [nra|assumption].
  - rewrite inorm_scale, Rabs_Ropp, Rabs_pos_eq by lra.
    apply Rle_trans with ((1 - th) * (p + t * inorm x)); [apply Rmult_le_compat_l; lra|]. lra.
  - rewrite AX. apply ip_ext. intro w. ipx. rewrite (inorm_sq x). 
    assert (ip x x <> 0) by (rewrite <- inorm_sq; nra). field. assumption.
Qed.

(** [x] is an exact solution of a perturbed (damped) least-squares problem. *)
Theorem backward2 : forall d t, 0 <= t ->
  let r := isub b (A x) in let n := isub (At r) (iscale (d * d) x) in let o := ip r r + d * d * ip x x in
  inorm n <= t * sqrt o ->
  exists (D1 : iv E1 -> iv E2) (D2 : iv E1 -> iv E1), lin D1 /\ lin D2 /\
    (forall z, ip (D1 z) (D1 z) + ip (D2 z) (D2 z) <= t * t * ip z z) /\ (d = 0 -> forall z, D2 z = izero) /\
    forall z, let g z := let a := isub b (iadd (A z) (D1 z)) in let c := iadd (iscale d z) (D2 z) in ip a a + ip c c in g x <= g z.
Proof.
  intros d t T0 r n o H. assert (O0 : 0 <= o) by (unfold o; pose proof (ip_pos r); pose proof (ip_pos x); nra).
  destruct (Req_dec o 0) as [Z|Z].
  { exists (fun _ => izero), (fun _ => izero). split; [split; intros; veq|]. split; [split; intros; veq|].
    split; [intro z; ipx; pose proof (ip_pos z); nra|]. split; [reflexivity|].
    intros z g. apply Rle_trans with 0.
    - right. unfold g. cbv zeta.
      assert (E1x : isub b (iadd (A x) izero) = r) by (unfold r; veq). rewrite E1x. ipx. unfold o in Z. lra.
    - unfold g. cbv zeta. pose proof (ip_pos (isub b (iadd (A z) izero))). pose proof (ip_pos (iadd (iscale d z) izero)). lra. }
  assert (OP : 0 < o) by lra.
  exists (fun z => iscale (- (ip n z / o)) r), (fun z => iscale (d * (ip n z / o)) x).
  split. { split; intros; apply ip_ext; intro w; ipx; field; exact Z. }
  split. { split; intros; apply ip_ext; intro w; ipx; field; exact Z. }
  split; [|split].
  - intro z. ipx. 
    replace (- (ip n z / o) * (- (ip n z / o) * ip r r) + d * (ip n z / o) * (d * (ip n z / o) * ip x x))
      with (ip n z * ip n z / (o * o) * (ip r r + d * d * ip x x)) by (field; exact Z).
    fold o. replace (ip n z * ip n z / (o * o) * o) with (ip n z * ip n z / o) by (field; exact Z).
    apply Rmult_le_reg_r with (r := o); [exact OP|]. replace (ip n z * ip n z / o * o) with (ip n z * ip n z) by (field; exact Z).
    pose proof (cauchy n z) as CS. assert (NN : ip n n <= t * t * o).
    { rewrite <- inorm_sq. pose proof (inorm_pos n). pose proof (sqrt_pos o). pose proof (sqrt_sqrt o O0) as Q.
      replace (t * t * o) with (t * sqrt o * (t * sqrt o)) by (rewrite <- Q at 3; ring).
      apply Rmult_le_compat; assumption. }
    pose proof (ip_pos z). nra.
  - intros -> z. apply ip_ext. intro w. ipx. ring.
  - intros z g. set (h := isub z x).
    assert (ZH : z = iadd x h) by (unfold h; veq).
    set (c := 1 + ip n x / o).
    set (a1 := iadd (A h) (iscale (- (ip n h / o)) r)). set (a2 := iadd (iscale d h) (iscale (d * (ip n h / o)) x)).
    assert (GX1 : isub b (iadd (A x) (iscale (- (ip n x / o)) r)) = iscale c r).
    { unfold c. apply ip_ext. intro w. unfold r. ipx. field. exact Z. }
    assert (GX2 : iadd (iscale d x) (iscale (d * (ip n x / o)) x) = iscale (c * d) x).
    { unfold c. apply ip_ext. intro w. ipx. field. exact Z. }
    assert (GZ1 : isub b (iadd (A z) (iscale (- (ip n z / o)) r)) = isub (iscale c r) a1).
    { rewrite ZH, <- GX1, (lin_add A (adjoint_lin A At AD)). unfold a1. apply ip_ext. intro w. ipx. field. exact Z. }
    assert (GZ2 : iadd (iscale d z) (iscale (d * (ip n z / o)) x) = iadd (iscale (c * d) x) a2).
    { rewrite ZH, <- GX2. unfold a2. apply ip_ext. intro w. ipx. field. exact Z. }
    unfold g. cbv zeta. rewrite GX1, GX2, GZ1, GZ2.
    assert (OR : ip r a1 - d * ip x a2 = 0).
    { unfold a1, a2. ipx. rewrite AD.
      assert (NH : ip n h = ip (At r) h - d * d * ip x h) by (unfold n; ipx; reflexivity).
      replace (ip (At r) h) with (ip n h + d * d * ip x h) by lra.
      assert (HO : ip r r = o - d * d * ip x x) by (unfold o; ring). rewrite HO. field. exact Z. }
    pose proof (ip_pos a1) as Q1. pose proof (ip_pos a2) as Q2.
    ipx. rewrite (ip_sym a1 r), (ip_sym a2 x). 
    match goal with |- ?l <= ?rr => assert (X : rr - l = ip a1 a1 + ip a2 a2 - 2 * c * (ip r a1 - d * ip x a2)) by ring end.
    rewrite OR in X. lra.
Qed.
End BW.
