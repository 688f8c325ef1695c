(** * Arithmetic with rounding, overflow and underflow

    What the theorems about floating point assume of the vectors of a solver: some scalars and vectors are
    finite; the result of an operation is finite only if its vector operands are; a finite result differs from
    the exact one by at most [u] times its norm plus [h] ([u]: unit roundoff, [h]: underflow).  Nothing is
    assumed of scalar arithmetic. *)
From Coq Require Import List ZArith Reals Lia Lra Bool Psatz.
From Verif Require Import Base Num.
Local Open Scope R_scope.

Record flarith {K : Scal} (W : Vs K) (E : IPS) (u h : R) := mkfl {
  sv : sc K -> R;                       (* value of a scalar *)
  fv : vc W -> Prop;                    (* no entry is infinite or NaN *)
  vv : vc W -> iv E;                    (* value of a vector *)
  fl_zeros : forall n, vv (vzeros n) = izero;
  fl_neg : forall x, fv (vneg x) -> fv x /\ vv (vneg x) = ineg (vv x);
  fl_add : forall x y, fv (vadd x y) -> fv x /\ fv y /\
    inorm (isub (vv (vadd x y)) (iadd (vv x) (vv y))) <= u * inorm (iadd (vv x) (vv y)) + h;
  fl_sub : forall x y, fv (vsub x y) -> fv x /\ fv y /\
    inorm (isub (vv (vsub x y)) (isub (vv x) (vv y))) <= u * inorm (isub (vv x) (vv y)) + h;
  fl_scale : forall a x, fv (vscale a x) -> fv x /\
    inorm (isub (vv (vscale a x)) (iscale (sv a) (vv x))) <= u * inorm (iscale (sv a) (vv x)) + h }.
Arguments sv {K W E u h} _ _. Arguments fv {K W E u h} _ _. Arguments vv {K W E u h} _ _.
Arguments fl_zeros {K W E u h} _ _. Arguments fl_neg {K W E u h} _ _ _. Arguments fl_add {K W E u h} _ _ _ _.
Arguments fl_sub {K W E u h} _ _ _ _. Arguments fl_scale {K W E u h} _ _ _ _.

Section Step.
Context {E : IPS}.
Implicit Types x y r p t w : iv E.
Lemma nadd : forall x y, inorm (iadd x y) <= inorm x + inorm y.
Proof. intros. apply inorm_triangle. Qed.
Lemma nsub : forall x y, inorm (isub x y) <= inorm x + inorm y.
Proof. intros x y. unfold isub. rewrite <- (inorm_neg y). apply inorm_triangle. Qed.

Variables (A : iv E -> iv E) (b : iv E) (nA c u h B X : R).
Hypothesis LA : lin A.
Hypothesis BA : forall x, inorm (A x) <= nA * inorm x.
Hypothesis NA0 : 0 <= nA.
Hypothesis C0 : 0 <= c.
Hypothesis U0 : 0 <= u <= / 8.
Hypothesis H0 : 0 <= h.
Hypothesis HB : inorm b <= B.

(** the error one update of the iterate and the residual can make *)
Definition drift : R := (8 * u * nA + 3 * c) * (X + h) + 2 * u * B + 3 * h * (1 + nA).

Lemma drift_pos : 0 <= X -> 0 <= drift.
Proof.
  intro X0. pose proof (inorm_pos b). unfold drift.
  assert (0 <= u * nA) by (apply Rmult_le_pos; lra).
  assert (0 <= (8 * u * nA + 3 * c) * (X + h)) by (apply Rmult_le_pos; lra).
  assert (0 <= u * B) by (apply Rmult_le_pos; lra).
  assert (0 <= h * nA) by (apply Rmult_le_pos; lra). lra.
Qed.

(** the gap between the true residual A x - b and the computed one *)
Definition gap x r : R := inorm (isub (isub (A x) b) r).
Lemma gap_pos : forall x r, 0 <= gap x r.
Proof. intros. apply inorm_pos. Qed.
Lemma gap_r : forall x r X', inorm x <= X' -> inorm r <= nA * X' + B + gap x r.
Proof.
  intros x r X' HX.
  replace r with (isub (isub (A x) b) (isub (isub (A x) b) r)) at 1 by veq.
  eapply Rle_trans; [apply nsub|]. fold (gap x r). pose proof (nsub (A x) b). pose proof (BA x).
  assert (nA * inorm x <= nA * X') by (apply Rmult_le_compat_l; lra). lra.
Qed.

Lemma step_size : forall x x' t p a, inorm x <= X -> inorm x' <= X ->
  inorm (isub t (iscale a p)) <= u * inorm (iscale a p) + h ->
  inorm (isub x' (iadd x t)) <= u * inorm (iadd x t) + h ->
  7 * inorm (iadd x t) <= 8 * (X + h) /\ 2 * inorm (iscale a p) <= 5 * (X + h).
Proof.
  intros x x' t p a HX HX' E1 E2.
  assert (T1 : inorm (iadd x t) <= inorm x' + inorm (isub x' (iadd x t))).
  { replace (iadd x t) with (isub x' (isub x' (iadd x t))) at 1 by veq. apply nsub. }
  assert (T2 : inorm t <= inorm (iadd x t) + inorm x).
  { replace t with (isub (iadd x t) x) at 1 by veq. apply nsub. }
  assert (T3 : inorm (iscale a p) <= inorm t + inorm (isub t (iscale a p))).
  { replace (iscale a p) with (isub t (isub t (iscale a p))) at 1 by veq. apply nsub. }
  pose proof (inorm_pos (iadd x t)) as P1. pose proof (inorm_pos (iscale a p)) as P2.
  assert (U1 : u * inorm (iadd x t) <= / 8 * inorm (iadd x t)) by (apply Rmult_le_compat_r; lra).
  assert (U2 : u * inorm (iscale a p) <= / 8 * inorm (iscale a p)) by (apply Rmult_le_compat_r; lra).
  split; lra.
Qed.

(** one update: the iterate moves by nearly a p, the residual by the computed a w, w nearly A p *)
Lemma step_gen : forall x x' r r' p w s a q X', inorm x' <= X' -> inorm (iscale a p) <= q ->
  inorm (isub w (A p)) <= c * inorm p ->
  inorm (isub s (iscale a w)) <= u * inorm (iscale a w) + h ->
  inorm (isub r' (iadd r s)) <= u * inorm (iadd r s) + h ->
  gap x' r' <= (1 + 2 * u) * (gap x r + (nA * inorm (isub x' (iadd x (iscale a p))) +
    u * (8 / 7 * (nA * X' + B + h)) + 2 * h + (u * (nA + c) + c) * q)).
Proof.
  intros x x' r r' p w s a q X' HX' HQ E3 E4 E5.
  assert (Q0 : 0 <= q) by (pose proof (inorm_pos (iscale a p)); lra).
  assert (X0 : 0 <= X') by (pose proof (inorm_pos x'); lra).
  assert (B0 : 0 <= B) by (pose proof (inorm_pos b); lra).
  assert (P3 := inorm_pos (iadd r s)).
  assert (T4 : inorm (iadd r s) <= inorm r' + inorm (isub r' (iadd r s))).
  { replace (iadd r s) with (isub r' (isub r' (iadd r s))) at 1 by veq. apply nsub. }
  assert (U3 : u * inorm (iadd r s) <= / 8 * inorm (iadd r s)) by (apply Rmult_le_compat_r; lra).
  assert (D3 : inorm (isub r' (iadd r s)) <= u * (8 / 7 * (inorm r' + h)) + h).
  { eapply Rle_trans; [exact E5|]. apply Rplus_le_compat_r, Rmult_le_compat_l; lra. }
  assert (EW : inorm (isub (iscale a w) (iscale a (A p))) <= c * q).
  { replace (isub (iscale a w) (iscale a (A p))) with (iscale a (isub w (A p))) by veq.
    rewrite inorm_scale. rewrite inorm_scale in HQ.
    apply Rle_trans with (c * (Rabs a * inorm p)); [|apply Rmult_le_compat_l; lra].
    replace (c * (Rabs a * inorm p)) with (Rabs a * (c * inorm p)) by ring.
    apply Rmult_le_compat_l; [apply Rabs_pos|exact E3]. }
  assert (NW : inorm (iscale a w) <= (nA + c) * q).
  { replace (iscale a w) with (iadd (A (iscale a p)) (isub (iscale a w) (iscale a (A p))))
      by (rewrite (lin_scale A LA); veq).
    eapply Rle_trans; [apply nadd|]. pose proof (BA (iscale a p)).
    assert (nA * inorm (iscale a p) <= nA * q) by (apply Rmult_le_compat_l; lra). lra. }
  assert (D4 : inorm (isub s (iscale a w)) <= u * ((nA + c) * q) + h).
  { eapply Rle_trans; [exact E4|]. apply Rplus_le_compat_r, Rmult_le_compat_l; lra. }
  set (d1 := isub x' (iadd x (iscale a p))) in *.
  set (d3 := isub r' (iadd r s)) in *. set (d4 := isub s (iscale a w)) in *.
  set (d5 := isub (iscale a w) (iscale a (A p))) in *.
  assert (ID : isub (isub (A x') b) r' = iadd (isub (isub (A x) b) r) (isub (A d1) (iadd d3 (iadd d4 d5)))).
  { assert (X1 : A x' = iadd (A x) (iadd (iscale a (A p)) (A d1))).
    { rewrite <- (lin_scale A LA), <- !(lin_add A LA). f_equal. unfold d1. veq. }
    rewrite X1. unfold d3, d4, d5. veq. }
  assert (G1 : gap x' r' <= gap x r + (nA * inorm d1 + (inorm d3 + (inorm d4 + inorm d5)))).
  { unfold gap at 1. rewrite ID. eapply Rle_trans; [apply nadd|]. fold (gap x r). apply Rplus_le_compat_l.
    eapply Rle_trans; [apply nsub|]. apply Rplus_le_compat; [apply BA|].
    eapply Rle_trans; [apply nadd|]. apply Rplus_le_compat_l. apply nadd. }
  pose proof (gap_r x' r' X' HX') as GR. pose proof (gap_pos x r) as GP. pose proof (gap_pos x' r') as GP'.
  assert (M2 : u * (8 / 7 * (inorm r' + h)) <= u * (8 / 7 * (nA * X' + B + gap x' r' + h))).
  { apply Rmult_le_compat_l; lra. }
  assert (G2 : gap x' r' <= gap x r + (nA * inorm d1 + u * (8 / 7 * (nA * X' + B + h)) + 2 * h + (u * (nA + c) + c) * q)
    + 8 / 7 * (u * gap x' r')) by lra.
  (* (1 - 8/7 u)(1 + 2u) >= 1 *)
  set (g := gap x r + (nA * inorm d1 + u * (8 / 7 * (nA * X' + B + h)) + 2 * h + (u * (nA + c) + c) * q)) in *.
  set (g' := gap x' r') in *.
  assert (F1 : (1 - 8 / 7 * u) * g' <= g) by lra.
  assert (F2 : (1 + 2 * u) * ((1 - 8 / 7 * u) * g') <= (1 + 2 * u) * g) by (apply Rmult_le_compat_l; lra).
  assert (F3 : 1 <= (1 + 2 * u) * (1 - 8 / 7 * u)) by nra.
  assert (F4 : 1 * g' <= ((1 + 2 * u) * (1 - 8 / 7 * u)) * g') by (apply Rmult_le_compat_r; lra).
  rewrite Rmult_assoc in F4. lra.
Qed.

Lemma step_err : forall x x' t p a, inorm x <= X -> inorm x' <= X ->
  inorm (isub t (iscale a p)) <= u * inorm (iscale a p) + h ->
  inorm (isub x' (iadd x t)) <= u * inorm (iadd x t) + h ->
  inorm (isub x' (iadd x (iscale a p))) <= u * (51 / 14 * (X + h)) + 2 * h.
Proof.
  intros x x' t p a HX HX' E1 E2. destruct (step_size x x' t p a HX HX' E1 E2) as [S1 S2].
  replace (isub x' (iadd x (iscale a p))) with (iadd (isub x' (iadd x t)) (isub t (iscale a p))) by veq.
  eapply Rle_trans; [apply nadd|].
  assert (u * inorm (iadd x t) <= u * (8 / 7 * (X + h))) by (apply Rmult_le_compat_l; lra).
  assert (u * inorm (iscale a p) <= u * (5 / 2 * (X + h))) by (apply Rmult_le_compat_l; lra). lra.
Qed.

Section Facts.
Hypothesis X0 : 0 <= X.
Lemma f_UN : 0 <= u * nA * (X + h). Proof. apply Rmult_le_pos; [apply Rmult_le_pos|]; lra. Qed.
Lemma f_UNX : u * nA * X <= u * nA * (X + h). Proof. apply Rmult_le_compat_l; [apply Rmult_le_pos|]; lra. Qed.
Lemma f_UNH : 0 <= u * nA * h. Proof. apply Rmult_le_pos; [apply Rmult_le_pos|]; lra. Qed.
Lemma f_CX : 0 <= c * (X + h). Proof. apply Rmult_le_pos; lra. Qed.
Lemma f_UCX : u * (c * (X + h)) <= / 8 * (c * (X + h)).
Proof. apply Rmult_le_compat_r; [apply f_CX|lra]. Qed.
Lemma f_UB : 0 <= u * B. Proof. pose proof (inorm_pos b). apply Rmult_le_pos; lra. Qed.
Lemma f_UH : u * h <= / 8 * h. Proof. apply Rmult_le_compat_r; lra. Qed.
Lemma f_HN : 0 <= h * nA. Proof. apply Rmult_le_pos; lra. Qed.
End Facts.

Lemma step_gap : forall x x' r r' t p w s a, inorm x <= X -> inorm x' <= X ->
  inorm (isub t (iscale a p)) <= u * inorm (iscale a p) + h ->
  inorm (isub x' (iadd x t)) <= u * inorm (iadd x t) + h ->
  inorm (isub w (A p)) <= c * inorm p ->
  inorm (isub s (iscale a w)) <= u * inorm (iscale a w) + h ->
  inorm (isub r' (iadd r s)) <= u * inorm (iadd r s) + h ->
  gap x' r' <= (1 + 2 * u) * (gap x r + drift).
Proof.
  intros x x' r r' t p w s a HX HX' E1 E2 E3 E4 E5.
  destruct (step_size x x' t p a HX HX' E1 E2) as [S1 S2]. pose proof (step_err x x' t p a HX HX' E1 E2) as S3.
  assert (X0 : 0 <= X) by (pose proof (inorm_pos x); lra).
  eapply Rle_trans; [eapply (step_gen x x' r r' p w s a (5 / 2 * (X + h)) X); [exact HX'|lra|exact E3|exact E4|exact E5]|].
  apply Rmult_le_compat_l; [lra|]. apply Rplus_le_compat_l.
  apply (Rmult_le_compat_l nA) in S3; [|exact NA0].
  pose proof (f_UN X0). pose proof f_UNX. pose proof (f_CX X0). pose proof (f_UCX X0). pose proof f_UB. pose proof f_UH. pose proof f_HN.
  unfold drift. lra.
Qed.

(** two updates of the residual, the iterate being updated in the other order (BiCGSTAB) *)
Lemma step_two : forall x x1 x' r s r' ta pa wa va a to po wo vo o,
  inorm x <= X -> inorm x1 <= X -> inorm x' <= X ->
  inorm (isub to (iscale o po)) <= u * inorm (iscale o po) + h ->
  inorm (isub x1 (iadd x to)) <= u * inorm (iadd x to) + h ->
  inorm (isub ta (iscale a pa)) <= u * inorm (iscale a pa) + h ->
  inorm (isub x' (iadd x1 ta)) <= u * inorm (iadd x1 ta) + h ->
  inorm (isub wa (A pa)) <= c * inorm pa ->
  inorm (isub va (iscale a wa)) <= u * inorm (iscale a wa) + h ->
  inorm (isub s (iadd r va)) <= u * inorm (iadd r va) + h ->
  inorm (isub wo (A po)) <= c * inorm po ->
  inorm (isub vo (iscale o wo)) <= u * inorm (iscale o wo) + h ->
  inorm (isub r' (iadd s vo)) <= u * inorm (iadd s vo) + h ->
  gap x' r' <= (1 + 2 * u) * ((1 + 2 * u) * (gap x r + drift) + 2 * drift).
Proof.
  intros x x1 x' r s r' ta pa wa va a to po wo vo o HX HX1 HX' O1 O2 A1 A2 A3 A4 A5 O3 O4 O5.
  destruct (step_size x x1 to po o HX HX1 O1 O2) as [SO1 SO2]. pose proof (step_err x x1 to po o HX HX1 O1 O2) as SO3.
  destruct (step_size x1 x' ta pa a HX1 HX' A1 A2) as [SA1 SA2]. pose proof (step_err x1 x' ta pa a HX1 HX' A1 A2) as SA3.
  assert (X0 : 0 <= X) by (pose proof (inorm_pos x); lra).
  set (y := iadd x (iscale a pa)).
  assert (NY : inorm y <= 7 / 2 * (X + h)).
  { unfold y. eapply Rle_trans; [apply nadd|]. lra. }
  pose proof (f_UN X0). pose proof f_UNX. pose proof (f_UNH). pose proof (f_CX X0). pose proof (f_UCX X0). pose proof f_UB. pose proof f_UH. pose proof f_HN.
  assert (G1 : gap y s <= (1 + 2 * u) * (gap x r + drift)).
  { eapply Rle_trans; [eapply (step_gen x y r s pa wa va a (5 / 2 * (X + h)) (7 / 2 * (X + h)));
      [exact NY|lra|exact A3|exact A4|exact A5]|].
    apply Rmult_le_compat_l; [lra|]. apply Rplus_le_compat_l.
    replace (isub y (iadd x (iscale a pa))) with (@izero E) by (unfold y; veq). rewrite inorm_izero.
    unfold drift. lra. }
  assert (EX : inorm (isub x' (iadd y (iscale o po))) <= u * (51 / 7 * (X + h)) + 4 * h).
  { replace (isub x' (iadd y (iscale o po))) with
      (iadd (isub x' (iadd x1 (iscale a pa))) (isub x1 (iadd x (iscale o po)))) by (unfold y; veq).
    eapply Rle_trans; [apply nadd|]. lra. }
  eapply Rle_trans; [eapply (step_gen y x' s r' po wo vo o (5 / 2 * (X + h)) X); [exact HX'|lra|exact O3|exact O4|exact O5]|].
  apply Rmult_le_compat_l; [lra|]. apply Rplus_le_compat; [exact G1|].
  apply (Rmult_le_compat_l nA) in EX; [|exact NA0].
  unfold drift. lra.
Qed.

(** after [k] updates *)
Definition drifts (k : nat) : R := INR k * (1 + 2 * u) ^ k * drift.
Lemma pow1 : forall k, 1 <= (1 + 2 * u) ^ k.
Proof. intro k. apply pow_R1_Rle. lra. Qed.
Lemma drifts_step : forall k g, 0 <= X -> g <= drifts k -> (1 + 2 * u) * (g + drift) <= drifts (S k).
Proof.
  intros k g X0 G. pose proof (drift_pos X0) as D0. pose proof (pow1 k) as P. pose proof (pos_INR k) as I.
  unfold drifts in *. rewrite S_INR. cbn [pow].
  replace ((INR k + 1) * ((1 + 2 * u) * (1 + 2 * u) ^ k) * drift)
    with ((1 + 2 * u) * (INR k * (1 + 2 * u) ^ k * drift + (1 + 2 * u) ^ k * drift)) by ring.
  apply Rmult_le_compat_l; [lra|].
  assert (1 * drift <= (1 + 2 * u) ^ k * drift) by (apply Rmult_le_compat_r; lra). lra.
Qed.
Lemma drifts_mono : forall k l, 0 <= X -> (k <= l)%nat -> drifts k <= drifts l.
Proof.
  intros k l X0 L. pose proof (drift_pos X0) as D0. unfold drifts. apply Rmult_le_compat_r; [exact D0|].
  apply Rmult_le_compat; [apply pos_INR|pose proof (pow1 k); lra|apply le_INR; exact L|].
  apply Rle_pow; [lra|exact L].
Qed.
Lemma drifts_pos : forall k, 0 <= X -> 0 <= drifts k.
Proof.
  intros k X0. pose proof (drift_pos X0) as D0. pose proof (pow1 k) as P. pose proof (pos_INR k) as I.
  unfold drifts. apply Rmult_le_pos; [apply Rmult_le_pos; lra|exact D0].
Qed.
(** the first residual of a given starting point: r = -b + A g *)
Lemma start_gap : forall g w r, inorm g <= X -> inorm (isub w (A g)) <= c * inorm g ->
  inorm (isub r (iadd (ineg b) w)) <= u * inorm (iadd (ineg b) w) + h -> gap g r <= drift.
Proof.
  intros g w r HX E1 E2.
  assert (X0 : 0 <= X) by (pose proof (inorm_pos g); lra).
  assert (B0 : 0 <= B) by (pose proof (inorm_pos b); lra).
  assert (N1 : inorm (iadd (ineg b) w) <= B + (nA + c) * X).
  { eapply Rle_trans; [apply nadd|]. rewrite inorm_neg.
    assert (inorm w <= inorm (A g) + inorm (isub w (A g))).
    { replace w with (iadd (A g) (isub w (A g))) at 1 by veq. apply nadd. }
    pose proof (BA g). assert ((nA + c) * inorm g <= (nA + c) * X) by (apply Rmult_le_compat_l; lra). lra. }
  assert (ID : isub (isub (A g) b) r = isub (ineg (isub w (A g))) (isub r (iadd (ineg b) w))) by veq.
  unfold gap. rewrite ID. eapply Rle_trans; [apply nsub|]. rewrite inorm_neg.
  assert (u * inorm (iadd (ineg b) w) <= u * (B + (nA + c) * X)) by (apply Rmult_le_compat_l; lra).
  assert (c * inorm g <= c * X) by (apply Rmult_le_compat_l; lra).
  assert (UN : 0 <= u * nA) by (apply Rmult_le_pos; lra).
  assert (u * nA * X <= u * nA * (X + h)) by (apply Rmult_le_compat_l; lra).
  assert (0 <= u * nA * (X + h)) by (apply Rmult_le_pos; lra).
  assert (CX : 0 <= c * X) by (apply Rmult_le_pos; lra).
  assert (u * (c * X) <= / 8 * (c * X)) by (apply Rmult_le_compat_r; lra).
  assert (UB : 0 <= u * B) by (apply Rmult_le_pos; lra).
  assert (HN : 0 <= h * nA) by (apply Rmult_le_pos; lra).
  assert (0 <= c * h) by (apply Rmult_le_pos; lra).
  unfold drift. lra.
Qed.
(** a small computed residual means a small true residual *)
Lemma gap_true : forall x r, inorm (isub b (A x)) <= inorm r + gap x r.
Proof.
  intros x r. replace (isub b (A x)) with (isub (ineg r) (isub (isub (A x) b) r)) by veq.
  eapply Rle_trans; [apply nsub|]. rewrite inorm_neg. unfold gap. lra.
Qed.
End Step.
