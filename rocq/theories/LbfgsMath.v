(** * The BFGS update formulae, in exact arithmetic.

    [Hof g ps] is the inverse Hessian approximation obtained from [g*I] by the BFGS update with
    the pairs [ps], oldest first; [Bof b ps] the Hessian approximation obtained from [b*I].
    See Nocedal and Wright, "Numerical Optimization", formulae (6.17) and (6.19). *)
From Coq Require Import List Reals Lra Lia.
From Verif Require Import Base Num.
Import ListNotations.
Local Open Scope R_scope.

Section Bfgs.
Context {E : IPS}.
Notation V := (iv E).

(** (I - rho s y') H (I - rho y s') + rho s s',   rho = 1 / (s'y). *)
Definition Hupd (H : V -> V) (p : V * V) (v : V) : V :=
  let (s, y) := p in
  let rho := / ip s y in
  let left w := isub w (iscale (rho * ip y w) s) in
  let right w := isub w (iscale (rho * ip s w) y) in
  iadd (left (H (right v))) (iscale (rho * ip s v) s).

(** B - B s s' B / (s' B s) + y y' / (s'y). *)
Definition Bupd (B : V -> V) (p : V * V) (v : V) : V :=
  let (s, y) := p in
  iadd (isub (B v) (iscale (ip (B s) v / ip s (B s)) (B s))) (iscale (ip y v / ip s y) y).

Definition Hof (g : R) (ps : list (V * V)) : V -> V := fold_left Hupd ps (iscale g).
Definition Bof (b : R) (ps : list (V * V)) : V -> V := fold_left Bupd ps (iscale b).

Definition curved (p : V * V) : Prop := 0 < ip (fst p) (snd p).

Record hgood (H : V -> V) : Prop := mkhg { hg_lin : lin H; hg_sym : selfadj H; hg_pos : posdef H }.
Record pairgood (H B : V -> V) : Prop := mkpg {
  pg_H : hgood H; pg_B : hgood B; pg_BH : forall v, B (H v) = v; pg_HB : forall v, H (B v) = v }.

Lemma hupd_good : forall H p, curved p -> hgood H -> hgood (Hupd H p).
Proof.
  intros H [s y] C [L S P]. unfold curved in C. cbn in C.
  assert (SU : forall u v, ip u (Hupd H (s, y) v) =
     ip (isub u (iscale (/ ip s y * ip s u) y)) (H (isub v (iscale (/ ip s y * ip s v) y)))
     + / ip s y * ip s u * ip s v).
  { intros u v. unfold Hupd. ipx. rewrite (ip_sym u s). ring. }
  split.
  - split; intros.
    + apply ip_ext; intro w. rewrite ip_add, !SU.
      replace (isub (iadd u v) (iscale (/ ip s y * ip s (iadd u v)) y))
        with (iadd (isub u (iscale (/ ip s y * ip s u) y)) (isub v (iscale (/ ip s y * ip s v) y)))
        by (rewrite ip_add; veq).
      rewrite (lin_add _ L). ipx. ring.
    + apply ip_ext; intro w. rewrite ip_scale, !SU.
      replace (isub (iscale a u) (iscale (/ ip s y * ip s (iscale a u)) y))
        with (iscale a (isub u (iscale (/ ip s y * ip s u) y))) by (rewrite ip_scale; veq).
      rewrite (lin_scale _ L). ipx. ring.
  - intros u v. rewrite (ip_sym (Hupd H (s, y) u)), !SU.
    match goal with |- context [ip ?a (H ?b)] =>
      pose proof (S a b) as X; cbn beta in X; rewrite (ip_sym (H a)) in X end.
    rewrite X || rewrite <- X. ring.
  - intros u U. rewrite SU.
    destruct (Req_dec (ip s u) 0) as [Z|Z].
    + rewrite Z. replace (isub u (iscale (/ ip s y * 0) y)) with u by (veq).
      specialize (P u U). lra.
    + assert (0 <= ip (isub u (iscale (/ ip s y * ip s u) y)) (H (isub u (iscale (/ ip s y * ip s u) y)))).
      { set (w := isub u _). destruct (Req_dec (ip w w) 0) as [W|W].
        - apply ip_def in W. rewrite W, ip_zerol. lra.
        - left. apply P. intro W'. apply W. rewrite W'. apply ip_zero. }
      assert (0 < / ip s y * ip s u * ip s u).
      { rewrite Rmult_assoc. apply Rmult_lt_0_compat; [apply Rinv_0_lt_compat, C|].
        apply Rsqr_pos_lt in Z. exact Z. }
      lra.
Qed.

Lemma curved_nz : forall s y : V, 0 < ip s y -> s <> izero /\ y <> izero.
Proof. intros s y C. split; intros ->; rewrite ?ip_zero, ?ip_zerol in C; lra. Qed.

Lemma bupd_sym : forall B p, selfadj B -> selfadj (Bupd B p).
Proof.
  intros B [s y] S u v. unfold Bupd. ipx.
  rewrite (S u v). rewrite (ip_sym u (B s)), (ip_sym u y). unfold Rdiv. ring.
Qed.

Lemma upd_inv : forall H B p, curved p -> pairgood H B -> pairgood (Hupd H p) (Bupd B p).
Proof.
  intros H B [s y] C [GH GB BH HB].
  pose proof (hupd_good H (s, y) C GH) as GH'.
  unfold curved in C. cbn in C.
  destruct (curved_nz s y C) as [NS NY].
  destruct GH as [LH SH PH], GB as [LB SB PB].
  pose proof (PB s NS) as SBS. set (sig := ip s (B s)) in *.
  assert (BH' : forall v, Bupd B (s, y) (Hupd H (s, y) v) = v).
  { intro v. unfold Hupd.
    set (c := / ip s y * ip s v). set (w := isub v (iscale c y)).
    set (d := / ip s y * ip y (H w)).
    assert (SW : ip s w = 0). { unfold w, c. ipx. field. lra. }
    assert (U : iadd (isub (H w) (iscale d s)) (iscale c s) = iadd (H w) (iscale (c - d) s)) by veq.
    rewrite U. unfold Bupd. fold sig.
    rewrite (lin_add _ LB), (lin_scale _ LB), BH.
    assert (E1 : ip (B s) (iadd (H w) (iscale (c - d) s)) / sig = c - d).
    { ipx. rewrite <- (SB s), BH, SW, (ip_sym (B s) s). fold sig. field. lra. }
    assert (E2 : ip y (iadd (H w) (iscale (c - d) s)) / ip s y = c).
    { ipx. rewrite (ip_sym y s). unfold d. field. lra. }
    rewrite E1, E2. unfold w. veq. }
  assert (HB' : forall v, Hupd H (s, y) (Bupd B (s, y) v) = v).
  { intro u. unfold Hupd. set (v := Bupd B (s, y) u).
    set (t := ip (B s) u / sig).
    assert (V1 : v = iadd (isub (B u) (iscale t (B s))) (iscale (ip y u / ip s y) y)) by reflexivity.
    assert (SV : / ip s y * ip s v = ip y u / ip s y).
    { rewrite V1. ipx. fold sig. rewrite (SB s u). unfold t. field. lra. }
    rewrite SV.
    assert (W : isub v (iscale (ip y u / ip s y) y) = B (isub u (iscale t s))).
    { rewrite (lin_sub _ LB), (lin_scale _ LB), V1. veq. }
    rewrite W, HB.
    assert (D : / ip s y * ip y (isub u (iscale t s)) = ip y u / ip s y - t).
    { ipx. rewrite (ip_sym y s). field. lra. }
    rewrite D. veq. }
  split; [exact GH'| |exact BH'|exact HB'].
  pose proof (bupd_sym B (s, y) SB) as S'.
  split; [exact (adjoint_lin _ _ S')|exact S'|].
  intros u U. rewrite <- (HB' u) at 1. rewrite ip_sym. apply (hg_pos _ GH').
  intro Z. apply U. rewrite <- (HB' u), Z. exact (lin_zero _ (hg_lin _ GH')).
Qed.

Lemma scale_good : forall g : R, 0 < g -> hgood (@iscale E g).
Proof.
  intros g G. split.
  - split; intros; veq.
  - intros u v. ipx. ring.
  - intros u U. ipx. apply Rmult_lt_0_compat; [exact G|].
    destruct (Req_dec (ip u u) 0) as [Z|Z]; [exfalso; apply U, ip_def, Z|].
    pose proof (ip_pos u). lra.
Qed.

Lemma scale_pair : forall g b : R, 0 < g -> b = / g -> pairgood (@iscale E g) (iscale b).
Proof.
  intros g b G ->. split.
  - apply scale_good, G.
  - apply scale_good, Rinv_0_lt_compat, G.
  - intro v. apply ip_ext; intro w. ipx. field. lra.
  - intro v. apply ip_ext; intro w. ipx. field. lra.
Qed.

Lemma of_snoc_H : forall g ps p, Hof g (ps ++ [p]) = Hupd (Hof g ps) p.
Proof. intros. unfold Hof. rewrite fold_left_app. reflexivity. Qed.
Lemma of_snoc_B : forall b ps p, Bof b (ps ++ [p]) = Bupd (Bof b ps) p.
Proof. intros. unfold Bof. rewrite fold_left_app. reflexivity. Qed.

Theorem of_good : forall g ps, 0 < g -> Forall curved ps -> pairgood (Hof g ps) (Bof (/ g) ps).
Proof.
  intros g ps G. induction ps as [|p ps IH] using rev_ind; intro F.
  - apply scale_pair; [exact G|reflexivity].
  - apply Forall_app in F. destruct F as [F1 F2]. inversion F2; subst.
    rewrite of_snoc_H, of_snoc_B. apply upd_inv; [assumption|]. apply IH, F1.
Qed.

(** The secant equations. *)
Theorem H_secant : forall g ps s y, 0 < g -> Forall curved (ps ++ [(s, y)]) ->
  Hof g (ps ++ [(s, y)]) y = s.
Proof.
  intros g ps s y G F. apply Forall_app in F. destruct F as [F1 F2]. inversion F2; subst.
  unfold curved in H1. cbn in H1. rewrite of_snoc_H. unfold Hupd.
  destruct (of_good g ps G F1) as [[L _ _] _ _ _].
  replace (isub y (iscale (/ ip s y * ip s y) y)) with (@izero E).
  2:{ apply ip_ext; intro w. ipx. field. lra. }
  rewrite (lin_zero _ L). apply ip_ext; intro w. ipx. field. lra.
Qed.
Theorem B_secant : forall g ps s y, 0 < g -> Forall curved (ps ++ [(s, y)]) ->
  Bof (/ g) (ps ++ [(s, y)]) s = y.
Proof.
  intros g ps s y G F. pose proof (of_good g _ G F) as P.
  rewrite <- (H_secant g ps s y G F) at 2. apply (pg_BH _ _ P).
Qed.

(** ** The compact representation. *)
Fixpoint rsum (n : nat) (f : nat -> R) : R :=
  match n with O => 0 | S n => rsum n f + f n end.
Fixpoint vsum (n : nat) (f : nat -> V) : V :=
  match n with O => izero | S n => iadd (vsum n f) (f n) end.

Lemma ip_vsum : forall w n f, ip w (vsum n f) = rsum n (fun i => ip w (f i)).
Proof. intros w n f. induction n as [|n IH]; cbn; [apply ip_zero|]. rewrite ip_add, IH. reflexivity. Qed.
Lemma rsum_ext : forall n f g, (forall i, (i < n)%nat -> f i = g i) -> rsum n f = rsum n g.
Proof.
  intros n f g. induction n as [|n IH]; intro H; [reflexivity|]. cbn. rewrite H, IH by lia || (intros; apply H; lia). 
  reflexivity.
Qed.
Lemma rsum_split : forall a b f, rsum (a + b) f = rsum a f + rsum b (fun i => f (a + i)%nat).
Proof.
  intros a b f. induction b as [|b IH]; [rewrite Nat.add_0_r; cbn; ring|].
  rewrite Nat.add_succ_r. cbn [rsum]. rewrite IH. ring.
Qed.
Lemma rsum_scal : forall c n f, rsum n (fun i => c * f i) = c * rsum n f.
Proof. intros c n f. induction n as [|n IH]; cbn; [ring|]. rewrite IH. ring. Qed.
Lemma rsum_plus : forall n f g, rsum n (fun i => f i + g i) = rsum n f + rsum n g.
Proof. intros n f g. induction n as [|n IH]; cbn; [ring|]. rewrite IH. ring. Qed.
Lemma rsum_zero : forall n f, (forall i, (i < n)%nat -> f i = 0) -> rsum n f = 0.
Proof.
  intros n f. induction n as [|n IH]; intro H; [reflexivity|]. cbn. rewrite IH by (intros; apply H; lia).
  rewrite H by lia. ring.
Qed.

Lemma first_snoc : forall (A : Type) (l : list A) d i, (i < length l)%nat ->
  firstn (S i) l = firstn i l ++ [nth i l d].
Proof.
  intros A l d. induction l as [|p l IH]; cbn [length]; intros i I; [lia|].
  destruct i as [|i]; cbn [firstn nth app]; [reflexivity|]. f_equal. apply IH. lia.
Qed.

Section Compact.
Variables (g : R) (ps : list (V * V)) (d : V * V).
Hypothesis (G : 0 < g) (F : Forall curved ps).
Let m := length ps.
Let Sv k := fst (nth k ps d).
Let Yv k := snd (nth k ps d).
Variables (v : V) (b1 b2 : nat -> R).

Definition cv (i : nat) : V :=
  iadd (isub v (vsum m (fun k => iscale (b1 k) (Sv k)))) (vsum i (fun k => iscale (b1 k) (Sv k))).
Definition cw (i : nat) : V := isub (iscale (/ g) (cv 0)) (vsum i (fun l => iscale (b2 l) (Yv l))).

Hypothesis row1 : forall k, (k < m)%nat -> ip (Sv k) (cw k) = 0.
Hypothesis row2 : forall l, (l < m)%nat -> ip (Yv l) (cv (S l)) = - (ip (Sv l) (Yv l) * b2 l).

Lemma firstn_snoc : forall i, (i < m)%nat -> firstn (S i) ps = firstn i ps ++ [(Sv i, Yv i)].
Proof. intros i I. rewrite (first_snoc _ ps d i I). unfold Sv, Yv. destruct (nth i ps d); reflexivity. Qed.

Lemma compact_step : forall i, (i <= m)%nat -> Bof (/ g) (firstn i ps) (cv i) = cw i.
Proof.
  induction i as [|i IH]; intro I.
  - unfold Bof. cbn [firstn fold_left]. unfold cw. cbn [vsum]. veq.
  - specialize (IH ltac:(lia)). rewrite firstn_snoc by lia. rewrite of_snoc_B.
    assert (FI : Forall curved (firstn (S i) ps)).
    { rewrite <- (firstn_skipn (S i) ps) in F. apply Forall_app in F. apply F. }
    rewrite firstn_snoc in FI by lia. apply Forall_app in FI. destruct FI as [FI FL].
    inversion FL as [|? ? C _]; subst. unfold curved in C. cbn [fst snd] in C.
    destruct (of_good g _ G FI) as [_ [LB SB PB] _ _].
    destruct (curved_nz _ _ C) as [NS _]. pose proof (PB _ NS) as SBS.
    set (B := Bof (/ g) (firstn i ps)) in *.
    assert (CV : cv (S i) = iadd (cv i) (iscale (b1 i) (Sv i))) by (unfold cv; cbn [vsum]; veq).
    assert (BV : B (cv (S i)) = iadd (cw i) (iscale (b1 i) (B (Sv i)))).
    { rewrite CV, (lin_add _ LB), (lin_scale _ LB), IH. reflexivity. }
    assert (Q1 : ip (B (Sv i)) (cv (S i)) = b1 i * ip (Sv i) (B (Sv i))).
    { rewrite <- (SB (Sv i)), BV. ipx. rewrite row1 by lia. ring. }
    unfold Bupd. rewrite Q1, row2 by lia. rewrite BV. unfold cw. cbn [vsum].
    apply ip_ext; intro w. ipx. field. split; lra.
Qed.

Theorem compact_ok : Bof (/ g) ps v = cw m.
Proof.
  rewrite <- compact_step by lia. unfold m at 1. rewrite firstn_all. f_equal. unfold cv. veq.
Qed.

(** The small system is nonsingular: with [v = 0] it has no other solution than zero. *)
Theorem compact_unique : v = izero -> forall k, (k < m)%nat -> b1 k = 0 /\ b2 k = 0.
Proof.
  intros V0.
  assert (ALL : forall n i, (n = m - i)%nat -> (i <= m)%nat -> cv i = izero /\
     forall k, (i <= k)%nat -> (k < m)%nat -> b1 k = 0 /\ b2 k = 0).
  { induction n as [|n IH]; intros i N I.
    - replace i with m by lia. split; [|intros; lia]. unfold cv. rewrite V0. veq.
    - destruct (IH (S i) ltac:(lia) ltac:(lia)) as [C Z].
      assert (FI : Forall curved (firstn (S i) ps)).
      { rewrite <- (firstn_skipn (S i) ps) in F. apply Forall_app in F. apply F. }
      rewrite firstn_snoc in FI by lia. apply Forall_app in FI. destruct FI as [FI FL].
      inversion FL as [|? ? CC _]; subst. unfold curved in CC. cbn [fst snd] in CC.
      destruct (of_good g _ G FI) as [_ [LB SB PB] _ _].
      destruct (curved_nz _ _ CC) as [NS _]. pose proof (PB _ NS) as SBS.
      pose proof (compact_step i I) as ST.
      assert (CV : cv i = iscale (- b1 i) (Sv i)).
      { assert (X : cv (S i) = iadd (cv i) (iscale (b1 i) (Sv i))) by (unfold cv; cbn [vsum]; veq).
        rewrite C in X. apply ip_ext; intro w. pose proof (f_equal (ip w) X) as Y. ipx_in Y. ipx. lra. }
      assert (B1 : b1 i = 0).
      { pose proof (row1 i ltac:(lia)) as R1. rewrite <- ST, CV, (lin_scale _ LB) in R1. ipx_in R1. nra. }
      assert (B2 : b2 i = 0).
      { pose proof (row2 i ltac:(lia)) as R2. rewrite C, ip_zero in R2. nra. }
      split; [rewrite CV, B1; veq|].
      intros k K1 K2. destruct (Nat.eq_dec k i) as [->|NE]; [split; assumption|]. apply Z; lia. }
  intros k K. apply (ALL m 0%nat); lia.
Qed.
End Compact.
End Bfgs.
