(** Properties C58-C63: Givens rotations, quadratic roots, symmetry and definiteness checks,
    Poisson operators. *)
From Coq Require Import List Arith Lia Bool QArith Reals Lra Qreals.
From Verif Require Import Base Num ToolsModel ToolsProof CgModel CgProof PropCg Gallery.
Import ListNotations.
Local Open Scope R_scope.

(** The values of x/0 and of the square root of a negative number are arbitrary. *)
Theorem C58_symOrtho : forall dv sq, dv_ok dv -> sq_ok sq -> forall a b : R,
  exists c s r : R,
    @symOrtho (exactK dv sq) a b = Ok (c, s, r) /\
    c * c + s * s = 1 /\ c * a + s * b = r /\ c * b - s * a = 0 /\
    r = sqrt (a * a + b * b) /\ 0 <= r.
Proof.
  intros dv sq DV SQ a b. destruct (symOrtho_spec dv sq DV SQ a b) as (c & s & r & E & H1 & H2 & H3 & H4).
  exists c, s, r. repeat (split; [assumption|]). rewrite H4. apply sqrt_pos.
Qed.

Theorem C59_roots : forall dv sq (neg : R -> bool), dv_ok dv -> sq_ok sq ->
  (forall b, if neg b then b <= 0 else 0 <= b) ->
  forall (a2 a1 a0 tol : R) (nitref : nat), 0 <= tol < 1 / 4 ->
  exists l : list R, @roots_quadratic (exactK dv sq) neg a2 a1 a0 tol nitref = Ok l /\
    (l = [] <-> forall v, a2 * v * v + a1 * v + a0 <> 0) /\
    ((a2 = 0 /\ a1 <> 0) \/ (a2 <> 0 /\ tol * (a1 * a1) < Rabs (a0 * a2)) ->
       forall v, In v l <-> a2 * v * v + a1 * v + a0 = 0) /\
    (forall v, In v l -> Rabs (a2 * v * v + a1 * v + a0) <=
       (match nitref with O => 1 | _ => tol end) * Rabs a0).
Proof.
  intros dv sq neg DV SQ NEG a2 a1 a0 tol nitref HT.
  assert (Q : forall v, qpoly a2 a1 a0 v = a2 * v * v + a1 * v + a0) by (intro; unfold qpoly; ring).
  destruct (roots_spec dv sq DV SQ neg NEG a2 a1 a0 tol nitref HT) as (l & E & H1 & H2 & H3).
  exists l. split; [exact E|]. split; [|split].
  - rewrite H1. split; intros H v; specialize (H v); rewrite Q in *; exact H.
  - intros C v. rewrite (H2 C v), Q. reflexivity.
  - intros v Hv. rewrite <- Q. apply H3. exact Hv.
Qed.

(** With the shipped defaults the hypotheses hold: e.g. [x^2 - 3x + 2], [tol = 1e-8]. *)
Example ex_C59 : exists l, @roots_quadratic (exactK Rdiv sqrt) (fun b => Rltb b 0) 1 (-3) 2 (1/100000000) 1 = Ok l
  /\ In 1 l /\ In 2 l.
Proof.
  destruct (C59_roots Rdiv sqrt (fun b => Rltb b 0) Rdiv_ok sqrt_ok) with (a2 := 1) (a1 := -3) (a0 := 2)
    (tol := 1/100000000) (nitref := 1%nat) as (l & E & _ & H & _).
  - intro b. destruct (Rltb b 0) eqn:B; [apply Rltb_true in B|apply Rltb_false in B]; lra.
  - lra.
  - exists l. split; [exact E|].
    assert (C : (1 = 0 /\ -3 <> 0) \/ (1 <> 0 /\ 1/100000000 * (-3 * -3) < Rabs (2 * 1))).
    { right. split; [lra|]. rewrite Rabs_pos_eq; lra. }
    split; apply (H C); lra.
Qed.

Section Checks.
Context (dv : R -> R -> R) (sq : R -> R) (E : IPS).
Notation KK := (exactK dv sq).
Notation WW := (exactV dv sq E).

Theorem C60_accepts : forall (cbrt : R -> R) (n : nat) (A : iv E -> iv E) (draws : list (iv E)) cnt,
  selfadj A -> 0 <= cbrt (@machine_eps KK) ->
  fst (@check_symmetric KK WW cbrt n n A draws cnt) = true.
Proof.
  intros. unfold check_symmetric. rewrite Nat.eqb_refl. cbn [negb]. apply check_sym_pass; assumption.
Qed.

Theorem C60_rejects : forall (cbrt : R -> R) (m n : nat) (A : iv E -> iv E) (draws : list (iv E)) cnt,
  0 <= cbrt (@machine_eps KK) ->
  fst (@check_symmetric KK WW cbrt m n A draws cnt) = false ->
  m <> n \/ exists x, In x draws /\ ip (A x) (A x) <> ip x (A (A x)).
Proof.
  intros cbrt m n A draws cnt HC H. unfold check_symmetric in H.
  destruct (Nat.eqb_spec m n); [|left; assumption]. right. cbn [negb] in H.
  exact (check_sym_reject dv sq E cbrt A draws cnt HC H).
Qed.

Theorem C61_check : forall (n : nat) (A : iv E -> iv E) (semi : bool) (draws : list (iv E)) cnt,
  sq_ok sq ->
  (fst (@check_positive_definite KK WW n n A semi draws cnt) = false <->
   exists v, In v draws /\ (if semi then ip v (A v) < 0 else ip v (A v) <= 0)).
Proof.
  intros. unfold check_positive_definite. rewrite Nat.eqb_refl. cbn [negb].
  apply (check_pd_spec dv sq E A semi draws cnt). assumption.
Qed.

Theorem C61_accepts : forall (n : nat) (A : iv E -> iv E) (semi : bool) (draws : list (iv E)) cnt,
  sq_ok sq ->
  (forall v, In v draws -> v <> izero) ->
  (forall v, v <> izero -> if semi then 0 <= ip v (A v) else 0 < ip v (A v)) ->
  fst (@check_positive_definite KK WW n n A semi draws cnt) = true.
Proof.
  intros n A semi draws cnt SQ NZ PD.
  destruct (fst _) eqn:F; [reflexivity|]. apply C61_check in F; [|exact SQ].
  destruct F as [v [Hv B]]. specialize (PD v (NZ v Hv)). destruct semi; lra.
Qed.
End Checks.

Theorem C60_nonsquare : forall (K : Scal) (W : Vs K) cbrt m n (A : vc W -> vc W) draws cnt,
  m <> n -> check_symmetric cbrt m n A draws cnt = (false, cnt).
Proof.
  intros. unfold check_symmetric. destruct (Nat.eqb_spec m n); [contradiction|reflexivity].
Qed.

Theorem C60_count : forall (K : Scal) (W : Vs K) cbrt m n (A : vc W -> vc W) draws cnt,
  (cnt <= snd (check_symmetric cbrt m n A draws cnt) <= cnt + 2 * length draws)%nat.
Proof. intros. apply check_symmetric_count. Qed.

Theorem C60_converse : forall n (A : rv n -> rv n), @lin (Rn n) (Rn n) A ->
  (forall x, rvdot (A x) (A x) = rvdot x (A (A x))) -> @selfadj (Rn n) A.
Proof.
  intros n A L T. apply (test_converse n A L). intros e _. apply (T e).
Qed.

Theorem C61_nonsquare : forall (K : Scal) (W : Vs K) m n (A : vc W -> vc W) semi draws cnt,
  m <> n -> check_positive_definite m n A semi draws cnt = (false, cnt).
Proof.
  intros. unfold check_positive_definite. destruct (Nat.eqb_spec m n); [contradiction|reflexivity].
Qed.

Theorem C61_count : forall (K : Scal) (W : Vs K) m n (A : vc W -> vc W) semi draws cnt,
  (cnt <= snd (check_positive_definite m n A semi draws cnt) <= cnt + length draws)%nat.
Proof.
  intros. unfold check_positive_definite. destruct (negb _); cbn [snd]; [lia|]. apply check_pd_loop_count.
Qed.

(** A rotation-like operator on the plane is rejected by the test on the first basis vector. *)
Example ex_C60 : exists x : iv (Rn 2),
  let A := fun v : iv (Rn 2) => ((- fst (snd v), (fst v, tt)) : iv (Rn 2)) in
  ip (A x) (A x) <> ip x (A (A x)).
Proof. exists ((1, (0, tt)) : rv 2). cbn. lra. Qed.

Example ex_C61 : exists A : iv (Rn 2) -> iv (Rn 2),
  (forall v, v <> izero -> 0 < ip v (A v)) /\ (exists v : iv (Rn 2), v <> izero /\ A v <> v).
Proof.
  exists (fun v => iscale 2 v). split.
  - intros v H. rewrite ip_scale. assert (P := ip_nz v H). lra.
  - exists ((1, (0, tt)) : rv 2). split; intro H; injection H; intros; lra.
Qed.

(** ** Poisson operators, any arithmetic. *)
Theorem C62_entries : forall (K : Scal) (d : sc K) (x : list (sc K)), (1 <= length x)%nat ->
  exists y, poisson1d x = Ok y /\ length y = length x /\
    forall i, (i < length x)%nat ->
      let a := smul (slit 2) (nth i x d) in
      let b := if (i + 1 <? length x)%nat then ssub a (nth (i + 1) x d) else a in
      nth i y d = if (1 <=? i)%nat then ssub b (nth (i - 1) x d) else b.
Proof. intros K. exact (@poisson1d_entries K). Qed.

Section PoissonExact.
Context (dv : R -> R -> R) (sq : R -> R).
Notation KK := (exactK dv sq).

Theorem C62_exact : forall x : list R, (1 <= length x)%nat ->
  exists y : list R, @poisson1d KK x = Ok y /\ length y = length x /\
    forall i, (i < length x)%nat ->
      nth i y 0 = 2 * nth i x 0 - (if (1 <=? i)%nat then nth (i - 1) x 0 else 0)
                  - nth (i + 1) x 0.
Proof.
  intros x H. destruct (poisson1d_exact dv sq x H) as (y & E & L & N).
  exists y. split; [exact E|]. split; [exact L|]. intros i Hi. rewrite (N i Hi). unfold L1.
  destruct (Nat.ltb_spec (i + 1) (length x)); [reflexivity|].
  rewrite (nth_overflow x 0 (n := i + 1)) by lia. reflexivity.
Qed.

Theorem C62_linear : forall (x z : list R) (a b : R), (1 <= length x)%nat -> length x = length z ->
  exists y w, @poisson1d KK x = Ok y /\ @poisson1d KK z = Ok w /\
    @poisson1d KK (lcomb a x b z) = Ok (lcomb a y b w).
Proof.
  intros x z a b H L.
  destruct (poisson1d_exact dv sq x H) as (y & E & Ly & N).
  destruct (poisson1d_exact dv sq z ltac:(lia)) as (w & E' & Lw & N').
  destruct (poisson1d_exact dv sq (lcomb a x b z)) as (u & E'' & Lu & N'').
  { rewrite lcomb_length; lia. }
  rewrite lcomb_length in * by exact L.
  exists y, w. split; [exact E|]. split; [exact E'|]. rewrite E''. f_equal.
  assert (Lyw : length y = length w) by lia.
  apply list_ext; [rewrite lcomb_length by exact Lyw; lia|]. rewrite Lu. intros i Hi.
  rewrite (N'' i Hi), (lcomb_nth a y b w i Lyw), (N i Hi), (N' i ltac:(lia)), <- L.
  rewrite <- (L1_lin (length x) a (fun i => nth i x 0) b (fun i => nth i z 0)).
  apply L1_ext; [exact Hi|]. intros j _. apply lcomb_nth. exact L.
Qed.

Theorem C62_symmetric : forall (x z : list R), (1 <= length x)%nat -> length x = length z ->
  exists y w, @poisson1d KK x = Ok y /\ @poisson1d KK z = Ok w /\ ldot x w = ldot y z.
Proof.
  intros x z H L.
  destruct (poisson1d_exact dv sq x H) as (y & E & Ly & N).
  destruct (poisson1d_exact dv sq z ltac:(lia)) as (w & E' & Lw & N').
  exists y, w. split; [exact E|]. split; [exact E'|]. unfold ldot. rewrite Ly.
  rewrite (sumn_ext (length x) (fun i => nth i x 0 * nth i w 0)
    (fun i => nth i x 0 * L1 (length x) (fun i => nth i z 0) i))
    by (intros i Hi; rewrite (N' i) by lia; rewrite L; reflexivity).
  rewrite form1_sym. apply sumn_ext. intros i Hi. rewrite (N i Hi). reflexivity.
Qed.

Theorem C62_positive : forall (x : list R), (1 <= length x)%nat -> (exists i, nth i x 0 <> 0) ->
  exists y, @poisson1d KK x = Ok y /\ 0 < ldot x y.
Proof.
  intros x H [i NZ].
  destruct (poisson1d_exact dv sq x H) as (y & E & Ly & N).
  exists y. split; [exact E|]. unfold ldot.
  rewrite (sumn_ext (length x) (fun i => nth i x 0 * nth i y 0)
    (fun i => nth i x 0 * L1 (length x) (fun i => nth i x 0) i))
    by (intros j Hj; rewrite (N j Hj); reflexivity).
  destruct (form1_nonneg (length x) (fun i => nth i x 0)) as [P|P]; [exact P|].
  exfalso. apply NZ. destruct (lt_dec i (length x)) as [Hi|Hi].
  - exact (form1_zero (length x) (fun i => nth i x 0) (eq_sym P) i Hi).
  - apply nth_overflow. lia.
Qed.

Theorem C63_exact : forall n (x : list R), (1 <= n)%nat -> length x = (n * n)%nat ->
  exists y : list R, @poisson2d KK x = Ok y /\ length y = (n * n)%nat /\
    forall r c, (r < n)%nat -> (c < n)%nat ->
      nth (r * n + c) y 0 = 4 * nth (r * n + c) x 0
        - (if (1 <=? r)%nat then nth ((r - 1) * n + c) x 0 else 0)
        - (if (r + 1 <? n)%nat then nth ((r + 1) * n + c) x 0 else 0)
        - (if (1 <=? c)%nat then nth (r * n + (c - 1)) x 0 else 0)
        - (if (c + 1 <? n)%nat then nth (r * n + (c + 1)) x 0 else 0).
Proof.
  intros n x Hn H. destruct (poisson2d_exact dv sq n x Hn H) as (y & E & L & N).
  exists y. split; [exact E|]. split; [exact L|]. intros r c Hr Hc. rewrite (N r c Hr Hc).
  unfold L2, L1. ring.
Qed.

Lemma grid_index : forall n k, (k < n * n)%nat -> exists r c, (r < n)%nat /\ (c < n)%nat /\ k = (r * n + c)%nat.
Proof.
  intros n k H. exists (k / n)%nat, (k mod n)%nat.
  assert (n <> 0)%nat by (intro; subst; cbn in H; lia).
  split; [apply Nat.div_lt_upper_bound; assumption|].
  split; [apply Nat.mod_upper_bound; assumption|].
  rewrite Nat.mul_comm. apply Nat.div_mod. assumption.
Qed.

Theorem C63_linear : forall n (x z : list R) (a b : R), (1 <= n)%nat ->
  length x = (n * n)%nat -> length z = (n * n)%nat ->
  exists y w, @poisson2d KK x = Ok y /\ @poisson2d KK z = Ok w /\
    @poisson2d KK (lcomb a x b z) = Ok (lcomb a y b w).
Proof.
  intros n x z a b Hn Lx Lz. assert (L : length x = length z) by lia.
  destruct (poisson2d_exact dv sq n x Hn Lx) as (y & E & Ly & N).
  destruct (poisson2d_exact dv sq n z Hn Lz) as (w & E' & Lw & N').
  destruct (poisson2d_exact dv sq n (lcomb a x b z) Hn) as (u & E'' & Lu & N'').
  { rewrite lcomb_length by exact L. exact Lx. }
  assert (Lyw : length y = length w) by lia.
  exists y, w. split; [exact E|]. split; [exact E'|]. rewrite E''. f_equal.
  apply list_ext; [rewrite lcomb_length by exact Lyw; lia|]. rewrite Lu. intros k Hk.
  destruct (grid_index n k Hk) as (r & c & Hr & Hc & ->).
  rewrite (N'' r c Hr Hc), (lcomb_nth a y b w _ Lyw), (N r c Hr Hc), (N' r c Hr Hc).
  rewrite <- (L2_lin n a (fun r c => nth (r * n + c) x 0) b (fun r c => nth (r * n + c) z 0)).
  unfold L2. f_equal; apply L1_ext; try assumption; intros j _; apply lcomb_nth; exact L.
Qed.

Lemma ldot_grid : forall n (x y : list R), length x = (n * n)%nat ->
  ldot x y = sumn n (fun r => sumn n (fun c => nth (r * n + c) x 0 * nth (r * n + c) y 0)).
Proof. intros n x y L. unfold ldot. rewrite L. apply sumn_prod. Qed.

Theorem C63_symmetric : forall n (x z : list R), (1 <= n)%nat ->
  length x = (n * n)%nat -> length z = (n * n)%nat ->
  exists y w, @poisson2d KK x = Ok y /\ @poisson2d KK z = Ok w /\ ldot x w = ldot y z.
Proof.
  intros n x z Hn Lx Lz.
  destruct (poisson2d_exact dv sq n x Hn Lx) as (y & E & Ly & N).
  destruct (poisson2d_exact dv sq n z Hn Lz) as (w & E' & Lw & N').
  exists y, w. split; [exact E|]. split; [exact E'|].
  rewrite (ldot_grid n x w Lx), (ldot_grid n y z Ly).
  transitivity (sumn n (fun r => sumn n (fun c => nth (r * n + c) x 0 *
    L2 n (fun r c => nth (r * n + c) z 0) r c))).
  - apply sumn_ext; intros r Hr; apply sumn_ext; intros c Hc. rewrite N' by assumption. reflexivity.
  - rewrite form2_sym. apply sumn_ext; intros r Hr; apply sumn_ext; intros c Hc.
    rewrite N by assumption. reflexivity.
Qed.

Theorem C63_positive : forall n (x : list R), (1 <= n)%nat -> length x = (n * n)%nat ->
  (exists i, nth i x 0 <> 0) -> exists y, @poisson2d KK x = Ok y /\ 0 < ldot x y.
Proof.
  intros n x Hn Lx [i NZ].
  destruct (poisson2d_exact dv sq n x Hn Lx) as (y & E & Ly & N).
  exists y. split; [exact E|]. rewrite (ldot_grid n x y Lx).
  rewrite (sumn_ext n _ (fun r => sumn n (fun c => nth (r * n + c) x 0 *
    L2 n (fun r c => nth (r * n + c) x 0) r c))).
  2:{ intros r Hr; apply sumn_ext; intros c Hc. rewrite N by assumption. reflexivity. }
  destruct (form2_pd n (fun r c => nth (r * n + c) x 0)) as [[P|P] Z]; [exact P|].
  exfalso. apply NZ. destruct (lt_dec i (length x)) as [Hi|Hi].
  - rewrite Lx in Hi. destruct (grid_index n i Hi) as (r & c & Hr & Hc & ->).
    exact (Z (eq_sym P) r c Hr Hc).
  - apply nth_overflow. lia.
Qed.
End PoissonExact.

Example ex_C62 : @poisson1d (exactK Rdiv sqrt) [1; 2] = Ok [2 * 1 - 2; 2 * 2 - 1].
Proof.
  destruct (C62_exact Rdiv sqrt [1; 2]) as (y & E & L & N); [cbn; lia|]. rewrite E. f_equal.
  apply list_ext; [exact L|]. intros i Hi. rewrite L in Hi. cbn in Hi.
  destruct i as [|[|i]]; [| |lia].
  - rewrite (N 0%nat) by (cbn; lia). cbn. ring.
  - rewrite (N 1%nat) by (cbn; lia). cbn. ring.
Qed.

Print Assumptions C58_symOrtho.
Print Assumptions C59_roots.
Print Assumptions C60_accepts.
Print Assumptions C60_converse.
Print Assumptions C60_count.
Print Assumptions C61_check.
Print Assumptions C62_entries.
Print Assumptions C62_positive.
Print Assumptions C63_positive.
