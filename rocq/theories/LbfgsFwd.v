(** * LBFGSOperator: the outer-product form is the BFGS matrix, in exact arithmetic. *)
From Coq Require Import List ZArith QArith Qreals Reals Lra Lia Bool Arith.
From Verif Require Import Base Num LbfgsModel LbfgsRing LbfgsMath LbfgsProof.
Import ListNotations.
Local Open Scope R_scope.

Section Exact.
Variables (dv : R -> R -> R) (sq : R -> R) (E : IPS).
Hypothesis (DV : dv_ok dv) (SQ : sq_ok sq).
Notation WW := (exactV dv sq E).
Notation V := (iv E).
Implicit Types (st : lb WW).

Variables (st : lb WW) (ps : list (V * V)) (d0 : V * V).
Hypothesis (RG : ring st ps) (CU : Forall curved ps).
Let c := length ps.
Let slot (j : nat) : nat := up st (l_np st - length ps + j)%nat.

Lemma slot_inj : forall i j, (i < c)%nat -> (j < c)%nat -> slot i = slot j -> i = j.
Proof.
  intros i j I J H. pose proof (rgl dv sq E st ps RG) as L. unfold c in *.
  unfold slot in H. apply up_inj in H; lia.
Qed.

Lemma slot_at : forall j, (j < c)%nat ->
  l_s st (slot j) = fst (nth j ps d0) /\ l_y st (slot j) = snd (nth j ps d0) /\
  l_ys st (slot j) = Some (ip (fst (nth j ps d0)) (snd (nth j ps d0))).
Proof.
  intros j J. assert (N : nth_error ps j = Some (nth j ps d0)) by (apply nth_error_nth', J).
  destruct (rgs dv sq E st ps RG j _ N) as (A & B & C). auto.
Qed.

Lemma curved_at : forall j, (j < c)%nat -> 0 < ip (fst (nth j ps d0)) (snd (nth j ps d0)).
Proof. intros j J. rewrite Forall_forall in CU. apply (CU (nth j ps d0)). apply nth_In, J. Qed.

(** The terms of the outer-product form. *)
Definition oterm (b a : nat -> V) (u : V) (l : nat) : V :=
  isub (iscale (ip (b (slot l)) u) (b (slot l))) (iscale (ip (a (slot l)) u) (a (slot l))).

Lemma vsum_ext : forall n (f g : nat -> V), (forall i, (i < n)%nat -> f i = g i) -> vsum n f = vsum n g.
Proof.
  intros n f g. induction n as [|n IH]; intro H; [reflexivity|]. cbn.
  rewrite H by lia. rewrite IH by (intros; apply H; lia). reflexivity.
Qed.

Lemma inner_ok : forall (b a : nat -> V) j t, (j < c)%nat -> (t <= j)%nat ->
  let k := slot j in
  let a' := fold_left (fun a l => fwd_inner st k b a (l_np st - length ps + l)%nat) (seq 0 t) a in
  a' k = iadd (a k) (vsum t (oterm b a (l_s st k))) /\ (forall l, l <> k -> a' l = a l).
Proof.
  intros b a j t J. cbv zeta. induction t as [|t IH]; intro T.
  - cbn. split; [veq|reflexivity].
  - specialize (IH ltac:(lia)). rewrite seq_S, fold_left_app. cbn [fold_left plus].
    match goal with |- context [fold_left ?f (seq 0 t) ?a0] => set (a1 := fold_left f (seq 0 t) a0) in * end. destruct IH as [A B].
    unfold fwd_inner. fold (slot t). cbv zeta.
    destruct (slot_at t ltac:(lia)) as (_ & _ & D). rewrite D.
    assert (NE : slot t <> slot j) by (intro X; apply slot_inj in X; lia).
    rewrite (upd_ne _ _ _ _ _ NE), !upd_eq. split.
    + rewrite (B _ NE). cbn [vsum]. rewrite A. unfold oterm. 
      change (@vc (exactK dv sq) WW) with V in *. cbn [vadd vsub vscale vdot exactVn WW]. veq.
    + intros l N. rewrite !(upd_ne _ _ _ _ _ N). apply B, N.
Qed.

Lemma sqq : forall x, 0 < x -> sq x * sq x = x /\ sq x <> 0.
Proof.
  intros x X. rewrite SQ by lra. split; [apply sqrt_sqrt; lra|].
  pose proof (sqrt_lt_R0 x X). lra.
Qed.

Lemma fwd_inv : forall (v : V) (z0 : @fst_ _ WW) j, f_q z0 = v -> (j <= c)%nat ->
  let z := fold_left (fun z i => fwd_body st v z (l_np st - length ps + i)%nat) (seq 0 j) z0 in
  f_q z = Bof 1 (firstn j ps) v /\
  forall u, Bof 1 (firstn j ps) u = iadd u (vsum j (oterm (f_b z) (f_a z) u)).
Proof.
  intros v z0 j Z. cbv zeta. induction j as [|j IH]; intro J.
  - cbn. rewrite Z. unfold Bof. cbn [fold_left]. split; [veq|intro; veq].
  - specialize (IH ltac:(lia)). rewrite seq_S, fold_left_app. cbn [fold_left plus].
    match goal with |- context [fold_left ?f (seq 0 j) ?a0] => set (z1 := fold_left f (seq 0 j) a0) in * end. destruct IH as [Q B].
    unfold fwd_body. fold (slot j).
    destruct (slot_at j ltac:(lia)) as (HS & HY & HD). rewrite HD. cbv zeta. cbn [f_q f_b f_a].
    pose proof (curved_at j ltac:(lia)) as C.
    set (k := slot j) in *. set (s := fst (nth j ps d0)) in *. set (y := snd (nth j ps d0)) in *.
    set (b := upd (f_b z1) k _). 
    rewrite (skipf dv sq E _ _ st ps) by (assumption || (intros x i N; unfold fwd_inner; rewrite N; reflexivity)).
    destruct (inner_ok b (upd (f_a z1) k (l_s st k)) j j ltac:(lia) ltac:(lia)) as [A1 A2].
    fold k in A1, A2. match goal with |- context [fold_left ?f (seq 0 j) ?a0] => set (a1 := fold_left f (seq 0 j) a0) in * end.
    rewrite upd_eq in A1.
    assert (NE : forall l, (l < j)%nat -> slot l <> k).
    { intros l L X. apply slot_inj in X; lia. }
    assert (OT : forall u l, (l < j)%nat -> oterm b (upd (f_a z1) k (l_s st k)) u l = oterm (f_b z1) (f_a z1) u l).
    { intros u l L. unfold oterm, b. rewrite !(upd_ne _ _ _ _ _ (NE l L)). reflexivity. }
    rewrite (vsum_ext _ _ _ (OT _)) in A1. rewrite HS in A1. fold s in A1. rewrite <- B in A1.
    assert (FS : firstn (S j) ps = firstn j ps ++ [(s, y)]).
    { rewrite (first_snoc _ ps d0 j ltac:(lia)). unfold s, y. destruct (nth j ps d0); reflexivity. }
    assert (FC : Forall curved (firstn j ps)).
    { rewrite <- (firstn_skipn j ps) in CU. apply Forall_app in CU. apply CU. }
    pose proof (of_good 1 _ Rlt_0_1 FC) as [_ [LB SB PB] _ _]. rewrite Rinv_1 in LB, SB, PB.
    destruct (curved_nz _ _ C) as [NS _]. pose proof (PB _ NS) as SBS.
    set (Bj := Bof 1 (firstn j ps)) in *.
    rewrite FS, of_snoc_B. fold Bj. rewrite !upd_eq, A1, HS. fold s.
    destruct (sqq _ SBS) as [SQ1 SQ2]. destruct (sqq _ C) as [SQ3 SQ4].
    assert (BK : b k = iscale (1 / sq (ip s y)) y).
    { unfold b. rewrite upd_eq, HY. cbn. rewrite DV by exact SQ4. reflexivity. }
    assert (AK : @vdivs _ WW (Bj s) (@ssqrt (exactK dv sq) (@vdot _ WW s (Bj s))) = iscale (1 / sq (ip s (Bj s))) (Bj s)).
    { cbn. rewrite DV by exact SQ2. reflexivity. }
    rewrite AK, BK.
    assert (UPD : forall u, Bupd Bj (s, y) u =
       iadd (Bj u) (isub (iscale (ip (iscale (1 / sq (ip s y)) y) u) (iscale (1 / sq (ip s y)) y))
                         (iscale (ip (iscale (1 / sq (ip s (Bj s))) (Bj s)) u) (iscale (1 / sq (ip s (Bj s))) (Bj s))))).
    { intro u. unfold Bupd. apply ip_ext; intro w. ipx.
      replace (ip (Bj s) u / ip s (Bj s)) with (1 / sq (ip s (Bj s)) * ip (Bj s) u * (1 / sq (ip s (Bj s)))).
      2:{ rewrite <- SQ1 at 3. field. exact SQ2. }
      replace (ip y u / ip s y) with (1 / sq (ip s y) * ip y u * (1 / sq (ip s y))).
      2:{ rewrite <- SQ3 at 3. field. exact SQ4. }
      ring. }
    split.
    + rewrite Q, UPD. cbn [vadd vsub vscale vdot exactVn WW]. veq.
    + intro u. rewrite UPD, B. cbn [vsum].
      assert (LAST : oterm b (upd a1 k (iscale (1 / sq (ip s (Bj s))) (Bj s))) u j =
        isub (iscale (ip (iscale (1 / sq (ip s y)) y) u) (iscale (1 / sq (ip s y)) y))
             (iscale (ip (iscale (1 / sq (ip s (Bj s))) (Bj s)) u) (iscale (1 / sq (ip s (Bj s))) (Bj s)))).
      { unfold oterm. fold k. rewrite upd_eq, BK. reflexivity. }
      rewrite LAST.
      rewrite (vsum_ext j (oterm b (upd a1 k _) u) (oterm (f_b z1) (f_a z1) u)).
      * veq.
      * intros l L. unfold oterm, b. rewrite !(upd_ne _ _ _ _ _ (NE l L)).
        rewrite (A2 _ (NE l L)), (upd_ne _ _ _ _ _ (NE l L)). reflexivity.
Qed.

Theorem fwd_ok : forall v : V, fwd_matvec st v = Ok (Bof 1 ps v : vc WW, st).
Proof.
  intro v. unfold fwd_matvec. pose proof (rgl dv sq E st ps RG) as L.
  replace (seq 0 (l_np st)) with (seq 0 (l_np st - length ps + length ps)) by (f_equal; lia).
  rewrite (skipf dv sq E _ _ st ps) by (assumption || (intros x i N; unfold fwd_body; rewrite N; reflexivity)).
  destruct (fwd_inv v (@mkfst _ WW v (fun _ => izero) (fun _ => izero)) (length ps) eq_refl (le_n _)) as [A _].
  rewrite firstn_all in A. rewrite <- A. reflexivity.
Qed.
End Exact.
