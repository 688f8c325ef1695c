(** * CompactLBFGSOperator: the compact form is the BFGS matrix, in exact arithmetic. *)
From Coq Require Import List ZArith QArith Qreals Reals Lra Lia Bool Arith.
From Verif Require Import Base Num LbfgsModel LbfgsRing LbfgsMath LbfgsProof LbfgsFwd Gauss.
Import ListNotations.
Local Open Scope R_scope.

Lemma upd2_get : forall (K : Scal) (m : nat -> nat -> sc K) i j x p q,
  upd2 m i j x p q = if Nat.eqb p i && Nat.eqb q j then x else m p q.
Proof.
  intros K m i j x p q. unfold upd2, upd. destruct (Nat.eqb_spec p i) as [->|]; cbn; [|reflexivity].
  reflexivity.
Qed.

Lemma rsum_lt : forall (f : nat -> R) k c, (k <= c)%nat ->
  rsum c (fun l => if Nat.ltb l k then f l else 0) = rsum k f.
Proof.
  intros f k c K. replace c with (k + (c - k))%nat by lia. rewrite rsum_split.
  rewrite (rsum_ext k _ f).
  2:{ intros i I. destruct (Nat.ltb_spec i k); [reflexivity|lia]. }
  rewrite (rsum_zero (c - k)); [ring|].
  intros i I. destruct (Nat.ltb_spec (k + i) k); [lia|reflexivity].
Qed.

Lemma rsum_gt : forall (f : nat -> R) l c, (l < c)%nat ->
  rsum c (fun k => if Nat.ltb l k then f k else 0) = rsum c f - rsum (S l) f.
Proof.
  intros f l c L. rewrite <- (rsum_lt f (S l) c) by lia.
  replace (rsum c f) with (rsum c (fun k => (if Nat.ltb k (S l) then f k else 0) + (if Nat.ltb l k then f k else 0))).
  - rewrite rsum_plus. ring.
  - apply rsum_ext. intros i I. destruct (Nat.ltb_spec i (S l)), (Nat.ltb_spec l i); try lia; ring.
Qed.

Lemma rsum_one : forall (f : nat -> R) l c, (l < c)%nat ->
  rsum c (fun k => if Nat.eqb l k then f k else 0) = f l.
Proof.
  intros f l c L. replace c with (l + S (c - l - 1))%nat by lia. rewrite rsum_split.
  rewrite rsum_zero.
  2:{ intros i I. destruct (Nat.eqb_spec l i); [lia|reflexivity]. }
  generalize (c - l - 1)%nat. induction n as [|n IH].
  - cbn. rewrite Nat.add_0_r, Nat.eqb_refl. ring.
  - cbn [rsum] in *. destruct (Nat.eqb_spec l (l + S n)); [lia|]. lra.
Qed.

Section Exact.
Variables (dv : R -> R -> R) (sq : R -> R) (E : IPS).
Hypothesis (DV : dv_ok dv).
Notation WW := (exactV dv sq E).
Notation V := (iv E).

Variables (st : lb WW) (ps : list (V * V)) (d0 : V * V).
Hypothesis (RG : ring st ps) (CU : Forall curved ps).
Let c := length ps.
Let slot (j : nat) : nat := up st (l_np st - length ps + j)%nat.
Let Sv j := fst (nth j ps d0).
Let Yv j := snd (nth j ps d0).

Lemma at_slot : forall j, (j < c)%nat ->
  l_s st (slot j) = Sv j /\ l_y st (slot j) = Yv j /\ l_ys st (slot j) = Some (ip (Sv j) (Yv j)).
Proof. exact (slot_at dv sq E st ps d0 RG). Qed.

(** ** The right-hand side. *)
Lemma rhs_ok : forall (u : V) (col : nat -> V) off a t, (t <= c)%nat ->
  let z := fold_left (fun z i => cmp_rhs st u col off z (l_np st - length ps + i)%nat) (seq 0 t) (a, O) in
  snd z = t /\ (forall p, (p < t)%nat -> fst z (off + p)%nat = ip u (col (slot p))) /\
  (forall q, (q < off)%nat -> fst z q = a q).
Proof.
  intros u col off a t T. cbv zeta. induction t as [|t IH].
  - cbn. split; [reflexivity|]. split; [intros; lia|reflexivity].
  - specialize (IH ltac:(lia)). rewrite seq_S, fold_left_app. cbn [fold_left plus].
    match goal with |- context [fold_left ?f (seq 0 t) ?z0] => set (z := fold_left f (seq 0 t) z0) in * end.
    destruct z as [a1 n] eqn:Z. cbn [fst snd] in IH. destruct IH as (-> & B & C).
    unfold cmp_rhs. fold (slot t). destruct (at_slot t ltac:(lia)) as (_ & _ & ->). cbn [fst snd].
    split; [lia|]. split.
    + intros p P. unfold upd. destruct (Nat.eqb_spec (off + p) (off + t)) as [e|e].
      * assert (p = t) by lia. subst. reflexivity.
      * apply B. lia.
    + intros q Q. unfold upd. destruct (Nat.eqb_spec q (off + t)); [lia|]. apply C, Q.
Qed.

(** ** The matrix. *)
Variable gamma : R.
Hypothesis GP : 0 < gamma.

Definition SS (x x' : nat) : R := ip (Sv x) (Sv x') / gamma.

Record oinv (j : nat) (M : nat -> nat -> R) : Prop := mkoinv {
  o_ss : forall x x', (x < c)%nat -> (x' < c)%nat ->
     M x x' = if Nat.ltb x j && Nat.ltb x' j then SS x x' else 0;
  o_sy : forall x l, (x < c)%nat -> (l < c)%nat ->
     M x (c + l)%nat = if Nat.ltb l x && Nat.ltb x j then ip (Sv x) (Yv l) else 0;
  o_ys : forall x l, (x < c)%nat -> (l < c)%nat ->
     M (c + l)%nat x = if Nat.ltb l x && Nat.ltb x j then ip (Sv x) (Yv l) else 0;
  o_yy : forall l l', (l < c)%nat -> (l' < c)%nat ->
     M (c + l)%nat (c + l')%nat = if Nat.eqb l l' && Nat.ltb l j then - ip (Sv l) (Yv l) else 0 }.

Record iinv (j t : nat) (M : nat -> nat -> R) : Prop := mkiinv {
  i_ss : forall x x', (x < c)%nat -> (x' < c)%nat ->
     M x x' = if (Nat.ltb x j && Nat.ltb x' j) || (Nat.eqb x j && Nat.ltb x' t) ||
                 (Nat.eqb x' j && Nat.ltb x t) || (Nat.eqb x j && Nat.eqb x' j) then SS x x' else 0;
  i_sy : forall x l, (x < c)%nat -> (l < c)%nat ->
     M x (c + l)%nat = if (Nat.ltb l x && Nat.ltb x j) || (Nat.eqb x j && Nat.ltb l t) then ip (Sv x) (Yv l) else 0;
  i_ys : forall x l, (x < c)%nat -> (l < c)%nat ->
     M (c + l)%nat x = if (Nat.ltb l x && Nat.ltb x j) || (Nat.eqb x j && Nat.ltb l t) then ip (Sv x) (Yv l) else 0;
  i_yy : forall l l', (l < c)%nat -> (l' < c)%nat ->
     M (c + l)%nat (c + l')%nat = if Nat.eqb l l' && Nat.ltb l (S j) then - ip (Sv l) (Yv l) else 0 }.

Ltac cases := repeat first
  [ match goal with |- context [Nat.eqb ?a ?b] => destruct (Nat.eqb_spec a b); try lia end
  | match goal with |- context [Nat.ltb ?a ?b] => destruct (Nat.ltb_spec a b); try lia end ];
  cbn [andb orb];
  repeat match goal with H : (c + ?a = c + ?b)%nat |- _ => apply Nat.add_cancel_l in H end.

Lemma start_row : forall j M, (j < c)%nat -> oinv j M ->
  iinv j 0 (@upd2 (exactK dv sq) (@upd2 (exactK dv sq) M (c + j) (c + j) (- ip (Sv j) (Yv j))) j j (SS j j)).
Proof.
  intros j M J [A B C D]. split; intros x y X Y; rewrite !upd2_get;
    rewrite ?A, ?B, ?C, ?D by assumption; cases; subst; try lia; try reflexivity.
Qed.

Lemma row_step : forall j t M, (j < c)%nat -> (t < j)%nat -> iinv j t M ->
  iinv j (S t)
    (@upd2 (exactK dv sq) (@upd2 (exactK dv sq) (@upd2 (exactK dv sq) (@upd2 (exactK dv sq) M
        j (c + t) (ip (Sv j) (Yv t))) (c + t) j (ip (Sv j) (Yv t))) j t (SS j t)) t j (SS j t)).
Proof.
  intros j t M J T [A B C D]. split; intros x y X Y; rewrite !upd2_get;
    rewrite ?A, ?B, ?C, ?D by assumption; cases; subst; try lia; try reflexivity;
    unfold SS; rewrite ip_sym; reflexivity.
Qed.

Lemma end_row : forall j M, (j < c)%nat -> iinv j j M -> oinv (S j) M.
Proof.
  intros j M J [A B C D]. split; intros x y X Y;
    rewrite ?A, ?B, ?C, ?D by assumption; cases; subst; try lia; try reflexivity.
Qed.

Lemma mat_ok : forall j, (j <= c)%nat ->
  let z := fold_left (fun z i => cmp_mat st gamma c z (l_np st - length ps + i)%nat) (seq 0 j)
                     (fun _ _ => 0, O) in
  snd z = j /\ oinv j (fst z).
Proof.
  intros j. cbv zeta. induction j as [|j IH]; intro J.
  - cbn [seq fold_left fst snd]. split; [reflexivity|]. split; intros; cases; reflexivity.
  - specialize (IH ltac:(lia)). rewrite seq_S, fold_left_app. cbn [fold_left plus].
    match goal with |- context [fold_left ?f (seq 0 j) ?z0] => set (z := fold_left f (seq 0 j) z0) in * end.
    destruct z as [M n] eqn:Z. cbn [fst snd] in IH. destruct IH as [-> OI].
    unfold cmp_mat. fold (slot j). destruct (at_slot j ltac:(lia)) as (HS & HY & HD). rewrite HD.
    rewrite (skipf dv sq E _ _ st ps) by (assumption || (intros x i N; unfold cmp_inner; rewrite N; reflexivity)).
    assert (IN : forall t, (t <= j)%nat ->
      let z := fold_left (fun z i => cmp_inner st gamma c (slot j) j z (l_np st - length ps + i)%nat) (seq 0 t)
         (@upd2 (exactK dv sq) (@upd2 (exactK dv sq) M (c + j) (c + j) (- ip (Sv j) (Yv j))) j j (SS j j), O) in
      snd z = t /\ iinv j t (fst z)).
    { cbv zeta. induction t as [|t IHt]; intro T.
      - cbn [seq fold_left fst snd]. split; [reflexivity|]. apply start_row; [lia|exact OI].
      - specialize (IHt ltac:(lia)). rewrite seq_S, fold_left_app. cbn [fold_left plus].
        match goal with |- context [fold_left ?f (seq 0 t) ?z0] => set (z2 := fold_left f (seq 0 t) z0) in * end.
        destruct z2 as [M2 n2] eqn:Z2. cbn [fst snd] in IHt. destruct IHt as [-> I2].
        unfold cmp_inner. fold (slot t). destruct (at_slot t ltac:(lia)) as (TS & TY & TD). rewrite TD.
        rewrite HS, TS, TY. cbv zeta. cbn [fst snd]. split; [lia|].
        rewrite !upd2_get, !Nat.eqb_refl. cbn [andb].
        assert (N1 : Nat.eqb j (c + t) && Nat.eqb t j = false) by (cases; lia || reflexivity).
        pose proof (row_step j t M2 ltac:(lia) ltac:(lia) I2) as RS.
        assert (EQ : @sdiv (exactK dv sq) (@vdot _ WW (Sv j) (Sv t)) gamma = SS j t) by (apply DV; lra).
        rewrite EQ. exact RS. }
    specialize (IN j (le_n j)). cbv zeta in IN.
    assert (EQ : @sdiv (exactK dv sq) (@vdot _ WW (l_s st (slot j)) (l_s st (slot j))) gamma = SS j j).
    { rewrite HS. apply DV. lra. }
    rewrite EQ.
    match goal with |- context [fold_left ?f (seq 0 j) ?z0] =>
      change (fold_left f (seq 0 j) z0) with (fold_left (fun z i => cmp_inner st gamma c (slot j) j z (l_np st - length ps + i)%nat) (seq 0 j)
         (@upd2 (exactK dv sq) (@upd2 (exactK dv sq) M (c + j) (c + j) (- ip (Sv j) (Yv j))) j j (SS j j), O)) end.
    match goal with |- context [fold_left ?f (seq 0 j) ?z0] => destruct (fold_left f (seq 0 j) z0) as [M3 n3] end.
    cbn [fst snd] in *. split; [lia|]. apply end_row; [lia|apply IN].
Qed.

(** ** The equations of the small system. *)
Lemma rows : forall M a b, oinv c M -> solves (2 * c) M a b ->
  (forall k, (k < c)%nat ->
     rsum c (fun l => SS k l * b l) + rsum k (fun l => ip (Sv k) (Yv l) * b (c + l)%nat) = a k) /\
  (forall l, (l < c)%nat ->
     rsum c (fun k => ip (Sv k) (Yv l) * b k) - rsum (S l) (fun k => ip (Sv k) (Yv l) * b k)
     - ip (Sv l) (Yv l) * b (c + l)%nat = a (c + l)%nat).
Proof.
  intros M a b [A B C D] S. replace (2 * c)%nat with (c + c)%nat in S by lia. split.
  - intros k K. rewrite <- (S k ltac:(lia)), rsum_split. f_equal.
    + apply rsum_ext. intros l L. rewrite A by assumption. cases. reflexivity.
    + rewrite <- (rsum_lt _ k c) by lia. apply rsum_ext. intros l L. rewrite B by assumption. cases; ring.
  - intros l L. rewrite <- (S (c + l)%nat ltac:(lia)), rsum_split.
    rewrite <- (rsum_gt _ l c L). 
    rewrite <- (rsum_one (fun q => ip (Sv q) (Yv q) * b (c + q)%nat) l c L).
    match goal with |- _ - ?r = _ => replace r with (- (-1 * r)) by ring end.
    rewrite <- rsum_scal. unfold Rminus. rewrite Ropp_involutive. f_equal.
    + apply rsum_ext. intros k K. rewrite C by assumption. cases; ring.
    + apply rsum_ext. intros q Q. rewrite D by assumption. cases; subst; ring.
Qed.

Lemma row_eqs : forall M (a b : nat -> R) (v : V), oinv c M -> solves (2 * c) M a b ->
  (forall k, (k < c)%nat -> a k = / gamma * ip v (Sv k)) ->
  (forall l, (l < c)%nat -> a (c + l)%nat = ip v (Yv l)) ->
  (forall k, (k < c)%nat -> ip (Sv k) (cw gamma ps d0 v b (fun l => b (c + l)%nat) k) = 0) /\
  (forall l, (l < c)%nat -> ip (Yv l) (cv ps d0 v b (S l)) = - (ip (Sv l) (Yv l) * b (c + l)%nat)).
Proof.
  intros M a b v O S A1 A2. destruct (rows M a b O S) as [R1 R2]. split.
  - intros k K. specialize (R1 k K). rewrite A1 in R1 by exact K.
    unfold cw, cv. ipx. rewrite !ip_vsum. cbn [rsum].
    fold c Sv Yv.
    assert (X1 : rsum c (fun l => SS k l * b l) = / gamma * rsum c (fun i => ip (Sv k) (iscale (b i) (Sv i)))).
    { rewrite <- rsum_scal. apply rsum_ext. intros i I. unfold SS. ipx. field. lra. }
    assert (X2 : rsum k (fun l => ip (Sv k) (Yv l) * b (c + l)%nat) =
                 rsum k (fun l => ip (Sv k) (iscale (b (c + l)%nat) (Yv l)))).
    { apply rsum_ext. intros i I. ipx. ring. }
    rewrite X1, X2, (ip_sym v) in R1. fold Sv Yv. unfold Sv, Yv in *. lra.
  - intros l L. specialize (R2 l L). rewrite A2 in R2 by exact L.
    unfold cv. ipx. rewrite !ip_vsum.
    assert (X : forall n, rsum n (fun k => ip (Sv k) (Yv l) * b k) =
                          rsum n (fun i => ip (Yv l) (iscale (b i) (Sv i)))).
    { intro n. apply rsum_ext. intros i I. ipx. rewrite (ip_sym (Yv l)). ring. }
    rewrite !X, (ip_sym v) in R2. unfold Sv, Yv, c in *. lra.
Qed.

Theorem small_nonsingular : forall M, oinv c M -> nonsingular (2 * c) M.
Proof.
  intros M O b S q Q.
  destruct (row_eqs M (fun _ => 0) b izero O S) as [R1 R2]; [intros; ipx; ring|intros; ipx; ring|].
  assert (U := compact_unique gamma ps d0 GP CU izero b (fun l => b (c + l)%nat) R1 R2 eq_refl).
  destruct (lt_dec q c) as [L|L]; [apply (U q L)|].
  replace q with (c + (q - c))%nat by lia. apply (U (q - c)%nat). fold c. lia.
Qed.

Lemma out_ok : forall (b : nat -> R) (r : V) t, (t <= c)%nat ->
  fold_left (cmp_out st gamma c b) (seq 0 t) r =
  isub (isub r (iscale (/ gamma) (vsum t (fun k => iscale (b k) (Sv k)))))
       (vsum t (fun l => iscale (b (c + l)%nat) (Yv l))).
Proof.
  intros b r t. induction t as [|t IH]; intro T; [cbn; veq|].
  rewrite seq_S, fold_left_app, IH by lia. cbn [fold_left plus]. unfold cmp_out.
  rewrite out_up; [|apply (rg_ins _ _ RG)|apply (rgl dv sq E st ps RG)].
  change (up st (l_np st - c + t)) with (slot t).
  destruct (at_slot t ltac:(lia)) as (HS & HY & _). rewrite HS, HY.
  cbn [vsub vscale exactVn sdiv exactK vsum]. rewrite DV by lra.
  rewrite (Nat.add_comm t c). veq. field. lra.
Qed.
End Exact.

Section Compact.
Variables (dv : R -> R -> R) (sq : R -> R) (E : IPS).
Hypothesis (DV : dv_ok dv).
Notation WW := (exactV dv sq E).
Notation V := (iv E).

Theorem cmp_ok : forall (so : lsolve (exactK dv sq)) (st : lb WW) (ps : list (V * V)) (v : V),
  solver_ok dv sq so -> ring st ps -> Forall curved ps ->
  (l_scal st = false -> l_gamma st = 1) ->
  exists st', cmp_matvec so st v = Ok (Bof (/ gam E (l_scal st) ps) ps v : vc WW, st').
Proof.
  intros so st ps v SO RG CU G1.
  pose proof (rgl dv sq E st ps RG) as L.
  pose proof (gam_pos E (l_scal st) ps CU) as GP. set (g := gam E (l_scal st) ps) in *.
  assert (GN : g <> 0) by lra.
  set (d0 := (v, v)).
  destruct (scal_ok dv sq E DV st ps RG CU) as [S1 S2].
  assert (SC : exists o, scal_gamma st = Ok o /\ 
     (match o with Some h => @vdivs _ WW v h | None => v end = iscale (/ g) v) /\
     (ps <> [] -> or_gamma o st = g)).
  { destruct (l_scal st) eqn:SCA.
    - destruct ps as [|p ps'] eqn:PS.
      + exists None. split; [apply S2; right; reflexivity|]. split; [|congruence].
        unfold g. cbn. rewrite Rinv_1. veq.
      + exists (Some g). split; [apply S1; [reflexivity|discriminate]|].
        split; [|reflexivity]. cbn [vdivs exactVn]. rewrite (DV 1 g GN). f_equal. unfold Rdiv. ring.
    - exists None. split; [apply S2; left; reflexivity|]. split.
      + unfold g. cbn. rewrite Rinv_1. veq.
      + intros _. cbn. rewrite G1 by reflexivity. reflexivity. }
  destruct SC as (o & SG & RV & OG). clearbody g. unfold cmp_matvec. rewrite SG. cbn [rbind]. rewrite RV.
  set (r := iscale (/ g) v) in *.
  replace (seq 0 (l_np st)) with (seq 0 (l_np st - length ps + length ps)) by (f_equal; lia).
  rewrite (skipf dv sq E _ _ st ps) by (assumption || (intros x i N; unfold cmp_rhs; rewrite N; reflexivity)).
  destruct (rhs_ok dv sq E st ps d0 RG r (l_s st) 0 (fun _ => 0) (length ps) (le_n _)) as (A1 & A2 & _).
  match type of A1 with snd ?X = _ =>
    match goal with |- context [fold_left ?f (seq 0 (length ps)) ?z0] =>
      change (fold_left f (seq 0 (length ps)) z0) with X end; destruct X as [a pc] end.
  cbn [fst snd] in A1, A2. subst pc.
  rewrite (skipf dv sq E _ _ st ps) by (assumption || (intros x i N; unfold cmp_rhs; rewrite N; reflexivity)).
  destruct (rhs_ok dv sq E st ps d0 RG v (l_y st) (length ps) a (length ps) (le_n _)) as (B1 & B2 & B3).
  match type of B1 with snd ?X = _ =>
    match goal with |- context [fold_left ?f (seq 0 (length ps)) (a, 0%nat)] =>
      change (fold_left f (seq 0 (length ps)) (a, 0%nat)) with X end; destruct X as [a2 j2] end.
  cbn [fst snd] in B1, B2, B3. clear B1.
  destruct ps as [|p0 ps0] eqn:PS.
  { cbn [length seq fold_left]. 
    match goal with |- context [fold_left (cmp_mat st ?g0 ?c0) ?l ?z0] =>
      destruct (fold_left (cmp_mat st g0 c0) l z0) end.
    cbn. eexists. f_equal. }
  rewrite OG by discriminate.
  rewrite (skipf dv sq E _ _ st (p0 :: ps0)) by (exact RG || (intros x i N; unfold cmp_mat; rewrite N; reflexivity)).
  assert (NE : p0 :: ps0 <> []) by discriminate. rewrite <- PS in *. clear PS p0 ps0.
  destruct (mat_ok dv sq E DV st ps d0 RG g GP (length ps) (le_n _)) as [M1 M2].
  match type of M1 with snd ?X = _ =>
    match goal with |- context [fold_left ?f (seq 0 (length ps)) ?z0] =>
      change (fold_left f (seq 0 (length ps)) z0) with X end; destruct X as [M k2] end.
  cbn [fst snd] in M1, M2.
  destruct (SO (2 * length ps)%nat M a2) as (b & SB & SL).
  { exact (small_nonsingular E ps d0 CU g GP M M2). }
  destruct (Nat.ltb_spec 0 (length ps)) as [POS|POS]; [|exfalso; destruct ps; [contradiction|cbn in POS; lia]].
  rewrite SB. cbn [rbind]. eexists. f_equal. f_equal.
  destruct (row_eqs E ps d0 g GP M a2 b v M2 SL) as [R1 R2].
  { intros k K. rewrite (B3 k K). change k with (0 + k)%nat at 1. rewrite (A2 k K).
    destruct (at_slot dv sq E st ps d0 RG k K) as (HS & _). rewrite HS. unfold r. ipx. reflexivity. }
  { intros l K. rewrite (B2 l K). destruct (at_slot dv sq E st ps d0 RG l K) as (_ & HY & _).
    rewrite HY. reflexivity. }
  rewrite (compact_ok g ps d0 GP CU v b (fun l => b (length ps + l)%nat) R1 R2).
  rewrite (out_ok dv sq E DV st ps d0 RG g GP b r (length ps) (le_n _)).
  unfold cw, cv, r. cbn [vsum]. veq.
Qed.
End Compact.
