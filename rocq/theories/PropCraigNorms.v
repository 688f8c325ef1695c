(** Property C101: what the norms reported by CRAIG are.

    craig.py:144-153 documents [r1norm = norm(b - Ax)], [Arnorm = norm(A'r - damp^2 x)] and [xnorm = norm(x)].  In exact arithmetic
    without preconditioners the reported numbers satisfy the relations below, and differ from the documented ones even when [solve]
    returns the solution. *)
From Coq Require Import List ZArith QArith Reals Lia Lra Bool.
From Verif Require Import Base Num ToolsModel CgProof MinresModel MinresProof PropMinres PropCg LsqrModel PropLsqr CraigModel CraigMath CraigProof PropCraig CraigNorms.
Import ListNotations.
Local Open Scope R_scope.

Section Exact.
Variables (dv : R -> R -> R) (sq : R -> R).
Hypothesis DV : dv_ok dv.
Hypothesis SQ : sq_ok sq.
Variables E1 E2 : IPS.
Notation KK := (exactK dv sq).
Variables (nv1 : iv E1 -> R) (nv2 : iv E2 -> R).
Notation WV := (exactVn dv sq E1 nv1).
Notation WU := (exactVn dv sq E2 nv2).
Variables (q : lprob WV WU) (b : iv E2).
Let A : iv E1 -> iv E2 := lp_A q.
Let At : iv E2 -> iv E1 := lp_At q.
Hypothesis AD : adjoint A At.
Variables (fuel cnt : nat) (kw : cr_kw WV WU).
Hypothesis NM : c_M kw = None.
Hypothesis NN : c_N kw = None.
Hypothesis HW : (1 <= c_window kw)%nat.
Variables (r : cr_out WV WU) (cnt' : nat).
Hypothesis B0 : b <> izero.
Hypothesis RET : @cr_solve KK WV WU fuel q kw b cnt = Ok (r, cnt').

Lemma b_pos : 0 < inorm b.
Proof.
  destruct (Rle_lt_or_eq_dec 0 (inorm b) (inorm_pos b)) as [P|Z]; [exact P|]. exfalso. apply B0, inorm_zero. auto.
Qed.

(** [self.r1norm] squared and [self.xnorm] are a splitting of [norm(x)^2 + norm(r)^2], the square of [self.r2norm], into two
    nonnegative terms. *)
Theorem C101_splitting :
  (go_r1norm r * go_r1norm r : R) + go_xnorm r = ip (go_x r : iv E1) (go_x r : iv E1) + ip (go_r r : iv E2) (go_r r : iv E2) /\
  (go_r2norm r * go_r2norm r : R) = ip (go_x r : iv E1) (go_x r : iv E1) + ip (go_r r : iv E2) (go_r r : iv E2) /\
  0 <= (go_r1norm r : R) /\ 0 <= (go_xnorm r : R).
Proof.
  destruct (cn_run dv sq DV SQ E1 E2 nv1 nv2 q b AD kw NM NN HW fuel cnt r cnt' b_pos RET)
    as (ps & _ & _ & _ & _ & _ & S & R1 & X & R2 & _).
  split; [rewrite S; exact R2|]. auto.
Qed.

(** The entries of [normal_eqns_resids] and [self.Arnorm] (the last of them) belong to the iterates _before_ the iteration that
    stores them: each lies between the residual [norm(b - A x - r)] of that earlier pair and [sqrt(1 + norm(A)^2)] times it; for the
    first it is that residual. *)
Theorem C101_arnorm : exists ps : list (iv E1 * iv E2),
  length ps = S (go_itn r) /\ last ps (izero, izero) = (go_x r : iv E1, go_r r : iv E2) /\
  (c_sit kw = true -> go_itp r = map fst ps /\ go_itd r = map snd ps) /\ (1 <= go_itn r)%nat /\
  (forall i p, nth_error ps i = Some p -> fst p = At (snd p)) /\
  let res (p : iv E1 * iv E2) := inorm (isub b (iadd (A (fst p)) (snd p))) in
  let goal p (a : R) := res p <= a /\ forall sg, 0 <= sg -> (forall z, inorm (A z) <= sg * inorm z) -> a <= sqrt (1 + sg * sg) * res p in
  (forall i a, nth_error (go_nresids r) i = Some a ->
     exists p, nth_error ps i = Some p /\ goal p a /\ (i = 0%nat -> a = res p)) /\
  (exists p, nth_error ps (go_itn r - 1) = Some p /\ goal p (go_Arnorm r) /\ (go_itn r = 1%nat -> go_Arnorm r = res p)).
Proof.
  destruct (cn_run dv sq DV SQ E1 E2 nv1 nv2 q b AD kw NM NN HW fuel cnt r cnt' b_pos RET)
    as (ps & L & LA & SI & N1 & XA & _ & _ & _ & _ & NR & AR).
  exists ps. split; [exact L|]. split; [exact LA|]. split; [exact SI|]. split; [exact N1|]. split; [exact XA|]. cbv zeta.
  assert (NE : forall p a, cn_near dv sq E1 E2 nv1 nv2 q b p a ->
    inorm (isub b (iadd (A (fst p)) (snd p))) <= a /\
    forall sg, 0 <= sg -> (forall z, inorm (A z) <= sg * inorm z) -> a <= sqrt (1 + sg * sg) * inorm (isub b (iadd (A (fst p)) (snd p)))).
  { intros p a [N2 N3]. split; [exact N2|]. intros sg S0 SB. apply N3. split; assumption. }
  split.
  - intros i a Hi. destruct (NR i a Hi) as (p & P1 & P2 & P3). exists p. auto.
  - destruct AR as (p & P1 & P2 & P3). exists p. auto.
Qed.

(** [self.Arnorm = 0] only if the iterate before the last one was already the solution. *)
Theorem C101_arnorm_zero : go_Arnorm r = 0 :> R -> exists p0 : iv E1 * iv E2,
  iadd (A (fst p0)) (snd p0) = b /\ fst p0 = At (snd p0) /\
  (c_sit kw = true -> nth_error (go_itp r) (go_itn r - 1) = Some (fst p0) /\ nth_error (go_itd r) (go_itn r - 1) = Some (snd p0)).
Proof.
  intro Z. destruct C101_arnorm as (ps & _ & _ & SI & _ & XA & _ & p & P1 & [P2 _] & _). exists p.
  split; [|split; [exact (XA _ _ P1)|]].
  - assert (N0 : inorm (isub b (iadd (A (fst p)) (snd p))) = 0) by (pose proof (inorm_pos (isub b (iadd (A (fst p)) (snd p)))); lra).
    apply inorm_zero in N0. apply ip_ext. intro w. pose proof (f_equal (ip w) N0) as N1. ipx_in N1. ipx. lra.
  - intro C. destruct (SI C) as [-> ->]. split; apply map_nth_error; exact P1.
Qed.
End Exact.

(** ** The documented values are refuted.  A = [3/4 0; 15/16 3], b = (1,0), one iteration. *)
Definition nA (z : iv (Rn 2)) : iv (Rn 2) := v2 (3 / 4 * fst z) (15 / 16 * fst z + 3 * fst (snd z)).
Definition nAt (z : iv (Rn 2)) : iv (Rn 2) := v2 (3 / 4 * fst z + 15 / 16 * fst (snd z)) (3 * fst (snd z)).
Definition nq : lprob W2 W2 := @mklprob K0 W2 W2 2 2 (nA : vc W2 -> vc W2) (nAt : vc W2 -> vc W2).
Lemma nAD : adjoint nA nAt.
Proof. intros [a [b []]] [c [d []]]. cbn. lra. Qed.
Lemma n_nz : v2 1 0 <> izero.
Proof. intro H. apply (f_equal (fun z : iv (Rn 2) => fst z)) in H. cbn in H. lra. Qed.
Lemma sq_inj : forall x y, 0 <= x -> 0 <= y -> x * x = y * y -> x = y.
Proof. intros x y X Y H. apply Rsqr_inj; assumption. Qed.
Lemma n_norm : forall a c x, 0 <= x -> a * a + c * c = x * x -> inorm (v2 a c) = x.
Proof. intros a c x X H. apply sq_inj; [apply inorm_pos|exact X|]. rewrite inorm_sq. cbn. lra. Qed.

Theorem C101_documented_refuted : exists (q : lprob W2 W2) (kw : cr_kw W2 W2) (b : iv (Rn 2)) (r : cr_out W2 W2) cnt',
  let A : iv (Rn 2) -> iv (Rn 2) := lp_A q in let At : iv (Rn 2) -> iv (Rn 2) := lp_At q in
  let x : iv (Rn 2) := go_x r in
  adjoint A At /\ c_M kw = None /\ c_N kw = None /\ @cr_solve K0 W2 W2 2 q kw b 0 = Ok (r, cnt') /\
  iadd (A x) (go_r r : iv (Rn 2)) = b /\ iadd (At (A x)) x = At b /\
  (go_r1norm r : R) <> inorm (isub b (A x)) /\ (go_xnorm r : R) <> inorm x /\ (go_xnorm r : R) <> inorm x * inorm x /\
  (go_Arnorm r : R) <> inorm (isub (At (isub b (A x))) x).
Proof.
  exists nq, (ckw 1 W2 W2), (v2 1 0).
  destruct (C55_returns Rdiv sqrt Rdiv_ok sqrt_ok (Rn 2) (Rn 2) inorm inorm nq (v2 1 0) nAD 2 0 (ckw 1 W2 W2) eq_refl eq_refl)
    as (r & c & H); try reflexivity; try (cbn; lia); [exact n_nz|].
  exists r, c. cbv zeta. split; [exact nAD|]. split; [reflexivity|]. split; [reflexivity|]. split; [exact H|].
  assert (NB : inorm (v2 1 0) = 1) by (apply n_norm; lra).
  (* the iterates *)
  destruct (C55_stopping K0 W2 W2 nq (ckw 1 W2 W2) 2 (v2 1 0) 0 r c H) as (L & _). cbn in L.
  assert (I1 : go_itn r = 1%nat) by lia.
  destruct (C69_galerkin Rdiv sqrt Rdiv_ok sqrt_ok (Rn 2) (Rn 2) inorm inorm nq (v2 1 0) nAD 2 0 (ckw 1 W2 W2) eq_refl eq_refl
    ltac:(cbn; lia) eq_refl ltac:(cbn; lia) r c H) as (ps & LP & EP & G).
  destruct (C101_arnorm Rdiv sqrt Rdiv_ok sqrt_ok (Rn 2) (Rn 2) inorm inorm nq (v2 1 0) nAD 2 0 (ckw 1 W2 W2) eq_refl eq_refl
    ltac:(cbn; lia) r c n_nz H) as (ps2 & LP2 & EP2 & _ & _ & XA & _).
  destruct (nth_error ps (go_itn r)) as [[x y]|] eqn:NP; [|apply nth_error_None in NP; lia].
  destruct (nth_error ps2 (go_itn r)) as [[x2 y2]|] eqn:NP2; [|apply nth_error_None in NP2; lia].
  assert (EL : last ps (izero, izero) = (x, y)).
  { apply last_nth_error. rewrite LP. cbn [Nat.sub]. rewrite Nat.sub_0_r. exact NP. }
  assert (EL2 : last ps2 (izero, izero) = (x2, y2)).
  { apply last_nth_error. rewrite LP2. cbn [Nat.sub]. rewrite Nat.sub_0_r. exact NP2. }
  rewrite EP in EL. rewrite EP2 in EL2. injection EL as Ex Ey. injection EL2 as Ex2 Ey2.
  pose proof (XA _ _ NP2) as X2. cbn [fst snd] in X2. destruct (G _ _ _ NP) as (_ & OR & _). rewrite I1 in OR.
  set (AAt := fun z : iv (Rn 2) => nA (nAt z)) in *.
  assert (K1 : kry AAt (v2 1 0) 1 (v2 1 0)).
  { exists 1, izero. split; [reflexivity|]. unfold AAt, nA, nAt, v2. cbn. repeat (apply f_equal2; [lra|]). reflexivity. }
  assert (O1 : ip (v2 1 0) (isub (v2 1 0) (iadd (nA x) y)) = 0).
  { apply OR. exists 1, izero. split; [exists 0, izero; split; [reflexivity|]|]; unfold AAt, nA, nAt, v2; cbn;
    repeat (apply f_equal2; [lra|]); reflexivity. }
  assert (O2 : ip (AAt (v2 1 0)) (isub (v2 1 0) (iadd (nA x) y)) = 0).
  { apply OR. exists 0, (v2 1 0). split; [exact K1|]. unfold AAt, nA, nAt, v2; cbn. repeat (apply f_equal2; [lra|]); reflexivity. }
  assert (XX : x = nAt y) by (rewrite <- Ex, <- Ey; etransitivity; [exact Ex2|]; etransitivity; [exact X2|]; apply f_equal; symmetry; exact Ey2).
  destruct y as [ya [yb []]]. rewrite XX in O1, O2. cbn in O1, O2.
  assert (YA : ya = 557 / 845) by lra. assert (YB : yb = - (36 / 845)) by lra.
  assert (XV : (go_x r : iv (Rn 2)) = v2 (384 / 845) (- (108 / 845))).
  { rewrite Ex, XX, YA, YB. unfold nAt, v2. cbn. repeat (apply f_equal2; [lra|]). reflexivity. }
  assert (YV : (go_r r : iv (Rn 2)) = v2 (557 / 845) (- (36 / 845))) by (rewrite Ey, YA, YB; reflexivity).
  (* the state *)
  destruct (cn_one Rdiv sqrt Rdiv_ok sqrt_ok (Rn 2) (Rn 2) inorm inorm nq (v2 1 0) nAD (ckw 1 W2 W2) eq_refl eq_refl ltac:(cbn; lia)
    2 0 r c ltac:(lra) eq_refl H) as (st0 & st1 & u & ah & be & bh & s2 & ah' & de & CT & CS & X1 & X3 & R1 & AR).
  destruct CT as [T1 T2 T3 T4 T5 T6 T7 T8 T9 T10 T11 T12 T13 T14 T15].
  destruct CS as [BD RT _ D' TA ZE RR XQ WB RN RG XG RQ IT _].
  destruct BD as [B0 B1 B2 B3 B4 B5]. destruct RT as [Rbh Rde Rde0 Rs2 Rah Rah0 Rc Rs].
  change (lp_A nq) with (nA : vc W2 -> vc W2) in *. change (lp_At nq) with (nAt : vc W2 -> vc W2) in *.
  rewrite NB in T1, T9.
  assert (UV : u = v2 1 0) by (rewrite T1; unfold v2; cbn; repeat (apply f_equal2; [lra|]); reflexivity).
  assert (AL : (g_alpha st0 : R) = 3 / 4).
  { rewrite T3, UV. unfold nAt. cbn [fst snd v2]. apply n_norm; lra. }
  assert (VV : (g_v st0 : iv (Rn 2)) = v2 1 0).
  { rewrite T4 by (rewrite AL; lra). rewrite AL, UV. unfold nAt, v2. cbn. repeat (apply f_equal2; [lra|]). reflexivity. }
  assert (AH : ah = 5 / 4) by (apply sq_inj; [lra|lra|]; rewrite T6, AL; lra). rewrite AH, AL in T7. rewrite AH in T8.
  assert (CC : (g_c st0 : R) = 3 / 5) by lra. assert (SS : (g_s st0 : R) = 4 / 5) by lra.
  assert (ZZ : (g_zeta st0 : R) = 4 / 5) by (rewrite T9, SS; lra).
  assert (DU : isub (nA (g_v st0)) (iscale (g_alpha st0) (g_Mu st0 : iv (Rn 2))) = v2 0 (15 / 16)).
  { rewrite VV, T2, UV, AL. unfold nA, v2. cbn. repeat (apply f_equal2; [lra|]). reflexivity. }
  assert (BE : be = 15 / 16) by (rewrite B0; etransitivity; [apply f_equal; exact DU|]; apply n_norm; lra).
  assert (MU : (g_Mu st1 : iv (Rn 2)) = v2 0 1).
  { rewrite (B2 ltac:(lra)), BE. etransitivity; [apply f_equal; exact DU|]. unfold v2. cbn. repeat (apply f_equal2; [lra|]). reflexivity. }
  assert (AL1 : (g_alpha st1 : R) = 3).
  { rewrite (B3 ltac:(lra)), MU, BE, VV. etransitivity; [|apply (n_norm 0 3 3); lra]. apply f_equal. unfold nAt, v2. cbn.
    repeat (apply f_equal2; [lra|]). reflexivity. }
  rewrite SS, BE in Rde. rewrite CC, BE in Rbh. rewrite AL1 in Rah, Rc.
  assert (DE : de = 5 / 4) by (apply sq_inj; lra).
  assert (AH1 : ah' = 13 / 4) by (apply sq_inj; [lra|lra|]; rewrite Rah, DE; lra).
  rewrite AH1 in *. rewrite DE in Rs.
  assert (C1 : (g_c st1 : R) = 12 / 13) by lra. assert (S1 : (g_s st1 : R) = 5 / 13) by lra.
  assert (Z1 : (g_zeta st1 : R) = - (9 / 65)) by (rewrite Rbh, ZZ in ZE; lra).
  assert (XN : (go_xnorm r : R) = 12 / 25 * (12 / 25) + 108 / 845 * (108 / 845)).
  { rewrite X3, X1, T10, CC, ZZ, C1, Z1. lra. }
  assert (RV : (go_r1norm r * go_r1norm r : R) = 16 / 25 * (16 / 25) + 45 / 845 * (45 / 845)).
  { rewrite R1, RQ, T11, SS, ZZ, S1, Z1. lra. }
  assert (AV : (go_Arnorm r : R) = 9 / 20).
  { rewrite AR, AL, BE, SS, ZZ. rewrite Rabs_pos_eq; lra. }
  rewrite XV, YV.
  change (lp_A nq) with (nA : vc W2 -> vc W2). change (lp_At nq) with (nAt : vc W2 -> vc W2).
  assert (BX : isub (v2 1 0) (nA (v2 (384 / 845) (- (108 / 845)))) = v2 (557 / 845) (- (36 / 845))).
  { unfold nA, v2. cbn. repeat (apply f_equal2; [lra|]). reflexivity. }
  assert (XS : inorm (v2 (384 / 845) (- (108 / 845))) * inorm (v2 (384 / 845) (- (108 / 845))) = 159120 / 714025).
  { rewrite inorm_sq. cbn. lra. }
  split; [unfold nA, v2; cbn; repeat (apply f_equal2; [lra|]); reflexivity|].
  split; [unfold nA, nAt, v2; cbn; repeat (apply f_equal2; [lra|]); reflexivity|].
  split.
  { intro Z. rewrite Z in RV. assert (Q : inorm (isub (v2 1 0) (nA (v2 (384 / 845) (- (108 / 845))))) * inorm (isub (v2 1 0) (nA (v2 (384 / 845) (- (108 / 845))))) = 311545 / 714025).
    { rewrite inorm_sq, BX. cbn. lra. }
    lra. }
  split; [intro Z; rewrite <- Z, XN in XS; lra|]. split; [rewrite XN; lra|].
  rewrite AV. intro Z.
  assert (Q : isub (nAt (isub (v2 1 0) (nA (v2 (384 / 845) (- (108 / 845)))))) (v2 (384 / 845) (- (108 / 845))) = izero).
  { etransitivity; [apply (f_equal (fun z => isub (nAt z) (v2 (384 / 845) (- (108 / 845))))); exact BX|].
    unfold nAt, v2. cbn. repeat (apply f_equal2; [lra|]). reflexivity. }
  pose proof (f_equal inorm Q) as Q2. rewrite inorm_izero in Q2. assert (9 / 20 = 0) by (transitivity (inorm (isub (nAt (isub (v2 1 0) (nA (v2 (384 / 845) (- (108 / 845)))))) (v2 (384 / 845) (- (108 / 845))))); [exact Z|exact Q2]).
  lra.
Qed.

Print Assumptions C101_splitting. Print Assumptions C101_arnorm. Print Assumptions C101_arnorm_zero.
Print Assumptions C101_documented_refuted.

(** The hypotheses of the section hold of this call. *)
Example ex_C101 : dv_ok Rdiv /\ sq_ok sqrt /\ adjoint nA nAt /\ v2 1 0 <> izero /\ (1 <= c_window (ckw 1 W2 W2))%nat /\
  c_M (ckw 1 W2 W2) = None /\ c_N (ckw 1 W2 W2) = None /\
  exists (r : cr_out W2 W2) cnt', @cr_solve K0 W2 W2 2 nq (ckw 1 W2 W2) (v2 1 0) 0 = Ok (r, cnt').
Proof.
  split; [exact Rdiv_ok|]. split; [exact sqrt_ok|]. split; [exact nAD|]. split; [exact n_nz|]. split; [cbn; lia|].
  split; [reflexivity|]. split; [reflexivity|].
  apply (C55_returns Rdiv sqrt Rdiv_ok sqrt_ok (Rn 2) (Rn 2) inorm inorm nq (v2 1 0) nAD 2 0 (ckw 1 W2 W2) eq_refl eq_refl);
    try reflexivity; try (cbn; lia). exact n_nz.
Qed.
