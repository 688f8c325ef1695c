(** * Properties C71-C74: when CGS, BiCGSTAB and TFQMR stop, and that they finish. *)
From Coq Require Import List ZArith QArith Qreals Reals Lia Lra Bool.
From Verif Require Import Base Num ToolsModel CgModel KrylovModel KrylovProof KrylovStop KrylovPoly KrylovTerm.
Import ListNotations.

(** ** C71: any arithmetic: the solvers stop only when converged or out of budget... *)
Theorem C71_stop : forall (K : Scal) (W : Vs K) (q : kprob W) (rhs : vc W) (kw : kkw W) fuel cnt o cnt',
  let mx := match w_mmax kw with Some m => m | None => (2 * vlen rhs)%nat end in
  cgs_solve fuel q rhs kw cnt = Ok (o, cnt') \/ bi_solve fuel q rhs kw cnt = Ok (o, cnt') \/
  tf_solve fuel q rhs kw cnt = Ok (o, cnt') ->
  o_conv o = true \/ (mx <= o_nmv o)%nat.
Proof.
  intros K W q rhs kw fuel cnt o cnt' mx [H|[H|H]].
  - exact (cgs_stop q rhs kw fuel cnt o cnt' H).
  - exact (bi_stop q rhs kw fuel cnt o cnt' H).
  - exact (tf_stop q rhs kw fuel cnt o cnt' H).
Qed.

(** ... and as soon as they are: another iteration is started only when the test fails. *)
Theorem C71_continue : forall (K : Scal) (W : Vs K) (q : kprob W) (rhs : vc W) (kw : kkw W) cnt k,
  let mx := match w_mmax kw with Some m => m | None => (2 * vlen rhs)%nat end in
  let r0 := match w_guess kw with Some g => vsub rhs (q_A q g) | None => rhs end in
  let th := pymax (q_abstol q) (smul (q_reltol q) (sabs (ssqrt (vdot r0 r0)))) in
  (forall st, cgs_reach q rhs kw cnt k st -> s_fin st = false -> sleb (s_res st) th = false /\ (s_nmv st < mx)%nat) /\
  (forall st, bi_reach q rhs kw cnt k st -> b_fin st = false -> sleb (b_res st) th = false /\ (b_nmv st < mx)%nat) /\
  (forall st, tf_reached q rhs kw cnt k st -> t_fin st = false ->
     (forall m, t_m st = Some m -> sltb (smul (t_res st) (ssqrt (sadd m s1))) th = false) /\
     (t_m st = None -> sleb (t_res st) th = false) /\ (t_nmv st <= mx)%nat).
Proof.
  intros K W q rhs kw cnt k mx r0 th.
  assert (E : thr q (rn0 q rhs kw cnt) = th).
  { unfold th, thr, rn0, r0, start_r, opmul. destruct (w_guess kw); reflexivity. }
  rewrite <- E. split; [|split].
  - intros st. exact (cgs_goes_on q rhs kw cnt k st).
  - intros st. exact (bi_goes_on q rhs kw cnt k st).
  - intros st. exact (tf_goes_on q rhs kw cnt k st).
Qed.

(** ** Exact arithmetic: finite termination. *)
Local Open Scope R_scope.

(** The bi-conjugate gradient process started at [r0] (shadow vector [r0]) does not break down in
    its first [n] steps, unless it has found the solution before. *)
Definition no_breakdown {E : IPS} (B : iv E -> iv E) (r0 : iv E) (n : nat) : Prop :=
  forall i, (i < n)%nat -> (forall j, (j <= i)%nat -> P B r0 j r0 <> izero) ->
    ip r0 (P B r0 i (P B r0 i r0)) <> 0 /\ ip r0 (Q B r0 i (B (Q B r0 i r0))) <> 0.

(** What the polynomials are. *)
Theorem C72_polynomials : forall (E : IPS) (B : iv E -> iv E) (r0 v : iv E) k,
  let Pk := P B r0 k in let Qk := Q B r0 k in
  let rho f := ip r0 (f (f r0)) in
  P B r0 0 v = v /\ Q B r0 0 v = v /\
  P B r0 (S k) v = isub (Pk v) (iscale (rho Pk / ip r0 (Qk (B (Qk r0)))) (B (Qk v))) /\
  Q B r0 (S k) v = iadd (P B r0 (S k) v) (iscale (rho (P B r0 (S k)) / rho Pk) (Qk v)).
Proof. intros. split; [reflexivity|]. split; [reflexivity|]. split; reflexivity. Qed.

(** Self-adjoint positive definite operators never break down. *)
Theorem C72_spd_no_breakdown : forall (E : IPS) (B : iv E -> iv E) (r0 : iv E) n,
  lin B -> selfadj B -> posdef B -> no_breakdown B r0 n.
Proof.
  intros E B r0 n L SA PD i Li NZ.
  apply (spd_alive B L r0 SA PD (S i)); [|lia]. intros j Lj. apply NZ. lia.
Qed.

Section Exact.
Context (dv : R -> R -> R) (sq : R -> R) (E : IPS).
Notation KK := (exactK dv sq).
Notation WW := (exactV dv sq E).
Definition x_init (kw : kkw WW) : iv E := match w_guess kw with Some g => g | None => izero end.
(** the right-preconditioned operator *)
Definition opB (q : kprob WW) (v : iv E) : iv E := q_A q (match q_P q with Some M => M v | None => v end).

Theorem C72_cgs_residual : forall (q : kprob WW) (b : iv E) (kw : kkw WW), dv_ok dv -> sq_ok sq ->
  lin (q_A q) -> (forall M, q_P q = Some M -> lin (M : iv E -> iv E)) -> 0 <= (q_abstol q : R) ->
  forall fuel cnt o cnt', cgs_solve fuel q (b : vc WW) kw cnt = Ok (o, cnt') ->
  let r0 := isub b (q_A q (x_init kw)) in
  exists k, o_nmv o = (2 * k)%nat /\
    (no_breakdown (opB q) r0 k -> isub b (q_A q (o_x o)) = P (opB q) r0 k (P (opB q) r0 k r0)).
Proof.
  intros q b kw DV SQ LA LM AT fuel cnt o cnt' H r0.
  exact (cgs_result dv sq E SQ DV q b kw LA LM fuel cnt o cnt' AT H).
Qed.

Theorem C72_cgs : forall (q : kprob WW) (b : iv E) (kw : kkw WW) n, dv_ok dv -> sq_ok sq ->
  lin (q_A q) -> (forall M, q_P q = Some M -> lin (M : iv E -> iv E)) -> 0 <= (q_abstol q : R) ->
  dim_le E n -> (2 * n <= match w_mmax kw with Some m => m | None => 2 * ilen b end)%nat ->
  let r0 := isub b (q_A q (x_init kw)) in
  no_breakdown (opB q) r0 n ->
  forall fuel cnt o cnt', cgs_solve fuel q (b : vc WW) kw cnt = Ok (o, cnt') ->
  o_conv o = true /\ (o_nmv o <= 2 * n)%nat /\
  inorm (isub b (q_A q (o_x o))) <= Rmax (q_abstol q) (q_reltol q * inorm r0).
Proof.
  intros q b kw n DV SQ LA LM AT D MX r0 NB fuel cnt o cnt' H.
  destruct (cgs_term dv sq E SQ DV q b kw LA LM n fuel cnt o cnt' (dim_kdim _ _ n D) NB AT MX H) as [H1 H2].
  split; [exact H1|]. split; [exact H2|].
  destruct (cgs_exact dv sq E SQ q b kw LA fuel cnt o cnt' H) as (_ & _ & H3). apply H3. exact H1.
Qed.

Theorem C73_bicgstab : forall (q : kprob WW) (b : iv E) (kw : kkw WW) n, dv_ok dv -> sq_ok sq ->
  lin (q_A q) -> (forall M, q_P q = Some M -> lin (M : iv E -> iv E)) -> 0 <= (q_abstol q : R) ->
  dim_le E n -> (2 * n <= match w_mmax kw with Some m => m | None => 2 * ilen b end)%nat ->
  let r0 := isub b (q_A q (x_init kw)) in
  no_breakdown (opB q) r0 n ->
  forall fuel cnt o cnt',
  (* the stabilisation does not break down: omega is nonzero whenever another iteration follows *)
  (forall i s, bi_reach q (b : vc WW) kw cnt (S i) s -> b_fin s = false -> b_omega s <> 0 :> R) ->
  bi_solve fuel q (b : vc WW) kw cnt = Ok (o, cnt') ->
  o_conv o = true /\ (o_nmv o <= Nat.max (match w_guess kw with Some _ => 1 | None => 0 end) (2 * n))%nat /\
  inorm (isub b (q_A q (o_x o))) <= Rmax (q_abstol q) (q_reltol q * inorm r0).
Proof.
  intros q b kw n DV SQ LA LM AT D MX r0 NB fuel cnt o cnt' NO H.
  destruct (bi_term dv sq E SQ DV q b kw LA LM n fuel cnt o cnt' (dim_kdim _ _ n D) NB AT MX NO H) as [H1 H2].
  split; [exact H1|]. split; [exact H2|].
  destruct (bi_exact dv sq E SQ q b kw LA fuel cnt o cnt' H) as (_ & _ & _ & H3). apply H3. exact H1.
Qed.

(** omega is nonzero when the form <Bv, v> vanishes only at 0. *)
Theorem C73_omega : forall (q : kprob WW) (b : iv E) (kw : kkw WW), dv_ok dv -> sq_ok sq ->
  lin (q_A q) -> 0 <= (q_abstol q : R) -> (forall v, v <> izero -> ip (opB q v) v <> 0) ->
  forall cnt i s, bi_reach q (b : vc WW) kw cnt (S i) s -> b_fin s = false -> b_omega s <> 0 :> R.
Proof. intros q b kw DV SQ LA AT DEF. exact (bi_omega dv sq E SQ DV q b kw LA DEF AT). Qed.

Theorem C74_tfqmr : forall (q : kprob WW) (b : iv E) (kw : kkw WW) n, dv_ok dv -> sq_ok sq ->
  lin (q_A q) -> (forall M, q_P q = Some M -> lin (M : iv E -> iv E)) ->
  dim_le E n -> (2 * n <= match w_mmax kw with Some m => m | None => 2 * ilen b end + 1)%nat ->
  let r0 := isub b (q_A q (x_init kw)) in
  let th := Rmax (q_abstol q) (q_reltol q * inorm r0) in
  0 < th -> no_breakdown (opB q) r0 n ->
  forall fuel cnt o cnt', tf_solve fuel q (b : vc WW) kw cnt = Ok (o, cnt') ->
  o_conv o = true /\ (o_nmv o <= 2 * n - 1)%nat /\ inorm (isub b (q_A q (o_x o))) < th.
Proof.
  intros q b kw n DV SQ LA LM D MX r0 th TP NB fuel cnt o cnt' H.
  assert (TH : thr q (inorm (rr0 dv sq E q b kw) : sc KK) = th) by exact (th_is dv sq E q b kw).
  rewrite <- TH in TP.
  destruct (tf_term dv sq E SQ DV q b kw LA LM n fuel cnt o cnt' (dim_kdim _ _ n D) NB TP MX H) as (H1 & H2 & H3).
  split; [exact H1|]. split; [lia|]. rewrite TH in H3. exact H3.
Qed.
End Exact.

(** ** Symmetric positive definite systems on R^n: all three converge with the default budget. *)
Theorem C72_spd : forall dv sq n (q : kprob (exactV dv sq (Rn n))) (b : iv (Rn n)) (kw : kkw (exactV dv sq (Rn n))) cnt,
  dv_ok dv -> sq_ok sq -> lin (q_A q : iv (Rn n) -> iv (Rn n)) ->
  selfadj (q_A q : iv (Rn n) -> iv (Rn n)) -> posdef (q_A q : iv (Rn n) -> iv (Rn n)) ->
  q_P q = None -> 0 < (q_abstol q : R) -> w_mmax kw = None ->
  let r0 := isub b (q_A q (x_init dv sq (Rn n) kw)) in
  let th := Rmax (q_abstol q) (q_reltol q * inorm r0) in
  let solved (r : res (kout (exactV dv sq (Rn n)) * nat)) m :=
    exists o cnt', r = Ok (o, cnt') /\ o_conv o = true /\ (o_nmv o <= m)%nat /\
      inorm (isub b (q_A q (o_x o))) <= th in
  solved (cgs_solve (2 * n + 2) q b kw cnt) (2 * n)%nat /\
  solved (bi_solve (2 * n + 2) q b kw cnt) (Nat.max (match w_guess kw with Some _ => 1 | None => 0 end) (2 * n))%nat /\
  (th < inorm r0 -> solved (tf_solve (2 * n + 2) q b kw cnt) (2 * n - 1)%nat).
Proof.
  intros dv sq n q b kw cnt DV SQ LA SA PD NP AT MX r0 th solved.
  assert (EB : forall v, opB dv sq (Rn n) q v = q_A q v) by (intro v; unfold opB; rewrite NP; reflexivity).
  assert (NB : no_breakdown (opB dv sq (Rn n) q) r0 n).
  { apply C72_spd_no_breakdown.
    - split; intros; rewrite !EB; apply LA.
    - intros u v. rewrite !EB. apply SA.
    - intros u Hu. rewrite EB. now apply PD. }
  assert (LM : forall M, q_P q = Some M -> lin (M : iv (Rn n) -> iv (Rn n))) by (rewrite NP; discriminate).
  assert (ML : (2 * n <= match w_mmax kw with Some m => m | None => 2 * ilen b end)%nat) by (rewrite MX; cbn; lia).
  assert (FU : (mmax (w_mmax kw) (b : vc (exactV dv sq (Rn n))) + 1 < 2 * n + 2)%nat) by (rewrite MX; cbn; lia).
  assert (TP : 0 < th) by (unfold th; eapply Rlt_le_trans; [exact AT|apply Rmax_l]).
  split; [|split].
  - destruct (cgs_flow_spec q (b : vc (exactV dv sq (Rn n))) kw _ cnt FU) as (o & cnt' & H & _).
    exists o, cnt'. split; [exact H|].
    exact (C72_cgs dv sq (Rn n) q b kw n DV SQ LA LM (Rlt_le _ _ AT) (Rn_dim n) ML NB _ _ _ _ H).
  - destruct (bi_flow_spec q (b : vc (exactV dv sq (Rn n))) kw _ cnt FU) as (o & cnt' & H & _).
    exists o, cnt'. split; [exact H|].
    refine (C73_bicgstab dv sq (Rn n) q b kw n DV SQ LA LM (Rlt_le _ _ AT) (Rn_dim n) ML NB _ _ _ _ _ H).
    apply (C73_omega dv sq (Rn n) q b kw DV SQ LA (Rlt_le _ _ AT)).
    intros v NZ. rewrite EB. apply Rgt_not_eq. rewrite ip_sym. now apply PD.
  - intro NC. pose proof (tf_flow_spec q (b : vc (exactV dv sq (Rn n))) kw _ cnt FU) as H.
    rewrite (rn0_is dv sq (Rn n) SQ q b kw LA cnt) in H.
    assert (T : sleb (inorm r0 : sc (exactK dv sq)) (thr q (inorm r0 : sc (exactK dv sq))) = false).
    { apply Rleb_false. pose proof (th_is dv sq (Rn n) q b kw) as TH. change (rr0 dv sq (Rn n) q b kw) with r0 in TH.
      rewrite TH. exact NC. }
    change (rr0 dv sq (Rn n) q b kw) with r0 in H. rewrite T in H. cbn [orb] in H.
    assert (N0 : (mmax (w_mmax kw) (b : vc (exactV dv sq (Rn n))) =? 0)%nat = false).
    { apply Nat.eqb_neq. rewrite MX. cbn. destruct n; [|lia]. exfalso.
      assert (Z : inorm r0 = 0) by (unfold inorm; cbn; apply sqrt_0). rewrite Z in NC. lra. }
    rewrite N0 in H. destruct H as (o & cnt' & H & _). exists o, cnt'. split; [exact H|].
    destruct (C74_tfqmr dv sq (Rn n) q b kw n DV SQ LA LM (Rn_dim n) ltac:(lia) TP NB _ _ _ _ H) as (H1 & H2 & H3).
    split; [exact H1|]. split; [exact H2|]. apply Rlt_le. exact H3.
Qed.

(** ** A nonsymmetric system meeting all the hypotheses: [[1,1],[0,1]] x = (1,1), x0 = 0. *)
Notation Y2 := (exactV Rdiv sqrt (Rn 2)).
Definition upper (v : rv 2) : rv 2 := (fst v + fst (snd v), (fst (snd v), tt)).
Definition prob_up : kprob Y2 := @mkprob (exactK Rdiv sqrt) Y2 2 2 upper None (1 / 10) 0 (fun x => x) [].
Definition ones : rv 2 := (1, (1, tt)).
Lemma lin_upper : @lin (Rn 2) (Rn 2) upper.
Proof.
  split; [intros [u0 [u1 []]] [v0 [v1 []]]|intros a [u0 [u1 []]]]; cbn; unfold upper; cbn; f_equal; ring.
Qed.
Lemma P0_up : forall v, @P (Rn 2) upper ones 0 v = v. Proof. reflexivity. Qed.
Lemma P1_up : forall x y, @P (Rn 2) upper ones 1 (x, (y, tt)) = (x - 2 / 3 * (x + y), (y - 2 / 3 * y, tt)).
Proof.
  intros x y. unfold P, PQ, F, mulB, isub, ineg, upper, ones. cbn. f_equal; [field|f_equal; field].
Qed.
Ltac pairR := f_equal; [field|f_equal; field].
Lemma P1P1_up : @P (Rn 2) upper ones 1 (@P (Rn 2) upper ones 1 ones) = (-1 / 3, (1 / 9, tt)).
Proof.
  assert (E1 : @P (Rn 2) upper ones 1 ones = (-1 / 3, (1 / 3, tt))) by (etransitivity; [exact (P1_up 1 1)|pairR]).
  rewrite E1. etransitivity; [apply P1_up|pairR].
Qed.
Lemma Q1_up : forall x y, @Q (Rn 2) upper ones 1 (x, (y, tt)) =
  (x - 2 / 3 * (x + y) - 1 / 9 * x, (y - 2 / 3 * y - 1 / 9 * y, tt)).
Proof.
  intros x y. destruct (C72_polynomials (Rn 2) upper ones (x, (y, tt)) 0) as (_ & _ & _ & H).
  etransitivity; [exact H|]. rewrite P1_up, P1P1_up, !P0_up.
  change (@Q (Rn 2) upper ones 0 (x, (y, tt))) with ((x, (y, tt)) : rv 2).
  unfold ones. cbn. pairR.
Qed.
Lemma Q1Q1_up : @Q (Rn 2) upper ones 1 (upper (@Q (Rn 2) upper ones 1 ones)) = (-16 / 81, (4 / 81, tt)).
Proof.
  assert (E1 : @Q (Rn 2) upper ones 1 ones = (-4 / 9, (2 / 9, tt))) by (etransitivity; [exact (Q1_up 1 1)|pairR]).
  rewrite E1. unfold upper at 2. cbn [fst snd]. etransitivity; [apply Q1_up|pairR].
Qed.
Example ex_C72_no_breakdown : @no_breakdown (Rn 2) (opB Rdiv sqrt (Rn 2) prob_up)
  (isub (ones : iv (Rn 2)) (q_A prob_up (x_init Rdiv sqrt (Rn 2) (mkkkw None None)))) 2.
Proof.
  assert (ER : isub (ones : iv (Rn 2)) (q_A prob_up (x_init Rdiv sqrt (Rn 2) (mkkkw None None))) = ones).
  { unfold isub, ineg, ones, x_init. cbn. unfold upper. cbn. f_equal; [ring|f_equal; ring]. }
  rewrite ER. change (opB Rdiv sqrt (Rn 2) prob_up) with upper. intros i Li _.
  destruct i as [|[|i]]; [| |lia].
  - split; apply Rgt_not_eq; cbn; lra.
  - split; [rewrite P1P1_up|rewrite Q1Q1_up]; apply Rlt_not_eq; cbn; lra.
Qed.

Example ex_C73_definite : forall v : rv 2, v <> @izero (Rn 2) -> @ip (Rn 2) (opB Rdiv sqrt (Rn 2) prob_up v) v <> 0.
Proof.
  intros [x [y []]] NZ. apply Rgt_not_eq. cbn.
  destruct (Req_dec x 0) as [->|NX]; [destruct (Req_dec y 0) as [->|NY]|].
  - exfalso. apply NZ. reflexivity.
  - pose proof (Rsqr_pos_lt y NY) as H. unfold Rsqr in H. lra.
  - pose proof (Rsqr_pos_lt x NX) as H. pose proof (Rle_0_sqr (y + x / 2)) as H'. unfold Rsqr in *.
    replace ((x + y) * x + (y * y + 0)) with ((y + x / 2) * (y + x / 2) + 3 / 4 * (x * x)) by field. lra.
Qed.
(** All three solve it. *)
Example ex_C72 : forall fuel o cnt', let kw : kkw Y2 := mkkkw None None in
  (cgs_solve fuel prob_up (ones : vc Y2) kw 0 = Ok (o, cnt') -> o_conv o = true /\ (o_nmv o <= 4)%nat) /\
  (bi_solve fuel prob_up (ones : vc Y2) kw 0 = Ok (o, cnt') -> o_conv o = true /\ (o_nmv o <= 4)%nat) /\
  (tf_solve fuel prob_up (ones : vc Y2) kw 0 = Ok (o, cnt') -> o_conv o = true /\ (o_nmv o <= 3)%nat).
Proof.
  intros fuel o cnt' kw.
  assert (DV : dv_ok Rdiv) by (intros a b _; reflexivity).
  assert (SQ : sq_ok sqrt) by (intros a _; reflexivity).
  assert (LM : forall M, q_P prob_up = Some M -> lin (M : iv (Rn 2) -> iv (Rn 2))) by discriminate.
  assert (AT : 0 <= (q_abstol prob_up : R)) by (cbn; lra).
  split; [|split]; intro H.
  - destruct (C72_cgs Rdiv sqrt (Rn 2) prob_up ones kw 2 DV SQ lin_upper LM AT (Rn_dim 2) (le_n _) ex_C72_no_breakdown _ _ _ _ H)
      as (H1 & H2 & _). split; [exact H1|exact H2].
  - destruct (C73_bicgstab Rdiv sqrt (Rn 2) prob_up ones kw 2 DV SQ lin_upper LM AT (Rn_dim 2) (le_n _) ex_C72_no_breakdown _ _ _ _
      (C73_omega Rdiv sqrt (Rn 2) prob_up ones kw DV SQ lin_upper AT ex_C73_definite 0) H)
      as (H1 & H2 & _). split; [exact H1|exact H2].
  - assert (TP : 0 < Rmax (q_abstol prob_up) (q_reltol prob_up * inorm (isub (ones : iv (Rn 2)) (q_A prob_up (x_init Rdiv sqrt (Rn 2) kw))))).
    { eapply Rlt_le_trans; [|apply Rmax_l]. cbn. lra. }
    destruct (C74_tfqmr Rdiv sqrt (Rn 2) prob_up ones kw 2 DV SQ lin_upper LM (Rn_dim 2) (le_S _ _ (le_n _)) TP ex_C72_no_breakdown _ _ _ _ H)
      as (H1 & H2 & _). split; [exact H1|exact H2].
Qed.
(** A symmetric positive definite one. *)
Definition spd2 (v : rv 2) : rv 2 := (2 * fst v + fst (snd v), (fst v + 2 * fst (snd v), tt)).
Example ex_C72_spd : @lin (Rn 2) (Rn 2) spd2 /\ @selfadj (Rn 2) spd2 /\ @posdef (Rn 2) spd2.
Proof.
  split; [|split].
  - split; [intros [u0 [u1 []]] [v0 [v1 []]]|intros a [u0 [u1 []]]]; cbn; unfold spd2; cbn; (f_equal; [ring|f_equal; ring]).
  - intros [u0 [u1 []]] [v0 [v1 []]]. cbn. ring.
  - intros [x [y []]] NZ. cbn.
    destruct (Req_dec x 0) as [->|NX]; [destruct (Req_dec y 0) as [->|NY]|]; [exfalso; apply NZ; reflexivity| |].
    + pose proof (Rsqr_pos_lt y NY) as H. unfold Rsqr in H. lra.
    + pose proof (Rsqr_pos_lt x NX) as H. pose proof (Rle_0_sqr y) as H1. pose proof (Rle_0_sqr (x + y)) as H2. unfold Rsqr in *.
      replace (x * (2 * x + y) + (y * (x + 2 * y) + 0)) with (x * x + y * y + (x + y) * (x + y)) by ring. lra.
Qed.
(** CGS run out of budget in the first iteration: not converged, two products. *)
Example ex_C71 : exists (o : kout Y2) cnt', cgs_solve 4 (@mkprob (exactK Rdiv sqrt) Y2 2 2 upper None 0 0 (fun x => x) []) (ones : vc Y2) (mkkkw None (Some 1%nat)) 0
  = Ok (o, cnt') /\ o_nmv o = 2%nat.
Proof.
  unfold cgs_solve. cbn [w_guess w_mmax start_r mmax].
  assert (T : sleb (sabs (ssqrt (vdot (ones : vc Y2) ones))) (thr (@mkprob (exactK Rdiv sqrt) Y2 2 2 upper None 0 0 (fun x => x) []) (sabs (ssqrt (vdot (ones : vc Y2) ones)))) = false).
  { apply Rleb_false. unfold thr. rewrite (CgProof.Rmax_pymax Rdiv sqrt). cbn. rewrite Rmult_0_l.
    rewrite Rmax_left by lra. apply Rabs_pos_lt. apply Rgt_not_eq. apply sqrt_lt_R0. lra. }
  rewrite T. cbn [orb Nat.leb while s_fin negb]. unfold cgs_body at 1, opmul. cbv beta iota zeta.
  cbn [s_nmv Nat.add Nat.leb]. rewrite orb_true_r. cbn [s_fin negb]. eexists _, _. split; reflexivity.
Qed.

Print Assumptions C71_stop.
Print Assumptions C71_continue.
Print Assumptions C72_polynomials.
Print Assumptions C72_spd_no_breakdown.
Print Assumptions C72_cgs_residual.
Print Assumptions C72_cgs.
Print Assumptions C73_bicgstab.
Print Assumptions C73_omega.
Print Assumptions C74_tfqmr.
Print Assumptions C72_spd.
