(** * C48, C75, C90 and C93 for MINRES, completed: the number of iterations.  In exact arithmetic, unless [b] is an
    eigenvector as far as the code can tell (then [istop] is -1 and the tests are switched off, C47 and C66),
    MINRES stops by itself. *)
From Coq Require Import List Arith Lia Bool QArith ZArith Reals Lra Qreals.
From Verif Require Import Base Num KrylovPoly ToolsModel CgModel PropCg MinresModel MinresProof PropMinres Precon PropPrecon
  Cheb RateMath MinresStop PropRateLs SpanMath RankMath PropRank.
Import ListNotations.
Local Open Scope R_scope.

Section Stops.
Variables (dv : R -> R -> R) (sq : R -> R).
Hypothesis DV : dv_ok dv.
Hypothesis SQ : sq_ok sq.
Variable E : IPS.
Notation KK := (exactK dv sq).
Notation WW := (exactV dv sq E).
Variables (q : kprob WW) (kw : mr_kw WW) (b : iv E).
Let At (z : iv E) : iv E := isub (q_A q z : iv E) (iscale (m_shift kw) z).
Let P : iv E -> iv E := match m_precon kw with Some P => P | None => fun z => z end.
Let pnorm (z : iv E) : R := sqrt (ip z (P z)).
Hypothesis SA : selfadj (q_A q : iv E -> iv E).
Hypothesis SP : selfadj P.
Hypothesis PP : posdef P.
Hypothesis RT : 0 <= (m_rtol kw : R).
(** The second Lanczos coefficient is not negligible. *)
Let u : iv E := iscale (/ pnorm b) b.
Hypothesis NE : 10 * @machine_eps KK * pnorm b < pnorm (isub (At (P u)) (iscale (ip (P u) (At (P u))) u)).

Lemma st_b0 : b <> izero.
Proof.
  intro B0. assert (Z : u = izero) by (unfold u; rewrite B0; apply ip_ext; intro w; rewrite ip_scale, ip_zero; ring).
  revert NE. rewrite Z, B0. intro X.
  pose proof (adjoint_lin _ _ SP) as LP. pose proof (adjoint_lin _ _ (rm_SAt dv sq E q kw SA)) as LA.
  rewrite (lin_zero P LP) in X. assert (A0 : At izero = izero) by apply (lin_zero _ LA). rewrite A0 in X.
  replace (isub (@izero E) (iscale (ip izero izero) izero)) with (@izero E) in X by veq.
  unfold pnorm in X. rewrite ip_zerol, sqrt_0 in X. lra.
Qed.
Lemma st_bp : 0 < pnorm b.
Proof. apply sqrt_lt_R0. apply PP. exact st_b0. Qed.

Lemma st_run : (forall k z, kry (fun z => At (P z)) b k z -> @machine_eps KK * pnorm z <= pnorm (At (P z))) ->
  forall fuel hist cnt o cnt', @mr_solve KK WW fuel q hist b kw cnt = Ok (o, cnt') ->
  forall s (y : iv E), kry (fun z => P (At z)) (P b) s y -> pnorm (isub b (At y)) <= m_rtol kw * pnorm b ->
  (1 <= s)%nat -> (u_itn o <= s)%nat.
Proof.
  intros SG fuel hist cnt o cnt' H s y K B S1.
  destruct (rm_min dv sq DV SQ E q kw b SA SP PP SG fuel hist cnt o cnt' H) as (xs & H1 & H2 & _ & _ & H5).
  destruct (mr_on_run dv sq DV SQ E q kw b SA SP PP (fun z Hz => SG 1%nat z Hz) NE st_bp RT fuel hist cnt o cnt' H) as (h & G1 & G2 & G3).
    assert (EH : h = map (fun z => pnorm (isub b (At z))) xs) by (rewrite H2 in G1; apply app_inv_head in G1; symmetry; exact G1).
    destruct (Nat.le_gt_cases (u_itn o) s) as [L|L]; [exact L|exfalso].
    destruct (nth_error xs (s - 1)) as [x|] eqn:EX.
    + pose proof (H5 (s - 1)%nat x EX y) as Q. replace (S (s - 1)) with s in Q by lia. specialize (Q K).
      assert (EN : nth_error h (s - 1) = Some (pnorm (isub b (At x)))) by (rewrite EH; apply (map_nth_error (fun z => pnorm (isub b (At z)))); exact EX).
      pose proof (G3 _ _ EN) as G. specialize (G ltac:(lia)). apply (Rlt_irrefl (m_rtol kw * pnorm b)).
      eapply Rlt_le_trans; [exact G|]. eapply Rle_trans; [exact Q|exact B].
    + apply nth_error_None in EX. lia.
Qed.

Lemma st_inj : (forall k z, kry (fun z => At (P z)) b k z -> @machine_eps KK * pnorm z <= pnorm (At (P z))) ->
  forall k z, kry (fun z => At (P z)) b k z -> At (P z) = izero -> z = izero.
Proof.
  intros SG k z Kz Z. apply (posdef_inj E P z PP). specialize (SG k z Kz). rewrite Z in SG.
  unfold pnorm at 2 in SG. rewrite ip_zerol, sqrt_0 in SG.
  destruct (Rle_lt_dec (ip z (P z)) 0) as [L|L]; [exact L|exfalso].
  assert (0 < pnorm z) by (apply sqrt_lt_R0; exact L). pose proof (eps_pos dv sq) as EP.
  assert (0 < @machine_eps KK * pnorm z) by (apply Rmult_lt_0_compat; assumption). lra.
Qed.
Lemma st_zero : forall y, At y = b -> pnorm (isub b (At y)) <= m_rtol kw * pnorm b.
Proof.
  intros y ->. replace (isub b b) with (@izero E) by veq. unfold pnorm at 1. rewrite ip_zerol, sqrt_0.
  apply Rmult_le_pos; [exact RT|apply sqrt_pos].
Qed.

(** At most [n] iterations in a space of dimension [n]. *)
Theorem C75_minres_stops : (forall k z, kry (fun z => At (P z)) b k z -> @machine_eps KK * pnorm z <= pnorm (At (P z))) ->
  forall n, dim_le E n ->
  forall fuel hist cnt o cnt', @mr_solve KK WW fuel q hist b kw cnt = Ok (o, cnt') -> (u_itn o <= n)%nat.
Proof.
  intros SG n DE fuel hist cnt o cnt' H.
  destruct (mr_dim E At P b n (rm_SAt dv sq E q kw SA) SP DE (st_inj SG)) as (y & K & EY).
  apply (st_run SG fuel hist cnt o cnt' H n y K (st_zero y EY)).
  destruct n as [|n]; [|lia]. exfalso.
  assert (B0 : b = izero).
  { apply ip_def. destruct (Req_dec (ip b b) 0) as [Z|Z]; [exact Z|exfalso].
    assert (L : (length [b] <= 0)%nat); [|cbn in L; lia]. apply DE.
    - constructor; [constructor|constructor].
    - constructor; [|constructor]. intro X. apply Z. rewrite X. apply ip_zerol. }
  exact (st_b0 B0).
Qed.

(** At most [r+1] iterations if the preconditioned operator is a multiple of the identity up to rank [r]. *)
Theorem C93_minres_stops : (forall k z, kry (fun z => At (P z)) b k z -> @machine_eps KK * pnorm z <= pnorm (At (P z))) ->
  forall g r, shift_rank (fun z => At (P z)) g r ->
  forall fuel hist cnt o cnt', @mr_solve KK WW fuel q hist b kw cnt = Ok (o, cnt') -> (u_itn o <= r + 1)%nat.
Proof.
  intros SG g r (U & LU & HU) fuel hist cnt o cnt' H.
  destruct (mr_rank E At P b g U (rm_SAt dv sq E q kw SA) SP HU (st_inj SG)) as (y & K & EY).
  apply (st_run SG fuel hist cnt o cnt' H (r + 1)%nat y); [|apply st_zero, EY|lia].
  revert K. apply lk_le; [exact (rm_LPA dv sq E q kw SA SP)|lia].
Qed.

(** As many as distinct eigenvalues. *)
Theorem C90_minres_stops_eigenvalues : (forall k z, kry (fun z => At (P z)) b k z -> @machine_eps KK * pnorm z <= pnorm (At (P z))) ->
  forall ls, (forall l, In l ls -> l <> 0) -> ann (fun z => At (P z)) ls b = izero -> (1 <= length ls)%nat ->
  forall fuel hist cnt o cnt', @mr_solve KK WW fuel q hist b kw cnt = Ok (o, cnt') -> (u_itn o <= length ls)%nat.
Proof.
  intros SG ls N Z L1 fuel hist cnt o cnt' H.
  destruct (mr_ann At P b (rm_SAt dv sq E q kw SA) SP ls N Z) as (y & K & B).
  exact (st_run SG fuel hist cnt o cnt' H _ y K (st_zero y B) L1).
Qed.

(** At most [K] iterations if the bound of C90 is below [rtol] after [K]. *)
Theorem C90_minres_stops : forall m M, 0 < m -> @machine_eps KK <= m -> m < M ->
  (forall z, m * ip z (P z) <= ip (P z) (At (P z)) <= M * ip z (P z)) ->
  forall k, (1 <= k)%nat -> 2 * ((sqrt M - sqrt m) / (sqrt M + sqrt m)) ^ k <= m_rtol kw ->
  forall fuel hist cnt o cnt', @mr_solve KK WW fuel q hist b kw cnt = Ok (o, cnt') -> (u_itn o <= k)%nat.
Proof.
  intros m M m0 em mM Bd k k1 RK fuel hist cnt o cnt' H.
  destruct (mr_best At P b (rm_SAt dv sq E q kw SA) SP PP m M m0 mM Bd k) as (y & K & B).
  apply (st_run (fun k z (_ : kry (fun z => At (P z)) b k z) =>
      Rle_trans _ _ _ (Rmult_le_compat_r (pnorm z) _ _ (sqrt_pos _) em) (rm_lower dv sq E q kw SP PP m m0 (fun z => proj1 (Bd z)) z))
      fuel hist cnt o cnt' H k y K); [|exact k1].
  eapply Rle_trans; [exact B|]. apply Rmult_le_compat_r; [apply sqrt_pos|exact RK].
Qed.
Theorem C90_minres_stops_indefinite : forall m M, 0 < m -> @machine_eps KK <= m -> m < M ->
  (forall z, m * pnorm z <= pnorm (At (P z)) <= M * pnorm z) ->
  forall k, (1 <= k)%nat -> 2 * ((M - m) / (M + m)) ^ (k / 2) <= m_rtol kw ->
  forall fuel hist cnt o cnt', @mr_solve KK WW fuel q hist b kw cnt = Ok (o, cnt') -> (u_itn o <= k)%nat.
Proof.
  intros m M m0 em mM Bd k k1 RK fuel hist cnt o cnt' H.
  destruct (mr_best2 At P b (rm_SAt dv sq E q kw SA) SP PP m M m0 mM Bd (k / 2)) as (y & K & B).
  apply (st_run (fun k z (_ : kry (fun z => At (P z)) b k z) =>
      Rle_trans _ _ _ (Rmult_le_compat_r (pnorm z) _ _ (sqrt_pos _) em) (proj1 (Bd z)))
      fuel hist cnt o cnt' H k y); [| |exact k1].
  - revert K. apply lk_le; [exact (rm_LPA dv sq E q kw SA SP)|]. pose proof (Nat.div_mod k 2). lia.
  - eapply Rle_trans; [exact B|]. apply Rmult_le_compat_r; [apply sqrt_pos|exact RK].
Qed.
End Stops.

(** ** The hypotheses hold of [A = diag(1,3)], [b = (1,1)], [rtol = 1/2]. *)
Section Ex.
Notation K2 := (exactK Rdiv sqrt).
Notation W2 := (exactV Rdiv sqrt (Rn 2)).
Definition sA (z : iv (Rn 2)) : iv (Rn 2) := v2 (fst z) (3 * fst (snd z)).
Definition sprob : kprob W2 := @mkprob K2 W2 2 2 (sA : vc W2 -> _) None (0 : sc K2) (0 : sc K2) (fun x => x) [].
Definition skw : mr_kw W2 := @mkmrkw K2 W2 None 0 0 [] (0 : sc K2) false None (1 / 2 : sc K2) (0 : sc K2) false 5 (fun _ => 0 : sc K2).
Definition sb : iv (Rn 2) := v2 1 1.
Let At (z : iv (Rn 2)) : iv (Rn 2) := isub (q_A sprob z : iv (Rn 2)) (iscale (m_shift skw) z).
Let P (z : iv (Rn 2)) : iv (Rn 2) := z.
Let pnorm (z : iv (Rn 2)) : R := sqrt (ip z (P z)).
Let u : iv (Rn 2) := iscale (/ pnorm sb) sb.
Lemma s_sa : selfadj (q_A sprob : iv (Rn 2) -> iv (Rn 2)).
Proof. intros [a [b []]] [c [d []]]. cbn. ring. Qed.
Lemma s_sp : selfadj P.
Proof. intros x y. reflexivity. Qed.
Lemma s_pp : posdef P.
Proof. intros x NZ. apply ip_nz. exact NZ. Qed.
Lemma s_At : forall a b, At (v2 a b) = v2 a (3 * b).
Proof. intros a b. unfold At, isub, ineg. cbn. apply v2_eq; ring. Qed.
Lemma s_nb : pnorm sb = sqrt 2.
Proof. unfold pnorm, P. cbn. f_equal. ring. Qed.
Lemma s_ne : 10 * @machine_eps K2 * pnorm sb < pnorm (isub (At (P u)) (iscale (ip (P u) (At (P u))) u)).
Proof.
  assert (S2 : sqrt 2 * sqrt 2 = 2) by (apply sqrt_sqrt; lra).
  assert (S0 : 0 < sqrt 2) by (apply sqrt_lt_R0; lra).
  set (t := / sqrt 2).
  assert (T : t * sqrt 2 = 1) by (unfold t; apply Rinv_l; lra).
  assert (T2 : t * t = 1 / 2) by nra.
  assert (EU : u = v2 t t) by (unfold u; rewrite s_nb; fold t; cbn; apply v2_eq; ring).
  assert (EQ : isub (At (P u)) (iscale (ip (P u) (At (P u))) u) = v2 (- t) t).
  { unfold P. rewrite EU, s_At. unfold isub, ineg. cbn.
    assert (X : t * t + (t * (3 * t) + 0) = 2) by (replace (t * t + (t * (3 * t) + 0)) with (4 * (t * t)) by ring; rewrite T2; field).
    rewrite X. apply v2_eq; ring. }
  rewrite EQ, s_nb. replace (pnorm (v2 (- t) t)) with 1.
  - rewrite (@eps_val). assert (sqrt 2 < 2) by nra. lra.
  - unfold pnorm, P. cbn. replace (- t * - t + (t * t + 0)) with (2 * (t * t)) by ring. rewrite T2. replace (2 * (1 / 2)) with 1 by field.
    symmetry. apply sqrt_1.
Qed.
Lemma s_bd : forall z, 1 * ip z (P z) <= ip (P z) (At (P z)) <= 3 * ip z (P z).
Proof. intros [a [b []]]. unfold P, At, isub, ineg. cbn. nra. Qed.
Lemma s_sg : forall z, @machine_eps K2 * pnorm z <= pnorm (At (P z)).
Proof.
  intro z. assert (Q : pnorm z <= pnorm (At (P z))).
  { apply sqrt_le_1_alt. destruct z as [a [b []]]. unfold P, At, isub, ineg. cbn. nra. }
  pose proof (sqrt_pos (ip z (P z))). unfold pnorm in *. rewrite eps_val. lra.
Qed.
Example ex_stops : exists o cnt', @mr_solve K2 W2 11 sprob [] sb skw 0 = Ok (o, cnt') /\ (u_itn o <= 2)%nat.
Proof.
  destruct (C47_stopping K2 W2 sprob skw sb 11 [] 0) as (o & c & H & _); [cbn; lia|cbn; lia|].
  exists o, c. split; [exact H|].
  apply (C75_minres_stops Rdiv sqrt Rdiv_ok sqrt_ok (Rn 2) sprob skw sb s_sa s_sp s_pp) with (n := 2%nat) (5 := H).
  - change (0 <= 1 / 2). lra.
  - exact s_ne.
  - intros k z _. apply s_sg.
  - apply Rn_dim.
Qed.
Example ex_stops_rank : shift_rank (fun z => At (P z)) 1 1.
Proof.
  exists [v2 0 1]. split; [cbn; lia|]. intros [a [b []]].
  change (@span (Rn 2) [v2 0 1] (isub (At (P (v2 a b))) (iscale 1 (v2 a b)))).
  replace (isub (At (P (v2 a b))) (iscale 1 (v2 a b))) with (iadd (iscale (2 * b) (v2 0 1)) (@izero (Rn 2))).
  - apply sp_add; [now left|apply sp_0].
  - unfold P, At, isub, ineg. cbn. apply v2_eq; ring.
Qed.
Example ex_stops_ann : ann (fun z => At (P z)) [1; 3] sb = izero.
Proof. unfold P, At, isub, ineg. cbn. apply v2_eq; ring. Qed.
Example ex_stops_rate : exists o cnt', @mr_solve K2 W2 11 sprob [] sb skw 0 = Ok (o, cnt') /\ (u_itn o <= 2)%nat.
Proof.
  destruct (C47_stopping K2 W2 sprob skw sb 11 [] 0) as (o & c & H & _); [cbn; lia|cbn; lia|].
  exists o, c. split; [exact H|].
  apply (C90_minres_stops Rdiv sqrt Rdiv_ok sqrt_ok (Rn 2) sprob skw sb s_sa s_sp s_pp) with (m := 1) (M := 3) (9 := H).
  - change (0 <= 1 / 2). lra.
  - exact s_ne.
  - lra.
  - rewrite eps_val. lra.
  - lra.
  - exact s_bd.
  - lia.
  - change (2 * ((sqrt 3 - sqrt 1) / (sqrt 3 + sqrt 1)) ^ 2 <= 1 / 2). rewrite sqrt_1.
    assert (S3 : sqrt 3 * sqrt 3 = 3) by (apply sqrt_sqrt; lra).
    assert (L : 1 < sqrt 3) by (pose proof (sqrt_lt_1 1 3) as X; rewrite sqrt_1 in X; apply X; lra).
    assert (U : sqrt 3 < 2) by nra.
    assert (Q : (sqrt 3 - 1) / (sqrt 3 + 1) <= 1 / 2).
    { apply Rmult_le_reg_r with (sqrt 3 + 1); [lra|]. unfold Rdiv. rewrite Rmult_assoc, Rinv_l by lra. lra. }
    assert (Q0 : 0 <= (sqrt 3 - 1) / (sqrt 3 + 1)) by (apply Rlt_le, Rdiv_lt_0_compat; lra).
    cbn [pow]. nra.
Qed.
End Ex.

Print Assumptions C75_minres_stops.
Print Assumptions C93_minres_stops.
Print Assumptions C90_minres_stops_eigenvalues.
Print Assumptions C90_minres_stops.
Print Assumptions C90_minres_stops_indefinite.
