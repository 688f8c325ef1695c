(** Property C90: how fast MINRES, LSQR, LSMR, CRAIG and CRAIG-MR converge in exact arithmetic, with or
    without preconditioners. *)
From Coq Require Import List Arith Lia Bool QArith ZArith Reals Lra Qreals.
From Verif Require Import Base Num ToolsModel ToolsProof CgModel PropCg MinresModel MinresProof GkProof PropMinres
  LsqrModel LsqrFlow LsqrMath LsqrProof PropLsqr LsmrModel LsmrFlow LsmrProof PropLsmr
  CraigModel CraigFlow CraigMath CraigProof PropCraig Precon MinresPrecon LsqrPrecon LsmrPrecon CraigPrecon PropPrecon
  Cheb RateMath RateStop.
Import ListNotations.
Local Open Scope R_scope.

(** ** MINRES. *)
Section Minres.
Variables (dv : R -> R -> R) (sq : R -> R).
Hypothesis DV : dv_ok dv.
Hypothesis SQ : sq_ok sq.
Variable E : IPS.
Notation KK := (exactK dv sq).
Notation WW := (exactV dv sq E).
Variables (q : kprob WW) (kw : mr_kw WW) (b : iv E).
Let At (z : iv E) : iv E := isub (q_A q z : iv E) (iscale (m_shift kw) z).
Let P : iv E -> iv E := match m_precon kw with Some P => P | None => fun z => z end.
Let pnorm (z : iv E) : R := sqrt (ip z (P z)).
Hypothesis SA : selfadj (q_A q : iv E -> iv E).
Hypothesis SP : selfadj P.
Hypothesis PP : posdef P.

Lemma rm_SAt : selfadj At.
Proof. intros u w. unfold At. rewrite ip_sub, ip_subl, ip_scale, ip_scalel, (SA u w). reflexivity. Qed.
Lemma rm_LPA : lin (fun z => P (At z)).
Proof.
  pose proof (adjoint_lin _ _ SP) as LP. pose proof (adjoint_lin _ _ rm_SAt) as LA.
  split; intros; [rewrite (lin_add At LA), (lin_add P LP)|rewrite (lin_scale At LA), (lin_scale P LP)]; reflexivity.
Qed.
Lemma rm_lower : forall m, 0 < m -> (forall z, m * ip z (P z) <= ip (P z) (At (P z))) ->
  forall z, m * pnorm z <= pnorm (At (P z)).
Proof.
  intros m m0 Bd z. set (F := pspace E P SP PP). unfold pnorm. rewrite !(mr_pnorm P SP PP).
  fold F. pose proof (@cauchy_norm F (At (P z)) z) as CS. pose proof (Bd z) as B.
  pose proof (@inorm_pos F z) as N0. pose proof (@inorm_pos F (At (P z))) as N1.
  assert (S2 : @inorm F z * @inorm F z = ip z (P z)) by (rewrite inorm_sq; cbn; apply ip_sym).
  assert (I2 : @ip F (At (P z)) z = ip (P z) (At (P z))) by (cbn; rewrite <- SP; apply ip_sym).
  rewrite I2 in CS. rewrite <- S2 in B.
  destruct (Req_dec (@inorm F z) 0) as [Z|Z]; [rewrite Z; lra|].
  apply Rmult_le_reg_r with (@inorm F z); [lra|].
  eapply Rle_trans; [|exact CS]. lra.
Qed.
Lemma rm_min : (forall k z, kry (fun z => At (P z)) b k z -> @machine_eps KK * pnorm z <= pnorm (At (P z))) ->
  forall fuel hist cnt o cnt', @mr_solve KK WW fuel q hist b kw cnt = Ok (o, cnt') ->
  exists xs : list (iv E), length xs = u_itn o /\
    (u_hist o : list R) = hist ++ map (fun z => pnorm (isub b (At z))) xs /\
    (MinresModel.m_sit kw = true -> (u_iters o : list (iv E)) = izero :: xs) /\
    (u_x o : iv E) = last xs izero /\
    (forall i z, nth_error xs i = Some z ->
       forall z', kry (fun z => P (At z)) (P b) (S i) z' -> pnorm (isub b (At z)) <= pnorm (isub b (At z'))).
Proof.
  intros SG fuel hist cnt o cnt' H. pose proof SP as SP'. pose proof PP as PP'. unfold pnorm in *. unfold P in SP', PP', SG |- *.
  clear P pnorm SP PP. revert SP' PP' SG.
  destruct (m_precon kw) as [Q|] eqn:HP; intros SQ' PQ SG.
  - destruct (C75_minres dv sq E DV SQ q kw b Q fuel hist cnt o cnt' HP SQ' PQ SA SG H) as (xs & H1 & H2 & H3 & H4 & _ & _ & H5 & _).
    exists xs. repeat split; auto. intros i z Hz. apply (H5 i z Hz).
  - destruct (C48_residual dv sq E DV SQ q kw b fuel hist cnt o cnt' HP SA SG H) as (xs & H1 & H2 & H3 & H4 & _ & _ & H5 & _).
    exists xs. repeat split; auto. intros i z Hz. apply (H5 i z Hz).
Qed.

(** [m <= At <= M] in the inner product of the preconditioner, [m] at least the machine epsilon. *)
Theorem C90_minres : forall m M, 0 < m -> @machine_eps KK <= m -> m < M ->
  (forall z, m * ip z (P z) <= ip (P z) (At (P z)) <= M * ip z (P z)) ->
  forall fuel hist cnt o cnt', @mr_solve KK WW fuel q hist b kw cnt = Ok (o, cnt') ->
  exists xs : list (iv E), length xs = u_itn o /\
    (u_hist o : list R) = hist ++ map (fun z => pnorm (isub b (At z))) xs /\
    (u_x o : iv E) = last xs izero /\
    (forall i z, nth_error xs i = Some z ->
       pnorm (isub b (At z)) <= 2 * ((sqrt M - sqrt m) / (sqrt M + sqrt m)) ^ (S i) * pnorm b).
Proof.
  intros m M m0 em mM Bd fuel hist cnt o cnt' H.
  destruct (rm_min) with (1 := fun k z (_ : kry (fun z => At (P z)) b k z) =>
      Rle_trans _ _ _ (Rmult_le_compat_r (pnorm z) _ _ (sqrt_pos _) em) (rm_lower m m0 (fun z => proj1 (Bd z)) z)) (2 := H)
    as (xs & H1 & H2 & _ & H4 & H5).
  exists xs. split; [exact H1|]. split; [exact H2|]. split; [exact H4|]. intros i z Hz.
  destruct (mr_best At P b rm_SAt SP PP m M m0 mM Bd (S i)) as (y & K & B).
  eapply Rle_trans; [apply (H5 i z Hz y K)|exact B].
Qed.
(** [At] may be indefinite: [m |z| <= |At z| <= M |z|]. *)
Theorem C90_minres_indefinite : forall m M, 0 < m -> @machine_eps KK <= m -> m < M ->
  (forall z, m * pnorm z <= pnorm (At (P z)) <= M * pnorm z) ->
  forall fuel hist cnt o cnt', @mr_solve KK WW fuel q hist b kw cnt = Ok (o, cnt') ->
  exists xs : list (iv E), length xs = u_itn o /\
    (u_hist o : list R) = hist ++ map (fun z => pnorm (isub b (At z))) xs /\
    (u_x o : iv E) = last xs izero /\
    (forall i z, nth_error xs i = Some z ->
       pnorm (isub b (At z)) <= 2 * ((M - m) / (M + m)) ^ (S i / 2) * pnorm b).
Proof.
  intros m M m0 em mM Bd fuel hist cnt o cnt' H.
  destruct (rm_min) with (1 := fun k z (_ : kry (fun z => At (P z)) b k z) =>
      Rle_trans _ _ _ (Rmult_le_compat_r (pnorm z) _ _ (sqrt_pos _) em) (proj1 (Bd z))) (2 := H)
    as (xs & H1 & H2 & _ & H4 & H5).
  exists xs. split; [exact H1|]. split; [exact H2|]. split; [exact H4|]. intros i z Hz.
  destruct (mr_best2 At P b rm_SAt SP PP m M m0 mM Bd (S i / 2)) as (y & K & B).
  eapply Rle_trans; [apply (H5 i z Hz y)|exact B].
  revert K. apply lk_le; [apply rm_LPA|]. pose proof (Nat.div_mod (S i) 2). lia.
Qed.
(** A product of factors [At P - l] that annihilates [b]: the iterates are exact from there on. *)
Lemma rm_exact : (forall k z, kry (fun z => At (P z)) b k z -> @machine_eps KK * pnorm z <= pnorm (At (P z))) ->
  forall s y, kry (fun z => P (At z)) (P b) s y -> At y = b ->
  forall fuel hist cnt o cnt', @mr_solve KK WW fuel q hist b kw cnt = Ok (o, cnt') ->
  exists xs : list (iv E), length xs = u_itn o /\
    (u_hist o : list R) = hist ++ map (fun z => pnorm (isub b (At z))) xs /\
    (u_x o : iv E) = last xs izero /\
    (forall i z, nth_error xs i = Some z -> (s <= S i)%nat -> At z = b).
Proof.
  intros SG s y K B fuel hist cnt o cnt' H. destruct (rm_min SG fuel hist cnt o cnt' H) as (xs & H1 & H2 & _ & H4 & H5).
  exists xs. split; [exact H1|]. split; [exact H2|]. split; [exact H4|]. intros i z Hz Li.
  pose proof (H5 i z Hz y (lk_le _ _ rm_LPA _ _ _ Li K)) as Q. rewrite B in Q.
  assert (Z0 : @inorm (pspace E P SP PP) (isub b (At z)) = 0).
  { rewrite <- mr_pnorm. fold (pnorm (isub b (At z))). unfold pnorm in Q at 2.
    replace (isub b b) with (@izero E) in Q by veq. rewrite ip_zerol, sqrt_0 in Q.
    apply Rle_antisym; [exact Q|apply sqrt_pos]. }
  apply inorm_zero in Z0. apply ip_ext. intro w. apply (f_equal (@ip E w)) in Z0.
  change (ip w (isub b (At z)) = ip w izero) in Z0. rewrite ip_sub, ip_zero in Z0. lra.
Qed.
Theorem C90_minres_eigenvalues : (forall k z, kry (fun z => At (P z)) b k z -> @machine_eps KK * pnorm z <= pnorm (At (P z))) ->
  forall ls, (forall l, In l ls -> l <> 0) -> ann (fun z => At (P z)) ls b = izero ->
  forall fuel hist cnt o cnt', @mr_solve KK WW fuel q hist b kw cnt = Ok (o, cnt') ->
  exists xs : list (iv E), length xs = u_itn o /\
    (u_hist o : list R) = hist ++ map (fun z => pnorm (isub b (At z))) xs /\
    (u_x o : iv E) = last xs izero /\
    (forall i z, nth_error xs i = Some z -> (length ls <= S i)%nat -> At z = b).
Proof.
  intros SG ls N Z. destruct (mr_ann At P b rm_SAt SP ls N Z) as (y & K & B). exact (rm_exact SG _ y K B).
Qed.
End Minres.

(** ** LSQR. *)
Section Lsqr.
Variables (dv : R -> R -> R) (sq : R -> R).
Hypothesis DV : dv_ok dv.
Hypothesis SQ : sq_ok sq.
Variables E1 E2 : IPS.
Notation KK := (exactK dv sq).
Notation WV := (exactV dv sq E1).
Notation WU := (exactV dv sq E2).
Variables (q : lprob WV WU) (kw : ls_kw WV WU) (b : iv E2).
Let M : iv E2 -> iv E2 := match l_M kw with Some P => P | None => fun z => z end.
Let N : iv E1 -> iv E1 := match l_N kw with Some P => P | None => fun z => z end.
Hypothesis SM : selfadj M.
Hypothesis PM : posdef M.
Hypothesis SN : selfadj N.
Hypothesis PN : posdef N.
Variable Ni : iv E1 -> iv E1.
Hypothesis NI : forall z, N (Ni z) = z.
Let A : iv E1 -> iv E2 := lp_A q.
Let At : iv E2 -> iv E1 := lp_At q.
Hypothesis AD : adjoint A At.
Hypothesis HW : (1 <= l_window kw)%nat.
Hypothesis NV : l_wantvar kw = false.
Variables (fuel cnt : nat).
Let lim := if (l_itnlim kw =? 0)%Z then (3 * Z.of_nat (lp_n q))%Z else l_itnlim kw.
Hypothesis HF : (Z.to_nat lim < fuel)%nat.
Let d : R := l_damp kw.
Let obj (x : iv E1) : R := ip (M (isub b (A x))) (isub b (A x)) + d * d * ip x (Ni x).
Let grad (x : iv E1) : iv E1 := isub (At (M (isub b (A x)))) (iscale (d * d) (Ni x)).

(** The bounds are needed on the range of [N At] only: the matrix may have dependent columns. *)
Theorem C90_lsqr : forall m L xs, 0 < m -> m < L ->
  (forall y, let z := N (At y) in
     m * ip z (Ni z) <= ip (M (A z)) (A z) + d * d * ip z (Ni z) <= L * ip z (Ni z)) ->
  grad xs = izero -> (d = 0 -> exists y, xs = N (At y)) ->
  exists o cnt' (l : list (iv E1)), @ls_solve KK WV WU fuel q kw b cnt = Ok (o, cnt') /\
    length l = o_itn o /\ (LsqrModel.o_x o : iv E1) = last l izero /\
    (l_sit kw = true -> (LsqrModel.o_iters o : list (iv E1)) = izero :: l) /\
    (l_sres kw = true -> (LsqrModel.o_resids o : list R) = map (fun x => sqrt (obj x)) (izero :: l)) /\
    forall i x, nth_error l i = Some x ->
      obj x - obj xs <= Rsqr (2 * ((sqrt L - sqrt m) / (sqrt L + sqrt m)) ^ (S i)) * (obj izero - obj xs).
Proof.
  intros m L xs m0 mL Bd GX RX.
  destruct (C76_lsqr dv sq DV SQ E1 E2 q kw b SM PM SN PN Ni NI AD HW NV fuel cnt HF)
    as (o & c & l & H1 & H2 & H3 & H4 & H5 & _ & _ & H6 & _).
  exists o, c, l. split; [exact H1|]. split; [exact H2|]. split; [exact H3|]. split; [exact H4|]. split; [exact H5|].
  intros i x Hx. destruct (H6 i x Hx) as [_ MX].
  destruct (ls_best_energy A At M N Ni b d AD SM SN PN NI m L m0 mL Bd xs GX RX (S i)) as (z & K & B).
  pose proof (MX z K) as Q. unfold ls_obj, crate in B. unfold Rsqr, obj. unfold A, At, M, N, d in *. lra.
Qed.

Lemma rl_exact : forall s z, kry (fun z => N (At (M (A z)))) (N (At (M b))) s z -> grad z = izero ->
  exists o cnt' (l : list (iv E1)), @ls_solve KK WV WU fuel q kw b cnt = Ok (o, cnt') /\
    length l = o_itn o /\ (LsqrModel.o_x o : iv E1) = last l izero /\
    (l_sit kw = true -> (LsqrModel.o_iters o : list (iv E1)) = izero :: l) /\
    forall i x, nth_error l i = Some x -> (s <= S i)%nat -> grad x = izero.
Proof.
  intros s z K G0.
  destruct (C76_lsqr dv sq DV SQ E1 E2 q kw b SM PM SN PN Ni NI AD HW NV fuel cnt HF)
    as (o & c & l & H1 & H2 & H3 & H4 & H5 & _ & _ & H6 & _).
  exists o, c, l. split; [exact H1|]. split; [exact H2|]. split; [exact H3|]. split; [exact H4|].
  intros i x Hx Li. destruct (H6 i x Hx) as [_ MX].
  apply (ls_grad_min A At M N Ni b d AD SM PM SN PN NI z x G0). apply MX.
  revert K. apply lk_le; [|exact Li].
  pose proof (adjoint_lin _ _ SN) as LN. pose proof (adjoint_lin _ _ SM) as LM.
  pose proof (adjoint_lin _ _ AD) as LA. pose proof (adjoint_lin_t _ _ AD) as LT.
  split; intros; [rewrite (lin_add A LA), (lin_add M LM), (lin_add At LT), (lin_add N LN)
                 |rewrite (lin_scale A LA), (lin_scale M LM), (lin_scale At LT), (lin_scale N LN)]; reflexivity.
Qed.
Theorem C90_lsqr_eigenvalues : forall ls, (forall l, In l ls -> l + d * d <> 0) ->
  ann (fun z => N (At (M (A z)))) ls (N (At (M b))) = izero ->
  exists o cnt' (l : list (iv E1)), @ls_solve KK WV WU fuel q kw b cnt = Ok (o, cnt') /\
    length l = o_itn o /\ (LsqrModel.o_x o : iv E1) = last l izero /\
    (l_sit kw = true -> (LsqrModel.o_iters o : list (iv E1)) = izero :: l) /\
    forall i x, nth_error l i = Some x -> (length ls <= S i)%nat -> grad x = izero.
Proof.
  intros ls NL Z. destruct (ls_ann A At M N Ni b d AD SM SN PN NI ls NL Z) as (z & K & G0). exact (rl_exact _ z K G0).
Qed.

(** Consistent systems, no damping: the number of iterations is bounded by the tolerance [btol]. *)
Local Notation F1 := (pspace E1 N SN PN).
Local Notation F2 := (pspace E2 M SM PM).
Local Notation XV := (exactVn dv sq F1 (fun z => @inorm E1 (N z))).
Local Notation XU := (exactVn dv sq F2 (@inorm F2)).
Local Notation lq := (lpq dv sq E1 E2 q kw SM PM SN PN).
Local Notation lk := (lpkw dv sq E1 E2 kw SM PM SN PN).
Lemma rl_run : 0 <= (l_atol kw : R) -> exists o cnt' (l : list (iv E1)), @ls_solve KK WV WU fuel q kw b cnt = Ok (o, cnt') /\
  length l = o_itn o /\
  forall i x, nth_error l i = Some x -> 
    kry (fun z => N (At (M (A z)))) (N (At (M b))) (S i) x /\
    (forall z, kry (fun z => N (At (M (A z)))) (N (At (M b))) (S i) z -> obj x <= obj z) /\
    ((S i < o_itn o)%nat -> l_btol kw * sqrt (ip (M b) b) < sqrt (obj x)).
Proof.
  intro AT.
  pose proof (lsolve_sim dv sq E1 E2 q kw b SM PM SN PN fuel cnt) as S.
  match type of S with _ = rmap _ ?w => change w with (@ls_solve KK XV XU fuel lq lk b cnt) in S end.
  destruct (ls_exact dv sq DV SQ F1 F2 (fun z => @inorm E1 (N z)) (@inorm F2) lq lk b eq_refl eq_refl
    (lp_adj dv sq E1 E2 q kw SM PM SN PN AD) HW fuel cnt NV HF) as (o & c & _ & H & _).
  destruct (ls_run dv sq DV SQ F1 F2 (fun z => @inorm E1 (N z)) (@inorm F2) lq lk b eq_refl eq_refl
    (lp_adj dv sq E1 E2 q kw SM PM SN PN AD) HW AT fuel cnt o c NV HF H) as (xs & LX & KR & GO).
  change (@ls_solve KK XV XU fuel lq lk b cnt = Ok (o, c)) in H. rewrite H in S. cbn [rmap fst snd] in S.
  exists (Tlo dv sq E1 E2 kw SN PN o), c, (map N xs). split; [exact S|].
  unfold Tlo. cbn [o_itn]. split; [rewrite map_length; exact LX|].
  intros i x Hx. rewrite nth_error_map in Hx.
  change (option_map N (@nth_error (iv E1) xs i) = Some x) in Hx.
  destruct (@nth_error (iv E1) xs i) as [z0|] eqn:Z0; [|discriminate]. injection Hx as <-.
  destruct (KR i z0 Z0) as [K1 K2].
  pose proof (obj_N dv sq E1 E2 q kw b SM PM SN PN Ni NI) as ON.
  pose proof (kry_eq dv sq E1 E2 q kw b SM PM SN PN) as KE.
  split; [|split].
  - apply (kry_push E1 N SN (fun z => At (M (A z)))). apply KE. exact K1.
  - intros z Kz. apply (kry_pull E1 N SN (fun z => At (M (A z)))) in Kz as (y & -> & Ky).
    eapply Rle_trans; [right; exact (ON z0)|]. eapply Rle_trans; [|right; symmetry; exact (ON y)].
    apply (K2 y). apply KE. exact Ky.
  - intro LT. pose proof (GO i z0 Z0 LT) as Q.
    replace (sqrt (obj (N z0))) with (sqrt (dres2 (lp_A lq) b (l_damp lk) z0)) by (f_equal; symmetry; exact (ON z0)).
    exact Q.
Qed.

(** Consistent systems, no damping: the number of iterations is bounded by the tolerance [btol]. *)
Theorem C90_lsqr_stops : forall m L y k, 0 < m -> m < L -> d = 0 -> 0 <= (l_atol kw : R) ->
  (forall y, let z := N (At y) in m * ip z (Ni z) <= ip (M (A z)) (A z) <= L * ip z (Ni z)) ->
  A (N (At y)) = b -> (1 <= k)%nat -> 2 * ((sqrt L - sqrt m) / (sqrt L + sqrt m)) ^ k <= l_btol kw ->
  exists o cnt', @ls_solve KK WV WU fuel q kw b cnt = Ok (o, cnt') /\ (o_itn o <= k)%nat.
Proof.
  intros m L y k m0 mL D0 AT Bd HB K1 HK.
  destruct (rl_run AT) as (o & c & l & H & LL & P). exists o, c. split; [exact H|].
  destruct (le_lt_dec (o_itn o) k) as [Q|Q]; [exact Q|]. exfalso.
  destruct (nth_error l (k - 1)) as [x|] eqn:Hx; [|apply nth_error_None in Hx; lia].
  destruct (P _ _ Hx) as (_ & MX & GO). replace (S (k - 1)) with k in * by lia. specialize (GO Q).
  assert (R0 : isub b (A (N (At y))) = izero) by (rewrite HB; veq).
  destruct (ls_best_energy A At M N Ni b d AD SM SN PN NI m L m0 mL) with (xs := N (At y)) (k := k) as (z & K & B).
  - intro t. cbv zeta. unfold ls_H. rewrite D0. pose proof (Bd t) as Q2. cbv zeta in Q2. split; lra.
  - unfold ls_grad. rewrite R0, D0, (lin_zero M (adjoint_lin _ _ SM)), (lin_zero At (adjoint_lin_t _ _ AD)).
    replace (0 * 0) with 0 by ring. veq.
  - intros _. exists y. reflexivity.
  - pose proof (MX z K) as MZ. unfold ls_obj in B. rewrite R0, D0, ip_zero, (lin_zero A (adjoint_lin _ _ AD)) in B.
    replace (isub b izero) with b in B by veq. fold (crate m L) in HK. set (r := 2 * crate m L ^ k) in *.
    assert (r0 : 0 <= r).
    { unfold r. apply Rmult_le_pos; [lra|]. apply pow_le. left. apply crate_range; assumption. }
    set (n := ip (M b) b) in *. assert (n0 : 0 <= n) by exact (p_pos E2 M PM b).
    assert (OB : obj x <= r * r * n).
    { eapply Rle_trans; [exact MZ|]. unfold obj. rewrite D0. lra. }
    apply sqrt_le_1_alt in OB. rewrite sqrt_mult in OB by (try nra; assumption). rewrite sqrt_square in OB by assumption.
    pose proof (Rmult_le_compat_r _ _ _ (sqrt_pos n) HK). lra.
Qed.
End Lsqr.

(** ** LSMR. *)
Section Lsmr.
Variables (dv : R -> R -> R) (sq : R -> R).
Hypothesis DV : dv_ok dv.
Hypothesis SQ : sq_ok sq.
Variables E1 E2 : IPS.
Notation KK := (exactK dv sq).
Notation WV := (exactV dv sq E1).
Notation WU := (exactV dv sq E2).
Variables (q : lprob WV WU) (kw : lm_kw WV WU) (b : iv E2).
Let M : iv E2 -> iv E2 := match m_M kw with Some P => P | None => fun z => z end.
Let N : iv E1 -> iv E1 := match m_N kw with Some P => P | None => fun z => z end.
Hypothesis SM : selfadj M.
Hypothesis PM : posdef M.
Hypothesis SN : selfadj N.
Hypothesis PN : posdef N.
Variable Ni : iv E1 -> iv E1.
Hypothesis NI : forall z, N (Ni z) = z.
Let A : iv E1 -> iv E2 := lp_A q.
Let At : iv E2 -> iv E1 := lp_At q.
Hypothesis AD : adjoint A At.
Hypothesis HW : (1 <= m_window kw)%nat.
Variables (fuel cnt : nat) (ob : lm_obj WV).
Let lim := match m_itnlim kw with None => Z.of_nat (Nat.min (lp_m q) (lp_n q)) | Some l => l end.
Hypothesis HF : (Z.to_nat lim < fuel)%nat.
Let d : R := m_damp kw.
Let obj (x : iv E1) : R := ip (M (isub b (A x))) (isub b (A x)) + d * d * ip x (Ni x).
Let grad (x : iv E1) : iv E1 := isub (At (M (isub b (A x)))) (iscale (d * d) (Ni x)).
Let nnorm (g : iv E1) : R := sqrt (ip g (N g)).

Theorem C90_lsmr : forall m L, 0 < m -> m < L ->
  (forall y, let z := N (At y) in
     m * ip z (Ni z) <= ip (M (A z)) (A z) + d * d * ip z (Ni z) <= L * ip z (Ni z)) ->
  forall r ob' cnt', @lm_solve KK WV WU fuel q kw ob b cnt = Ok (r, ob', cnt') -> At (M b) <> izero ->
  exists l : list (iv E1), length l = r_itn r /\ (r_x r : iv E1) = last l izero /\
    (m_sit kw = true -> (a_iters ob' : list (iv E1)) = izero :: l) /\
    (m_sres kw = true -> (a_nresids ob' : list R) = map (fun x => nnorm (grad x)) (izero :: l)) /\
    forall i x, nth_error l i = Some x ->
      nnorm (grad x) <= 2 * ((sqrt L - sqrt m) / (sqrt L + sqrt m)) ^ (S i) * nnorm (At (M b)).
Proof.
  intros m L m0 mL Bd r ob' c H NZ.
  destruct (C77_lsmr dv sq DV SQ E1 E2 q kw b SM PM SN PN Ni NI AD HW fuel cnt ob HF r ob' c H NZ)
    as (l & H1 & H2 & _ & H3 & _ & H4 & _ & _ & _ & H5 & _).
  exists l. split; [exact H1|]. split; [exact H2|]. split; [exact H3|]. split; [exact H4|].
  intros i x Hx. destruct (H5 i x Hx) as (_ & MX & _).
  destruct (ls_best_resid A At M N Ni b d AD SM SN PN NI m L m0 mL Bd (S i)) as (z & K & B).
  eapply Rle_trans; [exact (MX z K)|exact B].
Qed.

Lemma rs_LC : lin (fun z => N (At (M (A z)))).
Proof.
  pose proof (adjoint_lin _ _ SN) as LN. pose proof (adjoint_lin _ _ SM) as LM.
  pose proof (adjoint_lin _ _ AD) as LA. pose proof (adjoint_lin_t _ _ AD) as LT.
  split; intros; [rewrite (lin_add A LA), (lin_add M LM), (lin_add At LT), (lin_add N LN)
                 |rewrite (lin_scale A LA), (lin_scale M LM), (lin_scale At LT), (lin_scale N LN)]; reflexivity.
Qed.
Lemma rs_exact : forall s z, kry (fun z => N (At (M (A z)))) (N (At (M b))) s z -> grad z = izero ->
  forall r ob' cnt', @lm_solve KK WV WU fuel q kw ob b cnt = Ok (r, ob', cnt') -> At (M b) <> izero ->
  exists l : list (iv E1), length l = r_itn r /\ (r_x r : iv E1) = last l izero /\
    (m_sit kw = true -> (a_iters ob' : list (iv E1)) = izero :: l) /\
    forall i x, nth_error l i = Some x -> (s <= S i)%nat -> grad x = izero.
Proof.
  intros s z K G0 r ob' c H NZ.
  destruct (C77_lsmr dv sq DV SQ E1 E2 q kw b SM PM SN PN Ni NI AD HW fuel cnt ob HF r ob' c H NZ)
    as (l & H1 & H2 & _ & H3 & _ & H4 & _ & _ & _ & H5 & _).
  exists l. split; [exact H1|]. split; [exact H2|]. split; [exact H3|].
  intros i x Hx Li. destruct (H5 i x Hx) as (_ & MX & _).
  pose proof (MX z (lk_le _ _ rs_LC _ _ _ Li K)) as Q.
  change (nnorm (grad x) <= nnorm (grad z)) in Q. change (grad z = izero) in G0. rewrite G0 in Q.
  unfold nnorm in Q at 2. rewrite ip_zerol, sqrt_0 in Q.
  apply (@inorm_zero (pspace E1 N SN PN)). unfold inorm. cbn. rewrite ip_sym.
  apply Rle_antisym; [exact Q|apply sqrt_pos].
Qed.
Theorem C90_lsmr_eigenvalues : forall ls, (forall l, In l ls -> l + d * d <> 0) ->
  ann (fun z => N (At (M (A z)))) ls (N (At (M b))) = izero ->
  forall r ob' cnt', @lm_solve KK WV WU fuel q kw ob b cnt = Ok (r, ob', cnt') -> At (M b) <> izero ->
  exists l : list (iv E1), length l = r_itn r /\ (r_x r : iv E1) = last l izero /\
    (m_sit kw = true -> (a_iters ob' : list (iv E1)) = izero :: l) /\
    forall i x, nth_error l i = Some x -> (length ls <= S i)%nat -> grad x = izero.
Proof.
  intros ls NL Z. destruct (ls_ann A At M N Ni b d AD SM SN PN NI ls NL Z) as (z & K & G0). exact (rs_exact _ z K G0).
Qed.

Local Notation F1 := (pspace E1 N SN PN).
Local Notation F2 := (pspace E2 M SM PM).
Local Notation XV := (exactVn dv sq F1 (fun z => @inorm E1 (N z))).
Local Notation XU := (exactVn dv sq F2 (@inorm F2)).
Local Notation lq := (mpq dv sq E1 E2 q kw SM PM SN PN).
Local Notation lk := (mpkw dv sq E1 E2 kw SM PM SN PN).
Lemma rs_run : 0 <= (m_atol kw : R) -> forall r ob' cnt', @lm_solve KK WV WU fuel q kw ob b cnt = Ok (r, ob', cnt') ->
  At (M b) <> izero -> exists l : list (iv E1), length l = r_itn r /\
  forall i x, nth_error l i = Some x ->
    kry (fun z => N (At (M (A z)))) (N (At (M b))) (S i) x /\
    (forall z, kry (fun z => N (At (M (A z)))) (N (At (M b))) (S i) z -> nnorm (grad x) <= nnorm (grad z)) /\
    ((S i < r_itn r)%nat -> m_btol kw * sqrt (ip (M b) b) < sqrt (obj x) /\
       m_atol kw * (nnorm (At (M b)) * sqrt (obj x)) < nnorm (grad x) * sqrt (ip (M b) b)).
Proof.
  intros AT r0 ob0 c0 H0 NZ.
  pose proof (msolve_sim dv sq E1 E2 q kw b SM PM SN PN fuel ob cnt) as S.
  set (oo := oob dv sq E1 E2 kw SN PN ob) in *.
  match type of S with _ = rmap _ ?w => change w with (@lm_solve KK XV XU fuel lq lk oo b cnt) in S end.
  destruct (@lm_solve KK XV XU fuel lq lk oo b cnt) as [[[r ob'] c]|] eqn:H; [|rewrite H0 in S; discriminate].
  rewrite H0 in S. cbn [rmap] in S.
  destruct (lm_run dv sq DV SQ F1 F2 (fun z => @inorm E1 (N z)) (@inorm F2)
    (fun z => inorm_pos (N z)) (nv1_zero dv sq E1 E2 kw SN PN) lq lk b eq_refl eq_refl
    (mp_adj dv sq E1 E2 q kw SM PM SN PN AD) HW AT fuel oo cnt r ob' c HF NZ H) as (xs & LX & KR & GO).
  injection S as S1 _ _. subst r0. exists (map N xs). unfold Tmr. cbn [r_itn].
  split; [rewrite map_length; exact LX|].
  intros i x Hx. rewrite nth_error_map in Hx.
  change (option_map N (@nth_error (iv E1) xs i) = Some x) in Hx.
  destruct (@nth_error (iv E1) xs i) as [z0|] eqn:Z0; [|discriminate]. injection Hx as <-.
  destruct (KR i z0 Z0) as [K1 K2].
  pose proof (mobj_N dv sq E1 E2 q kw b SM PM SN PN Ni NI) as ON.
  pose proof (mgrad_N dv sq E1 E2 q kw b SM PM SN PN Ni NI) as GN.
  pose proof (mkry_eq dv sq E1 E2 q kw b SM PM SN PN) as KE.
  assert (NE : forall g, nnorm g = @inorm F1 g) by (intro g; unfold nnorm; rewrite ip_sym; reflexivity).
  assert (GE : forall t, nnorm (grad (N t)) = @inorm F1 (nres (lp_A lq) (lp_At lq) b (m_damp lk) t)).
  { intro t. rewrite NE. f_equal. exact (GN t). }
  split; [|split].
  - apply (kry_push E1 N SN (fun z => At (M (A z)))). apply KE. exact K1.
  - intros z Kz. apply (kry_pull E1 N SN (fun z => At (M (A z)))) in Kz as (y & -> & Ky).
    rewrite !GE. apply (K2 y). apply KE. exact Ky.
  - intro LT. destruct (GO i z0 Z0 LT) as [Q1 Q2].
    replace (sqrt (obj (N z0))) with (sqrt (dres2 (lp_A lq) b (m_damp lk) z0)) by (f_equal; symmetry; exact (ON z0)).
    rewrite GE, NE. split; [exact Q1|exact Q2].
Qed.

(** [xs] solves the least-squares problem with a nonzero residual: the number of iterations is bounded by
    the tolerance [atol]. *)
Theorem C90_lsmr_stops_atol : forall m L xs k, 0 < m -> m < L -> 0 <= (m_atol kw : R) ->
  (forall y, let z := N (At y) in
     m * ip z (Ni z) <= ip (M (A z)) (A z) + d * d * ip z (Ni z) <= L * ip z (Ni z)) ->
  grad xs = izero -> (1 <= k)%nat ->
  2 * ((sqrt L - sqrt m) / (sqrt L + sqrt m)) ^ k * sqrt (ip (M b) b) <= m_atol kw * sqrt (obj xs) ->
  forall r ob' cnt', @lm_solve KK WV WU fuel q kw ob b cnt = Ok (r, ob', cnt') -> (r_itn r <= k)%nat.
Proof.
  intros m L xs k m0 mL AT Bd GX K1 HK r ob' c H.
  destruct (le_lt_dec (r_itn r) k) as [Q|Q]; [exact Q|]. exfalso.
  assert (NZ : At (M b) <> izero).
  { intro Z. destruct (C77_lsmr_zero dv sq DV SQ E1 E2 q kw b SM PM SN PN AD HW fuel cnt ob HF Z)
      as (r2 & o2 & c2 & H2 & _ & I & _). rewrite H in H2. injection H2 as -> _ _. lia. }
  destruct (rs_run AT r ob' c H NZ) as (l & LL & P).
  destruct (nth_error l (k - 1)) as [x|] eqn:Hx; [|apply nth_error_None in Hx; lia].
  destruct (P _ _ Hx) as (_ & MX & GO). replace (S (k - 1)) with k in * by lia. destruct (GO Q) as [_ G2].
  destruct (ls_best_resid A At M N Ni b d AD SM SN PN NI m L m0 mL Bd k) as (z & K & B).
  pose proof (Rle_trans _ _ _ (MX z K) B) as B2.
  change (nnorm (grad x) <= 2 * crate m L ^ k * nnorm (At (M b))) in B2.
  assert (OX : sqrt (obj xs) <= sqrt (obj x)).
  { apply sqrt_le_1_alt. pose proof (ls_obj_split A At M N Ni b d AD SM SN NI xs x GX) as Q2.
    change (ls_obj A M Ni b d x) with (obj x) in Q2. change (ls_obj A M Ni b d xs) with (obj xs) in Q2.
    assert (0 <= ls_H A M Ni d (isub xs x)).
    { unfold ls_H. pose proof (p_pos E2 M PM (A (isub xs x))).
      pose proof (p_pos E1 Ni (ls_PNi N Ni SN PN NI) (isub xs x)) as Q3. rewrite ip_sym in Q3.
      assert (DD : 0 <= d * d) by nra. pose proof (Rmult_le_pos _ _ DD Q3). lra. }
    lra. }
  fold (crate m L) in HK. set (rr := 2 * crate m L ^ k) in *. set (s := sqrt (ip (M b) b)) in *.
  pose proof (Rmult_le_compat_r s _ _ (sqrt_pos _) B2) as C1.
  pose proof (Rmult_le_compat_r (nnorm (At (M b))) _ _ (sqrt_pos _) HK) as C2.
  pose proof (Rmult_le_compat_l (m_atol kw) _ _ AT OX) as C3.
  pose proof (Rmult_le_compat_r (nnorm (At (M b))) _ _ (sqrt_pos _) C3) as C4. lra.
Qed.

(** Consistent systems, no damping: the bound with [btol]. *)
Theorem C90_lsmr_stops_btol : forall m L y k, 0 < m -> m < L -> d = 0 -> 0 <= (m_atol kw : R) ->
  (forall y, let z := N (At y) in m * ip z (Ni z) <= ip (M (A z)) (A z) <= L * ip z (Ni z)) ->
  A (N (At y)) = b -> (1 <= k)%nat ->
  2 * ((sqrt L - sqrt m) / (sqrt L + sqrt m)) ^ k * sqrt (L / m) <= m_btol kw ->
  forall r ob' cnt', @lm_solve KK WV WU fuel q kw ob b cnt = Ok (r, ob', cnt') -> (r_itn r <= k)%nat.
Proof.
  intros m L y k m0 mL D0 AT Bd HB K1 HK r ob' c H.
  destruct (le_lt_dec (r_itn r) k) as [Q|Q]; [exact Q|]. exfalso.
  assert (NZ : At (M b) <> izero).
  { intro Z. destruct (C77_lsmr_zero dv sq DV SQ E1 E2 q kw b SM PM SN PN AD HW fuel cnt ob HF Z)
      as (r2 & o2 & c2 & H2 & _ & I & _). rewrite H in H2. injection H2 as -> _ _. lia. }
  destruct (rs_run AT r ob' c H NZ) as (l & LL & P).
  destruct (nth_error l (k - 1)) as [x|] eqn:Hx; [|apply nth_error_None in Hx; lia].
  destruct (P _ _ Hx) as (KX & MX & GO). replace (S (k - 1)) with k in * by lia. destruct (GO Q) as [G1 _].
  assert (Bd' : forall t, let z := N (At t) in m * ip z (Ni z) <= ls_H A M Ni d z <= L * ip z (Ni z)).
  { intro t. cbv zeta. unfold ls_H. rewrite D0. pose proof (Bd t) as Q2. cbv zeta in Q2. split; lra. }
  assert (R0 : isub b (A (N (At y))) = izero) by (rewrite HB; veq).
  assert (GX : ls_grad A At M Ni b d (N (At y)) = izero).
  { unfold ls_grad. rewrite R0, D0, (lin_zero M (adjoint_lin _ _ SM)), (lin_zero At (adjoint_lin_t _ _ AD)).
    replace (0 * 0) with 0 by ring. veq. }
  assert (OX : ls_obj A M Ni b d (N (At y)) = 0).
  { unfold ls_obj. rewrite R0, D0, ip_zero. ring. }
  assert (OB : ls_obj A M Ni b d izero = ip (M b) b).
  { unfold ls_obj. rewrite D0, (lin_zero A (adjoint_lin _ _ AD)). replace (isub b izero) with b by veq. ring. }
  destruct (ls_best_resid A At M N Ni b d AD SM SN PN NI m L m0 mL Bd' k) as (z & K & B).
  pose proof (Rle_trans _ _ _ (MX z K) B) as B2.
  destruct (ls_grad_between A At M N Ni b d AD SM SN PN NI m L m0 mL Bd' (N (At y)) x GX) as [W1 _].
  { exists y. reflexivity. }
  { apply (ls_range A At M N AD SN _ k x) in KX; [exact KX|]. exists (M b). reflexivity. }
  destruct (ls_grad_between A At M N Ni b d AD SM SN PN NI m L m0 mL Bd' (N (At y)) izero GX) as [_ W2].
  { exists y. reflexivity. }
  { exists izero. rewrite (lin_zero At (adjoint_lin_t _ _ AD)), (lin_zero N (adjoint_lin _ _ SN)). reflexivity. }
  rewrite (ls_grad0 A At M N Ni b d AD SN NI) in W2. rewrite OX, OB in W2. rewrite OX in W1.
  change (ls_obj A M Ni b d x) with (obj x) in W1. change (ls_grad A At M Ni b d x) with (grad x) in W1.
  change (nnorm (grad x) <= 2 * crate m L ^ k * nnorm (At (M b))) in B2. fold (crate m L) in HK.
  set (rr := 2 * crate m L ^ k) in *.
  assert (r0 : 0 <= rr).
  { unfold rr. apply Rmult_le_pos; [lra|]. apply pow_le. left. apply crate_range; assumption. }
  set (n := ip (M b) b) in *. assert (n0 : 0 <= n) by exact (p_pos E2 M PM b).
  assert (V1 : sqrt m * sqrt (obj x) <= nnorm (grad x)).
  { rewrite <- sqrt_mult_alt by lra. apply sqrt_le_1_alt. lra. }
  assert (V2 : nnorm (At (M b)) <= sqrt L * sqrt n).
  { rewrite <- sqrt_mult_alt by lra. apply sqrt_le_1_alt. lra. }
  assert (sm : 0 < sqrt m) by (apply sqrt_lt_R0; exact m0).
  assert (SL : sqrt (L / m) * sqrt m = sqrt L).
  { rewrite <- sqrt_mult_alt; [f_equal; field; lra|]. apply Rlt_le, Rdiv_lt_0_compat; lra. }
  pose proof (Rmult_le_compat_l rr _ _ r0 V2) as V3.
  pose proof (Rmult_le_compat_r (sqrt n * sqrt m) _ _ ltac:(apply Rmult_le_pos; [apply sqrt_pos|lra]) HK) as V4.
  replace (rr * sqrt (L / m) * (sqrt n * sqrt m)) with (rr * (sqrt (L / m) * sqrt m * sqrt n)) in V4 by ring.
  rewrite SL in V4. pose proof (Rmult_lt_compat_l _ _ _ sm G1). lra.
Qed.
End Lsmr.

(** ** CRAIG and CRAIG-MR. *)
Section Craig.
Variables (dv : R -> R -> R) (sq : R -> R).
Hypothesis DV : dv_ok dv.
Hypothesis SQ : sq_ok sq.
Variables E1 E2 : IPS.
Notation KK := (exactK dv sq).
Notation WV := (exactV dv sq E1).
Notation WU := (exactV dv sq E2).
Variables (q : lprob WV WU) (b : iv E2).
Variables (oM : option (iv E2 -> iv E2)) (oN : option (iv E1 -> iv E1)).
Let M : iv E2 -> iv E2 := match oM with Some P => P | None => fun z => z end.
Let N : iv E1 -> iv E1 := match oN with Some P => P | None => fun z => z end.
Hypothesis SM : selfadj M.
Hypothesis PM : posdef M.
Hypothesis SN : selfadj N.
Hypothesis PN : posdef N.
Variable Ni : iv E1 -> iv E1.
Hypothesis NI : forall z, N (Ni z) = z.
Variable Mi : iv E2 -> iv E2.
Hypothesis MI : forall z, M (Mi z) = z.
Let A : iv E1 -> iv E2 := lp_A q.
Let At : iv E2 -> iv E1 := lp_At q.
Hypothesis AD : adjoint A At.
Variables (fuel cnt : nat).
Let op (x : iv E2) : iv E2 := iadd (A (N (At x))) (Mi x).
Let energy (z : iv E2) : R := ip (At z) (N (At z)) + ip z (Mi z).
Let mnorm (r : iv E2) : R := sqrt (ip r (M r)).
Let rate (L : R) : R := (sqrt (1 + L) - 1) / (sqrt (1 + L) + 1).
Lemma rc_rate : forall L, crate 1 (1 + L) = rate L.
Proof. intro L. unfold crate, rate. rewrite sqrt_1. reflexivity. Qed.
Lemma rc_LC : lin (fun z => M (A (N (At z)))).
Proof.
  pose proof (adjoint_lin _ _ SN) as LN. pose proof (adjoint_lin _ _ SM) as LM.
  pose proof (adjoint_lin _ _ AD) as LA. pose proof (adjoint_lin_t _ _ AD) as LT.
  split; intros; [rewrite (lin_add At LT), (lin_add N LN), (lin_add A LA), (lin_add M LM)
                 |rewrite (lin_scale At LT), (lin_scale N LN), (lin_scale A LA), (lin_scale M LM)]; reflexivity.
Qed.
Lemma rc_def : forall z, energy z <= 0 -> z = izero.
Proof.
  intros z H. unfold energy in H. pose proof (p_pos E1 N PN (At z)) as Q. rewrite ip_sym in Q.
  pose (SMi := ls_SNi M Mi SM MI). pose (PMi := ls_PNi M Mi SM PM MI).
  pose proof (p_pos E2 Mi PMi z) as Q2. apply (@ip_def (pspace E2 Mi SMi PMi)). cbn. rewrite ip_sym in Q2 |- *. lra.
Qed.

Section Cr.
Variable kw : cr_kw WV WU.
Hypothesis HM : c_M kw = oM.
Hypothesis HN : c_N kw = oN.
Hypothesis HW : (1 <= c_window kw)%nat.
Hypothesis NV : c_wantvar kw = false.
Let lim := if (c_itnlim kw =? 0)%Z then (3 * Z.of_nat (lp_n q))%Z else c_itnlim kw.
Hypothesis HF : (Z.to_nat lim < fuel)%nat.

Theorem C90_craig : forall L ys, 0 < L -> (forall z, ip (At z) (N (At z)) <= L * ip z (Mi z)) -> op ys = b ->
  forall r cnt', @cr_solve KK WV WU fuel q kw b cnt = Ok (r, cnt') ->
  exists p0 ps, length ps = go_itn r /\
    last (p0 :: ps) (izero, izero) = (go_x r : iv E1, go_r r : iv E2) /\
    (c_sit kw = true -> go_itp r = map fst (p0 :: ps) /\ go_itd r = map snd (p0 :: ps)) /\
    forall i x y, nth_error (p0 :: ps) i = Some (x, y) -> x = N (At y) /\
      energy (isub ys y) <= Rsqr (2 * rate L ^ (S i)) * energy ys.
Proof.
  intros L ys L0 Bd HY r c H.
  destruct (C78_craig dv sq DV SQ E1 E2 q b oM oN SM PM SN PN Ni NI Mi MI AD fuel cnt kw HM HN HW NV HF r c H)
    as (_ & p0 & ps & H1 & H2 & H3 & _ & G & _).
  exists p0, ps. split; [exact H1|]. split; [exact H2|]. split; [exact H3|].
  intros i x y Hi. destruct (G i x y Hi) as (GX & _ & _ & MX & _). split; [exact GX|].
  destruct (du_best_energy A At M Mi N b AD SM PM SN PN MI L L0 Bd ys HY (S i)) as (z & K & B).
  pose proof (MX z K) as Q.
  pose proof (du_quad A At M Mi N b AD SM SN MI ys y HY) as Q1.
  pose proof (du_quad A At M Mi N b AD SM SN MI ys z HY) as Q2.
  rewrite rc_rate in B. unfold du_H in *. unfold Rsqr, energy. unfold At, N in *. lra.
Qed.
Lemma rc_exact : forall s ys, kry (fun z => M (A (N (At z)))) (M b) s ys -> op ys = b ->
  forall r cnt', @cr_solve KK WV WU fuel q kw b cnt = Ok (r, cnt') ->
  exists p0 ps, length ps = go_itn r /\
    last (p0 :: ps) (izero, izero) = (go_x r : iv E1, go_r r : iv E2) /\
    (c_sit kw = true -> go_itp r = map fst (p0 :: ps) /\ go_itd r = map snd (p0 :: ps)) /\
    forall i x y, nth_error (p0 :: ps) i = Some (x, y) -> (s <= S i)%nat -> iadd (A x) (Mi y) = b.
Proof.
  intros s ys K HY r c H.
  destruct (C78_craig dv sq DV SQ E1 E2 q b oM oN SM PM SN PN Ni NI Mi MI AD fuel cnt kw HM HN HW NV HF r c H)
    as (_ & p0 & ps & H1 & H2 & H3 & _ & G & _).
  exists p0, ps. split; [exact H1|]. split; [exact H2|]. split; [exact H3|].
  intros i x y Hi Li. destruct (G i x y Hi) as (GX & _ & _ & MX & _).
  pose proof (MX ys (lk_le _ _ rc_LC _ _ _ Li K)) as Q.
  pose proof (du_quad A At M Mi N b AD SM SN MI ys y HY) as Q1.
  pose proof (du_quad A At M Mi N b AD SM SN MI ys ys HY) as Q2.
  assert (E0 : isub ys y = izero).
  { apply rc_def. replace (isub ys ys) with (@izero E2) in Q2 by veq.
    assert (H0 : du_H At Mi N izero = 0).
    { unfold du_H. rewrite (lin_zero At (adjoint_lin_t _ _ AD)), !ip_zerol. ring. }
    rewrite H0 in Q2. unfold energy. unfold du_H in *. unfold At, N in *. lra. }
  assert (EY : y = ys).
  { apply ip_ext. intro w. apply (f_equal (ip w)) in E0. rewrite ip_sub, ip_zero in E0. lra. }
  rewrite GX, EY. exact HY.
Qed.
Theorem C90_craig_eigenvalues : forall ls, (forall l, In l ls -> l + 1 <> 0) ->
  ann (fun z => M (A (N (At z)))) ls (M b) = izero ->
  forall r cnt', @cr_solve KK WV WU fuel q kw b cnt = Ok (r, cnt') ->
  exists p0 ps, length ps = go_itn r /\
    last (p0 :: ps) (izero, izero) = (go_x r : iv E1, go_r r : iv E2) /\
    (c_sit kw = true -> go_itp r = map fst (p0 :: ps) /\ go_itd r = map snd (p0 :: ps)) /\
    forall i x y, nth_error (p0 :: ps) i = Some (x, y) -> (length ls <= S i)%nat -> iadd (A x) (Mi y) = b.
Proof.
  intros ls NL Z. destruct (du_ann A At M Mi N b AD SM PM SN MI ls NL Z) as (ys & K & HY). exact (rc_exact _ ys K HY).
Qed.
End Cr.

Section Cm.
Variable kw : cm_kw WV WU.
Hypothesis HM : h_M kw = oM.
Hypothesis HN : h_N kw = oN.
Hypothesis HW : (1 <= h_window kw)%nat.
Let lim := match h_itnlim kw with None => Z.of_nat (Nat.min (lp_m q) (lp_n q)) | Some l => l end.
Hypothesis HF : (Z.to_nat lim < fuel)%nat.

Theorem C90_craigmr : forall L, 0 < L -> (forall z, ip (At z) (N (At z)) <= L * ip z (Mi z)) ->
  exists r cnt' (xs : list (iv E2)), @cm_solve KK WV WU fuel q kw b cnt = Ok (r, cnt') /\
    length xs = S (ho_itn r) /\ last xs izero = (ho_x r : iv E2) /\
    (h_sit kw = true -> ho_iters r = xs) /\
    forall i x, nth_error xs i = Some x -> mnorm (isub b (op x)) <= 2 * rate L ^ i * mnorm b.
Proof.
  intros L L0 Bd.
  destruct (C78_craigmr dv sq DV SQ E1 E2 q b oM oN SM PM SN PN Mi MI AD fuel cnt kw HM HN HW HF)
    as (r & c & xs & H & H1 & H2 & H3 & G & _).
  exists r, c, xs. split; [exact H|]. split; [exact H1|]. split; [exact H2|]. split; [exact H3|].
  intros i x Hi. destruct (G i x Hi) as [_ MX].
  destruct (du_best_resid A At M Mi N b AD SM PM SN PN MI L L0 Bd i) as (z & K & B).
  rewrite rc_rate in B. eapply Rle_trans; [exact (MX z K)|exact B].
Qed.
Lemma rcm_exact : forall s ys, kry (fun z => M (A (N (At z)))) (M b) s ys -> op ys = b ->
  exists r cnt' (xs : list (iv E2)), @cm_solve KK WV WU fuel q kw b cnt = Ok (r, cnt') /\
    length xs = S (ho_itn r) /\ last xs izero = (ho_x r : iv E2) /\
    (h_sit kw = true -> ho_iters r = xs) /\
    forall i x, nth_error xs i = Some x -> (s <= i)%nat -> op x = b.
Proof.
  intros s ys K HY.
  destruct (C78_craigmr dv sq DV SQ E1 E2 q b oM oN SM PM SN PN Mi MI AD fuel cnt kw HM HN HW HF)
    as (r & c & xs & H & H1 & H2 & H3 & G & _).
  exists r, c, xs. split; [exact H|]. split; [exact H1|]. split; [exact H2|]. split; [exact H3|].
  intros i x Hi Li. destruct (G i x Hi) as [_ MX].
  pose proof (MX ys (lk_le _ _ rc_LC _ _ _ Li K)) as Q.
  change (mnorm (isub b (op x)) <= mnorm (isub b (op ys))) in Q. change (op ys = b) in HY. rewrite HY in Q.
  replace (isub b b) with (@izero E2) in Q by veq. unfold mnorm in Q at 2. rewrite ip_zerol, sqrt_0 in Q.
  assert (Z0 : isub b (op x) = izero).
  { apply (@inorm_zero (pspace E2 M SM PM)). unfold inorm. cbn. rewrite ip_sym.
    apply Rle_antisym; [exact Q|apply sqrt_pos]. }
  apply ip_ext. intro w. apply (f_equal (ip w)) in Z0. rewrite ip_sub, ip_zero in Z0. lra.
Qed.
Theorem C90_craigmr_eigenvalues : forall ls, (forall l, In l ls -> l + 1 <> 0) ->
  ann (fun z => M (A (N (At z)))) ls (M b) = izero ->
  exists r cnt' (xs : list (iv E2)), @cm_solve KK WV WU fuel q kw b cnt = Ok (r, cnt') /\
    length xs = S (ho_itn r) /\ last xs izero = (ho_x r : iv E2) /\
    (h_sit kw = true -> ho_iters r = xs) /\
    forall i x, nth_error xs i = Some x -> (length ls <= i)%nat -> op x = b.
Proof.
  intros ls NL Z. destruct (du_ann A At M Mi N b AD SM PM SN MI ls NL Z) as (ys & K & HY). exact (rcm_exact _ ys K HY).
Qed.
End Cm.
End Craig.

(** ** The hypotheses hold of small matrices. *)
Definition sA (z : iv (Rn 2)) : iv (Rn 2) := v2 (2 * fst z + fst (snd z)) (fst z + 2 * fst (snd z)).
Definition sprob : kprob W2 :=
  @mkprob K0 W2 2 2 (sA : vc W2 -> vc W2) None (0 : sc K0) (0 : sc K0) (fun x => x) [].
Example ex_C90_minres : let kw : mr_kw W2 := @mr_kw0 K0 W2 (fun _ => 0 : sc K0) in
  let At := fun z : iv (Rn 2) => isub (q_A sprob z : iv (Rn 2)) (iscale (m_shift kw) z) in
  let Bt := fun z : iv (Rn 2) => isub (q_A iprob z : iv (Rn 2)) (iscale (m_shift kw) z) in
  selfadj (q_A sprob : iv (Rn 2) -> iv (Rn 2)) /\ @machine_eps K0 <= 1 /\
  (forall z, 1 * ip z z <= ip z (At z) <= 3 * ip z z) /\
  (forall z, 1 * sqrt (ip z z) <= sqrt (ip (Bt z) (Bt z)) <= 2 * sqrt (ip z z)) /\
  ann At [1; 3] (v2 1 0) = izero /\
  exists o cnt', @mr_solve K0 W2 11 sprob [] (v2 1 0) kw 0 = Ok (o, cnt') /\
  forall x, MinresModel.u_x o = x -> (2 <= u_itn o)%nat -> At x = v2 1 0.
Proof.
  intros kw At Bt.
  assert (SA : selfadj (q_A sprob : iv (Rn 2) -> iv (Rn 2))) by (intros [a [b []]] [c [d []]]; cbn; ring).
  assert (EP : @machine_eps K0 <= 1) by (rewrite eps_val; lra).
  assert (BA : forall z, 1 * ip z z <= ip z (At z) <= 3 * ip z z).
  { intros [a [b []]]. unfold At, kw, isub, ineg. cbn. pose proof (Rle_0_sqr (a + b)). pose proof (Rle_0_sqr (a - b)). unfold Rsqr in *. split; lra. }
  assert (AN : ann At [1; 3] (v2 1 0) = izero).
  { apply (@ip_ext (Rn 2)). intros [a [b []]]. unfold At, kw, isub, ineg. cbn. ring. }
  split; [exact SA|]. split; [exact EP|]. split; [exact BA|]. split.
  { intro z. split.
    - rewrite Rmult_1_l. apply sqrt_le_1_alt. destruct z as [a [b []]]. unfold Bt, kw, isub, ineg. cbn. nra.
    - replace 2 with (sqrt 4) by (apply sqrt_val; lra). rewrite <- sqrt_mult_alt by lra.
      apply sqrt_le_1_alt. destruct z as [a [b []]]. unfold Bt, kw, isub, ineg. cbn. nra. }
  split; [exact AN|].
  destruct (C47_stopping K0 W2 sprob kw (v2 1 0) 11 [] 0) as (o & c & H & _); [cbn; lia|cbn; lia|].
  exists o, c. split; [exact H|]. intros x HX L.
  assert (SI : selfadj (fun z : iv (Rn 2) => z)) by (intros u w; reflexivity).
  assert (PI : posdef (fun z : iv (Rn 2) => z)) by (intros u NZ; apply ip_nz; exact NZ).
  destruct (C90_minres_eigenvalues Rdiv sqrt Rdiv_ok sqrt_ok (Rn 2) sprob kw (v2 1 0) SA SI PI) with (ls := [1; 3])
    (fuel := 11%nat) (hist := @nil R) (cnt := 0%nat) (o := o) (cnt' := c) as (xs & H1 & _ & H3 & H4).
  - intros k z _. eapply Rle_trans; [apply Rmult_le_compat_r; [apply sqrt_pos|exact EP]|].
    apply (rm_lower Rdiv sqrt (Rn 2) sprob kw SI PI 1 Rlt_0_1). intro y. apply BA.
  - intros l [<-|[<-|[]]]; lra.
  - exact AN.
  - exact H.
  - apply (H4 (u_itn o - 1)%nat x); [|cbn [length]; lia]. rewrite <- HX.
    transitivity (Some (last xs (@izero (Rn 2)))); [|f_equal; symmetry; exact H3].
    destruct xs as [|y xs _] using rev_ind; [cbn in H1; lia|]. rewrite last_last.
    rewrite app_length in H1. cbn [length] in H1. rewrite nth_error_app2 by lia.
    replace (u_itn o - 1 - length xs)%nat with 0%nat by lia. reflexivity.
Qed.

Lemma sqrt6 : (sqrt 6 - sqrt 1) / (sqrt 6 + sqrt 1) <= / 2 /\ 0 < (sqrt 6 - sqrt 1) / (sqrt 6 + sqrt 1).
Proof.
  rewrite sqrt_1. assert (S1 : 2 < sqrt 6) by (rewrite <- (sqrt_val 4 2) by lra; apply sqrt_lt_1_alt; lra).
  assert (S2 : sqrt 6 < 3) by (rewrite <- (sqrt_val 9 3) by lra; apply sqrt_lt_1_alt; lra).
  split.
  - apply Rmult_le_reg_r with (sqrt 6 + 1); [lra|]. unfold Rdiv. rewrite Rmult_assoc, Rinv_l by lra. lra.
  - apply Rdiv_lt_0_compat; lra.
Qed.
(** [xA' xA] has the eigenvalues 1 and 6; [b = xA (1, 1)]. *)
Definition rlkw : ls_kw W2 W3 :=
  @mklskw K0 W2 W3 0 0 None None 0 (/ 2) (Q2R 100000000) false 0 true true 5 (fun _ => 0 : sc K0) (fun _ => false).
Definition rmkw (d t : R) : lm_kw W2 W3 :=
  @mklmkw K0 W2 W3 d t 1 0 None None None 0 true true 5 (fun _ => 0 : sc K0).
Lemma xA_bounds : forall z : iv (Rn 2), 1 * ip z z <= ip (xA z) (xA z) <= 6 * ip z z.
Proof. intros [a [b []]]. pose proof (Rle_0_sqr (a + 2 * b)). pose proof (Rle_0_sqr (2 * a - b)). unfold Rsqr in *. cbn. split; lra. Qed.
Lemma id_sa : forall E : IPS, selfadj (fun z : iv E => z).
Proof. intros E u w. reflexivity. Qed.
Lemma id_pd : forall E : IPS, posdef (fun z : iv E => z).
Proof. intros E u NZ. apply ip_nz. exact NZ. Qed.
Example ex_C90_lsqr : xA (xAt (v3 1 1 0)) = v3 1 1 3 /\
  (forall y, let z := xAt y in 1 * ip z z <= ip (xA z) (xA z) <= 6 * ip z z) /\
  ann (fun z => xAt (xA z)) [1; 6] (xAt (v3 1 1 3)) = izero /\
  exists o cnt', @ls_solve K0 W2 W3 7 xq rlkw (v3 1 1 3) 0 = Ok (o, cnt') /\ (o_itn o <= 2)%nat.
Proof.
  assert (E0 : xA (xAt (v3 1 1 0)) = v3 1 1 3).
  { unfold xA, xAt, v2, v3. cbn. repeat (apply f_equal2; [ring|]). reflexivity. }
  assert (BD : forall y, let z := xAt y in 1 * ip z z <= ip (xA z) (xA z) <= 6 * ip z z) by (intros y z; apply xA_bounds).
  split; [exact E0|]. split; [exact BD|]. split.
  { apply (@ip_ext (Rn 2)). intros [a [b []]]. unfold isub, ineg. cbn. ring. }
  apply (C90_lsqr_stops Rdiv sqrt Rdiv_ok sqrt_ok (Rn 2) (Rn 3) xq rlkw (v3 1 1 3) (id_sa _) (id_pd _) (id_sa _) (id_pd _)
    (fun z => z) (fun z => eq_refl) xAD ltac:(cbn; lia) eq_refl 7 0 ltac:(cbn; lia) 1 6 (v3 1 1 0) 2);
    try lra; try lia; try reflexivity.
  - cbn. lra.
  - exact BD.
  - exact E0.
  - destruct sqrt6 as [Q1 Q2]. cbn. nra.
Qed.
(** Damped, [b = (1, 1, 1)]: the solution is (6/25, 7/25), with objective 42/25. *)
Example ex_C90_lsmr : let xs := v2 (6 / 25) (7 / 25) in
  let kw := rmkw 2 (3 / 5) in
  isub (xAt (isub xb (xA xs))) (iscale (2 * 2) xs) = izero /\
  ip (isub xb (xA xs)) (isub xb (xA xs)) + 2 * 2 * ip xs xs = 42 / 25 /\ xAt xb <> izero /\
  exists r ob' cnt', @lm_solve K0 W2 W3 3 xq kw lm_obj0 xb 0 = Ok (r, ob', cnt') /\ (r_itn r <= 1)%nat.
Proof.
  intros xs kw.
  assert (G0 : isub (xAt (isub xb (xA xs))) (iscale (2 * 2) xs) = izero).
  { apply (@ip_ext (Rn 2)). intros [a [b []]]. unfold isub, ineg, xs. cbn. field. }
  assert (O0 : ip (isub xb (xA xs)) (isub xb (xA xs)) + 2 * 2 * ip xs xs = 42 / 25).
  { unfold isub, ineg, xs. cbn. field. }
  split; [exact G0|]. split; [exact O0|]. split; [exact xAtb|].
  destruct (@lm_solve K0 W2 W3 3 xq kw lm_obj0 xb 0) as [[[r ob'] c]|e] eqn:H.
  - exists r, ob', c. split; [reflexivity|]. revert H.
    apply (C90_lsmr_stops_atol Rdiv sqrt Rdiv_ok sqrt_ok (Rn 2) (Rn 3) xq kw xb (id_sa _) (id_pd _) (id_sa _) (id_pd _)
      (fun z => z) (fun z => eq_refl) xAD ltac:(cbn; lia) 3 0 lm_obj0 ltac:(cbn; lia) 5 10 xs 1); try lra; try lia.
    + cbn. lra.
    + intros y z. pose proof (xA_bounds z). change (5 * ip z z <= ip (xA z) (xA z) + 2 * 2 * ip z z <= 10 * ip z z). split; lra.
    + exact G0.
    + change (2 * ((sqrt 10 - sqrt 5) / (sqrt 10 + sqrt 5)) ^ 1 * sqrt (ip xb xb) <=
        3 / 5 * sqrt (ip (isub xb (xA xs)) (isub xb (xA xs)) + 2 * 2 * ip xs xs)).
      rewrite O0. assert (B3 : ip xb xb = 3) by (cbn; ring). rewrite B3, pow_1.
      assert (S1 : 5 / 4 < sqrt (42 / 25)) by (rewrite <- (sqrt_val (25 / 16) (5 / 4)) by lra; apply sqrt_lt_1_alt; lra).
      assert (S2 : sqrt 3 < 7 / 4) by (rewrite <- (sqrt_val (49 / 16) (7 / 4)) by lra; apply sqrt_lt_1_alt; lra).
      assert (S3 : sqrt 10 = sqrt 2 * sqrt 5) by (rewrite <- sqrt_mult by lra; f_equal; ring).
      assert (S4 : 7 / 5 < sqrt 2) by (rewrite <- (sqrt_val (49 / 25) (7 / 5)) by lra; apply sqrt_lt_1_alt; lra).
      assert (S5 : sqrt 2 < 71 / 50) by (rewrite <- (sqrt_val (5041 / 2500) (71 / 50)) by lra; apply sqrt_lt_1_alt; lra).
      assert (S6 : 0 < sqrt 5) by (apply sqrt_lt_R0; lra).
      replace ((sqrt 10 - sqrt 5) / (sqrt 10 + sqrt 5)) with ((sqrt 2 - 1) / (sqrt 2 + 1)) by (rewrite S3; field; split; nra).
      assert (S7 : (sqrt 2 - 1) / (sqrt 2 + 1) <= / 5).
      { apply Rmult_le_reg_r with (sqrt 2 + 1); [lra|]. unfold Rdiv. rewrite Rmult_assoc, Rinv_l by lra. lra. }
      assert (S8 : 0 <= (sqrt 2 - 1) / (sqrt 2 + 1)) by (left; apply Rdiv_lt_0_compat; lra). nra.
  - exfalso.
    destruct (C77_lsmr_error Rdiv sqrt Rdiv_ok sqrt_ok (Rn 2) (Rn 3) xq kw xb (id_sa _) (id_pd _) (id_sa _) (id_pd _) xAD
      ltac:(cbn; lia) 3 0 lm_obj0 ltac:(cbn; lia) e H) as (_ & D & _). cbn in D. lra.
Qed.
(** With the diagonal preconditioners of PropPrecon.v and damping 2. *)
Example ex_C90_weighted : forall y, let z := dgN (xAt y) in
  4 * ip z (dgNi z) <= ip (dgM (xA z)) (xA z) + 2 * 2 * ip z (dgNi z) <= 100 * ip z (dgNi z).
Proof.
  intros y z. generalize z. clear. intros [a [b []]]. pose proof (Rle_0_sqr (a - b)). pose proof (Rle_0_sqr (a + 2 * b)).
  pose proof (Rle_0_sqr a). pose proof (Rle_0_sqr b). unfold Rsqr in *. unfold dgM, dgNi, xA, v3, v2. cbn. split; lra.
Qed.
Example ex_C90_craig : let ys := v3 (4 / 7) (9 / 14) (- 1 / 7) in
  iadd (xA (xAt ys)) ys = xb /\ (forall z, ip (xAt z) (xAt z) <= 6 * ip z z) /\
  ann (fun z => xA (xAt z)) [0; 1; 6] xb = izero /\ xb <> izero /\
  (exists r cnt', @cr_solve K0 W2 W3 7 xq (ckw 0 W2 W3) xb 0 = Ok (r, cnt')) /\
  (forall z, ip (xAt z) (dgN (xAt z)) <= 100 * ip z (dgMi z)).
Proof.
  intros ys. split.
  { apply (@ip_ext (Rn 3)). intros [a [b [c []]]]. unfold ys, v3. cbn. field. }
  split. { intros [a [b [c []]]]. pose proof (Rle_0_sqr (2 * a - b)). pose proof (Rle_0_sqr (c - a - 2 * b)). unfold Rsqr in *. cbn. lra. }
  split. { apply (@ip_ext (Rn 3)). intros [a [b [c []]]]. unfold isub, ineg. cbn. ring. }
  split. { intro H. apply (f_equal (fun z : iv (Rn 3) => fst z)) in H. cbn in H. lra. }
  split.
  - apply (C78_craig_returns Rdiv sqrt Rdiv_ok sqrt_ok (Rn 2) (Rn 3) xq xb None None (id_sa _) (id_pd _) (id_sa _) (id_pd _) xAD 7 0
      (ckw 0 W2 W3) eq_refl eq_refl ltac:(cbn; lia) eq_refl ltac:(cbn; lia)); [|cbn; lia].
    intro H. apply (f_equal (fun z : iv (Rn 3) => fst z)) in H. cbn in H. lra.
  - intros [a [b [c []]]]. pose proof (Rle_0_sqr (a - c)). pose proof (Rle_0_sqr (b - c)).
    pose proof (Rle_0_sqr a). pose proof (Rle_0_sqr b). pose proof (Rle_0_sqr c). unfold Rsqr in *.
    unfold dgN, dgMi, xAt, v3, v2. cbn. lra.
Qed.
Print Assumptions C90_minres.
Print Assumptions C90_minres_indefinite.
Print Assumptions C90_minres_eigenvalues.
Print Assumptions C90_lsqr.
Print Assumptions C90_lsqr_eigenvalues.
Print Assumptions C90_lsqr_stops.
Print Assumptions C90_lsmr.
Print Assumptions C90_lsmr_eigenvalues.
Print Assumptions C90_lsmr_stops_atol.
Print Assumptions C90_lsmr_stops_btol.
Print Assumptions C90_craig.
Print Assumptions C90_craig_eigenvalues.
Print Assumptions C90_craigmr.
Print Assumptions C90_craigmr_eigenvalues.
