(** * Property C95 (second part): preconditioning with (almost) the inverse.  In exact arithmetic every
    method but CG (C39_exact_inverse_refuted) is done after one iteration (two products) if the
    preconditioner is the inverse of the operator of the method, and after [r+1] iterations if the
    preconditioned operator is a multiple of the identity up to rank [r]. *)
From Coq Require Import List Arith Lia Bool QArith ZArith Reals Lra Qreals.
From Verif Require Import Base Num KrylovPoly SpanMath ToolsModel CgModel CgProof PropCg KrylovModel KrylovProof KrylovStop KrylovTerm PropTerm MinresModel MinresProof
  PropMinres LsqrModel LsqrProof PropLsqr LsmrModel PropLsmr CraigModel PropCraig Precon PropPrecon
  Cheb RateMath PropRate PropRateLs RankMath PropRank.
Import ListNotations.
Local Open Scope R_scope.

(** ** (N A' M A + d^2) z = N A' M b with N A' M A = g I + rank r *)
Section Ls.
Context {E1 E2 : IPS} (A : iv E1 -> iv E2) (At : iv E2 -> iv E1) (M : iv E2 -> iv E2) (N Ni : iv E1 -> iv E1)
  (b : iv E2) (d : R).
Hypotheses (AD : adjoint A At) (SM : selfadj M) (PM : posdef M) (SN : selfadj N) (PN : posdef N).
Hypothesis NI : forall z, N (Ni z) = z.
Let LA := adjoint_lin _ _ AD. Let LT := adjoint_lin_t _ _ AD. Let LM := adjoint_lin _ _ SM. Let LN := adjoint_lin _ _ SN.
Let C (z : iv E1) := N (At (M (A z))).
Let B (z : iv E1) := iadd (C z) (iscale (d * d) z).
Let v := N (At (M b)).
Lemma ls_alive : forall k z, kry B v k z -> B z = izero -> z = izero.
Proof.
  intros k z K Z. destruct (ls_range A At M N b d AD SN k z K) as [y Ey].
  pose proof (N_inj N SN PN) as NJ.
  assert (Q : iadd (At (M (A z))) (iscale (d * d) (At y)) = izero).
  { apply NJ. rewrite (lin_add N LN), (lin_scale N LN), <- Ey, (lin_zero N LN). exact Z. }
  apply (f_equal (ip z)) in Q. rewrite ip_add, ip_scale, ip_zero in Q.
  assert (Q1 : ip z (At (M (A z))) = ip (A z) (M (A z))).
  { rewrite (ip_sym z), <- AD, ip_sym. reflexivity. }
  assert (Q2 : ip z (At y) = ip (A z) y) by (rewrite (ip_sym z), <- AD, ip_sym; reflexivity).
  assert (P2 : 0 <= ip z (At y)).
  { rewrite Ey, ip_sym. destruct (Req_dec (ip (At y) (N (At y))) 0) as [E0|E0]; [rewrite E0; lra|].
    left. apply PN. intro X. apply E0. rewrite X. apply ip_zerol. }
  assert (AZ : A z = izero).
  { apply (posdef_inj _ M _ PM). rewrite <- Q1. pose proof (Rle_0_sqr d) as D. unfold Rsqr in D. nra. }
  rewrite Ey. rewrite AZ, ip_zerol in Q2.
  assert (AY : At y = izero).
  { apply (posdef_inj _ N _ PN). rewrite <- Ey, ip_sym, Q2. lra. }
  rewrite AY. apply (lin_zero N LN).
Qed.
Theorem ls_shift : forall g r, shift_rank C g r ->
  exists z, kry C v (S r) z /\ isub (At (M (isub b (A z)))) (iscale (d * d) (Ni z)) = izero.
Proof.
  intros g r (U & LU & HU). pose proof (LBl A At M N d AD SM SN) as LB. fold C in LB. fold B in LB.
  destruct (low_kry B v LB (v :: U)) as (z & K & EZ).
  - apply (shift_kry B v (g + d * d)). intro z. specialize (HU z).
    replace (isub (B z) (iscale (g + d * d) z)) with (isub (C z) (iscale g z)) by (unfold B; veq). exact HU.
  - exact ls_alive.
  - exists z. split.
    + apply (kry_shift C (LC A At M N AD SM SN) (d * d)). revert K. apply lk_le; [exact LB|cbn; lia].
    + apply (N_inj N SN PN). rewrite (lin_sub N LN), (lin_scale N LN), NI, (lin_zero N LN), (lin_sub M LM), (lin_sub At LT), (lin_sub N LN).
      change (isub (isub v (C z)) (iscale (d * d) z) = izero). rewrite <- EZ. unfold B. veq.
Qed.
End Ls.

(** ** (A N A' + M^-1) y = b with M A N A' = g I + rank r *)
Section Du.
Context {E1 E2 : IPS} (A : iv E1 -> iv E2) (At : iv E2 -> iv E1) (M Mi : iv E2 -> iv E2) (N : iv E1 -> iv E1) (b : iv E2).
Hypotheses (AD : adjoint A At) (SM : selfadj M) (PM : posdef M) (SN : selfadj N) (PN : posdef N).
Hypothesis MI : forall z, M (Mi z) = z.
Let LA := adjoint_lin _ _ AD. Let LT := adjoint_lin_t _ _ AD. Let LM := adjoint_lin _ _ SM. Let LN := adjoint_lin _ _ SN.
Let C (y : iv E2) := M (A (N (At y))).
Let B (y : iv E2) := iadd (C y) (iscale 1 y).
Theorem du_shift : forall g r, shift_rank C g r ->
  exists y, kry C (M b) (S r) y /\ iadd (A (N (At y))) (Mi y) = b.
Proof.
  intros g r (U & LU & HU). pose proof (LBd A At M N AD SM SN) as LB. fold C in LB. fold B in LB.
  pose proof (M_inj M SM PM) as MJ.
  destruct (low_kry B (M b) LB (M b :: U)) as (y & K & EY).
  - apply (shift_kry B (M b) (g + 1)). intro z. specialize (HU z).
    replace (isub (B z) (iscale (g + 1) z)) with (isub (C z) (iscale g z)) by (unfold B; veq). exact HU.
  - intros _ y _ Z.
    assert (Q : iadd (A (N (At y))) (Mi y) = izero).
    { apply MJ. rewrite (lin_add M LM), MI, (lin_zero M LM). rewrite <- Z. unfold B, C. veq. }
    apply (f_equal (ip y)) in Q. rewrite ip_add, AD, ip_zero in Q.
    assert (P1 : 0 <= ip (At y) (N (At y))).
    { destruct (Req_dec (ip (At y) (N (At y))) 0) as [E0|E0]; [rewrite E0; lra|].
      left. apply PN. intro X. apply E0. rewrite X. apply ip_zerol. }
    assert (Y0 : Mi y = izero).
    { apply (posdef_inj _ M _ PM). rewrite MI, ip_sym. lra. }
    rewrite <- (MI y), Y0. apply (lin_zero M LM).
  - exists y. split.
    + apply (kry_shift C (LCd A At M N AD SM SN) 1). revert K. apply lk_le; [exact LB|cbn; lia].
    + apply MJ. rewrite (lin_add M LM), MI, <- EY. unfold B, C. veq.
Qed.
End Du.

(** An operator that is the identity is one up to rank 0. *)
Lemma id_shift : forall (E : IPS) (B : iv E -> iv E), (forall z, B z = z) -> shift_rank B 1 0.
Proof.
  intros E B H. exists []. split; [cbn; lia|]. intro z. rewrite H.
  replace (isub z (iscale 1 z)) with (@izero E) by veq. apply sp_0.
Qed.

Section Sq.
Variables (dv : R -> R -> R) (sq : R -> R) (E : IPS).
Notation KK := (exactK dv sq).
Notation WW := (exactV dv sq E).
Hypotheses (DV : dv_ok dv) (SQ : sq_ok sq).
Variables (q : kprob WW) (P : iv E -> iv E) (b : iv E) (kw : kkw WW).
Notation A := (q_A q : iv E -> iv E).
Hypotheses (QP : q_P q = Some (P : vc WW -> vc WW)) (LA : lin A) (LP : lin P) (INV : forall z, A (P z) = z).
Let r0 : iv E := isub b (A (x_init dv sq E kw)).
Let th := Rmax (q_abstol q) (q_reltol q * inorm r0).

Lemma ep_opB : forall z, opB dv sq E q z = z.
Proof. intro z. unfold opB. rewrite QP. apply INV. Qed.
Lemma ep_nb : forall n, no_breakdown (opB dv sq E q) r0 n.
Proof.
  intro n. apply C72_spd_no_breakdown.
  - split; intros; rewrite !ep_opB; reflexivity.
  - intros u w. rewrite !ep_opB. reflexivity.
  - intros u Hu. rewrite ep_opB. destruct (Rle_lt_or_eq_dec 0 (ip u u) (ip_pos u)) as [L|L]; [exact L|].
    exfalso. apply Hu. apply ip_def. lra.
Qed.
(** CGS, BiCGSTAB and TFQMR with the inverse as preconditioner: two products. *)
Theorem C95_cgs : 0 <= (q_abstol q : R) -> (2 <= match w_mmax kw with Some m => m | None => 2 * ilen b end)%nat ->
  forall fuel cnt o cnt', cgs_solve fuel q (b : vc WW) kw cnt = Ok (o, cnt') ->
  o_conv o = true /\ (KrylovModel.o_nmv o <= 2)%nat /\ inorm (isub b (A (KrylovModel.o_x o))) <= th.
Proof.
  intros AT MX fuel cnt o cnt' H.
  apply (C93_cgs dv sq E DV SQ q kw b 1 0) with (fuel := fuel) (cnt := cnt) (cnt' := cnt'); auto.
  - intros M EM. rewrite QP in EM. injection EM as <-. exact LP.
  - apply id_shift, ep_opB.
  - apply ep_nb.
Qed.
Theorem C95_bicgstab : 0 <= (q_abstol q : R) -> (2 <= match w_mmax kw with Some m => m | None => 2 * ilen b end)%nat ->
  forall fuel cnt o cnt', bi_solve fuel q (b : vc WW) kw cnt = Ok (o, cnt') ->
  o_conv o = true /\ (KrylovModel.o_nmv o <= 2)%nat /\ inorm (isub b (A (KrylovModel.o_x o))) <= th.
Proof.
  intros AT MX fuel cnt o cnt' H.
  assert (X : o_conv o = true /\ (KrylovModel.o_nmv o <= Nat.max (match w_guess kw with Some _ => 1 | None => 0 end) (2 * (0 + 1)))%nat /\
    inorm (isub b (A (KrylovModel.o_x o))) <= th).
  { apply (C93_bicgstab dv sq E DV SQ q kw b 1 0) with (fuel := fuel) (cnt := cnt) (cnt' := cnt'); auto.
    - intros M EM. rewrite QP in EM. injection EM as <-. exact LP.
    - apply id_shift, ep_opB.
    - apply ep_nb.
    - apply (C73_omega dv sq E q b kw DV SQ LA AT). intros w Hw. rewrite ep_opB. intro Z. apply Hw. now apply ip_def. }
  destruct X as (X1 & X2 & X3). split; [exact X1|]. split; [|exact X3]. destruct (w_guess kw); cbn in X2; lia.
Qed.
Theorem C95_tfqmr : (2 <= match w_mmax kw with Some m => m | None => 2 * ilen b end + 1)%nat -> 0 < th ->
  forall fuel cnt o cnt', tf_solve fuel q (b : vc WW) kw cnt = Ok (o, cnt') ->
  o_conv o = true /\ (KrylovModel.o_nmv o <= 1)%nat /\ inorm (isub b (A (KrylovModel.o_x o))) < th.
Proof.
  intros MX TP fuel cnt o cnt' H.
  apply (C93_tfqmr dv sq E DV SQ q kw b 1 0) with (fuel := fuel) (cnt := cnt) (cnt' := cnt'); auto.
  - intros M EM. rewrite QP in EM. injection EM as <-. exact LP.
  - apply id_shift, ep_opB.
  - apply ep_nb.
Qed.
End Sq.

(** MINRES: every iterate is the solution. *)
Theorem C95_minres : forall (dv : R -> R -> R) (sq : R -> R) (DV : dv_ok dv) (SQ : sq_ok sq) (E : IPS)
  (q : kprob (exactV dv sq E)) (kw : mr_kw (exactV dv sq E)) (b : iv E) (P : iv E -> iv E),
  m_precon kw = Some (P : vc (exactV dv sq E) -> vc (exactV dv sq E)) ->
  let At (z : iv E) : iv E := isub (q_A q z : iv E) (iscale (m_shift kw) z) in
  selfadj (q_A q : iv E -> iv E) -> selfadj P -> posdef P -> (forall z, At (P z) = z) ->
  forall fuel hist cnt o cnt', @mr_solve _ (exactV dv sq E) fuel q hist b kw cnt = Ok (o, cnt') ->
  (1 <= u_itn o)%nat -> At (u_x o) = b /\ (u_hist o : list R) = hist ++ repeat 0 (u_itn o).
Proof.
  intros dv sq DV SQ E q kw b P EP At SA SP PP INV fuel hist cnt o cnt' H IT.
  assert (EPS : @machine_eps (exactK dv sq) <= 1).
  { change (Q2R (1 # 4503599627370496) <= 1). unfold Q2R. cbn. lra. }
  assert (IDS : shift_rank (fun z => At (P z)) 1 0) by (apply id_shift; exact INV).
  pose proof (C93_minres dv sq DV SQ E q kw b) as X. rewrite EP in X. cbv zeta in X. fold At in X.
  destruct (X SA SP PP) with (g := 1) (r := 0%nat) (fuel := fuel) (hist := hist) (cnt := cnt) (o := o) (cnt' := cnt')
    as (xs & LX & HH & EX & SOL); [|exact IDS|exact H|].
  { intros k z _. change (@machine_eps (exactK dv sq) * sqrt (ip z (P z)) <= sqrt (ip (At (P z)) (P (At (P z))))). rewrite INV.
    pose proof (sqrt_pos (ip z (P z))). nra. }
  assert (ALL : forall z, In z xs -> At z = b).
  { intros z Hz. apply In_nth_error in Hz. destruct Hz as [i Hi]. apply (SOL i z Hi). lia. }
  split.
  - rewrite EX. apply ALL. clear - LX IT. destruct xs as [|x xs]; [cbn in LX; lia|]. clear LX IT. revert x.
    induction xs as [|y xs IH]; intro x; [now left|]. right. apply (IH y).
  - rewrite HH. f_equal. rewrite <- LX. clear - ALL. induction xs as [|x xs IH]; [reflexivity|]. cbn [map length repeat]. f_equal.
    + rewrite (ALL x (or_introl eq_refl)). replace (isub b b) with (@izero E) by veq. rewrite ip_zerol. apply sqrt_0.
    + apply IH. intros z Hz. apply ALL. now right.
Qed.

(** ** Least squares. *)
Section LsP.
Variables (dv : R -> R -> R) (sq : R -> R).
Hypotheses (DV : dv_ok dv) (SQ : sq_ok sq).
Variables E1 E2 : IPS.
Local Notation KK := (exactK dv sq).
Local Notation WV := (exactV dv sq E1).
Local Notation WU := (exactV dv sq E2).
Variables (q : lprob WV WU) (b : iv E2).
Let A : iv E1 -> iv E2 := lp_A q.
Let At : iv E2 -> iv E1 := lp_At q.
Hypothesis AD : adjoint A At.

Theorem C95_lsqr : forall (kw : ls_kw WV WU) (Ni : iv E1 -> iv E1) g r,
  let M : iv E2 -> iv E2 := match l_M kw with Some P => P | None => fun z => z end in
  let N : iv E1 -> iv E1 := match l_N kw with Some P => P | None => fun z => z end in
  let d : R := l_damp kw in
  let grad (x : iv E1) : iv E1 := isub (At (M (isub b (A x)))) (iscale (d * d) (Ni x)) in
  let lim := if (l_itnlim kw =? 0)%Z then (3 * Z.of_nat (lp_n q))%Z else l_itnlim kw in
  selfadj M -> posdef M -> selfadj N -> posdef N -> (forall z, N (Ni z) = z) ->
  (1 <= l_window kw)%nat -> l_wantvar kw = false -> shift_rank (fun z => N (At (M (A z)))) g r ->
  forall fuel cnt, (Z.to_nat lim < fuel)%nat ->
  exists o cnt' (l : list (iv E1)), @ls_solve KK WV WU fuel q kw b cnt = Ok (o, cnt') /\
    length l = o_itn o /\ (LsqrModel.o_x o : iv E1) = last l izero /\
    (l_sit kw = true -> (LsqrModel.o_iters o : list (iv E1)) = izero :: l) /\
    (forall i x, nth_error l i = Some x -> (r <= i)%nat -> grad x = izero).
Proof.
  intros kw Ni g r M N d grad lim SM PM SN PN NI HW NV HR fuel cnt HF.
  destruct (ls_shift A At M N Ni b d AD SM PM SN PN NI g r HR) as (z & K & G0).
  destruct (rl_exact dv sq DV SQ E1 E2 q kw b SM PM SN PN Ni NI AD HW NV fuel cnt HF _ z K G0)
    as (o & c & l & H & H1 & H2 & H3 & H4).
  exists o, c, l. split; [exact H|]. split; [exact H1|]. split; [exact H2|]. split; [exact H3|].
  intros i x Hx Li. apply (H4 i x Hx). lia.
Qed.

Theorem C95_lsmr : forall (kw : lm_kw WV WU) (Ni : iv E1 -> iv E1) g r,
  let M : iv E2 -> iv E2 := match m_M kw with Some P => P | None => fun z => z end in
  let N : iv E1 -> iv E1 := match m_N kw with Some P => P | None => fun z => z end in
  let d : R := m_damp kw in
  let grad (x : iv E1) : iv E1 := isub (At (M (isub b (A x)))) (iscale (d * d) (Ni x)) in
  let lim := match LsmrModel.m_itnlim kw with Some l => l | None => Z.of_nat (Nat.min (lp_m q) (lp_n q)) end in
  selfadj M -> posdef M -> selfadj N -> posdef N -> (forall z, N (Ni z) = z) ->
  (1 <= LsmrModel.m_window kw)%nat -> shift_rank (fun z => N (At (M (A z)))) g r ->
  forall fuel cnt ob, (Z.to_nat lim < fuel)%nat ->
  forall o ob' cnt', @lm_solve KK WV WU fuel q kw ob b cnt = Ok (o, ob', cnt') -> At (M b) <> izero ->
  exists l : list (iv E1), length l = LsmrModel.r_itn o /\ (r_x o : iv E1) = last l izero /\
    (m_sit kw = true -> (a_iters ob' : list (iv E1)) = izero :: l) /\
    (forall i x, nth_error l i = Some x -> (r <= i)%nat -> grad x = izero).
Proof.
  intros kw Ni g r M N d grad lim SM PM SN PN NI HW HR fuel cnt ob HF o ob' c H NZ.
  destruct (ls_shift A At M N Ni b d AD SM PM SN PN NI g r HR) as (z & K & G0).
  destruct (rs_exact dv sq DV SQ E1 E2 q kw b SM PM SN PN Ni NI AD HW fuel cnt ob HF _ z K G0 o ob' c H NZ)
    as (l & H1 & H2 & H3 & H4).
  exists l. split; [exact H1|]. split; [exact H2|]. split; [exact H3|]. intros i x Hx Li. apply (H4 i x Hx). lia.
Qed.

Theorem C95_craig : forall (kw : cr_kw WV WU) (Ni : iv E1 -> iv E1) (Mi : iv E2 -> iv E2) g r,
  let M : iv E2 -> iv E2 := match c_M kw with Some P => P | None => fun z => z end in
  let N : iv E1 -> iv E1 := match c_N kw with Some P => P | None => fun z => z end in
  let lim := if (c_itnlim kw =? 0)%Z then (3 * Z.of_nat (lp_n q))%Z else c_itnlim kw in
  selfadj M -> posdef M -> selfadj N -> posdef N -> (forall z, N (Ni z) = z) -> (forall z, M (Mi z) = z) ->
  (1 <= c_window kw)%nat -> c_wantvar kw = false -> shift_rank (fun y => M (A (N (At y)))) g r ->
  forall fuel cnt, (Z.to_nat lim < fuel)%nat ->
  forall o cnt', @cr_solve KK WV WU fuel q kw b cnt = Ok (o, cnt') ->
  exists p0 ps, length ps = go_itn o /\
    last (p0 :: ps) (izero, izero) = (go_x o : iv E1, go_r o : iv E2) /\
    (c_sit kw = true -> go_itp o = map fst (p0 :: ps) /\ go_itd o = map snd (p0 :: ps)) /\
    forall i x y, nth_error (p0 :: ps) i = Some (x, y) -> (r <= i)%nat -> iadd (A x) (Mi y) = b.
Proof.
  intros kw Ni Mi g r M N lim SM PM SN PN NI MI HW NV HR fuel cnt HF o c H.
  destruct (du_shift A At M Mi N b AD SM PM SN PN MI g r HR) as (ys & K & HY).
  destruct (rc_exact dv sq DV SQ E1 E2 q b (c_M kw) (c_N kw) SM PM SN PN Ni NI Mi MI AD fuel cnt kw eq_refl eq_refl HW NV HF
    _ ys K HY o c H) as (p0 & ps & H1 & H2 & H3 & H4).
  exists p0, ps. split; [exact H1|]. split; [exact H2|]. split; [exact H3|]. intros i x y Hi Li. apply (H4 i x y Hi). lia.
Qed.

Theorem C95_craigmr : forall (kw : cm_kw WV WU) (Mi : iv E2 -> iv E2) g r,
  let M : iv E2 -> iv E2 := match h_M kw with Some P => P | None => fun z => z end in
  let N : iv E1 -> iv E1 := match h_N kw with Some P => P | None => fun z => z end in
  let lim := match h_itnlim kw with None => Z.of_nat (Nat.min (lp_m q) (lp_n q)) | Some l => l end in
  selfadj M -> posdef M -> selfadj N -> posdef N -> (forall z, M (Mi z) = z) ->
  (1 <= h_window kw)%nat -> shift_rank (fun y => M (A (N (At y)))) g r ->
  forall fuel cnt, (Z.to_nat lim < fuel)%nat ->
  exists o cnt' (xs : list (iv E2)), @cm_solve KK WV WU fuel q kw b cnt = Ok (o, cnt') /\
    length xs = S (ho_itn o) /\ last xs izero = (ho_x o : iv E2) /\
    (h_sit kw = true -> ho_iters o = xs) /\
    forall i y, nth_error xs i = Some y -> (r + 1 <= i)%nat -> iadd (A (N (At y))) (Mi y) = b.
Proof.
  intros kw Mi g r M N lim SM PM SN PN MI HW HR fuel cnt HF.
  destruct (du_shift A At M Mi N b AD SM PM SN PN MI g r HR) as (ys & K & HY).
  destruct (rcm_exact dv sq DV SQ E1 E2 q b (h_M kw) (h_N kw) SM PM SN PN Mi MI AD fuel cnt kw eq_refl eq_refl HW HF
    _ ys K HY) as (o & c & xs & H & H1 & H2 & H3 & H4).
  exists o, c, xs. split; [exact H|]. split; [exact H1|]. split; [exact H2|]. split; [exact H3|].
  intros i y Hi Li. apply (H4 i y Hi). lia.
Qed.
End LsP.

(** The hypotheses: A = 3 on the line, P = N = M = 1/3 or 1/9. *)
Example ex_C95_inverse : let A (x : iv (Rn 1)) := @iscale (Rn 1) 3 x in let P (x : iv (Rn 1)) := @iscale (Rn 1) (1 / 3) x in
  let N (x : iv (Rn 1)) := @iscale (Rn 1) (1 / 9) x in
  lin A /\ lin P /\ selfadj A /\ selfadj P /\ posdef P /\ (forall z, A (P z) = z) /\
  adjoint A A /\ selfadj N /\ posdef N /\ shift_rank (fun z => N (A (A z))) 1 0.
Proof.
  assert (S : forall c, selfadj (fun x : iv (Rn 1) => @iscale (Rn 1) c x)).
  { intros c u w. rewrite ip_scale, ip_scalel. reflexivity. }
  assert (PD : forall c, 0 < c -> posdef (fun x : iv (Rn 1) => @iscale (Rn 1) c x)).
  { intros c C u Hu. rewrite ip_scale. apply Rmult_lt_0_compat; [exact C|].
    destruct (Rle_lt_or_eq_dec 0 (ip u u) (ip_pos u)) as [L|L]; [exact L|]. exfalso. apply Hu. apply ip_def. lra. }
  cbv zeta. split; [apply adjoint_lin with (At := fun x : iv (Rn 1) => @iscale (Rn 1) 3 x), S|].
  split; [apply adjoint_lin with (At := fun x : iv (Rn 1) => @iscale (Rn 1) (1 / 3) x), S|].
  split; [apply S|]. split; [apply S|]. split; [apply PD; lra|].
  split; [intro z; apply ip_ext; intro u; rewrite !ip_scale; lra|].
  split; [apply S|]. split; [apply S|]. split; [apply PD; lra|].
  apply id_shift. intro z. apply ip_ext. intro u. rewrite !ip_scale. lra.
Qed.

Print Assumptions C95_cgs.
Print Assumptions C95_bicgstab.
Print Assumptions C95_tfqmr.
Print Assumptions C95_minres.
Print Assumptions C95_lsqr.
Print Assumptions C95_lsmr.
Print Assumptions C95_craig.
Print Assumptions C95_craigmr.
