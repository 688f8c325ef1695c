(** Property C93: the number of iterations in exact arithmetic is bounded by the rank: of the matrix for
    LSQR, LSMR, CRAIG and CRAIG-MR, of its difference to a multiple of the identity for CG, MINRES, CGS,
    BiCGSTAB and TFQMR; in particular for systems with an L-BFGS matrix. *)
From Coq Require Import List Arith Lia Bool QArith ZArith Reals Lra Qreals.
From Verif Require Import Base Num KrylovPoly SpanMath ToolsModel CgModel CgProof PropCg KrylovModel KrylovProof KrylovStop KrylovTerm PropTerm MinresModel MinresProof
  PropMinres LsqrModel LsqrProof PropLsqr LsmrModel PropLsmr CraigModel PropCraig Precon PropPrecon
  Cheb RateMath PropRate PropRateLs RankMath LbfgsModel LbfgsRing LbfgsMath LbfgsProof Gauss PropLbfgs.
Import ListNotations.
Local Open Scope R_scope.

(** [B] differs from [g I] by an operator of rank at most [r]. *)
Definition shift_rank {E : IPS} (B : iv E -> iv E) (g : R) (r : nat) : Prop :=
  rank_le (fun z => isub (B z) (iscale g z)) r.

(** What these words mean: every value is a combination of [r] fixed vectors. *)
Theorem C93_rank : forall (E1 E2 : IPS) (A : iv E1 -> iv E2) r, rank_le A r <->
  exists U, (length U <= r)%nat /\ forall x, exists c : list R, length c = length U /\
    A x = fold_right iadd izero (map (fun p => iscale (fst p) (snd p)) (combine c U)).
Proof.
  intros E1 E2 A r. split; intros (U & L & H); exists U; (split; [exact L|]); intro x; specialize (H x).
  - remember (A x) as y. clear Heqy x. induction H as [|u v a Hu Hv (c & Lc & Ec)].
    + exists (repeat 0 (length U)). split; [apply repeat_length|].
      clear. induction U as [|u U IH]; cbn; [reflexivity|]. rewrite <- IH. veq.
    + subst v. clear Hv L. revert c Lc. induction U as [|w U IH]; [destruct Hu|]. intros [|c0 c] Lc; [discriminate|].
      injection Lc as Lc. destruct Hu as [<-|Hu].
      * exists (a + c0 :: c). split; [cbn; congruence|]. cbn. veq.
      * destruct (IH Hu c Lc) as (c' & Lc' & Ec'). exists (c0 :: c'). split; [cbn; congruence|]. cbn. rewrite <- Ec'. veq.
  - destruct H as (c & Lc & ->). revert c Lc. clear. induction U as [|u U IH]; intros [|c0 c] Lc; try discriminate; [apply sp_0|].
    injection Lc as Lc. cbn. apply sp_add; [now left|]. apply (span_mono U); [intros y Hy; now right|]. now apply IH.
Qed.

Lemma shift_kry_le : forall (E : IPS) (B : iv E -> iv E) v g r, lin B -> shift_rank B g r ->
  (forall k z, kry B v k z -> B z = izero -> z = izero) -> exists z, kry B v (S r) z /\ B z = v.
Proof.
  intros E B v g r LB (U & L & H) HI.
  destruct (low_kry B v LB (v :: U)) as (z & K & EZ); [apply (shift_kry B v g U H)|exact HI|].
  exists z. split; [|exact EZ]. revert K. apply lk_le; [exact LB|cbn; lia].
Qed.

(** ** CG. *)
Section Cg.
Variables (dv : R -> R -> R) (sq : R -> R) (E : IPS).
Notation KK := (exactK dv sq).
Notation WW := (exactV dv sq E).
Hypotheses (DV : dv_ok dv) (SQ : sq_ok sq).
Variables (q : kprob WW).
Notation A := (q_A q : iv E -> iv E).

Theorem C93_cg : forall (kw : cg_kw WW) (b : iv E) g r, selfadj A -> posdef A -> q_P q = None -> 0 <= (q_abstol q : R) ->
  k_sym kw = false -> shift_rank A g r ->
  let first := match k_guess kw with Some _ => 1 | None => 0 end%nat in
  let budget := match k_mmax kw with Some m => m | None => (2 * ilen b)%nat end in
  forall fuel o cnt o' cnt', cg_solve fuel q o b kw cnt = Ok (o', cnt') ->
  (g_nmv o' <= first + (r + 1))%nat /\ ((first + (r + 1) <= budget)%nat -> g_conv o' = true).
Proof.
  intros kw b g r SA PA NP AT NS HR first budget fuel o cnt o' cnt' H.
  set (x0 := match k_guess kw with Some g => g | None => izero end : iv E).
  destruct (shift_kry_le E A (isub b (A x0)) g r (adjoint_lin _ _ SA) HR) as (z & K & EZ).
  - intros k z _ Z. apply (posdef_inj E A z PA). rewrite Z, ip_zero. lra.
  - rewrite Nat.add_1_r. exact (cg_exact dv sq E q kw b DV SQ SA PA NP AT NS (S r) z K EZ fuel o cnt o' cnt' H).
Qed.

(** ** CGS, BiCGSTAB and TFQMR, with or without preconditioner. *)
Lemma opB_kdim : forall (kw : kkw WW) (b : iv E) g r, shift_rank (opB dv sq E q) g r ->
  kdim (BB dv sq E q) (rr0 dv sq E q b kw) (S r).
Proof.
  intros kw b g r (U & L & H) l HL I.
  pose proof (shift_kdim E (BB dv sq E q) (rr0 dv sq E q b kw) g U H l HL I). lia.
Qed.

Theorem C93_cgs : forall (kw : kkw WW) (b : iv E) g r, lin A -> (forall M, q_P q = Some M -> lin (M : iv E -> iv E)) ->
  0 <= (q_abstol q : R) -> shift_rank (opB dv sq E q) g r ->
  (2 * (r + 1) <= match w_mmax kw with Some m => m | None => 2 * ilen b end)%nat ->
  let r0 := isub b (A (x_init dv sq E kw)) in
  no_breakdown (opB dv sq E q) r0 (r + 1) ->
  forall fuel cnt o cnt', cgs_solve fuel q (b : vc WW) kw cnt = Ok (o, cnt') ->
  o_conv o = true /\ (KrylovModel.o_nmv o <= 2 * (r + 1))%nat /\
  inorm (isub b (A (KrylovModel.o_x o))) <= Rmax (q_abstol q) (q_reltol q * inorm r0).
Proof.
  intros kw b g r LA LM AT HR MX r0 NB fuel cnt o cnt' H. rewrite Nat.add_1_r in *.
  destruct (cgs_term dv sq E SQ DV q b kw LA LM (S r) fuel cnt o cnt' (opB_kdim kw b g r HR) NB AT MX H) as [H1 H2].
  split; [exact H1|]. split; [exact H2|].
  destruct (cgs_exact dv sq E SQ q b kw LA fuel cnt o cnt' H) as (_ & _ & H3). apply H3. exact H1.
Qed.

Theorem C93_bicgstab : forall (kw : kkw WW) (b : iv E) g r, lin A -> (forall M, q_P q = Some M -> lin (M : iv E -> iv E)) ->
  0 <= (q_abstol q : R) -> shift_rank (opB dv sq E q) g r ->
  (2 * (r + 1) <= match w_mmax kw with Some m => m | None => 2 * ilen b end)%nat ->
  let r0 := isub b (A (x_init dv sq E kw)) in
  no_breakdown (opB dv sq E q) r0 (r + 1) ->
  forall fuel cnt o cnt',
  (forall i s, bi_reach q (b : vc WW) kw cnt (S i) s -> b_fin s = false -> b_omega s <> 0 :> R) ->
  bi_solve fuel q (b : vc WW) kw cnt = Ok (o, cnt') ->
  o_conv o = true /\ (KrylovModel.o_nmv o <= Nat.max (match w_guess kw with Some _ => 1 | None => 0 end) (2 * (r + 1)))%nat /\
  inorm (isub b (A (KrylovModel.o_x o))) <= Rmax (q_abstol q) (q_reltol q * inorm r0).
Proof.
  intros kw b g r LA LM AT HR MX r0 NB fuel cnt o cnt' NO H. rewrite Nat.add_1_r in *.
  destruct (bi_term dv sq E SQ DV q b kw LA LM (S r) fuel cnt o cnt' (opB_kdim kw b g r HR) NB AT MX NO H) as [H1 H2].
  split; [exact H1|]. split; [exact H2|].
  destruct (bi_exact dv sq E SQ q b kw LA fuel cnt o cnt' H) as (_ & _ & _ & H3). apply H3. exact H1.
Qed.

Theorem C93_tfqmr : forall (kw : kkw WW) (b : iv E) g r, lin A -> (forall M, q_P q = Some M -> lin (M : iv E -> iv E)) ->
  shift_rank (opB dv sq E q) g r ->
  (2 * (r + 1) <= match w_mmax kw with Some m => m | None => 2 * ilen b end + 1)%nat ->
  let r0 := isub b (A (x_init dv sq E kw)) in
  let th := Rmax (q_abstol q) (q_reltol q * inorm r0) in
  0 < th -> no_breakdown (opB dv sq E q) r0 (r + 1) ->
  forall fuel cnt o cnt', tf_solve fuel q (b : vc WW) kw cnt = Ok (o, cnt') ->
  o_conv o = true /\ (KrylovModel.o_nmv o <= 2 * r + 1)%nat /\ inorm (isub b (A (KrylovModel.o_x o))) < th.
Proof.
  intros kw b g r LA LM HR MX r0 th TP NB fuel cnt o cnt' H. rewrite Nat.add_1_r in NB, MX.
  assert (TH : thr q (inorm (rr0 dv sq E q b kw) : sc KK) = th) by exact (th_is dv sq E q b kw).
  rewrite <- TH in TP.
  destruct (tf_term dv sq E SQ DV q b kw LA LM (S r) fuel cnt o cnt' (opB_kdim kw b g r HR) NB TP MX H) as (H1 & H2 & H3).
  split; [exact H1|]. split; [lia|]. rewrite TH in H3. exact H3.
Qed.
End Cg.

(** ** MINRES. *)
Theorem C93_minres : forall (dv : R -> R -> R) (sq : R -> R) (DV : dv_ok dv) (SQ : sq_ok sq) (E : IPS)
  (q : kprob (exactV dv sq E)) (kw : mr_kw (exactV dv sq E)) (b : iv E),
  let At (z : iv E) : iv E := isub (q_A q z : iv E) (iscale (m_shift kw) z) in
  let P : iv E -> iv E := match m_precon kw with Some P => P | None => fun z => z end in
  let pnorm (z : iv E) : R := sqrt (ip z (P z)) in
  selfadj (q_A q : iv E -> iv E) -> selfadj P -> posdef P ->
  (forall k z, kry (fun z => At (P z)) b k z -> @machine_eps (exactK dv sq) * pnorm z <= pnorm (At (P z))) ->
  forall g r, shift_rank (fun z => At (P z)) g r ->
  forall fuel hist cnt o cnt', @mr_solve _ (exactV dv sq E) fuel q hist b kw cnt = Ok (o, cnt') ->
  exists xs : list (iv E), length xs = u_itn o /\
    (u_hist o : list R) = hist ++ map (fun z => pnorm (isub b (At z))) xs /\
    (u_x o : iv E) = last xs izero /\
    (forall i z, nth_error xs i = Some z -> (r <= i)%nat -> At z = b).
Proof.
  intros dv sq DV SQ E q kw b At P pnorm SA SP PP SG g r (U & LU & HU) fuel hist cnt o cnt' H.
  assert (SAt : selfadj At) by (intros u w; unfold At; rewrite ip_sub, ip_subl, ip_scale, ip_scalel, (SA u w); reflexivity).
  destruct (mr_rank E At P b g U SAt SP HU) as (y & K & EY).
  - intros k z Kz Z. apply (posdef_inj E P z PP). specialize (SG k z Kz). rewrite Z in SG.
    unfold pnorm at 2 in SG. rewrite ip_zerol, sqrt_0 in SG.
    destruct (Rle_lt_dec (ip z (P z)) 0) as [L|L]; [exact L|exfalso].
    assert (0 < pnorm z) by (apply sqrt_lt_R0; exact L). pose proof (eps_pos dv sq) as EP.
    assert (0 < @machine_eps (exactK dv sq) * pnorm z) by (apply Rmult_lt_0_compat; assumption). lra.
  - destruct (rm_exact dv sq DV SQ E q kw b SA SP PP SG _ y K EY fuel hist cnt o cnt' H) as (xs & H1 & H2 & H3 & H4).
    exists xs. split; [exact H1|]. split; [exact H2|]. split; [exact H3|]. intros i z Hz Li. apply (H4 i z Hz). lia.
Qed.

(** ** Least squares: LSQR and LSMR stop after at most as many iterations as the rank (plus one for LSQR). *)
Section Ls.
Variables (dv : R -> R -> R) (sq : R -> R).
Hypotheses (DV : dv_ok dv) (SQ : sq_ok sq).
Variables E1 E2 : IPS.
Local Notation KK := (exactK dv sq).
Local Notation WV := (exactV dv sq E1).
Local Notation WU := (exactV dv sq E2).
Variables (q : lprob WV WU) (b : iv E2).
Let A : iv E1 -> iv E2 := lp_A q.
Let At : iv E2 -> iv E1 := lp_At q.
Hypothesis AD : adjoint A At.

Theorem C93_lsqr : forall (kw : ls_kw WV WU) (Ni : iv E1 -> iv E1) r,
  let M : iv E2 -> iv E2 := match l_M kw with Some P => P | None => fun z => z end in
  let N : iv E1 -> iv E1 := match l_N kw with Some P => P | None => fun z => z end in
  let d : R := l_damp kw in
  let grad (x : iv E1) : iv E1 := isub (At (M (isub b (A x)))) (iscale (d * d) (Ni x)) in
  let lim := if (l_itnlim kw =? 0)%Z then (3 * Z.of_nat (lp_n q))%Z else l_itnlim kw in
  selfadj M -> posdef M -> selfadj N -> posdef N -> (forall z, N (Ni z) = z) ->
  (1 <= l_window kw)%nat -> l_wantvar kw = false -> rank_le A r ->
  forall fuel cnt, (Z.to_nat lim < fuel)%nat ->
  exists o cnt' (l : list (iv E1)), @ls_solve KK WV WU fuel q kw b cnt = Ok (o, cnt') /\
    length l = o_itn o /\ (LsqrModel.o_x o : iv E1) = last l izero /\
    (l_sit kw = true -> (LsqrModel.o_iters o : list (iv E1)) = izero :: l) /\
    (forall i x, nth_error l i = Some x -> (r <= S i)%nat -> grad x = izero) /\
    (o_itn o <= r + 1)%nat /\ ((r <= o_itn o)%nat -> (o_Arnorm o : R) = 0).
Proof.
  intros kw Ni r M N d grad lim SM PM SN PN NI HW NV HR fuel cnt HF.
  destruct HR as (U & LU & HU).
  destruct (ls_rank A At M N Ni b d AD SM PM SN PN NI U HU) as (z & K & G0).
  destruct (rl_exact dv sq DV SQ E1 E2 q kw b SM PM SN PN Ni NI AD HW NV fuel cnt HF _ z K G0)
    as (o & c & l & H & H1 & H2 & H3 & H4).
  destruct (C76_lsqr dv sq DV SQ E1 E2 q kw b SM PM SN PN Ni NI AD HW NV fuel cnt HF)
    as (o2 & c2 & l2 & H' & _ & _ & _ & _ & _ & _ & _ & DM).
  rewrite H in H'. injection H' as <- <-.
  exists o, c, l. split; [exact H|]. split; [exact H1|]. split; [exact H2|]. split; [exact H3|].
  split; [intros i x Hx Li; apply (H4 i x Hx); lia|].
  apply DM. right. right. exists U. split; [exact LU|exact HU].
Qed.

Theorem C93_lsmr : forall (kw : lm_kw WV WU) (Ni : iv E1 -> iv E1) r,
  let M : iv E2 -> iv E2 := match m_M kw with Some P => P | None => fun z => z end in
  let N : iv E1 -> iv E1 := match m_N kw with Some P => P | None => fun z => z end in
  let d : R := m_damp kw in
  let grad (x : iv E1) : iv E1 := isub (At (M (isub b (A x)))) (iscale (d * d) (Ni x)) in
  let lim := match LsmrModel.m_itnlim kw with Some l => l | None => Z.of_nat (Nat.min (lp_m q) (lp_n q)) end in
  selfadj M -> posdef M -> selfadj N -> posdef N -> (forall z, N (Ni z) = z) ->
  (1 <= LsmrModel.m_window kw)%nat -> rank_le A r ->
  forall fuel cnt ob, (Z.to_nat lim < fuel)%nat ->
  forall o ob' cnt', @lm_solve KK WV WU fuel q kw ob b cnt = Ok (o, ob', cnt') -> At (M b) <> izero ->
  exists l : list (iv E1), length l = LsmrModel.r_itn o /\ (r_x o : iv E1) = last l izero /\
    (m_sit kw = true -> (a_iters ob' : list (iv E1)) = izero :: l) /\
    (forall i x, nth_error l i = Some x -> (r <= S i)%nat -> grad x = izero) /\
    (LsmrModel.r_itn o <= r)%nat /\ ((r <= LsmrModel.r_itn o)%nat -> grad (r_x o) = izero).
Proof.
  intros kw Ni r M N d grad lim SM PM SN PN NI HW HR fuel cnt ob HF o ob' c H NZ.
  destruct HR as (U & LU & HU).
  destruct (ls_rank A At M N Ni b d AD SM PM SN PN NI U HU) as (z & K & G0).
  destruct (rs_exact dv sq DV SQ E1 E2 q kw b SM PM SN PN Ni NI AD HW fuel cnt ob HF _ z K G0 o ob' c H NZ)
    as (l & H1 & H2 & H3 & H4).
  destruct (C77_lsmr dv sq DV SQ E1 E2 q kw b SM PM SN PN Ni NI AD HW fuel cnt ob HF o ob' c H NZ) as (l2 & X).
  exists l. split; [exact H1|]. split; [exact H2|]. split; [exact H3|].
  split; [intros i x Hx Li; apply (H4 i x Hx); lia|].
  repeat (match type of X with _ /\ _ => destruct X as [_ X] end).
  apply X. right. right. exists U. split; [exact LU|exact HU].
Qed.

Theorem C93_craig : forall (kw : cr_kw WV WU) (Ni : iv E1 -> iv E1) (Mi : iv E2 -> iv E2) r,
  let M : iv E2 -> iv E2 := match c_M kw with Some P => P | None => fun z => z end in
  let N : iv E1 -> iv E1 := match c_N kw with Some P => P | None => fun z => z end in
  let lim := if (c_itnlim kw =? 0)%Z then (3 * Z.of_nat (lp_n q))%Z else c_itnlim kw in
  selfadj M -> posdef M -> selfadj N -> posdef N -> (forall z, N (Ni z) = z) -> (forall z, M (Mi z) = z) ->
  (1 <= c_window kw)%nat -> c_wantvar kw = false -> rank_le A r ->
  forall fuel cnt, (Z.to_nat lim < fuel)%nat ->
  forall o cnt', @cr_solve KK WV WU fuel q kw b cnt = Ok (o, cnt') ->
  exists p0 ps, length ps = go_itn o /\
    last (p0 :: ps) (izero, izero) = (go_x o : iv E1, go_r o : iv E2) /\
    (c_sit kw = true -> go_itp o = map fst (p0 :: ps) /\ go_itd o = map snd (p0 :: ps)) /\
    forall i x y, nth_error (p0 :: ps) i = Some (x, y) -> (r <= i)%nat -> iadd (A x) (Mi y) = b.
Proof.
  intros kw Ni Mi r M N lim SM PM SN PN NI MI HW NV (U & LU & HU) fuel cnt HF o c H.
  destruct (du_rank A At M Mi N b AD SM PM SN PN MI U HU) as (ys & K & HY).
  destruct (rc_exact dv sq DV SQ E1 E2 q b (c_M kw) (c_N kw) SM PM SN PN Ni NI Mi MI AD fuel cnt kw eq_refl eq_refl HW NV HF
    _ ys K HY o c H) as (p0 & ps & H1 & H2 & H3 & H4).
  exists p0, ps. split; [exact H1|]. split; [exact H2|]. split; [exact H3|]. intros i x y Hi Li. apply (H4 i x y Hi). lia.
Qed.

Theorem C93_craigmr : forall (kw : cm_kw WV WU) (Mi : iv E2 -> iv E2) r,
  let M : iv E2 -> iv E2 := match h_M kw with Some P => P | None => fun z => z end in
  let N : iv E1 -> iv E1 := match h_N kw with Some P => P | None => fun z => z end in
  let lim := match h_itnlim kw with None => Z.of_nat (Nat.min (lp_m q) (lp_n q)) | Some l => l end in
  selfadj M -> posdef M -> selfadj N -> posdef N -> (forall z, M (Mi z) = z) ->
  (1 <= h_window kw)%nat -> rank_le A r ->
  forall fuel cnt, (Z.to_nat lim < fuel)%nat ->
  exists o cnt' (xs : list (iv E2)), @cm_solve KK WV WU fuel q kw b cnt = Ok (o, cnt') /\
    length xs = S (ho_itn o) /\ last xs izero = (ho_x o : iv E2) /\
    (h_sit kw = true -> ho_iters o = xs) /\
    forall i y, nth_error xs i = Some y -> (r + 1 <= i)%nat -> iadd (A (N (At y))) (Mi y) = b.
Proof.
  intros kw Mi r M N lim SM PM SN PN MI HW (U & LU & HU) fuel cnt HF.
  destruct (du_rank A At M Mi N b AD SM PM SN PN MI U HU) as (ys & K & HY).
  destruct (rcm_exact dv sq DV SQ E1 E2 q b (h_M kw) (h_N kw) SM PM SN PN Mi MI AD fuel cnt kw eq_refl eq_refl HW HF
    _ ys K HY) as (o & c & xs & H & H1 & H2 & H3 & H4).
  exists o, c, xs. split; [exact H|]. split; [exact H1|]. split; [exact H2|]. split; [exact H3|].
  intros i y Hi Li. apply (H4 i y Hi). lia.
Qed.
End Ls.

(** ** L-BFGS matrices with [m] pairs: a multiple of the identity plus a part of rank at most [2 m]. *)
Lemma Bof_rank : forall (E : IPS) b (ps : list (iv E * iv E)), shift_rank (Bof b ps) b (2 * length ps).
Proof.
  intros E b ps. induction ps as [|[s y] ps (U & L & H)] using rev_ind.
  - exists []. split; [cbn; lia|]. intro v. unfold Bof. cbn [fold_left].
    replace (isub (iscale b v) (iscale b v)) with (@izero E) by veq. apply sp_0.
  - set (B := Bof b ps) in *. exists (B s :: y :: U). split; [rewrite app_length; cbn; lia|]. intro v.
    rewrite of_snoc_B. fold B. cbn [Bupd].
    replace (isub (iadd (isub (B v) (iscale (ip (B s) v / ip s (B s)) (B s))) (iscale (ip y v / ip s y) y)) (iscale b v))
      with (iadd (iscale (- (ip (B s) v / ip s (B s))) (B s)) (iadd (iscale (ip y v / ip s y) y) (isub (B v) (iscale b v)))) by veq.
    apply sp_add; [now left|]. apply sp_add; [right; now left|].
    apply (span_mono U); [intros z Hz; right; now right|]. apply H.
Qed.
Lemma Hof_rank : forall (E : IPS) g (ps : list (iv E * iv E)), shift_rank (Hof g ps) g (2 * length ps).
Proof.
  intros E g ps. induction ps as [|[s y] ps (U & L & H)] using rev_ind.
  - exists []. split; [cbn; lia|]. intro v. unfold Hof. cbn [fold_left].
    replace (isub (iscale g v) (iscale g v)) with (@izero E) by veq. apply sp_0.
  - set (B := Hof g ps) in *. exists (s :: y :: U). split; [rewrite app_length; cbn; lia|]. intro v.
    rewrite of_snoc_H. fold B. cbn [Hupd]. set (w := isub v (iscale (/ ip s y * ip s v) y)).
    replace (isub (iadd (isub (B w) (iscale (/ ip s y * ip y (B w)) s)) (iscale (/ ip s y * ip s v) s)) (iscale g v))
      with (iadd (iscale (/ ip s y * ip s v - / ip s y * ip y (B w)) s)
             (iadd (iscale (- (g * (/ ip s y * ip s v))) y) (isub (B w) (iscale g w)))) by (unfold w; veq).
    apply sp_add; [now left|]. apply sp_add; [right; now left|].
    apply (span_mono U); [intros z Hz; right; now right|]. apply H.
Qed.

Section Lbfgs.
Variables (dv : R -> R -> R) (sq : R -> R) (E : IPS).
Notation KK := (exactK dv sq).
Notation WW := (exactV dv sq E).
Hypotheses (DV : dv_ok dv) (SQ : sq_ok sq).
Variable so : lsolve KK.
Hypothesis SO : solver_ok dv sq so.

(** An operator object of any of the three classes, after any sequence of calls. *)
Variables (k : kind) (np : nat) (sc : bool) (g0 : junk WW) (es : list (event WW)) (st : lb WW).
Hypothesis NP : (0 < np)%nat.
Hypothesis RUN : run (matvec so k) (lb_init np sc g0) es = Ok st.
Let m := length (memory st).

(** [A] is what its product returns. *)
Definition product_of (A : iv E -> iv E) : Prop :=
  forall v, exists st', matvec so k st v = Ok (A v : vc WW, st').

Lemma product_matrix : forall A, product_of A -> forall v, A v = matrix E k sc (pairs dv sq E np es) v.
Proof.
  intros A H v. destruct (H v) as (s1 & E1). destruct (product dv sq E DV SQ so SO k np sc g0 es st v NP RUN) as (s2 & E2).
  rewrite E1 in E2. now injection E2.
Qed.
Lemma memory_pairs : length (pairs dv sq E np es) = m.
Proof. unfold m. destruct (C28_memory _ _ so k np sc g0 es st NP RUN) as [-> _]. reflexivity. Qed.

Theorem C93_lbfgs_rank : forall A, product_of A -> exists g, shift_rank A g (2 * m) /\ selfadj A /\ posdef A /\ (m <= np)%nat.
Proof.
  intros A H. pose proof (product_matrix A H) as EM. rewrite <- memory_pairs.
  assert (G : hgood (matrix E k sc (pairs dv sq E np es))) by (apply matrix_good).
  assert (R : exists g, shift_rank (matrix E k sc (pairs dv sq E np es)) g (2 * length (pairs dv sq E np es))).
  { destruct k; cbn [matrix]; eexists; [apply Hof_rank|apply Bof_rank|apply Bof_rank]. }
  destruct R as (g & U & L & HU). exists g. split.
  { exists U. split; [exact L|]. intro z. rewrite EM. apply HU. }
  split; [intros u v; rewrite !EM; apply (hg_sym _ G)|].
  split; [intros u Hu; rewrite EM; apply (hg_pos _ G), Hu|].
  rewrite memory_pairs. unfold m. destruct (C28_memory _ _ so k np sc g0 es st NP RUN) as [_ ->]. apply Nat.le_min_l.
Qed.

(** CG, CGS, BiCGSTAB and TFQMR solve a system with such an operator in [2 m + 1] iterations, whatever
    the dimension. *)
Variables (q : kprob WW) (b : iv E).
Notation A := (q_A q : iv E -> iv E).
Hypothesis PO : product_of A.
Hypothesis QP : q_P q = None.

Theorem C93_lbfgs_cg : forall kw : cg_kw WW, 0 <= (q_abstol q : R) -> k_sym kw = false ->
  let first := match k_guess kw with Some _ => 1 | None => 0 end%nat in
  let budget := match k_mmax kw with Some m => m | None => (2 * ilen b)%nat end in
  forall fuel o cnt o' cnt', cg_solve fuel q o b kw cnt = Ok (o', cnt') ->
  (g_nmv o' <= first + (2 * m + 1))%nat /\ ((first + (2 * m + 1) <= budget)%nat -> g_conv o' = true).
Proof.
  intros kw AT NS. destruct (C93_lbfgs_rank A PO) as (g & HR & SA & PA & _).
  exact (C93_cg dv sq E DV SQ q kw b g (2 * m) SA PA QP AT NS HR).
Qed.

Theorem C93_lbfgs_others : forall kw : kkw WW, 0 <= (q_abstol q : R) ->
  (2 * (2 * m + 1) <= match w_mmax kw with Some m => m | None => 2 * ilen b end)%nat ->
  let r0 := isub b (A (x_init dv sq E kw)) in
  let th := Rmax (q_abstol q) (q_reltol q * inorm r0) in
  forall fuel cnt o cnt',
  (cgs_solve fuel q (b : vc WW) kw cnt = Ok (o, cnt') \/ bi_solve fuel q (b : vc WW) kw cnt = Ok (o, cnt') \/
   0 < th /\ tf_solve fuel q (b : vc WW) kw cnt = Ok (o, cnt')) ->
  o_conv o = true /\ (KrylovModel.o_nmv o <= 2 * (2 * m + 1))%nat /\ inorm (isub b (A (KrylovModel.o_x o))) <= th.
Proof.
  intros kw AT MX r0 th fuel cnt o cnt' H. destruct (C93_lbfgs_rank A PO) as (g & HR & SA & PA & _).
  assert (LA : lin A) by exact (adjoint_lin _ _ SA).
  assert (EB : forall v, opB dv sq E q v = A v) by (intro v; unfold opB; rewrite QP; reflexivity).
  assert (HB : shift_rank (opB dv sq E q) g (2 * m)).
  { destruct HR as (U & L & HU). exists U. split; [exact L|]. intro z. rewrite EB. apply HU. }
  assert (NB : no_breakdown (opB dv sq E q) r0 (2 * m + 1)).
  { apply C72_spd_no_breakdown; [split; intros; rewrite !EB; apply LA|intros u v; rewrite !EB; apply SA|
      intros u Hu; rewrite EB; now apply PA]. }
  assert (LM : forall M, q_P q = Some M -> lin (M : iv E -> iv E)) by (rewrite QP; discriminate).
  destruct H as [H|[H|[TP H]]].
  - exact (C93_cgs dv sq E DV SQ q kw b g (2 * m) LA LM AT HB MX NB fuel cnt o cnt' H).
  - destruct (C93_bicgstab dv sq E DV SQ q kw b g (2 * m) LA LM AT HB MX NB fuel cnt o cnt') as (H1 & H2 & H3).
    + apply (C73_omega dv sq E q b kw DV SQ LA AT). intros v Hv. rewrite EB, ip_sym. apply Rgt_not_eq, PA, Hv.
    + exact H.
    + split; [exact H1|]. split; [|exact H3]. destruct (w_guess kw); lia.
  - destruct (C93_tfqmr dv sq E DV SQ q kw b g (2 * m) LA LM HB ltac:(lia) TP NB fuel cnt o cnt' H) as (H1 & H2 & H3).
    split; [exact H1|]. split; [lia|]. apply Rlt_le, H3.
Qed.
End Lbfgs.

(** ** The hypotheses hold of [I + w w'] and of [c a'] in any dimension, and of an L-BFGS operator with
    one pair. *)
Section Ex.
Variable n : nat.
Notation V := (iv (Rn n)).
Notation K := (exactK Rdiv sqrt).
Notation W := (exactV Rdiv sqrt (Rn n)).
Variables (w b : V).
Definition onew (z : V) : V := iadd z (iscale (ip w z) w).
Lemma onew_sa : selfadj onew.
Proof. intros u v. unfold onew. rewrite ip_add, ip_addl, ip_scale, ip_scalel, (ip_sym u w). ring. Qed.
Lemma onew_lower : forall z, 1 * ip z z <= ip z (onew z).
Proof. intro z. unfold onew. rewrite ip_add, ip_scale, (ip_sym z w). pose proof (Rle_0_sqr (ip w z)) as Q. unfold Rsqr in Q. lra. Qed.
Lemma onew_pd : posdef onew.
Proof. intros z Nz. pose proof (onew_lower z). pose proof (ip_nz z Nz). lra. Qed.
Lemma onew_rank : shift_rank onew 1 1.
Proof.
  exists [w]. split; [cbn; lia|]. intro z.
  replace (isub (onew z) (iscale 1 z)) with (iadd (iscale (ip w z) w) izero)
    by (apply (@ip_ext (Rn n)); intro x; unfold onew; ipx; ring).
  apply sp_add; [now left|apply sp_0].
Qed.
Definition onep : kprob W := @mkprob K W n n (onew : vc W -> vc W) None 0 0 (fun x => x) [].
(** CG makes at most two iterations, and converges if [n > 0]. *)
Example ex_C93_cg : (1 <= n)%nat -> exists o' cnt', cg_solve (2 * n + 1) onep cg_new (b : vc W) cg_kw0 0 = Ok (o', cnt') /\
  (g_nmv o' <= 2)%nat /\ g_conv o' = true.
Proof.
  intro N1. destruct (cg_solve_term onep cg_kw0 b (2 * n + 1) cg_new 0) as (o' & c & H); [cbn; lia|].
  exists o', c. split; [exact H|].
  destruct (C93_cg Rdiv sqrt (Rn n) Rdiv_ok sqrt_ok onep cg_kw0 b 1 1 onew_sa onew_pd eq_refl ltac:(cbn; lra) eq_refl onew_rank
    _ _ _ _ _ H) as [H1 H2].
  split; [exact H1|]. apply H2. cbn. lia.
Qed.
(** MINRES. *)
Example ex_C93_minres : exists o cnt', @mr_solve K W (n * 5 + 1) onep [] b (@mr_kw0 K W (fun _ => 0 : sc K)) 0 = Ok (o, cnt') /\
  ((2 <= u_itn o)%nat -> isub (onew (u_x o)) (iscale 0 (u_x o : V)) = b).
Proof.
  set (kw := @mr_kw0 K W (fun _ => 0 : sc K)).
  destruct (C47_stopping K W onep kw b (n * 5 + 1) [] 0) as (o & c & H & _); [cbn; lia|cbn; lia|].
  exists o, c. split; [exact H|]. intro L.
  assert (SI : selfadj (fun z : V => z)) by (intros u v; reflexivity).
  assert (PI : posdef (fun z : V => z)) by (intros u NZ; apply ip_nz; exact NZ).
  assert (ER : forall z : V, isub (onew z) (iscale 0 z) = onew z) by (intro z; apply (@ip_ext (Rn n)); intro x; ipx; ring).
  destruct (fun SG HR => C93_minres Rdiv sqrt Rdiv_ok sqrt_ok (Rn n) onep kw b onew_sa SI PI SG 1 1%nat HR _ _ _ _ _ H)
    as (xs & H1 & _ & H3 & H4).
  - intros k z _. apply (rm_lower Rdiv sqrt (Rn n) onep kw SI PI (@machine_eps K) (eps_pos Rdiv sqrt)).
    intro y. change (@machine_eps K * ip y y <= ip y (isub (onew y) (iscale 0 y))). rewrite ER.
    eapply Rle_trans; [|apply onew_lower]. apply Rmult_le_compat_r; [apply ip_pos|]. rewrite eps_val. lra.
  - destruct onew_rank as (U & L1 & HU). exists U. split; [exact L1|]. intro z.
    change (span U (isub (isub (onew z) (iscale 0 z)) (iscale 1 z))). rewrite ER. apply HU.
  - destruct xs as [|x xs _] using rev_ind; [cbn in H1; lia|].
    rewrite last_last in H3. change ((u_x o : V) = x) in H3. rewrite H3.
    apply (H4 (length xs) x); [|rewrite app_length in H1; cbn [length] in H1; change (@length (iv (Rn n)) xs + 1 = u_itn o)%nat in H1; lia].
    rewrite nth_error_app2, Nat.sub_diag by lia. reflexivity.
Qed.
(** A matrix of rank one: LSQR stops after two iterations at the latest. *)
Variables (m : nat) (c : iv (Rn m)).
Definition c1A (x : V) : iv (Rn m) := iscale (ip w x) c.
Definition c1At (y : iv (Rn m)) : V := iscale (ip c y) w.
Lemma c1_ad : adjoint c1A c1At.
Proof. intros u v. unfold c1A, c1At. rewrite ip_scale, ip_scalel, (ip_sym u c). ring. Qed.
Lemma c1_rank : rank_le c1A 1.
Proof.
  exists [c]. split; [cbn; lia|]. intro x. unfold c1A.
  replace (iscale (ip w x) c) with (iadd (iscale (ip w x) c) izero) by (apply (@ip_ext (Rn m)); intro z; ipx; ring).
  apply sp_add; [now left|apply sp_0].
Qed.
Notation Wm := (exactV Rdiv sqrt (Rn m)).
Definition c1q : lprob W Wm := @mklprob K W Wm m n (c1A : vc W -> vc Wm) (c1At : vc Wm -> vc W).
Definition c1kw : ls_kw W Wm := @mklskw K W Wm 0%Z (0 : sc K) None None 0 0 0 false 0 true true 5 (fun _ => 0 : sc K) (fun _ => false).
Example ex_C93_lsqr : forall y : iv (Rn m), exists o cnt', @ls_solve K W Wm (3 * n + 1) c1q c1kw y 0 = Ok (o, cnt') /\ (o_itn o <= 2)%nat.
Proof.
  intro y.
  destruct (C93_lsqr Rdiv sqrt Rdiv_ok sqrt_ok (Rn n) (Rn m) c1q y c1_ad c1kw (fun z => z) 1 (id_sa _) (id_pd _) (id_sa _) (id_pd _)
    (fun z => eq_refl) ltac:(cbn; lia) eq_refl c1_rank (3 * n + 1) 0%nat) as (o & c' & l & H & _ & _ & _ & _ & H5 & _);
    [cbn [c1kw l_itnlim c1q lp_n]; rewrite Z.eqb_refl; lia|].
  exists o, c'. split; [exact H|exact H5].
Qed.
(** An L-BFGS operator of memory 1: CG needs at most three iterations. *)
Example ex_C93_lbfgs : forall k sc (g0 : junk W) es, (2 <= n)%nat -> exists st, run (matvec so2 k) (lb_init 1 sc g0) es = Ok st /\
  exists A, product_of Rdiv sqrt (Rn n) so2 k st A /\
  let q := @mkprob K W n n (A : vc W -> vc W) None 0 0 (fun x => x) [] in
  exists o' cnt', cg_solve (2 * n + 1) q cg_new (b : vc W) cg_kw0 0 = Ok (o', cnt') /\ (g_nmv o' <= 3)%nat /\ g_conv o' = true.
Proof.
  intros k sc g0 es N2.
  destruct (C28_total Rdiv sqrt (Rn n) Rdiv_ok sqrt_ok so2 SO2 k 1 sc g0 es ltac:(lia)) as (st & H).
  exists st. split; [exact H|]. set (A := matrix (Rn n) k sc (pairs Rdiv sqrt (Rn n) 1 es)). exists A.
  assert (PO : product_of Rdiv sqrt (Rn n) so2 k st A).
  { intro v. exact (product Rdiv sqrt (Rn n) Rdiv_ok sqrt_ok so2 SO2 k 1 sc g0 es st v ltac:(lia) H). }
  split; [exact PO|]. intro q.
  destruct (cg_solve_term q cg_kw0 b (2 * n + 1) cg_new 0) as (o' & c' & H'); [cbn; lia|].
  exists o', c'. split; [exact H'|].
  destruct (C93_lbfgs_cg Rdiv sqrt (Rn n) Rdiv_ok sqrt_ok so2 SO2 k 1 sc g0 es st ltac:(lia) H q b PO eq_refl cg_kw0
    ltac:(cbn; lra) eq_refl _ _ _ _ _ H') as [H1 H2].
  destruct (C93_lbfgs_rank Rdiv sqrt (Rn n) Rdiv_ok sqrt_ok so2 SO2 k 1 sc g0 es st ltac:(lia) H A PO) as (_ & _ & _ & _ & L).
  split; [eapply Nat.le_trans; [exact H1|]; cbn [cg_kw0 k_guess]; lia|]. apply H2. cbn [cg_kw0 k_guess k_mmax ilen Rn]. lia.
Qed.
End Ex.

Print Assumptions C93_rank.
Print Assumptions C93_cg.
Print Assumptions C93_cgs.
Print Assumptions C93_bicgstab.
Print Assumptions C93_tfqmr.
Print Assumptions C93_minres.
Print Assumptions C93_lsqr.
Print Assumptions C93_lsmr.
Print Assumptions C93_craig.
Print Assumptions C93_craigmr.
Print Assumptions C93_lbfgs_rank.
Print Assumptions C93_lbfgs_cg.
Print Assumptions C93_lbfgs_others.
