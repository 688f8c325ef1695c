(** Property C106: L-BFGS operators filled with conjugate steps, for example those of CG.  Every stored pair
    satisfies its secant equation; with as many pairs as variables the operator is the inverse; as a
    preconditioner for the same matrix it leaves a multiple of the identity up to the missing rank, so that
    MINRES, CGS, BiCGSTAB and TFQMR need correspondingly fewer iterations.
    lbfgs.py:70-254, cg.py:46-165, minres.py:115-410, cgs.py:40-123, bicgstab.py:43-151, tfqmr.py:39-159. *)
From Coq Require Import List Arith Lia Bool QArith ZArith Reals Lra Qreals.
From Verif Require Import Base Num KrylovPoly SpanMath RankMath ToolsModel CgModel CgProof PropCg KrylovModel KrylovProof KrylovStop
  KrylovTerm PropTerm MinresModel MinresProof PropMinres Precon PropPrecon MinresStop PropMinresStop PropRank
  LbfgsModel LbfgsRing LbfgsMath LbfgsProof Gauss PropLbfgs LbfgsConj.
Import ListNotations.
Local Open Scope R_scope.

(** All pairs handed to [store], accepted or not, in order. *)
Definition stored {K : Scal} {W : Vs K} (es : list (event W)) : list (vc W * vc W) :=
  flat_map (fun e => match e with EStore s y => [(s, y)] | _ => [] end) es.

Section Any.
Variables (dv : R -> R -> R) (sq : R -> R) (E : IPS).
Notation KK := (exactK dv sq).
Notation WW := (exactV dv sq E).
Notation V := (iv E).
Hypotheses (DV : dv_ok dv) (SQ : sq_ok sq).
Variable so : lsolve KK.
Hypothesis SO : solver_ok dv sq so.
Variable A : V -> V.
Hypothesis SA : selfadj A.

(** An operator object of any of the three classes, after any sequence of calls in which the stored pairs
    are [(s, A s)] with mutually conjugate [s]. *)
Variables (k : kind) (np : nat) (sc : bool) (g0 : junk WW) (es : list (event WW)) (st : lb WW).
Hypothesis NP : (0 < np)%nat.
Hypothesis RUN : run (matvec so k) (lb_init np sc g0) es = Ok st.
Hypothesis IMG : forall p : V * V, In p (stored es) -> snd p = A (fst p).
Hypothesis CNJ : ForallOrdPairs (fun p p' : V * V => ip (fst p) (A (fst p')) = 0) (stored es).

Lemma cj_snoc : forall (ps : list (V * V)) p, conj_pairs E A ps -> snd p = A (fst p) ->
  (forall p', In p' ps -> ip (fst p') (A (fst p)) = 0) -> conj_pairs E A (ps ++ [p]).
Proof.
  intros ps p [F O] EP HP. split; [apply Forall_app; split; [exact F|constructor; [exact EP|constructor]]|].
  clear F EP. induction O as [|p0 ps H0 O IH]; cbn; [constructor; constructor|].
  constructor; [|apply IH; intros p' Hp'; apply HP; now right].
  apply Forall_app. split; [exact H0|]. constructor; [|constructor]. apply HP. now left.
Qed.

Lemma cj_accepted : conj_pairs E A (accepted es : list (V * V)) /\ incl (accepted es) (stored es).
Proof.
  clear RUN. revert IMG CNJ. induction es as [|e l IH] using rev_ind; intros IM CN.
  - split; [split; constructor|intros p []].
  - unfold accepted, stored in *. rewrite fold_left_app, flat_map_app in *. cbn [fold_left flat_map] in *. rewrite app_nil_r in *.
    fold (accepted l) in *. fold (stored l) in *.
    assert (IM1 : forall p : V * V, In p (stored l) -> snd p = A (fst p)) by (intros p Hp; apply IM, in_or_app; now left).
    destruct e as [s y|g|v]; cbn [accept] in *.
    + destruct (FOP_snoc _ _ _ _ CN) as [CN1 CN2]. destruct (IH IM1 CN1) as [I1 I2].
      destruct (sleb (vdot s y) threshold).
      * split; [exact I1|]. intros p Hp. apply in_or_app. left. now apply I2.
      * split.
        -- apply cj_snoc; [exact I1|apply IM, in_or_app; right; now left|].
           intros p' Hp'. rewrite Forall_forall in CN2. apply (CN2 p'), I2, Hp'.
        -- intros p Hp. apply in_app_or in Hp. apply in_or_app. destruct Hp as [Hp|Hp]; [left; now apply I2|now right].
    + split; [split; constructor|intros p []].
    + rewrite app_nil_r in *. apply IH; assumption.
Qed.

Lemma cj_memory : (memory st : list (V * V)) = pairs dv sq E np es /\ conj_pairs E A (pairs dv sq E np es) /\
  Forall (@curved E) (pairs dv sq E np es).
Proof.
  destruct (C28_memory _ _ so k np sc g0 es st NP RUN) as [EM _]. split; [exact EM|].
  split; [|apply (lastn_curved dv sq E np es)].
  destruct cj_accepted as [[F O] _]. unfold pairs, lastn. set (a := accepted es) in *. set (j := (length a - np)%nat).
  rewrite <- (firstn_skipn j a) in F, O. apply Forall_app in F. destruct F as [_ F]. split; [exact F|].
  revert O. generalize (firstn j a). intro l. induction l as [|p l IH]; cbn; intro O; [exact O|]. inversion O; subst. now apply IH.
Qed.

Lemma cj_product : forall v : V, exists st', matvec so k st v = Ok (matrix E k sc (pairs dv sq E np es) v : vc WW, st').
Proof. intro v. exact (product dv sq E DV SQ so SO k np sc g0 es st v NP RUN). Qed.

(** Every retained pair satisfies its secant equation (C31 has this for the newest pair only). *)
Theorem C106_secant : forall s y : V, In (s, y) (memory st) ->
  (k = KInverse -> exists st', matvec so k st y = Ok (s : vc WW, st')) /\
  (k <> KInverse -> exists st', matvec so k st s = Ok (y : vc WW, st')).
Proof.
  intros s y H. destruct cj_memory as (EM & CJ & CU). rewrite EM in H. set (ps := pairs dv sq E np es) in *.
  pose proof (gam_pos E sc ps CU) as G.
  assert (HH : forall g, 0 < g -> Hof g ps y = s) by (intros g Hg; exact (H_hered E A SA g ps Hg CU CJ (s, y) H)).
  split; intro HK.
  - destruct (cj_product y) as (st' & X). exists st'. rewrite X. fold ps. subst k. cbn [matrix]. now rewrite (HH _ G).
  - destruct (cj_product s) as (st' & X). exists st'. rewrite X. fold ps.
    replace (matrix E k sc ps s) with y; [reflexivity|].
    destruct k; [contradiction| |]; cbn [matrix].
    + pose proof (pg_BH _ _ (of_good 1 ps Rlt_0_1 CU) y) as B. rewrite (HH _ Rlt_0_1), Rinv_1 in B. now symmetry.
    + pose proof (pg_BH _ _ (of_good _ ps G CU) y) as B. rewrite (HH _ G) in B. now symmetry.
Qed.
End Any.

(** ** In [n] variables. *)
Section Rn.
Variables (dv : R -> R -> R) (sq : R -> R) (n : nat).
Notation E := (Rn n).
Notation KK := (exactK dv sq).
Notation WW := (exactV dv sq E).
Notation V := (iv E).
Hypotheses (DV : dv_ok dv) (SQ : sq_ok sq).
Variable so : lsolve KK.
Hypothesis SO : solver_ok dv sq so.
Variable A : V -> V.
Hypothesis SA : selfadj A.
Variables (k : kind) (np : nat) (sc : bool) (g0 : junk WW) (es : list (event WW)) (st : lb WW).
Hypothesis NP : (0 < np)%nat.
Hypothesis RUN : run (matvec so k) (lb_init np sc g0) es = Ok st.
Hypothesis IMG : forall p : V * V, In p (stored es) -> snd p = A (fst p).
Hypothesis CNJ : ForallOrdPairs (fun p p' : V * V => ip (fst p) (A (fst p')) = 0) (stored es).
Let m := length (memory st).

(** At most [n] pairs can be retained. *)
Theorem C106_count : (m <= n)%nat.
Proof.
  destruct (cj_memory dv sq E so A k np sc g0 es st NP RUN IMG CNJ) as (EM & CJ & CU).
  destruct (cp_indep E A SA _ CU CJ) as [I1 _]. pose proof (indep_dim n (Rn_dim n) _ I1) as L. rewrite map_length, <- EM in L. exact L.
Qed.

(** The product [H] of an inverse operator agrees with the inverse of [A] up to rank [n - m]. *)
Theorem C106_rank : k = KInverse -> forall H : V -> V, product_of dv sq E so k st H ->
  selfadj H /\ posdef H /\
  shift_rank (fun z => H (A z)) 1 (n - m) /\ shift_rank (fun z => A (H z)) 1 (n - m).
Proof.
  intros HK H PO. destruct (cj_memory dv sq E so A k np sc g0 es st NP RUN IMG CNJ) as (EM & CJ & CU).
  pose proof (product_matrix dv sq E DV SQ so SO k np sc g0 es st NP RUN H PO) as HM. rewrite HK in HM. cbn [matrix] in HM.
  unfold m. rewrite EM. set (ps := pairs dv sq E np es) in *. pose proof (gam_pos E sc ps CU) as G.
  destruct (of_good _ ps G CU) as [[_ HS HP] _ _ _]. destruct (cp_indep E A SA ps CU CJ) as [I1 I2].
  destruct (Rn_span n) as (X & SX).
  split; [intros u v; rewrite !HM; apply HS|]. split; [intros u Nu; rewrite HM; now apply HP|].
  split.
  - destruct (complement E n X (Rn_dim n) SX _ I2) as (U & LU & HU). exists U. rewrite map_length in LU. split; [exact LU|].
    intro z. apply HU. intros u Hu. rewrite HM.
    replace (iscale 1 z) with z by veq. exact (HA_perp E A SA _ ps G CU CJ z u Hu).
  - destruct (complement E n X (Rn_dim n) SX _ I1) as (U & LU & HU). exists U. rewrite map_length in LU. split; [exact LU|].
    intro z. apply HU. intros u Hu. rewrite HM.
    replace (iscale 1 z) with z by veq. exact (AH_perp E A SA _ ps G CU CJ z u Hu).
Qed.

Lemma rank0_id : forall F : V -> V, shift_rank F 1 0 -> forall z, F z = z.
Proof.
  intros F (U & LU & HU) z. destruct U; [|cbn in LU; lia]. specialize (HU z).
  assert (Z : isub (F z) (iscale 1 z) = izero).
  { remember (isub (F z) (iscale 1 z)) as w. clear Heqw. induction HU as [|x w a Hx]; [reflexivity|destruct Hx]. }
  apply (@ip_ext (Rn n)). intro w. apply (f_equal (ip w)) in Z. revert Z. ipx. lra.
Qed.

(** With [n] pairs the inverse operator is the inverse of [A], the other two are [A]. *)
Theorem C106_inverse : m = n ->
  (k = KInverse -> forall x : V, (exists st', matvec so k st (A x) = Ok (x : vc WW, st')) /\
     exists y, (exists st', matvec so k st x = Ok (y : vc WW, st')) /\ A y = x) /\
  (k <> KInverse -> forall x : V, exists st', matvec so k st x = Ok (A x : vc WW, st')).
Proof.
  intro MN. destruct (cj_memory dv sq E so A k np sc g0 es st NP RUN IMG CNJ) as (EM & CJ & CU).
  unfold m in MN. rewrite EM in MN. set (ps := pairs dv sq E np es) in *.
  assert (PR : forall v : V, exists st', matvec so k st v = Ok (matrix E k sc ps v : vc WW, st'))
    by (intro v; exact (product dv sq E DV SQ so SO k np sc g0 es st v NP RUN)).
  destruct (cp_indep E A SA ps CU CJ) as [I1 I2]. destruct (Rn_span n) as (X & SX).
  assert (INV : forall g, 0 < g -> (forall x, Hof g ps (A x) = x) /\ forall x, A (Hof g ps x) = x).
  { intros g G. destruct (complement E n X (Rn_dim n) SX _ I2) as (U & LU & HU).
    destruct (complement E n X (Rn_dim n) SX _ I1) as (U' & LU' & HU'). 
    assert (L1 : length (map fst ps) = n) by (rewrite map_length; exact MN).
    assert (L2 : length (map snd ps) = n) by (rewrite map_length; exact MN). rewrite L2 in LU. rewrite L1 in LU'.
    split; [apply (rank0_id (fun x => Hof g ps (A x)))|apply (rank0_id (fun x => A (Hof g ps x)))].
    - exists U. split; [lia|]. intro z. apply HU. intros u Hu.
      replace (iscale 1 z) with z by veq. exact (HA_perp E A SA _ ps G CU CJ z u Hu).
    - exists U'. split; [lia|]. intro z. apply HU'. intros u Hu.
      replace (iscale 1 z) with z by veq. exact (AH_perp E A SA _ ps G CU CJ z u Hu). }
  pose proof (gam_pos E sc ps CU) as G. split.
  - intros HK x. destruct (INV _ G) as [H1 H2]. split.
    + destruct (PR (A x)) as (st' & Q). exists st'. rewrite Q. rewrite HK. cbn [matrix]. now rewrite H1.
    + exists (Hof (gam E sc ps) ps x). split; [|apply H2]. destruct (PR x) as (st' & Q). exists st'. rewrite Q, HK. reflexivity.
  - intros HK x. destruct (PR x) as (st' & Q). exists st'. rewrite Q.
    replace (matrix E k sc ps x) with (A x); [reflexivity|]. destruct k; [contradiction| |]; cbn [matrix].
    + destruct (INV _ Rlt_0_1) as [H1 _]. rewrite <- (pg_BH _ _ (of_good 1 ps Rlt_0_1 CU) (A x)), H1, Rinv_1. reflexivity.
    + destruct (INV _ G) as [H1 _]. rewrite <- (pg_BH _ _ (of_good _ ps G CU) (A x)), H1. reflexivity.
Qed.

(** MINRES with the inverse operator as preconditioner for [A = B - shift I] makes at most [n - m + 1] iterations
    (unless [b] is an eigenvector as far as the code can tell, C66). *)
Theorem C106_minres : k = KInverse -> forall (q : kprob WW) (kw : mr_kw WW) (b : V) (H : V -> V),
  product_of dv sq E so k st H -> m_precon kw = Some (H : vc WW -> vc WW) ->
  selfadj (q_A q : V -> V) -> (forall z : V, A z = isub (q_A q z : V) (iscale (m_shift kw) z)) -> 0 <= (m_rtol kw : R) ->
  let pnorm (z : V) : R := sqrt (ip z (H z)) in
  let u := iscale (/ pnorm b) b in
  10 * @machine_eps KK * pnorm b < pnorm (isub (A (H u)) (iscale (ip (H u) (A (H u))) u)) ->
  (forall z, @machine_eps KK * pnorm z <= pnorm (A (H z))) ->
  forall fuel hist cnt o cnt', @mr_solve KK WW fuel q hist b kw cnt = Ok (o, cnt') -> (u_itn o <= n - m + 1)%nat.
Proof.
  intros HK q kw b H PO HP SB EA RT pnorm u NE SG fuel hist cnt o cnt' RM.
  destruct (C106_rank HK H PO) as (SH & PH & _ & (U & LU & HU)).
  apply (fun S1 S2 S3 S4 S5 => C93_minres_stops dv sq DV SQ E q kw b SB S1 S2 RT S3 S4 1 (n - m) S5 fuel hist cnt o cnt' RM).
  - rewrite HP. exact SH.
  - rewrite HP. exact PH.
  - rewrite HP. fold u pnorm. cbn beta. revert NE. subst u pnorm. cbn beta. rewrite !EA. exact (fun X => X).
  - rewrite HP. intros j z _. cbn beta. rewrite <- EA. exact (SG z).
  - rewrite HP. exists U. split; [exact LU|]. intro z. cbn beta. rewrite <- EA. apply HU.
Qed.

(** The same for CGS, BiCGSTAB and TFQMR, which solve [(A H) z = b]: [n - m + 1] iterations of two products each,
    unless they break down; with [n] pairs one iteration, and no breakdown is possible. *)
Theorem C106_krylov : k = KInverse -> forall (q : kprob WW) (kw : kkw WW) (b : V) (H : V -> V),
  product_of dv sq E so k st H -> q_P q = Some (H : vc WW -> vc WW) -> (forall z : V, q_A q z = A z) ->
  0 <= (q_abstol q : R) -> let r := (n - m)%nat in
  (2 * (r + 1) <= match w_mmax kw with Some l => l | None => 2 * ilen b end)%nat ->
  let r0 := isub b (A (x_init dv sq E kw)) in
  let th := Rmax (q_abstol q) (q_reltol q * inorm r0) in
  (m = n \/ no_breakdown (fun z => A (H z)) r0 (r + 1)) ->
  forall fuel cnt o cnt',
  (cgs_solve fuel q (b : vc WW) kw cnt = Ok (o, cnt') \/
   (m = n \/ forall i s, bi_reach q (b : vc WW) kw cnt (S i) s -> b_fin s = false -> b_omega s <> 0 :> R) /\
     bi_solve fuel q (b : vc WW) kw cnt = Ok (o, cnt') \/
   0 < th /\ tf_solve fuel q (b : vc WW) kw cnt = Ok (o, cnt')) ->
  o_conv o = true /\ (KrylovModel.o_nmv o <= 2 * (r + 1))%nat /\ inorm (isub b (A (KrylovModel.o_x o))) <= th.
Proof.
  intros HK q kw b H PO HP EA AT r MX r0 th NB fuel cnt o cnt' RN.
  destruct (C106_rank HK H PO) as (SH & PH & _ & (U & LU & HU)).
  assert (EB : forall v, opB dv sq E q v = A (H v)) by (intro v; unfold opB; rewrite HP; apply EA).
  assert (LA : lin (q_A q : V -> V)).
  { pose proof (adjoint_lin _ _ SA) as [L1 L2]. split; intros; rewrite !EA; [apply L1|apply L2]. }
  assert (LM : forall M, q_P q = Some M -> lin (M : V -> V)).
  { intros M HM. rewrite HP in HM. injection HM as <-. exact (adjoint_lin _ _ SH). }
  assert (HB : shift_rank (opB dv sq E q) 1 r) by (exists U; split; [exact LU|]; intro z; rewrite EB; apply HU).
  assert (ID : m = n -> forall v, opB dv sq E q v = v).
  { intros MN. apply rank0_id. replace 0%nat with r by (unfold r; rewrite MN; lia). exact HB. }
  assert (R0 : isub b (q_A q (x_init dv sq E kw) : V) = r0) by (unfold r0; now rewrite EA).
  assert (NB' : no_breakdown (opB dv sq E q) (isub b (q_A q (x_init dv sq E kw))) (r + 1)).
  { rewrite R0. destruct NB as [MN|NB].
    - apply C72_spd_no_breakdown; [split; intros; rewrite !(ID MN); reflexivity|intros u v; rewrite !(ID MN); reflexivity|].
      intros u Nu. rewrite (ID MN). now apply ip_nz.
    - replace (opB dv sq E q) with (fun z : V => A (H z)); [exact NB|].
      symmetry. apply FunctionalExtensionality.functional_extensionality. exact EB. }
  assert (TH : Rmax (q_abstol q) (q_reltol q * inorm (isub b (q_A q (x_init dv sq E kw) : V))) = th) by (rewrite R0; reflexivity).
  rewrite <- (EA (KrylovModel.o_x o)), <- TH. destruct RN as [RN|[[OM RN]|[TP RN]]].
  - exact (C93_cgs dv sq E DV SQ q kw b 1 r LA LM AT HB MX NB' fuel cnt o cnt' RN).
  - destruct (C93_bicgstab dv sq E DV SQ q kw b 1 r LA LM AT HB MX NB' fuel cnt o cnt') as (H1 & H2 & H3).
    + destruct OM as [MN|OM]; [|exact OM]. apply (C73_omega dv sq E q b kw DV SQ LA AT). intros v Nv.
      rewrite (ID MN v). apply Rgt_not_eq. now apply ip_nz.
    + exact RN.
    + split; [exact H1|]. split; [|exact H3]. destruct (w_guess kw); lia.
  - rewrite <- TH in TP. destruct (C93_tfqmr dv sq E DV SQ q kw b 1 r LA LM HB ltac:(lia) TP NB' fuel cnt o cnt' RN) as (H1 & H2 & H3).
    split; [exact H1|]. split; [lia|]. apply Rlt_le, H3.
Qed.
End Rn.

(** ** The steps of CG. *)
Section Cg.
Variables (dv : R -> R -> R) (sq : R -> R) (n : nat).
Notation E := (Rn n).
Notation KK := (exactK dv sq).
Notation WW := (exactV dv sq E).
Notation V := (iv E).
Hypotheses (DV : dv_ok dv) (SQ : sq_ok sq).
Variables (q : kprob WW) (kw : cg_kw WW) (b : V).
Notation A := (q_A q : V -> V).
Hypotheses (SA : selfadj A) (PA : posdef A) (NPR : q_P q = None) (AT : 0 <= (q_abstol q : R)) (NS : k_sym kw = false)
  (SI : k_sit kw = true).
Let first := match k_guess kw with Some _ => 1 | None => 0 end%nat.
Hypothesis BUD : (n + first <= match k_mmax kw with Some m => m | None => 2 * n end)%nat.
Variables (fuel : nat) (o o' : cg_obj WW) (cnt cnt' : nat).
Hypothesis CG : cg_solve fuel q o b kw cnt = Ok (o', cnt').

Lemma cg_steps : exists xs : list V, g_iters o' = g_iters o ++ xs /\ (length (steps_of xs) + first = g_nmv o')%nat /\
  ForallOrdPairs (fun s s' => ip s (A s') = 0) (steps_of xs).
Proof.
  assert (S0 : sym_ok q kw cnt = (true, cnt)) by (unfold sym_ok; rewrite NS; reflexivity).
  destruct (cg_spd_converges dv sq E q kw b DV SQ SA PA NPR AT n fuel o cnt o' cnt' (Rn_dim n)) as
    [j [Hj [_ [_ [NM [_ [_ [AL [_ [HI _]]]]]]]]]]; [left; unfold g01; exact BUD|rewrite S0; reflexivity|exact CG|].
  assert (LA := adjoint_lin _ _ SA).
  assert (OA := orth_all dv sq E q b LA (cgx0 dv sq E kw) DV SA PA j AL).
  eexists. split; [apply HI; exact SI|]. rewrite steps_seq. split.
  - rewrite map_length, seq_length, NM. unfold g01, first. lia.
  - apply FOP_seq. intros i i' Hij. rewrite !sX_S.
    replace (isub (iadd (sX dv sq E q b (cgx0 dv sq E kw) i) _) _) with
      (iscale (al dv sq E q b (cgx0 dv sq E kw) i) (sP dv sq E q b (cgx0 dv sq E kw) i)) by veq.
    replace (isub (iadd (sX dv sq E q b (cgx0 dv sq E kw) i') _) _) with
      (iscale (al dv sq E q b (cgx0 dv sq E kw) i') (sP dv sq E q b (cgx0 dv sq E kw) i')) by veq.
    rewrite (lin_scale _ LA). ipx.
    rewrite (oi_pp _ _ _ _ _ _ _ (OA i' ltac:(lia)) i ltac:(lia)). ring.
Qed.

(** The differences of the iterates stored by CG, with their images, satisfy the hypotheses of the theorems above;
    if all are accepted and there is room, the operator holds one pair for each iteration of CG. *)
Theorem C106_cg : exists xs : list V, g_iters o' = g_iters o ++ xs /\
  forall (es : list (event WW)), (stored es : list (V * V)) = map (fun s => (s, A s)) (steps_of xs) ->
  (forall p : V * V, In p (stored es) -> snd p = A (fst p)) /\
  ForallOrdPairs (fun p p' : V * V => ip (fst p) (A (fst p')) = 0) (stored es) /\
  forall (so : lsolve KK) (k : kind) np sc (g0 : junk WW) st, (0 < np)%nat ->
    run (matvec so k) (lb_init np sc g0) es = Ok st -> (forall g, ~ In (ERestart g) es) ->
    (forall s, In s (steps_of xs) -> 1 / 100000000000000000000 < ip s (A s)) -> (g_nmv o' <= np)%nat ->
    (length (memory st) + first = g_nmv o')%nat.
Proof.
  destruct cg_steps as (xs & HX & HL & HC). exists xs. split; [exact HX|]. intros es HS.
  split; [|split].
  - intros p Hp. rewrite HS in Hp. apply in_map_iff in Hp. destruct Hp as (s & <- & _). reflexivity.
  - rewrite HS. clear -HC. induction HC as [|s l Hs HC IH]; cbn; constructor; [|exact IH].
    apply Forall_forall. intros p Hp. apply in_map_iff in Hp. destruct Hp as (s' & <- & Hs'). cbn.
    rewrite Forall_forall in Hs. now apply Hs.
  - intros so k np sc g0 st NP RUN NR ACC ROOM.
    destruct (C28_memory _ _ so k np sc g0 es st NP RUN) as [_ LM].
    assert (EA : accepted es = stored es).
    { assert (AC : forall p, In p (stored es) -> @sleb KK (@vdot KK WW (fst p) (snd p)) threshold = false).
      { intros p Hp. change (In p (stored es : list (V * V))) in Hp. rewrite HS in Hp. apply in_map_iff in Hp.
        destruct Hp as (s & <- & Hs). cbn [fst snd]. apply Rleb_false. specialize (ACC s Hs).
        replace (@threshold KK : R) with (1 / 100000000000000000000); [exact ACC|].
        unfold threshold. cbn [slit exactK]. unfold Q2R. cbn. lra. }
      clear -AC NR. revert AC NR. induction es as [|e l IH] using rev_ind; intros AC NR; [reflexivity|].
      unfold accepted, stored in *. rewrite fold_left_app, flat_map_app in *. cbn [fold_left flat_map] in *. rewrite app_nil_r in *.
      rewrite IH; [|intros p Hp; apply AC, in_or_app; now left|intros g Hg; apply (NR g), in_or_app; now left].
      destruct e as [s y|g|v]; cbn [accept].
      - assert (T : sleb (vdot s y) (@threshold KK) = false) by (apply (AC (s, y)), in_or_app; right; now left). rewrite T. reflexivity.
      - exfalso. apply (NR g), in_or_app. right. now left.
      - now rewrite app_nil_r. }
    rewrite EA in LM.
    assert (LS : length (stored es) = length (steps_of xs)).
    { change (length (stored es : list (V * V)) = length (steps_of xs)). rewrite HS. apply map_length. }
    rewrite LS in LM. rewrite LM. rewrite Nat.min_r; [exact HL|]. lia.
Qed.
End Cg.

(** ** Without conjugacy an older pair need not satisfy its equation: [A = diag(1,2)], steps (1,0) and (1,1). *)
Definition d12 (z : iv (Rn 2)) : iv (Rn 2) := (fst z, (2 * fst (snd z), tt)).
Lemma d12_sa : selfadj d12.
Proof. intros u v. cbn. ring. Qed.
Definition v2 (a c : R) : iv (Rn 2) := (a, (c, tt)).
Theorem C106_not_conjugate_refuted : exists (A : iv (Rn 2) -> iv (Rn 2)) (s1 s2 : iv (Rn 2)), selfadj A /\ posdef A /\
  forall so : lsolve (exactK Rdiv sqrt), solver_ok Rdiv sqrt so -> forall g0,
  exists st v st', run (matvec so KInverse) (lb_init 5 false g0)
    [EStore (s1 : vc (exactV Rdiv sqrt (Rn 2))) (A s1); EStore (s2 : vc (exactV Rdiv sqrt (Rn 2))) (A s2)] = Ok st /\
  memory st = [(s1, A s1); (s2, A s2)] /\
  matvec so KInverse st (A s1 : vc (exactV Rdiv sqrt (Rn 2))) = Ok (v : vc (exactV Rdiv sqrt (Rn 2)), st') /\ v <> (s1 : vc (exactV Rdiv sqrt (Rn 2))).
Proof.
  exists d12, (v2 1 0), (v2 1 1). split; [exact d12_sa|]. split.
  { intros [a [c []]] N. cbn. destruct (Req_dec a 0) as [->|Na].
    - destruct (Req_dec c 0) as [->|Nc]; [destruct N; reflexivity|]. pose proof (Rsqr_pos_lt c Nc) as Q. unfold Rsqr in Q. lra.
    - pose proof (Rsqr_pos_lt a Na) as Q. pose proof (Rle_0_sqr c) as Q'. unfold Rsqr in Q, Q'. lra. }
  intros so SO g0. set (es := [EStore _ _; EStore _ _]).
  destruct (C28_total Rdiv sqrt (Rn 2) Rdiv_ok sqrt_ok so SO KInverse 5 false g0 es ltac:(lia)) as [st HR].
  assert (AC : accepted es = [(v2 1 0, d12 (v2 1 0)); (v2 1 1, d12 (v2 1 1))] :> list (iv (Rn 2) * iv (Rn 2))).
  { unfold es, accepted. cbn [fold_left accept].
    assert (TH : (@threshold (exactK Rdiv sqrt) : R) < 1) by (unfold threshold; cbn [slit exactK]; unfold Q2R; cbn; lra).
    replace (@sleb (exactK Rdiv sqrt) (@vdot _ (exactV Rdiv sqrt (Rn 2)) (v2 1 0) (d12 (v2 1 0))) threshold) with false
      by (symmetry; apply Rleb_false; eapply Rlt_le_trans; [exact TH|]; cbn; lra).
    replace (@sleb (exactK Rdiv sqrt) (@vdot _ (exactV Rdiv sqrt (Rn 2)) (v2 1 1) (d12 (v2 1 1))) threshold) with false
      by (symmetry; apply Rleb_false; eapply Rlt_le_trans; [exact TH|]; cbn; lra). reflexivity. }
  destruct (C28_memory _ _ so KInverse 5 false g0 es st ltac:(lia) HR) as [EM _].
  destruct (C29_two_loop Rdiv sqrt (Rn 2) Rdiv_ok sqrt_ok so SO 5 false g0 es st (d12 (v2 1 0)) ltac:(lia) HR) as (st' & X).
  eexists st, _, st'. split; [exact HR|]. split; [rewrite EM; change (lastn 5 (accepted es : list (iv (Rn 2) * iv (Rn 2))) = [(v2 1 0, d12 (v2 1 0)); (v2 1 1, d12 (v2 1 1))]); rewrite AC; reflexivity|].
  split; [exact X|]. unfold pairs. rewrite AC. unfold lastn. cbn [length skipn Nat.sub]. unfold Hof. cbn. intro C.
  apply (f_equal fst) in C. cbn in C. revert C. unfold Rdiv. lra.
Qed.

(** ** The hypotheses hold: [A = diag(1,2,3)], steps e1 and e2; then MINRES with b = (1,1,1) makes at most two
    iterations.  With e3 as a third step the operator is the inverse. *)
Section Ex.
Notation K := (exactK Rdiv sqrt).
Notation W3' := (exactV Rdiv sqrt (Rn 3)).
Notation V3 := (iv (Rn 3)).
Definition v3 (a b c : R) : V3 := (a, (b, (c, tt))).
Definition d123 (z : V3) : V3 := (fst z, (2 * fst (snd z), (3 * fst (snd (snd z)), tt))).
Lemma d123_sa : selfadj d123.
Proof. intros u v. cbn. ring. Qed.
Definition st_ev (s : V3) : event W3' := EStore (s : vc W3') (d123 s : vc W3').
Definition e123 := [v3 1 0 0; v3 0 1 0; v3 0 0 1].
Definition es3 (j : nat) : list (event W3') := map st_ev (firstn j e123).
Lemma es3_img : forall j (p : V3 * V3), In p (stored (es3 j)) -> snd p = d123 (fst p).
Proof.
  intros j p H. unfold stored, es3 in H. apply in_flat_map in H. destruct H as (e & He & Hp).
  apply in_map_iff in He. destruct He as (s & <- & _). destruct Hp as [<-|[]]. reflexivity.
Qed.
Lemma es3_cnj : forall j, (j <= 3)%nat -> ForallOrdPairs (fun p p' : V3 * V3 => ip (fst p) (d123 (fst p')) = 0) (stored (es3 j)).
Proof.
  intros j Hj. destruct j as [|[|[|[|j]]]]; [| | | |lia]; cbn; repeat constructor; cbn; ring.
Qed.
Lemma es3_acc : forall j, (j <= 3)%nat -> accepted (es3 j) = stored (es3 j).
Proof.
  intros j Hj.
  assert (TH : (@threshold K : R) < 1) by (unfold threshold; cbn [slit exactK]; unfold Q2R; cbn; lra).
  assert (T : forall s, In s e123 -> @sleb K (@vdot K W3' s (d123 s)) threshold = false).
  { intros s Hs. apply Rleb_false. eapply Rlt_le_trans; [exact TH|]. destruct Hs as [<-|[<-|[<-|[]]]]; cbn; lra. }
  pose proof (T _ (or_introl eq_refl)) as T1. pose proof (T _ (or_intror (or_introl eq_refl))) as T2.
  pose proof (T _ (or_intror (or_intror (or_introl eq_refl)))) as T3.
  destruct j as [|[|[|[|j]]]]; [| | | |lia]; unfold es3, accepted; cbn [firstn e123 map fold_left st_ev accept];
    rewrite ?T1, ?T2, ?T3; reflexivity.
Qed.
Notation so := (gauss_solve Rdiv sqrt).

Example ex_C106_inverse : forall g0, exists st, run (matvec so KInverse) (lb_init 5 true g0) (es3 3) = Ok st /\
  length (memory st) = 3%nat /\ forall x : V3, exists st', matvec so KInverse st (d123 x : vc W3') = Ok (x : vc W3', st').
Proof.
  intro g0. destruct (C28_total Rdiv sqrt (Rn 3) Rdiv_ok sqrt_ok so (gauss_solver_ok Rdiv sqrt) KInverse 5 true g0 (es3 3) ltac:(lia)) as [st HR].
  exists st. split; [exact HR|]. destruct (C28_memory _ _ so KInverse 5 true g0 (es3 3) st ltac:(lia) HR) as [_ LM].
  rewrite es3_acc in LM by lia. change (length (memory st) = 3%nat) in LM. split; [exact LM|]. intro x.
  exact (proj1 (proj1 (C106_inverse Rdiv sqrt 3 Rdiv_ok sqrt_ok so (gauss_solver_ok Rdiv sqrt) d123 d123_sa KInverse 5 true g0 (es3 3) st
    ltac:(lia) HR (es3_img 3) (es3_cnj 3 ltac:(lia)) LM) eq_refl x)).
Qed.

Definition h3 (z : V3) : V3 := (fst z, (fst (snd z) / 2, (fst (snd (snd z)), tt))).
Lemma h3_nn : forall z, 0 <= ip z (h3 z).
Proof.
  intros [a [b [c []]]]. cbn. pose proof (Rle_0_sqr a) as A2. pose proof (Rle_0_sqr b) as B2. pose proof (Rle_0_sqr c) as C2.
  unfold Rsqr in *. lra.
Qed.
Definition kw3 : mr_kw W3' :=
  @mkmrkw K W3' (Some (h3 : vc W3' -> vc W3')) 3 3 [] (0 : sc K) false None (1 / 1000 : sc K) (0 : sc K) false 5 (fun _ => 0 : sc K).
Definition q3 : kprob W3' := @mkprob K W3' 3 3 (d123 : vc W3' -> vc W3') None 0 0 (fun x => x) [].

Example ex_C106_minres : forall g0, exists st, run (matvec so KInverse) (lb_init 5 false g0) (es3 2) = Ok st /\
  product_of Rdiv sqrt (Rn 3) so KInverse st h3 /\
  exists o cnt', @mr_solve K W3' 16 q3 [] (v3 1 1 1 : vc W3') kw3 0 = Ok (o, cnt') /\ (u_itn o <= 2)%nat.
Proof.
  intro g0. destruct (C28_total Rdiv sqrt (Rn 3) Rdiv_ok sqrt_ok so (gauss_solver_ok Rdiv sqrt) KInverse 5 false g0 (es3 2) ltac:(lia)) as [st HR].
  exists st. split; [exact HR|].
  destruct (C28_memory _ _ so KInverse 5 false g0 (es3 2) st ltac:(lia) HR) as [_ LM].
  rewrite es3_acc in LM by lia. change (length (memory st) = 2%nat) in LM.
  assert (PO : product_of Rdiv sqrt (Rn 3) so KInverse st h3).
  { intro v. destruct (C29_two_loop Rdiv sqrt (Rn 3) Rdiv_ok sqrt_ok so (gauss_solver_ok Rdiv sqrt) 5 false g0 (es3 2) st v ltac:(lia) HR) as (st' & X).
    exists st'. change (inv_matvec st v = Ok (h3 v : vc W3', st')). rewrite X. do 2 f_equal. unfold pairs. rewrite es3_acc by lia.
    unfold lastn, stored, es3, Hof. destruct v as [a [b [c []]]]. cbn. unfold h3. cbn.
    f_equal; [field|]. f_equal; [field|]. f_equal. field. }
  split; [exact PO|].
  destruct (C47_stopping K W3' q3 kw3 (v3 1 1 1) 16 [] 0) as (o & c & H & _); [cbn; lia|cbn; lia|].
  exists o, c. split; [exact H|].
  replace 2%nat with (3 - length (memory st) + 1)%nat by (rewrite LM; reflexivity).
  assert (EV : @machine_eps K = / 4503599627370496 :> R) by apply eps_val.
  refine (C106_minres Rdiv sqrt 3 Rdiv_ok sqrt_ok so (gauss_solver_ok Rdiv sqrt) d123 d123_sa KInverse 5 false g0 (es3 2) st
    ltac:(lia) HR (es3_img 2) (es3_cnj 2 ltac:(lia)) eq_refl q3 kw3 (v3 1 1 1) h3 PO eq_refl d123_sa _ _ _ _ 16 [] 0%nat o c H).
  - intros [a [b [e []]]]. cbn. unfold d123, isub, ineg. cbn. f_equal; [ring|]. f_equal; [ring|]. f_equal. ring.
  - cbn. lra.
  - assert (N : sqrt (@ip (Rn 3) (v3 1 1 1) (h3 (v3 1 1 1))) = sqrt (5 / 2)) by (f_equal; cbn; lra).
    rewrite N. set (a := sqrt (5 / 2)). assert (A2 : a * a = 5 / 2) by (apply sqrt_sqrt; lra).
    assert (A0 : 0 < a) by (apply sqrt_lt_R0; lra). assert (A1 : a <= 2) by nra.
    apply Rle_lt_trans with (1 / 4); [rewrite EV; lra|].
    replace (1 / 4) with (sqrt (1 / 16)) by (replace (1 / 16) with ((1 / 4) * (1 / 4)) by lra; apply sqrt_square; lra).
    apply sqrt_lt_1; [lra| |].
    { apply h3_nn. }
    set (i := / a). assert (I2 : i * i = 2 / 5).
    { unfold i. rewrite <- Rinv_mult, A2. lra. }
    cbn. fold i. unfold isub, ineg. cbn.
    match goal with |- _ < ?t => replace t with ((i * i) * ((12 / 5)) + 0) end; [rewrite I2; lra|].
    replace (1 * (1 * i)) with i by ring.
    match goal with |- _ = ?t => replace t with ((i * i) * ((1 - 9 / 2 * (i * i)) * (1 - 9 / 2 * (i * i)) * (3 / 2) + (3 - 9 / 2 * (i * i)) * (3 - 9 / 2 * (i * i)))) by field end.
    rewrite I2. lra.
  - intro z. set (e := @machine_eps K : R). assert (E0 : 0 <= e <= 1) by (unfold e; rewrite EV; lra).
    destruct z as [a [b [g []]]].
    apply Rle_trans with (1 * sqrt (@ip (Rn 3) (a, (b, (g, tt))) (h3 (a, (b, (g, tt)))))).
    { apply Rmult_le_compat_r; [apply sqrt_pos|lra]. }
    rewrite Rmult_1_l. apply sqrt_le_1_alt. cbn. nra.
Qed.

(** CG on the same matrix, and an operator of the default size filled with its steps. *)
Definition ckw3 : cg_kw W3' := mkkw None None false true false true.
Example ex_C106_cg : forall (b : V3) g0, exists o' cnt' xs st, cg_solve 7 q3 cg_new (b : vc W3') ckw3 0 = Ok (o', cnt') /\
  g_iters o' = (xs : list V3) /\
  run (matvec so KInverse) (lb_init 5 false g0) (map st_ev (steps_of xs)) = Ok st /\
  forall s y : V3, In (s, y) (memory st) -> exists st', matvec so KInverse st (y : vc W3') = Ok (s : vc W3', st').
Proof.
  intros b g0. destruct (cg_solve_term q3 ckw3 b 7 cg_new 0) as (o' & c & H); [cbn; lia|].
  assert (PD : posdef d123).
  { intros [x [y [z []]]] N. cbn. destruct (Req_dec x 0) as [->|Nx].
    - destruct (Req_dec y 0) as [->|Ny].
      + destruct (Req_dec z 0) as [->|Nz]; [destruct N; reflexivity|]. pose proof (Rsqr_pos_lt z Nz) as Q. unfold Rsqr in Q. nra.
      + pose proof (Rsqr_pos_lt y Ny) as Q. unfold Rsqr in Q. nra.
    - pose proof (Rsqr_pos_lt x Nx) as Q. unfold Rsqr in Q. nra. }
  destruct (C106_cg Rdiv sqrt 3 Rdiv_ok sqrt_ok q3 ckw3 b d123_sa PD eq_refl ltac:(cbn; lra) eq_refl eq_refl ltac:(cbn; lia)
    7 cg_new o' 0 c H) as (xs & HX & HC).
  destruct (C28_total Rdiv sqrt (Rn 3) Rdiv_ok sqrt_ok so (gauss_solver_ok Rdiv sqrt) KInverse 5 false g0 (map st_ev (steps_of xs)) ltac:(lia)) as [st HR].
  exists o', c, xs, st. split; [exact H|]. split; [exact HX|]. split; [exact HR|]. intros s y Hs.
  destruct (HC (map st_ev (steps_of xs))) as (H1 & H2 & _).
  { unfold stored. clear. induction (steps_of xs) as [|s l IH]; [reflexivity|]. cbn [map flat_map st_ev app]. f_equal. exact IH. }
  exact (proj1 (C106_secant Rdiv sqrt (Rn 3) Rdiv_ok sqrt_ok so (gauss_solver_ok Rdiv sqrt) d123 d123_sa KInverse 5 false g0 _ st
    ltac:(lia) HR H1 H2 s y Hs) eq_refl).
Qed.
End Ex.

Print Assumptions C106_secant.
Print Assumptions C106_count.
Print Assumptions C106_rank.
Print Assumptions C106_inverse.
Print Assumptions C106_minres.
Print Assumptions C106_krylov.
Print Assumptions C106_cg.
Print Assumptions C106_not_conjugate_refuted.
