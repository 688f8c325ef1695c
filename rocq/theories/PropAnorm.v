(** Property C102: the estimates [Anorm] of LSQR and [normA] of LSMR, and what the stopping codes mean
    in terms of perturbed problems. *)
From Coq Require Import List Arith Lia Bool QArith ZArith Reals Lra Qreals.
From Verif Require Import Base Num SpanMath ToolsModel ToolsProof PropCg MinresModel MinresProof GkProof PropMinres
  LsqrModel LsqrFlow LsqrMath LsqrProof PropLsqr LsmrModel LsmrFlow LsmrMath LsmrProof PropLsmr AnormLs AnormLm Backward.
Import ListNotations.
Local Open Scope R_scope.

(** [F] bounds the Frobenius norm of [A]: [sum ||A w||^2 <= F^2] over every orthonormal list. *)
Definition frob_le {E1 E2 : IPS} (A : iv E1 -> iv E2) (F : R) : Prop :=
  0 <= F /\ forall W : list (iv E1), orthog W -> (forall w, In w W -> ip w w = 1) ->
    rsum (map (fun w => ip (A w) (A w)) W) <= F * F.

(** For an operator into [R^m] the square root of the sum of the squares of all entries will do. *)
Theorem C102_frobenius : forall (E : IPS) m (A : iv E -> iv (Rn m)) At, adjoint A At ->
  frob_le A (sqrt (rsum (map (fun e : iv (Rn m) => ip (At e) (At e)) (Num.basis m)))).
Proof.
  intros E m A At AD. split; [apply sqrt_pos|]. intros W O U. rewrite sqrt_sqrt.
  - exact (frob_rn E m A At AD W O U).
  - induction (Num.basis m : list (iv (Rn m))) as [|e l IH]; [apply Rle_refl|]. cbn [map]. pose proof (ip_pos (At e)) as Q.
    unfold rsum in *. cbn [fold_right]. apply Rplus_le_le_0_compat; assumption.
Qed.

Lemma frob_one : forall (E1 E2 : IPS) (A : iv E1 -> iv E2) F w, frob_le A F -> ip w w = 1 -> ip (A w) (A w) <= F * F.
Proof.
  intros E1 E2 A F w [_ H] N. specialize (H [w]). unfold rsum in H. cbn in H.
  assert (orthog [w]) by (constructor; [constructor|constructor]).
  assert (forall z, w = z \/ False -> ip z z = 1) by (intros z [<-|[]]; exact N). specialize (H H0 H1). lra.
Qed.

Lemma sq_le : forall a c : R, 0 <= c -> a * a <= c * c -> a <= c.
Proof. intros a c H0 H. apply Rnot_lt_le. intro L. nra. Qed.

Section Lsqr.
Variables (dv : R -> R -> R) (sq : R -> R).
Hypothesis DV : dv_ok dv.
Hypothesis SQ : sq_ok sq.
Variables E1 E2 : IPS.
Notation KK := (exactK dv sq).
Variables (nv1 : iv E1 -> R) (nv2 : iv E2 -> R).
Notation WV := (exactVn dv sq E1 nv1).
Notation WU := (exactVn dv sq E2 nv2).
Variables (q : lprob WV WU) (kw : ls_kw WV WU) (b : iv E2).
Hypothesis NM : l_M kw = None.
Hypothesis NN : l_N kw = None.
Hypothesis AD : adjoint (lp_A q : iv E1 -> iv E2) (lp_At q : iv E2 -> iv E1).
Hypothesis HW : (1 <= l_window kw)%nat.
Hypothesis NV : l_wantvar kw = false.
Variables (fuel cnt : nat).
Let lim := if (l_itnlim kw =? 0)%Z then (3 * Z.of_nat (lp_n q))%Z else l_itnlim kw.
Hypothesis HF : (Z.to_nat lim < fuel)%nat.
Let A : iv E1 -> iv E2 := lp_A q.
Let At : iv E2 -> iv E1 := lp_At q.
Let d : R := l_damp kw.
Let res (x : iv E1) : iv E2 := isub b (A x).
Let nres (x : iv E1) : iv E1 := isub (At (res x)) (iscale (d * d) x).

(** [Anorm^2] is the sum of [||A w||^2 + damp^2] over an orthonormal list spanning part of the Krylov
    space, one vector per iteration; only if the normal equations are solved may the last iteration
    contribute nothing, or, with damping, one [||A w||^2] be counted twice. *)
Theorem C102_lsqr : forall o cnt', @ls_solve KK WV WU fuel q kw b cnt = Ok (o, cnt') ->
  exists (W : list (iv E1)) (e : R),
    orthog W /\ (forall w, In w W -> ip w w = 1) /\
    (forall w, In w W -> kry (fun z => At (A z)) (At b) (length W) w) /\
    (length W <= o_itn o <= S (length W))%nat /\
    (nres (o_x o) <> izero -> length W = o_itn o /\ e = 0) /\
    (o_Anorm o * o_Anorm o : R) = rsum (map (fun w => ip (A w) (A w)) W) + INR (length W) * (d * d) + e /\
    (e = 0 \/ d <> 0 /\ o_itn o = S (length W) /\ exists w, In w W /\ e = ip (A w) (A w)).
Proof.
  intros o cnt' H. destruct (an_solve dv sq DV SQ E1 E2 nv1 nv2 q kw b NM NN AD HW fuel cnt o cnt' H) as (W & e & [[O U] K] & L & Z & S & C).
  exists W, e. split; [exact O|]. split; [exact U|]. split; [exact K|]. split; [exact L|].
  split. { intro NZ. destruct (Nat.eq_dec (o_itn o) (Datatypes.S (length W))) as [Q|Q]; [exfalso; apply NZ; apply Z; left; exact Q|].
    split; [lia|]. destruct (Req_dec e 0) as [E|E]; [exact E|exfalso; apply NZ; apply Z; right; exact E]. }
  split; [exact S|]. destruct C as [C|(C1 & C2 & _ & C3)]; [left; exact C|right]. split; [exact C1|]. split; assumption.
Qed.

(** Hence [Anorm] underestimates the Frobenius norm, in the sense below. *)
Theorem C102_lsqr_bound : forall o cnt' F, @ls_solve KK WV WU fuel q kw b cnt = Ok (o, cnt') -> frob_le A F ->
  (d = 0 -> (o_Anorm o : R) <= F) /\
  (nres (o_x o) <> izero -> (o_Anorm o * o_Anorm o : R) <= F * F + INR (o_itn o) * (d * d)) /\
  (o_Anorm o * o_Anorm o : R) <= 2 * (F * F) + INR (o_itn o) * (d * d).
Proof.
  intros o cnt' F H FB. destruct (C102_lsqr o cnt' H) as (W & e & O & U & K & L & NZ & S & C).
  pose proof FB as [F0 FW]. specialize (FW W O U). pose proof (le_INR _ _ (proj1 L)) as LI. pose proof (Rle_0_sqr d) as D2. unfold Rsqr in D2.
  assert (EB : e <= F * F).
  { destruct C as [C|(_ & _ & w & I & C)]; [rewrite C; nra|]. rewrite C. apply frob_one; [exact FB|apply U; exact I]. }
  change (lp_A q) with A in S.
  split.
  { intro D. apply sq_le; [exact F0|]. destruct C as [C|(C & _)]; [|contradiction]. rewrite S, C, D. lra. }
  split.
  { intro N. destruct (NZ N) as [N1 N2]. rewrite S, N2, N1. lra. }
  rewrite S. nra.
Qed.

(** Code 1 without damping: the returned vector solves exactly a system whose operator differs from
    [A] by at most [atol ||A||_F] and whose right-hand side differs from [b] by at most [btol ||b||]. *)
Theorem C102_lsqr_backward1 : forall o cnt' F, @ls_solve KK WV WU fuel q kw b cnt = Ok (o, cnt') -> frob_le A F ->
  0 <= (l_atol kw : R) -> 0 <= (l_btol kw : R) -> d = 0 -> o_istop o = 1%Z ->
  exists (D : iv E1 -> iv E2) (f : iv E2), lin D /\ (forall z, inorm (D z) <= l_atol kw * F * inorm z) /\
    inorm f <= l_btol kw * inorm b /\ iadd (A (o_x o)) (D (o_x o)) = iadd b f.
Proof.
  intros o cnt' F H FB TA TB D0 I1.
  destruct (C51_stop_meaning dv sq DV SQ E1 E2 nv1 nv2 q kw b NM NN AD HW NV fuel cnt HF o cnt' H) as [S1 _]. specialize (S1 I1).
  destruct (C102_lsqr_bound o cnt' F H FB) as [B1 _]. specialize (B1 D0).
  apply (backward1 A b (o_x o : iv E1)).
  - pose proof (inorm_pos b). nra.
  - destruct FB as [F0 _]. nra.
  - eapply Rle_trans; [|eapply Rle_trans; [exact S1|]].
    + unfold inorm at 1. apply sqrt_le_1_alt. pose proof (ip_pos (o_x o : iv E1)). pose proof (Rle_0_sqr (l_damp kw : R)) as Q. unfold Rsqr in Q.
      change (lp_A q) with A. nra.
    + apply Rplus_le_compat_l. apply Rmult_le_compat_r; [apply inorm_pos|]. apply Rmult_le_compat_l; assumption.
Qed.

(** Code 2: the returned vector minimises exactly the damped least-squares problem with the stacked
    operator [(A; damp I)] perturbed by at most [atol sqrt(||A||_F^2 + itn damp^2)]. *)
Theorem C102_lsqr_backward2 : forall o cnt' F, @ls_solve KK WV WU fuel q kw b cnt = Ok (o, cnt') -> frob_le A F ->
  0 <= (l_atol kw : R) -> l_infle kw (l_atol kw) = false -> o_istop o = 2%Z ->
  let t := l_atol kw * sqrt (F * F + INR (o_itn o) * (d * d)) in
  exists (D1 : iv E1 -> iv E2) (D2 : iv E1 -> iv E1), lin D1 /\ lin D2 /\
    (forall z, ip (D1 z) (D1 z) + ip (D2 z) (D2 z) <= t * t * ip z z) /\ (d = 0 -> forall z, D2 z = izero) /\
    forall z, let g z := let a := isub b (iadd (A z) (D1 z)) in let c := iadd (iscale d z) (D2 z) in ip a a + ip c c in
      g (o_x o) <= g z.
Proof.
  intros o cnt' F H FB TA IF I2 t.
  destruct (C51_stop_meaning dv sq DV SQ E1 E2 nv1 nv2 q kw b NM NN AD HW NV fuel cnt HF o cnt' H) as [_ S2]. specialize (S2 I2 IF).
  destruct (C102_lsqr_bound o cnt' F H FB) as [_ [B1 _]].
  assert (T0 : 0 <= t) by (unfold t; apply Rmult_le_pos; [exact TA|apply sqrt_pos]).
  apply (backward2 A At AD b (o_x o : iv E1) d t T0).
  destruct (Req_dec (inorm (nres (o_x o))) 0) as [Z|Z].
  - unfold nres, res in Z. rewrite Z. apply Rmult_le_pos; [exact T0|apply sqrt_pos].
  - assert (NZ : nres (o_x o) <> izero) by (intro Q; apply Z; rewrite Q; apply inorm_izero). specialize (B1 NZ).
    eapply Rle_trans; [exact S2|]. unfold t. rewrite <- Rmult_assoc. apply Rmult_le_compat_r; [apply sqrt_pos|].
    apply Rmult_le_compat_l; [exact TA|]. apply sq_le; [apply sqrt_pos|]. rewrite sqrt_sqrt; [exact B1|].
    destruct FB as [F0 _]. pose proof (pos_INR (o_itn o)). pose proof (Rle_0_sqr d) as Q. unfold Rsqr in Q. nra.
Qed.
End Lsqr.

Section Lsmr.
Variables (dv : R -> R -> R) (sq : R -> R).
Hypothesis DV : dv_ok dv.
Hypothesis SQ : sq_ok sq.
Variables E1 E2 : IPS.
Notation KK := (exactK dv sq).
Variable nv2 : iv E2 -> R.
Notation WV := (exactV dv sq E1).
Notation WU := (exactVn dv sq E2 nv2).
Variables (q : lprob WV WU) (kw : lm_kw WV WU) (b : iv E2).
Hypothesis NM : m_M kw = None.
Hypothesis NN : m_N kw = None.
Hypothesis AD : adjoint (lp_A q : iv E1 -> iv E2) (lp_At q : iv E2 -> iv E1).
Hypothesis HW : (1 <= m_window kw)%nat.
Variables (fuel cnt : nat) (ob : lm_obj WV).
Let lim := match m_itnlim kw with None => Z.of_nat (Nat.min (lp_m q) (lp_n q)) | Some l => l end.
Hypothesis HF : (Z.to_nat lim < fuel)%nat.
Let A : iv E1 -> iv E2 := lp_A q.
Let At : iv E2 -> iv E1 := lp_At q.
Let d : R := m_damp kw.
Hypothesis NZ : At b <> izero.

(** LSMR: one vector per iteration, the damping is not counted, and nothing is counted twice.  If no
    iteration was made [normA] is [||A'b|| / ||b||]. *)
Theorem C102_lsmr : forall r ob' cnt', @lm_solve KK WV WU fuel q kw ob b cnt = Ok (r, ob', cnt') ->
  0 <= (r_normA r : R) /\
  (r_itn r = 0%nat -> r_normA r * inorm b = inorm (At b)) /\
  ((1 <= r_itn r)%nat -> exists W : list (iv E1), length W = r_itn r /\
    orthog W /\ (forall w, In w W -> ip w w = 1) /\
    (forall w, In w W -> kry (fun z => At (A z)) (At b) (r_itn r) w) /\
    (r_normA r : R) = sqrt (rsum (map (fun w => ip (A w) (A w)) W))).
Proof.
  intros r ob' cnt' H.
  destruct (am_solve dv sq DV SQ E1 E2 inorm nv2 (@inorm_pos E1) (@inorm_izero E1) q kw b NM NN AD HW fuel ob cnt r ob' cnt' NZ H) as [OK P].
  split; [exact P|]. destruct OK as [[I0 EA]|(W & [[O U] K] & L & I1 & S)].
  - split; [intros _; exact EA|intro; lia].
  - split; [intro; lia|]. intros _. exists W. rewrite L in K. split; [exact L|]. split; [exact O|]. split; [exact U|]. split; [exact K|].
    change (rsum (map (fun w => ip (A w) (A w)) W)) with (wsum A W). change (lp_A q) with A in S. rewrite <- S. symmetry. apply sqrt_square. exact P.
Qed.

Theorem C102_lsmr_bound : forall r ob' cnt' F, @lm_solve KK WV WU fuel q kw ob b cnt = Ok (r, ob', cnt') -> frob_le A F ->
  (r_normA r : R) <= F.
Proof.
  intros r ob' cnt' F H FB. destruct (C102_lsmr r ob' cnt' H) as (P & S0 & S1). pose proof FB as [F0 FW].
  destruct (Nat.eq_dec (r_itn r) 0) as [Z|Z].
  - specialize (S0 Z). set (g := At b) in *. set (n := inorm g) in *.
    assert (N0 : 0 < n).
    { pose proof (inorm_pos g). destruct (Req_dec n 0) as [Q|Q]; [exfalso; apply NZ; apply inorm_zero; exact Q|unfold n in *; lra]. }
    assert (G2 : ip g g = n * n) by (symmetry; apply inorm_sq).
    pose proof (frob_one E1 E2 A F (iscale (1 / n) g) FB) as FO.
    assert (N1 : ip (iscale (1 / n) g) (iscale (1 / n) g) = 1) by (ipx; rewrite G2; field; lra).
    specialize (FO N1). destruct (adjoint_lin A At AD) as [_ LS]. rewrite LS in FO. rewrite ip_scalel, (ip_sym (A g)), ip_scalel in FO.
    assert (AG : inorm (A g) <= F * n).
    { apply sq_le; [nra|]. rewrite inorm_sq. apply Rmult_le_compat_l with (r := n * n) in FO; [|nra].
      replace (n * n * (1 / n * (1 / n * ip (A g) (A g)))) with (ip (A g) (A g)) in FO by (field; lra). lra. }
    assert (NN2 : n * n <= inorm b * (F * n)).
    { rewrite <- G2. assert (IG : ip g g = ip b (A g)).
      { transitivity (ip g (At b)); [reflexivity|]. rewrite (ip_At A At AD). apply ip_sym. }
      rewrite IG. eapply Rle_trans; [apply cauchy_norm|]. apply Rmult_le_compat_l; [apply inorm_pos|exact AG]. }
    assert (B0 : 0 < inorm b).
    { pose proof (inorm_pos b). destruct (Req_dec (inorm b) 0) as [Q|Q]; [rewrite Q in *; nra|lra]. }
    change (r_normA r * inorm b = n :> R) in S0. assert (n <= inorm b * F) by nra.
    apply Rmult_le_reg_r with (inorm b); [exact B0|]. lra.
  - destruct (S1 ltac:(lia)) as (W & _ & O & U & _ & ->). apply sq_le; [exact F0|]. rewrite sqrt_sqrt; [apply FW; assumption|].
    exact (wsum_pos A W).
Qed.

Theorem C102_lsmr_backward1 : forall r ob' cnt' F, @lm_solve KK WV WU fuel q kw ob b cnt = Ok (r, ob', cnt') -> frob_le A F ->
  0 <= (m_atol kw : R) -> 0 <= (m_btol kw : R) -> r_istop r = 1%Z ->
  exists (D : iv E1 -> iv E2) (f : iv E2), lin D /\ (forall z, inorm (D z) <= m_atol kw * F * inorm z) /\
    inorm f <= m_btol kw * inorm b /\ iadd (A (r_x r)) (D (r_x r)) = iadd b f.
Proof.
  intros r ob' cnt' F H FB TA TB I1.
  destruct (C68_stop_meaning dv sq DV SQ E1 E2 inorm nv2 (@inorm_pos E1) (@inorm_izero E1) q kw b NM NN AD HW fuel cnt ob HF r ob' cnt' H NZ) as [S1 _].
  specialize (S1 I1). pose proof (C102_lsmr_bound r ob' cnt' F H FB) as B1.
  apply (backward1 A b (r_x r : iv E1)).
  - pose proof (inorm_pos b). nra.
  - destruct FB as [F0 _]. nra.
  - eapply Rle_trans; [|eapply Rle_trans; [exact S1|]].
    + unfold inorm at 1. apply sqrt_le_1_alt. pose proof (ip_pos (r_x r : iv E1)). pose proof (Rle_0_sqr (m_damp kw : R)) as Q. unfold Rsqr in Q.
      change (lp_A q) with A. nra.
    + apply Rplus_le_compat_l. apply Rmult_le_compat_r; [apply inorm_pos|]. apply Rmult_le_compat_l; assumption.
Qed.

(** Here the perturbation is bounded by the Frobenius norm of [A] alone. *)
Theorem C102_lsmr_backward2 : forall r ob' cnt' F, @lm_solve KK WV WU fuel q kw ob b cnt = Ok (r, ob', cnt') -> frob_le A F ->
  0 <= (m_atol kw : R) -> r_istop r = 2%Z ->
  let t := m_atol kw * F in
  exists (D1 : iv E1 -> iv E2) (D2 : iv E1 -> iv E1), lin D1 /\ lin D2 /\
    (forall z, ip (D1 z) (D1 z) + ip (D2 z) (D2 z) <= t * t * ip z z) /\ (d = 0 -> forall z, D2 z = izero) /\
    forall z, let g z := let a := isub b (iadd (A z) (D1 z)) in let c := iadd (iscale d z) (D2 z) in ip a a + ip c c in
      g (r_x r) <= g z.
Proof.
  intros r ob' cnt' F H FB TA I2 t.
  destruct (C68_stop_meaning dv sq DV SQ E1 E2 inorm nv2 (@inorm_pos E1) (@inorm_izero E1) q kw b NM NN AD HW fuel cnt ob HF r ob' cnt' H NZ) as [_ S2].
  specialize (S2 I2). pose proof (C102_lsmr_bound r ob' cnt' F H FB) as B1.
  assert (T0 : 0 <= t) by (unfold t; destruct FB as [F0 _]; nra).
  apply (backward2 A At AD b (r_x r : iv E1) d t T0).
  eapply Rle_trans; [exact S2|]. unfold t. rewrite <- Rmult_assoc. apply Rmult_le_compat_r; [apply sqrt_pos|].
  apply Rmult_le_compat_l; assumption.
Qed.
End Lsmr.

(** ** The hypotheses hold of the 3 by 2 operator of PropLsqr, whose Frobenius norm is [sqrt 7], and
    both solvers return. *)
Example ex_C102 :
  frob_le xA (sqrt 7) /\ adjoint xA xAt /\ xAt xb <> izero /\
  (exists o cnt', @ls_solve K0 W2 W3 7 xq (lkw 2 0 W2 W3) xb 0 = Ok (o, cnt')) /\
  (exists r ob' cnt', @lm_solve K0 W2 W3 3 xq (mkw 2 None 0 W2 W3) lm_obj0 xb 0 = Ok (r, ob', cnt')).
Proof.
  split.
  { replace 7 with (rsum (map (fun e : iv (Rn 3) => ip (xAt e) (xAt e)) (Num.basis 3))) by (unfold rsum; cbn; ring).
    exact (C102_frobenius (Rn 2) 3 xA xAt xAD). }
  split; [exact xAD|]. split; [exact xAtb|]. split; [|exact (proj2 (proj2 (proj2 (proj2 (proj2 (proj2 (proj2 (proj2 (proj2 ex_C54)))))))))].
  destruct (ls_exact Rdiv sqrt Rdiv_ok sqrt_ok (Rn 2) (Rn 3) inorm inorm xq (lkw 2 0 W2 W3) xb eq_refl eq_refl xAD ltac:(cbn; lia) 7 0 eq_refl ltac:(change (6 < 7)%nat; lia))
    as (o & c & xs & H & _). exists o, c. exact H.
Qed.

(** A zero residual gives code 1. *)
Lemma an_code1 : forall dv sq (DV : dv_ok dv) (E1 E2 : IPS) nv1 nv2 (q : lprob (exactVn dv sq E1 nv1) (exactVn dv sq E2 nv2)) kw (bn : R) st st',
  @ls_body (exactK dv sq) (exactVn dv sq E1 nv1) (exactVn dv sq E2 nv2) q kw bn (ls_lim q kw) st = Ok st' ->
  0 < bn -> (s_r2norm st' : R) = 0 -> 0 <= (l_atol kw : R) -> 0 <= (l_btol kw : R) ->
  0 <= (s_Anorm st' : R) -> 0 <= (s_xnorm st' : R) -> s_istop st' = 1%Z.
Proof.
  intros dv sq DV E1 E2 nv1 nv2 q kw bn st st' H BN R0 TA TB AP XP. unfold ls_body in H.
  destruct (s_vN st) as [[v Nv]|]; [|discriminate].
  destruct (ls_bidiag _ _ _ _ _ _ _ _ _) as [[[[[[[[Mu u] v'] Nv'] al] be] An] cn]|]; [|discriminate]. cbn [rbind] in H.
  destruct (ls_rot _ _ _ _ _) as [[[[[[[psi rho] th] rb] phi] pb] tau]|]; [|discriminate]. cbn [rbind] in H.
  destruct (s_w st) as [w|].
  2: { repeat match type of H with rbind ?X _ = _ => destruct X; [|discriminate]; cbn [rbind] in H end. discriminate. }
  destruct (ls_upx _ _ _ _ _ _) as [[[x w'] dk]|]; [|discriminate]. cbn [rbind] in H.
  destruct (ls_derr _ _ _ _ _ _ _) as [[[[n1 n2] n3] n4]|]; [|discriminate]. cbn [rbind] in H.
  destruct (ls_xn _ _ _ _ _ _ _) as [[[[[xn cs2] sn2] z] xx]|]; [|discriminate]. cbn [rbind] in H.
  destruct (ls_norms _ _ _ _ _ _ _ _ _) as [[[[[Ac r2] rn] Ar] r1n]|]; [|discriminate]. cbn [rbind] in H.
  destruct (ls_tests _ _ _ _ _ _ _ _ _) as [i'|] eqn:ET; [|discriminate]. cbn [rbind] in H. injection H as <-.
  cbn [s_r2norm s_Anorm s_xnorm s_istop] in *.
  unfold ls_tests in ET. rewrite (ex_div dv sq DV) in ET by lra. cbn [rbind] in ET.
  match type of ET with rbind ?X _ = _ => destruct X; [|discriminate]; cbn [rbind] in ET end.
  match type of ET with rbind ?X _ = _ => destruct X; [|discriminate]; cbn [rbind] in ET end.
  match type of ET with rbind ?X _ = _ => destruct X; [|discriminate]; cbn [rbind] in ET end.
  match type of ET with rbind ?X _ = _ => destruct X; [|discriminate]; cbn [rbind] in ET end.
  rewrite (ex_div dv sq DV) in ET by lra. cbn [rbind] in ET.
  match type of ET with Ok (if ?X then _ else _) = _ => replace X with true in ET end.
  - injection ET as <-. reflexivity.
  - symmetry. apply Rleb_true. cbn. rewrite R0.
    assert (X1 : 0 / bn = 0) by (unfold Rdiv; ring). rewrite X1. apply Rplus_le_le_0_compat; [exact TB|].
    apply Rmult_le_pos; [apply Rmult_le_pos; [apply Rmult_le_pos|]; assumption|]. left. apply Rinv_0_lt_compat. exact BN.
Qed.

(** ** The operator [3] on the line. *)
Notation W1 := (exactV Rdiv sqrt (Rn 1)).
Definition v1 (a : R) : iv (Rn 1) := (a, tt).
Definition tA (z : iv (Rn 1)) : iv (Rn 1) := v1 (3 * fst z).
Definition tq : lprob W1 W1 := @mklprob K0 W1 W1 1 1 (tA : vc W1 -> vc W1) (tA : vc W1 -> vc W1).
Lemma tAD : adjoint tA tA.
Proof. intros [a []] [c []]. cbn. ring. Qed.
Lemma v1_eq : forall a c, a = c -> (v1 a : iv (Rn 1)) = v1 c.
Proof. intros a c ->. reflexivity. Qed.
Lemma v1_norm : forall a, 0 <= a -> inorm (v1 a) = a.
Proof. intros a H. unfold inorm. cbn. apply sqrt_val; [exact H|ring]. Qed.

Lemma t_start : forall damp lim, exists st0, let kw := lkw damp lim W1 W1 in
  @ls_init K0 W1 W1 tq kw (v1 1) 0 = Ok st0 /\ ls_pre Rdiv sqrt (Rn 1) (Rn 1) inorm inorm kw st0 (v1 1) (v1 1) (v1 1) /\
  (s_alpha st0 : R) = 3 /\ (s_beta st0 : R) = 1 /\ (s_rhobar st0 : R) = 3 /\ (s_phibar st0 : R) = 1 /\
  (s_Anorm st0 : R) = 0 /\ (s_res2 st0 : R) = 0 /\ s_istop st0 = 0%Z /\ s_itn st0 = 0%nat /\ s_brk st0 = false /\
  (s_xxnorm st0 : R) = 0 /\ (s_cs2 st0 : R) = -1 /\ (s_sn2 st0 : R) = 0 /\ (s_z st0 : R) = 0 /\ (s_x st0 : iv (Rn 1)) = izero.
Proof.
  intros damp lim. unfold ls_init. cbv zeta.
  destruct (ex_gk Rdiv sqrt Rdiv_ok sqrt_ok (Rn 1) inorm (v1 1)) as (u & G1 & G2 & _).
  change (l_M (lkw damp lim W1 W1)) with (@None (vc W1 -> vc W1)). rewrite G1. cbn [rbind].
  rewrite (v1_norm 1) in * by lra.
  assert (U : u = v1 1) by (rewrite G2 by lra; cbn; apply v1_eq; field). rewrite U.
  replace (@sgtb K0 1 (@s0 K0)) with true by (symmetry; apply Rltb_true; cbn; lra).
  change (l_N (lkw damp lim W1 W1)) with (@None (vc W1 -> vc W1)).
  destruct (ex_gk Rdiv sqrt Rdiv_ok sqrt_ok (Rn 1) inorm (tA (v1 1))) as (v & H1 & H2 & _).
  change (lp_At tq (v1 1)) with (tA (v1 1)). rewrite H1. cbn [rbind].
  assert (N3 : inorm (tA (v1 1)) = 3) by (unfold tA; cbn [fst v1]; rewrite v1_norm; cbn; lra).
  rewrite N3 in *.
  assert (V : v = v1 1) by (rewrite H2 by lra; cbn; apply v1_eq; field). rewrite V.
  replace (@sgtb K0 3 (@s0 K0)) with true by (symmetry; apply Rltb_true; cbn; lra).
  eexists. split; [reflexivity|]. split.
  { split; cbn [s_Mu s_u s_vN s_w s_alpha s_beta s_rhobar s_phibar s_Anorm s_ddnorm s_z s_xxnorm s_res2 s_cs2 s_sn2 s_nrg2 s_istop s_itn s_brk s_x];
      try reflexivity; try lia; cbn; unfold Q2R; cbn; lra. }
  cbn [s_Mu s_u s_vN s_w s_alpha s_beta s_rhobar s_phibar s_Anorm s_ddnorm s_z s_xxnorm s_res2 s_cs2 s_sn2 s_nrg2 s_istop s_itn s_brk s_x].
  do 8 (split; [reflexivity|]). split; [apply Reqb_false; cbn; lra|].
  split; [reflexivity|]. split; [cbn; unfold Q2R; cbn; lra|]. repeat split.
Qed.

(** "Anorm = estimate of Frobenius norm of (regularized) A" (lsqr.py:129): with damping 4 the
    regularized operator is the column [(3, 4)] of norm 5, but LSQR returns the square root of 34. *)
Theorem C102_lsqr_overestimate_refuted : exists (q : lprob W1 W1) (kw : ls_kw W1 W1) (b : iv (Rn 1)) o cnt',
  adjoint (lp_A q : iv (Rn 1) -> iv (Rn 1)) (lp_At q : iv (Rn 1) -> iv (Rn 1)) /\ l_M kw = None /\ l_N kw = None /\
  (forall z : iv (Rn 1), ip (lp_A q z : iv (Rn 1)) (lp_A q z) + l_damp kw * l_damp kw * ip z z = 5 * 5 * ip z z) /\
  @ls_solve K0 W1 W1 3 q kw b 0 = Ok (o, cnt') /\ o_itn o = 2%nat /\ (o_Anorm o * o_Anorm o : R) = 34 /\ 5 < (o_Anorm o : R).
Proof.
  set (kw := lkw 4 2 W1 W1).
  destruct (t_start 4 2) as (st0 & E0 & P & I5 & I6 & I7 & I8 & I9 & I13 & I17 & I18 & I19 & I12 & I14 & I15 & I11 & I20). fold kw in E0, P.
  destruct (ex_body Rdiv sqrt Rdiv_ok sqrt_ok (Rn 1) (Rn 1) inorm inorm tq kw eq_refl eq_refl ltac:(cbn; lia) 1 st0 (v1 1) (v1 1) (v1 1) ltac:(lra) P)
    as (st1 & u' & v' & al' & EB & O).
  assert (Y : isub (tA (v1 1)) (iscale (s_alpha st0) (v1 1)) = izero).
  { rewrite I5. unfold isub, ineg, tA, v1. cbn. change (@izero (Rn 1)) with (v1 0). apply v1_eq. ring. }
  assert (B0 : inorm (isub (tA (v1 1)) (iscale (s_alpha st0) (v1 1))) = 0) by (rewrite Y; apply inorm_izero).
  destruct (an_body Rdiv sqrt Rdiv_ok sqrt_ok (Rn 1) (Rn 1) inorm inorm tq kw eq_refl eq_refl 1 st0 st1 (v1 1) (v1 1) (v1 1) P EB) as [A1 _].
  specialize (A1 B0).
  destruct (eo_be0 _ _ _ _ _ _ _ _ _ _ _ _ _ _ _ _ O B0) as (V1 & AL & _ & U1). change (lp_A tq) with tA in U1. rewrite Y in U1.
  pose proof (eo_r2 _ _ _ _ _ _ _ _ _ _ _ _ _ _ _ _ O) as ER. change (lp_A tq) with tA in ER. rewrite B0 in ER.
  change (l_damp kw : R) with 4 in ER. rewrite I7, I8, I13 in ER.
  assert (R5 : sqrt (3 * 3 + 4 * 4) = 5) by (apply sqrt_val; [lra|ring]).
  assert (R5' : sqrt (5 * 5 + 0 * 0) = 5) by (apply sqrt_val; [lra|ring]). rewrite R5, R5' in ER.
  assert (R2 : (s_r2norm st1 : R) = 4 / 5).
  { rewrite ER. apply sqrt_val; [lra|]. field. }
  assert (BK : s_brk st1 = false).
  { apply (an_first Rdiv sqrt Rdiv_ok sqrt_ok (Rn 1) (Rn 1) inorm inorm tq kw eq_refl eq_refl ltac:(cbn; lia) 1 st0 st1 (v1 1) (v1 1) (v1 1) P EB B0 I9 I17).
    - rewrite I18. cbn. lia.
    - rewrite I18. cbn. lia.
    - intro a. reflexivity.
    - lra.
    - rewrite R2. cbn. unfold Q2R. cbn. lra.
    - rewrite R2. lra. }
  assert (P1 : ls_pre Rdiv sqrt (Rn 1) (Rn 1) inorm inorm kw st1 izero (v1 1) (iadd (iscale (- (0 / 5 * 3) / 5) (v1 1)) (v1 1))).
  { split.
    - rewrite (eo_Mu _ _ _ _ _ _ _ _ _ _ _ _ _ _ _ _ O). exact U1.
    - rewrite (eo_u _ _ _ _ _ _ _ _ _ _ _ _ _ _ _ _ O). exact U1.
    - rewrite (eo_vN _ _ _ _ _ _ _ _ _ _ _ _ _ _ _ _ O), V1. reflexivity.
    - pose proof (eo_w _ _ _ _ _ _ _ _ _ _ _ _ _ _ _ _ O) as EW. change (lp_A tq) with tA in EW. rewrite B0 in EW.
      change (l_damp kw : R) with 4 in EW. rewrite I7, R5, R5', AL, I5, V1 in EW. exact EW.
    - right. cbn. lra.
    - pose proof (eo_gb _ _ _ _ _ _ _ _ _ _ _ _ _ _ _ _ O) as GB. destruct (eo_ga _ _ _ _ _ _ _ _ _ _ _ _ _ _ _ _ O) as (G0 & G1 & _).
      rewrite G1. apply Rmult_integral_contrapositive. split; [exact GB|]. apply Rinv_neq_0_compat. lra.
    - destruct (eo_ga _ _ _ _ _ _ _ _ _ _ _ _ _ _ _ _ O) as (_ & _ & _ & _ & G1). rewrite G1, I12. apply Rplus_le_le_0_compat; [lra|apply Rle_0_sqr].
    - rewrite (eo_res2 _ _ _ _ _ _ _ _ _ _ _ _ _ _ _ _ O), I13. apply Rplus_le_le_0_compat; [lra|apply Rle_0_sqr].
    - exact (eo_dd _ _ _ _ _ _ _ _ _ _ _ _ _ _ _ _ O).
    - exact (eo_nrg _ _ _ _ _ _ _ _ _ _ _ _ _ _ _ _ O).
    - exact (eo_An _ _ _ _ _ _ _ _ _ _ _ _ _ _ _ _ O).
    - exact (eo_i _ _ _ _ _ _ _ _ _ _ _ _ _ _ _ _ O). }
  destruct (ex_body Rdiv sqrt Rdiv_ok sqrt_ok (Rn 1) (Rn 1) inorm inorm tq kw eq_refl eq_refl ltac:(cbn; lia) 1 st1 _ _ _ ltac:(lra) P1)
    as (st2 & u2 & v2' & al2 & EB2 & O2).
  destruct (an_body Rdiv sqrt Rdiv_ok sqrt_ok (Rn 1) (Rn 1) inorm inorm tq kw eq_refl eq_refl 1 st1 st2 _ _ _ P1 EB2) as [_ A2].
  assert (AL1 : (s_alpha st1 : R) = 3) by (rewrite (eo_al _ _ _ _ _ _ _ _ _ _ _ _ _ _ _ _ O), AL; exact I5).
  assert (B2 : inorm (isub (lp_A tq (v1 1) : iv (Rn 1)) (iscale (s_alpha st1) izero)) = 3).
  { replace (isub (lp_A tq (v1 1) : iv (Rn 1)) (iscale (s_alpha st1) izero)) with (v1 3); [apply v1_norm; lra|].
    change (lp_A tq) with tA. unfold isub, ineg, tA. cbn. apply v1_eq. ring. }
  rewrite B2 in A2. specialize (A2 ltac:(lra)). rewrite A1, I9, AL1 in A2. change (l_damp kw : R) with 4 in A2.
  assert (N34 : (s_Anorm st2 * s_Anorm st2 : R) = 34) by (rewrite A2; ring).
  exists tq, kw, (v1 1). eexists _, _. split; [exact tAD|]. split; [reflexivity|]. split; [reflexivity|].
  split. { intros [z []]. cbn. ring. }
  split.
  { unfold ls_solve. change (l_wantvar kw) with false. cbv iota. rewrite E0. cbn [rbind].
    rewrite I6. cbn [while]. unfold ls_cond at 1. rewrite I19, I18.
    change (ls_lim tq kw) with 2%Z in *. cbn [negb andb Z.of_nat Z.ltb Z.compare]. rewrite EB.
    unfold ls_cond at 1. rewrite BK, (eo_itn _ _ _ _ _ _ _ _ _ _ _ _ _ _ _ _ O), I18. cbn [negb andb Nat.add Z.of_nat Pos.of_succ_nat Z.ltb Z.compare Pos.compare Pos.compare_cont].
    rewrite EB2. unfold ls_cond. rewrite (eo_itn _ _ _ _ _ _ _ _ _ _ _ _ _ _ _ _ O2), (eo_itn _ _ _ _ _ _ _ _ _ _ _ _ _ _ _ _ O), I18.
    cbn [Nat.add Z.of_nat Pos.of_succ_nat Pos.succ Z.ltb Z.compare Pos.compare Pos.compare_cont].
    rewrite andb_false_r. cbn [rbind]. reflexivity. }
  cbn [o_itn o_Anorm]. split; [rewrite (eo_itn _ _ _ _ _ _ _ _ _ _ _ _ _ _ _ _ O2), (eo_itn _ _ _ _ _ _ _ _ _ _ _ _ _ _ _ _ O), I18; reflexivity|].
  split; [exact N34|]. pose proof (eo_An _ _ _ _ _ _ _ _ _ _ _ _ _ _ _ _ O2) as NP.
  apply Rnot_le_lt. intro L. assert ((s_Anorm st2 : R) * s_Anorm st2 <= 5 * 5) by (apply Rmult_le_compat; assumption). lra.
Qed.

(** Code 1 is reached: the same operator without damping, [b = 1]. *)
Example ex_C102_code1 : exists o cnt', let kw := lkw 0 1 W1 W1 in
  @ls_solve K0 W1 W1 2 tq kw (v1 1) 0 = Ok (o, cnt') /\ frob_le tA 3 /\ 0 <= (l_atol kw : R) /\ 0 <= (l_btol kw : R) /\ (l_damp kw : R) = 0 /\
  o_istop o = 1%Z.
Proof.
  set (kw := lkw 0 1 W1 W1).
  destruct (ls_exact Rdiv sqrt Rdiv_ok sqrt_ok (Rn 1) (Rn 1) inorm inorm tq kw (v1 1) eq_refl eq_refl tAD ltac:(cbn; lia) 2 0 eq_refl ltac:(change (1 < 2)%nat; lia))
    as (o & c & xs & H & _). exists o, c. split; [exact H|]. split.
  { replace 3 with (sqrt (rsum (map (fun e : iv (Rn 1) => ip (tA e) (tA e)) (Num.basis 1)))).
    - exact (C102_frobenius (Rn 1) 1 tA tA tAD).
    - unfold rsum. cbn. apply sqrt_val; [lra|ring]. }
  split; [cbn; unfold Q2R; cbn; lra|]. split; [cbn; unfold Q2R; cbn; lra|]. split; [reflexivity|].
  destruct (t_start 0 1) as (st0 & E0 & P & I5 & I6 & I7 & I8 & I9 & I13 & I17 & I18 & I19 & I12 & I14 & I15 & I11 & I20). fold kw in E0, P.
  destruct (ex_body Rdiv sqrt Rdiv_ok sqrt_ok (Rn 1) (Rn 1) inorm inorm tq kw eq_refl eq_refl ltac:(cbn; lia) 1 st0 (v1 1) (v1 1) (v1 1) ltac:(lra) P)
    as (st1 & u' & v' & al' & EB & O).
  assert (Y : isub (tA (v1 1)) (iscale (s_alpha st0) (v1 1)) = izero).
  { rewrite I5. unfold isub, ineg, tA, v1. cbn. change (@izero (Rn 1)) with (v1 0). apply v1_eq. ring. }
  assert (B0 : inorm (isub (tA (v1 1)) (iscale (s_alpha st0) (v1 1))) = 0) by (rewrite Y; apply inorm_izero).
  pose proof (eo_r2 _ _ _ _ _ _ _ _ _ _ _ _ _ _ _ _ O) as ER. change (lp_A tq) with tA in ER. rewrite B0 in ER.
  change (l_damp kw : R) with 0 in ER. rewrite I7, I8, I13 in ER.
  assert (R3 : sqrt (3 * 3 + 0 * 0) = 3) by (apply sqrt_val; [lra|ring]). rewrite R3, R3 in ER.
  assert (R2 : (s_r2norm st1 : R) = 0) by (rewrite ER; apply sqrt_val; [lra|field]).
  assert (IS : s_istop st1 = 1%Z).
  { apply (an_code1 Rdiv sqrt Rdiv_ok (Rn 1) (Rn 1) inorm inorm tq kw 1 st0 st1 EB); [lra|exact R2|cbn; unfold Q2R; cbn; lra|cbn; unfold Q2R; cbn; lra| |].
    - exact (eo_An _ _ _ _ _ _ _ _ _ _ _ _ _ _ _ _ O).
    - rewrite (eo_xn _ _ _ _ _ _ _ _ _ _ _ _ _ _ _ _ O). apply sqrt_pos. }
  unfold ls_solve in H. change (l_wantvar kw) with false in H. cbv iota in H. rewrite E0 in H. cbn [rbind] in H.
  rewrite I6 in H. cbn [while] in H. unfold ls_cond at 1 in H. rewrite I19, I18 in H.
  change (ls_lim tq kw) with 1%Z in *. cbn [negb andb Z.of_nat Z.ltb Z.compare] in H. rewrite EB in H.
  unfold ls_cond in H. rewrite (eo_itn _ _ _ _ _ _ _ _ _ _ _ _ _ _ _ _ O), I18 in H.
  cbn [Nat.add Z.of_nat Pos.of_succ_nat Z.ltb Z.compare Pos.compare Pos.compare_cont] in H. rewrite andb_false_r in H. cbn [rbind] in H.
  injection H as <- _. exact IS.
Qed.
Print Assumptions C102_frobenius.
Print Assumptions C102_lsqr.
Print Assumptions C102_lsqr_bound.
Print Assumptions C102_lsqr_backward1.
Print Assumptions C102_lsqr_backward2.
Print Assumptions C102_lsmr.
Print Assumptions C102_lsmr_bound.
Print Assumptions C102_lsmr_backward1.
Print Assumptions C102_lsmr_backward2.
Print Assumptions C102_lsqr_overestimate_refuted.
