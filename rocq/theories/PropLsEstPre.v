(** Property C108: the norm and condition estimates of LSQR and LSMR with preconditioners, in exact
    arithmetic. *)
From Coq Require Import List Arith Lia Bool QArith ZArith Reals Lra Qreals.
From Verif Require Import Base Num SpanMath ToolsModel ToolsProof CgModel PropCg MinresModel MinresProof GkProof PropMinres
  LsqrModel LsqrFlow LsqrMath LsqrProof PropLsqr LsmrModel LsmrFlow LsmrMath LsmrProof PropLsmr AnormLs AnormLm Backward PropAnorm
  AcondLs AcondLm PropAcond Precon MinresPrecon LsqrPrecon LsmrPrecon CraigModel CraigFlow CraigMath CraigProof PropCraig CraigPrecon PropPrecon EstPre.
Import ListNotations.
Local Open Scope R_scope.

(** ** LSQR. *)
Section Lsqr.
Variables (dv : R -> R -> R) (sq : R -> R).
Hypothesis DV : dv_ok dv.
Hypothesis SQ : sq_ok sq.
Variables E1 E2 : IPS.
Notation KK := (exactK dv sq).
Notation WV := (exactV dv sq E1).
Notation WU := (exactV dv sq E2).
Variables (q : lprob WV WU) (kw : ls_kw WV WU) (b : iv E2).
(** [M] and [N] are the preconditioners, the identity if the argument is [None]. *)
Let M : iv E2 -> iv E2 := match l_M kw with Some P => P | None => fun z => z end.
Let N : iv E1 -> iv E1 := match l_N kw with Some P => P | None => fun z => z end.
Hypothesis SM : selfadj M.
Hypothesis PM : posdef M.
Hypothesis SN : selfadj N.
Hypothesis PN : posdef N.
Variable Ni : iv E1 -> iv E1.
Hypothesis NI : forall z, N (Ni z) = z.
Let A : iv E1 -> iv E2 := lp_A q.
Let At : iv E2 -> iv E1 := lp_At q.
Hypothesis AD : adjoint A At.
Hypothesis HW : (1 <= l_window kw)%nat.
Variables (fuel cnt : nat).
Let d : R := l_damp kw.
Let grad (x : iv E1) : iv E1 := isub (At (M (isub b (A x)))) (iscale (d * d) (Ni x)).
(** The square of the weighted norm of [A N w]. *)
Let mn (w : iv E1) : R := ip (M (A (N w))) (A (N w)).

Local Notation F1 := (pspace E1 N SN PN).
Local Notation F2 := (pspace E2 M SM PM).
Let nv1 (z : iv F1) : R := @inorm E1 (N z).
Local Notation XV := (exactVn dv sq F1 nv1).
Local Notation XU := (exactVn dv sq F2 (@inorm F2)).
Local Notation lq := (lpq dv sq E1 E2 q kw SM PM SN PN).
Local Notation lk := (lpkw dv sq E1 E2 kw SM PM SN PN).

Lemma ls_pull : forall o cnt', @ls_solve KK WV WU fuel q kw b cnt = Ok (o, cnt') ->
  exists o', @ls_solve KK XV XU fuel lq lk b cnt = Ok (o', cnt') /\
    o_itn o = @o_itn KK XV o' /\ (o_Anorm o : R) = @o_Anorm KK XV o' /\ (o_Acond o : R) = @o_Acond KK XV o' /\
    (o_x o : iv E1) = N (@o_x KK XV o').
Proof.
  intros o cnt' H. pose proof (lsolve_sim dv sq E1 E2 q kw b SM PM SN PN fuel cnt) as S.
  match type of S with _ = rmap _ ?w => change w with (@ls_solve KK XV XU fuel lq lk b cnt) in S end.
  rewrite H in S. destruct (@ls_solve KK XV XU fuel lq lk b cnt) as [[o' c]|]; [|discriminate].
  cbn [rmap fst snd] in S. injection S as -> ->. exists o'. repeat split; reflexivity.
Qed.

(** [Anorm^2] is the sum of [||A N w||_M^2 + damp^2] over a list orthonormal in the inner product of
    [N], with the exceptions of C102 when the weighted normal equations are solved. *)
Theorem C108_lsqr_anorm : forall o cnt', @ls_solve KK WV WU fuel q kw b cnt = Ok (o, cnt') ->
  exists (W : list (iv E1)) (e : R),
    p_orthonormal N W /\
    (forall w, In w W -> kry (fun z => At (M (A (N z)))) (At (M b)) (length W) w) /\
    (length W <= o_itn o <= S (length W))%nat /\
    (grad (o_x o) <> izero -> length W = o_itn o /\ e = 0) /\
    (o_Anorm o * o_Anorm o : R) = rsum (map mn W) + INR (length W) * (d * d) + e /\
    (e = 0 \/ d <> 0 /\ o_itn o = S (length W) /\ exists w, In w W /\ e = mn w).
Proof.
  intros o cnt' H. destruct (ls_pull o cnt' H) as (o' & H' & -> & EA & _ & EX).
  destruct (an_solve dv sq DV SQ F1 F2 nv1 (@inorm F2) lq lk b eq_refl eq_refl (lp_adj dv sq E1 E2 q kw SM PM SN PN AD) HW fuel cnt o' cnt' H')
    as (W & e & [[O U] K] & L & Z & S & C).
  exists W, e. split.
  { split.
    - eapply FOP_impl; [|exact O]. intros u v Huv. rewrite SN. exact Huv.
    - intros v Hv. rewrite SN. exact (U v Hv). }
  split. { intros w Hw. apply (proj1 (kry_eq dv sq E1 E2 q kw b SM PM SN PN (length W) w)). exact (K w Hw). }
  split; [exact L|].
  split. { intro NZ. rewrite EX in NZ.
    assert (GN : grad (N (@o_x KK XV o')) = @isub F1 (lp_At lq (@isub F2 b (lp_A lq (o_x o')))) (@iscale F1 (d * d) (o_x o'))).
    { unfold grad. rewrite (Ni_N dv sq E1 E2 kw SN PN Ni NI). reflexivity. }
    rewrite GN in NZ.
    destruct (Nat.eq_dec (@o_itn KK XV o') (Datatypes.S (length W))) as [Q|Q]; [exfalso; apply NZ; apply Z; left; exact Q|].
    split; [change (length W = @o_itn KK XV o'); lia|]. destruct (Req_dec e 0) as [E|E]; [exact E|exfalso; apply NZ; apply Z; right; exact E]. }
  rewrite EA. split; [etransitivity; [exact S|]; reflexivity|].
  destruct C as [C|(C1 & C2 & _ & w & I & C3)]; [left; exact C|right]. split; [exact C1|]. split; [exact C2|]. exists w. split; assumption.
Qed.

(** With [N = Cn Cn'] and [M = Cm Cm'], it is that sum for the operator [Cm' A Cn], over a list
    orthonormal in the ordinary sense; so [Anorm] is bounded by its Frobenius norm as in C102. *)
Theorem C108_lsqr_factor : forall (G1 G2 : IPS) (Cn : iv G1 -> iv E1) Cnt (Cm : iv G2 -> iv E2) Cmt,
  adjoint Cn Cnt -> (forall z, N z = Cn (Cnt z)) -> adjoint Cm Cmt -> (forall z, M z = Cm (Cmt z)) ->
  let B := fun w => Cmt (A (Cn w)) in
  forall o cnt', @ls_solve KK WV WU fuel q kw b cnt = Ok (o, cnt') ->
  (exists (W : list (iv G1)) (e : R),
    orthog W /\ (forall w, In w W -> ip w w = 1) /\ (length W <= o_itn o <= S (length W))%nat /\
    (grad (o_x o) <> izero -> length W = o_itn o /\ e = 0) /\
    (o_Anorm o * o_Anorm o : R) = rsum (map (fun w => ip (B w) (B w)) W) + INR (length W) * (d * d) + e /\
    (e = 0 \/ d <> 0 /\ o_itn o = S (length W) /\ exists w, In w W /\ e = ip (B w) (B w))) /\
  forall F, frob_le B F ->
    (d = 0 -> (o_Anorm o : R) <= F) /\
    (grad (o_x o) <> izero -> (o_Anorm o * o_Anorm o : R) <= F * F + INR (o_itn o) * (d * d)) /\
    (o_Anorm o * o_Anorm o : R) <= 2 * (F * F) + INR (o_itn o) * (d * d).
Proof.
  intros G1 G2 Cn Cnt Cm Cmt AN NC AM MC B o cnt' H.
  assert (EB : forall w, mn w = ip (B (Cnt w)) (B (Cnt w))).
  { intro w. unfold mn, B. rewrite ip_sym, MC, AM, NC. reflexivity. }
  destruct (C108_lsqr_anorm o cnt' H) as (W & e & O & K & L & NZ & S & C).
  assert (X : exists (W : list (iv G1)) (e : R),
    orthog W /\ (forall w, In w W -> ip w w = 1) /\ (length W <= o_itn o <= Datatypes.S (length W))%nat /\
    (grad (o_x o) <> izero -> length W = o_itn o /\ e = 0) /\
    (o_Anorm o * o_Anorm o : R) = rsum (map (fun w => ip (B w) (B w)) W) + INR (length W) * (d * d) + e /\
    (e = 0 \/ d <> 0 /\ o_itn o = Datatypes.S (length W) /\ exists w, In w W /\ e = ip (B w) (B w))).
  { exists (map Cnt W), e. destruct (factor_on E1 G1 N Cn Cnt AN NC W O) as [O1 O2].
    rewrite map_length, map_map. split; [exact O1|]. split; [exact O2|]. split; [exact L|]. split; [exact NZ|].
    split. { rewrite S. do 3 f_equal. apply map_ext. exact EB. }
    destruct C as [C|(C1 & C2 & w & I & C3)]; [left; exact C|right]. split; [exact C1|]. split; [exact C2|].
    exists (Cnt w). split; [apply in_map; exact I|]. rewrite C3. apply EB. }
  split; [exact X|]. clear W e O K L NZ S C.
  destruct X as (W & e & O & U & L & NZ & S & C). intros F FB.
  pose proof FB as [F0 FW]. specialize (FW W O U). pose proof (le_INR _ _ (proj1 L)) as LI. pose proof (Rle_0_sqr d) as D2. unfold Rsqr in D2.
  assert (EF : e <= F * F).
  { destruct C as [C|(_ & _ & w & I & C)]; [rewrite C; nra|]. rewrite C. apply (frob_one G1 G2 B F w FB). apply U. exact I. }
  split.
  { intro D. apply sq_le; [exact F0|]. destruct C as [C|(C & _)]; [|contradiction]. rewrite S, C, D. lra. }
  split.
  { intro Z. destruct (NZ Z) as [_ E0]. rewrite S, E0. nra. }
  rewrite S. nra.
Qed.

(** The update [ddnorm += norm(dk)^2] (lsqr.py:303) takes the Euclidean norm of [N w], so [Acond] mixes
    two norms: both bounds of C103 carry the factors that relate them. *)
Theorem C108_lsqr_acond : forall o cnt' mu nu sg, @ls_solve KK WV WU fuel q kw b cnt = Ok (o, cnt') ->
  0 <= mu -> 0 <= nu -> 0 <= sg ->
  (forall z, mu * mu * ip z (N z) <= ip (N z) (N z) <= nu * nu * ip z (N z)) ->
  (forall z, sg * sg * ip z (N z) <= mn z + d * d * ip z (N z)) ->
  0 <= (o_Anorm o : R) /\
  mu * (INR (o_itn o) - 1) <= (o_Acond o : R) /\
  (grad (o_x o) <> izero -> mu * INR (o_itn o) <= (o_Acond o : R)) /\
  sg * o_Acond o <= nu * sqrt (INR (o_itn o)) * o_Anorm o.
Proof.
  intros o cnt' mu nu sg H MU NU S0 MN SG. destruct (ls_pull o cnt' H) as (o' & H' & -> & EA & EC & EX).
  assert (NB : forall z : iv F1, mu * mu * @ip F1 z z <= nv1 z * nv1 z <= nu * nu * @ip F1 z z).
  { intro z. unfold nv1. rewrite inorm_sq. change (@ip F1 z z) with (ip (N z) z). rewrite (ip_sym (N z) z). apply MN. }
  assert (SB : forall z : iv F1, sg * sg * @ip F1 z z <= @ip F2 (lp_A lq z) (lp_A lq z) + l_damp lk * l_damp lk * @ip F1 z z).
  { intro z. change (@ip F1 z z) with (ip (N z) z). rewrite (ip_sym (N z) z). apply SG. }
  destruct (ac_solve dv sq DV SQ F1 F2 nv1 (@inorm F2) mu nu MU NB lq lk b eq_refl eq_refl (lp_adj dv sq E1 E2 q kw SM PM SN PN AD) HW sg SB
    fuel cnt o' cnt' H') as (dd & A1 & A2 & A3 & A4 & A5 & A6).
  rewrite EA, EC. split; [exact A1|]. split; [exact A6|].
  split.
  { intro NZ. apply A5. intro Z. apply NZ. rewrite EX. unfold grad. rewrite (Ni_N dv sq E1 E2 kw SN PN Ni NI). exact Z. }
  rewrite A3. replace (sg * (@o_Anorm KK XV o' * sqrt dd)) with (sg * sqrt dd * @o_Anorm KK XV o') by rring.
  apply Rmult_le_compat_r; [exact A1|]. rewrite <- (sqrt_square sg S0), <- (sqrt_square nu NU) at 1.
  rewrite <- sqrt_mult_alt, <- sqrt_mult_alt by nra. apply sqrt_le_1_alt. lra.
Qed.

(** With [N = c^2 I] and no damping the preconditioned operator is [c A], whose condition number is that
    of [A]; but both bounds on [Acond] are proportional to [c]. *)
Theorem C108_lsqr_scaled : forall c o cnt', 0 < c -> (forall z, N z = iscale (c * c) z) -> l_M kw = None -> d = 0 ->
  @ls_solve KK WV WU fuel q kw b cnt = Ok (o, cnt') ->
  c * (INR (o_itn o) - 1) <= (o_Acond o : R) /\
  (At (isub b (A (o_x o))) <> izero -> c * INR (o_itn o) <= (o_Acond o : R)) /\
  forall sg F, 0 <= sg -> (forall z, sg * sg * ip z z <= ip (A z) (A z)) -> frob_le A F ->
    sg * o_Acond o <= c * (sqrt (INR (o_itn o)) * F).
Proof.
  intros c o cnt' C0 NC MN D0 H.
  assert (EM : forall z, M z = z) by (intro z; unfold M; rewrite MN; reflexivity).
  assert (AS : forall t z, A (iscale t z) = iscale t (A z)) by (destruct (adjoint_lin A At AD) as [_ LS]; exact LS).
  assert (NB : forall z, c * c * ip z (N z) <= ip (N z) (N z) <= c * c * ip z (N z)).
  { intro z. rewrite NC. rewrite ip_scalel, (ip_sym z). lra. }
  assert (MQ : forall z, mn z = c * c * (c * c) * ip (A z) (A z)).
  { intro z. unfold mn. rewrite EM, NC, AS. rewrite ip_scalel, (ip_sym (A z)), ip_scalel. ring. }
  assert (GR : grad (o_x o) = At (isub b (A (o_x o)))).
  { unfold grad. rewrite EM, D0. apply ip_ext. intro w. ipx. ring. }
  destruct (C108_lsqr_acond o cnt' c c 0 H) as (AP & L1 & L2 & _); [lra|lra|lra|exact NB| |].
  { intro z. rewrite MQ. rewrite NC. pose proof (ip_pos (A z)) as P1. pose proof (ip_pos z) as P2. rewrite (ip_sym z), ip_scalel.
    pose proof (Rle_0_sqr (c * c)) as Q. unfold Rsqr in Q. rewrite D0. nra. }
  split; [exact L1|]. split; [rewrite <- GR; exact L2|].
  intros sg F S0 SG FB.
  destruct (C108_lsqr_acond o cnt' c c (c * sg) H) as (_ & _ & _ & U); [lra|lra|nra|exact NB| |].
  { intro z. rewrite MQ, D0, NC. rewrite (ip_sym z), ip_scalel. specialize (SG z).
    assert (Q : 0 <= c * c * (c * c)) by nra. nra. }
  assert (CAD : adjoint (fun z : iv E1 => iscale c z) (fun z => iscale c z)) by (intros u v; ipx; ring).
  assert (IAD : adjoint (fun z : iv E2 => z) (fun z => z)) by (intros u v; reflexivity).
  assert (FB2 : frob_le (fun w => A (iscale c w)) (c * F)).
  { destruct FB as [F0 FW]. split; [nra|]. intros W O U1. specialize (FW W O U1).
    assert (RS : rsum (map (fun w => ip (A (iscale c w)) (A (iscale c w))) W) = c * c * rsum (map (fun w => ip (A w) (A w)) W)).
    { clear - AS. unfold rsum. induction W as [|w W IH]; cbn [map fold_right]; [ring|]. rewrite IH, AS.
      rewrite ip_scalel, (ip_sym (A w)), ip_scalel. ring. }
    rewrite RS. nra. }
  destruct (C108_lsqr_factor E1 E2 (fun z => iscale c z) (fun z => iscale c z) (fun z => z) (fun z => z) CAD) with (4 := H) as [_ FBD].
  { intro z. rewrite NC. apply ip_ext. intro w. ipx. ring. }
  { exact IAD. }
  { exact EM. }
  destruct (FBD (c * F) FB2) as [B1 _]. specialize (B1 D0).
  apply Rmult_le_reg_l with c; [exact C0|]. rewrite <- Rmult_assoc. eapply Rle_trans; [exact U|].
  replace (c * (c * (sqrt (INR (o_itn o)) * F))) with (c * sqrt (INR (o_itn o)) * (c * F)) by ring.
  apply Rmult_le_compat_l; [|exact B1]. apply Rmult_le_pos; [lra|apply sqrt_pos].
Qed.
End Lsqr.

(** ** LSMR. *)
Section Lsmr.
Variables (dv : R -> R -> R) (sq : R -> R).
Hypothesis DV : dv_ok dv.
Hypothesis SQ : sq_ok sq.
Variables E1 E2 : IPS.
Notation KK := (exactK dv sq).
Notation WV := (exactV dv sq E1).
Notation WU := (exactV dv sq E2).
Variables (q : lprob WV WU) (kw : lm_kw WV WU) (b : iv E2).
Let M : iv E2 -> iv E2 := match m_M kw with Some P => P | None => fun z => z end.
Let N : iv E1 -> iv E1 := match m_N kw with Some P => P | None => fun z => z end.
Hypothesis SM : selfadj M.
Hypothesis PM : posdef M.
Hypothesis SN : selfadj N.
Hypothesis PN : posdef N.
Let A : iv E1 -> iv E2 := lp_A q.
Let At : iv E2 -> iv E1 := lp_At q.
Hypothesis AD : adjoint A At.
Hypothesis HW : (1 <= m_window kw)%nat.
Variables (fuel cnt : nat) (ob : lm_obj WV).
Let d : R := m_damp kw.
Let mn (w : iv E1) : R := ip (M (A (N w))) (A (N w)).
Hypothesis NZ : At (M b) <> izero.

Local Notation F1 := (pspace E1 N SN PN).
Local Notation F2 := (pspace E2 M SM PM).
Let nv1 (z : iv F1) : R := @inorm E1 (N z).
Local Notation XV := (exactVn dv sq F1 nv1).
Local Notation XU := (exactVn dv sq F2 (@inorm F2)).
Local Notation lq := (mpq dv sq E1 E2 q kw SM PM SN PN).
Local Notation lk := (mpkw dv sq E1 E2 kw SM PM SN PN).
Let nvp : forall z : iv F1, 0 <= nv1 z := nv1_pos dv sq E1 E2 kw SN PN.
Let nvz : nv1 (@izero F1) = 0 := nv1_zero dv sq E1 E2 kw SN PN.
Let adp : @adjoint F1 F2 (lp_A lq) (lp_At lq) := mp_adj dv sq E1 E2 q kw SM PM SN PN AD.
Local Notation oo := (oob dv sq E1 E2 kw SN PN ob).

Lemma lm_pull : @lm_solve KK WV WU fuel q kw ob b cnt =
  rmap (fun '(r, o, c) => (Tmr dv sq E1 E2 kw SN PN r, Tmo dv sq E1 E2 kw SN PN ob o (match a_x o with Some _ => true | None => false end), c))
    (@lm_solve KK XV XU fuel lq lk oo b cnt).
Proof. exact (msolve_sim dv sq E1 E2 q kw b SM PM SN PN fuel ob cnt). Qed.

(** [normA]: one vector per iteration, from a list orthonormal in the inner product of [N].  If no
    iteration was made it is [||A'Mb||_N / ||b||_M]. *)
Theorem C108_lsmr_anorm : forall r ob' cnt', @lm_solve KK WV WU fuel q kw ob b cnt = Ok (r, ob', cnt') ->
  0 <= (r_normA r : R) /\
  (r_itn r = 0%nat -> r_normA r * sqrt (ip (M b) b) = sqrt (ip (At (M b)) (N (At (M b))))) /\
  ((1 <= r_itn r)%nat -> exists W : list (iv E1), length W = r_itn r /\ p_orthonormal N W /\
    (forall w, In w W -> kry (fun z => At (M (A (N z)))) (At (M b)) (r_itn r) w) /\
    (r_normA r : R) = sqrt (rsum (map mn W))).
Proof.
  intros r ob' cnt' H. rewrite lm_pull in H.
  destruct (@lm_solve KK XV XU fuel lq lk oo b cnt) as [[[r' o'] c']|] eqn:H'; [|discriminate].
  cbn [rmap] in H. injection H as <- _ _.
  destruct (am_solve dv sq DV SQ F1 F2 nv1 (@inorm F2) nvp nvz lq lk b eq_refl eq_refl adp HW fuel oo cnt r' o' c' NZ H') as [OK P].
  unfold Tmr. cbn [r_itn r_normA]. split; [exact P|]. destruct OK as [[I0 EA]|(W & [[O U] K] & L & I1 & S)].
  - split; [intros _|intro Q; exfalso; apply (Nat.nle_succ_0 0); exact (eq_ind _ (fun n => (1 <= n)%nat) Q _ I0)]. etransitivity; [exact EA|]. unfold inorm. f_equal. change (ip (N (At (M b))) (At (M b)) = ip (At (M b)) (N (At (M b)))). apply ip_sym.
  - split; [intro Q; exfalso; apply (Nat.nle_succ_0 0); exact (eq_ind _ (fun n => (1 <= n)%nat) I1 _ Q)|]. intros _. exists W. rewrite L in K. split; [exact L|].
    split. { split; [eapply FOP_impl; [|exact O]; intros u v Huv; rewrite SN; exact Huv|intros v Hv; rewrite SN; exact (U v Hv)]. }
    split. { intros w Hw. apply (proj1 (mkry_eq dv sq E1 E2 q kw b SM PM SN PN _ w)). exact (K w Hw). }
    symmetry. apply sqrt_val; [exact P|symmetry; exact S].
Qed.

(** With [N = Cn Cn'] and [M = Cm Cm'], [normA] never exceeds the Frobenius norm of [Cm' A Cn]. *)
Theorem C108_lsmr_factor : forall (G1 G2 : IPS) (Cn : iv G1 -> iv E1) Cnt (Cm : iv G2 -> iv E2) Cmt,
  adjoint Cn Cnt -> (forall z, N z = Cn (Cnt z)) -> adjoint Cm Cmt -> (forall z, M z = Cm (Cmt z)) ->
  let B := fun w => Cmt (A (Cn w)) in
  forall r ob' cnt', @lm_solve KK WV WU fuel q kw ob b cnt = Ok (r, ob', cnt') ->
  ((1 <= r_itn r)%nat -> exists W : list (iv G1), length W = r_itn r /\ orthog W /\ (forall w, In w W -> ip w w = 1) /\
    (r_normA r : R) = sqrt (rsum (map (fun w => ip (B w) (B w)) W))) /\
  forall F, frob_le B F -> (1 <= r_itn r)%nat -> (r_normA r : R) <= F.
Proof.
  intros G1 G2 Cn Cnt Cm Cmt AN NC AM MC B r ob' cnt' H.
  assert (EB : forall w, mn w = ip (B (Cnt w)) (B (Cnt w))).
  { intro w. unfold mn, B. rewrite ip_sym, MC, AM, NC. reflexivity. }
  destruct (C108_lsmr_anorm r ob' cnt' H) as (P & _ & X).
  assert (Y : (1 <= r_itn r)%nat -> exists W : list (iv G1), length W = r_itn r /\ orthog W /\ (forall w, In w W -> ip w w = 1) /\
    (r_normA r : R) = sqrt (rsum (map (fun w => ip (B w) (B w)) W))).
  { intro I. destruct (X I) as (W & L & O & K & S). exists (map Cnt W). destruct (factor_on E1 G1 N Cn Cnt AN NC W O) as [O1 O2].
    rewrite map_length, map_map. split; [exact L|]. split; [exact O1|]. split; [exact O2|]. rewrite S. do 2 f_equal. apply map_ext. exact EB. }
  split; [exact Y|]. intros F [F0 FW] I. destruct (Y I) as (W & L & O & U & ->). specialize (FW W O U).
  rewrite <- (sqrt_square F F0). apply sqrt_le_1_alt. exact FW.
Qed.

(** If [conlim] times the weighted norm of [(A; damp I) N v] is at most 1, [v] being the gradient [A'Mb]
    normalised in the inner product of [N], then LSMR makes one iteration whatever the tolerances are. *)
Theorem C108_lsmr_conlim :
  let lim := match m_itnlim kw with None => Z.of_nat (Nat.min (lp_m q) (lp_n q)) | Some l => l end in
  (Z.to_nat lim < fuel)%nat -> (1 <= lim)%Z -> 0 < (m_conlim kw : R) ->
  (let g := At (M b) in m_conlim kw * m_conlim kw * (mn g + d * d * ip g (N g)) <= ip g (N g)) ->
  (exists r ob' cnt', @lm_solve KK WV WU fuel q kw ob b cnt = Ok (r, ob', cnt') /\ r_itn r = 1%nat /\
     (r_istop r = 1 \/ r_istop r = 2 \/ r_istop r = 3)%Z /\ exists t, r_x r = iscale t (N (At (M b)))) \/
  (@lm_solve KK WV WU fuel q kw ob b cnt = Err ZeroDivisionError /\ d = 0 /\ exists t, A (iscale t (N (At (M b)))) = b).
Proof.
  intros lim HF HL HC HG. cbv zeta in HG.
  destruct (adjoint_lin N N SN) as [_ NS].
  destruct (AcondLm.cm_solve dv sq DV SQ F1 F2 nv1 (@inorm F2) nvp nvz lq lk b eq_refl eq_refl adp HW fuel oo cnt HF NZ HL HC)
    as [(r & o & c & H & I & S & t & X)|(H & D & t & X)].
  - cbv zeta. change (m_conlim kw * m_conlim kw * (mn (At (M b)) + d * d * ip (N (At (M b))) (At (M b))) <= ip (N (At (M b))) (At (M b))).
    rewrite (ip_sym (N (At (M b)))). exact HG.
  - left. change (@lm_solve KK XV XU fuel lq lk oo b cnt = Ok (r, o, c)) in H. rewrite lm_pull, H. cbn [rmap].
    eexists _, _, _. split; [reflexivity|]. unfold Tmr. cbn [r_itn r_istop r_x]. split; [exact I|]. split; [exact S|].
    exists t. rewrite <- NS. exact (f_equal N X).
  - right. change (@lm_solve KK XV XU fuel lq lk oo b cnt = Err ZeroDivisionError) in H. rewrite lm_pull, H. split; [reflexivity|].
    split; [exact D|]. exists t. rewrite <- NS. exact X.
Qed.
End Lsmr.

(** ** The hypotheses hold: the damped 3 by 2 problem of PropPrecon with [M = diag(1, 2, 4)] and
    [N = diag(3, 1/5)]; the same problem without damping and with [N = 9 I]. *)
Lemma dg_bounds : forall z : iv (Rn 2),
  sqrt (/ 5) * sqrt (/ 5) * ip z (dgN z) <= ip (dgN z) (dgN z) <= sqrt 3 * sqrt 3 * ip z (dgN z).
Proof. rewrite !sqrt_sqrt by lra. intros [a [c []]]. cbn. pose proof (Rle_0_sqr a) as P1. pose proof (Rle_0_sqr c) as P2. unfold Rsqr in *. lra. Qed.

Definition nine (z : iv (Rn 2)) : iv (Rn 2) := iscale (3 * 3) z.
Lemma nine_ok : selfadj nine /\ posdef nine /\ forall z, nine (iscale (/ (3 * 3)) z) = z.
Proof.
  split; [intros u v; unfold nine; ipx; ring|]. split.
  - intros z Z. unfold nine. rewrite ip_sym, ip_scalel || rewrite ip_scalel. apply Rmult_lt_0_compat; [lra|]. apply ip_nz. exact Z.
  - intro z. unfold nine. apply (@ip_ext (Rn 2)). intro w. ipx. field.
Qed.
Definition nkw : ls_kw W2 W3 :=
  @mklskw K0 W2 W3 0 0 None (Some (nine : vc W2 -> vc W2)) 0 0 0 false 0 true true 5 (fun _ => 0 : sc K0) (fun _ => false).

Definition sCn (z : iv (Rn 2)) : iv (Rn 2) := v2 (sqrt 3 * fst z) (sqrt (/ 5) * fst (snd z)).
Definition sCm (y : iv (Rn 3)) : iv (Rn 3) := v3 (fst y) (sqrt 2 * fst (snd y)) (2 * fst (snd (snd y))).
Lemma s_factors : adjoint sCn sCn /\ (forall z, dgN z = sCn (sCn z)) /\ adjoint sCm sCm /\ (forall z, dgM z = sCm (sCm z)).
Proof.
  assert (R3 : sqrt 3 * sqrt 3 = 3) by (apply sqrt_sqrt; lra). assert (R5 : sqrt (/ 5) * sqrt (/ 5) = / 5) by (apply sqrt_sqrt; lra).
  assert (R2 : sqrt 2 * sqrt 2 = 2) by (apply sqrt_sqrt; lra).
  split. { intros [a [c []]] [f [g []]]. cbn. ring. }
  split. { intros [a [c []]]. unfold dgN, sCn, v2. cbn. apply v2_eq.
    - change (3 * a = sqrt 3 * (sqrt 3 * a) :> R). rewrite <- Rmult_assoc, R3. ring.
    - change (c / 5 = sqrt (/ 5) * (sqrt (/ 5) * c) :> R). rewrite <- Rmult_assoc, R5. lra. }
  split. { intros [a [c [h []]]] [f [g [k []]]]. cbn. ring. }
  intros [a [c [h []]]]. unfold dgM, sCm, v3. cbn.
  apply f_equal2; [reflexivity|]. apply f_equal2; [|apply f_equal2; [|reflexivity]].
  - change (2 * c = sqrt 2 * (sqrt 2 * c) :> R). rewrite <- Rmult_assoc, R2. ring.
  - change (4 * h = 2 * (2 * h) :> R). ring.
Qed.

Example ex_C108_lsqr : l_M plkw = Some dgM /\ l_N plkw = Some dgN /\ (1 <= l_window plkw)%nat /\ (l_damp plkw : R) = 2 /\
  adjoint xA xAt /\ selfadj dgM /\ posdef dgM /\ selfadj dgN /\ posdef dgN /\ (forall z, dgN (dgNi z) = z) /\
  adjoint sCn sCn /\ (forall z, dgN z = sCn (sCn z)) /\ adjoint sCm sCm /\ (forall z, dgM z = sCm (sCm z)) /\
  (forall z : iv (Rn 2), sqrt (/ 5) * sqrt (/ 5) * ip z (dgN z) <= ip (dgN z) (dgN z) <= sqrt 3 * sqrt 3 * ip z (dgN z)) /\
  (forall z : iv (Rn 2), 2 * 2 * ip z (dgN z) <= ip (dgM (xA (dgN z))) (xA (dgN z)) + l_damp plkw * l_damp plkw * ip z (dgN z)) /\
  (exists o cnt', @ls_solve K0 W2 W3 7 xq plkw xb 0 = Ok (o, cnt') /\ o_itn o <> 0%nat) /\
  (exists o cnt', @ls_solve K0 W2 W3 7 xq nkw xb 0 = Ok (o, cnt') /\ 3 * (INR (o_itn o) - 1) <= (o_Acond o : R)).
Proof.
  destruct ex_C76 as (X1 & X2 & X3 & X4 & X5 & X6 & X7 & X8 & X9 & X10 & X11 & o & c & H & _ & I).
  destruct s_factors as (F1 & F2 & F3 & F4). destruct nine_ok as (N1 & N2 & N3).
  do 3 (split; [assumption|]). split; [reflexivity|]. do 6 (split; [assumption|]). do 4 (split; [assumption|]).
  split; [exact dg_bounds|]. split.
  { intro z. change (l_damp plkw : R) with 2. pose proof (p_pos (Rn 3) dgM X8 (xA (dgN z))) as P. lra. }
  split; [exists o, c; split; assumption|].
  destruct (C76_lsqr Rdiv sqrt Rdiv_ok sqrt_ok (Rn 2) (Rn 3) xq nkw xb (id_selfadj (Rn 3)) (id_posdef (Rn 3)) N1 N2 _ N3 xAD ltac:(cbn; lia) eq_refl 7 0 ltac:(cbn; lia))
    as (o2 & c2 & xs & H2 & _).
  exists o2, c2. split; [exact H2|].
  exact (proj1 (C108_lsqr_scaled Rdiv sqrt Rdiv_ok sqrt_ok (Rn 2) (Rn 3) xq nkw xb (id_selfadj (Rn 3)) (id_posdef (Rn 3)) N1 N2 _ N3 xAD ltac:(cbn; lia) 7 0
    3 o2 c2 ltac:(lra) (fun z => eq_refl) eq_refl eq_refl H2)).
Qed.

(** LSMR with the default parameters and the preconditioner [1e-18 I] makes one iteration. *)
Definition tiny (z : iv (Rn 2)) : iv (Rn 2) := iscale (/ 1000000000000000000) z.
Lemma tiny_ok : selfadj tiny /\ posdef tiny.
Proof.
  split; [intros u v; unfold tiny; ipx; ring|]. intros z Z. unfold tiny. rewrite ip_sym, ip_scalel.
  apply Rmult_lt_0_compat; [lra|]. apply ip_nz. exact Z.
Qed.
Definition tkw : lm_kw W2 W3 :=
  @mklmkw K0 W2 W3 0 (Q2R (1 # 1000000000)) (Q2R (1 # 1000000000)) (Q2R 100000000) None (Some (tiny : vc W2 -> vc W2)) None
    (Q2R (1 # 1000000)) true true 5 (fun _ => 0 : sc K0).
Example ex_C108_lsmr : m_M pmkw = Some dgM /\ m_N pmkw = Some dgN /\ xAt (dgM xb) <> izero /\
  (exists r ob' cnt', @lm_solve K0 W2 W3 3 xq pmkw lm_obj0 xb 0 = Ok (r, ob', cnt')) /\
  selfadj tiny /\ posdef tiny /\ xAt xb <> izero /\
  (exists r ob' cnt', @lm_solve K0 W2 W3 3 xq tkw lm_obj0 xb 0 = Ok (r, ob', cnt') /\ r_itn r = 1%nat /\
     exists t, r_x r = iscale t (tiny (xAt xb))).
Proof.
  destruct ex_C77 as (X1 & X2 & _ & _ & _ & _ & _ & _ & _ & _ & NZ & _ & H). destruct tiny_ok as [T1 T2].
  do 3 (split; [assumption|]). split; [exact H|]. do 2 (split; [assumption|]).
  assert (NZ1 : xAt xb <> izero). { intro Z. apply (f_equal (fun z : iv (Rn 2) => fst z)) in Z. cbn in Z. lra. }
  split; [exact NZ1|].
  destruct (C108_lsmr_conlim Rdiv sqrt Rdiv_ok sqrt_ok (Rn 2) (Rn 3) xq tkw xb (id_selfadj (Rn 3)) (id_posdef (Rn 3)) T1 T2 xAD ltac:(cbn; lia) 3 0 lm_obj0 NZ1)
    as [(r & ob' & c & H2 & I & _ & t & X)|(_ & _ & t & X)].
  - cbn; lia.
  - cbn; lia.
  - cbn. rewrite ten_sq. lra.
  - cbv zeta. change (m_conlim tkw : R) with (Q2R 100000000). change (m_damp tkw : R) with 0. rewrite ten_sq. cbn. lra.
  - exists r, ob', c. split; [exact H2|]. split; [exact I|]. exists t. exact X.
  - exfalso. apply (f_equal (fun z : iv (Rn 3) => (fst z, (fst (snd z), fst (snd (snd z)))))) in X. cbn in X. injection X as Y1 Y2 Y3. lra.
Qed.

Print Assumptions C108_lsqr_anorm.
Print Assumptions C108_lsqr_factor.
Print Assumptions C108_lsqr_acond.
Print Assumptions C108_lsqr_scaled.
Print Assumptions C108_lsmr_anorm.
Print Assumptions C108_lsmr_factor.
Print Assumptions C108_lsmr_conlim.
