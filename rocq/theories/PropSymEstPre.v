(** Property C107, second part: the norm and condition estimates of preconditioned SYMMLQ. *)
From Coq Require Import List Arith Lia Bool QArith ZArith Reals Lra Qreals.
From Verif Require Import Base Num ToolsModel CgModel CgProof Precon MinresProof SpanMath GkProof LsqrMath AnormLs PropAnorm
  SymmlqModel SymmlqProof PropMinres PropSymmlq PropSymmlqPre PropSymEst EstPre.
Import ListNotations.
Local Open Scope R_scope.

Section Symmlq.
Variables (dv : R -> R -> R) (sq : R -> R).
Hypothesis DV : dv_ok dv.
Hypothesis SQ : sq_ok sq.
Variable E : IPS.
Local Notation KK := (exactK dv sq).
Local Notation WW := (exactV dv sq E).
Local Notation eps := (@machine_eps KK).
Variables (q : kprob WW) (kw : @sy_kw KK) (b : iv E) (P : iv E -> iv E) (fuel : nat) (it0 : list (iv E)) (cnt : nat).
Hypothesis HP : q_P q = Some (P : vc WW -> vc WW).
Hypothesis SP : selfadj P.
Hypothesis PD : posdef P.
Hypothesis SA : selfadj (q_A q : iv E -> iv E).
Hypothesis CB : y_check kw = true -> 0 <= q_cbrt q eps.
Hypothesis LB : (1 <= ilen b)%nat.
Hypothesis LPB : (1 <= ilen (P b))%nat.
Hypothesis LF : (@sy_lim KK WW kw b < fuel)%nat.
Hypothesis L2 : (2 <= @sy_lim KK WW kw b)%nat.
Let sh := match y_shift kw with Some s => s | None => 0 end.
Let At (z : iv E) : iv E := isub (q_A q z) (iscale sh z).
Let pnorm (z : iv E) : R := sqrt (ip z (P z)).
Hypothesis B0 : b <> izero.
Hypothesis AB : At (P b) <> izero.
Variables (o : sy_out WW) (cnt' : nat).
Hypothesis RUN : @sy_solve KK WW fuel (Some (opmul (q_A q))) q it0 b kw cnt = Ok (o, cnt').
Local Notation E' := (pspace E P SP PD).
Local Notation WW' := (exactV dv sq E').
Local Notation spq := (spq dv sq E q kw P SP PD).
Local Notation spkw := (spkw dv sq kw).
Let A' (z : iv E) : iv E' := @isub E' (q_A spq z) (@iscale E' 0 z).

Let EA : forall z : iv E, A' z = At (P z).
Proof. intro z. apply (sp_At' dv sq E q kw P SP PD). Qed.
Let EN : forall z : iv E, @inorm E' z = pnorm z.
Proof. intro z. unfold inorm, pnorm. cbn. rewrite ip_sym. reflexivity. Qed.
Let EI : forall u v : iv E, @ip E' u v = ip u (P v).
Proof. intros u v. cbn. symmetry. apply SP. Qed.
Let EK : forall k z, @kry E' A' b k z <-> kry (fun z => At (P z)) b k z.
Proof.
  intros k z. rewrite kry_same. split; apply kry_extf; intro y; [exact (EA y)|symmetry; exact (EA y)].
Qed.
Let SA' : @selfadj E' (q_A spq : iv E' -> iv E') := sp_SA dv sq E q kw P SP PD SA.
Let CB' : y_check spkw = true -> 0 <= q_cbrt spq eps := fun X => False_ind _ (diff_false_true X).
Let AB' : A' b <> izero.
Proof. rewrite EA. exact AB. Qed.

Lemma es_run : exists o' c', @sy_solve KK WW' fuel (Some (opmul (q_A spq))) spq [] b spkw cnt = Ok (o', c') /\
  u_acond o = u_acond o' /\ u_anorm o = u_anorm o' /\ u_istop o = u_istop o' /\ u_itn o = u_itn o' /\ (u_x o : iv E) = P (u_x o').
Proof.
  destruct (C80_symmlq dv sq DV SQ E' spq spkw b fuel [] cnt eq_refl SA' CB' LB B0 LF L2) as (o' & c' & ES & _).
  destruct (sp_solve dv sq DV SQ E q kw b P HP SP PD SA CB B0 fuel it0 cnt LB LPB LF o' c' ES)
    as (o1 & c & ES' & E1 & E2 & E3 & E4 & E5 & E6 & E7 & E8 & E9).
  rewrite RUN in ES'. injection ES' as <- <-. exists o', c'. auto 10.
Qed.

(** [anorm^2] is a sum, over a list orthonormal in [<u, P v>], of the squares of the [P]-norms of
    [(A - shift I) P v]. *)
Theorem C107_symmlq_anorm : exists V : list (iv E),
  p_orthonormal P V /\ (forall v, In v V -> kry (fun z => At (P z)) b (u_itn o) v) /\ length V = u_itn o /\
  (u_anorm o * u_anorm o : R) = rsum (map (fun v => ip (At (P v)) (P (At (P v)))) V).
Proof.
  destruct es_run as (o' & c' & ES & E3 & E4 & E5 & E6 & E2).
  destruct (C105_anorm dv sq DV SQ E' spq spkw b fuel [] cnt eq_refl SA' CB' LB LF B0 AB' o' c' ES) as (V & V1 & V2 & V3 & V4 & V5).
  exists V. split; [split|].
  - eapply FOP_impl; [|exact V1]. intros u v Q. rewrite <- EI. exact Q.
  - intros v Hv. rewrite <- EI. apply V2. exact Hv.
  - rewrite E6, E4. split; [intros v Hv; apply EK; apply V3; exact Hv|]. split; [exact V4|].
    rewrite V5. f_equal. apply map_ext. intro v.
    change (@ip E' (A' v) (A' v) = ip (At (P v)) (P (At (P v)))). rewrite EA. apply EI.
Qed.

(** So it estimates the norm of [Ct (A - shift I) C] when [P = C Ct], from below. *)
Theorem C107_symmlq_factor : forall (E1 : IPS) (C : iv E1 -> iv E) (Ct : iv E -> iv E1),
  adjoint C Ct -> (forall z, P z = C (Ct z)) ->
  (exists W : list (iv E1), orthog W /\ (forall w, In w W -> ip w w = 1) /\ length W = u_itn o /\
     (u_anorm o * u_anorm o : R) = rsum (map (fun w => ip (Ct (At (C w))) (Ct (At (C w)))) W)) /\
  (forall F, frob_le (fun w => Ct (At (C w))) F -> (u_anorm o : R) <= F).
Proof.
  intros E1 C Ct AD PC. destruct C107_symmlq_anorm as (V & V1 & V2 & V3 & V5).
  rewrite (factor_sum E E1 P At C Ct AD PC) in V5.
  destruct (factor_on E E1 P C Ct AD PC V V1) as [W1 W2]. split.
  - exists (map Ct V). split; [exact W1|]. split; [exact W2|]. rewrite map_length. auto.
  - intros F [F0 FW]. specialize (FW _ W1 W2). rewrite <- V5 in FW.
    destruct (Rle_lt_dec (u_anorm o : R) 0) as [N|N]; [lra|]. nra.
Qed.

Theorem C107_symmlq_scaled : forall c, (forall z, P z = iscale (c * c) z) -> exists W : list (iv E),
  orthog W /\ (forall w, In w W -> ip w w = 1) /\ length W = u_itn o /\
  (u_anorm o * u_anorm o : R) = c * c * (c * c) * rsum (map (fun w => ip (At w) (At w)) W).
Proof.
  intros c PC.
  assert (LA : forall a z, At (iscale a z) = iscale a (At z)).
  { intros a z. unfold At. rewrite (lin_scale _ (adjoint_lin _ _ SA)). veq. }
  destruct (C107_symmlq_factor E (iscale c) (iscale c)) as [(W & W1 & W2 & W3 & W5) _].
  { intros u v. ipx. ring. }
  { intro z. rewrite PC. veq. }
  exists W. split; [exact W1|]. split; [exact W2|]. split; [exact W3|].
  rewrite W5. clear W1 W2 W3 W5. induction W as [|w W IH]; [unfold rsum; cbn; ring|].
  unfold rsum in *. cbn [map fold_right]. rewrite IH. rewrite LA. ipx. ring.
Qed.

(** From the second iteration on [acond] is at least the inverse cosine of an angle between [b] and [A P b]. *)
Theorem C107_symmlq_acond_low : (2 <= u_itn o)%nat ->
  pnorm (At (P b)) * pnorm b <= u_acond o * (Rabs (ip (P b) (At (P b))) + eps * ip b (P b)).
Proof.
  destruct es_run as (o' & c' & ES & E3 & E4 & E5 & E6 & E2). rewrite E6, E3. intro I2.
  pose proof (C105_acond_low dv sq DV SQ E' spq spkw b fuel [] cnt eq_refl SA' CB' LB LF B0 AB' o' c' ES I2) as H.
  change (@inorm E' (A' b) * @inorm E' b <= u_acond o' * (Rabs (@ip E' b (A' b)) + eps * @ip E' b b)) in H.
  rewrite (EI b b), !EN, EA in H. exact H.
Qed.

(** It is at most the condition number of the preconditioned operator when that is definite. *)
Theorem C107_symmlq_definite : forall s l, 0 < s ->
  (forall k z, kry (fun z => At (P z)) b k z ->
     s * ip z (P z) <= Rabs (ip (P z) (At (P z))) /\ pnorm (At (P z)) <= l * pnorm z) ->
  1 <= u_acond o <= (l + eps) / s /\ (u_istop o = 4%Z -> 1 / 10 / eps <= (l + eps) / s).
Proof.
  intros s l S0 SL. destruct es_run as (o' & c' & ES & E3 & E4 & E5 & E6 & E2). rewrite E3, E5.
  apply (C105_definite dv sq DV SQ E' spq spkw b fuel [] cnt eq_refl SA' CB' LB LF B0 AB' o' c' ES s l S0).
  intros k z K. change (s * @ip E' z z <= Rabs (@ip E' z (A' z)) /\ @inorm E' (A' z) <= l * @inorm E' z).
  rewrite !EN, EA, (EI z z). apply (SL k). apply EK. exact K.
Qed.

(** Code 1 on a definite operator: the residual is small against the norm of the [y] with [x = P y], both in
    the [P]-norm. *)
Theorem C107_symmlq_code1 : forall F, (forall V, p_orthonormal P V ->
    rsum (map (fun v => ip (At (P v)) (P (At (P v)))) V) <= F * F) -> 0 <= F -> 0 <= y_rtol kw -> u_istop o = 1%Z ->
  (exists s, 0 < s /\ forall k z, kry (fun z => At (P z)) b k z -> s * ip z (P z) <= Rabs (ip (P z) (At (P z)))) ->
  exists y, (u_x o : iv E) = P y /\ pnorm (isub b (At (u_x o))) <= y_rtol kw * u_anorm o * pnorm y /\ u_anorm o <= F.
Proof.
  intros F FB F0 TT I1 (s & S0 & D). destruct es_run as (o' & c' & ES & E3 & E4 & E5 & E6 & E2).
  assert (FB' : @frob_le E' E' A' F).
  { split; [exact F0|]. intros W W1 W2. eapply Rle_trans; [|apply (FB W)].
    - apply Req_le. f_equal. apply map_ext. intro v. rewrite EA. apply EI.
    - split; [eapply FOP_impl; [|exact W1]; intros u v Q; rewrite <- EI; exact Q|].
      intros v Hv. rewrite <- EI. apply W2. exact Hv. }
  rewrite E5 in I1.
  destruct (C105_backward dv sq DV SQ E' spq spkw b fuel [] cnt eq_refl SA' CB' LB LF B0 AB' o' c' ES F FB' TT L2 I1) as [H _].
  { right. exists s. split; [exact S0|]. intros k z K. change (s * @ip E' z z <= Rabs (@ip E' z (A' z))).
    rewrite EA, (EI z z). apply (D k). apply EK. exact K. }
  exists (u_x o'). split; [exact E2|]. rewrite E2, E4.
  change (@inorm E' (@isub E' b (A' (u_x o'))) <= y_rtol kw * u_anorm o' * @inorm E' (u_x o')) in H.
  rewrite !EN, EA in H. split; [exact H|].
  apply (C105_anorm_bound dv sq DV SQ E' spq spkw b fuel [] cnt eq_refl SA' CB' LB LF B0 AB' o' c' ES F FB').
Qed.

(** A preconditioner may make [b] nearly orthogonal to [A P b]; then the loop never reaches a third iteration. *)
Theorem C107_symmlq_gives_up : (3 <= @sy_lim KK WW kw b)%nat ->
  Rabs (ip (P b) (At (P b))) / ip b (P b) + eps <= 10 * eps * (pnorm (At (P b)) / pnorm b) ->
  (u_itn o <= 2)%nat /\ In (u_istop o) [-1; 1; 2; 3; 4]%Z.
Proof.
  intros L3 H. destruct es_run as (o' & c' & ES & E3 & E4 & E5 & E6 & E2). rewrite E6, E5.
  apply (C105_gives_up dv sq DV SQ E' spq spkw b fuel [] cnt eq_refl SA' CB' LB LF B0 AB' o' c' ES L3).
  change (Rabs (@ip E' b (A' b)) / @ip E' b b + eps <= 10 * eps * (@inorm E' (A' b) / @inorm E' b)).
  rewrite (EI b b), !EN, EA. exact H.
Qed.
End Symmlq.

(** The hypotheses hold of [A = ((4,3),(3,4))], [b = (1,0)], [P = diag(3, 1/5)], with the symmetry checks on. *)
Example ex_C107_symmlq :
  let At := fun z : iv (Rn 2) => isub (q_A gprob z : iv (Rn 2)) (iscale 0 z) in
  let pnorm := fun z : iv (Rn 2) => sqrt (ip z (gP z)) in
  At (gP fb) <> izero /\
  (exists s l, 0 < s /\ forall k z, kry (fun z => At (gP z)) fb k z ->
     s * ip z (gP z) <= Rabs (ip (gP z) (At (gP z))) /\ pnorm (At (gP z)) <= l * pnorm z) /\
  (exists C Ct : iv (Rn 2) -> iv (Rn 2), adjoint C Ct /\ (forall z, gP z = C (Ct z))) /\
  exists o cnt', @sy_solve (exactK Rdiv sqrt) (exactV Rdiv sqrt (Rn 2)) 10 (Some (opmul (q_A gprob))) gprob [] fb gkw 0 = Ok (o, cnt').
Proof.
  intros At pnorm.
  split. { intro Q. apply (f_equal fst) in Q. unfold At, isub, ineg, gP, fA, fb in Q. cbn in Q. lra. }
  split.
  { exists (1/10), 20. split; [lra|]. intros k [x [y []]] _. split.
    - eapply Rle_trans; [|apply Rle_abs]. unfold At, isub, ineg, gP, fA. cbn.
      pose proof (Rle_0_sqr (3 * x + y / 5)) as H1. pose proof (Rle_0_sqr x) as H2. pose proof (Rle_0_sqr y) as H3. unfold Rsqr in *. lra.
    - unfold pnorm. rewrite <- (sqrt_square 20) by lra. rewrite <- sqrt_mult_alt by lra.
      apply sqrt_le_1_alt. unfold At, isub, ineg, gP, fA. cbn.
      pose proof (Rle_0_sqr (9 * x - 4 / 5 * y)) as H1. pose proof (Rle_0_sqr (12 * x - 3 / 5 * y)) as H2.
      pose proof (Rle_0_sqr x) as H3. pose proof (Rle_0_sqr y) as H4. unfold Rsqr in *. lra. }
  split.
  { exists (fun z => v2 (sqrt 3 * fst z) (sqrt (1/5) * fst (snd z))), (fun z => v2 (sqrt 3 * fst z) (sqrt (1/5) * fst (snd z))). split.
    - intros [a [c []]] [d [f []]]. cbn. ring.
    - intros [x [y []]]. unfold gP. apply v2_eq; cbn; rewrite <- Rmult_assoc, sqrt_sqrt by lra; [reflexivity|]. unfold Rdiv. ring. }
  destruct C82_run as (o & c & H & _). exists o, c. exact H.
Qed.

Print Assumptions C107_symmlq_anorm.
Print Assumptions C107_symmlq_factor.
Print Assumptions C107_symmlq_scaled.
Print Assumptions C107_symmlq_acond_low.
Print Assumptions C107_symmlq_definite.
Print Assumptions C107_symmlq_code1.
Print Assumptions C107_symmlq_gives_up.
