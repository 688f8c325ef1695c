(** Property C107, first part: the norm and condition estimates of preconditioned MINRES. *)
From Coq Require Import List Arith Lia Bool QArith ZArith Reals Lra Qreals.
From Verif Require Import Base Num ToolsModel CgModel CgProof MinresModel MinresProof Precon MinresPrecon MinresNan PropMinres
  SpanMath GkProof LsqrMath AnormLs PropAnorm MinresEst PropMinresEst EstPre.
Import ListNotations.
Local Open Scope R_scope.

Section Minres.
Variables (dv : R -> R -> R) (sq : R -> R).
Hypothesis DV : dv_ok dv.
Hypothesis SQ : sq_ok sq.
Variable E : IPS.
Local Notation KK := (exactK dv sq).
Local Notation WW := (exactV dv sq E).
Local Notation eps := (@machine_eps KK).
Variables (q : kprob WW) (kw : mr_kw WW) (b : iv E) (P : iv E -> iv E) (fuel : nat) (hist : list R) (cnt : nat).
Hypothesis HP : m_precon kw = Some (P : vc WW -> vc WW).
Hypothesis SP : selfadj P.
Hypothesis PD : posdef P.
Hypothesis SA : selfadj (q_A q : iv E -> iv E).
Let At := fun z : iv E => isub (q_A q z : iv E) (iscale (m_shift kw) z).
Let pnorm (z : iv E) : R := sqrt (ip z (P z)).
Hypothesis SG : forall k z, kry (fun z => At (P z)) b k z -> eps * pnorm z <= pnorm (At (P z)).
Hypothesis B0 : b <> izero.
Variables (o : mr_out WW) (cnt' : nat).
Hypothesis RUN : @mr_solve KK WW fuel q hist b kw cnt = Ok (o, cnt').
Hypothesis IT : (1 <= u_itn o)%nat.
Local Notation E' := (pspace E P SP PD).
Local Notation WW' := (exactV dv sq E').
Local Notation pq := (pq dv sq E q kw P SP PD).
Local Notation pkw := (pkw dv sq E kw P SP PD).
Local Notation To := (To dv sq E P SP PD).
Let A' (z : iv E') : iv E' := @isub E' (q_A pq z) (@iscale E' (m_shift pkw) z).

Let EA : forall z : iv E, A' z = At (P z).
Proof. intro z. exact (pAt dv sq E q kw P SP PD z). Qed.
Let EN : forall z : iv E, @inorm E' z = pnorm z.
Proof. intro z. unfold inorm, pnorm. cbn. rewrite ip_sym. reflexivity. Qed.
Let EI : forall u v : iv E, @ip E' u v = ip u (P v).
Proof. intros u v. cbn. symmetry. apply SP. Qed.
Let EK : forall k z, @kry E' A' b k z <-> kry (fun z => At (P z)) b k z.
Proof.
  intros k z. rewrite kry_same. split; apply kry_extf; intro y; [exact (EA y)|symmetry; exact (EA y)].
Qed.
Let SA' : @selfadj E' (q_A pq : iv E' -> iv E').
Proof. apply (p_selfadj E P SP PD At). intros u v. unfold At. ipx. rewrite <- SA. reflexivity. Qed.
Let SG' : forall k z, @kry E' A' b k z -> eps * @inorm E' z <= @inorm E' (A' z).
Proof. intros k z K. rewrite !EN, EA. apply (SG k). apply EK. exact K. Qed.

Lemma ep_run : exists o' c0 c2, @mr_solve KK WW' fuel pq hist b pkw c0 = Ok (o', c2) /\ o = To o'.
Proof.
  pose proof RUN as H. 
  destruct (@mr_start KK WW q kw b cnt) as [[[beta1 istop] done] c0] eqn:ES.
  assert (DF : done = false).
  { destruct done; [exfalso|reflexivity]. 
    unfold mr_solve in H. rewrite ES in H. destruct fuel as [|fl]; [discriminate|].
    cbn [while mr_cond r_brk mr_init negb andb] in H. injection H as <- _. cbn in IT. lia. }
  pose proof (PD b B0) as PB.
  assert (ED : done = (Rltb (ip b (P b)) 0 || Reqb (ip b (P b)) 0)%bool).
  { rewrite DF. symmetry. apply orb_false_iff. split; [apply Rltb_false; lra|apply Reqb_false; lra]. }
  assert (EI0 : istop = (if Rltb (ip b (P b)) 0 then 9%Z else 0%Z)).
  { unfold mr_start, mr_y0 in ES. rewrite HP in ES.
    match type of ES with context[let '(_, _) := ?x in _] => destruct x as [ok c1] end.
    match type of ES with context[if ?x then _ else 8%Z] => destruct x end; injection ES as _ <- ES _;
      destruct ok; try reflexivity; rewrite DF in ES; rewrite ?orb_true_r in ES; discriminate. }
  pose proof (solve_sim dv sq E q kw b P HP SP PD fuel hist cnt c0) as S. rewrite ES in S. cbn [fst snd] in S.
  specialize (S eq_refl ED EI0). rewrite H in S.
  destruct (@mr_solve KK WW' fuel pq hist b pkw c0) as [[o' c2]|] eqn:ES'; [|discriminate].
  injection S as -> _. exists o', c0, c2. split; [exact ES'|reflexivity].
Qed.

(** [ynorm] is constant, and is the [P]-norm not of [x = P y] but of a first approximation to [y]. *)
Theorem C107_minres_ynorm : (u_ynorm o : R) = ip b (P b) / pnorm (At (P b)) /\
  forall y, At (P y) = b -> u_ynorm o <= pnorm y.
Proof.
  destruct ep_run as (o' & c0 & c2 & RR & EO).
  assert (IT' : (1 <= u_itn o')%nat) by (rewrite EO in IT; exact IT).
  pose proof (C104_ynorm dv sq DV SQ E' pq pkw b fuel hist c0 eq_refl SA' SG' B0 o' c2 RR IT') as Y.
  change (u_ynorm o' = @ip E' b b / @inorm E' (A' b)) in Y.
  assert (YE : (u_ynorm o : R) = u_ynorm o') by (rewrite EO; reflexivity).
  split; [rewrite YE, Y, EI, EN, EA; reflexivity|].
  intros y HY. 
  pose proof (C104_ynorm_gap dv sq DV SQ E' pq pkw b fuel hist c0 eq_refl SA' SG' B0 o' c2 RR IT' y) as G.
  change (A' y = b -> @ip E' y y = u_ynorm o' * u_ynorm o' +
    @ip E' (@isub E' y (@iscale E' (@ip E' b b / @ip E' (A' b) (A' b)) (A' b))) (@isub E' y (@iscale E' (@ip E' b b / @ip E' (A' b) (A' b)) (A' b)))) in G.
  rewrite EA in G. specialize (G HY).
  match type of G with _ = _ + ?t => pose proof (@ip_pos E' _ : 0 <= t) as TP end.
  rewrite YE. unfold pnorm. rewrite <- EI, G.
  assert (Y0 : 0 <= u_ynorm o').
  { rewrite Y. apply Rmult_le_pos; [apply ip_pos|]. 
    destruct (Req_dec (@inorm E' (A' b)) 0) as [Z|Z]; [rewrite Z, Rinv_0; lra|].
    apply Rlt_le, Rinv_0_lt_compat. pose proof (@inorm_pos E' (A' b)). lra. }
  rewrite <- (sqrt_square (u_ynorm o' : R) Y0) at 1. apply sqrt_le_1_alt. lra.
Qed.

(** [Anorm^2] is [<b, P b>] plus a sum, over a list orthonormal in [<u, P v>], of the squares of the
    [P]-norms of [(A - shift I) P v]. *)
Theorem C107_minres_anorm : exists V : list (iv E),
  p_orthonormal P V /\ (forall v, In v V -> kry (fun z => At (P z)) b (length V) v) /\
  (length V <= u_itn o)%nat /\ (At (u_x o) <> b -> length V = u_itn o) /\
  (u_Anorm o * u_Anorm o : R) = ip b (P b) + rsum (map (fun v => ip (At (P v)) (P (At (P v)))) V).
Proof.
  destruct ep_run as (o' & c0 & c2 & RR & EO).
  assert (IT' : (1 <= u_itn o')%nat) by (rewrite EO in IT; exact IT).
  destruct (C104_anorm dv sq DV SQ E' pq pkw b fuel hist c0 eq_refl SA' SG' B0 o' c2 RR IT') as (V & V1 & V2 & V3 & V4 & V5 & V6).
  exists V. split; [split|].
  - eapply FOP_impl; [|exact V1]. intros u v Q. rewrite <- EI. exact Q.
  - intros v Hv. rewrite <- EI. apply V2. exact Hv.
  - split; [intros v Hv; apply EK; apply V3; exact Hv|]. rewrite EO. split; [exact V4|]. split.
    + intro N. apply V5. intro Q. apply N. transitivity (A' (u_x o')); [symmetry; apply EA|exact Q].
    + change (u_Anorm (To o')) with (u_Anorm o'). rewrite V6, EI. f_equal. f_equal. apply map_ext. intro v.
      change (@ip E' (A' v) (A' v) = ip (At (P v)) (P (At (P v)))). rewrite EA. apply EI.
Qed.

(** So it estimates the norm of [Ct (A - shift I) C] when [P = C Ct], not that of [A]. *)
Theorem C107_minres_factor : forall (E1 : IPS) (C : iv E1 -> iv E) (Ct : iv E -> iv E1),
  adjoint C Ct -> (forall z, P z = C (Ct z)) ->
  (exists W : list (iv E1), orthog W /\ (forall w, In w W -> ip w w = 1) /\
     (length W <= u_itn o)%nat /\ (At (u_x o) <> b -> length W = u_itn o) /\
     (u_Anorm o * u_Anorm o : R) = ip (Ct b) (Ct b) + rsum (map (fun w => ip (Ct (At (C w))) (Ct (At (C w)))) W)) /\
  (forall F, frob_le (fun w => Ct (At (C w))) F -> (u_Anorm o : R) <= sqrt (ip (Ct b) (Ct b) + F * F)).
Proof.
  intros E1 C Ct AD PC. destruct C107_minres_anorm as (V & V1 & V2 & V3 & V4 & V5).
  rewrite (factor_ip E E1 P C Ct AD PC), (factor_sum E E1 P At C Ct AD PC) in V5.
  destruct (factor_on E E1 P C Ct AD PC V V1) as [W1 W2]. split.
  - exists (map Ct V). split; [exact W1|]. split; [exact W2|]. rewrite map_length. auto.
  - intros F [F0 FW]. specialize (FW _ W1 W2). 
    destruct (Rle_lt_dec (u_Anorm o : R) 0) as [N|N]; [eapply Rle_trans; [exact N|apply sqrt_pos]|].
    rewrite <- (sqrt_square (u_Anorm o : R)) by lra. apply sqrt_le_1_alt. rewrite V5. lra.
Qed.

(** Scaling the preconditioner changes the reported norm of the matrix. *)
Theorem C107_minres_scaled : forall c, (forall z, P z = iscale (c * c) z) -> exists W : list (iv E),
  orthog W /\ (forall w, In w W -> ip w w = 1) /\ (length W <= u_itn o)%nat /\ (At (u_x o) <> b -> length W = u_itn o) /\
  (u_Anorm o * u_Anorm o : R) = c * c * ip b b + c * c * (c * c) * rsum (map (fun w => ip (At w) (At w)) W).
Proof.
  intros c PC.
  assert (LA : forall a z, At (iscale a z) = iscale a (At z)).
  { intros a z. unfold At. rewrite (lin_scale _ (adjoint_lin _ _ SA)). veq. }
  destruct (C107_minres_factor E (iscale c) (iscale c)) as [(W & W1 & W2 & W3 & W4 & W5) _].
  { intros u v. ipx. ring. }
  { intro z. rewrite PC. veq. }
  exists W. split; [exact W1|]. split; [exact W2|]. split; [exact W3|]. split; [exact W4|].
  rewrite W5. f_equal; [ipx; ring|]. clear W1 W2 W3 W4 W5. induction W as [|w W IH]; [unfold rsum; cbn; ring|].
  unfold rsum in *. cbn [map fold_right]. rewrite IH. rewrite LA. ipx. ring.
Qed.

(** What the codes 1, 2 and 3 certify: everything is measured in [P]-norms. *)
Theorem C107_minres_codes :
  (u_istop o = 1%Z -> pnorm (isub b (At (u_x o))) <= Rmax (m_rtol kw) 0 * u_Anorm o * (ip b (P b) / pnorm (At (P b)))) /\
  (u_istop o = 2%Z -> exists y, kry (fun z => At (P z)) b (u_itn o - 1) y /\
     (forall z, kry (fun z => At (P z)) b (u_itn o - 1) z -> pnorm (isub b (At (P y))) <= pnorm (isub b (At (P z)))) /\
     pnorm (At (P (isub b (At (P y))))) <= Rmax (m_rtol kw) 0 * u_Anorm o * pnorm (isub b (At (P y)))) /\
  (u_istop o = 3%Z -> pnorm (At (P b)) <= eps * u_Anorm o * pnorm b) /\
  In (u_istop o) [-1; 0; 1; 2; 3; 4; 6; 10]%Z.
Proof.
  destruct ep_run as (o' & c0 & c2 & RR & EO).
  assert (IT' : (1 <= u_itn o')%nat) by (rewrite EO in IT; exact IT).
  destruct (C104_codes dv sq DV SQ E' pq pkw b fuel hist c0 eq_refl SA' SG' B0 o' c2 RR IT') as (K1 & K2 & K3 & K4).
  rewrite EO.
  assert (RES : forall z : iv E, @inorm E' (@isub E' b (A' z)) = pnorm (isub b (At (P z)))).
  { intro z. rewrite EA. apply EN. }
  split; [|split; [|split; [|exact K4]]].
  - intro I. specialize (K1 I). 
    change (@inorm E' (@isub E' b (A' (u_x o'))) <= Rmax (m_rtol kw) 0 * u_Anorm o' * (@ip E' b b / @inorm E' (A' b))) in K1.
    rewrite RES, EI, EN, EA in K1. exact K1.
  - intro I. destruct (K2 I) as (y & Y1 & Y2 & Y3). exists y. split; [apply EK; exact Y1|]. split.
    + intros z Hz. rewrite <- !RES. apply Y2. apply EK. exact Hz.
    + change (@inorm E' (A' (@isub E' b (A' y))) <= Rmax (m_rtol kw) 0 * u_Anorm o' * @inorm E' (@isub E' b (A' y))) in Y3.
      rewrite RES, EN, !EA in Y3. exact Y3.
  - intro I. specialize (K3 I). change (@inorm E' (A' b) <= eps * u_Anorm o' * @inorm E' b) in K3.
    rewrite !EN, EA in K3. exact K3.
Qed.

(** [Acond] is bounded by the condition number of the preconditioned operator when that is definite. *)
Theorem C107_minres_definite : forall s l, 0 < s ->
  (forall k z, kry (fun z => At (P z)) b k z -> s * ip z (P z) <= ip (P z) (At (P z)) /\ pnorm (At (P z)) <= l * pnorm z) ->
  u_istop o <> (-1)%Z -> u_istop o <> 10%Z ->
  u_Acond o <= l / s /\ (u_istop o = 4%Z -> 1 / 10 / eps <= l / s).
Proof.
  intros s l S0 SL. 
  destruct ep_run as (o' & c0 & c2 & RR & EO).
  assert (IT' : (1 <= u_itn o')%nat) by (rewrite EO in IT; exact IT). rewrite EO.
  apply (C104_definite dv sq DV SQ E' pq pkw b fuel hist c0 eq_refl SA' SG' B0 o' c2 RR IT' s l S0).
  intros k z K. change (s * @ip E' z z <= @ip E' z (A' z) /\ @inorm E' (A' z) <= l * @inorm E' z).
  rewrite !EN, EA, EI. apply (SL k). apply EK. exact K.
Qed.

Theorem C107_minres_acond : ip (P b) (At (P b)) <> 0 -> u_istop o <> (-1)%Z -> u_istop o <> 10%Z ->
  pnorm (At (P b)) * pnorm b <= u_Acond o * Rabs (ip (P b) (At (P b))) /\
  (forall s l, 0 < s -> (forall k z, kry (fun z => At (P z)) b k z -> s * pnorm z <= pnorm (At (P z)) <= l * pnorm z) ->
     u_Acond o * Rmin (Rabs (ip (P b) (At (P b))) / ip b (P b)) s <= l) /\
  (u_istop o = 4%Z -> 1 / 10 / eps <= u_Acond o).
Proof.
  intros NZ I1 I2.
  destruct ep_run as (o' & c0 & c2 & RR & EO).
  assert (IT' : (1 <= u_itn o')%nat) by (rewrite EO in IT; exact IT). rewrite EO in *.
  assert (EB : @ip E' b (A' b) = ip (P b) (At (P b))) by (rewrite EA; reflexivity).
  destruct (C104_acond dv sq DV SQ E' pq pkw b fuel hist c0 eq_refl SA' SG' B0 o' c2 RR IT') as (K1 & K2 & K3).
  - change (@ip E' b (A' b) <> 0). rewrite EB. exact NZ.
  - exact I1.
  - exact I2.
  - split; [|split; [|exact K3]].
    + change (@inorm E' (A' b) * @inorm E' b <= u_Acond o' * Rabs (@ip E' b (A' b))) in K1.
      rewrite EB, !EN, EA in K1. exact K1.
    + intros s l S0 SL.
      assert (Q : u_Acond o' * Rmin (Rabs (@ip E' b (A' b)) / @ip E' b b) s <= l).
      { apply (K2 s l S0). intros k z K. change (s * @inorm E' z <= @inorm E' (A' z) <= l * @inorm E' z).
        rewrite !EN, EA. apply (SL k). apply EK. exact K. }
      rewrite EB, EI in Q. exact Q.
Qed.
End Minres.

(** The hypotheses hold of [A = diag(1,2)], [P = diag(1,4)], [b = (3,2)], one iteration. *)
Definition dP (z : iv (Rn 2)) : iv (Rn 2) := v2 (fst z) (4 * fst (snd z)).
Definition d_kw : mr_kw (exactV Rdiv sqrt (Rn 2)) :=
  @mkmrkw (exactK Rdiv sqrt) (exactV Rdiv sqrt (Rn 2)) (Some (dP : vc (exactV Rdiv sqrt (Rn 2)) -> _)) 0 0 [] 0 false (Some 1%nat) 0 0 false 5 (fun _ => 0).
Lemma dP_sym : selfadj dP.
Proof. intros [a [c []]] [e [f []]]. cbn. ring. Qed.
Lemma dP_pos : posdef dP.
Proof.
  intros [a [c []]] NZ. cbn. destruct (Req_dec a 0) as [->|A0]; [destruct (Req_dec c 0) as [->|C0]|].
  - exfalso. apply NZ. reflexivity.
  - assert (0 < c * c) by nra. lra.
  - assert (0 < a * a) by nra. nra.
Qed.

Example ex_C107_minres :
  let At := fun z : iv (Rn 2) => isub (q_A p_prob z : iv (Rn 2)) (iscale (m_shift d_kw) z) in
  let pnorm := fun z : iv (Rn 2) => sqrt (ip z (dP z)) in
  let b := v2 3 2 in
  m_precon d_kw = Some (dP : vc (exactV Rdiv sqrt (Rn 2)) -> vc (exactV Rdiv sqrt (Rn 2))) /\
  selfadj dP /\ posdef dP /\ selfadj (q_A p_prob : iv (Rn 2) -> iv (Rn 2)) /\
  (forall k z, kry (fun z => At (dP z)) b k z -> @machine_eps (exactK Rdiv sqrt) * pnorm z <= pnorm (At (dP z))) /\
  b <> izero /\ ip (dP b) (At (dP b)) <> 0 /\
  (forall k z, kry (fun z => At (dP z)) b k z ->
     1 * ip z (dP z) <= ip (dP z) (At (dP z)) /\ pnorm (At (dP z)) <= 8 * pnorm z) /\
  (exists C Ct : iv (Rn 2) -> iv (Rn 2), adjoint C Ct /\ (forall z, dP z = C (Ct z))) /\
  exists o cnt', @mr_solve (exactK Rdiv sqrt) (exactV Rdiv sqrt (Rn 2)) 2 p_prob [] b d_kw 0 = Ok (o, cnt') /\
    (1 <= u_itn o)%nat /\ u_istop o <> (-1)%Z /\ u_istop o <> 10%Z.
Proof.
  intros At pnorm b. split; [reflexivity|]. split; [exact dP_sym|]. split; [exact dP_pos|].
  assert (SA : selfadj (q_A p_prob : iv (Rn 2) -> iv (Rn 2))) by (intros [a [c []]] [d [f []]]; cbn; ring).
  split; [exact SA|].
  assert (LO : forall z : iv (Rn 2), pnorm z <= pnorm (At (dP z))).
  { intros [x [y []]]. apply sqrt_le_1_alt. unfold At, isub, ineg. cbn. nra. }
  split.
  { intros k z _. rewrite eps_val. pose proof (LO z). assert (0 <= pnorm z) by apply sqrt_pos. lra. }
  split. { intro Q. apply (f_equal fst) in Q. cbn in Q. lra. }
  split. { unfold At, b, isub, ineg. cbn. lra. }
  split.
  { intros k [x [y []]] _. split; [unfold At, isub, ineg; cbn; nra|].
    unfold pnorm. rewrite <- (sqrt_square 8) by lra. rewrite <- sqrt_mult_alt by lra.
    apply sqrt_le_1_alt. unfold At, isub, ineg. cbn. nra. }
  split.
  { exists (fun z => v2 (fst z) (2 * fst (snd z))), (fun z => v2 (fst z) (2 * fst (snd z))). split.
    - intros [a [c []]] [d [f []]]. cbn. ring.
    - intros [x [y []]]. unfold dP. apply v2_eq; [reflexivity|]. change (4 * y = 2 * (2 * y)). ring. }
  set (KK := exactK Rdiv sqrt). set (WW := exactV Rdiv sqrt (Rn 2)).
  set (E' := pspace (Rn 2) dP dP_sym dP_pos). set (WW' := exactV Rdiv sqrt E').
  set (pq' := pq Rdiv sqrt (Rn 2) p_prob d_kw dP dP_sym dP_pos). set (kw' := pkw Rdiv sqrt (Rn 2) d_kw dP dP_sym dP_pos).
  assert (ST : @mr_start KK WW' pq' kw' (b : iv E') 0 = (5, 0%Z, false, 0%nat)).
  { unfold mr_start. change (@mr_y0 KK WW' kw' b) with (b : iv E').
    assert (V : @vdot KK WW' b b = 25) by (change (ip (dP b) b = 25); cbn; ring).
    rewrite V. cbn. unfold sgtb. cbn.
    replace (Rltb 25 0) with false by (symmetry; apply Rltb_false; lra).
    replace (Rltb 0 25) with true by (symmetry; apply Rltb_true; lra).
    replace (Reqb 25 0) with false by (symmetry; apply Reqb_false; lra).
    cbn. replace (sqrt 25) with 5 by (symmetry; apply sqrt_val; lra). reflexivity. }
  set (st := @mr_init KK WW' kw' (b : iv E') (5%R : sc KK) 0 false [] 0).
  destruct (@mr_body_ok KK WW' pq' kw' (b : iv E') machine_eps 5 st ltac:(cbn; lia)) as [st1 B].
  change (@mr_lim KK WW' kw' (b : iv E')) with 1%nat in B.
  pose proof (mr_body_eq Rdiv sqrt E' pq' kw' b eq_refl 5 st st1 B) as H1.
  pose proof (mr_body_eq2 Rdiv sqrt E' pq' kw' b eq_refl 5 st st1 B ltac:(cbn; lia)) as H2.
  cbv zeta in H1, H2.
  assert (N1 : r_itn st1 = 1%nat) by apply H1. clear H1.
  destruct H2 as (_ & _ & _ & _ & _ & _ & _ & _ & T9 & _).
  change (r_itn st) with 0%nat in T9. cbn [Nat.add Nat.leb Nat.eqb] in T9.
  change (r_beta st) with 5 in T9. change (r_y st) with (b : iv E') in T9. change (r_r2 st) with (b : iv E') in T9.
  change (m_shift kw') with 0 in T9. change (q_A pq') with (fun z : iv E' => At (dP z) : iv E') in T9.
  assert (Ev : @iscale E' (1 / 5) b = v2 (3/5) (2/5)) by (cbn; apply v2_eq; field).
  rewrite Ev in T9.
  assert (EA : shifted E' (fun z : iv E' => At (dP z) : iv E') 0 (v2 (3/5) (2/5)) = v2 (3/5) (16/5))
    by (unfold shifted, At, isub, ineg; cbn; apply v2_eq; field).
  rewrite EA in T9.
  assert (Ea : @ip E' (v2 (3/5) (2/5)) (v2 (3/5) (16/5)) = 137/25) by (cbn; field). rewrite Ea in T9.
  assert (Ey : @iadd E' (@iscale E' (- (137/25) / 5) b) (v2 (3/5) (16/5)) = v2 (-336/125) (126/125)) by (cbn; apply v2_eq; field).
  rewrite Ey in T9.
  assert (Eb : sqrt (@ip E' (v2 (-336/125) (126/125)) (v2 (-336/125) (126/125))) = 84/25) by (cbn; apply sqrt_val; [lra|field]).
  rewrite Eb in T9.
  replace (Rleb (84 / 25 / 5) (Q2R 10 * @machine_eps (exactK Rdiv sqrt))) with false in T9.
  2:{ symmetry. apply Rleb_false. rewrite eps_val. unfold Q2R. cbn. lra. }
  cbn [andb] in T9. change (r_istop st) with 0%Z in T9. cbn [Z.eqb] in T9.
  assert (RUN : exists o' c', @mr_solve KK WW' 2 pq' [] (b : iv E') kw' 0 = Ok (o', c') /\ u_itn o' = 1%nat /\ u_istop o' = r_istop st1).
  { eexists _, _. split; [|split].
    - unfold mr_solve. rewrite ST. change (@mr_lim KK WW' kw' (b : iv E')) with 1%nat. fold st.
      assert (WH : while 2 (mr_cond 1) (@mr_body KK WW' pq' kw' machine_eps 5 1) st = Ok st1).
      { cbn [while]. change (mr_cond 1 st) with true. cbv iota. rewrite B.
        unfold mr_cond at 1. rewrite N1. rewrite andb_false_r. reflexivity. }
      rewrite WH. reflexivity.
    - cbn [u_itn]. exact N1.
    - reflexivity. }
  destruct RUN as (o' & c' & RUN & I1 & I2).
  assert (STE : @mr_start KK WW p_prob d_kw b 0 = (5, 0%Z, false, 0%nat)).
  { unfold mr_start. change (@mr_y0 KK WW d_kw b) with (dP b).
    assert (V : @vdot KK WW b (dP b) = 25) by (change (ip b (dP b) = 25); cbn; ring).
    rewrite V. cbn. unfold sgtb. cbn.
    replace (Rltb 25 0) with false by (symmetry; apply Rltb_false; lra).
    replace (Rltb 0 25) with true by (symmetry; apply Rltb_true; lra).
    replace (Reqb 25 0) with false by (symmetry; apply Reqb_false; lra).
    cbn. replace (sqrt 25) with 5 by (symmetry; apply sqrt_val; lra). reflexivity. }
  pose proof (solve_sim Rdiv sqrt (Rn 2) p_prob d_kw b dP eq_refl dP_sym dP_pos 2 [] 0 0) as S.
  assert (BB : ip b (dP b) = 25) by (cbn; ring).
  fold KK WW in S. rewrite STE, BB in S. cbn [fst snd] in S.
  replace (Rltb 25 0) with false in S by (symmetry; apply Rltb_false; lra).
  replace (Reqb 25 0) with false in S by (symmetry; apply Reqb_false; lra).
  specialize (S eq_refl eq_refl eq_refl).
  exists (To Rdiv sqrt (Rn 2) dP dP_sym dP_pos o'), c'. split.
  { rewrite S. fold E' WW' pq' kw'. rewrite RUN. reflexivity. }
  set (o := To Rdiv sqrt (Rn 2) dP dP_sym dP_pos o').
  assert (J1 : u_itn o = 1%nat) by exact I1. assert (J2 : u_istop o = r_istop st1) by exact I2.
  change ((1 <= u_itn o)%nat /\ u_istop o <> (-1)%Z /\ u_istop o <> 10%Z).
  rewrite J1, J2. split; [lia|].
  assert (RG : In (r_istop st1) [0; 1; 2; 3; 4; 6]%Z) by (refine (eq_ind_r (fun i => In i [0; 1; 2; 3; 4; 6]%Z) _ T9); apply (mr_tests_range (K := KK))).
  cbn in RG. split; intro Q; rewrite Q in RG; intuition discriminate.
Qed.

Print Assumptions C107_minres_ynorm.
Print Assumptions C107_minres_anorm.
Print Assumptions C107_minres_factor.
Print Assumptions C107_minres_scaled.
Print Assumptions C107_minres_codes.
Print Assumptions C107_minres_definite.
Print Assumptions C107_minres_acond.
