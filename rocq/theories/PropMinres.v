(** Properties C47, C48: MINRES. *)
From Coq Require Import List Arith Lia Bool QArith ZArith Reals Lra Qreals.
From Verif Require Import Base Num ToolsModel ToolsProof CgModel CgProof PropCg Ieee MinresModel MinresProof MinresNan.
Import ListNotations.
Local Open Scope R_scope.

(** ** A singular system: [A = diag(1,0)], [b = (3,4)]; [A x = b] has no solution. *)
Section Singular.
Notation K2 := (exactK Rdiv sqrt).
Notation E2 := (Rn 2).
Notation W2 := (exactV Rdiv sqrt E2).
Definition v2 (a b : R) : iv E2 := (a, (b, tt)).
Definition dA (z : iv E2) : iv E2 := v2 (fst z) 0.
Definition dprob : kprob W2 :=
  @mkprob K2 W2 2 2 (dA : vc W2 -> vc W2) None (0%R : sc K2) (0%R : sc K2) (fun x => x) [].
Definition dkw : mr_kw W2 := @mr_kw0 K2 W2 (fun _ => 0%R : sc K2).
Definition db : iv E2 := v2 3 4.
Notation eps := (@machine_eps K2).

Lemma sqrt_val : forall a c, 0 <= c -> a = c * c -> sqrt a = c.
Proof. intros a c P ->. apply sqrt_square. exact P. Qed.
Lemma v2_eq : forall a b c d, a = c -> b = d -> v2 a b = v2 c d.
Proof. intros; subst; reflexivity. Qed.
Lemma dA_sym : selfadj dA.
Proof. intros [a [b []]] [c [d []]]. cbn. ring. Qed.
Lemma dNP : m_precon dkw = None.
Proof. reflexivity. Qed.
Lemma dAt : forall a b, shifted E2 dA 0 (v2 a b) = v2 a 0.
Proof. intros. unfold shifted, isub, ineg. cbn. apply v2_eq; ring. Qed.
Lemma eps_val : eps = / 4503599627370496.
Proof. unfold machine_eps. cbn. unfold Q2R. cbn. lra. Qed.

Definition dst0 : mr_st W2 := @mr_init K2 W2 dkw db (5%R : sc K2) 0 false [] 0.

Lemma dstep1 : exists st1, @mr_body K2 W2 dprob dkw eps (5%R : sc K2) 10 dst0 = Ok st1 /\
  r_x st1 = v2 3 4 /\ r_y st1 = v2 (48/125) (-36/125) /\ r_r1 st1 = db /\ r_r2 st1 = v2 (48/125) (-36/125) /\
  r_oldb st1 = 5 /\ r_beta st1 = 12/25 /\ r_dbar st1 = 12/25 /\ r_epsln st1 = 0 /\
  r_phibar st1 = 4 /\ r_cs st1 = 3/5 /\ r_sn st1 = 4/5 /\ r_itn st1 = 1%nat /\
  r_istop st1 = 0%Z /\ r_brk st1 = false /\ 25 <= r_tnorm2 st1 /\ 1 <= r_ynorm2 st1.
Proof.
  destruct (@mr_body_ok K2 W2 dprob dkw db eps 5 dst0 ltac:(cbn; lia)) as [st1 B].
  change (@mr_lim K2 W2 dkw db) with 10%nat in B.
  exists st1. split; [exact B|].
  pose proof (mr_body_eq Rdiv sqrt E2 dprob dkw db dNP 5 dst0 st1 B) as H1.
  pose proof (mr_body_eq2 Rdiv sqrt E2 dprob dkw db dNP 5 dst0 st1 B ltac:(cbn; lia)) as H2.
  cbv zeta in H1, H2.
  change (r_beta dst0) with 5 in *. change (r_y dst0) with db in *. change (r_r2 dst0) with db in *.
  change (r_itn dst0) with 0%nat in *. cbn [Nat.add Nat.leb Nat.eqb] in H1, H2.
  change (r_cs dst0) with (Q2R (-1)) in *. replace (Q2R (-1)) with (-1) in * by (unfold Q2R; cbn; lra).
  change (r_sn dst0) with 0 in *. change (r_dbar dst0) with 0 in *. change (r_epsln dst0) with 0 in *.
  change (r_phibar dst0) with 5 in *. change (m_shift dkw) with 0 in *. change (q_A dprob) with dA in *.
  change (r_tnorm2 dst0) with 0 in *. change (r_ynorm2 dst0) with 0 in *. change (r_rhs1 dst0) with 5 in *.
  change (r_istop dst0) with 0%Z in *.
  assert (Ev : iscale (1 / 5) db = v2 (3/5) (4/5)) by (cbn; apply v2_eq; field).
  rewrite Ev in H1, H2. rewrite dAt in H1, H2.
  assert (Ea : ip (v2 (3/5) (4/5)) (v2 (3/5) 0) = 9/25) by (cbn; field).
  rewrite Ea in H1, H2.
  assert (Ey : iadd (iscale (- (9/25) / 5) db) (v2 (3/5) 0) = v2 (48/125) (-36/125)) by (cbn; apply v2_eq; field).
  rewrite Ey in H1, H2.
  assert (Eb : sqrt (ip (v2 (48/125) (-36/125)) (v2 (48/125) (-36/125))) = 12/25) by (cbn; apply sqrt_val; [lra|field]).
  rewrite Eb in H1, H2.
  replace (0 * 0 - -1 * (9/25)) with (9/25) in * by ring.
  replace (-1 * 0 + 0 * (9/25)) with 0 in * by ring.
  replace (- -1 * (12/25)) with (12/25) in * by ring.
  assert (Eg : sqrt (9/25 * (9/25) + 12/25 * (12/25)) = 3/5) by (apply sqrt_val; [lra|field]).
  pose proof eps_val as EV.
  assert (Em : Rmax (sqrt (9/25 * (9/25) + 12/25 * (12/25))) eps = 3/5).
  { rewrite Eg. apply Rmax_left. rewrite EV. lra. }
  rewrite Em in H1, H2. rewrite Eg in H1, H2.
  destruct H1 as (X & HY & HR1 & HR2 & HW & HW2 & HO & HB & HD & HE & HPH & HC & HS & HRN & HAR & HN & HH & HI).
  destruct H2 as (T1 & T2 & T3 & T4 & T5 & T6 & T7 & T8 & T9 & T10).
  split.
  { rewrite X. cbn. apply v2_eq; field. }
  split; [exact HY|]. split; [exact HR1|]. split; [exact HR2|]. split; [exact HO|]. split; [exact HB|].
  split; [exact HD|]. split; [rewrite HE; cbn; ring|]. split; [rewrite HPH; cbn; field|].
  split; [rewrite HC; cbn; field|]. split; [rewrite HS; cbn; field|]. split; [exact HN|].
  assert (TN : r_tnorm2 st1 = 25 + 225/625) by (rewrite T1; cbn; field).
  assert (YN : r_ynorm2 st1 = 625/9) by (rewrite T2; cbn; field).
  assert (AN : 5 <= r_Anorm st1 <= 6).
  { rewrite T3, TN. split; [apply sqrt_ge; lra|apply sqrt_le; lra]. }
  assert (YV : r_ynorm st1 = 25/3) by (rewrite T4, YN; apply sqrt_val; [lra|field]).
  assert (RV : r_rnorm st1 = 4) by (rewrite HRN; cbn; field).
  assert (IS : r_istop st1 = 0%Z).
  { rewrite T9.
    replace (Rleb (12 / 25 / 5) (Q2R 10 * eps)) with false.
    2:{ symmetry. apply Rleb_false. rewrite EV. unfold Q2R. cbn. lra. }
    cbn [andb Z.eqb]. rewrite YV, RV.
    assert (Ab : Rabs (9 / 25) = 9/25) by (apply Rabs_right; lra).
    rewrite Ab. set (an := r_Anorm st1) in *. clearbody an. cbn in an. rewrite Rmax_right by lra.
    assert (Pm : @pymin K2 (9/25) (3/5) = 9/25).
    { unfold pymin. cbn. replace (Rltb (3/5) (9/25)) with false; [reflexivity|].
      symmetry. apply Rltb_false. lra. }
    rewrite Pm.
    assert (T1p : 1/100 < 4 / (an * (25/3))).
    { apply Rmult_lt_reg_r with (an * (25/3)); [nra|]. unfold Rdiv at 3. rewrite Rmult_assoc, Rinv_l by nra. nra. }
    assert (T2p : 1/100 < 3/5 / an).
    { apply Rmult_lt_reg_r with an; [lra|]. unfold Rdiv at 2. rewrite Rmult_assoc, Rinv_l by lra. lra. }
    unfold mr_tests, sgeb.
    assert (RT : (m_rtol dkw : R) = / 1000000000000) by (cbn; unfold Q2R; cbn; lra).
    rewrite RT.
    assert (F1 : sleb (sadd (s1 : sc K2) (3 / 5 / an : sc K2)) s1 = false) by (apply Rleb_false; cbn; lra).
    assert (F2 : sleb (sadd (s1 : sc K2) (4 / (an * (25/3)) : sc K2)) s1 = false) by (apply Rleb_false; cbn; lra).
    assert (F3 : sleb (sdiv (slit (1 # 10)) eps) (3 / 5 / (9 / 25) : sc K2) = false).
    { apply Rleb_false. cbn -[machine_eps]. rewrite EV. unfold Q2R. cbn. lra. }
    assert (F4 : sleb (5 : sc K2) (an * (25 / 3) * eps : sc K2) = false).
    { apply Rleb_false. rewrite EV. cbn. nra. }
    assert (F5 : sleb (3 / 5 / an : sc K2) (/ 1000000000000 : sc K2) = false) by (apply Rleb_false; lra).
    assert (F6 : sleb (4 / (an * (25/3)) : sc K2) (/ 1000000000000 : sc K2) = false) by (apply Rleb_false; lra).
    rewrite F1, F2, F3, F4, F5, F6. reflexivity. }
  split; [exact IS|]. split; [rewrite T10, IS; reflexivity|].
  rewrite TN, YN. cbn. split; lra.
Qed.

Lemma dstep2 : forall st1, @mr_body K2 W2 dprob dkw eps (5%R : sc K2) 10 dst0 = Ok st1 ->
  exists st2, @mr_body K2 W2 dprob dkw eps (5%R : sc K2) 10 st1 = Ok st2 /\
  r_x st2 = v2 3 4 /\ r_rnorm st2 = 0 /\ r_istop st2 = 1%Z /\ r_brk st2 = true /\ r_itn st2 = 2%nat /\
  0 < r_Anorm st2 /\ 0 < r_ynorm st2.
Proof.
  intros st1 B1. destruct dstep1 as (st1' & B1' & X1 & Y1 & R11 & R21 & O1 & BE1 & D1 & E1 & P1 & C1 & S1 & N1 & I1 & K1 & TN1 & YN1).
  rewrite B1 in B1'. injection B1' as <-.
  destruct (@mr_body_ok K2 W2 dprob dkw db eps 5 st1 ltac:(cbn; lia)) as [st2 B].
  change (@mr_lim K2 W2 dkw db) with 10%nat in B.
  exists st2. split; [exact B|].
  pose proof (mr_body_eq Rdiv sqrt E2 dprob dkw db dNP 5 st1 st2 B) as H1.
  pose proof (mr_body_eq2 Rdiv sqrt E2 dprob dkw db dNP 5 st1 st2 B ltac:(rewrite N1; cbn; lia)) as H2.
  cbv zeta in H1, H2.
  rewrite BE1, Y1, R21, R11, O1, N1, C1, S1, D1, E1, P1, X1 in H1.
  rewrite BE1, Y1, R21, R11, O1, N1, C1, S1, D1, I1 in H2.
  cbn [Nat.add Nat.leb Nat.eqb] in H1, H2.
  change (m_shift dkw) with 0 in *. change (q_A dprob) with dA in *.
  assert (Ev : iscale (1 / (12/25)) (v2 (48/125) (-36/125)) = v2 (4/5) (-3/5)) by (cbn; apply v2_eq; field).
  rewrite Ev in H1, H2. rewrite dAt in H1, H2.
  assert (Ep : isub (v2 (4/5) 0) (iscale (12/25/5) db) = v2 (64/125) (-48/125))
    by (unfold isub, ineg; cbn; apply v2_eq; field).
  rewrite Ep in H1, H2.
  assert (Ea : ip (v2 (4/5) (-3/5)) (v2 (64/125) (-48/125)) = 16/25) by (cbn; field).
  rewrite Ea in H1, H2.
  assert (Ey : iadd (iscale (- (16/25) / (12/25)) (v2 (48/125) (-36/125))) (v2 (64/125) (-48/125)) = v2 0 0) by (cbn; apply v2_eq; field).
  rewrite Ey in H1, H2.
  assert (Eb : sqrt (ip (v2 0 0) (v2 0 0)) = 0) by (cbn; apply sqrt_val; [lra|field]).
  rewrite Eb in H1, H2.
  replace (4/5 * (12/25) - 3/5 * (16/25)) with 0 in * by field.
  replace (- (3/5) * 0) with 0 in * by ring.
  assert (Eg : sqrt (0 * 0 + 0 * 0) = 0) by (apply sqrt_val; [lra|field]).
  pose proof eps_val as EV.
  assert (Em : Rmax (sqrt (0 * 0 + 0 * 0)) eps = eps).
  { rewrite Eg. apply Rmax_right. rewrite EV. lra. }
  rewrite Em in H1, H2. rewrite Eg in H1, H2.
  assert (EP : 0 < eps) by (rewrite EV; lra).
  destruct H1 as (X & HY & HR1 & HR2 & HW & HW2 & HO & HB & HD & HE & HPH & HC & HS & HRN & HAR & HN & HH & HI).
  destruct H2 as (T1 & T2 & T3 & T4 & T5 & T6 & T7 & T8 & T9 & T10).
  assert (RN : r_rnorm st2 = 0) by (rewrite HRN; change (0 / eps * 4 = 0 :> R); field; apply Rgt_not_eq; exact EP).
  assert (TP : 0 < r_tnorm2 st2) by (rewrite T1; cbn in TN1 |- *; lra).
  assert (YP : 0 < r_ynorm2 st2).
  { rewrite T2. pose proof (Rle_0_sqr (r_rhs1 st1 / eps)) as Q. unfold Rsqr in Q. cbn in *. lra. }
  split.
  { rewrite X. replace (0 / eps) with 0 by (field; apply Rgt_not_eq; exact EP).
    replace (0 * 4) with 0 by ring.
    apply ip_ext. intro z. rewrite ip_add, ip_scale. ring. }
  split; [exact RN|].
  assert (IS : r_istop st2 = 1%Z).
  { rewrite T9. cbn [andb Z.eqb]. unfold mr_tests. rewrite RN.
    replace (0 / (r_Anorm st2 * r_ynorm st2)) with 0 by (unfold Rdiv; ring).
    replace (sleb (0%R : sc K2) (m_rtol dkw)) with true; [reflexivity|].
    symmetry. apply Rleb_true. cbn. unfold Q2R. cbn. lra. }
  split; [exact IS|]. split; [rewrite T10, IS; reflexivity|]. split; [exact HN|].
  rewrite T3, T4. split; apply sqrt_lt_R0; assumption.
Qed.

End Singular.

(** ** Any arithmetic. *)
Theorem C47_stopping : forall (K : Scal) (W : Vs K) (q : kprob W) (kw : mr_kw W) (b : vc W) fuel hist cnt,
  let lim := match m_itnlim kw with Some l => l | None => (5 * vlen b)%nat end in
  (lim < fuel)%nat -> (1 <= m_window kw)%nat ->
  exists o cnt', mr_solve fuel q hist b kw cnt = Ok (o, cnt') /\
    u_nmv o = u_itn o /\ (u_itn o <= lim)%nat /\
    (cnt + u_itn o <= cnt' <= cnt + u_itn o + (if m_check kw then 2 * length (q_draws q) else 0))%nat /\
    In (u_istop o) [-1; 0; 1; 2; 3; 4; 6; 7; 8; 9; 10]%Z /\
    (u_conv o = true <-> In (u_istop o) [1; 2; 3; 4; 10]%Z) /\
    (In (u_istop o) [0; 7; 8; 9]%Z <-> u_itn o = 0%nat) /\
    (u_itn o = 0%nat -> u_x o = vzeros (vlen b)) /\
    (u_istop o = (-1)%Z -> u_itn o = lim) /\
    (exists l, u_hist o = hist ++ l /\
       (length l = u_itn o \/ (length l + 1 = u_itn o /\ u_istop o = 6%Z))%nat).
Proof. intros K W q kw b fuel hist cnt lim. exact (mr_flow_spec q kw b fuel hist cnt). Qed.

(** The constructor's preconditioner and tolerances play no role. *)
Theorem C47_precon_ignored : forall (K : Scal) (W : Vs K) (q q' : kprob W) (kw : mr_kw W) (b : vc W) fuel hist cnt,
  q_m q = q_m q' -> q_n q = q_n q' -> q_A q = q_A q' -> q_cbrt q = q_cbrt q' -> q_draws q = q_draws q' ->
  mr_solve fuel q hist b kw cnt = mr_solve fuel q' hist b kw cnt.
Proof.
  intros K W [m n A P at_ rt cb dr] [m' n' A' P' at' rt' cb' dr'] kw b fuel hist cnt.
  cbn. intros -> -> -> -> ->. reflexivity.
Qed.

(** [window = 0]: only calls that never complete an iteration return. *)
Theorem C47_window0 : forall (K : Scal) (W : Vs K) (q : kprob W) (kw : mr_kw W) (b : vc W) fuel hist cnt o cnt',
  m_window kw = 0%nat -> mr_solve fuel q hist b kw cnt = Ok (o, cnt') ->
  u_itn o = 0%nat \/ (u_itn o = 1%nat /\ u_istop o = 6%Z).
Proof. intros K W q kw b. exact (mr_window0 q kw b). Qed.

(** ** Exact arithmetic. *)
(** What the checks made before the first iteration decide, in any arithmetic: [istop] is 8 for a
    preconditioner found asymmetric, else 7 for an operator found asymmetric, else 9 for
    [b'Pb < 0], else 0; and an iteration is made exactly when none of them objects and [b'Pb] is
    not zero. *)
Theorem C47_early : forall (K : Scal) (W : Vs K) (q : kprob W) (kw : mr_kw W) (b : vc W) fuel hist cnt o cnt',
  let bPb := vdot b (match m_precon kw with Some P => P b | None => b end) in
  let badA := m_check kw = true /\
    fst (check_symmetric (q_cbrt q) (q_m q) (q_n q) (q_A q) (q_draws q) cnt) = false in
  let badP := m_check kw = true /\ exists P, m_precon kw = Some P /\
    fst (check_symmetric (q_cbrt q) (m_pm kw) (m_pn kw) P (m_pdraws kw) 0) = false in
  mr_solve fuel q hist b kw cnt = Ok (o, cnt') ->
  (u_residNorm0 o = if sltb s0 bPb then ssqrt bPb else bPb) /\
  (badP \/ badA \/ sltb bPb s0 = true \/ seqb bPb s0 = true -> u_itn o = 0%nat) /\
  (u_itn o = 0%nat ->
     (badP -> u_istop o = 8%Z) /\ (~ badP -> badA -> u_istop o = 7%Z) /\
     (~ badP -> ~ badA -> sltb bPb s0 = true -> u_istop o = 9%Z) /\
     (~ badP -> ~ badA -> sltb bPb s0 = false -> u_istop o = 0%Z) /\
     (badP \/ badA \/ sltb bPb s0 = true \/ seqb bPb s0 = true \/ mr_lim kw b = 0%nat)).
Proof. intros K W q kw b fuel hist cnt o cnt'. exact (mr_early q kw b fuel hist cnt o cnt'). Qed.
Print Assumptions C47_early.

(** An indefinite preconditioner, [P = -I]: [istop] is 9. *)
Example ex_C47_early : exists o cnt',
  @mr_solve (exactK Rdiv sqrt) (exactV Rdiv sqrt (Rn 2)) 1 dprob [] db
    (mkmrkw (Some (fun z : vc (exactV Rdiv sqrt (Rn 2)) => (ineg z : iv (Rn 2)))) 2 2 [] s0 false None s0 s0 false 5 (fun _ => s0)) 0 = Ok (o, cnt') /\
  u_istop o = 9%Z /\ u_itn o = 0%nat.
Proof.
  eexists _, _. unfold mr_solve, mr_start.
  match goal with |- context[sltb ?a s0] => assert (E : (a : R) = -25) by (cbn; ring); rewrite E; clear E end.
  cbn [sltb exactK m_check m_precon s0].
  replace (Rltb (-25) 0) with true by (symmetry; apply Rltb_true; lra).
  cbn [orb]. split; [reflexivity|]. split; reflexivity.
Qed.

Section Exact.
Variables (dv : R -> R -> R) (sq : R -> R) (E : IPS).
Notation KK := (exactK dv sq).
Notation WW := (exactV dv sq E).

(** [At z = A z - shift z].  [kry At b k z]: [z] is a polynomial of degree below [k] in [At], applied
    to [b].  Hypothesis: [At] does not shrink vectors of the Krylov space by more than the machine
    epsilon (true of any operator whose smallest singular value is at least [eps]). *)
Theorem C48_residual : dv_ok dv -> sq_ok sq ->
  forall (q : kprob WW) (kw : mr_kw WW) (b : iv E) fuel hist cnt o cnt',
  let At := fun z : iv E => isub (q_A q z : iv E) (iscale (m_shift kw) z) in
  m_precon kw = None -> selfadj (q_A q : iv E -> iv E) ->
  (forall k z, kry At b k z -> @machine_eps KK * inorm z <= inorm (At z)) ->
  @mr_solve KK WW fuel q hist b kw cnt = Ok (o, cnt') ->
  exists xs : list (iv E), length xs = u_itn o /\
    (u_hist o : list R) = hist ++ map (fun z => inorm (isub b (At z))) xs /\
    (m_sit kw = true -> (u_iters o : list (iv E)) = izero :: xs) /\
    (u_x o : iv E) = last xs izero /\
    (u_itn o <> 0%nat -> u_rnorm o = inorm (isub b (At (u_x o)))) /\
    (u_itn o <> 0%nat -> u_Arnorm o = inorm (At (isub b (At (last (removelast xs) izero))))) /\
    (forall i z, nth_error xs i = Some z -> kry At b (S i) z /\
       (forall z', kry At b (S i) z' -> inorm (isub b (At z)) <= inorm (isub b (At z')))) /\
    (forall n, dim_le E n -> (n <= u_itn o)%nat -> u_istop o <> 7%Z -> At (u_x o) = b).
Proof.
  intros DV SQ q kw b fuel hist cnt o cnt' At NP SA SG H.
  exact (mr_exact dv sq DV SQ E q kw b NP SA SG fuel hist cnt o cnt' H).
Qed.

Theorem C48_monotone : dv_ok dv -> sq_ok sq ->
  forall (q : kprob WW) (kw : mr_kw WW) (b : iv E) fuel cnt o cnt',
  let At := fun z : iv E => isub (q_A q z : iv E) (iscale (m_shift kw) z) in
  m_precon kw = None -> selfadj (q_A q : iv E -> iv E) ->
  (forall k z, kry At b k z -> @machine_eps KK * inorm z <= inorm (At z)) ->
  @mr_solve KK WW fuel q [] b kw cnt = Ok (o, cnt') ->
  forall i r r', nth_error (inorm b :: (u_hist o : list R)) i = Some r ->
    nth_error (inorm b :: (u_hist o : list R)) (S i) = Some r' -> r' <= r.
Proof.
  intros DV SQ q kw b fuel cnt o cnt' At NP SA SG H i r r' Hr Hr'.
  destruct (C48_residual DV SQ q kw b fuel [] cnt o cnt' NP SA SG H) as (xs & _ & HH & _ & _ & _ & _ & M & _).
  fold At in HH, M. rewrite HH in Hr, Hr'. cbn [app] in Hr, Hr'.
  assert (SAt : selfadj At) by (apply (shifted_sym dv sq E q kw SA)).
  cbn [nth_error] in Hr'. rewrite nth_error_map in Hr'.
  destruct (nth_error xs i) as [z'|] eqn:Z'; [|discriminate]. injection Hr' as <-.
  destruct (M i z' Z') as [_ M']. destruct i as [|i].
  - injection Hr as <-.
    replace (inorm b) with (inorm (isub b (At izero))).
    + apply M'. apply kry_zero. exact SAt.
    + f_equal. rewrite (lin_zero At (adjoint_lin At At SAt)). apply ip_ext. intro z. rewrite ip_sub, ip_zero. ring.
  - cbn [nth_error] in Hr. rewrite nth_error_map in Hr.
    destruct (nth_error xs i) as [z|] eqn:Z; [|discriminate]. injection Hr as <-.
    apply M'. apply kry_S; [exact SAt|]. apply (M i z Z).
Qed.
End Exact.

(** Without the hypothesis on [At] both claims fail: for the singular [A = diag(1,0)] and
    [b = (3,4)] (no solution) the method reports convergence, [istop = 1] and a zero residual norm,
    although the residual of the returned vector has norm 4.  No divisor vanishes on the way. *)
Theorem C48_singular_refuted : exists (q : kprob (exactV Rdiv sqrt (Rn 2))) (b : iv (Rn 2)) o cnt',
  selfadj (q_A q : iv (Rn 2) -> iv (Rn 2)) /\
  @mr_solve (exactK Rdiv sqrt) (exactV Rdiv sqrt (Rn 2)) 11 q [] b
    (@mr_kw0 (exactK Rdiv sqrt) (exactV Rdiv sqrt (Rn 2)) (fun _ => 0)) 0 = Ok (o, cnt') /\
  u_conv o = true /\ u_istop o = 1%Z /\ u_rnorm o = 0 /\ 0 < u_Anorm o * u_ynorm o /\
  inorm (isub b (q_A q (u_x o))) = 4.
Proof.
  exists dprob, db.
  destruct dstep1 as (st1 & B1 & X1 & _ & _ & _ & _ & _ & _ & _ & _ & _ & _ & N1 & I1 & K1 & _).
  destruct (dstep2 st1 B1) as (st2 & B2 & X2 & RN & IS & BR & N2 & AP & YP).
  fold dkw.
  assert (ST : @mr_start (exactK Rdiv sqrt) (exactV Rdiv sqrt (Rn 2)) dprob dkw db 0 = (5, 0%Z, false, 0%nat)).
  { unfold mr_start. change (@mr_y0 (exactK Rdiv sqrt) (exactV Rdiv sqrt (Rn 2)) dkw db) with db.
    assert (V : @vdot (exactK Rdiv sqrt) (exactV Rdiv sqrt (Rn 2)) db db = 25) by (cbn; ring).
    rewrite V. cbn. unfold sgtb. cbn.
    replace (Rltb 25 0) with false by (symmetry; apply Rltb_false; lra).
    replace (Rltb 0 25) with true by (symmetry; apply Rltb_true; lra).
    replace (Reqb 25 0) with false by (symmetry; apply Reqb_false; lra).
    cbn. replace (sqrt 25) with 5 by (symmetry; apply sqrt_val; lra). reflexivity. }
  eexists _, _. split; [exact dA_sym|]. split.
  - unfold mr_solve. rewrite ST. change (@mr_lim (exactK Rdiv sqrt) (exactV Rdiv sqrt (Rn 2)) dkw db) with 10%nat.
    fold dst0.
    assert (WH : while 11 (mr_cond 10) (@mr_body (exactK Rdiv sqrt) (exactV Rdiv sqrt (Rn 2)) dprob dkw machine_eps 5 10) dst0 = Ok st2).
    { cbn [while]. change (mr_cond 10 dst0) with true. cbv iota. rewrite B1.
      unfold mr_cond at 1. rewrite K1, N1. cbn [negb andb Nat.ltb Nat.leb]. rewrite B2.
      unfold mr_cond at 1. rewrite BR. reflexivity. }
    rewrite WH. reflexivity.
  - cbn [u_conv u_istop u_rnorm u_Anorm u_ynorm u_x]. rewrite IS, RN, X2.
    split; [reflexivity|]. split; [reflexivity|]. split; [reflexivity|]. split; [apply Rmult_lt_0_compat; assumption|].
    unfold isub, ineg, inorm. cbn. apply sqrt_val; [lra|ring].
Qed.

(** The hypotheses of C47 and C48 hold of the indefinite [A = diag(2,-1)], [b = (1,1)]. *)
Definition iA (z : iv (Rn 2)) : iv (Rn 2) := v2 (2 * fst z) (- fst (snd z)).
Definition iprob : kprob (exactV Rdiv sqrt (Rn 2)) :=
  @mkprob (exactK Rdiv sqrt) (exactV Rdiv sqrt (Rn 2)) 2 2 (iA : vc (exactV Rdiv sqrt (Rn 2)) -> _) None
    (0 : sc (exactK Rdiv sqrt)) (0 : sc (exactK Rdiv sqrt)) (fun x => x) [].
Example ex_C48 :
  let At := fun z : iv (Rn 2) => isub (q_A iprob z : iv (Rn 2)) (iscale (m_shift dkw) z) in
  m_precon dkw = None /\ selfadj (q_A iprob : iv (Rn 2) -> iv (Rn 2)) /\
  (forall k z, kry At (v2 1 1) k z -> @machine_eps (exactK Rdiv sqrt) * inorm z <= inorm (At z)) /\
  exists o cnt', @mr_solve (exactK Rdiv sqrt) (exactV Rdiv sqrt (Rn 2)) 11 iprob [] (v2 1 1) dkw 0 = Ok (o, cnt').
Proof.
  intro At. split; [reflexivity|]. split.
  { intros [a [b []]] [c [d []]]. cbn. ring. }
  split.
  - intros k z _. rewrite eps_val.
    assert (Q : inorm z <= inorm (At z)).
    { apply sqrt_le_1_alt. destruct z as [a [b []]]. unfold At, isub, ineg. cbn. nra. }
    pose proof (inorm_pos z). lra.
  - destruct (C47_stopping (exactK Rdiv sqrt) (exactV Rdiv sqrt (Rn 2)) iprob dkw (v2 1 1) 11 [] 0) as (o & c & H & _);
      [cbn; lia|cbn; lia|]. exists o, c. exact H.
Qed.

(** ** Exact arithmetic with the IEEE special values: when [b] is an eigenvector of [A] (so that the
    first iterate is exact) the loop goes on, divides zero by zero and returns NaN everywhere. *)
Theorem C66_eigenvector : forall (q : kprob xV) (kw : mr_kw xV) (bl : list R) (lam sh : R) fuel hist cnt,
  let b := fins bl in
  let nb := sqrt (rdot bl bl) in
  let v1 := map (Rmult (1 / nb)) bl in
  let lim := match m_itnlim kw with Some l => l | None => (5 * length bl)%nat end in
  m_precon kw = None -> (m_shift kw : xr) = Fin sh -> (1 <= m_window kw)%nat ->
  (forall z, length z = length bl -> length (q_A q z : list xr) = length bl) ->
  0 < rdot bl bl -> (q_A q (fins v1) : list xr) = fins (map (Rmult lam) v1) ->
  (m_check kw = true -> fst (check_symmetric (q_cbrt q) (q_m q) (q_n q) (q_A q) (q_draws q) cnt) = true) ->
  (2 <= lim)%nat -> (lim < fuel)%nat ->
  exists o cnt', @mr_solve xK xV fuel q hist b kw cnt = Ok (o, cnt') /\
    (u_x o : list xr) = repeat NaN (length bl) /\ u_istop o = (-1)%Z /\ u_conv o = false /\ u_itn o = lim.
Proof.
  intros q kw bl lam sh fuel hist cnt b nb v1 lim NP SH WI AL B0 EV CH L2 LF.
  assert (LI : @mr_lim xK xV kw (fins bl) = lim).
  { unfold mr_lim, lim. destruct (m_itnlim kw); [reflexivity|]. f_equal. apply map_length. }
  destruct (ev_solve q kw bl lam sh NP SH WI AL B0 EV fuel hist cnt CH) as (o & c & H1 & H2 & H3 & H4 & H5);
    [rewrite LI; exact L2|rewrite LI; exact LF|].
  exists o, c. rewrite LI in H5. auto.
Qed.

(** In particular no 1x1 system [a x = b] with [b <> 0] can be solved with the default arguments
    (without the symmetry check, for short). *)
Theorem C66_one_by_one : forall (a b : R) fuel, b <> 0 -> (5 < fuel)%nat ->
  let q := @mkprob xK xV 1 1 (map (xmul (Fin a)) : vc xV -> vc xV) None (Fin 0 : sc xK) (Fin 0 : sc xK) (fun x => x) [] in
  let d := @mr_kw0 xK xV (fun l => xsqrt (xdot l l)) in
  exists o cnt', @mr_solve xK xV fuel q [] ([Fin b] : vc xV) d 0 = Ok (o, cnt') /\
    (u_x o : list xr) = [NaN] /\ u_conv o = false.
Proof.
  intros a b fuel HB HF q d.
  assert (BB : 0 < rdot [b] [b]) by (cbn; assert (0 < b * b) by nra; lra).
  destruct (C66_eigenvector q d [b] a 0 fuel [] 0) as (o & c & H1 & H2 & _ & H4 & _).
  - reflexivity.
  - reflexivity.
  - cbn. lia.
  - intros z L. cbn [q_A q]. rewrite map_length. exact L.
  - exact BB.
  - apply fins_scale.
  - intros _. reflexivity.
  - cbn. lia.
  - cbn. lia.
  - exists o, c. split; [exact H1|]. split; [exact H2|exact H4].
Qed.

Print Assumptions C47_stopping.
Print Assumptions C47_precon_ignored.
Print Assumptions C47_window0.
Print Assumptions C48_residual.
Print Assumptions C48_monotone.
Print Assumptions C48_singular_refuted.
Print Assumptions C66_eigenvector.
Print Assumptions C66_one_by_one.
