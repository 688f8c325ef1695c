(** Property C104: the norm and condition estimates of MINRES and the stopping codes that use them. *)
From Coq Require Import List Arith Lia Bool QArith ZArith Reals Lra Qreals.
From Verif Require Import Base Num ToolsModel ToolsProof CgModel CgProof Ieee MinresModel MinresProof MinresNan PropMinres
  SpanMath GkProof LsqrMath AnormLs Backward PropAnorm MinresEst MinresOrth.
Import ListNotations.
Local Open Scope R_scope.

Section C104.
Variables (dv : R -> R -> R) (sq : R -> R).
Hypothesis DV : dv_ok dv.
Hypothesis SQ : sq_ok sq.
Variable E : IPS.
Local Notation KK := (exactK dv sq).
Local Notation WW := (exactV dv sq E).
Local Notation eps := (@machine_eps KK).
Variables (q : kprob WW) (kw : mr_kw WW) (b : iv E) (fuel : nat) (hist : list R) (cnt : nat).
Hypothesis NP : m_precon kw = None.
Hypothesis SA : selfadj (q_A q : iv E -> iv E).
Let At := fun z : iv E => isub (q_A q z : iv E) (iscale (m_shift kw) z).
Hypothesis SG : forall k z, kry At b k z -> eps * inorm z <= inorm (At z).
Hypothesis B0 : b <> izero.
Variables (o : mr_out WW) (cnt' : nat).
Hypothesis RUN : @mr_solve KK WW fuel q hist b kw cnt = Ok (o, cnt').
Hypothesis IT : (1 <= u_itn o)%nat.

Let SAt : selfadj At.
Proof. exact (shifted_sym dv sq E q kw SA). Qed.
Let ME := me_solve dv sq DV SQ E q kw b NP SA SG B0 fuel hist cnt o cnt' RUN IT.
Let NB : 0 < inorm b := me_nb E b B0.
Let NAB : 0 < inorm (At b) := me_nAb dv sq E q kw b SA SG B0.

(** [ynorm], documented as [||x||], never changes after the first iteration. *)
Theorem C104_ynorm : (u_ynorm o : R) = ip b b / inorm (At b).
Proof. apply ME. Qed.

(** It falls short of the norm of a solution by exactly the part orthogonal to [A b]. *)
Theorem C104_ynorm_gap : forall x, At x = b ->
  ip x x = u_ynorm o * u_ynorm o +
    ip (isub x (iscale (ip b b / ip (At b) (At b)) (At b))) (isub x (iscale (ip b b / ip (At b) (At b)) (At b))).
Proof.
  intros x HX. rewrite C104_ynorm.
  assert (XB : ip x (At b) = ip b b).
  { rewrite (SAt x b), HX. reflexivity. }
  assert (P : inorm (At b) * inorm (At b) = ip (At b) (At b)) by apply inorm_sq.
  set (g := At b) in *. ipx. rewrite (ip_sym g x), XB, <- P. field. lra.
Qed.

(** [Anorm^2] is [||b||^2] plus the sum of [||(A - shift I) v||^2] over an orthonormal list in the Krylov space,
    one vector per iteration as long as the system is not solved. *)
Theorem C104_anorm : exists V : list (iv E),
  orthog V /\ (forall v, In v V -> ip v v = 1) /\ (forall v, In v V -> kry At b (length V) v) /\
  (length V <= u_itn o)%nat /\ (At (u_x o) <> b -> length V = u_itn o) /\
  (u_Anorm o * u_Anorm o : R) = ip b b + rsum (map (fun v => ip (At v) (At v)) V).
Proof.
  destruct ME as (_ & (V & [V1 V2] & V3 & V4 & V5 & V6) & _). exists V.
  split; [exact V1|]. split; [exact V2|]. split; [exact V4|]. split; [exact V3|]. split.
  { intro N. destruct (le_lt_eq_dec _ _ V3) as [L|L]; [exfalso; apply N; apply V5; exact L|exact L]. }
  rewrite V6. apply sqrt_sqrt. apply Rplus_le_le_0_compat; [apply ip_pos|apply wsum_pos].
Qed.

Theorem C104_anorm_bound : forall F, frob_le At F -> (u_Anorm o : R) <= sqrt (ip b b + F * F).
Proof.
  intros F [F0 FW]. destruct ME as (_ & (V & [V1 V2] & V3 & V4 & V5 & V6) & _). rewrite V6.
  apply sqrt_le_1_alt. apply Rplus_le_compat_l. apply (FW V V1 V2).
Qed.

(** What the codes 1, 2 and 3 certify. *)
Theorem C104_codes :
  (u_istop o = 1%Z -> inorm (isub b (At (u_x o))) <= Rmax (m_rtol kw) 0 * u_Anorm o * (ip b b / inorm (At b))) /\
  (u_istop o = 2%Z -> exists y, kry At b (u_itn o - 1) y /\
     (forall z, kry At b (u_itn o - 1) z -> inorm (isub b (At y)) <= inorm (isub b (At z))) /\
     inorm (At (isub b (At y))) <= Rmax (m_rtol kw) 0 * u_Anorm o * inorm (isub b (At y))) /\
  (u_istop o = 3%Z -> inorm (At b) <= eps * u_Anorm o * inorm b) /\
  In (u_istop o) [-1; 0; 1; 2; 3; 4; 6; 10]%Z.
Proof.
  destruct ME as (_ & _ & M1 & M2 & M3 & M4 & _). split; [|split; [exact M2|split; [exact M3|exact M4]]].
  intro Q. specialize (M1 Q). rewrite Rmult_assoc. exact M1.
Qed.

(** [Acond]: at least the inverse cosine of the angle between [b] and [A b], whatever the operator;
    bounded by the extreme singular values only together with the Rayleigh quotient of [b]. *)
Theorem C104_acond : ip b (At b) <> 0 -> u_istop o <> (-1)%Z -> u_istop o <> 10%Z ->
  inorm (At b) * inorm b <= u_Acond o * Rabs (ip b (At b)) /\
  (forall s l, 0 < s -> (forall k z, kry At b k z -> s * inorm z <= inorm (At z) <= l * inorm z) ->
     u_Acond o * Rmin (Rabs (ip b (At b)) / ip b b) s <= l) /\
  (u_istop o = 4%Z -> 1 / 10 / eps <= u_Acond o).
Proof.
  intros NZ I1 I2. destruct ME as (_ & _ & _ & _ & _ & _ & MC).
  destruct (MC I1 I2) as (gx & gn & G1 & G2 & G3 & G4 & G5 & G6).
  pose proof NB as P1. pose proof NAB as P2.
  assert (BB : inorm b * inorm b = ip b b) by apply inorm_sq.
  assert (EP : 0 < eps) by (apply eps_pos).
  assert (RA : 0 < Rabs (ip b (At b))) by (apply Rabs_pos_lt; exact NZ).
  assert (A1 : me_a1 dv sq E q kw b = Rabs (ip b (At b)) / ip b b) by reflexivity.
  assert (AP : 0 < me_a1 dv sq E q kw b) by (rewrite A1, <- BB; apply Rdiv_lt_0_compat; nra).
  assert (GE : me_g1 dv sq E q kw b = inorm (At b) / inorm b) by reflexivity.
  assert (GN : 0 < gn).
  { eapply Rlt_le_trans; [|apply (G3 eps); [lra|exact SG]]. apply Rmin_glb_lt; assumption. }
  rewrite (DV _ gn) in G5 by lra. rewrite G5.
  assert (GX : 0 < gx).
  { eapply Rlt_le_trans; [|exact G2]. rewrite GE. apply Rdiv_lt_0_compat; lra. }
  split; [|split].
  - assert (Q1 : gn * ip b b <= Rabs (ip b (At b))).
    { rewrite A1 in G1. apply Rmult_le_compat_r with (r := ip b b) in G1; [|nra]. unfold Rdiv in G1.
      rewrite Rmult_assoc, Rinv_l in G1 by nra. lra. }
    assert (Q2 : inorm (At b) <= gx * inorm b).
    { rewrite GE in G2. apply Rmult_le_compat_r with (r := inorm b) in G2; [|lra]. unfold Rdiv in G2.
      rewrite Rmult_assoc, Rinv_l in G2 by lra. lra. }
    apply Rmult_le_reg_l with gn; [exact GN|].
    replace (gn * (gx / gn * Rabs (ip b (At b)))) with (gx * Rabs (ip b (At b))) by (field; lra).
    rewrite <- BB in Q1. set (n1 := inorm b) in *. set (n2 := inorm (At b)) in *. set (r := Rabs (ip b (At b))) in *.
    apply Rle_trans with (gn * (gx * n1 * n1)); [apply Rmult_le_compat_l; [lra|apply Rmult_le_compat_r; lra]|].
    replace (gn * (gx * n1 * n1)) with (gx * (gn * (n1 * n1))) by ring. apply Rmult_le_compat_l; lra.
  - intros s l S0 SL. rewrite <- A1.
    assert (L1 : Rmin (me_a1 dv sq E q kw b) s <= gn) by (apply G3; [lra|intros k z K; apply (SL k z K)]).
    assert (L2 : gx <= l) by (apply G4; intros k z K; apply (SL k z K)).
    set (m := Rmin _ s) in *. apply Rle_trans with gx; [|exact L2].
    apply Rmult_le_reg_l with gn; [exact GN|]. replace (gn * (gx / gn * m)) with (gx * m) by (field; lra).
    rewrite (Rmult_comm gn). apply Rmult_le_compat_l; lra.
  - intro I4. specialize (G6 I4). rewrite (DV (1 / 10)) in G6 by lra. rewrite <- G5. exact G6.
Qed.

(** On a definite operator [Acond] is a lower bound of the condition number, and code 4 is right. *)
Theorem C104_definite : forall s l, 0 < s ->
  (forall k z, kry At b k z -> s * ip z z <= ip z (At z) /\ inorm (At z) <= l * inorm z) ->
  u_istop o <> (-1)%Z -> u_istop o <> 10%Z ->
  u_Acond o <= l / s /\ (u_istop o = 4%Z -> 1 / 10 / eps <= l / s).
Proof.
  intros s l S0 SL I1 I2. pose proof NB as P1.
  assert (BB : inorm b * inorm b = ip b b) by apply inorm_sq.
  destruct (SL 1%nat b (kry_b At b SAt 0)) as [SB _].
  assert (BP : 0 < ip b b) by nra.
  assert (RB : 0 < ip b (At b)) by (pose proof (Rmult_lt_0_compat _ _ S0 BP); lra).
  destruct (C104_acond ltac:(lra) I1 I2) as (_ & C2 & C3).
  assert (LB : forall k z, kry At b k z -> s * inorm z <= inorm (At z) <= l * inorm z).
  { intros k z K. destruct (SL k z K) as [Z1 Z2]. split; [|exact Z2].
    pose proof (cauchy_norm z (At z)) as CN. rewrite <- inorm_sq in Z1. pose proof (inorm_pos z) as ZP.
    destruct (Rle_lt_or_eq_dec _ _ ZP) as [ZZ|ZZ].
    - apply Rmult_le_reg_l with (inorm z); [exact ZZ|]. lra.
    - rewrite <- ZZ, Rmult_0_r. apply inorm_pos. }
  specialize (C2 s l S0 LB).
  assert (M : Rmin (Rabs (ip b (At b)) / ip b b) s = s).
  { apply Rmin_right. rewrite Rabs_right by lra. apply Rmult_le_reg_r with (ip b b); [nra|].
    unfold Rdiv. rewrite Rmult_assoc, Rinv_l by nra. lra. }
  rewrite M in C2.
  assert (Q : u_Acond o <= l / s).
  { apply Rmult_le_reg_r with s; [exact S0|]. replace (l / s * s) with l by (field; lra). exact C2. }
  split; [exact Q|]. intro I4. specialize (C3 I4). lra.
Qed.
End C104.

(** When [b] is orthogonal to [(A - shift I) b], the estimate starts at zero: the first iteration divides by it,
    finds an infinite condition number and returns the zero vector as converged. *)
Theorem C104_orthogonal : forall (q : kprob xV) (kw : mr_kw xV) (bl av : list R) (sh rtol : R) fuel hist cnt,
  let nb := sqrt (rdot bl bl) in
  let v1 := map (Rmult (1 / nb)) bl in
  let y := zipw Rminus av (map (Rmult sh) v1) in
  let be := sqrt (rdot y y) in
  let an := sqrt (nb * nb + be * be) in
  let e := / 4503599627370496 in
  let lim := match m_itnlim kw with Some l => l | None => (5 * length bl)%nat end in
  m_precon kw = None -> (m_shift kw : xr) = Fin sh -> (m_rtol kw : xr) = Fin rtol -> (1 <= m_window kw)%nat ->
  0 < rdot bl bl -> length av = length bl -> (q_A q (fins v1) : list xr) = fins av -> rdot v1 y = 0 ->
  10 * e * nb < be -> e <= be -> e * an < be -> rtol * an < be ->
  (m_check kw = true -> fst (check_symmetric (q_cbrt q) (q_m q) (q_n q) (q_A q) (q_draws q) cnt) = true) ->
  (1 <= lim)%nat -> (2 <= fuel)%nat ->
  exists o cnt', @mr_solve xK xV fuel q hist (fins bl : vc xV) kw cnt = Ok (o, cnt') /\
    (u_x o : list xr) = repeat (Fin 0) (length bl) /\ u_istop o = 4%Z /\ u_conv o = true /\ u_itn o = 1%nat /\
    (u_Acond o : xr) = PInf /\ (u_rnorm o : xr) = Fin nb.
Proof.
  intros q kw bl av sh rtol fuel hist cnt nb v1 y be an e lim NP SH RT WI B0 LA EA OR H10 HE HX HT CH L1 LF.
  assert (Ee : Q2R (1 # 4503599627370496) = e) by (unfold Q2R, e; cbn; lra).
  assert (LI : @mr_lim xK xV kw (fins bl) = lim).
  { unfold mr_lim, lim. destruct (m_itnlim kw); [reflexivity|]. f_equal. apply map_length. }
  apply (or_solve q kw bl av sh rtol NP SH RT WI B0 LA EA OR); rewrite ?Ee; try assumption.
  rewrite LI. exact L1.
Qed.

(** The permutation matrix of order 2 has condition number 1: every vector keeps its norm. *)
Definition swA (z : list xr) : list xr := match z with [a; c] => [c; a] | _ => z end.
Definition sw_prob : kprob xV :=
  @mkprob xK xV 2 2 (swA : vc xV -> vc xV) None (Fin 0 : sc xK) (Fin 0 : sc xK) (fun x => x) [].

Theorem C104_code4_refuted : exists (q : kprob xV) (b : list R),
  (forall a c, (q_A q [a; c] : list xr) = [c; a]) /\ b = [1; 0] /\
  exists o cnt', @mr_solve xK xV 11 q [] (fins b : vc xV) (@mr_kw0 xK xV (fun l => xsqrt (xdot l l))) 0 = Ok (o, cnt') /\
    u_istop o = 4%Z /\ u_conv o = true /\ (u_Acond o : xr) = PInf /\ (u_x o : list xr) = [Fin 0; Fin 0] /\
    (q_A q [Fin 0; Fin 1] : list xr) = fins b.
Proof.
  exists sw_prob, [1; 0]. split; [reflexivity|]. split; [reflexivity|].
  assert (R1 : rdot [1; 0] [1; 0] = 1) by (cbn; ring).
  assert (N1 : sqrt (rdot [1; 0] [1; 0]) = 1) by (rewrite R1; apply sqrt_1).
  assert (V1 : map (Rmult (1 / sqrt (rdot [1; 0] [1; 0]))) [1; 0] = [1; 0]).
  { rewrite N1. cbn. f_equal; [field|]. f_equal. field. }
  assert (Y1 : zipw Rminus [0; 1] (map (Rmult 0) (map (Rmult (1 / sqrt (rdot [1; 0] [1; 0]))) [1; 0])) = [0; 1]).
  { rewrite V1. unfold zipw. cbn. f_equal; [ring|]. f_equal. ring. }
  assert (BE : sqrt (rdot [0; 1] [0; 1]) = 1) by (replace (rdot [0; 1] [0; 1]) with 1 by (cbn; ring); apply sqrt_1).
  assert (AN : sqrt (1 * 1 + 1 * 1) <= 2).
  { rewrite <- (sqrt_square 2) by lra. apply sqrt_le_1_alt. lra. }
  destruct (C104_orthogonal sw_prob (@mr_kw0 xK xV (fun l => xsqrt (xdot l l))) [1; 0] [0; 1] 0 (Q2R (1 # 1000000000000)) 11 [] 0)
    as (o & c & H1 & H2 & H3 & H4 & H5 & H6 & H7); rewrite ?Y1, ?V1, ?N1, ?BE; try reflexivity; try lra.
  - cbn. lia.
  - unfold rdot, zipw. cbn. ring.
  - cbn. lia.
  - lia.
  - exists o, c. repeat split; assumption.
Qed.

(** The hypotheses of the exact theorems hold of [A = diag(1,2)], [b = (3,4)], one iteration. *)
Definition pA (z : iv (Rn 2)) : iv (Rn 2) := v2 (fst z) (2 * fst (snd z)).
Definition p_prob : kprob (exactV Rdiv sqrt (Rn 2)) :=
  @mkprob (exactK Rdiv sqrt) (exactV Rdiv sqrt (Rn 2)) 2 2 (pA : vc (exactV Rdiv sqrt (Rn 2)) -> _) None
    (0 : sc (exactK Rdiv sqrt)) (0 : sc (exactK Rdiv sqrt)) (fun x => x) [].
Definition p_kw : mr_kw (exactV Rdiv sqrt (Rn 2)) :=
  @mkmrkw (exactK Rdiv sqrt) (exactV Rdiv sqrt (Rn 2)) None 0 0 [] 0 false (Some 1%nat) 0 0 false 5 (fun _ => 0).

Example ex_C104 :
  let At := fun z : iv (Rn 2) => isub (q_A p_prob z : iv (Rn 2)) (iscale (m_shift p_kw) z) in
  let b := v2 3 4 in
  m_precon p_kw = None /\ selfadj (q_A p_prob : iv (Rn 2) -> iv (Rn 2)) /\
  (forall k z, kry At b k z -> @machine_eps (exactK Rdiv sqrt) * inorm z <= inorm (At z)) /\
  b <> izero /\ ip b (At b) <> 0 /\
  (forall k z, kry At b k z -> 1 * ip z z <= ip z (At z) /\ inorm (At z) <= 2 * inorm z) /\
  exists o cnt', @mr_solve (exactK Rdiv sqrt) (exactV Rdiv sqrt (Rn 2)) 2 p_prob [] b p_kw 0 = Ok (o, cnt') /\
    (1 <= u_itn o)%nat /\ u_istop o <> (-1)%Z /\ u_istop o <> 10%Z.
Proof.
  intros At b. split; [reflexivity|].
  assert (SA : selfadj (q_A p_prob : iv (Rn 2) -> iv (Rn 2))) by (intros [a [c []]] [d [f []]]; cbn; ring).
  split; [exact SA|].
  assert (LO : forall z : iv (Rn 2), inorm z <= inorm (At z)).
  { intros [x [y []]]. apply sqrt_le_1_alt. unfold At, isub, ineg. cbn. nra. }
  split.
  { intros k z _. rewrite eps_val. pose proof (LO z). pose proof (inorm_pos z). lra. }
  split. { intro Q. apply (f_equal fst) in Q. cbn in Q. lra. }
  split. { unfold At, b, isub, ineg. cbn. lra. }
  split.
  { intros k [x [y []]] _. split; [unfold At, isub, ineg; cbn; nra|].
    apply Rle_trans with (inorm (iscale 2 ((x, (y, tt)) : iv (Rn 2)))); [|rewrite inorm_scale, Rabs_right by lra; apply Rle_refl].
    apply sqrt_le_1_alt. unfold At, isub, ineg. cbn. nra. }
  set (KK := exactK Rdiv sqrt). set (WW := exactV Rdiv sqrt (Rn 2)).
  assert (ST : @mr_start KK WW p_prob p_kw b 0 = (5, 0%Z, false, 0%nat)).
  { unfold mr_start. change (@mr_y0 KK WW p_kw b) with b.
    assert (V : @vdot KK WW b b = 25) by (cbn; ring).
    rewrite V. cbn. unfold sgtb. cbn.
    replace (Rltb 25 0) with false by (symmetry; apply Rltb_false; lra).
    replace (Rltb 0 25) with true by (symmetry; apply Rltb_true; lra).
    replace (Reqb 25 0) with false by (symmetry; apply Reqb_false; lra).
    cbn. replace (sqrt 25) with 5 by (symmetry; apply sqrt_val; lra). reflexivity. }
  set (st := @mr_init KK WW p_kw b (5%R : sc KK) 0 false [] 0).
  destruct (@mr_body_ok KK WW p_prob p_kw b machine_eps 5 st ltac:(cbn; lia)) as [st1 B].
  change (@mr_lim KK WW p_kw b) with 1%nat in B.
  pose proof (mr_body_eq Rdiv sqrt (Rn 2) p_prob p_kw b eq_refl 5 st st1 B) as H1.
  pose proof (mr_body_eq2 Rdiv sqrt (Rn 2) p_prob p_kw b eq_refl 5 st st1 B ltac:(cbn; lia)) as H2.
  cbv zeta in H1, H2.
  assert (N1 : r_itn st1 = 1%nat) by apply H1. clear H1.
  destruct H2 as (_ & _ & _ & _ & _ & _ & _ & _ & T9 & _).
  change (r_itn st) with 0%nat in T9. cbn [Nat.add Nat.leb Nat.eqb] in T9.
  change (r_beta st) with 5 in T9. change (r_y st) with b in T9. change (r_r2 st) with b in T9.
  change (m_shift p_kw) with 0 in T9. change (q_A p_prob) with pA in T9.
  assert (Ev : iscale (1 / 5) b = v2 (3/5) (4/5)) by (cbn; apply v2_eq; field).
  rewrite Ev in T9.
  assert (EA : shifted (Rn 2) pA 0 (v2 (3/5) (4/5)) = v2 (3/5) (8/5)) by (unfold shifted, isub, ineg; cbn; apply v2_eq; field).
  rewrite EA in T9.
  assert (Ea : ip (v2 (3/5) (4/5)) (v2 (3/5) (8/5)) = 41/25) by (cbn; field). rewrite Ea in T9.
  assert (Ey : iadd (iscale (- (41/25) / 5) b) (v2 (3/5) (8/5)) = v2 (-48/125) (36/125)) by (cbn; apply v2_eq; field).
  rewrite Ey in T9.
  assert (Eb : sqrt (ip (v2 (-48/125) (36/125)) (v2 (-48/125) (36/125))) = 12/25) by (cbn; apply sqrt_val; [lra|field]).
  rewrite Eb in T9.
  replace (Rleb (12 / 25 / 5) (Q2R 10 * @machine_eps (exactK Rdiv sqrt))) with false in T9.
  2:{ symmetry. apply Rleb_false. rewrite eps_val. unfold Q2R. cbn. lra. }
  cbn [andb] in T9. change (r_istop st) with 0%Z in T9. cbn [Z.eqb] in T9.
  eexists _, _. split.
  - unfold mr_solve. rewrite ST. change (@mr_lim KK WW p_kw b) with 1%nat. fold st.
    assert (WH : while 2 (mr_cond 1) (@mr_body KK WW p_prob p_kw machine_eps 5 1) st = Ok st1).
    { cbn [while]. change (mr_cond 1 st) with true. cbv iota. rewrite B.
      unfold mr_cond at 1. rewrite N1. rewrite andb_false_r. reflexivity. }
    rewrite WH. reflexivity.
  - cbn [u_itn u_istop]. split; [rewrite N1; lia|].
    assert (RG : In (r_istop st1) [0; 1; 2; 3; 4; 6]%Z) by (refine (eq_ind_r (fun i => In i [0; 1; 2; 3; 4; 6]%Z) _ T9); apply (mr_tests_range (K := KK))).
    cbn in RG. split; intro Q; rewrite Q in RG; intuition discriminate.
Qed.

Print Assumptions C104_ynorm.
Print Assumptions C104_ynorm_gap.
Print Assumptions C104_anorm.
Print Assumptions C104_anorm_bound.
Print Assumptions C104_codes.
Print Assumptions C104_acond.
Print Assumptions C104_definite.
Print Assumptions C104_orthogonal.
Print Assumptions C104_code4_refuted.
