(** Property C105: the norm and condition estimates of SYMMLQ and the stopping codes that use them. *)
From Coq Require Import List Arith Lia Bool QArith ZArith Reals Lra Qreals.
From Verif Require Import Base Num ToolsModel ToolsProof CgModel CgProof PropCg MinresProof PropMinres SpanMath GkProof LsqrMath AnormLs
  Backward AcondLs PropAnorm SymmlqModel SymmlqProof PropSymmlq SymEst.
Import ListNotations.
Local Open Scope R_scope.

Section C105.
Variables (dv : R -> R -> R) (sq : R -> R).
Hypothesis DV : dv_ok dv.
Hypothesis SQ : sq_ok sq.
Variable E : IPS.
Local Notation KK := (exactK dv sq).
Local Notation WW := (exactV dv sq E).
Local Notation eps := (@machine_eps KK).
Variables (q : kprob WW) (kw : @sy_kw KK) (b : iv E) (fuel : nat) (it0 : list (iv E)) (cnt : nat).
Hypothesis NP : q_P q = None.
Hypothesis SA : selfadj (q_A q : iv E -> iv E).
Hypothesis CB : y_check kw = true -> 0 <= q_cbrt q eps.
Hypothesis LB : (1 <= ilen b)%nat.
Hypothesis LF : (@sy_lim KK WW kw b < fuel)%nat.
Local Notation lim := (@sy_lim KK WW kw b).
Let sh := match y_shift kw with Some s => s | None => 0 end.
Let At (z : iv E) : iv E := isub (q_A q z) (iscale sh z).
Hypothesis B0 : b <> izero.
Hypothesis AB : At b <> izero.
Variables (o : sy_out WW) (cnt' : nat).
Hypothesis RUN : @sy_solve KK WW fuel (Some (opmul (q_A q))) q it0 b kw cnt = Ok (o, cnt').

Let SAt : selfadj At.
Proof. exact (sy_At_sym dv sq E q kw SA). Qed.
Let NB : 0 < inorm b.
Proof. apply sqrt_lt_R0. apply ip_nz. exact B0. Qed.
Let EP : 0 < eps := sy_eps_pos dv sq.
Let SE := se_solve dv sq DV SQ E q kw b NP SA it0 NB AB CB LB fuel cnt o cnt' LF RUN.

(** [anorm^2] is the sum of [||(A - shift I) v||^2] over an orthonormal list in the Krylov space, one vector per
    iteration. *)
Theorem C105_anorm : exists V : list (iv E),
  orthog V /\ (forall v, In v V -> ip v v = 1) /\ (forall v, In v V -> kry At b (u_itn o) v) /\ length V = u_itn o /\
  (u_anorm o * u_anorm o : R) = rsum (map (fun v => ip (At v) (At v)) V).
Proof.
  destruct SE as ((V & [V1 V2] & V3 & V4 & V5) & _). exists V.
  split; [exact V1|]. split; [exact V2|]. split; [exact V4|]. split; [exact V3|].
  rewrite V5. apply sqrt_sqrt. apply (wsum_pos At).
Qed.

Theorem C105_anorm_bound : forall F, frob_le At F -> 0 <= u_anorm o <= F.
Proof.
  intros F [F0 FW]. destruct SE as ((V & [V1 V2] & V3 & V4 & V5) & _). rewrite V5. split; [apply sqrt_pos|].
  rewrite <- (sqrt_square F) by exact F0. apply sqrt_le_1_alt. apply (FW V V1 V2).
Qed.

(** From the second iteration on, [acond] is at least the inverse cosine of the angle between [b] and [A b]
    (up to machine epsilon), whatever the operator. *)
Theorem C105_acond_low : (2 <= u_itn o)%nat ->
  inorm (At b) * inorm b <= u_acond o * (Rabs (ip b (At b)) + eps * ip b b).
Proof.
  intro I2. destruct SE as (_ & (gx & gm & gn & A1 & A2 & A3 & A4 & A5 & A6 & _) & _). specialize (A6 I2).
  assert (BB : ip b b = inorm b * inorm b) by (symmetry; apply inorm_sq).
  assert (E1 : Rabs (ip b (At b)) + eps * ip b b = se_a1 dv sq E q kw b * ip b b).
  { unfold se_a1. change (shifted E (q_A q) (sy_sh dv sq kw)) with At. field. rewrite BB. nra. }
  assert (E2 : inorm (At b) * inorm b = se_g1 dv sq E q kw b * ip b b).
  { unfold se_g1. change (shifted E (q_A q) (sy_sh dv sq kw)) with At. rewrite BB. field. lra. }
  rewrite E1, E2, <- Rmult_assoc. apply Rmult_le_compat_r; [rewrite BB; nra|].
  apply Rle_trans with gx; [exact A6|]. rewrite A1. 
  replace gx with (gx / gn * gn) at 1 by (field; lra). apply Rmult_le_compat_l; [|lra].
  pose proof (se_g1_pos dv sq E q kw b NB AB). apply Rmult_le_pos; [lra|]. apply Rlt_le, Rinv_0_lt_compat. exact A2.
Qed.

(** On a definite operator it is at most the condition number, up to machine epsilon; so code 4 is right. *)
Theorem C105_definite : forall s l, 0 < s ->
  (forall k z, kry At b k z -> s * ip z z <= Rabs (ip z (At z)) /\ inorm (At z) <= l * inorm z) ->
  1 <= u_acond o <= (l + eps) / s /\ (u_istop o = 4%Z -> 1 / 10 / eps <= (l + eps) / s).
Proof.
  intros s l S0 SL. destruct SE as (_ & (gx & gm & gn & A1 & A2 & A3 & A4 & A5 & A6 & A7 & A8 & A9) & M4 & _).
  assert (BB : ip b b = inorm b * inorm b) by (symmetry; apply inorm_sq).
  assert (BP : 0 < ip b b) by (rewrite BB; nra).
  destruct (SL 1%nat b (kry_b At b SAt 0)) as [SB SU].
  assert (AL : Rabs (ip b (At b)) / ip b b <= l).
  { apply Rmult_le_reg_r with (ip b b); [exact BP|].
    replace (Rabs (ip b (At b)) / ip b b * ip b b) with (Rabs (ip b (At b))) by (field; lra).
    eapply Rle_trans; [apply cs_abs|]. rewrite BB, (Rmult_comm l), Rmult_assoc. apply Rmult_le_compat_l; [lra|]. lra. }
  assert (AS : s <= Rabs (ip b (At b)) / ip b b).
  { apply Rmult_le_reg_r with (ip b b); [exact BP|].
    replace (Rabs (ip b (At b)) / ip b b * ip b b) with (Rabs (ip b (At b))) by (field; lra). exact SB. }
  set (a1 := se_a1 dv sq E q kw b) in *.
  assert (E1 : a1 = Rabs (ip b (At b)) / ip b b + eps) by reflexivity.
  assert (GX : gx <= l + eps).
  { eapply Rle_trans; [apply (A7 l); intros k z K; apply (SL k z K)|]. apply Rmax_lub; lra. }
  assert (GN : s <= gn).
  { eapply Rle_trans; [|apply (A9 s S0)]; [apply Rmin_glb; lra|]. split; [lra|]. intros k z K. apply (SL k z K). }
  assert (Q : u_acond o <= (l + eps) / s).
  { rewrite A1. apply Rmult_le_reg_r with (gn * s); [nra|].
    replace (gx / gn * (gn * s)) with (gx * s) by (field; lra).
    replace ((l + eps) / s * (gn * s)) with ((l + eps) * gn) by (field; lra). 
    assert (0 < gx) by lra. apply Rmult_le_compat; lra. }
  split; [split; [|exact Q]|].
  - rewrite A1. apply Rmult_le_reg_r with gn; [exact A2|]. replace (gx / gn * gn) with gx by (field; lra). lra.
  - intro I4. specialize (M4 I4). lra.
Qed.

(** Code 1 when the Lanczos-CG point exists, in particular on a definite operator: the returned vector solves
    exactly a system whose operator differs from [A - shift I] by at most [rtol ||A - shift I||_F]. *)
Theorem C105_backward : forall F, frob_le At F -> 0 <= y_rtol kw -> (2 <= lim)%nat -> u_istop o = 1%Z ->
  (exists xc, kry At b (u_itn o) xc /\ (forall z, kry At b (u_itn o) z -> ip (isub b (At xc)) z = 0)) \/
  (exists s, 0 < s /\ forall k z, kry At b k z -> s * ip z z <= Rabs (ip z (At z))) ->
  inorm (isub b (At (u_x o))) <= y_rtol kw * u_anorm o * inorm (u_x o : iv E) /\
  exists D : iv E -> iv E, lin D /\ (forall z, inorm (D z) <= y_rtol kw * F * inorm z) /\
    iadd (At (u_x o)) (D (u_x o)) = b.
Proof.
  intros F FB TT L2 I1 CG.
  destruct (C105_anorm_bound F FB) as [AN0 ANF].
  assert (CGX : exists xc, kry At b (u_itn o) xc /\ (forall z, kry At b (u_itn o) z -> ip (isub b (At xc)) z = 0)).
  { destruct CG as [CG|(s & S0 & D)]; [exact CG|]. destruct SE as (_ & _ & _ & _ & M).
    destruct (M ltac:(rewrite I1; discriminate) s S0) as (xc & C1 & C2); [split; [lra|exact D]|]. exists xc. split; assumption. }
  clear CG. destruct CGX as (xc & C1 & C2).
  destruct (C80_symmlq dv sq DV SQ E q kw b fuel it0 cnt NP SA CB LB B0 LF L2) as (o2 & c2 & R2 & RN & _ & CASES).
  assert (OE : o2 = o) by (pose proof RUN as RU; rewrite R2 in RU; injection RU as -> _; reflexivity). rewrite OE in *. clear OE R2.
  destruct CASES as [[Z _]|(_ & _ & _ & xl & (z0 & Z1 & Z2) & X2 & X3 & _)]; [rewrite Z in I1; discriminate|].
  destruct (X3 xc C1 C2) as (XX & _ & _ & T1 & _). specialize (T1 I1).
  assert (ORT : ip (isub xc xl) xl = 0).
  { assert (Q : ip (isub xc xl) (At z0) = ip (isub (isub b (At xl)) (isub b (At xc))) z0).
    { rewrite (SAt (isub xc xl) z0). rewrite (lin_sub At (adjoint_lin At At SAt)). ipx. ring. }
    assert (XL : xl = At z0) by exact Z2.
    rewrite XL at 2. rewrite Q, ip_subl.
    assert (Q1 : ip (isub b (At xl)) z0 = 0) by (apply X2; exact Z1).
    assert (K1 : kry At b (u_itn o) z0).
    { assert (KS : forall n z, kry At b (n - 1) z -> kry At b n z).
      { intros [|n] z K; cbn in K; [exact K|]. rewrite Nat.sub_0_r in K. apply kry_S; [exact SAt|exact K]. }
      apply KS. exact Z1. }
    rewrite Q1, (C2 z0 K1). ring. }
  assert (NX : inorm xl <= inorm (u_x o : iv E)).
  { destruct XX as [-> | ->]; [apply Rle_refl|]. apply sqrt_le_1_alt.
    assert (Q : ip xc xc = ip xl xl + ip (isub xc xl) (isub xc xl)).
    { rewrite ip_subl in ORT. ipx. rewrite (ip_sym xl xc). lra. }
    rewrite Q. pose proof (ip_pos (isub xc xl)). lra. }
  assert (T2 : inorm (isub b (At (u_x o))) <= y_rtol kw * u_anorm o * inorm (u_x o : iv E)).
  { rewrite RN in T1. eapply Rle_trans; [exact T1|]. apply Rmult_le_compat_l; [|exact NX]. apply Rmult_le_pos; assumption. }
  split; [exact T2|].
  destruct (backward1 At b (u_x o : iv E) 0 (y_rtol kw * F)) as (D & f & D1 & D2 & D3 & D4).
  - lra.
  - apply Rmult_le_pos; lra.
  - rewrite Rplus_0_l. eapply Rle_trans; [exact T2|]. apply Rmult_le_compat_r; [apply inorm_pos|]. apply Rmult_le_compat_l; lra.
  - exists D. split; [exact D1|]. split; [exact D2|]. rewrite D4.
    assert (f = izero) as -> by (apply inorm_zero; pose proof (inorm_pos f); lra). veq.
Qed.

(** When [b] is nearly orthogonal to [(A - shift I) b], the loop never reaches a third iteration. *)
Theorem C105_gives_up : (3 <= lim)%nat ->
  Rabs (ip b (At b)) / ip b b + eps <= 10 * eps * (inorm (At b) / inorm b) ->
  (u_itn o <= 2)%nat /\ In (u_istop o) [-1; 1; 2; 3; 4]%Z.
Proof. intros L3 H. destruct SE as (_ & _ & _ & M & _). apply M; [exact H|exact L3]. Qed.

Theorem C105_orthogonal : (3 <= lim)%nat -> ip b (At b) = 0 -> inorm b <= 10 * inorm (At b) ->
  (u_itn o <= 2)%nat /\ In (u_istop o) [-1; 1; 2; 3; 4]%Z.
Proof.
  intros L3 O H. apply C105_gives_up; [exact L3|]. rewrite O, Rabs_R0. unfold Rdiv. rewrite Rmult_0_l, Rplus_0_l.
  apply Rmult_le_reg_r with (inorm b); [exact NB|].
  replace (10 * eps * (inorm (At b) * / inorm b) * inorm b) with (eps * (10 * inorm (At b))) by (field; lra).
  apply Rmult_le_compat_l; lra.
Qed.
End C105.

(** ** The tridiagonal matrix of order 4 with zero diagonal and unit off-diagonals, [b = e1]. *)
Section Tri.
Local Ltac rcbn := match goal with |- ?l = ?r => change (@eq R l r) end; cbn.
Notation K4 := (exactK Rdiv sqrt).
Notation E4 := (Rn 4).
Notation W4 := (exactV Rdiv sqrt E4).
Notation eps := (@machine_eps K4).
Definition v4 (a b c d : R) : iv E4 := (a, (b, (c, (d, tt)))).
Lemma v4_eq : forall a b c d a' b' c' d', a = a' -> b = b' -> c = c' -> d = d' -> v4 a b c d = v4 a' b' c' d'.
Proof. intros. subst. reflexivity. Qed.
Definition tA (z : iv E4) : iv E4 :=
  let '(a, (b, (c, (d, _)))) := z in v4 b (a + c) (b + d) c.
Definition tprob : kprob W4 :=
  @mkprob K4 W4 4 4 (tA : vc W4 -> vc W4) None (0%R : sc K4) (0%R : sc K4) (fun x => x) [].
Definition tb : iv E4 := v4 1 0 0 0.
Definition tkw : @sy_kw K4 := @sy_kw0 K4.

Lemma tA_sym : selfadj tA.
Proof. intros [a [b [c [d []]]]] [a' [b' [c' [d' []]]]]. cbn. ring. Qed.
(** Its condition number is at most [2 sqrt 3]. *)
Lemma tA_norm : forall z, inorm (tA z) <= 2 * inorm z /\ inorm z <= sqrt 3 * inorm (tA z).
Proof.
  intros [a [b [c [d []]]]]. split.
  - unfold inorm. rewrite <- (sqrt_square 2) by lra. rewrite <- sqrt_mult_alt by lra. apply sqrt_le_1_alt. cbn.
    pose proof (Rle_0_sqr (a - c)) as H1. pose proof (Rle_0_sqr (b - d)) as H2. unfold Rsqr in *. nra.
  - unfold inorm. rewrite <- sqrt_mult_alt by lra. apply sqrt_le_1_alt. cbn.
    pose proof (Rle_0_sqr (2 * a + 3 * c)) as H1. pose proof (Rle_0_sqr (2 * d + 3 * b)) as H2. pose proof (Rle_0_sqr b) as H3.
    pose proof (Rle_0_sqr c) as H4. unfold Rsqr in *. lra.
Qed.

Definition ts1 : sy_st W4 :=
  @mksy K4 W4 (v4 0 0 0 0) (v4 0 0 0 0) (v4 0 1 0 0) tb (v4 0 1 0 0) 1 1 1 0 1 1 0 0 1 0 eps eps 0 0 1 None 0 0 1 1 false [].

Lemma tfirst : @sy_first K4 W4 tprob tkw (opmul (q_A tprob)) tb tb (1 : sc K4) 0%Z false [] 0 = (ts1, false).
Proof.
  unfold sy_first, opmul, sy_prec, sy_shift, tkw. cbn [y_check y_shift q_P tprob q_A sy_kw0].
  cbv beta iota zeta.
  assert (Ev : @vscale K4 W4 (@sdiv K4 (@s1 K4) (1 : sc K4)) tb = v4 1 0 0 0).
  { change (iscale (1 / 1) tb = v4 1 0 0 0). cbn. apply v4_eq; field. }
  rewrite Ev. assert (Ea : tA (v4 1 0 0 0) = v4 0 1 0 0) by (unfold tA, v4 at 1; apply v4_eq; ring). rewrite Ea.
  assert (Ed : @vdot K4 W4 (v4 1 0 0 0) (v4 0 1 0 0) = 0) by (rcbn; ring). rewrite Ed.
  assert (Ey : @vsub K4 W4 (v4 0 1 0 0) (@vscale K4 W4 (@sdiv K4 (0 : sc K4) (1 : sc K4)) tb) = v4 0 1 0 0).
  { cbn. apply v4_eq; field. }
  rewrite Ey. rewrite Ed.
  assert (Ey2 : @vsub K4 W4 (v4 0 1 0 0) (@vscale K4 W4 (@sdiv K4 (0 : sc K4) (@vdot K4 W4 (v4 1 0 0 0) (v4 1 0 0 0))) (v4 1 0 0 0)) = v4 0 1 0 0).
  { cbn. apply v4_eq; field. }
  rewrite Ey2.
  assert (Eb : @vdot K4 W4 (v4 0 1 0 0) (v4 0 1 0 0) = 1) by (rcbn; ring). rewrite Eb.
  assert (Es : @ssqrt K4 (1 : sc K4) = 1) by apply sqrt_1. rewrite Es.
  assert (N : @sltb K4 (1 : sc K4) (@s0 K4) = false) by (apply Rltb_false; change (0 <= 1); lra). rewrite N.
  assert (N2 : @sleb K4 (1 : sc K4) eps = false) by (apply Rleb_false; rewrite eps_val; lra). rewrite N2.
  cbv beta iota zeta.
  assert (Et : @sadd K4 (@smul K4 (0 : sc K4) (0 : sc K4)) (@smul K4 (1 : sc K4) (1 : sc K4)) = 1) by (rcbn; ring). rewrite Et.
  assert (Eg : @sadd K4 (@sabs K4 (0 : sc K4)) eps = eps) by (change (Rabs 0 + eps = eps); rewrite Rabs_R0; lra). rewrite Eg.
  reflexivity.
Qed.

Definition ts2 : sy_st W4 :=
  @mksy K4 W4 (v4 0 0 0 0) (v4 0 0 0 0) (v4 0 1 0 0) tb (v4 0 1 0 0) 1 1 1 0 1 1 0 0 1 0 eps eps 1 1 (1 / eps) (Some (1, eps)) 0 1 1 1 false [].

Lemma ttop : @sy_top K4 W4 tkw (1 : sc K4) 10 ts1 = ts2.
Proof.
  pose proof (eps_val : eps = / 4503599627370496) as EV.
  unfold sy_top, ts1. cbn [y_x y_w y_y y_r1 y_r2 y_oldb y_beta y_tnorm y_gbar y_dbar y_snprod y_bstep
    y_ynorm2 y_rhs1 y_rhs2 y_gmax y_gmin y_acond y_anorm y_cgnorm y_lqdiag y_istop y_itn y_nmv y_cnt y_brk y_iters].
  assert (E1 : @ssqrt K4 (1 : sc K4) = 1) by apply sqrt_1. rewrite E1.
  assert (E0 : @ssqrt K4 (0 : sc K4) = 0) by apply sqrt_0. rewrite E0.
  assert (NG : @seqb K4 (0 : sc K4) (@s0 K4) = true) by (apply Reqb_true; reflexivity). rewrite NG. cbv iota.
  assert (EE : @smul K4 (1 : sc K4) eps = eps) by (change (1 * eps = eps); ring). rewrite EE.
  assert (EL : @ssqrt K4 (@sadd K4 (@smul K4 (1 : sc K4) (1 : sc K4)) (@smul K4 (0 : sc K4) (0 : sc K4))) = 1).
  { apply sqrt_val; [lra|]. rcbn. ring. }
  rewrite EL. assert (E4 : @sabs K4 eps = eps) by (apply Rabs_right; lra). rewrite E4.
  assert (EC : @sdiv K4 (@smul K4 (@smul K4 (1 : sc K4) (1 : sc K4)) (1 : sc K4)) eps = 1 / eps) by (change (1 * 1 * 1 / eps = 1 / eps); field; lra). rewrite EC.
  assert (IE : 1 / eps = 4503599627370496) by (rewrite EV; field).
  assert (NL : @sltb K4 (1 : sc K4) (1 / eps : sc K4) = true) by (apply Rltb_true; lra). rewrite NL. cbv iota.
  assert (AC : @sdiv K4 eps eps = 1) by (change (eps / eps = 1); field; lra). rewrite AC.
  change (0 =? 0)%Z with true. cbv iota. unfold sy_tests. change (10 <=? 1)%nat with false. cbv iota.
  assert (T4 : @sgeb K4 (1 : sc K4) (@sdiv K4 (@slit K4 (1 # 10)) eps) = false).
  { apply Rleb_false. change (@sdiv K4) with Rdiv. change (@slit K4 (1 # 10)) with (Q2R (1 # 10)).
    rewrite eps_val. unfold Q2R. cbn. lra. }
  rewrite T4.
  assert (M0 : @smul K4 (1 : sc K4) (0 : sc K4) = 0) by (rcbn; ring). rewrite M0.
  assert (T3 : @sgeb K4 (@smul K4 (0 : sc K4) eps) (1 : sc K4) = false) by (apply Rleb_false; change (0 * eps < 1); lra).
  rewrite T3.
  assert (T2 : @sleb K4 (1 / eps : sc K4) (@smul K4 (0 : sc K4) eps) = false) by (apply Rleb_false; change (0 * eps < 1 / eps); lra).
  rewrite T2.
  assert (T1 : @sleb K4 (1 / eps : sc K4) (@smul K4 (0 : sc K4) (y_rtol tkw)) = false) by (apply Rleb_false; change (0 * y_rtol tkw < 1 / eps); lra).
  rewrite T1. reflexivity.
Qed.

Definition ts3 : sy_st W4 :=
  @mksy K4 W4 (v4 0 1 0 0) (v4 0 0 0 0) (v4 0 0 1 0) (v4 0 1 0 0) (v4 0 0 1 0) 1 1 3 1 0 1 0 1 0 (-1) 1 eps 1 1 (1 / eps) (Some (1, eps)) 0 1 2 2 false [].

Lemma mksy_cong : forall x w (y r1 r2 : vc W4) (ob be : R) tn gb db sp bs yn rh1 rh2 (gx gn ac an cg : R) lq i it nm ct bk its
    x' w' tn' gb' db' sp' bs' yn' rh1' rh2',
  x = x' -> w = w' -> tn = tn' -> gb = gb' -> db = db' -> sp = sp' -> bs = bs' -> yn = yn' -> rh1 = rh1' -> rh2 = rh2' ->
  @mksy K4 W4 x w y r1 r2 ob be tn gb db sp bs yn rh1 rh2 gx gn ac an cg lq i it nm ct bk its =
  @mksy K4 W4 x' w' y r1 r2 ob be tn' gb' db' sp' bs' yn' rh1' rh2' gx gn ac an cg lq i it nm ct bk its.
Proof. intros. subst. reflexivity. Qed.

Lemma tbody : @sy_body K4 W4 tprob tkw (1 : sc K4) 10 ts1 = Ok ts3.
Proof.
  unfold sy_body. rewrite ttop. cbn [ts2 y_brk]. fold ts2.
  assert (TL : @sy_lan K4 W4 tprob tkw ts2 = ((v4 0 1 0 0 : iv E4), (0 : R), (v4 0 0 1 0 : iv E4), (v4 0 0 1 0 : iv E4), (1 : R), 2%nat)).
  { unfold sy_lan, ts2, opmul, sy_prec, sy_shift, tkw.
    cbn [y_y y_r1 y_r2 y_oldb y_beta y_cnt y_shift q_P tprob q_A sy_kw0]. cbv beta iota zeta.
    assert (Ev : @vscale K4 W4 (@sdiv K4 (@s1 K4) (1 : sc K4)) (v4 0 1 0 0) = v4 0 1 0 0) by (cbn; apply v4_eq; field).
    rewrite Ev. assert (Ea : tA (v4 0 1 0 0) = v4 1 0 1 0) by (unfold tA, v4 at 1; apply v4_eq; ring). rewrite Ea.
    assert (Ey : @vsub K4 W4 (v4 1 0 1 0) (@vscale K4 W4 (@sdiv K4 (1 : sc K4) (1 : sc K4)) tb) = v4 0 0 1 0) by (cbn; apply v4_eq; field).
    rewrite Ey.
    assert (Ed : @vdot K4 W4 (v4 0 1 0 0) (v4 0 0 1 0) = 0) by (rcbn; ring). rewrite Ed.
    assert (Ey2 : @vsub K4 W4 (v4 0 0 1 0) (@vscale K4 W4 (@sdiv K4 (0 : sc K4) (1 : sc K4)) (v4 0 1 0 0)) = v4 0 0 1 0) by (cbn; apply v4_eq; field).
    rewrite Ey2. assert (Eb : @vdot K4 W4 (v4 0 0 1 0) (v4 0 0 1 0) = 1) by (rcbn; ring). rewrite Eb. reflexivity. }
  rewrite TL.
  assert (NB : @sltb K4 (1 : sc K4) (@s0 K4) = false) by (apply Rltb_false; change (0 <= 1); lra). rewrite NB.
  assert (S1 : @ssqrt K4 (1 : sc K4) = 1) by apply sqrt_1. rewrite S1.
  assert (GS : @ssqrt K4 (@sadd K4 (@smul K4 (0 : sc K4) (0 : sc K4)) (@smul K4 (1 : sc K4) (1 : sc K4))) = 1).
  { apply sqrt_val; [lra|]. rcbn. ring. }
  unfold sy_upd, ts2. cbn [y_x y_w y_y y_r1 y_r2 y_oldb y_beta y_tnorm y_gbar y_dbar y_snprod y_bstep
    y_ynorm2 y_rhs1 y_rhs2 y_gmax y_gmin y_acond y_anorm y_cgnorm y_lqdiag y_istop y_itn y_nmv y_cnt y_brk y_iters].
  rewrite GS.
  assert (D01 : @sdiv K4 (0 : sc K4) (1 : sc K4) = 0) by (rcbn; field). rewrite D01.
  assert (D11 : @sdiv K4 (1 : sc K4) (1 : sc K4) = 1) by (rcbn; field). rewrite D11.
  assert (PX : @pymax K4 eps (1 : sc K4) = 1).
  { unfold pymax. assert (Q : @sltb K4 eps (1 : sc K4) = true) by (apply Rltb_true; rewrite eps_val; lra). rewrite Q. reflexivity. }
  assert (PN : @pymin K4 eps (1 : sc K4) = eps).
  { unfold pymin. assert (Q : @sltb K4 (1 : sc K4) eps = false) by (apply Rltb_false; rewrite eps_val; lra). rewrite Q. reflexivity. }
  rewrite PX, PN. unfold ts3. cbn [Nat.add y_sit tkw sy_kw0].
  match goal with |- Ok (@mksy _ _ ?x ?w _ _ _ _ _ ?tn ?gb ?db ?sp ?bs ?yn ?r1 ?r2 _ _ _ _ _ _ _ _ _ _ _ _) = _ =>
    assert (Q1 : x = v4 0 1 0 0) by (cbn; apply v4_eq; ring); assert (Q2 : w = v4 0 0 0 0) by (cbn; apply v4_eq; ring);
    assert (Q3 : tn = 3) by (rcbn; ring); assert (Q4 : gb = 1) by (rcbn; ring); assert (Q5 : db = 0) by (rcbn; ring);
    assert (Q6 : sp = 1) by (rcbn; ring); assert (Q7 : bs = 0) by (rcbn; ring); assert (Q8 : yn = 1) by (rcbn; ring);
    assert (Q9 : r1 = 0) by (rcbn; ring); assert (Q10 : r2 = -1) by (rcbn; ring)
  end.
  apply f_equal. apply mksy_cong; assumption.
Qed.

Definition ts4 : sy_st W4 := @sy_top K4 W4 tkw (1 : sc K4) 10 ts3.
Lemma ttop2 : y_istop ts4 = 4%Z /\ y_brk ts4 = true /\ y_acond ts4 = 1 / eps /\ y_cgnorm ts4 = 1 /\ y_lqdiag ts4 = Some (1, 1) /\
  y_itn ts4 = 2%nat /\ (y_x ts4 : iv E4) = v4 0 1 0 0 /\ y_bstep ts4 = 0 /\ y_nmv ts4 = 2%nat.
Proof.
  pose proof (eps_val : eps = / 4503599627370496) as EV.
  unfold ts4, sy_top, ts3. cbn [y_x y_w y_y y_r1 y_r2 y_oldb y_beta y_tnorm y_gbar y_dbar y_snprod y_bstep
    y_ynorm2 y_rhs1 y_rhs2 y_gmax y_gmin y_acond y_anorm y_cgnorm y_lqdiag y_istop y_itn y_nmv y_cnt y_brk y_iters].
  assert (E1 : @ssqrt K4 (1 : sc K4) = 1) by apply sqrt_1. rewrite E1.
  set (s3 := @ssqrt K4 (3 : sc K4)). assert (S3 : 0 <= s3 <= 2).
  { split; [apply sqrt_pos|]. change (sqrt 3 <= 2). rewrite <- (sqrt_square 2) by lra. apply sqrt_le_1_alt. lra. }
  assert (NG : @seqb K4 (1 : sc K4) (@s0 K4) = false) by (apply Reqb_false; change (1 <> 0); lra). rewrite NG. cbv iota.
  assert (EL : @ssqrt K4 (@sadd K4 (@smul K4 (0 : sc K4) (0 : sc K4)) (@smul K4 (-1 : sc K4) (-1 : sc K4))) = 1).
  { apply sqrt_val; [lra|]. rcbn. ring. }
  rewrite EL. assert (E4 : @sabs K4 (1 : sc K4) = 1) by (apply Rabs_right; lra). rewrite E4.
  assert (EC : @sdiv K4 (@smul K4 (@smul K4 (1 : sc K4) (1 : sc K4)) (1 : sc K4)) (1 : sc K4) = 1) by (rcbn; field). rewrite EC.
  assert (NL : @sltb K4 (1 : sc K4) (1 : sc K4) = false) by (apply Rltb_false; lra). rewrite NL. cbv iota.
  assert (PN : @pymin K4 eps (1 : sc K4) = eps).
  { unfold pymin. assert (Q : @sltb K4 (1 : sc K4) eps = false) by (apply Rltb_false; lra). rewrite Q. reflexivity. }
  rewrite PN. change (@sdiv K4 (1 : sc K4) eps) with (1 / eps).
  change (0 =? 0)%Z with true. cbv iota. unfold sy_tests. change (10 <=? 2)%nat with false. cbv iota.
  assert (IE : 1 / eps = 4503599627370496) by (rewrite EV; field).
  assert (T4 : @sgeb K4 (1 / eps : sc K4) (@sdiv K4 (@slit K4 (1 # 10)) eps) = true).
  { apply Rleb_true. change (@sdiv K4) with Rdiv. change (@slit K4 (1 # 10)) with (Q2R (1 # 10)). rewrite IE, EV. unfold Q2R. cbn. lra. }
  rewrite T4.
  assert (M1 : @smul K4 s3 (1 : sc K4) = s3) by (change (s3 * 1 = s3); ring). rewrite M1.
  assert (T3 : @sgeb K4 (@smul K4 s3 eps) (1 : sc K4) = false) by (apply Rleb_false; change (s3 * eps < 1); nra).
  rewrite T3.
  assert (T2 : @sleb K4 (1 : sc K4) (@smul K4 s3 eps) = false) by (apply Rleb_false; change (s3 * eps < 1); nra).
  rewrite T2.
  assert (T1 : @sleb K4 (1 : sc K4) (@smul K4 s3 (y_rtol tkw)) = false).
  { apply Rleb_false. change (s3 * Q2R (1 # 1000000000) < 1). replace (Q2R (1 # 1000000000)) with (/ 1000000000) by (unfold Q2R; cbn; lra). lra. }
  rewrite T1. repeat split.
Qed.

Lemma tb_nz : tb <> izero.
Proof. intro H. apply (f_equal fst) in H. cbn in H. lra. Qed.

(** SYMMLQ stops with code 4, [acond has exceeded 0.1/eps], returning a vector that is no better than zero. *)
Theorem C105_code4_refuted : exists (q : kprob W4) (b xs : iv E4), selfadj (q_A q : iv E4 -> iv E4) /\ (q_A q xs : iv E4) = b /\
  (forall z, inorm (q_A q z : iv E4) <= 2 * inorm z /\ inorm z <= sqrt 3 * inorm (q_A q z : iv E4)) /\
  exists o cnt', @sy_solve K4 W4 11 (Some (opmul (q_A q))) q [] b (@sy_kw0 K4) 0 = Ok (o, cnt') /\
    u_istop o = 4%Z /\ u_itn o = 2%nat /\ u_acond o = 1 / eps /\ (u_rnorm o : R) = inorm b /\
    inorm (isub b (q_A q (u_x o))) = inorm b.
Proof.
  exists tprob, tb, (v4 0 1 0 (-1)). split; [exact tA_sym|]. split; [unfold tb; cbn; apply v4_eq; ring|]. split; [exact tA_norm|].
  destruct ttop2 as (T1 & T2 & T3 & T4 & T5 & T6 & T7 & T8 & T9).
  assert (BB : @vdot K4 W4 tb tb = 1) by (rcbn; ring).
  assert (WH : while 11 (sy_cond 10) (@sy_body K4 W4 tprob tkw (1 : sc K4) 10) ts1 = Ok ts4).
  { rewrite while_eq. change (sy_cond 10 ts1) with true. cbv iota. rewrite tbody. rewrite while_eq. change (sy_cond 10 ts3) with true. cbv iota.
    assert (B2 : @sy_body K4 W4 tprob tkw (1 : sc K4) 10 ts3 = Ok ts4) by (unfold sy_body; fold ts4; rewrite T2; reflexivity).
    rewrite B2, while_eq. unfold sy_cond. rewrite T2. reflexivity. }
  assert (SO : @sy_solve K4 W4 11 (Some (opmul (q_A tprob))) tprob [] tb tkw 0 = @sy_final K4 W4 tprob tkw tb (1 : sc K4) ts4).
  { unfold sy_solve, sy_prec. cbn [tprob q_P]. change (@vlen K4 W4 tb) with 4%nat. cbn [Nat.eqb].
    rewrite BB.
    assert (N1 : @sltb K4 (1 : sc K4) (@s0 K4) = false) by (apply Rltb_false; change (0 <= 1); lra).
    assert (N2 : @seqb K4 (1 : sc K4) (@s0 K4) = false) by (apply Reqb_false; change (1 <> 0); lra).
    assert (N3 : @sgtb K4 (1 : sc K4) (@s0 K4) = true) by (apply Rltb_true; change (0 < 1); lra).
    assert (N4 : @ssqrt K4 (1 : sc K4) = 1) by apply sqrt_1.
    rewrite N1, N2, N3, N4. cbn [orb].
    match goal with |- context [sy_first ?a ?b ?c ?d ?e ?f ?g ?h ?i ?j] =>
      assert (S2 : sy_first a b c d e f g h i j = (ts1, false)) by exact tfirst; rewrite S2 end.
    change (@sy_lim K4 W4 tkw tb) with 10%nat. fold tprob. rewrite WH. reflexivity. }
  assert (PX : @sy_point K4 W4 tprob tb (1 : sc K4) (1 : sc K4) (1 : sc K4) ts4 = v4 0 1 0 0).
  { unfold sy_point. rewrite T4. assert (NL : @sltb K4 (1 : sc K4) (1 : sc K4) = false) by (apply Rltb_false; lra). rewrite NL.
    unfold sy_prec. cbn [tprob q_P]. rewrite T7, T8. cbn. apply v4_eq; field. }
  unfold sy_final in SO. rewrite T5, PX in SO. unfold opmul in SO. cbv beta iota zeta in SO.
  assert (NR : inorm (isub tb (tA (v4 0 1 0 0))) = inorm tb).
  { unfold inorm. f_equal. unfold tb, isub, ineg. cbn. ring. }
  eexists _, _. split; [exact SO|]. cbn [u_istop u_itn u_acond u_rnorm u_x]. split; [exact T1|]. split; [exact T6|]. split; [exact T3|].
  split; [|exact NR].
  exact NR.
Qed.

(** The hypotheses of the theorems above hold of this run. *)
Example ex_C105_orthogonal :
  let At := fun z : iv E4 => isub (q_A tprob z : iv E4) (iscale 0 z) in
  q_P tprob = None /\ selfadj (q_A tprob : iv E4 -> iv E4) /\ (1 <= ilen tb)%nat /\ (@sy_lim K4 W4 tkw tb < 11)%nat /\
  tb <> izero /\ At tb <> izero /\ (3 <= @sy_lim K4 W4 tkw tb)%nat /\ ip tb (At tb) = 0 /\ inorm tb <= 10 * inorm (At tb).
Proof.
  intro At. split; [reflexivity|]. split; [exact tA_sym|]. split; [cbn; lia|]. split; [cbn; lia|]. split; [exact tb_nz|].
  assert (EA : At tb = v4 0 1 0 0) by (unfold At, tb; cbn; apply v4_eq; ring).
  rewrite EA. split. { intro H. apply (f_equal (fun z : iv E4 => fst (snd z))) in H. cbn in H. lra. }
  split; [cbn; lia|]. split; [cbn; ring|].
  assert (Q : inorm (v4 0 1 0 0) = inorm tb) by (unfold inorm; f_equal; cbn; ring).
  rewrite Q. pose proof (inorm_pos tb). lra.
Qed.
End Tri.

(** A definite case that stops with code 1 in the second iteration: [A = ((4,3),(3,4))], [b = (1,0)]. *)
Section Two.
Local Ltac rcbn := match goal with |- ?l = ?r => change (@eq R l r) end; cbn.
Notation K2 := (exactK Rdiv sqrt).
Notation E2 := (Rn 2).
Notation W2 := (exactV Rdiv sqrt E2).
Notation eps := (@machine_eps K2).

Lemma fbody2 : forall its, exists st, @sy_body K2 W2 fprob (fkw 3) (1 : sc K2) 3 (fst1 its) = Ok st /\
  y_beta st = 0 /\ y_gbar st = - (7 / 5) /\ y_brk st = false /\ y_nmv st = 2%nat /\ y_itn st = 1%nat /\ y_istop st = 0%Z /\
  0 <= y_tnorm st /\ 0 <= y_ynorm2 st.
Proof.
  intros its. destruct (ftop its 3 ltac:(lia)) as [ac T]. unfold sy_body. rewrite T. cbn [fst2 y_brk].
  fold (fst2 its ac). rewrite flan.
  assert (NB : @sltb K2 (0 : sc K2) (@s0 K2) = false) by (apply Rltb_false; change (0 <= 0); lra). rewrite NB.
  assert (S0 : @ssqrt K2 (0 : sc K2) = 0) by apply sqrt_0. rewrite S0.
  eexists. split; [reflexivity|].
  assert (G5 : @ssqrt K2 (@sadd K2 (@smul K2 (4 : sc K2) (4 : sc K2)) (@smul K2 (3 : sc K2) (3 : sc K2))) = 5).
  { apply sqrt_val; [lra|]. rcbn. ring. }
  unfold sy_upd, fst2. cbn [y_x y_w y_y y_r1 y_r2 y_oldb y_beta y_tnorm y_gbar y_dbar y_snprod y_bstep
    y_ynorm2 y_rhs1 y_rhs2 y_gmax y_gmin y_acond y_anorm y_cgnorm y_lqdiag y_istop y_itn y_nmv y_cnt y_brk y_iters].
  rewrite G5. split; [reflexivity|]. split; [rcbn; field|]. split; [reflexivity|]. split; [reflexivity|]. split; [reflexivity|].
  split; [reflexivity|]. split.
  - change (0 <= 25 + 4 * 4 + 3 * 3 + 0 * 0). lra.
  - change (0 <= 1 / 5 * (1 / 5) + 0). lra.
Qed.

Example ex_C105_definite :
  let At := fun z : iv E2 => isub (q_A fprob z : iv E2) (iscale 0 z) in
  (forall k z, kry At fb k z -> 1 * ip z z <= Rabs (ip z (At z)) /\ inorm (At z) <= 7 * inorm z) /\
  frob_le At (sqrt 50) /\ At fb <> izero /\ (2 <= @sy_lim K2 W2 (fkw 3) fb)%nat /\ 0 <= y_rtol (fkw 3) /\
  exists o cnt', @sy_solve K2 W2 10 (Some (opmul (q_A fprob))) fprob [] fb (fkw 3) 0 = Ok (o, cnt') /\
    u_itn o = 2%nat /\ u_istop o = 1%Z.
Proof.
  intro At.
  assert (SAt : selfadj At) by (intros [a [c []]] [a' [c' []]]; unfold At, isub, ineg; cbn; ring).
  split.
  { intros k [x [y []]] _. split.
    - apply Rle_trans with (ip ((x, (y, tt)) : iv E2) (At (x, (y, tt)))); [|apply Rle_abs].
      unfold At, isub, ineg. cbn. pose proof (Rle_0_sqr (x + y)) as Q. unfold Rsqr in Q. lra.
    - apply Rle_trans with (inorm (iscale 7 ((x, (y, tt)) : iv E2))); [|rewrite inorm_scale, Rabs_right by lra; apply Rle_refl].
      apply sqrt_le_1_alt. unfold At, isub, ineg. cbn. pose proof (Rle_0_sqr (x - y)) as Q. unfold Rsqr in Q. lra. }
  split.
  { replace (sqrt 50) with (sqrt (rsum (map (fun e : iv (Rn 2) => ip (At e) (At e)) (Num.basis 2)))).
    - apply (C102_frobenius (Rn 2) 2 At At SAt).
    - f_equal. unfold At, isub, ineg. cbn. ring. }
  split. { intro H. apply (f_equal fst) in H. unfold At, isub, ineg in H. cbn in H. lra. }
  split; [cbn; lia|].
  assert (RT : 0 <= y_rtol (fkw 3)) by (change (0 <= Q2R (1 # 1000000000)); unfold Q2R; cbn; lra).
  split; [exact RT|].
  destruct (fbody2 [(izero : iv E2)]) as (st & HB & S1 & S2 & S3 & S4 & S5 & S6 & S7 & S8).
  pose proof (sy_top_vals Rdiv sqrt E2 (fkw 3) 1 3 st) as TV. cbv zeta in TV.
  destruct TV as (_ & TL & _ & TB & _ & T1 & _).
  assert (I1 : y_istop (@sy_top K2 W2 (fkw 3) 1 3 st) = 1%Z).
  { apply T1; [exact S6|]. rewrite S1, S2.
    assert (NZ : Reqb (- (7 / 5)) 0 = false) by (apply Reqb_false; lra). rewrite NZ. unfold Rdiv at 1. rewrite Rmult_0_r, Rmult_0_l.
    apply Rmult_le_pos; [|exact RT]. apply Rmult_le_pos; apply sqrt_pos. }
  rewrite I1 in TB. change (negb (1 =? 0)%Z) with true in TB.
  eexists _, _. split.
  - rewrite fsolve, while_eq. change (sy_cond 3 (fst1 [izero])) with true. cbv iota.
    match goal with |- context [sy_body ?a ?b ?c ?d ?e] => replace (sy_body a b c d e) with (Ok st) by (symmetry; exact HB) end.
    rewrite while_eq.
    assert (C2 : @sy_cond K2 W2 3 st = true) by (unfold sy_cond; rewrite S3, S4; reflexivity). rewrite C2.
    assert (B2 : @sy_body K2 W2 fprob (fkw 3) (1 : sc K2) 3 st = Ok (@sy_top K2 W2 (fkw 3) 1 3 st)) by (unfold sy_body; rewrite TB; reflexivity).
    rewrite B2, while_eq. assert (C3 : @sy_cond K2 W2 3 (@sy_top K2 W2 (fkw 3) 1 3 st) = false) by (unfold sy_cond; rewrite TB; reflexivity).
    rewrite C3. unfold sy_final. rewrite TL. unfold opmul. reflexivity.
  - cbn [u_itn u_istop]. split; [|exact I1]. cbn [sy_top y_itn]. rewrite S5. reflexivity.
Qed.
End Two.

Print Assumptions C105_anorm.
Print Assumptions C105_anorm_bound.
Print Assumptions C105_acond_low.
Print Assumptions C105_definite.
Print Assumptions C105_backward.
Print Assumptions C105_gives_up.
Print Assumptions C105_orthogonal.
Print Assumptions C105_code4_refuted.
