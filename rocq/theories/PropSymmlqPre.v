(** * C82: preconditioned SYMMLQ in exact arithmetic.

    Like the other Lanczos methods, SYMMLQ with a symmetric positive definite preconditioner [P] is
    SYMMLQ without one in the space with inner product [<P u, v>] (file Precon), applied to
    [(A - shift) P]. *)
From Coq Require Import List Arith Lia Bool QArith ZArith Reals Lra Qreals.
From Verif Require Import Base Num ToolsModel CgModel CgProof PropCg MinresProof Precon SymmlqModel SymmlqProof PropMinres PropSymmlq.
Import ListNotations.
Local Open Scope R_scope.

Section SymmlqPrecon.
Variables (dv : R -> R -> R) (sq : R -> R).
Hypothesis DV : dv_ok dv.
Hypothesis SQ : sq_ok sq.
Variable E : IPS.
Local Notation KK := (exactK dv sq).
Local Notation WW := (exactV dv sq E).
Variables (q : kprob WW) (kw : @sy_kw KK) (b : iv E) (P : iv E -> iv E).
Hypothesis HP : q_P q = Some (P : vc WW -> vc WW).
Hypothesis SP : selfadj P.
Hypothesis PD : posdef P.
Hypothesis SA : selfadj (q_A q : iv E -> iv E).
Let LP : lin P := adjoint_lin P P SP.
Local Notation E' := (pspace E P SP PD).
Local Notation WW' := (exactV dv sq E').
Let sh := match y_shift kw with Some s => s | None => 0 end.
Let At (z : iv E) : iv E := isub (q_A q z) (iscale sh z).
Local Notation eps := (@machine_eps KK).

Definition spq : kprob WW' :=
  @mkprob KK WW' (q_m q) (q_n q) ((fun z => At (P z)) : vc WW' -> vc WW') None (q_abstol q) (q_reltol q) (q_cbrt q) [].
Definition spkw : @sy_kw KK := mksykw (y_mmax kw) (y_rtol kw) false None (y_sit kw).

Section Sim.
Variables (dc : nat) (it0 : list (iv E)).
Definition Ts (s : sy_st WW') : sy_st WW :=
  @mksy KK WW (P (y_x s)) (P (y_w s)) (P (y_y s)) (y_r1 s) (y_r2 s)
    (y_oldb s) (y_beta s) (y_tnorm s) (y_gbar s) (y_dbar s) (y_snprod s) (y_bstep s)
    (y_ynorm2 s) (y_rhs1 s) (y_rhs2 s) (y_gmax s) (y_gmin s) (y_acond s) (y_anorm s)
    (y_cgnorm s) (y_lqdiag s) (y_istop s) (y_itn s) (y_nmv s) (y_cnt s + dc) (y_brk s) (it0 ++ map P (y_iters s)).

Lemma sp_shift : forall z : iv E, @sy_shift KK WW kw (q_A q z) z = At z.
Proof. intro z. exact (sy_shift_eq dv sq E q kw z). Qed.

Lemma sp_top : forall beta1 lim s, @sy_top KK WW kw beta1 lim (Ts s) = Ts (@sy_top KK WW' spkw beta1 lim s).
Proof. intros. reflexivity. Qed.

Lemma sp_lan : forall s, @sy_lan KK WW q kw (Ts s) =
  let '(v, alfa, r2, y, beta, cnt) := @sy_lan KK WW' spq spkw s in (P v, alfa, r2, P y, beta, (cnt + dc)%nat).
Proof.
  intro s. unfold sy_lan, opmul, sy_prec. rewrite HP.
  cbn [q_P spq q_A Ts y_beta y_y y_oldb y_r1 y_r2 y_cnt].
  set (v := @vscale KK WW' _ (y_y s)).
  assert (EV : @vscale KK WW (@sdiv KK (@s1 KK) (y_beta s)) (P (y_y s)) = P v).
  { unfold v. change (iscale (dv 1 (y_beta s)) (P (y_y s)) = P (iscale (dv 1 (y_beta s)) (y_y s : iv E))).
    symmetry. apply (lin_scale P LP). }
  rewrite EV. cbv beta iota zeta. rewrite sp_shift.
  change (@sy_shift KK WW' spkw (At (P v)) v) with (At (P v)).
  set (y1 := At (P v)). change (@vsub KK WW') with (@isub E). change (@vscale KK WW') with (@iscale E).
  change (@vsub KK WW) with (@isub E). change (@vscale KK WW) with (@iscale E).
  change (@vdot KK WW') with (fun u w : iv E => ip (P u) w). change (@vdot KK WW) with (@ip E). cbv beta.
  set (y2 := isub y1 _). set (y3 := isub y2 _).
  replace (y_cnt s + dc + 1)%nat with (y_cnt s + 1 + dc)%nat by lia.
  rewrite (ip_sym y3 (P y3)). reflexivity.
Qed.

Lemma sp_upd : forall s v alfa r2 y beta cnt,
  @sy_upd KK WW kw (Ts s) (P v) alfa r2 (P y) beta (cnt + dc) = Ts (@sy_upd KK WW' spkw s v alfa r2 y beta cnt).
Proof.
  intros. unfold sy_upd.
  cbn [Ts y_x y_w y_y y_r1 y_r2 y_oldb y_beta y_tnorm y_gbar y_dbar y_snprod y_bstep
    y_ynorm2 y_rhs1 y_rhs2 y_gmax y_gmin y_acond y_anorm y_cgnorm y_lqdiag y_istop y_itn y_nmv y_cnt y_brk y_iters y_sit spkw].
  change (@vsub KK WW') with (@isub E). change (@vscale KK WW') with (@iscale E). change (@vadd KK WW') with (@iadd E).
  change (@vsub KK WW) with (@isub E). change (@vscale KK WW) with (@iscale E). change (@vadd KK WW) with (@iadd E).
  set (gamma := @ssqrt KK _). set (cs := @sdiv KK (y_gbar s) gamma). set (sn := @sdiv KK (y_beta s) gamma).
  set (z := @sdiv KK (y_rhs1 s) gamma).
  assert (EX : forall a c, iadd (P (y_x s)) (iadd (iscale a (P (y_w s))) (iscale c (P v))) =
    P (iadd (y_x s : iv E) (iadd (iscale a (y_w s : iv E)) (iscale c v)))).
  { intros. rewrite !(lin_add P LP), !(lin_scale P LP). reflexivity. }
  rewrite EX.
  assert (EW : isub (iscale sn (P (y_w s))) (iscale cs (P v)) = P (isub (iscale sn (y_w s : iv E)) (iscale cs v))).
  { rewrite (lin_sub P LP), !(lin_scale P LP). reflexivity. }
  rewrite EW. unfold Ts.
  cbn [y_x y_w y_y y_r1 y_r2 y_oldb y_beta y_tnorm y_gbar y_dbar y_snprod y_bstep
    y_ynorm2 y_rhs1 y_rhs2 y_gmax y_gmin y_acond y_anorm y_cgnorm y_lqdiag y_istop y_itn y_nmv y_cnt y_brk y_iters].
  destruct (y_sit kw); [|reflexivity]. rewrite map_app, app_assoc. reflexivity.
Qed.

Lemma sp_body : forall beta1 lim s,
  @sy_body KK WW q kw beta1 lim (Ts s) = rmap Ts (@sy_body KK WW' spq spkw beta1 lim s).
Proof.
  intros. unfold sy_body. rewrite sp_top. set (t := @sy_top KK WW' spkw beta1 lim s).
  change (y_brk (Ts t)) with (y_brk t). destruct (y_brk t); [reflexivity|].
  rewrite sp_lan. destruct (@sy_lan KK WW' spq spkw t) as [[[[[v alfa] r2] y] beta] cnt].
  destruct (sltb beta s0); cbn [rmap]; [reflexivity|]. rewrite sp_upd. reflexivity.
Qed.

Lemma sp_while : forall beta1 lim fuel s,
  while fuel (sy_cond lim) (@sy_body KK WW q kw beta1 lim) (Ts s) =
  rmap Ts (while fuel (sy_cond lim) (@sy_body KK WW' spq spkw beta1 lim) s).
Proof. intros. apply while_map; [reflexivity|]. intros s0 _. apply sp_body. Qed.
End Sim.

Hypothesis CB : y_check kw = true -> 0 <= q_cbrt q eps.
Hypothesis BN : b <> izero.
Variables (fuel : nat) (it0 : list (iv E)) (cnt : nat).
Let dc := (if y_check kw then 1 else 0)%nat.

Lemma sp_pb : 0 < ip b (P b).
Proof. apply PD. exact BN. Qed.
Lemma sp_b1 : 0 < sqrt (ip b (P b)).
Proof. apply sqrt_lt_R0, sp_pb. Qed.

Lemma sp_zsub : forall (c : R) (y v : iv E), c = 0 -> isub y (iscale c v) = y.
Proof. intros c y v Z. rewrite Z. apply ip_ext. intro z. ipx. ring. Qed.

Lemma sp_first : forall beta1 its its', 0 < beta1 -> beta1 * beta1 = ip b (P b) -> its = it0 ++ map P its' ->
  @sy_first KK WW q kw (opmul (q_A q)) b (P b) beta1 0%Z false its cnt =
  let '(st, d) := @sy_first KK WW' spq spkw (opmul (q_A spq)) b b beta1 0%Z false its' cnt in (Ts dc it0 st, d).
Proof.
  intros beta1 its its' B1 BB EI. unfold sy_first, opmul, sy_prec. rewrite HP. cbn [q_P spq q_A spkw y_check].
  set (v := @vscale KK WW' _ b).
  assert (EV : @vscale KK WW (@sdiv KK (@s1 KK) beta1) (P b) = P v).
  { unfold v. change (iscale (dv 1 beta1) (P b) = P (iscale (dv 1 beta1) b)). symmetry. apply (lin_scale P LP). }
  rewrite EV. cbv beta iota zeta.
  assert (CK : (if y_check kw
       then if sy_asym q (@vdot KK WW (q_A q (P v)) (q_A q (P v))) (@vdot KK WW (P v) (q_A q (q_A q (P v))))
            then (6%Z, true, (cnt + 1 + 1)%nat) else (0%Z, false, (cnt + 1 + 1)%nat)
       else (0%Z, false, (cnt + 1)%nat)) = (0%Z, false, (cnt + 1 + dc)%nat)).
  { unfold dc. destruct (y_check kw) eqn:CKE; [|rewrite Nat.add_0_r; reflexivity].
    assert (SY : sy_asym q (@vdot KK WW (q_A q (P v)) (q_A q (P v))) (@vdot KK WW (P v) (q_A q (q_A q (P v)))) = false).
    { unfold sy_asym. apply Rltb_false.
      change (Rabs (ip (q_A q (P v) : iv E) (q_A q (P v)) - ip (P v) (q_A q (q_A q (P v)))) <= (ip (q_A q (P v) : iv E) (q_A q (P v)) + eps) * q_cbrt q eps).
      rewrite (SA (P v) (q_A q (P v))). rewrite Rminus_diag_eq by reflexivity. rewrite Rabs_R0.
      apply Rmult_le_pos; [|apply CB; reflexivity].
      pose proof (ip_pos (q_A q (P v) : iv E)). pose proof (sy_eps_pos dv sq). lra. }
    rewrite SY. reflexivity. }
  rewrite CK. clear CK. cbv beta iota zeta. rewrite sp_shift.
  change (@sy_shift KK WW' spkw (At (P v)) v) with (At (P v)).
  change (@vsub KK WW') with (@isub E). change (@vscale KK WW') with (@iscale E).
  change (@vsub KK WW) with (@isub E). change (@vscale KK WW) with (@iscale E).
  change (@vdot KK WW') with (fun u w : iv E => ip (P u) w). change (@vdot KK WW) with (@ip E). cbv beta.
  set (alfa := ip (P v) (At (P v))).
  change (@sdiv KK) with dv.
  set (y1 := isub (At (P v)) (iscale (dv alfa beta1) b)).
  assert (VV : ip (P v) v = 1).
  { unfold v. change (ip (P (iscale (dv 1 beta1) b)) (iscale (dv 1 beta1) b) = 1).
    rewrite (lin_scale P LP), ip_scale, ip_scalel, (ip_sym (P b)), <- BB, DV by lra. field. lra. }
  assert (Y0 : ip (P v) y1 = 0).
  { unfold y1. rewrite ip_sub, ip_scale. fold alfa.
    assert (Q : ip (P v) b = beta1).
    { unfold v. change (ip (P (iscale (dv 1 beta1) b)) b = beta1).
      rewrite (lin_scale P LP), ip_scalel, (ip_sym (P b)), <- BB, DV by lra. field. lra. }
    rewrite Q, DV by lra. field. lra. }
  assert (N1 : ip (P v) (P v) <> 0).
  { intro Z. apply ip_def in Z. assert (Q : ip (P v) v = 0) by (rewrite Z, ip_sym; apply ip_zero). lra. }
  assert (R1 : isub y1 (iscale (dv (ip (P v) y1) (ip (P v) (P v))) (P v)) = y1).
  { rewrite Y0, DV by exact N1. apply sp_zsub. field. exact N1. }
  assert (R2 : isub y1 (iscale (dv (ip (P v) y1) (ip (P v) v)) v) = y1).
  { rewrite Y0, VV, DV by lra. apply (sp_zsub _ y1 (v : iv E)). field. }
  rewrite R1.
  match goal with |- context [@isub ?EE ?a ?w] => change (@isub EE a w) with (isub y1 (iscale (dv (ip (P v) y1) (ip (P v) v)) v)) end. rewrite R2. rewrite (ip_sym y1 (P y1)).
  destruct (@sltb KK (ip (P y1) y1) (@s0 KK)); cbv beta iota zeta; unfold Ts;
    cbn [y_x y_w y_y y_r1 y_r2 y_oldb y_beta y_tnorm y_gbar y_dbar y_snprod y_bstep
      y_ynorm2 y_rhs1 y_rhs2 y_gmax y_gmin y_acond y_anorm y_cgnorm y_lqdiag y_istop y_itn y_nmv y_cnt y_brk y_iters];
    change (@vzeros KK WW (@vlen KK WW b)) with (izero : iv E); change (@vzeros KK WW' (@vlen KK WW' b)) with (izero : iv E);
    rewrite (lin_zero P LP), <- EI; reflexivity.
Qed.

Hypothesis LB : (1 <= ilen b)%nat.
Hypothesis LPB : (1 <= ilen (P b))%nat.
Hypothesis LF : (@sy_lim KK WW kw b < fuel)%nat.

Definition same_scalars (o : sy_out WW) (o' : sy_out WW') : Prop :=
  u_nmv o = u_nmv o' /\ (u_x o : iv E) = P (u_x o') /\ u_acond o = u_acond o' /\ u_anorm o = u_anorm o' /\
  u_istop o = u_istop o' /\ u_itn o = u_itn o' /\ (u_iters o : list (iv E)) = it0 ++ map P (u_iters o') /\
  u_xnorm o = inorm (u_x o : iv E) /\ u_rnorm o = inorm (isub b (At (u_x o))).

Lemma sp_solve : forall o' c', 
  @sy_solve KK WW' fuel (Some (opmul (q_A spq))) spq [] b spkw cnt = Ok (o', c') ->
  exists o c, @sy_solve KK WW fuel (Some (opmul (q_A q))) q it0 b kw cnt = Ok (o, c) /\ same_scalars o o'.
Proof.
  intros o' c' H. pose proof sp_pb as PB. pose proof sp_b1 as B1.
  assert (BB : sqrt (ip b (P b)) * sqrt (ip b (P b)) = ip b (P b)) by (apply sqrt_def; lra).
  unfold sy_solve, sy_prec in *. rewrite HP. cbn [spq q_P] in H.
  change (@vlen KK WW' b) with (ilen b) in H. change (@vlen KK WW (P b)) with (ilen (P b)).
  destruct (ilen b =? 0)%nat eqn:Z1; [apply Nat.eqb_eq in Z1; lia|].
  destruct (ilen (P b) =? 0)%nat eqn:Z2; [apply Nat.eqb_eq in Z2; lia|].
  change (@vdot KK WW' b b) with (ip (P b) b) in H. rewrite (ip_sym (P b) b) in H.
  change (@vdot KK WW b (P b)) with (ip b (P b)).
  assert (N1 : @sltb KK (ip b (P b)) (@s0 KK) = false) by (apply Rltb_false; change (0 <= ip b (P b)); lra).
  assert (N2 : @seqb KK (ip b (P b)) (@s0 KK) = false) by (apply Reqb_false; change (ip b (P b) <> 0); lra).
  assert (N3 : @sgtb KK (ip b (P b)) (@s0 KK) = true) by (apply Rltb_true; exact PB).
  assert (N4 : @ssqrt KK (ip b (P b)) = sqrt (ip b (P b))) by (apply SQ; lra).
  rewrite N1, N2, N3, N4 in H |- *. cbn [orb] in H.
  assert (CK : y_check kw && sy_asym q (@vdot KK WW (P b) (P b)) (@vdot KK WW b (P (P b))) = false).
  { destruct (y_check kw) eqn:CKE; [|reflexivity]. cbn [andb]. unfold sy_asym. apply Rltb_false.
    change (Rabs (ip (P b) (P b) - ip b (P (P b))) <= (ip (P b) (P b) + eps) * q_cbrt q eps).
    rewrite (SP b (P b)). rewrite Rminus_diag_eq by reflexivity. rewrite Rabs_R0.
    apply Rmult_le_pos; [|apply CB; reflexivity]. pose proof (ip_pos (P b)). pose proof (sy_eps_pos dv sq). lra. }
  rewrite CK. cbn [orb].
  set (its' := if y_sit spkw then _ else _) in H.
  set (its := if y_sit kw then it0 ++ [@vzeros KK WW (@vlen KK WW b)] else it0).
  assert (EI : its = it0 ++ map P its').
  { unfold its, its'. cbn [y_sit spkw]. destruct (y_sit kw); cbn [app map]; [|rewrite app_nil_r; reflexivity].
    f_equal. f_equal. change ((izero : iv E) = P izero). symmetry. apply (lin_zero P LP). }
  pose proof (sp_first _ its its' B1 BB EI) as SF.
  match type of H with context [@sy_first KK WW' ?a ?b ?c ?d ?e ?f ?g ?h ?i ?j] =>
    set (FST := @sy_first KK WW' a b c d e f g h i j) in H end.
  match goal with |- context [@sy_first KK WW ?a ?b ?c ?d ?e ?f ?g ?h ?i ?j] =>
    assert (S2 : @sy_first KK WW a b c d e f g h i j = let '(st, d) := FST in (Ts dc it0 st, d)) by exact SF; rewrite S2 end.
  destruct FST as [st dn]. cbv beta iota zeta in *.
  change (@sy_lim KK WW' spkw b) with (@sy_lim KK WW kw b) in H. set (lim := @sy_lim KK WW kw b) in *.
  assert (EL : (if dn then Ok (Ts dc it0 st) else while fuel (sy_cond lim) (@sy_body KK WW q kw (sqrt (ip b (P b))) lim) (Ts dc it0 st)) =
    rmap (Ts dc it0) (if dn then Ok st else while fuel (sy_cond lim) (@sy_body KK WW' spq spkw (sqrt (ip b (P b))) lim) st)).
  { destruct dn; [reflexivity|]. apply sp_while. }
  match goal with |- context [if dn then ?x else ?y] => set (LHS := if dn then x else y) end.
  change LHS with (if dn then Ok (Ts dc it0 st) else while fuel (sy_cond lim) (@sy_body KK WW q kw (sqrt (ip b (P b))) lim) (Ts dc it0 st)).
  clear LHS. rewrite EL.
  match type of H with context [if dn then ?x else ?y] => set (RHS := if dn then x else y) in H end.
  match goal with |- context [rmap _ ?w] => change w with RHS end.
  destruct RHS as [s'|]; [|discriminate]. cbn [rmap].
  unfold sy_final in *. change (y_lqdiag (Ts dc it0 s')) with (y_lqdiag s').
  destruct (y_lqdiag s') as [[lqn dg]|]; [|discriminate]. unfold opmul in *. cbv beta iota zeta in *.
  set (xp := @sy_point KK WW' spq b (sqrt (ip b (P b))) lqn dg s') in H.
  assert (EP : @sy_point KK WW q b (sqrt (ip b (P b))) lqn dg (Ts dc it0 s') = P xp).
  { unfold xp, sy_point, sy_prec. rewrite HP. cbn [spq q_P].
    change (y_cgnorm (Ts dc it0 s')) with (y_cgnorm s'). change (y_rhs1 (Ts dc it0 s')) with (y_rhs1 s').
    change (y_snprod (Ts dc it0 s')) with (y_snprod s'). change (y_bstep (Ts dc it0 s')) with (y_bstep s').
    change (y_x (Ts dc it0 s')) with (P (y_x s')). change (y_w (Ts dc it0 s')) with (P (y_w s')).
    change (@vscale KK WW') with (@iscale E). change (@vadd KK WW') with (@iadd E).
    change (@vscale KK WW) with (@iscale E). change (@vadd KK WW) with (@iadd E).
    destruct (@sltb KK (y_cgnorm s') lqn); rewrite ?(lin_add P LP), ?(lin_scale P LP); reflexivity. }
  rewrite EP. eexists _, _. split; [reflexivity|].
  injection H as H _. subst o'. unfold same_scalars.
  cbn [u_nmv u_x u_acond u_anorm u_istop u_itn u_iters u_xnorm u_rnorm].
  repeat (split; [reflexivity|]). rewrite sp_shift. reflexivity.
Qed.

Hypothesis L2 : (2 <= @sy_lim KK WW kw b)%nat.
Local Notation lim := (@sy_lim KK WW kw b).
Let pnorm (z : iv E) : R := sqrt (ip z (P z)).
Let pres (z : iv E) : R := pnorm (isub b (At z)).
Let K (k : nat) (z : iv E) : Prop := kry (fun z => P (At z)) (P b) k z.
Let A' (z : iv E) : iv E' := @isub E' (q_A spq z) (@iscale E' 0 z).

Lemma sp_At' : forall z, A' z = At (P z).
Proof. intro z. exact (sp_zsub 0 (At (P z)) z eq_refl). Qed.
Lemma sp_norm : forall z, @inorm E' z = pnorm z.
Proof. intro z. unfold inorm, pnorm. cbn. rewrite ip_sym. reflexivity. Qed.
Lemma sp_kry : forall k z, @kry E' A' b k z -> K k (P z).
Proof.
  intros k z H. apply (kry_push E P SP). apply (kry_same E P SP PD) in H.
  eapply kry_extf; [|exact H]. exact sp_At'.
Qed.
Lemma sp_kry' : forall k z, K k z -> exists z', z = P z' /\ @kry E' A' b k z'.
Proof.
  intros k z H. destruct (kry_pull E P SP At b k z H) as (z' & -> & Hz). exists z'. split; [reflexivity|].
  apply (kry_same E P SP PD). eapply kry_extf; [|exact Hz]. intro y. symmetry. apply sp_At'.
Qed.
Lemma sp_SA : @selfadj E' (q_A spq : iv E' -> iv E').
Proof. apply (p_selfadj E P SP PD At). intros u v. unfold At. ipx. rewrite <- SA. reflexivity. Qed.
Lemma sp_res : forall z : iv E, @inorm E' (@isub E' b (A' z)) = pres (P z).
Proof. intro z. rewrite sp_At'. apply sp_norm. Qed.

(** [solve] returns.  If a stopping test ended the loop in iteration [k], there is [z] in
    [K_(k-1)(P A, P b)] such that the residual of [xl = P A z] is orthogonal to [K_(k-1)]; whenever the
    Lanczos-CG point [xc] of [K_k] exists, the result is the one of [xl] and [xc] whose residual is
    smaller in the norm [sqrt <r, P r>].  The stopping tests speak of that norm; the reported
    [residNorm] is the Euclidean one. *)
Theorem C82_symmlq : exists o cnt',
  @sy_solve KK WW fuel (Some (opmul (q_A q))) q it0 b kw cnt = Ok (o, cnt') /\
  u_rnorm o = inorm (isub b (At (u_x o))) /\ u_xnorm o = inorm (u_x o : iv E) /\
  (u_istop o = 0%Z /\ u_nmv o = (lim + 1)%nat \/
   In (u_istop o) [-1; 1; 2; 3; 4]%Z /\ (u_nmv o <= lim)%nat /\ u_nmv o = (u_itn o + 1)%nat /\
   exists z : iv E, K (u_itn o - 1) z /\
     let xl := P (At z) in
     (forall y, K (u_itn o - 1) y -> ip (isub b (At xl)) y = 0) /\
     (forall xc, K (u_itn o) xc -> (forall y, K (u_itn o) y -> ip (isub b (At xc)) y = 0) ->
        ((u_x o : iv E) = xl \/ (u_x o : iv E) = xc) /\ pres (u_x o) <= pres xl /\ pres (u_x o) <= pres xc /\
        (u_istop o = 1%Z -> pres (u_x o) <= y_rtol kw * u_anorm o * pnorm (At z)) /\
        (u_istop o = 2%Z -> pres (u_x o) <= eps * u_anorm o * pnorm (At z))) /\
     (u_istop o = 3%Z -> pnorm b <= eps * u_anorm o * pnorm (At z)) /\
     ((forall y, K (u_itn o) y -> K (u_itn o) (P (At y))) ->
      (forall y, K (u_itn o) y -> At y = izero -> y = izero) -> At (u_x o) = b)).
Proof.
  destruct (C80_symmlq dv sq DV SQ E' spq spkw b fuel [] cnt eq_refl sp_SA (fun X => False_ind _ (diff_false_true X)) LB BN LF L2)
    as (o' & c' & ES & R' & X' & H).
  destruct (sp_solve o' c' ES) as (o & c & ES' & E1 & E2 & E3 & E4 & E5 & E6 & E7 & E8 & E9).
  exists o, c. split; [exact ES'|]. split; [exact E9|]. split; [exact E8|].
  change (y_shift spkw) with (@None (sc KK)) in *.
  rewrite E5, E1, E6, E4. destruct H as [H|(H1 & H2 & H3 & xl' & (z' & Z1 & Z2) & G & C & I3 & INV)]; [left; exact H|].
  right. split; [exact H1|]. split; [exact H2|]. split; [exact H3|].
  assert (XL : xl' = At (P z')) by (rewrite <- sp_At'; exact Z2).
  exists (P z'). split; [apply sp_kry; exact Z1|]. cbv zeta. rewrite <- XL.
  assert (RX : pres (u_x o) = u_rnorm o') by (rewrite E2, R'; symmetry; apply sp_res).
  split; [|split; [|split]].
  - intros y Hy. destruct (sp_kry' _ _ Hy) as (y' & -> & Hy'). specialize (G y' Hy').
    change (ip (P (@isub E' b (A' xl'))) y' = 0) in G. rewrite sp_At' in G. rewrite (SP _ y'). exact G.
  - intros xc Kc Oc. destruct (sp_kry' _ _ Kc) as (xc' & -> & Kc').
    destruct (C xc' Kc') as (D1 & D2 & D3 & D4 & D5).
    { intros y Hy. change (ip (P (@isub E' b (A' xc'))) y = 0). rewrite sp_At'. 
      specialize (Oc (P y) (sp_kry _ _ Hy)). rewrite (SP _ y) in Oc. exact Oc. }
    rewrite RX, E2. split; [destruct D1 as [D1|D1]; [left|right]; exact (f_equal P D1)|].
    rewrite <- !sp_res. split; [exact D2|]. split; [exact D3|].
    rewrite <- (sp_norm xl'). split; [exact D4|exact D5].
  - intro I. rewrite <- !sp_norm. exact (I3 I).
  - intros D INJ. rewrite E2, <- sp_At'. apply INV.
    + intros y Hy. pose proof (sp_kry _ _ Hy) as Ky. specialize (D _ Ky).
      destruct (sp_kry' _ _ D) as (y' & Q & Hy'). apply (p_inj E P SP PD) in Q.
      change (@kry E' A' b (u_itn o') (A' y)). rewrite sp_At', Q. exact Hy'.
    + intros y Hy Z. change (A' y = izero) in Z. rewrite sp_At' in Z. apply (p_inj E P SP PD).
      rewrite (INJ (P y) (sp_kry _ _ Hy) Z). symmetry. apply (lin_zero P LP).
Qed.

(** In a space of dimension [n < lim] with [A - shift] injective a stopping test fires by iteration
    [n]; a run of [n] iterations returns the solution. *)
Theorem C82_finite : forall n, dim_le E n -> (n < lim)%nat -> (forall z, At z = izero -> z = izero) ->
  exists o cnt', @sy_solve KK WW fuel (Some (opmul (q_A q))) q it0 b kw cnt = Ok (o, cnt') /\
    In (u_istop o) [-1; 1; 2; 3; 4]%Z /\ (u_itn o <= n)%nat /\ u_nmv o = (u_itn o + 1)%nat /\
    (u_itn o = n -> At (u_x o) = b).
Proof.
  intros n D HN INJ.
  destruct (C80_finite dv sq DV SQ E' spq spkw b fuel [] cnt eq_refl sp_SA (fun X => False_ind _ (diff_false_true X)) LB BN LF L2
    n (p_dim E P SP PD n D) HN) as (o' & c' & ES & H1 & H2 & H3 & H4).
  { intros z Z. change (A' z = izero) in Z. rewrite sp_At' in Z. apply (p_inj E P SP PD).
    rewrite (INJ (P z) Z). symmetry. apply (lin_zero P LP). }
  destruct (sp_solve o' c' ES) as (o & c & ES' & E1 & E2 & E3 & E4 & E5 & E6 & E7 & E8 & E9).
  exists o, c. split; [exact ES'|]. rewrite E5, E1, E6.
  split; [exact H1|]. split; [exact H2|]. split; [exact H3|]. intro Q. rewrite E2, <- sp_At'. exact (H4 Q).
Qed.

(** The stored iterates are the LQ points up to their component along [P b]. *)
Theorem C82_iterates : forall o cnt', y_sit kw = true ->
  @sy_solve KK WW fuel (Some (opmul (q_A q))) q it0 b kw cnt = Ok (o, cnt') ->
  exists zs, (u_iters o : list (iv E)) = it0 ++ zs /\
    forall i z, nth_error zs i = Some z -> exists c,
      let x := iadd z (iscale c (P b)) in
      (exists y, K i y /\ x = P (At y)) /\ (forall y, K i y -> ip (isub b (At x)) y = 0).
Proof.
  intros o c SIT EO.
  destruct (C80_symmlq dv sq DV SQ E' spq spkw b fuel [] cnt eq_refl sp_SA (fun X => False_ind _ (diff_false_true X)) LB BN LF L2)
    as (o' & c' & ES & _).
  destruct (sp_solve o' c' ES) as (o1 & c1 & ES' & E1 & E2 & E3 & E4 & E5 & E6 & E7 & E8 & E9).
  rewrite EO in ES'. injection ES' as <- <-.
  destruct (C80_iterates dv sq DV SQ E' spq spkw b fuel [] cnt eq_refl sp_SA (fun X => False_ind _ (diff_false_true X)) LB BN LF L2
    o' c' SIT ES) as (zs & Z1 & Z2).
  change (y_shift spkw) with (@None (sc KK)) in *.
  exists (map P zs). split; [rewrite E7, Z1; reflexivity|]. intros i z Hi.
  rewrite nth_error_map in Hi. change (option_map P (@nth_error (iv E') zs i) = Some z) in Hi. destruct (nth_error zs i) as [z'|] eqn:EN; [|discriminate]. cbn in Hi; injection Hi as <-.
  destruct (Z2 i z' EN) as (a & (y & Y1 & Y2) & Y3). exists a. cbv zeta.
  set (x' := @iadd E' z' (@iscale E' a b)) in *.
  assert (PX : iadd (P z') (iscale a (P b)) = P x').
  { unfold x'. rewrite <- (lin_scale P LP a b). symmetry. exact (lin_add P LP z' (iscale a b)). }
  rewrite PX. split.
  - exists (P y). split; [apply sp_kry; exact Y1|]. rewrite <- sp_At'. exact (f_equal P Y2).
  - intros u Hu. destruct (sp_kry' _ _ Hu) as (u' & -> & Hu'). specialize (Y3 u' Hu').
    change (ip (P (@isub E' b (A' x'))) u' = 0) in Y3. rewrite sp_At' in Y3. rewrite (SP _ u'). exact Y3.
Qed.
End SymmlqPrecon.

(** The hypotheses hold of [A = ((4,3),(3,4))], [b = (1,0)], [P = diag(3, 1/5)], with the symmetry checks
    on and iterates stored; [C82_finite] then applies. *)
Section Ex.
Notation K2 := (exactK Rdiv sqrt).
Notation E2 := (Rn 2).
Notation W2 := (exactV Rdiv sqrt E2).
Definition gP (x : iv E2) : iv E2 := v2 (3 * fst x) (fst (snd x) / 5).
Definition gprob : kprob W2 :=
  @mkprob K2 W2 2 2 (fA : vc W2 -> vc W2) (Some (gP : vc W2 -> vc W2)) (0%R : sc K2) (0%R : sc K2) (fun x => x) [].
Definition gkw : @sy_kw K2 := mksykw (Some 3%nat) (@slit K2 (1 # 1000000000)) true None true.

Example C82_hyps : q_P gprob = Some (gP : vc W2 -> vc W2) /\ selfadj gP /\ posdef gP /\ selfadj (q_A gprob : iv E2 -> iv E2) /\
  (y_check gkw = true -> 0 <= q_cbrt gprob (@machine_eps K2)) /\ fb <> izero /\
  (1 <= ilen fb)%nat /\ (1 <= ilen (gP fb))%nat /\ (@sy_lim K2 W2 gkw fb < 10)%nat /\ (2 <= @sy_lim K2 W2 gkw fb)%nat.
Proof.
  split; [reflexivity|]. split; [intros [a [c []]] [e [f []]]; cbn; field|].
  split.
  { intros [a [c []]] NZ. cbn. destruct (Req_dec a 0) as [->|A0]; [destruct (Req_dec c 0) as [->|C0]|].
    - exfalso. apply NZ. reflexivity.
    - assert (0 < c * c) by nra. lra.
    - assert (0 < a * a) by nra. nra. }
  split; [exact fA_sym|]. split; [intros _; apply Rlt_le, (sy_eps_pos Rdiv sqrt)|].
  split; [intro H; injection H as H; lra|]. repeat split; cbn; lia.
Qed.
Example C82_run : exists o cnt', @sy_solve K2 W2 10 (Some (opmul (q_A gprob))) gprob [] fb gkw 0 = Ok (o, cnt') /\
  In (u_istop o) [-1; 1; 2; 3; 4]%Z /\ (u_itn o <= 2)%nat /\ u_nmv o = (u_itn o + 1)%nat /\
  (u_itn o = 2%nat -> isub (fA (u_x o)) (iscale 0 (u_x o : iv E2)) = fb).
Proof.
  destruct C82_hyps as (H1 & H2 & H3 & H4 & H5 & H6 & H7 & H8 & H9 & H10).
  apply (C82_finite Rdiv sqrt Rdiv_ok sqrt_ok E2 gprob gkw fb gP H1 H2 H3 H4 H5 H6 10 [] 0 H7 H8 H9 H10 2 (Rn_dim 2)); [cbn; lia|].
  intros z Z. apply fA_inj. rewrite <- Z. symmetry. change (isub (fA z) (iscale 0 z) = fA z).
  apply ip_ext. intro w. ipx. ring.
Qed.
End Ex.

Print Assumptions C82_symmlq. Print Assumptions C82_finite. Print Assumptions C82_iterates.
