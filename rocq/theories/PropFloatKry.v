(** C97, continued: CGS and BiCGSTAB in rounded arithmetic with dense matrices, with or without preconditioner. *)
From Coq Require Import List ZArith QArith Qreals Reals Lia Lra Bool.
From Verif Require Import Base Num ToolsModel CgModel KrylovModel FlArith FlRound PropFloat.
Import ListNotations.
Local Open Scope R_scope.

Section Rounded.
Variables (rnd : R -> R) (Om u : R) (n : nat).
Hypothesis U0 : 0 <= u <= / 8.
Hypothesis RND : forall x, Rabs (rnd x - x) <= u * Rabs x.
Notation K := (roundK rnd Om).
Notation W := (roundV rnd Om n).
Notation nrm := (@inorm (Rn n)).
Variables (q : kprob W) (M : mt n n).
Hypothesis QA : forall x, q_A q x = ob x (fmv rnd Om M).
Notation u0 := (proj1 U0).
Notation F := (round_fl rnd Om u u0 RND n).
Notation rdrift B X k := (drifts (fro M) (gam u n * fro M) u 0 B X k).
Variables (kw : kkw W) (b : rv n).
Notation rhs := (Some b : vc W).
Notation r0 cnt := (fst (start_r q kw rhs cnt)).
(** the computed norm of the initial residual *)
Notation rn cnt := (@sabs K (ssqrt (vdot (r0 cnt) (r0 cnt)))).
Notation th cnt := (thr q (rn cnt)).
Notation mx := (mmax (w_mmax kw) rhs).
(** the states in which the loops start, cgs.py:53-76 and bicgstab.py:56-85, and the loops *)
Notation cgs0 cnt := (mkcgs (start_x kw rhs) (r0 cnt) (r0 cnt) (r0 cnt) (vdot (r0 cnt) (r0 cnt)) (rn cnt) 0
  (snd (start_r q kw rhs cnt)) (sleb (rn cnt) (th cnt) || (mx <=? 0)%nat)).
Notation cgsR cnt := (rounds (fun st => negb (s_fin st)) (cgs_body q (r0 cnt) (th cnt) mx)).
Notation bi0 cnt := (mkbi (start_x kw rhs) (r0 cnt) (vzeros (vlen rhs)) (vzeros (vlen rhs)) s1 (vdot (r0 cnt) (r0 cnt)) s1 s1
  (rn cnt) (match w_guess kw with Some _ => 1%nat | None => 0%nat end) (snd (start_r q kw rhs cnt))
  (sleb (rn cnt) (th cnt) || (mx <=? match w_guess kw with Some _ => 1 | None => 0 end)%nat)).
Notation biR cnt := (rounds (fun st => negb (b_fin st)) (bi_body q (r0 cnt) (th cnt) mx)).

Theorem C97_rounded_cgs : forall (x : rv n) fuel cnt out cnt' X,
  (forall k st y, cgsR cnt k (cgs0 cnt) = Ok st -> s_x st = Some y -> nrm y <= X) ->
  cgs_solve fuel q rhs kw cnt = Ok (out, cnt') -> o_conv out = true -> o_x out = Some x ->
  exists t, th cnt = Some t /\ true_res n M b x <= gnorm u n t + rdrift (nrm b) X (S (o_nmv out)).
Proof.
  intros x fuel cnt out cnt' X XB H CV GX.
  pose proof (fun G XB' HG FX => @C97_cgs K W (Rn n) u 0 F q (mv M) (fro M) (gam u n * fro M)
    (round_op rnd Om u n U0 RND q M QA) kw rhs X fuel cnt out cnt' G XB' HG H CV FX) as T.
  assert (XB' : forall k st, cgsR cnt k (cgs0 cnt) = Ok st -> fv F (s_x st) -> nrm (vv F (s_x st)) <= X).
  { intros k st HR [y FY]. cbn [vv round_fl]. rewrite FY. cbn [ov]. exact (XB k st y HR FY). }
  assert (FX : fv F (o_x out)) by (exists x; exact GX).
  assert (EX : vv F (o_x out) = x) by (cbn [vv round_fl]; rewrite GX; reflexivity).
  rewrite EX in T.
  destruct (th cnt) as [t|] eqn:TH.
  - exists t. split; [reflexivity|]. apply (T (gnorm u n t)); [unfold fl_th, fl_rn; rewrite TH; exact XB'| |exact FX].
    intros r HL. unfold fl_th, fl_rn in HL. rewrite TH in HL.
    destruct (round_norm rnd Om u n U0 RND r (Some t) HL) as (t' & ET & Q). injection ET as <-. exact Q.
  - exfalso.
    assert (Q : inorm (isub (vv F rhs) (mv M x)) <= - 1 - rdrift (nrm b) X (S (o_nmv out)) + rdrift (nrm b) X (S (o_nmv out))).
    { apply T; [unfold fl_th, fl_rn; rewrite TH; exact XB'| |exact FX].
      intros r HL. unfold fl_th, fl_rn in HL. rewrite TH in HL.
      destruct (round_norm rnd Om u n U0 RND r None HL) as (t' & ET & _). discriminate. }
    pose proof (inorm_pos (isub (vv F rhs) (mv M x))). lra.
Qed.

Theorem C97_rounded_bicgstab : forall (x : rv n) fuel cnt out cnt' X,
  (forall k st y, biR cnt k (bi0 cnt) = Ok st -> b_x st = Some y \/ bi_mid q (r0 cnt) st = Some y -> nrm y <= X) ->
  bi_solve fuel q rhs kw cnt = Ok (out, cnt') -> o_conv out = true -> o_x out = Some x ->
  exists t, th cnt = Some t /\ true_res n M b x <= gnorm u n t + rdrift (nrm b) X (2 * o_nmv out + 1).
Proof.
  intros x fuel cnt out cnt' X XB H CV GX.
  pose proof (fun G XB' HG FX => @C97_bicgstab K W (Rn n) u 0 F q (mv M) (fro M) (gam u n * fro M)
    (round_op rnd Om u n U0 RND q M QA) kw rhs X fuel cnt out cnt' G XB' HG H CV FX) as T.
  assert (XB' : forall k st, biR cnt k (bi0 cnt) = Ok st ->
     (fv F (b_x st) -> nrm (vv F (b_x st)) <= X) /\ (fv F (bi_mid q (r0 cnt) st) -> nrm (vv F (bi_mid q (r0 cnt) st)) <= X)).
  { intros k st HR. split; intros [y FY]; cbn [vv round_fl]; rewrite FY; cbn [ov]; apply (XB k st y HR); [left|right]; exact FY. }
  assert (FX : fv F (o_x out)) by (exists x; exact GX).
  assert (EX : vv F (o_x out) = x) by (cbn [vv round_fl]; rewrite GX; reflexivity).
  rewrite EX in T.
  destruct (th cnt) as [t|] eqn:TH.
  - exists t. split; [reflexivity|]. apply (T (gnorm u n t)); [unfold fl_th, fl_rn; rewrite TH; exact XB'| |exact FX].
    intros r HL. unfold fl_th, fl_rn in HL. rewrite TH in HL.
    destruct (round_norm rnd Om u n U0 RND r (Some t) HL) as (t' & ET & Q). injection ET as <-. exact Q.
  - exfalso.
    assert (Q : inorm (isub (vv F rhs) (mv M x)) <= - 1 - rdrift (nrm b) X (2 * o_nmv out + 1) + rdrift (nrm b) X (2 * o_nmv out + 1)).
    { apply T; [unfold fl_th, fl_rn; rewrite TH; exact XB'| |exact FX].
      intros r HL. unfold fl_th, fl_rn in HL. rewrite TH in HL.
      destruct (round_norm rnd Om u n U0 RND r None HL) as (t' & ET & _). discriminate. }
    pose proof (inorm_pos (isub (vv F rhs) (mv M x))). lra.
Qed.
End Rounded.

(** ** The hypotheses hold: the run of C97_rounded_ex, in which every operation errs by 1/16, with the two solvers. *)
Notation eW := (roundV ernd 1000 1).
Notation e_b := (Some (1, tt) : vc eW).
Definition k_kw : kkw eW := mkkkw (W := eW) None None.
Ltac ev z y := rewrite (ero z y ltac:(field) ltac:(lra)); cbn [ob ob2 option_map].
Lemma k_norm : forall a, @inorm (Rn 1) (a, tt) = Rabs a.
Proof. intro a. unfold inorm. cbn. rewrite Rplus_0_r. apply sqrt_Rsqr_abs. Qed.
Lemma k_add : forall (a c : vc eW) y, vadd a c = Some y -> @inorm (Rn 1) y <= 1000.
Proof.
  intros [[a []]|] [[c []]|] y H; try discriminate. cbn in H. unfold ro in H.
  destruct (Rleb (Rabs (ernd (a + c))) 1000) eqn:L; [|discriminate]. cbn in H. injection H as <-. rewrite k_norm. apply Rleb_true. exact L.
Qed.
Lemma k_rn : @sabs (roundK ernd 1000) (ssqrt (vdot e_b e_b)) = Some (289 / 256).
Proof.
  cbn. ev (1 * 1) (17 / 16). ev (17 / 16 + 0) (289 / 256). unfold osqrt. rewrite (proj2 (Rltb_false (289 / 256) 0)) by lra.
  replace (sqrt (289 / 256)) with (17 / 16) by (symmetry; apply sqrt_lem_1; lra).
  ev (17 / 16) (289 / 256). rewrite Rabs_pos_eq by lra. reflexivity.
Qed.
Lemma k_sqrt : forall a, 0 <= a -> 17 / 16 * a <= 1000 -> osqrt ernd 1000 (a * a) = Some (17 / 16 * a).
Proof.
  intros a H0 H1. unfold osqrt. rewrite (proj2 (Rltb_false (a * a) 0)) by nra. rewrite sqrt_square by exact H0. apply ero; [reflexivity|lra].
Qed.
Lemma k_cgs_body : cgs_body e_q e_b (Some 1 : sc (roundK ernd 1000)) 2
  (mkcgs (W := eW) (Some (0, tt)) e_b e_b e_b (Some (289 / 256)) (Some (289 / 256)) 0 0 false) =
  Ok (mkcgs (W := eW) (Some (1021615 / 1048576, tt)) (Some (- (10034063 / 268435456), tt)) e_b e_b (Some (289 / 256))
        (Some (17 / 16 * (170579071 / 4294967296))) 2 2 true).
Proof.
  unfold cgs_body. cbn. ev (1 * 1) (17 / 16). ev (17 / 16 + 0) (289 / 256). cbn [fst ob].
  ev (1 * (289 / 256)) (4913 / 4096). ev (4913 / 4096 + 0) (83521 / 65536).
  rewrite (edv (289 / 256) (83521 / 65536) (16 / 17)) by (try field; lra). cbn [fst ob2 ob].
  ev (16 / 17 * (289 / 256)) (289 / 256). cbn [fst ob2 ob]. ev (1 - 289 / 256) (- (561 / 4096)). cbn [fst ob2 ob].
  ev (1 + - (561 / 4096)) (60095 / 65536). cbn [fst ob2 ob].
  ev (1 * (60095 / 65536)) (1021615 / 1048576). ev (1021615 / 1048576 + 0) (17367455 / 16777216). cbn [fst ob2 ob].
  ev (16 / 17 * (17367455 / 16777216)) (17367455 / 16777216). ev (16 / 17 * (60095 / 65536)) (60095 / 65536). cbn [fst ob2 ob].
  ev (0 + 60095 / 65536) (1021615 / 1048576). ev (1 - 17367455 / 16777216) (- (10034063 / 268435456)). cbn [fst ob2 ob].
  ev (- (10034063 / 268435456) * - (10034063 / 268435456)) (1711601144895473 / 1152921504606846976). ev (1711601144895473 / 1152921504606846976 + 0) (170579071 / 4294967296 * (170579071 / 4294967296)). cbn [fst ob2 ob].
  rewrite (k_sqrt (170579071 / 4294967296)) by lra. rewrite orb_true_r. reflexivity.
Qed.
Lemma k_bi_body : bi_body e_q e_b (Some 1 : sc (roundK ernd 1000)) 2
  (mkbi (W := eW) (Some (0, tt)) e_b (Some (0, tt)) (Some (0, tt)) (Some 1) (Some (289 / 256)) (Some 1) (Some 1) (Some (289 / 256)) 0 0 false) =
  Ok (mkbi (W := eW) (Some (17 / 16, tt)) e_b (Some (17 / 16, tt)) (Some (4913 / 4096, tt)) (Some (289 / 256)) (Some (289 / 256)) (Some (256 / 289)) (Some 1)
        (Some (17 / 16 * (9537 / 65536))) 1 1 true).
Proof.
  unfold bi_body. cbn. rewrite (edv (289 / 256) 1 (4913 / 4096)) by (try field; lra). cbn [fst ob2 ob].
  ev (4913 / 4096 * 1) (83521 / 65536). rewrite (edv (83521 / 65536) 1 (1419857 / 1048576)) by (try field; lra). cbn [fst ob2 ob].
  ev (1419857 / 1048576 * 0) 0. ev (1419857 / 1048576 * 1) (24137569 / 16777216). cbn [fst ob2 ob]. ev (24137569 / 16777216 * 0) 0. cbn [fst ob2 ob].
  ev (0 - 0) 0. cbn [fst ob2 ob]. ev (0 + 1) (17 / 16). cbn [fst ob2 ob].
  ev (1 * (17 / 16)) (289 / 256). ev (289 / 256 + 0) (4913 / 4096). cbn [fst ob2 ob].
  ev (1 * (4913 / 4096)) (83521 / 65536). ev (83521 / 65536 + 0) (1419857 / 1048576). cbn [fst ob2 ob].
  rewrite (edv (289 / 256) (1419857 / 1048576) (256 / 289)) by (try field; lra). cbn [fst ob2 ob].
  ev (256 / 289 * (4913 / 4096)) (289 / 256). cbn [fst ob2 ob]. ev (1 - 289 / 256) (- (561 / 4096)). cbn [fst ob2 ob].
  ev (- (561 / 4096) * - (561 / 4096)) (5350257 / 268435456). ev (5350257 / 268435456 + 0) (9537 / 65536 * (9537 / 65536)). cbn [fst ob2 ob].
  rewrite (k_sqrt (9537 / 65536)) by lra. cbn [ocmp]. rewrite (proj2 (Rleb_true (17 / 16 * (9537 / 65536)) 1)) by lra.
  ev (256 / 289 * (17 / 16)) 1. cbn [fst ob2 ob]. ev (0 + 1) (17 / 16). reflexivity.
Qed.

(** In the run of CGS every iterate is the start or the result of an addition, which cannot exceed the overflow threshold. *)
Lemma k_cgs_x : forall r0 th mx k (st0 st : cgs_st eW), (forall y, s_x st0 = Some y -> @inorm (Rn 1) y <= 1000) ->
  rounds (fun st => negb (s_fin st)) (cgs_body e_q r0 th mx) k st0 = Ok st -> forall y, s_x st = Some y -> @inorm (Rn 1) y <= 1000.
Proof.
  intros r0 th mx k. induction k as [|k IH]; intros st0 st H0 H; cbn [rounds] in H; [injection H as <-; exact H0|].
  destruct (rounds _ _ k st0) as [st1|] eqn:R1; [|discriminate]. destruct (negb (s_fin st1)); [|discriminate].
  unfold cgs_body, opmul in H. cbv zeta in H. intro y.
  match type of H with (if ?b then _ else _) = _ => destruct b end; injection H as <-; cbn [s_x]; apply k_add.
Qed.
Lemma k_bi_x : forall r0 th mx k (st0 st : bi_st eW), (forall y, b_x st0 = Some y -> @inorm (Rn 1) y <= 1000) ->
  rounds (fun st => negb (b_fin st)) (bi_body e_q r0 th mx) k st0 = Ok st -> forall y, b_x st = Some y -> @inorm (Rn 1) y <= 1000.
Proof.
  intros r0 th mx k. induction k as [|k IH]; intros st0 st H0 H; cbn [rounds] in H; [injection H as <-; exact H0|].
  destruct (rounds _ _ k st0) as [st1|] eqn:R1; [|discriminate]. destruct (negb (b_fin st1)); [|discriminate].
  specialize (IH st0 st1 H0 R1). unfold bi_body, opmul in H. cbv zeta in H. intro y.
  match type of H with (if ?b then _ else _) = _ => destruct b end; [injection H as <-; cbn [b_x]; apply k_add|].
  match type of H with (if ?b then _ else _) = _ => destruct b end; injection H as <-; cbn [b_x]; [apply IH|apply k_add].
Qed.

Example C97_rounded_kry_ex :
  (exists out cnt', cgs_solve 2 e_q e_b k_kw 0 = Ok (out, cnt') /\ o_conv out = true /\ o_x out = Some (1021615 / 1048576, tt) /\ o_nmv out = 2%nat) /\
  (exists out cnt', bi_solve 2 e_q e_b k_kw 0 = Ok (out, cnt') /\ o_conv out = true /\ o_x out = Some (17 / 16, tt) /\ o_nmv out = 1%nat) /\
  thr e_q (Some (289 / 256)) = Some 1 /\
  (let rn := @sabs (roundK ernd 1000) (ssqrt (vdot e_b e_b)) in let th := thr e_q rn in
   (forall k st y, rounds (fun st => negb (s_fin st)) (cgs_body e_q e_b th 2) k
      (mkcgs (W := eW) (Some (0, tt)) e_b e_b e_b (vdot e_b e_b) rn 0 0 (sleb rn th || false)) = Ok st -> s_x st = Some y -> @inorm (Rn 1) y <= 1000) /\
   (forall k st y, rounds (fun st => negb (b_fin st)) (bi_body e_q e_b th 2) k
      (mkbi (W := eW) (Some (0, tt)) e_b (Some (0, tt)) (Some (0, tt)) s1 (vdot e_b e_b) s1 s1 rn 0 0 (sleb rn th || false)) = Ok st ->
      b_x st = Some y \/ bi_mid e_q e_b st = Some y -> @inorm (Rn 1) y <= 1000)).
Proof.
  assert (RHO : @vdot (roundK ernd 1000) eW e_b e_b = Some (289 / 256)) by (cbn; ev (1 * 1) (17 / 16); ev (17 / 16 + 0) (289 / 256); reflexivity).
  assert (L0 : @sleb (roundK ernd 1000) (Some (289 / 256)) (Some 1) = false) by (cbn; apply Rleb_false; lra).
  assert (Z0 : forall y, Some (0, tt) = Some y -> @inorm (Rn 1) y <= 1000) by (intros y H; injection H as <-; rewrite k_norm, Rabs_R0; lra).
  split.
  { unfold cgs_solve, start_r, k_kw. cbn [w_guess w_mmax]. rewrite k_rn, RHO, e_thr, L0. change (mmax None e_b) with 2%nat. cbn [orb Nat.leb].
    change (start_x (mkkkw (W := eW) None None) e_b) with (Some (0, tt) : vc eW).
    cbn [while s_fin negb]. rewrite k_cgs_body. cbn [s_fin negb]. eexists _, _. split; [reflexivity|]. cbn [o_conv o_x o_nmv s_res s_x s_nmv].
    split; [cbn; apply Rleb_true; lra|]. split; reflexivity. }
  split.
  { unfold bi_solve, start_r, k_kw. cbn [w_guess w_mmax]. rewrite k_rn, RHO, e_thr, L0. change (mmax None e_b) with 2%nat. cbn [orb Nat.leb].
    change (start_x (mkkkw (W := eW) None None) e_b) with (Some (0, tt) : vc eW). change (vzeros (vlen e_b)) with (Some (0, tt) : vc eW).
    change (@s1 (roundK ernd 1000)) with (Some 1 : sc (roundK ernd 1000)).
    cbn [while b_fin negb]. rewrite k_bi_body. cbn [b_fin negb]. eexists _, _. split; [reflexivity|]. cbn [o_conv o_x o_nmv b_res b_x b_nmv].
    split; [cbn; apply Rleb_true; lra|]. split; reflexivity. }
  split; [exact e_thr|]. cbv zeta. split.
  - intros k st y H. refine (k_cgs_x _ _ _ k _ st _ H y). exact Z0.
  - intros k st y H [HY|HY]; [refine (k_bi_x _ _ _ k _ st _ H y HY); exact Z0|]. unfold bi_mid in HY. cbv zeta in HY. exact (k_add _ _ _ HY).
Qed.

Print Assumptions C97_rounded_cgs.
Print Assumptions C97_rounded_bicgstab.
