(** Property C109: the norms reported by CRAIG with preconditioners, in exact arithmetic. *)
From Coq Require Import List ZArith QArith Reals Lia Lra Bool.
From Verif Require Import Base Num SpanMath ToolsModel CgProof MinresModel MinresProof GkProof PropMinres PropCg LsqrModel LsqrFlow LsqrMath PropLsqr LsmrModel LsmrFlow LsmrProof PropLsmr
  CraigModel CraigMath CraigProof PropCraig CraigNorms PropCraigNorms Precon CraigPrecon PropPrecon.
Import ListNotations.
Local Open Scope R_scope.

Section Craig.
Variables (dv : R -> R -> R) (sq : R -> R).
Hypothesis DV : dv_ok dv.
Hypothesis SQ : sq_ok sq.
Variables E1 E2 : IPS.
Notation KK := (exactK dv sq).
Notation WV := (exactV dv sq E1).
Notation WU := (exactV dv sq E2).
Variables (q : lprob WV WU) (b : iv E2).
(** [M] and [N] are the preconditioners, the identity if the argument is [None]; [Mi], [Ni] their inverses. *)
Variables (oM : option (iv E2 -> iv E2)) (oN : option (iv E1 -> iv E1)).
Let M : iv E2 -> iv E2 := match oM with Some P => P | None => fun z => z end.
Let N : iv E1 -> iv E1 := match oN with Some P => P | None => fun z => z end.
Hypothesis SM : selfadj M.
Hypothesis PM : posdef M.
Hypothesis SN : selfadj N.
Hypothesis PN : posdef N.
Variable Ni : iv E1 -> iv E1.
Hypothesis NI : forall z, N (Ni z) = z.
Variable Mi : iv E2 -> iv E2.
Hypothesis MI : forall z, M (Mi z) = z.
Let A : iv E1 -> iv E2 := lp_A q.
Let At : iv E2 -> iv E1 := lp_At q.
Hypothesis AD : adjoint A At.
Variables (fuel cnt : nat) (kw : cr_kw WV WU).
Hypothesis HM : c_M kw = oM.
Hypothesis HN : c_N kw = oN.
Hypothesis HW : (1 <= c_window kw)%nat.
Variables (r : cr_out WV WU) (cnt' : nat).
Hypothesis B0 : b <> izero.
Hypothesis RET : @cr_solve KK WV WU fuel q kw b cnt = Ok (r, cnt').

Local Notation F1 := (pspace E1 N SN PN).
Local Notation F2 := (pspace E2 M SM PM).
Local Notation XV := (exactVn dv sq F1 (@inorm F1)).
Local Notation XU := (exactVn dv sq F2 (@inorm F2)).
Local Notation lq := (cpq dv sq E1 E2 q oM oN SM PM SN PN).
Local Notation lk := (ckwp dv sq E1 E2 oM oN SM PM SN PN kw).
Let adp : @adjoint F1 F2 (lp_A lq) (lp_At lq) := cp_adj dv sq E1 E2 q oM oN SM PM SN PN AD.

Lemma cr_pull : exists r' : cr_out XV XU, @cr_solve KK XV XU fuel lq lk b cnt = Ok (r', cnt') /\ r = Tco dv sq E1 E2 oM oN SM PM SN PN r'.
Proof.
  pose proof (csolve_sim dv sq E1 E2 q b oM oN SM PM SN PN kw HM HN fuel cnt) as S. rewrite RET in S.
  match type of S with _ = rmap _ ?w => change w with (@cr_solve KK XV XU fuel lq lk b cnt) in S end.
  destruct (@cr_solve KK XV XU fuel lq lk b cnt) as [[r' c]|]; [|discriminate].
  cbn [rmap fst snd] in S. injection S as -> ->. exists r'. split; reflexivity.
Qed.
Let ni_n : forall z, Ni (N z) = z.
Proof. intro z. apply (p_inj E1 N SN PN). apply NI. Qed.
Let mi_m : forall z, Mi (M z) = z.
Proof. intro z. apply (p_inj E2 M SM PM). apply MI. Qed.

(** [r1norm] squared and [xnorm] are a splitting of [<x, inv(N) x> + <y, inv(M) y>], the square of [r2norm], into two nonnegative
    terms. *)
Theorem C109_splitting :
  let nrg := ip (go_x r : iv E1) (Ni (go_x r)) + ip (go_r r : iv E2) (Mi (go_r r)) in
  (go_r1norm r * go_r1norm r : R) + go_xnorm r = nrg /\ (go_r2norm r * go_r2norm r : R) = nrg /\
  0 <= (go_r1norm r : R) /\ 0 <= (go_xnorm r : R).
Proof.
  intro nrg. destruct cr_pull as (r' & H & ER).
  destruct (C101_splitting dv sq DV SQ F1 F2 (@inorm F1) (@inorm F2) lq b adp fuel cnt lk eq_refl eq_refl HW r' cnt' B0 H) as (S1 & S2 & S3 & S4).
  assert (EN : nrg = @ip F1 (go_x r') (go_x r') + @ip F2 (go_r r') (go_r r')).
  { unfold nrg. rewrite ER. unfold Tco. cbn [go_x go_r]. change (pre_of oN) with N. change (pre_of oM) with M. rewrite ni_n, mi_m. reflexivity. }
  rewrite EN, ER. unfold Tco. cbn [go_r1norm go_r2norm go_xnorm]. split; [exact S1|]. split; [exact S2|]. split; [exact S3|exact S4].
Qed.

(** The entries of [normal_eqns_resids] and [Arnorm] belong to the iterates before, as in C101, in the norm of [M]. *)
Theorem C109_arnorm : exists ps : list (iv E1 * iv E2),
  length ps = S (go_itn r) /\ last ps (izero, izero) = (go_x r : iv E1, go_r r : iv E2) /\
  (c_sit kw = true -> go_itp r = map fst ps /\ go_itd r = map snd ps) /\ (1 <= go_itn r)%nat /\
  (forall i p, nth_error ps i = Some p -> fst p = N (At (snd p))) /\
  let res (p : iv E1 * iv E2) := let z := isub b (iadd (A (fst p)) (Mi (snd p))) in sqrt (ip z (M z)) in
  let goal p (a : R) := res p <= a /\
    forall sg, 0 <= sg -> (forall z, ip (M (A (N z))) (A (N z)) <= sg * sg * ip z (N z)) -> a <= sqrt (1 + sg * sg) * res p in
  (forall i a, nth_error (go_nresids r) i = Some a ->
     exists p, nth_error ps i = Some p /\ goal p a /\ (i = 0%nat -> a = res p)) /\
  (exists p, nth_error ps (go_itn r - 1) = Some p /\ goal p (go_Arnorm r) /\ (go_itn r = 1%nat -> go_Arnorm r = res p)).
Proof.
  destruct cr_pull as (r' & H & ER).
  destruct (C101_arnorm dv sq DV SQ F1 F2 (@inorm F1) (@inorm F2) lq b adp fuel cnt lk eq_refl eq_refl HW r' cnt' B0 H)
    as (ps & L & LA & SI & N1 & XA & NR & p1 & P1 & G1 & Q1).
  set (TP := fun p : iv E1 * iv E2 => (N (fst p), M (snd p))).
  exists (map TP ps). rewrite ER. unfold Tco. cbn [go_x go_r go_itn go_itp go_itd go_nresids go_Arnorm].
  change (pre_of oN) with N. change (pre_of oM) with M.
  split; [rewrite map_length; exact L|].
  split.
  { destruct ps as [|p0 ps]; [discriminate|].
    assert (LT : forall (l : list (iv E1 * iv E2)) p, last (map TP (p :: l)) (izero, izero) = TP (last (p :: l) (izero, izero))).
    { induction l as [|a l IH]; intro p; [reflexivity|]. exact (IH a). }
    etransitivity; [exact (LT ps p0)|]. exact (f_equal TP LA). }
  split.
  { intro T. destruct (SI T) as [Q2 Q3]. rewrite !map_map. split.
    - etransitivity; [exact (f_equal (map N) Q2)|]. rewrite map_map. reflexivity.
    - etransitivity; [exact (f_equal (map M) Q3)|]. rewrite map_map. reflexivity. }
  split; [exact N1|].
  split.
  { intros i p Hp. rewrite nth_error_map in Hp. change (option_map TP (@nth_error (iv E1 * iv E2) ps i) = Some p) in Hp.
    destruct (@nth_error (iv E1 * iv E2) ps i) as [p'|] eqn:Hi; [|discriminate]. injection Hp as <-.
    exact (f_equal N (XA i p' Hi)). }
  cbv zeta.
  assert (RS : forall p : iv E1 * iv E2, sqrt (ip (isub b (iadd (A (fst (TP p))) (Mi (snd (TP p)))))
      (M (isub b (iadd (A (fst (TP p))) (Mi (snd (TP p))))))) = @inorm F2 (@isub F2 b (@iadd F2 (lp_A lq (fst p)) (snd p)))).
  { intro p. unfold TP. cbn [fst snd]. rewrite mi_m. unfold inorm. f_equal. rewrite SM. reflexivity. }
  assert (BD : forall sg, 0 <= sg -> (forall z, ip (M (A (N z))) (A (N z)) <= sg * sg * ip z (N z)) ->
    forall z : iv F1, @inorm F2 (lp_A lq z) <= sg * @inorm F1 z).
  { intros sg S0 HB z. rewrite <- (sqrt_square sg S0). unfold inorm. rewrite <- sqrt_mult_alt by nra. apply sqrt_le_1_alt.
    change (ip (M (A (N z))) (A (N z)) <= sg * sg * ip (N z) z). rewrite (ip_sym (N z) z). apply HB. }
  split.
  - intros i a Ha. destruct (NR i a Ha) as (p & Hp & [G2 G3] & G4). exists (TP p).
    split; [rewrite nth_error_map; exact (f_equal (option_map TP) Hp)|]. rewrite RS. split; [|exact G4]. split; [exact G2|].
    intros sg S0 HB. apply G3; [exact S0|]. apply BD; assumption.
  - exists (TP p1). split; [rewrite nth_error_map; exact (f_equal (option_map TP) P1)|]. rewrite RS. split; [|exact Q1].
    destruct G1 as [G2 G3]. split; [exact G2|]. intros sg S0 HB. apply G3; [exact S0|]. apply BD; assumption.
Qed.

(** [Arnorm = 0] means that the previous iterate is the solution. *)
Theorem C109_arnorm_zero : go_Arnorm r = 0 :> R -> exists p0 : iv E1 * iv E2,
  iadd (A (fst p0)) (Mi (snd p0)) = b /\ fst p0 = N (At (snd p0)) /\
  (c_sit kw = true -> nth_error (go_itp r) (go_itn r - 1) = Some (fst p0) /\ nth_error (go_itd r) (go_itn r - 1) = Some (snd p0)).
Proof.
  intro Z. destruct C109_arnorm as (ps & _ & _ & SI & _ & XA & _ & p & P1 & [P2 _] & _). cbv zeta in P2. exists p.
  split; [|split; [exact (XA _ _ P1)|]].
  - set (z := isub b (iadd (A (fst p)) (Mi (snd p)))) in P2.
    assert (Z0 : z = izero).
    { destruct (Req_dec (inorm z) 0) as [Q|Q]; [apply inorm_zero; exact Q|exfalso].
      assert (Y : z <> izero) by (intro Y; apply Q; rewrite Y; apply inorm_izero). pose proof (sqrt_lt_R0 _ (PM z Y)) as Q2. lra. }
    unfold z in Z0. apply ip_ext. intro w. pose proof (f_equal (ip w) Z0) as N1. ipx_in N1. ipx. lra.
  - intro C. destruct (SI C) as [-> ->]. split; apply map_nth_error; exact P1.
Qed.
End Craig.

(** ** The hypotheses hold: the preconditioned 3 by 2 problem of PropPrecon. *)
Example ex_C109 : c_M pckw = Some dgM /\ c_N pckw = Some dgN /\ (1 <= c_window pckw)%nat /\ adjoint xA xAt /\
  selfadj dgM /\ posdef dgM /\ selfadj dgN /\ posdef dgN /\ (forall z, dgN (dgNi z) = z) /\ (forall z, dgM (dgMi z) = z) /\ xb <> izero /\
  (forall z : iv (Rn 2), ip (dgM (xA (dgN z))) (xA (dgN z)) <= 9 * 9 * ip z (dgN z)) /\
  exists r cnt', @cr_solve K0 W2 W3 7 xq pckw xb 0 = Ok (r, cnt').
Proof.
  destruct ex_C78 as (X1 & X2 & X3 & _ & _ & _ & _ & X8 & X9 & X10 & X11 & X12 & X13 & X14 & X15 & (r & c & H & _) & _).
  do 11 (split; [assumption|]). split; [|exists r, c; exact H].
  intros [a [c0 []]]. cbn. pose proof (Rle_0_sqr a) as P1. pose proof (Rle_0_sqr c0) as P2. pose proof (Rle_0_sqr (a - c0)) as P3. unfold Rsqr in *. nra.
Qed.

Print Assumptions C109_splitting.
Print Assumptions C109_arnorm.
Print Assumptions C109_arnorm_zero.
