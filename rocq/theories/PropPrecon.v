(** Properties C75-C78: the solvers with preconditioners, in exact arithmetic. *)
From Coq Require Import List Arith Lia Bool QArith ZArith Reals Lra Qreals.
From Verif Require Import Base Num SpanMath ToolsModel ToolsProof CgModel PropCg MinresModel MinresProof GkProof PropMinres
  LsqrModel LsqrFlow LsqrMath LsqrProof PropLsqr LsmrModel LsmrFlow LsmrProof PropLsmr
  CraigModel CraigFlow CraigMath CraigProof PropCraig Precon MinresPrecon LsqrPrecon LsmrPrecon CraigPrecon.
Import ListNotations.
Local Open Scope R_scope.

(** ** LSQR. *)
Section Lsqr.
Variables (dv : R -> R -> R) (sq : R -> R).
Hypothesis DV : dv_ok dv.
Hypothesis SQ : sq_ok sq.
Variables E1 E2 : IPS.
Notation KK := (exactK dv sq).
Notation WV := (exactV dv sq E1).
Notation WU := (exactV dv sq E2).
Variables (q : lprob WV WU) (kw : ls_kw WV WU) (b : iv E2).
(** [M] and [N] are the preconditioners, the identity if the argument is [None]. *)
Let M : iv E2 -> iv E2 := match l_M kw with Some P => P | None => fun z => z end.
Let N : iv E1 -> iv E1 := match l_N kw with Some P => P | None => fun z => z end.
Hypothesis SM : selfadj M.
Hypothesis PM : posdef M.
Hypothesis SN : selfadj N.
Hypothesis PN : posdef N.
Variable Ni : iv E1 -> iv E1.
Hypothesis NI : forall z, N (Ni z) = z.
Let A : iv E1 -> iv E2 := lp_A q.
Let At : iv E2 -> iv E1 := lp_At q.
Hypothesis AD : adjoint A At.
Hypothesis HW : (1 <= l_window kw)%nat.
Hypothesis NV : l_wantvar kw = false.
Variables (fuel cnt : nat).
Let lim := if (l_itnlim kw =? 0)%Z then (3 * Z.of_nat (lp_n q))%Z else l_itnlim kw.
Hypothesis HF : (Z.to_nat lim < fuel)%nat.
Let d : R := l_damp kw.
Let res (x : iv E1) : iv E2 := isub b (A x).
Let obj (x : iv E1) : R := ip (M (res x)) (res x) + d * d * ip x (Ni x).
Let grad (x : iv E1) : iv E1 := isub (At (M (res x))) (iscale (d * d) (Ni x)).
Let nnorm (g : iv E1) : R := sqrt (ip g (N g)).

Local Notation F1 := (pspace E1 N SN PN).
Local Notation F2 := (pspace E2 M SM PM).
Let LN : lin N := adjoint_lin N N SN.
Let nv1 (z : iv F1) : R := @inorm E1 (N z).
Local Notation XV := (exactVn dv sq F1 nv1).
Local Notation XU := (exactVn dv sq F2 (@inorm F2)).
Local Notation lq := (lpq dv sq E1 E2 q kw SM PM SN PN).
Local Notation lk := (lpkw dv sq E1 E2 kw SM PM SN PN).

Lemma lp_adj : @adjoint F1 F2 (lp_A lq) (lp_At lq).
Proof.
  intros y x. change (ip (M y) (A (N x)) = ip (N (At (M y))) x).
  rewrite AD. apply SN.
Qed.
Lemma Ni_N : forall z, Ni (N z) = z.
Proof. intro z. apply (p_inj E1 N SN PN). apply NI. Qed.

Let res' (z : iv F1) : iv F2 := @isub F2 b (lp_A lq z).
Let obj' (z : iv F1) : R := @ip F2 (res' z) (res' z) + d * d * @ip F1 z z.
Let nres' (z : iv F1) : iv F1 := @isub F1 (lp_At lq (res' z)) (@iscale F1 (d * d) z).

Lemma obj_N : forall z, obj (N z) = obj' z.
Proof. intro z. unfold obj. rewrite Ni_N. reflexivity. Qed.
Lemma grad_N : forall z, grad (N z) = nres' z.
Proof. intro z. unfold grad. rewrite Ni_N. reflexivity. Qed.
Lemma nnorm_eq : forall g, nnorm g = @inorm F1 g.
Proof. intro g. unfold nnorm. rewrite ip_sym. reflexivity. Qed.
Lemma kry_eq : forall k z, @kry F1 (fun z => lp_At lq (lp_A lq z)) (lp_At lq b) k z <->
  kry (fun z => At (M (A (N z)))) (At (M b)) k z.
Proof. intros k z. rewrite kry_same. reflexivity. Qed.
Lemma last_N : forall l : list (iv E1), last (map N l) izero = N (last l izero).
Proof.
  induction l as [|a l IH]; cbn [map last]; [symmetry; apply (lin_zero N LN)|].
  destruct l; [reflexivity|]. exact IH.
Qed.

Lemma cons_N : forall l : list (iv E1), izero :: map N l = map N (izero :: l).
Proof. intro l. cbn [map]. rewrite (lin_zero N LN). reflexivity. Qed.

Theorem C76_lsqr : exists o cnt' (xs : list (iv E1)), @ls_solve KK WV WU fuel q kw b cnt = Ok (o, cnt') /\
  length xs = o_itn o /\ (o_x o : iv E1) = last xs izero /\
  (l_sit kw = true -> (o_iters o : list (iv E1)) = izero :: xs) /\
  (l_sres kw = true -> (o_resids o : list R) = map (fun x => sqrt (obj x)) (izero :: xs)) /\
  (l_sres kw = true -> (o_nresids o : list R) = map (fun x => nnorm (grad x)) (izero :: xs)) /\
  (let x := o_x o : iv E1 in
   (o_r2norm o : R) = sqrt (obj x) /\ (o_xnorm o : R) = sqrt (ip x (Ni x)) /\ (o_Arnorm o : R) = nnorm (grad x) /\
   sqrt (ip (M (res x)) (res x)) <= (o_r1norm o : R) <= o_r2norm o /\
   (d = 0 -> (o_r1norm o : R) = sqrt (ip (M (res x)) (res x)))) /\
  (forall i x, nth_error xs i = Some x ->
     kry (fun z => N (At (M (A z)))) (N (At (M b))) (S i) x /\
     forall z, kry (fun z => N (At (M (A z)))) (N (At (M b))) (S i) z -> obj x <= obj z) /\
  forall n, dim_le E1 n \/ dim_le E2 n \/ rank_le A n -> (o_itn o <= n + 1)%nat /\ ((n <= o_itn o)%nat -> (o_Arnorm o : R) = 0).
Proof.
  destruct (ls_exact dv sq DV SQ F1 F2 nv1 (@inorm F2) lq lk b eq_refl eq_refl lp_adj HW fuel cnt NV HF)
    as (o & c & xs & H & LX & EX & RS & NR & IT & (R2 & AR & XN & R1 & R0) & _ & KR & _ & DM).
  pose proof (lsolve_sim dv sq E1 E2 q kw b SM PM SN PN fuel cnt) as S.
  change (@ls_solve KK XV XU fuel lq lk b cnt = Ok (o, c)) in H.
  match type of S with _ = rmap _ ?w => change w with (@ls_solve KK XV XU fuel lq lk b cnt) in S end.
  rewrite H in S. cbn [rmap fst snd] in S.
  exists (Tlo dv sq E1 E2 kw SN PN o), c, (map N xs). split; [exact S|].
  unfold Tlo. cbn [o_x o_istop o_status o_optimal o_itn o_nmv o_r1norm o_r2norm o_Anorm o_Acond o_Arnorm o_xnorm o_resids o_nresids o_dirs o_iters].
  split; [rewrite map_length; exact LX|].
  split; [rewrite last_N; exact (f_equal N EX)|].
  split.
  { intro T. change (l_sit lk) with (l_sit kw) in IT. rewrite T in IT.
    etransitivity; [exact (f_equal (map N) IT)|]. cbn [map]. f_equal. exact (lin_zero N LN). }
  split.
  { intro T. change (l_sres lk) with (l_sres kw) in RS. rewrite T in RS. etransitivity; [exact RS|].
    rewrite cons_N, map_map. apply map_ext. intro z. f_equal. symmetry. exact (obj_N z). }
  split.
  { intro T. change (l_sres lk) with (l_sres kw) in NR. rewrite T in NR. etransitivity; [exact NR|].
    rewrite cons_N, map_map. apply map_ext. intro z. rewrite nnorm_eq, grad_N. reflexivity. }
  split.
  { cbv zeta. change (pre_of (l_N kw)) with N. split; [rewrite obj_N; exact R2|].
    split; [rewrite Ni_N; exact XN|]. split; [rewrite nnorm_eq, grad_N; exact AR|].
    split; [exact R1|exact R0]. }
  split.
  { intros i x Hx. rewrite nth_error_map in Hx.
    change (option_map N (@nth_error (iv E1) xs i) = Some x) in Hx.
    destruct (@nth_error (iv E1) xs i) as [z0|] eqn:Z0; [|discriminate]. injection Hx as <-.
    destruct (KR i z0 Z0) as [K1 K2]. split.
    - apply (kry_push E1 N SN (fun z => At (M (A z)))). apply kry_eq. exact K1.
    - intros z Kz. apply (kry_pull E1 N SN (fun z => At (M (A z)))) in Kz as (y & -> & Ky).
      rewrite !obj_N. apply (K2 y). apply kry_eq. exact Ky. }
  intros n Dn. destruct (DM n) as [D1 D2].
  { destruct Dn as [Dn|[Dn|Dn]]; [left; apply p_dim; exact Dn|right; left; apply p_dim; exact Dn|right; right].
    exact (p_rank E1 E2 N M SN PN SM PM A n Dn). }
  split; [exact D1|]. intro L. etransitivity; [exact AR|].
  etransitivity; [exact (f_equal (@inorm F1) (D2 L))|]. apply inorm_izero.
Qed.

(** A vanishing [Arnorm] means that the returned vector solves the weighted problem; without damping
    it is then the solution of smallest [N]-inverse norm. *)
Theorem C76_lsqr_optimal : exists o cnt', @ls_solve KK WV WU fuel q kw b cnt = Ok (o, cnt') /\
  ((o_Arnorm o : R) = 0 ->
     At (M (res (o_x o))) = iscale (d * d) (Ni (o_x o)) /\ (forall z, obj (o_x o) <= obj z) /\
     (d = 0 -> forall z, At (M (res z)) = izero ->
        ip (o_x o : iv E1) (Ni (o_x o)) <= ip z (Ni z) /\
        (ip z (Ni z) = ip (o_x o : iv E1) (Ni (o_x o)) -> z = o_x o))).
Proof.
  destruct (ls_exact dv sq DV SQ F1 F2 nv1 (@inorm F2) lq lk b eq_refl eq_refl lp_adj HW fuel cnt NV HF)
    as (o & c & xs & H & LX & EX & RS & NR & IT & (R2 & AR & XN & R1 & R0) & _ & KR & _ & DM).
  pose proof (lsolve_sim dv sq E1 E2 q kw b SM PM SN PN fuel cnt) as S.
  change (@ls_solve KK XV XU fuel lq lk b cnt = Ok (o, c)) in H.
  match type of S with _ = rmap _ ?w => change w with (@ls_solve KK XV XU fuel lq lk b cnt) in S end.
  rewrite H in S. cbn [rmap fst snd] in S.
  exists (Tlo dv sq E1 E2 kw SN PN o), c. split; [exact S|].
  unfold Tlo. cbn [o_x o_Arnorm]. change (pre_of (l_N kw)) with N.
  intro Z. assert (Z1 : LsqrMath.nres (lp_A lq) (lp_At lq) b (l_damp lk) (o_x o) = @izero F1).
  { apply inorm_zero. etransitivity; [symmetry; exact AR|exact Z]. }
  assert (ZG : grad (N (o_x o)) = izero).
  { rewrite grad_N. exact Z1. }
  split; [|split].
  - apply ip_ext. intro w. pose proof (f_equal (ip w) ZG) as Q. unfold grad in Q. rewrite ip_sub, ip_zero in Q.
    apply Rminus_diag_uniq in Q. exact Q.
  - intro z. rewrite <- (NI z), !obj_N. exact (nres_opt dv sq F1 F2 nv1 (@inorm F2) lq lk b lp_adj _ Z1 (Ni z)).
  - intros D0 z Hz. rewrite Ni_N. rewrite <- (NI z) at 1 3. 
    assert (NZ : LsqrMath.nres (lp_A lq) (lp_At lq) b (l_damp lk) (Ni z) = @izero F1).
    { transitivity (grad (N (Ni z))); [symmetry; apply grad_N|]. rewrite NI. unfold grad. rewrite Hz.
      change (d = 0) in D0. rewrite D0. change (isub (@izero E1) (@iscale E1 (0 * 0) (Ni z)) = @izero E1).
      apply ip_ext. intro w. rewrite ip_sub, ip_scale, ip_zero. ring. }
    destruct (nres_minnorm dv sq F1 F2 nv1 (@inorm F2) lq lk b lp_adj D0 (length xs) (o_x o) (Ni z)) as [Q1 Q2].
    + rewrite EX. destruct xs as [|x0 xs _] using rev_ind; [reflexivity|].
      rewrite last_last, app_length. cbn [length]. rewrite Nat.add_1_r.
      apply (KR (length xs) x0). rewrite nth_error_app2, Nat.sub_diag by lia. reflexivity.
    + exact Z1.
    + exact NZ.
    + change (sqrt (ip (N (o_x o)) (o_x o)) <= sqrt (ip (N (Ni z)) (Ni z))) in Q1.
      change (sqrt (ip (N (Ni z)) (Ni z)) = sqrt (ip (N (o_x o)) (o_x o)) -> Ni z = o_x o) in Q2.
      split.
      * apply sqrt_le_0; [apply (p_pos E1 N PN)|apply (p_pos E1 N PN)|exact Q1].
      * intro Q. rewrite <- (NI z). f_equal. apply Q2. f_equal. exact Q.
Qed.

(** The codes 1 and 2. *)
Theorem C76_lsqr_stop : forall o cnt', @ls_solve KK WV WU fuel q kw b cnt = Ok (o, cnt') ->
  (o_istop o = 1%Z -> sqrt (obj (o_x o)) <=
     l_btol kw * sqrt (ip (M b) b) + l_atol kw * o_Anorm o * sqrt (ip (o_x o : iv E1) (Ni (o_x o)))) /\
  (o_istop o = 2%Z -> l_infle kw (l_atol kw) = false ->
     nnorm (grad (o_x o)) <= l_atol kw * (o_Anorm o * sqrt (obj (o_x o)))).
Proof.
  intros o0 cnt' H0.
  destruct (ls_exact dv sq DV SQ F1 F2 nv1 (@inorm F2) lq lk b eq_refl eq_refl lp_adj HW fuel cnt NV HF)
    as (o & c & xs & H & LX & EX & RS & NR & IT & (R2 & AR & XN & R1 & R0) & _ & KR & _ & DM).
  destruct (ls_stop dv sq DV SQ F1 F2 nv1 (@inorm F2) lq lk b eq_refl eq_refl lp_adj HW fuel cnt o c NV H HF) as [S1 S2].
  pose proof (lsolve_sim dv sq E1 E2 q kw b SM PM SN PN fuel cnt) as S.
  change (@ls_solve KK XV XU fuel lq lk b cnt = Ok (o, c)) in H.
  match type of S with _ = rmap _ ?w => change w with (@ls_solve KK XV XU fuel lq lk b cnt) in S end.
  rewrite H in S. cbn [rmap fst snd] in S. rewrite S in H0. injection H0 as <- <-.
  unfold Tlo. cbn [o_x o_istop o_Anorm]. change (pre_of (l_N kw)) with N.
  rewrite obj_N, Ni_N, nnorm_eq, grad_N. rewrite R2, XN in S1. rewrite R2, AR in S2.
  split; [exact S1|exact S2].
Qed.
End Lsqr.

(** ** LSMR. *)
Section Lsmr.
Variables (dv : R -> R -> R) (sq : R -> R).
Hypothesis DV : dv_ok dv.
Hypothesis SQ : sq_ok sq.
Variables E1 E2 : IPS.
Notation KK := (exactK dv sq).
Notation WV := (exactV dv sq E1).
Notation WU := (exactV dv sq E2).
Variables (q : lprob WV WU) (kw : lm_kw WV WU) (b : iv E2).
Let M : iv E2 -> iv E2 := match m_M kw with Some P => P | None => fun z => z end.
Let N : iv E1 -> iv E1 := match m_N kw with Some P => P | None => fun z => z end.
Hypothesis SM : selfadj M.
Hypothesis PM : posdef M.
Hypothesis SN : selfadj N.
Hypothesis PN : posdef N.
Variable Ni : iv E1 -> iv E1.
Hypothesis NI : forall z, N (Ni z) = z.
Let A : iv E1 -> iv E2 := lp_A q.
Let At : iv E2 -> iv E1 := lp_At q.
Hypothesis AD : adjoint A At.
Hypothesis HW : (1 <= m_window kw)%nat.
Variables (fuel cnt : nat) (ob : lm_obj WV).
Let lim := match m_itnlim kw with None => Z.of_nat (Nat.min (lp_m q) (lp_n q)) | Some l => l end.
Hypothesis HF : (Z.to_nat lim < fuel)%nat.
Let d : R := m_damp kw.
Let res (x : iv E1) : iv E2 := isub b (A x).
Let obj (x : iv E1) : R := ip (M (res x)) (res x) + d * d * ip x (Ni x).
Let grad (x : iv E1) : iv E1 := isub (At (M (res x))) (iscale (d * d) (Ni x)).
Let nnorm (g : iv E1) : R := sqrt (ip g (N g)).

Local Notation F1 := (pspace E1 N SN PN).
Local Notation F2 := (pspace E2 M SM PM).
Let LN : lin N := adjoint_lin N N SN.
Let nv1 (z : iv F1) : R := @inorm E1 (N z).
Local Notation XV := (exactVn dv sq F1 nv1).
Local Notation XU := (exactVn dv sq F2 (@inorm F2)).
Local Notation lq := (mpq dv sq E1 E2 q kw SM PM SN PN).
Local Notation lk := (mpkw dv sq E1 E2 kw SM PM SN PN).

Lemma mp_adj : @adjoint F1 F2 (lp_A lq) (lp_At lq).
Proof.
  intros y x. change (ip (M y) (A (N x)) = ip (N (At (M y))) x).
  rewrite AD. apply SN.
Qed.
Lemma mNi_N : forall z, Ni (N z) = z.
Proof. intro z. apply (p_inj E1 N SN PN). apply NI. Qed.

Let res' (z : iv F1) : iv F2 := @isub F2 b (lp_A lq z).
Let obj' (z : iv F1) : R := @ip F2 (res' z) (res' z) + d * d * @ip F1 z z.
Let nres' (z : iv F1) : iv F1 := @isub F1 (lp_At lq (res' z)) (@iscale F1 (d * d) z).

Lemma mobj_N : forall z, obj (N z) = obj' z.
Proof. intro z. unfold obj. rewrite mNi_N. reflexivity. Qed.
Lemma mgrad_N : forall z, grad (N z) = nres' z.
Proof. intro z. unfold grad. rewrite mNi_N. reflexivity. Qed.
Lemma mnnorm_eq : forall g, nnorm g = @inorm F1 g.
Proof. intro g. unfold nnorm. rewrite ip_sym. reflexivity. Qed.
Lemma mkry_eq : forall k z, @kry F1 (fun z => lp_At lq (lp_A lq z)) (lp_At lq b) k z <->
  kry (fun z => At (M (A (N z)))) (At (M b)) k z.
Proof. intros k z. rewrite kry_same. reflexivity. Qed.
Lemma mlast_N : forall l : list (iv E1), last (map N l) izero = N (last l izero).
Proof.
  induction l as [|a l IH]; cbn [map last]; [symmetry; apply (lin_zero N LN)|].
  destruct l; [reflexivity|]. exact IH.
Qed.
Lemma mcons_N : forall l : list (iv E1), izero :: map N l = map N (izero :: l).
Proof. intro l. cbn [map]. rewrite (lin_zero N LN). reflexivity. Qed.
Lemma nv1_pos : forall z : iv F1, 0 <= nv1 z.
Proof. intro z. apply inorm_pos. Qed.
Lemma nv1_zero : nv1 (@izero F1) = 0.
Proof. unfold nv1. rewrite <- (@inorm_izero E1). f_equal. exact (lin_zero N LN). Qed.

Lemma mp_cases :
  (At (M b) = izero /\ exists r ob' cnt', @lm_solve KK WV WU fuel q kw ob b cnt = Ok (r, ob', cnt') /\
    r_istop r = 0%Z /\ r_itn r = 0%nat /\ (r_x r : iv E1) = izero /\ a_x ob' = a_x ob /\ (r_normr r : R) = sqrt (ip (M b) b)) \/
  (At (M b) <> izero /\ exists r ob' cnt' xs,
    @lm_solve KK WV WU fuel q kw ob b cnt = Ok (Tmr dv sq E1 E2 kw SN PN r, Tmo dv sq E1 E2 kw SN PN ob ob' true, cnt') /\
    lm_post dv sq F1 F2 nv1 (@inorm F2) lq lk b r ob' xs) \/
  (At (M b) <> izero /\ @lm_solve KK WV WU fuel q kw ob b cnt = Err ZeroDivisionError /\
   exists k x, (Z.of_nat k < lim)%Z /\ @kry F1 (fun z => lp_At lq (lp_A lq z)) (lp_At lq b) (S k) x /\ obj' x = 0).
Proof.
  pose proof (msolve_sim dv sq E1 E2 q kw b SM PM SN PN fuel ob cnt) as S.
  set (oo := oob dv sq E1 E2 kw SN PN ob) in *.
  match type of S with _ = rmap _ ?w => change w with (@lm_solve KK XV XU fuel lq lk oo b cnt) in S end.
  destruct (lsmr_cases dv sq DV SQ F1 F2 nv1 (@inorm F2) nv1_pos nv1_zero lq lk b eq_refl eq_refl mp_adj HW fuel cnt oo HF)
    as [(Z & r & o' & c & H & I1 & I2 & I3 & I4 & I5)|[(NZ & r & o' & c & xs & H & P)|(NZ & H & k & x & L & K & _ & Z)]].
  - left. split; [exact Z|]. change (@lm_solve KK XV XU fuel lq lk oo b cnt = Ok (r, o', c)) in H.
    rewrite H in S. cbn [rmap] in S. eexists _, _, _. split; [exact S|]. split; [exact I1|]. split; [exact I2|].
    split; [etransitivity; [exact (f_equal N I3)|exact (lin_zero N LN)]|].
    split; [|exact I5]. change (@a_x KK XV o' = None) in I4. unfold Tmo. cbn [a_x].
    match goal with |- (if match ?o with Some _ => _ | None => _ end then _ else _) = _ => change o with (@a_x KK XV o') end.
    rewrite I4. reflexivity.
  - right. left. split; [exact NZ|]. change (@lm_solve KK XV XU fuel lq lk oo b cnt = Ok (r, o', c)) in H.
    rewrite H in S. cbn [rmap] in S. exists r, o', c, xs. split; [|exact P].
    destruct P as (_ & _ & AX & _). change (@a_x KK XV o' = Some (r_x r)) in AX.
    match type of S with context[match ?o with Some _ => true | None => false end] => change o with (@a_x KK XV o') in S end.
    rewrite AX in S. exact S.
  - right. right. split; [exact NZ|]. change (@lm_solve KK XV XU fuel lq lk oo b cnt = Err ZeroDivisionError) in H.
    rewrite H in S. split; [exact S|]. exists k, x. auto.
Qed.

(** [At (M b) = 0]: [x = 0]. *)
Theorem C77_lsmr_zero : At (M b) = izero -> exists r ob' cnt', @lm_solve KK WV WU fuel q kw ob b cnt = Ok (r, ob', cnt') /\
  r_istop r = 0%Z /\ r_itn r = 0%nat /\ (r_x r : iv E1) = izero /\ a_x ob' = a_x ob /\ (r_normr r : R) = sqrt (ip (M b) b).
Proof. intro Z. destruct mp_cases as [(_ & H)|[(NZ & _)|(NZ & _)]]; [exact H|contradiction|contradiction]. Qed.

(** The only exception is [ZeroDivisionError], when an iterate solves an undamped consistent system. *)
Theorem C77_lsmr_error : forall e, @lm_solve KK WV WU fuel q kw ob b cnt = Err e ->
  e = ZeroDivisionError /\ d = 0 /\
  exists k x, (Z.of_nat k < lim)%Z /\ kry (fun z => N (At (M (A z)))) (N (At (M b))) (S k) x /\ A x = b.
Proof.
  intros e H. destruct mp_cases as [(_ & r & o & c & H2 & _)|[(_ & r & o & c & xs & H2 & _)|(NZ & H2 & k & x & L & K & Z)]];
    try congruence.
  rewrite H in H2. injection H2 as ->. split; [reflexivity|].
  destruct (dr_zero dv sq F1 F2 nv1 (@inorm F2) lq lk b mp_adj x) as [E1' E2']; [exact Z|exact NZ|].
  split; [exact E2'|]. exists k, (N x). split; [exact L|]. split; [|exact E1'].
  apply (kry_push E1 N SN (fun z => At (M (A z)))). apply mkry_eq. exact K.
Qed.

Theorem C77_lsmr : forall r ob' cnt', @lm_solve KK WV WU fuel q kw ob b cnt = Ok (r, ob', cnt') -> At (M b) <> izero ->
  exists xs : list (iv E1), length xs = r_itn r /\ (r_x r : iv E1) = last xs izero /\ a_x ob' = Some (r_x r) /\
  (m_sit kw = true -> (a_iters ob' : list (iv E1)) = izero :: xs) /\
  (m_sres kw = true -> (a_resids ob' : list R) = map (fun x => sqrt (obj x)) (izero :: xs)) /\
  (m_sres kw = true -> (a_nresids ob' : list R) = map (fun x => nnorm (grad x)) (izero :: xs)) /\
  (let x := r_x r : iv E1 in
   (r_normr r : R) = sqrt (obj x) /\ (r_normar r : R) = nnorm (grad x) /\ (r_normx r : R) = inorm x) /\
  (r_istop r = 1%Z -> sqrt (obj (r_x r)) <= m_btol kw * sqrt (ip (M b) b) + m_atol kw * r_normA r * inorm (r_x r : iv E1)) /\
  (r_istop r = 2%Z -> nnorm (grad (r_x r)) <= m_atol kw * (r_normA r * sqrt (obj (r_x r)))) /\
  (forall i x, nth_error xs i = Some x ->
     kry (fun z => N (At (M (A z)))) (N (At (M b))) (S i) x /\
     (forall z, kry (fun z => N (At (M (A z)))) (N (At (M b))) (S i) z -> nnorm (grad x) <= nnorm (grad z)) /\
     obj x <> 0) /\
  forall n, dim_le E1 n \/ dim_le E2 n \/ rank_le A n -> (r_itn r <= n)%nat /\ ((n <= r_itn r)%nat -> grad (r_x r) = izero).
Proof.
  intros r0 ob0 cnt0 H0 NZ.
  destruct mp_cases as [(Z & _)|[(_ & r & o & c & xs & H & P)|(_ & H & _)]]; try congruence.
  rewrite H in H0. injection H0 as <- <- <-.
  destruct P as (LX & EX & AX & RS & NR & IT & (R2 & AR & XN) & S1 & S2 & KR & DM & _).
  exists (map N xs). unfold Tmr, Tmo.
  cbn [r_x r_istop r_itn r_normr r_normar r_normA r_normx a_x a_resids a_nresids a_iters].
  change (pre_of (m_N kw)) with N.
  split; [rewrite map_length; exact LX|].
  split; [rewrite mlast_N; exact (f_equal N EX)|].
  split; [exact (f_equal (option_map N) AX)|].
  split.
  { intro T. change (m_sit lk) with (m_sit kw) in IT. rewrite T in IT.
    etransitivity; [exact (f_equal (map N) IT)|]. cbn [map]. f_equal. exact (lin_zero N LN). }
  split.
  { intro T. change (m_sres lk) with (m_sres kw) in RS. rewrite T in RS. etransitivity; [exact RS|].
    rewrite mcons_N, map_map. apply map_ext. intro z. f_equal. symmetry. exact (mobj_N z). }
  split.
  { intro T. change (m_sres lk) with (m_sres kw) in NR. rewrite T in NR. etransitivity; [exact NR|].
    rewrite mcons_N, map_map. apply map_ext. intro z. rewrite mnnorm_eq, mgrad_N. reflexivity. }
  split.
  { cbv zeta. split; [rewrite mobj_N; exact R2|]. split; [rewrite mnnorm_eq, mgrad_N; exact AR|exact XN]. }
  rewrite mobj_N, mnnorm_eq, mgrad_N. rewrite R2, XN in S1. rewrite R2, AR in S2.
  split; [exact S1|]. split; [exact S2|].
  split.
  { intros i x Hx. rewrite nth_error_map in Hx.
    change (option_map N (@nth_error (iv E1) xs i) = Some x) in Hx.
    destruct (@nth_error (iv E1) xs i) as [z0|] eqn:Z0; [|discriminate]. injection Hx as <-.
    destruct (KR i z0 Z0) as (K1 & K2 & K3). split; [|split].
    - apply (kry_push E1 N SN (fun z => At (M (A z)))). apply mkry_eq. exact K1.
    - intros z Kz. apply (kry_pull E1 N SN (fun z => At (M (A z)))) in Kz as (y & -> & Ky).
      rewrite !mnnorm_eq, !mgrad_N. apply (K2 y). apply mkry_eq. exact Ky.
    - rewrite mobj_N. exact K3. }
  intros n Dn. destruct (DM n) as [D1 D2].
  { destruct Dn as [Dn|[Dn|Dn]]; [left; apply p_dim; exact Dn|right; left; apply p_dim; exact Dn|right; right].
    exact (p_rank E1 E2 N M SN PN SM PM A n Dn). }
  split; [exact D1|]. intro L. exact (D2 L).
Qed.
End Lsmr.

(** ** CRAIG and CRAIG-MR.  With [Ni], [Mi] the inverses of the preconditioners the methods solve
    [(A N A' + Mi) y = b], and CRAIG returns [x = N A' y] along with [y]. *)
Section Craig.
Variables (dv : R -> R -> R) (sq : R -> R).
Hypothesis DV : dv_ok dv.
Hypothesis SQ : sq_ok sq.
Variables E1 E2 : IPS.
Notation KK := (exactK dv sq).
Notation WV := (exactV dv sq E1).
Notation WU := (exactV dv sq E2).
Variables (q : lprob WV WU) (b : iv E2).
Variables (oM : option (iv E2 -> iv E2)) (oN : option (iv E1 -> iv E1)).
Let M : iv E2 -> iv E2 := match oM with Some P => P | None => fun z => z end.
Let N : iv E1 -> iv E1 := match oN with Some P => P | None => fun z => z end.
Hypothesis SM : selfadj M.
Hypothesis PM : posdef M.
Hypothesis SN : selfadj N.
Hypothesis PN : posdef N.
Variable Ni : iv E1 -> iv E1.
Hypothesis NI : forall z, N (Ni z) = z.
Variable Mi : iv E2 -> iv E2.
Hypothesis MI : forall z, M (Mi z) = z.
Let A : iv E1 -> iv E2 := lp_A q.
Let At : iv E2 -> iv E1 := lp_At q.
Hypothesis AD : adjoint A At.
Variables (fuel cnt : nat).
Let Kr (k : nat) (z : iv E2) : Prop := kry (fun z => M (A (N (At z)))) (M b) k z.

Local Notation F1 := (pspace E1 N SN PN).
Local Notation F2 := (pspace E2 M SM PM).
Let LN : lin N := adjoint_lin N N SN.
Let LM : lin M := adjoint_lin M M SM.
Local Notation XV := (exactVn dv sq F1 (@inorm F1)).
Local Notation XU := (exactVn dv sq F2 (@inorm F2)).
Local Notation lq := (cpq dv sq E1 E2 q oM oN SM PM SN PN).
Let AAt' (z : iv F2) : iv F2 := lp_A lq (lp_At lq z).

Lemma cp_adj : @adjoint F1 F2 (lp_A lq) (lp_At lq).
Proof.
  intros y x. change (ip (M y) (A (N x)) = ip (N (At (M y))) x).
  rewrite AD. apply SN.
Qed.
Lemma cNi_N : forall z, Ni (N z) = z.
Proof. intro z. apply (p_inj E1 N SN PN). apply NI. Qed.
Lemma cMi_M : forall z, Mi (M z) = z.
Proof. intro z. apply (p_inj E2 M SM PM). apply MI. Qed.
Lemma Kr_push : forall k z, @kry F2 AAt' b k z -> Kr k (M z).
Proof.
  intros k z H. apply (kry_push E2 M SM (fun z => A (N (At z)))). apply (kry_same E2 M SM PM). exact H.
Qed.
Lemma Kr_pull : forall k z, Kr k z -> exists z', z = M z' /\ @kry F2 AAt' b k z'.
Proof.
  intros k z H. apply (kry_pull E2 M SM (fun z => A (N (At z)))) in H as (z' & -> & H). exists z'. split; [reflexivity|].
  apply (kry_same E2 M SM PM). exact H.
Qed.
Lemma Kr_inv : forall k l, (forall z, Kr k z -> Kr l z) -> forall z, @kry F2 AAt' b k z -> @kry F2 AAt' b l z.
Proof.
  intros k l H z Hz. apply Kr_push, H, Kr_pull in Hz as (z' & E & Hz).
  apply (p_inj E2 M SM PM) in E. subst z'. exact Hz.
Qed.

Section Cr.
Variable kw : cr_kw WV WU.
Hypothesis HM : c_M kw = oM.
Hypothesis HN : c_N kw = oN.
Hypothesis HW : (1 <= c_window kw)%nat.
Hypothesis NV : c_wantvar kw = false.
Let lim := if (c_itnlim kw =? 0)%Z then (3 * Z.of_nat (lp_n q))%Z else c_itnlim kw.
Hypothesis HF : (Z.to_nat lim < fuel)%nat.
Local Notation lk := (ckwp dv sq E1 E2 oM oN SM PM SN PN kw).
Let nrg (p : iv E1 * iv E2) : R := ip (fst p) (Ni (fst p)) + ip (snd p) (Mi (snd p)).

Lemma cp_sim : @cr_solve KK WV WU fuel q kw b cnt =
  rmap (fun p => (Tco dv sq E1 E2 oM oN SM PM SN PN (fst p), snd p)) (@cr_solve KK XV XU fuel lq lk b cnt).
Proof. exact (csolve_sim dv sq E1 E2 q b oM oN SM PM SN PN kw HM HN fuel cnt). Qed.

Theorem C78_craig_zero : b = izero -> @cr_solve KK WV WU fuel q kw b cnt = Err UnboundLocalError.
Proof.
  intro Z. rewrite cp_sim.
  rewrite (C55_zero dv sq DV SQ F1 F2 (@inorm F1) (@inorm F2) lq b fuel cnt lk eq_refl eq_refl NV Z). reflexivity.
Qed.
Theorem C78_craig_returns : b <> izero -> (1 <= lim)%Z -> exists r cnt', @cr_solve KK WV WU fuel q kw b cnt = Ok (r, cnt').
Proof.
  intros NZ L.
  destruct (C55_returns dv sq DV SQ F1 F2 (@inorm F1) (@inorm F2) lq b cp_adj fuel cnt lk eq_refl eq_refl HW NV HF NZ L) as (r & c & H).
  rewrite cp_sim. change (@cr_solve KK XV XU fuel lq lk b cnt = Ok (r, c)) in H. rewrite H. cbn [rmap]. eauto.
Qed.

Theorem C78_craig : forall r cnt', @cr_solve KK WV WU fuel q kw b cnt = Ok (r, cnt') ->
  (go_r2norm r : R) = sqrt (nrg (go_x r : iv E1, go_r r : iv E2)) /\
  exists p0 ps, length ps = go_itn r /\
  last (p0 :: ps) (izero, izero) = (go_x r : iv E1, go_r r : iv E2) /\
  (c_sit kw = true -> go_itp r = map fst (p0 :: ps) /\ go_itd r = map snd (p0 :: ps)) /\
  (c_sres kw = true -> (go_resids r : list R) = map nrg (p0 :: ps) /\
     (go_norms r : list R) = map (fun p => nrg p - nrg p0) (p0 :: ps)) /\
  (forall i x y, nth_error (p0 :: ps) i = Some (x, y) ->
    x = N (At y) /\ Kr (S i) y /\
    (forall z, Kr (S i) z -> ip z (isub b (iadd (A x) (Mi y))) = 0) /\
    (forall z, Kr (S i) z -> ip (At y) (N (At y)) + ip y (Mi y) - 2 * ip b y <= ip (At z) (N (At z)) + ip z (Mi z) - 2 * ip b z) /\
    ((forall z, Kr (S (S i)) z -> Kr (S i) z) \/
     i = go_itn r /\ (exists n, (dim_le E1 n \/ dim_le E2 n) /\ (n <= i)%nat) -> iadd (A x) (Mi y) = b)) /\
  (forall i p p', nth_error (p0 :: ps) i = Some p -> nth_error (p0 :: ps) (S i) = Some p' -> nrg p <= nrg p') /\
  (go_istop r = 1 \/ go_istop r = 7 \/ go_istop r = 8)%Z /\ (go_istop r = 1%Z -> go_itn r = 1%nat).
Proof.
  intros r0 c0 H0. rewrite cp_sim in H0.
  destruct (@cr_solve KK XV XU fuel lq lk b cnt) as [[r c]|] eqn:H; [|discriminate].
  cbn [rmap fst snd] in H0. injection H0 as <- <-.
  destruct (craig_run dv sq DV SQ F1 F2 (@inorm F1) (@inorm F2) lq b cp_adj fuel cnt lk eq_refl eq_refl HW NV HF r c H) as (ps & P).
  destruct (C69_stopping dv sq DV SQ F1 F2 (@inorm F1) (@inorm F2) lq b cp_adj fuel cnt lk eq_refl eq_refl HW NV HF r c H) as (T1 & T2 & _).
  pose proof (cp_len _ _ _ _ _ _ _ _ _ _ _ P) as P1. pose proof (cp_last _ _ _ _ _ _ _ _ _ _ _ P) as P2.
  pose proof (cp_ps _ _ _ _ _ _ _ _ _ _ _ P) as P3. pose proof (cp_sit _ _ _ _ _ _ _ _ _ _ _ P) as P4.
  pose proof (cp_sres _ _ _ _ _ _ _ _ _ _ _ P) as P5. pose proof (cp_r2 _ _ _ _ _ _ _ _ _ _ _ P) as P6.
  pose proof (cp_dim _ _ _ _ _ _ _ _ _ _ _ P) as P7.
  set (TP := fun p : iv E1 * iv E2 => (N (fst p), M (snd p))).
  set (E' := fun p : iv E1 * iv E2 => @ip F1 (fst p) (fst p) + @ip F2 (snd p) (snd p)).
  assert (NR : forall p, nrg (TP p) = E' p).
  { intros [x y]. unfold nrg, TP, E'. cbn [fst snd]. rewrite cNi_N, cMi_M. reflexivity. }
  destruct ps as [|p0 ps]; [discriminate|].
  unfold Tco. cbn [go_x go_r go_istop go_itn go_r2norm go_norms go_resids go_itp go_itd].
  change (pre_of oN) with N. change (pre_of oM) with M.
  split.
  { etransitivity; [exact P6|]. f_equal. change (N (go_x r), M (go_r r)) with (TP (go_x r, go_r r)). rewrite NR.
    etransitivity; [exact (f_equal E' P2)|]. reflexivity. }
  exists (TP p0), (map TP ps).
  split; [rewrite map_length; injection P1; auto|].
  assert (LT : forall (l : list (iv E1 * iv E2)) p, last (TP p :: map TP l) (izero, izero) = TP (last (p :: l) (izero, izero))).
  { induction l as [|a l IH]; intro p; [reflexivity|]. exact (IH a). }
  split; [rewrite LT; exact (f_equal TP P2)|].
  change (TP p0 :: map TP ps) with (map TP (p0 :: ps)).
  split.
  { intro T. destruct (P4 T) as [Q1 Q2]. rewrite !map_map. split.
    - etransitivity; [exact (f_equal (map N) Q1)|]. rewrite map_map. reflexivity.
    - etransitivity; [exact (f_equal (map M) Q2)|]. rewrite map_map. reflexivity. }
  split.
  { intro T. destruct (P5 T) as [Q1 Q2]. rewrite !map_map. split.
    - etransitivity; [exact Q1|]. apply map_ext. intro p. rewrite NR. reflexivity.
    - etransitivity; [exact Q2|]. apply map_ext. intro p. rewrite !NR. reflexivity. }
  assert (GG : forall i x y, nth_error (map TP (p0 :: ps)) i = Some (x, y) ->
    exists x' y', @nth_error (iv E1 * iv E2) (p0 :: ps) i = Some (x', y') /\ x = N x' /\ y = M y').
  { intros i x y Hi. rewrite nth_error_map in Hi.
    change (option_map TP (@nth_error (iv E1 * iv E2) (p0 :: ps) i) = Some (x, y)) in Hi.
    destruct (@nth_error (iv E1 * iv E2) (p0 :: ps) i) as [[x' y']|]; [|discriminate].
    injection Hi as <- <-. exists x', y'. auto. }
  split.
  { intros i x y Hi. destruct (GG i x y Hi) as (x' & y' & Hi' & -> & ->).
    pose proof (P3 i (x', y') Hi') as G. pose proof G as (GX & GK & GO). cbn [fst snd] in GX, GK, GO.
    change (x' = At (M y')) in GX.
    assert (RES : forall z', ip (M z') (isub b (iadd (A (N (At (M y')))) y')) = @ip F2 z' (@isub F2 b (CraigMath.TT (lp_A lq) (lp_At lq) y'))) by reflexivity.
    split; [rewrite GX; reflexivity|]. split; [apply Kr_push; exact GK|].
    split; [|split].
    - intros z Hz. apply Kr_pull in Hz as (z' & -> & Hz). rewrite cMi_M, GX, RES. exact (GO z' Hz).
    - intros z Hz. apply Kr_pull in Hz as (z' & -> & Hz). rewrite !cMi_M.
      assert (Q : forall t, ip (At (M t)) (N (At (M t))) + ip (M t) t - 2 * ip b (M t) =
        @ip F2 t (CraigMath.TT (lp_A lq) (lp_At lq) t) - 2 * @ip F2 b t).
      { intro t. change (ip (At (M t)) (N (At (M t))) + ip (M t) t - 2 * ip b (M t) =
          ip (M t) (iadd (A (N (At (M t)))) t) - 2 * ip (M b) t).
        rewrite ip_add, AD, <- (SM b t). reflexivity. }
      rewrite !Q. apply gal_min; [exact cp_adj|]. apply GO.
      apply kry_sub; [exact (sym_AAt _ _ cp_adj)|exact Hz|exact GK].
    - intro HB. rewrite cMi_M, GX. change (CraigMath.TT (lp_A lq) (lp_At lq) y' = b).
      destruct HB as [HB|(-> & n & D & L)].
      + exact (gal_inv dv sq F1 F2 (@inorm F1) (@inorm F2) lq b cp_adj (S i) (x', y') G (Kr_inv _ _ HB)).
      + assert (T : CraigMath.TT (lp_A lq) (lp_At lq) (go_r r) = b).
        { apply (P7 n); [|exact L]. destruct D as [D|D]; [left|right]; apply p_dim; exact D. }
        assert (EL : last (p0 :: ps) (izero, izero) = (x', y')).
        { apply last_nth_error. rewrite P1. cbn [Nat.sub]. rewrite Nat.sub_0_r. exact Hi'. }
        rewrite P2 in EL. injection EL as _ <-. exact T. }
  split; [|split; [exact T1|exact T2]].
  intros i [x y] [x2 y2] Hi Hi2. destruct (GG i x y Hi) as (x' & y' & Hi' & -> & ->).
  destruct (GG (S i) x2 y2 Hi2) as (x2' & y2' & Hi2' & -> & ->).
  change (N x', M y') with (TP (x', y')). change (N x2', M y2') with (TP (x2', y2')). rewrite !NR.
  pose proof (P3 _ _ Hi') as G. pose proof (P3 _ _ Hi2') as G'.
  pose proof (gal_nrg dv sq F1 F2 (@inorm F1) (@inorm F2) lq b cp_adj _ _ G) as N1.
  pose proof (gal_nrg dv sq F1 F2 (@inorm F1) (@inorm F2) lq b cp_adj _ _ G') as N2.
  change (E' (x', y') = @ip F2 b y') in N1. change (E' (x2', y2') = @ip F2 b y2') in N2.
  destruct G as (GX & GK & _). destruct G' as (GX' & GK' & GO'). cbn [fst snd] in *.
  pose proof (sym_AAt _ _ cp_adj) as SA.
  assert (MN : @ip F2 y2' (CraigMath.TT (lp_A lq) (lp_At lq) y2') - 2 * @ip F2 b y2' <=
              @ip F2 y' (CraigMath.TT (lp_A lq) (lp_At lq) y') - 2 * @ip F2 b y').
  { apply gal_min; [exact cp_adj|]. apply GO'. apply kry_sub; [exact SA|apply kry_S; [exact SA|exact GK]|exact GK']. }
  assert (U : forall x y, x = lp_At lq y -> @ip F2 y (CraigMath.TT (lp_A lq) (lp_At lq) y) = E' (x, y)).
  { intros x y ->. exact (TT_ip (lp_A lq) (lp_At lq) cp_adj y). }
  rewrite (U _ _ GX), (U _ _ GX') in MN.
  set (e1 := E' (x', y')) in *. set (e2 := E' (x2', y2')) in *.
  change (e1 = @ip F2 b y') in N1. change (e2 = @ip F2 b y2') in N2.
  change (e2 - 2 * @ip F2 b y2' <= e1 - 2 * @ip F2 b y') in MN. rewrite <- N1, <- N2 in MN. clear - MN. lra.
Qed.
End Cr.

Section Cm.
Variable kw : cm_kw WV WU.
Hypothesis HM : h_M kw = oM.
Hypothesis HN : h_N kw = oN.
Hypothesis HW : (1 <= h_window kw)%nat.
Let lim := match h_itnlim kw with None => Z.of_nat (Nat.min (lp_m q) (lp_n q)) | Some l => l end.
Hypothesis HF : (Z.to_nat lim < fuel)%nat.
Local Notation lk := (cmkwp dv sq E1 E2 oM oN SM PM SN PN kw).
Let op (x : iv E2) : iv E2 := iadd (A (N (At x))) (Mi x).
Let mnorm (r : iv E2) : R := sqrt (ip r (M r)).

Lemma hp_sim : @cm_solve KK WV WU fuel q kw b cnt =
  rmap (fun p => (Tho dv sq E2 oM SM PM (fst p), snd p)) (@cm_solve KK XV XU fuel lq lk b cnt).
Proof. exact (hsolve_sim dv sq E1 E2 q b oM oN SM PM SN PN kw HM HN fuel cnt). Qed.
Lemma mnorm_eq : forall z, mnorm z = @inorm F2 z.
Proof. intro z. unfold mnorm. rewrite ip_sym. reflexivity. Qed.
Lemma op_M : forall z : iv E2, op (M z) = @iadd F2 (lp_A lq (lp_At lq z)) z.
Proof. intro z. unfold op. rewrite cMi_M. reflexivity. Qed.

Theorem C78_craigmr : exists r cnt' (xs : list (iv E2)), @cm_solve KK WV WU fuel q kw b cnt = Ok (r, cnt') /\
  length xs = S (ho_itn r) /\ last xs izero = (ho_x r : iv E2) /\
  (h_sit kw = true -> ho_iters r = xs) /\
  (forall i x, nth_error xs i = Some x -> Kr i x /\
     forall z, Kr i z -> mnorm (isub b (op x)) <= mnorm (isub b (op z))) /\
  (h_sres kw = true ->
     (ho_norms r : list R) = map (fun x => mnorm (op x) * mnorm (op x)) xs /\
     forall i x x', nth_error xs i = Some x -> nth_error xs (S i) = Some x' ->
       nth_error (ho_nresids r) i = Some (mnorm (isub (isub b (op x)) (isub b (op x'))))) /\
  (((exists m, dim_le E2 m /\ (m <= ho_itn r)%nat) \/ (exists n, dim_le E1 n /\ (n + 1 <= ho_itn r)%nat) \/
    ((1 <= ho_itn r)%nat /\ forall z, Kr (S (ho_itn r)) z -> Kr (ho_itn r) z)) -> op (ho_x r) = b).
Proof.
  destruct (C70_minres dv sq DV SQ F1 F2 (@inorm F1) (@inorm F2) lq b cp_adj fuel cnt lk eq_refl eq_refl HW HF)
    as (r & c & xs & H & P1 & P2 & P3 & P4 & P5).
  pose proof (C70_termination dv sq DV SQ F1 F2 (@inorm F1) (@inorm F2) lq b cp_adj fuel cnt lk eq_refl eq_refl HW HF r c H) as PT.
  pose proof hp_sim as S. change (@cm_solve KK XV XU fuel lq lk b cnt = Ok (r, c)) in H.
  rewrite H in S. cbn [rmap fst snd] in S. exists (Tho dv sq E2 oM SM PM r), c, (map M xs).
  split; [exact S|]. unfold Tho. cbn [ho_itn ho_x ho_iters ho_norms ho_nresids]. change (pre_of oM) with M.
  split; [rewrite map_length; exact P1|].
  split.
  { assert (LT : forall l : list (iv E2), last (map M l) izero = M (last l izero)).
    { induction l as [|a l IH]; cbn [map last]; [symmetry; apply (lin_zero M LM)|].
      destruct l; [reflexivity|]. exact IH. }
    rewrite LT. exact (f_equal M P2). }
  split; [intro T; exact (f_equal (map M) (P3 T))|].
  assert (GG : forall i x, nth_error (map M xs) i = Some x -> exists x', @nth_error (iv E2) xs i = Some x' /\ x = M x').
  { intros i x Hi. rewrite nth_error_map in Hi.
    change (option_map M (@nth_error (iv E2) xs i) = Some x) in Hi.
    destruct (@nth_error (iv E2) xs i) as [x'|]; [|discriminate]. injection Hi as <-. exists x'. auto. }
  split.
  { intros i x Hi. destruct (GG i x Hi) as (x' & Hi' & ->). destruct (P4 i x' Hi') as [K1 K2].
    split; [apply Kr_push; exact K1|]. intros z Hz. apply Kr_pull in Hz as (z' & -> & Hz).
    rewrite !mnorm_eq, !op_M. exact (K2 z' Hz). }
  split.
  { intro T. destruct (P5 T) as [Q1 Q2]. split.
    - etransitivity; [exact Q1|]. rewrite map_map. apply map_ext. intro z. rewrite mnorm_eq, op_M. reflexivity.
    - intros i x x2 Hi Hi2. destruct (GG i x Hi) as (x' & Hi' & ->). destruct (GG (Datatypes.S i) x2 Hi2) as (x2' & Hi2' & ->).
      rewrite mnorm_eq, !op_M. exact (Q2 i x' x2' Hi' Hi2'). }
  intro HC. etransitivity; [exact (op_M (ho_x r))|]. apply PT.
  destruct HC as [(m & D & L)|[(n & D & L)|(L & HI)]].
  - left. exists m. split; [apply p_dim; exact D|exact L].
  - right. left. exists n. split; [apply p_dim; exact D|exact L].
  - right. right. split; [exact L|exact (Kr_inv _ _ HI)].
Qed.
End Cm.
End Craig.

(** ** MINRES.  Here the preconditioner [P] approximates the inverse of [A]. *)
Section Minres.
Variables (dv : R -> R -> R) (sq : R -> R) (E : IPS).
Notation KK := (exactK dv sq).
Notation WW := (exactV dv sq E).

Theorem C75_minres : dv_ok dv -> sq_ok sq ->
  forall (q : kprob WW) (kw : mr_kw WW) (b : iv E) (P : iv E -> iv E) fuel hist cnt o cnt',
  let At := fun z : iv E => isub (q_A q z : iv E) (iscale (m_shift kw) z) in
  let pnorm := fun z : iv E => sqrt (ip z (P z)) in
  m_precon kw = Some P -> selfadj P -> posdef P -> selfadj (q_A q : iv E -> iv E) ->
  (forall k z, kry (fun z => At (P z)) b k z -> @machine_eps KK * pnorm z <= pnorm (At (P z))) ->
  @mr_solve KK WW fuel q hist b kw cnt = Ok (o, cnt') ->
  exists xs : list (iv E), length xs = u_itn o /\
    (u_hist o : list R) = hist ++ map (fun z => pnorm (isub b (At z))) xs /\
    (MinresModel.m_sit kw = true -> (u_iters o : list (iv E)) = izero :: xs) /\
    (u_x o : iv E) = last xs izero /\
    (u_itn o <> 0%nat -> u_rnorm o = pnorm (isub b (At (u_x o)))) /\
    (u_itn o <> 0%nat -> u_Arnorm o = pnorm (At (P (isub b (At (last (removelast xs) izero)))))) /\
    (forall i z, nth_error xs i = Some z -> kry (fun z => P (At z)) (P b) (S i) z /\
       (forall z', kry (fun z => P (At z)) (P b) (S i) z' -> pnorm (isub b (At z)) <= pnorm (isub b (At z')))) /\
    (forall n, dim_le E n -> (n <= u_itn o)%nat -> u_istop o <> 7%Z -> u_istop o <> 8%Z -> At (u_x o) = b).
Proof.
  intros DV SQ q kw b P fuel hist cnt o cnt' At pnorm HP SP PD SA SG H.
  exact (mr_precon_exact dv sq DV SQ E q kw b P HP SP PD SA SG fuel hist cnt o cnt' H).
Qed.
End Minres.

(** ** The hypotheses hold of diagonal preconditioners. *)
Definition dgM (y : iv (Rn 3)) : iv (Rn 3) := v3 (fst y) (2 * fst (snd y)) (4 * fst (snd (snd y))).
Definition dgMi (y : iv (Rn 3)) : iv (Rn 3) := v3 (fst y) (/ 2 * fst (snd y)) (/ 4 * fst (snd (snd y))).
Definition dgN (x : iv (Rn 2)) : iv (Rn 2) := v2 (3 * fst x) (fst (snd x) / 5).
Definition dgNi (x : iv (Rn 2)) : iv (Rn 2) := v2 (fst x / 3) (5 * fst (snd x)).
Lemma dgM_ok : selfadj dgM /\ posdef dgM /\ (forall z, dgM (dgMi z) = z).
Proof.
  split; [|split].
  - intros [a [b [c []]]] [e [f [g []]]]. cbn. ring.
  - intros [a [b [c []]]] NZ. cbn.
    destruct (Req_dec a 0) as [->|A0]; [destruct (Req_dec b 0) as [->|B0]; [destruct (Req_dec c 0) as [->|C0]|]|].
    + exfalso. apply NZ. reflexivity.
    + assert (0 < c * c) by nra. lra.
    + assert (0 < b * b) by nra. nra.
    + assert (0 < a * a) by nra. nra.
  - intros [a [b [c []]]]. unfold dgM, dgMi, v3. cbn. repeat (apply f_equal2; [field|]). reflexivity.
Qed.
Lemma dgN_ok : selfadj dgN /\ posdef dgN /\ (forall z, dgN (dgNi z) = z).
Proof.
  split; [|split].
  - intros [a [b []]] [e [f []]]. cbn. field.
  - intros [a [b []]] NZ. cbn.
    destruct (Req_dec a 0) as [->|A0]; [destruct (Req_dec b 0) as [->|B0]|].
    + exfalso. apply NZ. reflexivity.
    + assert (0 < b * b) by nra. lra.
    + assert (0 < a * a) by nra. nra.
  - intros [a [b []]]. unfold dgN, dgNi. cbn. apply v2_eq; field.
Qed.
Definition plkw : ls_kw W2 W3 :=
  @mklskw K0 W2 W3 0 2 (Some (dgM : vc W3 -> vc W3)) (Some (dgN : vc W2 -> vc W2)) (Q2R (1 # 1000000000)) (Q2R (1 # 1000000000))
    (Q2R 100000000) false (Q2R (1 # 1000000)) true true 5 (fun _ => 0 : sc K0) (fun _ => false).
Example ex_C76 : l_M plkw = Some dgM /\ l_N plkw = Some dgN /\ (1 <= l_window plkw)%nat /\ l_wantvar plkw = false /\
  (Z.to_nat (if (l_itnlim plkw =? 0)%Z then (3 * Z.of_nat (lp_n xq))%Z else l_itnlim plkw) < 7)%nat /\
  adjoint xA xAt /\ selfadj dgM /\ posdef dgM /\ selfadj dgN /\ posdef dgN /\ (forall z, dgN (dgNi z) = z) /\
  exists o cnt', @ls_solve K0 W2 W3 7 xq plkw xb 0 = Ok (o, cnt') /\ (o_itn o <= 3)%nat /\ o_itn o <> 0%nat.
Proof.
  destruct dgM_ok as (M1 & M2 & M3). destruct dgN_ok as (N1 & N2 & N3).
  split; [reflexivity|]. split; [reflexivity|]. split; [cbn; lia|]. split; [reflexivity|]. split; [cbn; lia|].
  split; [exact xAD|]. do 5 (split; [assumption|]).
  destruct (C76_lsqr Rdiv sqrt Rdiv_ok sqrt_ok (Rn 2) (Rn 3) xq plkw xb M1 M2 N1 N2 dgNi N3 xAD ltac:(cbn; lia) eq_refl 7 0 ltac:(cbn; lia))
    as (o & c & xs & H & _ & EX & _ & _ & _ & (_ & _ & AR & _) & _ & D).
  exists o, c. split; [exact H|]. split; [exact (proj1 (D 2%nat (or_introl (Rn_dim 2))))|].
  intro Z. destruct (C50_stopping K0 W2 W3 xq plkw 7 xb 0 o c H) as (_ & _ & _ & _ & _ & _ & _ & _ & _ & _ & _ & _ & _ & _ & I & _).
  destruct (I Z) as [X [Q|Q]]; [|cbn in Q; lia]. apply Reqb_true in Q. rewrite AR in Q. change (o_x o = (izero : iv (Rn 2))) in X.
  rewrite X in Q. apply sqrt_eq_0 in Q.
  - cbn in Q. unfold v2 in Q. cbn in Q. lra.
  - cbn. unfold v2. cbn. lra.
Qed.
Definition pmkw : lm_kw W2 W3 :=
  @mklmkw K0 W2 W3 2 0 0 0 (Some (dgM : vc W3 -> vc W3)) (Some (dgN : vc W2 -> vc W2)) None 0 true true 5 (fun _ => 0 : sc K0).
Example ex_C77 : m_M pmkw = Some dgM /\ m_N pmkw = Some dgN /\ (1 <= m_window pmkw)%nat /\
  (Z.to_nat (lm_lim xq pmkw) < 3)%nat /\ adjoint xA xAt /\ selfadj dgM /\ posdef dgM /\ selfadj dgN /\ posdef dgN /\
  (forall z, dgN (dgNi z) = z) /\ xAt (dgM xb) <> izero /\ xAt (dgM (v3 8 8 (-2))) = izero /\
  exists r ob' cnt', @lm_solve K0 W2 W3 3 xq pmkw lm_obj0 xb 0 = Ok (r, ob', cnt').
Proof.
  destruct dgM_ok as (M1 & M2 & M3). destruct dgN_ok as (N1 & N2 & N3).
  split; [reflexivity|]. split; [reflexivity|]. split; [cbn; lia|]. split; [cbn; lia|]. split; [exact xAD|].
  do 5 (split; [assumption|]).
  split. { intro H. apply (f_equal (fun z : iv (Rn 2) => fst z)) in H. cbn in H. lra. }
  split. { unfold xAt, dgM, v3. cbn. unfold v2. repeat (apply f_equal2; [ring|]). reflexivity. }
  destruct (@lm_solve K0 W2 W3 3 xq pmkw lm_obj0 xb 0) as [[[r ob'] c]|e] eqn:H; [eauto|exfalso].
  destruct (C77_lsmr_error Rdiv sqrt Rdiv_ok sqrt_ok (Rn 2) (Rn 3) xq pmkw xb M1 M2 N1 N2 xAD ltac:(cbn; lia) 3 0 lm_obj0
    ltac:(cbn; lia) e H) as (_ & D & _). cbn in D. lra.
Qed.
Definition pckw : cr_kw W2 W3 :=
  @mkcrkw K0 W2 W3 0 0 (Some (dgM : vc W3 -> vc W3)) (Some (dgN : vc W2 -> vc W2)) 0 0 0 false 0 true true 5 (fun _ => 0 : sc K0).
Definition phkw : cm_kw W2 W3 :=
  @mkcmkw K0 W2 W3 0 0 0 0 (Some (dgM : vc W3 -> vc W3)) (Some (dgN : vc W2 -> vc W2)) (Some 3%Z) 0 true true 5 (fun _ => 0 : sc K0).
Example ex_C78 : c_M pckw = Some dgM /\ c_N pckw = Some dgN /\ (1 <= c_window pckw)%nat /\ c_wantvar pckw = false /\
  h_M phkw = Some dgM /\ h_N phkw = Some dgN /\ (1 <= h_window phkw)%nat /\
  adjoint xA xAt /\ selfadj dgM /\ posdef dgM /\ selfadj dgN /\ posdef dgN /\
  (forall z, dgN (dgNi z) = z) /\ (forall z, dgM (dgMi z) = z) /\ xb <> izero /\
  (exists r cnt', @cr_solve K0 W2 W3 7 xq pckw xb 0 = Ok (r, cnt') /\
     ((2 <= go_itn r)%nat -> iadd (xA (go_x r)) (dgMi (go_r r)) = xb)) /\
  (exists r cnt', @cm_solve K0 W2 W3 4 xq phkw xb 0 = Ok (r, cnt') /\
     ((3 <= ho_itn r)%nat -> iadd (xA (dgN (xAt (ho_x r)))) (dgMi (ho_x r)) = xb)).
Proof.
  destruct dgM_ok as (M1 & M2 & M3). destruct dgN_ok as (N1 & N2 & N3).
  do 2 (split; [reflexivity|]). split; [cbn; lia|]. do 3 (split; [reflexivity|]). split; [cbn; lia|]. split; [exact xAD|].
  do 6 (split; [assumption|]).
  assert (NB : xb <> izero). { intro H. apply (f_equal (fun z : iv (Rn 3) => fst z)) in H. cbn in H. lra. }
  split; [exact NB|]. split.
  - destruct (C78_craig_returns Rdiv sqrt Rdiv_ok sqrt_ok (Rn 2) (Rn 3) xq xb (Some dgM) (Some dgN) M1 M2 N1 N2 xAD 7 0 pckw eq_refl eq_refl
      ltac:(cbn; lia) eq_refl ltac:(cbn; lia) NB ltac:(cbn; lia)) as (r & c & H).
    exists r, c. split; [exact H|]. intro L.
    destruct (C78_craig Rdiv sqrt Rdiv_ok sqrt_ok (Rn 2) (Rn 3) xq xb (Some dgM) (Some dgN) M1 M2 N1 N2 dgNi N3 dgMi M3 xAD 7 0 pckw eq_refl eq_refl
      ltac:(cbn; lia) eq_refl ltac:(cbn; lia) r c H) as (_ & p0 & ps & LP & LL & _ & _ & G & _).
    destruct (nth_error (p0 :: ps) (go_itn r)) as [[x y]|] eqn:NP; [|exfalso; apply nth_error_None in NP; apply (Nat.nle_succ_diag_l (go_itn r)); rewrite <- LP at 1; exact NP].
    destruct (G _ _ _ NP) as (_ & _ & _ & _ & T).
    assert (EL : last (p0 :: ps) (izero, izero) = (x, y)).
    { apply last_nth_error. cbn [length]. rewrite LP. cbn [Nat.sub]. rewrite Nat.sub_0_r. exact NP. }
    rewrite LL in EL. injection EL as -> ->. apply T. right. split; [reflexivity|]. exists 2%nat. split; [left; exact (Rn_dim 2)|exact L].
  - destruct (C78_craigmr Rdiv sqrt Rdiv_ok sqrt_ok (Rn 2) (Rn 3) xq xb (Some dgM) (Some dgN) M1 M2 N1 N2 dgMi M3 xAD 4 0 phkw eq_refl eq_refl
      ltac:(cbn; lia) ltac:(cbn; lia)) as (r & c & xs & H & _ & _ & _ & _ & _ & T).
    exists r, c. split; [exact H|]. intro L. apply T. left. exists 3%nat. split; [exact (Rn_dim 3)|exact L].
Qed.
Definition prkw : mr_kw W2 :=
  @mkmrkw K0 W2 (Some (dgN : vc W2 -> vc W2)) 2 2 [] 0 false None (Q2R (1 # 1000000000000)) (Q2R (1 # 1000000)) true 5 (fun _ => 0 : sc K0).
Example ex_C75 :
  let At := fun z : iv (Rn 2) => isub (q_A iprob z : iv (Rn 2)) (iscale (m_shift prkw) z) in
  let pnorm := fun z : iv (Rn 2) => sqrt (ip z (dgN z)) in
  m_precon prkw = Some dgN /\ selfadj dgN /\ posdef dgN /\ selfadj (q_A iprob : iv (Rn 2) -> iv (Rn 2)) /\
  (forall k z, kry (fun z => At (dgN z)) (v2 1 1) k z -> @machine_eps K0 * pnorm z <= pnorm (At (dgN z))) /\
  exists o cnt', @mr_solve K0 W2 11 iprob [] (v2 1 1) prkw 0 = Ok (o, cnt').
Proof.
  intros At pnorm. destruct dgN_ok as (N1 & N2 & N3). split; [reflexivity|]. split; [exact N1|]. split; [exact N2|].
  split. { intros [a [b []]] [c [d []]]. cbn. ring. }
  split.
  - intros k z _. rewrite eps_val.
    assert (Q : / 8 * pnorm z <= pnorm (At (dgN z))).
    { unfold pnorm. replace (/ 8) with (sqrt (/ 64)) by (apply sqrt_val; lra).
      rewrite <- sqrt_mult_alt by lra. apply sqrt_le_1_alt.
      destruct z as [a [b []]]. unfold At, isub, ineg. cbn. nra. }
    assert (P : 0 <= pnorm z) by (unfold pnorm; apply sqrt_pos). lra.
  - destruct (C47_stopping K0 W2 iprob prkw (v2 1 1) 11 [] 0) as (o & c & H & _);
      [cbn; lia|cbn; lia|]. exists o, c. exact H.
Qed.
Print Assumptions C75_minres.
Print Assumptions C76_lsqr.
Print Assumptions C76_lsqr_optimal.
Print Assumptions C76_lsqr_stop.
Print Assumptions C77_lsmr_zero.
Print Assumptions C77_lsmr_error.
Print Assumptions C77_lsmr.
Print Assumptions C78_craig_zero.
Print Assumptions C78_craig_returns.
Print Assumptions C78_craig.
Print Assumptions C78_craigmr.
