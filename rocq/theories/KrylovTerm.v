(** * CGS, BiCGSTAB and TFQMR in exact arithmetic: the residuals are products of the
    bi-conjugate gradient polynomials with the initial residual, and the methods converge within
    as many iterations as the dimension unless they break down. *)
From Coq Require Import List ZArith QArith Qreals Reals Lia Lra Bool.
From Verif Require Import Base Num ToolsModel CgModel CgProof KrylovModel KrylovProof KrylovStop KrylovPoly.
Import ListNotations.
Local Open Scope R_scope.

Section Term.
Context (dv : R -> R -> R) (sq : R -> R) (E : IPS).
Notation KK := (exactK dv sq).
Notation WW := (exactV dv sq E).
Hypothesis SQ : sq_ok sq.
Hypothesis DV : dv_ok dv.
Variables (q : kprob WW) (b : iv E) (kw : kkw WW).
Notation A := (q_A q : iv E -> iv E).
Hypothesis LA : lin A.
Hypothesis LM : forall M, q_P q = Some M -> lin (M : iv E -> iv E).
Notation mx := (@mmax KK WW (w_mmax kw) b).

(** the operator seen by the method, and the initial residual *)
Definition BB (v : iv E) : iv E := A (@prec KK WW q v : iv E).
Lemma LB : lin BB.
Proof.
  unfold BB, prec. destruct (q_P q) as [M|] eqn:EM; [|exact LA].
  pose proof (LM _ eq_refl) as L. split; intros.
  - rewrite (lin_add _ L), (lin_add _ LA). reflexivity.
  - rewrite (lin_scale _ L), (lin_scale _ LA). reflexivity.
Qed.
Definition rr0 : iv E := isub b (A (@start_x KK WW kw b)).
Notation P := (P BB rr0).
Notation Q := (Q BB rr0).
Notation rho := (rho BB rr0).
Notation sig := (sig BB rr0).
Notation alp := (alp BB rr0).
Notation bet := (bet BB rr0).
Notation alive := (alive BB rr0).
Let PP k := poly_lin BB LB _ (P_poly BB rr0 k).
Let QQ k := poly_lin BB LB _ (Q_poly BB rr0 k).
Let comm := poly_comm BB LB.
Let HP := P_poly BB rr0.
Let HQ := Q_poly BB rr0.

(** No breakdown before the exact solution is found, in the first n steps. *)
Definition nobreak n := forall i, (i < n)%nat -> (forall j, (j <= i)%nat -> P j rr0 <> izero) ->
  rho i <> 0 /\ sig i <> 0.
Lemma nobreak_alive : forall n k, nobreak n -> (k < n)%nat -> (forall j, (j <= k)%nat -> P j rr0 <> izero) -> alive (S k).
Proof. intros n k H L N i Li. apply H; [lia|]. intros j Lj. apply N. lia. Qed.

Lemma norm_nz : forall (v : iv E) th, 0 <= th -> th < inorm v -> v <> izero.
Proof. intros v th H1 H2 ->. rewrite inorm_izero in H2. lra. Qed.
Lemma sig_alt : forall k, ip rr0 (BB (Q k (Q k rr0))) = sig k.
Proof. intro k. unfold sig, F, mulB. rewrite (poly_B BB LB (Q k) (HQ k)). reflexivity. Qed.
Lemma th_pos : forall r, 0 <= (q_abstol q : R) -> 0 <= (@thr KK WW q r : R).
Proof. intros r H. unfold thr. rewrite (Rmax_pymax dv sq). eapply Rle_trans; [exact H|apply Rmax_l]. Qed.

(** ** CGS *)
Definition cgs_at (k : nat) (st : cgs_st WW) : Prop :=
  s_r st = P k (P k rr0) :> iv E /\ s_u st = P k (Q k rr0) :> iv E /\
  s_p st = Q k (Q k rr0) :> iv E /\ s_rho st = rho k :> R.

Lemma cgs_step : forall th k st st', cgs_at k st -> rho k <> 0 -> sig k <> 0 ->
  cgs_body q (rr0 : vc WW) th mx st = Ok st' ->
  s_r st' = P (S k) (P (S k) rr0) :> iv E /\ s_nmv st' = (s_nmv st + 2)%nat /\
  s_res st' = inorm (s_r st' : iv E) :> R /\
  s_fin st' = (sleb (s_res st') th || (mx <=? s_nmv st')%nat) /\
  (s_fin st' = false -> cgs_at (S k) st').
Proof.
  intros th k st st' (H1 & H2 & H3 & H4) NR NS H.
  unfold cgs_body, opmul in H. cbv beta iota zeta in H. cbn in H.
  change (q_A q (prec q (s_p st))) with (BB (s_p st)) in H. rewrite H1, H2, H3, H4, sig_alt in H.
  rewrite (DV _ _ NS) in H. fold (alp k) in H.
  assert (EQ : isub (P k (Q k rr0)) (iscale (alp k) (BB (Q k (Q k rr0)))) = P (S k) (Q k rr0)) by reflexivity.
  rewrite EQ in H.
  set (z := prec q (iadd (P k (Q k rr0)) (P (S k) (Q k rr0)))) in H.
  assert (ER : isub (P k (P k rr0)) (iscale (alp k) (q_A q z)) = P (S k) (P (S k) rr0)).
  { change (q_A q z) with (BB (iadd (P k (Q k rr0)) (P (S k) (Q k rr0)))).
    rewrite (lin_add BB LB). rewrite (P_S BB rr0 k rr0).
    rewrite (lin_sub _ (PP (S k))), (lin_scale _ (PP (S k))).
    rewrite (poly_B BB LB (P (S k)) (HP (S k))). rewrite (P_S BB rr0 k (P k rr0)).
    rewrite (comm (P k) (HP k) (Q k) (HQ k)). veq. }
  rewrite ER in H. set (b1 := Rleb _ th || _) in H. 
  destruct b1 eqn:T; injection H as <-; cbn [s_r s_nmv s_res s_fin s_u s_p s_rho].
  - split; [reflexivity|]. split; [lia|]. split; [reflexivity|]. split; [symmetry; exact T|discriminate].
  - split; [reflexivity|]. split; [lia|]. split; [reflexivity|]. split; [symmetry; exact T|]. intros _.
    assert (EB : dv (ip rr0 (P (S k) (P (S k) rr0))) (rho k) = bet k) by (rewrite (DV _ _ NR); reflexivity).
    assert (EU : iadd (P (S k) (P (S k) rr0)) (iscale (bet k) (P (S k) (Q k rr0))) = P (S k) (Q (S k) rr0)).
    { rewrite (Q_S BB rr0 k rr0), (lin_add _ (PP (S k))), (lin_scale _ (PP (S k))). reflexivity. }
    split; [reflexivity|]. cbn [s_r s_nmv s_res s_fin s_u s_p s_rho]. rewrite EB, EU.
    split; [reflexivity|]. split; [|reflexivity].
    rewrite (Q_S BB rr0 k (Q (S k) rr0)). rewrite (Q_S BB rr0 k rr0) at 3.
    rewrite (lin_add _ (QQ k)), (lin_scale _ (QQ k)).
    rewrite (comm (Q k) (HQ k) (P (S k)) (HP (S k))). veq.
Qed.

Lemma start_r_is : forall cnt, fst (@start_r KK WW q kw b cnt) = rr0.
Proof.
  intro cnt. destruct (@start_r KK WW q kw b cnt) as [r0 c0] eqn:ER. exact (start_spec dv sq E q b kw LA cnt r0 c0 ER).
Qed.
Lemma rn0_is : forall cnt, @rn0 KK WW q b kw cnt = inorm rr0 :> R.
Proof. intro cnt. unfold rn0. rewrite start_r_is. apply (sq_norm sq E SQ). Qed.
Notation th := (@thr KK WW q (inorm rr0) : R).
Lemma th_is : th = Rmax (q_abstol q) (q_reltol q * inorm rr0).
Proof. unfold thr. rewrite (Rmax_pymax dv sq). reflexivity. Qed.

Lemma cgs_reach_at : forall n cnt k st, 0 <= (q_abstol q : R) -> nobreak n -> (k <= n)%nat ->
  @cgs_reach KK WW q b kw cnt k st ->
  s_r st = P k (P k rr0) :> iv E /\ s_nmv st = (2 * k)%nat /\ s_res st = inorm (s_r st : iv E) :> R /\
  s_fin st = (Rleb (s_res st) th || (mx <=? s_nmv st)%nat) /\
  (forall j, (j < k)%nat -> P j rr0 <> izero) /\
  (s_fin st = false -> cgs_at k st /\ P k rr0 <> izero).
Proof.
  intros n cnt k st AT NB. revert st. unfold cgs_reach.
  pose proof (start_r_is cnt) as ES. destruct (start_r q kw b cnt) as [r0 c0]. cbn [fst] in ES. subst r0.
  assert (RN : sabs (ssqrt (vdot (rr0 : vc WW) rr0)) = inorm rr0) by (apply (sq_norm sq E SQ)).
  rewrite RN. pose proof (th_pos (inorm rr0) AT) as T0.
  assert (NZ : forall k (r : iv E) (rs : R) nm, rs = inorm r -> r = P k (P k rr0) ->
    Rleb rs th || (mx <=? nm)%nat = false -> P k rr0 <> izero).
  { intros m r rs nm -> -> C Z. apply orb_false_elim in C as [C _]. apply Rleb_false in C.
    rewrite Z, (lin_zero _ (PP m)), inorm_izero in C. lra. }
  induction k as [|k IH]; intros st L R.
  - cbn [rounds] in R. injection R as <-. cbn [s_r s_nmv s_res s_fin].
    split; [reflexivity|]. split; [reflexivity|]. split; [reflexivity|]. split; [reflexivity|]. split; [lia|].
    intro C. split; [split; [reflexivity|]; split; [reflexivity|]; split; reflexivity|].
    exact (NZ 0%nat rr0 _ _ eq_refl eq_refl C).
  - cbn [rounds] in R. destruct (rounds _ _ k _) as [s|]; [|discriminate]. specialize (IH s ltac:(lia) eq_refl).
    destruct (s_fin s) eqn:FS; cbn [negb] in R; [discriminate|].
    destruct IH as (_ & N1 & _ & _ & ZZ & IH). destruct (IH eq_refl) as [AT1 Z1].
    assert (ZZ' : forall j, (j < S k)%nat -> P j rr0 <> izero).
    { intros j Lj. destruct (Nat.eq_dec j k) as [->|]; [exact Z1|]. apply ZZ. lia. }
    destruct (NB k ltac:(lia)) as [NR NS]; [intros j Lj; apply ZZ'; lia|].
    destruct (cgs_step _ k s st AT1 NR NS R) as (C1 & C2 & C3 & C4 & C5).
    split; [exact C1|]. split; [lia|]. split; [exact C3|]. split; [exact C4|]. split; [exact ZZ'|].
    intro FF. split; [exact (C5 FF)|]. rewrite C4 in FF. exact (NZ (S k) _ _ _ C3 C1 FF).
Qed.

Lemma rounds_pre : forall {St} (c : St -> bool) body j k s s', rounds c body k s = Ok s' -> (j < k)%nat ->
  exists t, rounds c body j s = Ok t /\ c t = true.
Proof.
  intros St c body j k s. induction k as [|k IH]; intros s' H L; [lia|]. cbn [rounds] in H.
  destruct (rounds c body k s) as [t|] eqn:ET; [|discriminate]. destruct (c t) eqn:CT; [|discriminate].
  destruct (Nat.eq_dec j k) as [->|N]; [exists t; auto|]. apply (IH t); auto. lia.
Qed.

Lemma nz_lt : forall n k, kdim BB rr0 n -> nobreak n -> (k <= n)%nat ->
  (forall j, (j <= k)%nat -> P j rr0 <> izero) -> (k < n)%nat.
Proof.
  intros n k D NB L NZ. destruct (Nat.eq_dec k n) as [->|]; [exfalso|lia].
  apply (NZ n (le_n n)). apply (finite BB LB rr0 n D). intros i Li. apply NB; auto. intros j Lj. apply NZ. lia.
Qed.

Lemma cgs_term : forall n fuel cnt o cnt', kdim BB rr0 n -> nobreak n -> 0 <= (q_abstol q : R) -> (2 * n <= mx)%nat ->
  cgs_solve fuel q (b : vc WW) kw cnt = Ok (o, cnt') -> o_conv o = true /\ (o_nmv o <= 2 * n)%nat.
Proof.
  intros n fuel cnt o cnt' D NB AT MX H. pose proof (fun k => cgs_reach_at n cnt k) as RA.
  unfold cgs_reach in RA. unfold cgs_solve in H.
  pose proof (start_r_is cnt) as ES. destruct (start_r q kw b cnt) as [r0 c0]. cbn [fst] in ES. subst r0.
  assert (RN : sabs (ssqrt (vdot (rr0 : vc WW) rr0)) = inorm rr0) by (apply (sq_norm sq E SQ)).
  rewrite RN in *.
  destruct (while _ _ _ _) as [st|] eqn:EW; [|discriminate]. injection H as <- <-. cbn [o_conv o_nmv].
  destruct (while_rounds _ _ _ _ _ EW) as (k & _ & R & C). apply negb_false_iff in C.
  match type of R with rounds ?c ?bd k ?s0 = _ =>
    assert (GO : forall j t, (j <= n)%nat -> rounds c bd j s0 = Ok t -> s_fin t = false -> (j < n)%nat) end.
  { intros j t Lj Rj Fj. destruct (RA j t AT NB Lj Rj) as (_ & _ & _ & _ & Z1 & Z2). destruct (Z2 Fj) as [_ Z3].
    apply nz_lt; auto. intros i Li. destruct (Nat.eq_dec i j) as [->|]; auto. apply Z1. lia. }
  assert (LK : (k <= n)%nat).
  { destruct (le_lt_dec k n) as [|GT]; [auto|exfalso].
    destruct (rounds_pre _ _ n k _ _ R GT) as (t & Rt & Ct). apply negb_true_iff in Ct.
    pose proof (GO n t (le_n n) Rt Ct). lia. }
  destruct (RA k st AT NB LK R) as (R1 & R2 & R3 & R4 & R5 & _).
  split; [|lia]. rewrite R4 in C. apply orb_true_elim in C. destruct C as [C|C]; [exact C|].
  apply Nat.leb_le in C. assert (k = n) as -> by lia.
  assert (Z : P n rr0 = izero).
  { apply (finite BB LB rr0 n D). intros i Li. apply NB; auto. intros j Lj. apply R5. lia. }
  apply Rleb_true. rewrite R3, R1, Z, (lin_zero _ (PP n)), inorm_izero. now apply th_pos.
Qed.

(** the residual of the vector returned *)
Lemma cgs_result : forall fuel cnt o cnt', 0 <= (q_abstol q : R) ->
  cgs_solve fuel q (b : vc WW) kw cnt = Ok (o, cnt') ->
  exists k, o_nmv o = (2 * k)%nat /\ (nobreak k -> isub b (A (o_x o)) = P k (P k rr0)).
Proof.
  intros fuel cnt o cnt' AT H. pose proof (fun k => cgs_reach_at k cnt k) as RA.
  unfold cgs_reach in RA. unfold cgs_solve in H.
  assert (CN : forall r0 th s s' j, rounds (fun st => negb (s_fin st)) (cgs_body q r0 th mx) j s = Ok s' ->
     s_nmv s' = (s_nmv s + 2 * j)%nat).
  { intros r0 th1 s s' j. revert s'. induction j as [|j IH]; intros s' R; cbn [rounds] in R; [injection R as <-; lia|].
    destruct (rounds _ _ j _) as [t|]; [|discriminate]. specialize (IH t eq_refl).
    destruct (negb (s_fin t)); [|discriminate]. unfold cgs_body, opmul in R. cbv beta iota zeta in R.
    destruct (_ || _) in R; injection R as <-; cbn [s_nmv]; lia. }
  pose proof (start_r_is cnt) as ES. destruct (start_r q kw b cnt) as [r0 c0]. cbn [fst] in ES. subst r0.
  assert (RN : sabs (ssqrt (vdot (rr0 : vc WW) rr0)) = inorm rr0) by (apply (sq_norm sq E SQ)).
  rewrite RN in *.
  destruct (while _ _ _ _) as [st|] eqn:EW; [|discriminate]. injection H as <- <-. cbn [o_conv o_nmv o_x].
  destruct (while_rounds _ _ _ _ _ EW) as (k & _ & R & C).
  exists k. split; [rewrite (CN _ _ _ _ _ R); reflexivity|]. intro NB.
  destruct (RA k st AT NB (le_n k) R) as (R1 & _). rewrite <- R1.
  apply while_inv with (I := cgs_inv dv sq E q b) in EW.
  - destruct EW as [[I1 _] _]. symmetry. exact I1.
  - intros s s' I _ B. eapply cgs_step_inv; eauto.
  - split; cbn [s_r s_x s_res]; reflexivity.
Qed.

(** ** BiCGSTAB *)
(** the search direction about to be computed (bicgstab.py:93-96) *)
Definition bi_p (st : bi_st WW) : iv E :=
  let beta := dv (dv (b_rhon st) (b_rho st) * b_alpha st) (b_omega st) in
  iadd (isub (iscale beta (b_p st)) (iscale (beta * b_omega st) (b_v st))) (b_r st).
Definition bi_at (k : nat) (st : bi_st WW) : Prop :=
  exists (Psi l : iv E -> iv E) (c : R), poly BB Psi /\ low BB rr0 k l /\
    (forall v, Psi v = iadd (iscale c (P k v)) (l v)) /\ c <> 0 /\
    b_r st = Psi (P k rr0) :> iv E /\ b_rhon st = c * rho k :> R /\ bi_p st = Psi (Q k rr0).

Lemma F_PQ : forall k, alive k -> F rr0 (P k) (mulB BB (Q k)) = sig k.
Proof.
  intros k A1. unfold sig. destruct (Nat.eq_dec k 0) as [->|Z]; [reflexivity|].
  rewrite (sig_PQ BB rr0) by lia. destruct (orth BB LB rr0 k A1 (k - 1)%nat k ltac:(lia)) as [_ ->]. ring.
Qed.

Lemma bi_step : forall th k st st', bi_at k st -> alive (S k) ->
  bi_body q (rr0 : vc WW) th mx st = Ok st' ->
  exists s : iv E, (P (S k) rr0 = izero -> s = izero) /\
  ((inorm s <= th /\ b_fin st' = true /\ b_res st' = inorm s :> R /\ b_nmv st' = (b_nmv st + 1)%nat) \/
   (th < inorm s /\ (mx <= b_nmv st + 1)%nat) \/
   (th < inorm s /\ (b_nmv st + 1 < mx)%nat /\ b_nmv st' = (b_nmv st + 2)%nat /\
    b_fin st' = (Rleb (b_res st') th || (mx <=? b_nmv st')%nat) /\
    b_res st' = inorm (b_r st' : iv E) :> R /\ (P (S k) rr0 = izero -> b_r st' = izero :> iv E) /\
    (b_omega st' <> 0 :> R -> bi_at (S k) st'))).
Proof.
  intros th k st st' (Psi & l & c & HPs & HL & EP & NC & H1 & H2 & H3) AL H.
  destruct (AL k ltac:(lia)) as [NR NS].
  assert (AK : alive k) by (intros i Li; apply AL; lia).
  pose proof (poly_lin BB LB Psi HPs) as LPs.
  unfold bi_body, opmul in H. cbv beta iota zeta in H. cbn in H.
  fold (bi_p st) in H.
  change (q_A q (prec q (bi_p st))) with (BB (bi_p st)) in H.
  set (qq := prec q (bi_p st)) in H.
  rewrite H3, H1 in H.
  assert (EV : ip rr0 (BB (Psi (Q k rr0))) = c * sig k).
  { rewrite EP, (lin_add BB LB), (lin_scale BB LB). ipx.
    rewrite <- (F_PQ k AK). destruct (low_F BB LB rr0 k l AK HL) as [_ L2].
    assert (X1 : ip rr0 (BB (l (Q k rr0))) = 0).
    { rewrite <- L2. unfold F, mulB. f_equal.
      assert (PL : poly BB l).
      { clear - HL. induction HL as [f Hf|f g i a Li Hg IH Hf].
        - apply (po_lin BB f (fun v => v) (fun v => v) 0 0); try (apply po_id; reflexivity). intro v. rewrite Hf. veq.
        - apply (po_lin BB f (P i) g a 1); auto; [apply P_poly|]. intro v. rewrite Hf. veq. }
      now rewrite (poly_B BB LB l PL). }
    rewrite X1. unfold F, mulB. rewrite (poly_B BB LB (P k) (HP k)). ring. }
  rewrite EV, H2 in H.
  assert (EA : dv (c * rho k) (c * sig k) = alp k).
  { rewrite DV by (apply Rmult_integral_contrapositive_currified; auto). unfold alp. field. auto. }
  rewrite EA in H.
  assert (ES : isub (Psi (P k rr0)) (iscale (alp k) (BB (Psi (Q k rr0)))) = Psi (P (S k) rr0)).
  { rewrite (P_S BB rr0 k rr0), (lin_sub _ LPs), (lin_scale _ LPs), (poly_B BB LB Psi HPs). reflexivity. }
  rewrite ES in H. set (s := Psi (P (S k) rr0)) in H. exists s. split.
  { intro Z. unfold s. rewrite Z. apply (lin_zero _ LPs). }
  destruct (Rleb (inorm s) th) eqn:T.
  { left. apply Rleb_true in T. injection H as <-. cbn [b_fin b_res b_nmv]. split; [exact T|]. split; [reflexivity|]. split; reflexivity. }
  right. apply Rleb_false in T. destruct (mx <=? b_nmv st + 1)%nat eqn:T2.
  { left. apply Nat.leb_le in T2. auto. }
  right. apply Nat.leb_gt in T2.
  change (q_A q (prec q s)) with (BB s) in H.
  set (om := dv (ip (BB s) s) (ip (BB s) (BB s))) in H.
  injection H as <-. cbn [b_nmv b_fin b_res b_r b_omega].
  split; [exact T|]. split; [exact T2|]. split; [lia|]. split; [reflexivity|]. split; [reflexivity|].
  split. { intro Z. assert (s = izero) as -> by (unfold s; rewrite Z; apply (lin_zero _ LPs)).
    rewrite (lin_zero BB LB). veq. }
  intro NO.
  set (Psi' := fun v => isub (Psi v) (iscale om (BB (Psi v)))).
  destruct (BP_low BB LB rr0 (S k) k AL ltac:(lia)) as (f & Hf & Ef).
  pose proof (alp_nz BB rr0 (S k) k AL ltac:(lia)) as NA.
  set (l' := fun v => iadd (iadd (iscale c (P k v)) (iscale 1 (l v))) (iscale (- om) (iadd (iscale c (f v)) (iscale 1 (BB (l v)))))).
  assert (HL' : low BB rr0 (S k) l').
  { apply (low_add BB rr0 (S k) (fun v => iadd (iscale c (P k v)) (iscale 1 (l v)))
      (fun v => iadd (iscale c (f v)) (iscale 1 (BB (l v)))) _ 1 (- om)).
    - apply (low_add BB rr0 (S k) (P k) l _ c 1); [apply low_P; lia| |reflexivity]. eapply low_mono; [|exact HL]. lia.
    - apply (low_add BB rr0 (S k) f (mulB BB l) _ c 1); [exact Hf| |reflexivity]. exact (B_low BB LB rr0 k l AK HL).
    - intro v. unfold l'. veq. }
  assert (EP' : forall v, Psi' v = iadd (iscale (c * om / alp k) (P (S k) v)) (l' v)).
  { intro v. unfold Psi', l'. rewrite EP, (lin_add BB LB), (lin_scale BB LB), Ef.
    apply ip_ext. intro w. ipx. field. exact NA. }
  assert (HP' : poly BB Psi').
  { apply (po_lin BB Psi' Psi (mulB BB Psi) 1 (- om)); auto using poly_mulB. intro v. unfold Psi', mulB. veq. }
  assert (LP' := poly_lin BB LB Psi' HP').
  assert (ER' : isub s (iscale om (BB s)) = Psi' (P (S k) rr0)) by reflexivity.
  assert (NC' : c * om / alp k <> 0).
  { unfold Rdiv. repeat apply Rmult_integral_contrapositive_currified; auto. now apply Rinv_neq_0_compat. }
  assert (S0 : ip rr0 s = 0).
  { unfold s. rewrite EP. ipx.
    destruct (orth BB LB rr0 (S k) AL k (S k) ltac:(lia)) as [O1 _]. unfold F in O1. rewrite O1.
    destruct (low_F BB LB rr0 (S k) l AL) as [O2 _]; [eapply low_mono; [|exact HL]; lia|]. unfold F in O2. rewrite O2. ring. }
  assert (RH : - om * ip rr0 (BB s) = c * om / alp k * rho (S k)).
  { destruct (low_F BB LB rr0 (S k) l' AL HL') as [O2 _]. unfold F in O2.
    assert (X : ip rr0 (isub s (iscale om (BB s))) = c * om / alp k * rho (S k)).
    { rewrite ER', EP'. ipx. rewrite O2. unfold rho, F. ring. }
    rewrite <- X. ipx. rewrite S0. ring. }
  exists Psi', l', (c * om / alp k).
  split; [exact HP'|]. split; [exact HL'|]. split; [exact EP'|]. split; [exact NC'|].
  cbn [b_r b_rhon]. split; [exact ER'|]. split; [exact RH|].
  unfold bi_p. cbn [b_rhon b_rho b_alpha b_omega b_p b_v b_r]. rewrite RH, ER'.
  assert (EB : dv (dv (c * om / alp k * rho (S k)) (c * rho k) * alp k) om = bet k).
  { rewrite (DV _ om NO). rewrite DV by (apply Rmult_integral_contrapositive_currified; auto).
    unfold bet. field. auto. }
  rewrite EB. rewrite (Q_S BB rr0 k rr0), (lin_add _ LP'), (lin_scale _ LP'). unfold Psi'. veq.
Qed.

Notation gw := (@gw KK WW kw).
Lemma finite_at : forall n, kdim BB rr0 n -> nobreak n -> (forall j, (j < n)%nat -> P j rr0 <> izero) -> P n rr0 = izero.
Proof.
  intros n D NB NZ. apply (finite BB LB rr0 n D). intros i Li. apply NB; auto. intros j Lj. apply NZ. lia.
Qed.

Lemma bi_reach_at : forall n cnt k st, kdim BB rr0 n -> nobreak n -> 0 <= (q_abstol q : R) -> (2 * n <= mx)%nat ->
  (forall i s, @bi_reach KK WW q b kw cnt (S i) s -> b_fin s = false -> b_omega s <> 0 :> R) ->
  (k <= n)%nat -> @bi_reach KK WW q b kw cnt k st ->
  (b_fin st = false -> bi_at k st /\ b_nmv st = (2 * k + gw)%nat /\ (forall j, (j <= k)%nat -> P j rr0 <> izero)) /\
  (b_fin st = true -> b_res st <= th /\ (b_nmv st <= Nat.max gw (2 * n))%nat).
Proof.
  intros n cnt k st D NB AT MX NO. revert st. unfold bi_reach in *.
  pose proof (start_r_is cnt) as ES. destruct (start_r q kw b cnt) as [r0 c0]. cbn [fst] in ES. subst r0.
  assert (RN : sabs (ssqrt (vdot (rr0 : vc WW) rr0)) = inorm rr0) by (apply (sq_norm sq E SQ)).
  rewrite RN in *. pose proof (th_pos (inorm rr0) AT) as T0.
  change (match w_guess kw with Some _ => 1%nat | None => 0%nat end) with gw in *.
  assert (GW : (gw <= 1)%nat) by (unfold KrylovProof.gw; destruct (w_guess kw); lia).
  induction k as [|k IH]; intros st L R.
  - cbn [rounds] in R. injection R as <-. cbn [b_r b_nmv b_res b_fin]. split.
    + intro C. apply orb_false_elim in C as [C _]. apply Rleb_false in C. split; [|split; [lia|]].
      * exists (fun v => v), (fun _ => izero), 1. split; [apply po_id; reflexivity|].
        split; [now apply lo_0|]. split; [intro v; rewrite P_0; veq|]. split; [lra|].
        split; [reflexivity|]. split; [unfold KrylovPoly.rho, F; cbn; ring|].
        unfold bi_p. cbn [b_rhon b_rho b_alpha b_omega b_p b_v b_r vzeros exactVn]. rewrite Q_0. veq.
      * intros j Lj. assert (j = 0)%nat as -> by lia. rewrite P_0. exact (norm_nz _ _ T0 C).
    + intro C. split; [|lia]. apply orb_true_elim in C. destruct C as [C|C]; [now apply Rleb_true|].
      apply Nat.leb_le in C. assert (n = 0)%nat as -> by lia.
      assert (Z : P 0 rr0 = izero) by (apply (finite_at 0 D NB); lia). rewrite P_0 in Z. rewrite Z, inorm_izero.
      rewrite Z, inorm_izero in T0. exact T0.
  - assert (R' := R). cbn [rounds] in R. destruct (rounds _ _ k _) as [s|]; [|discriminate].
    destruct (IH s ltac:(lia) eq_refl) as [I1 _].
    destruct (b_fin s) eqn:FS; cbn [negb] in R; [discriminate|].
    destruct (I1 eq_refl) as (AT1 & N1 & Z1).
    assert (LK := nz_lt n k D NB ltac:(lia) Z1).
    assert (AL := nobreak_alive n k NB LK Z1).
    destruct (bi_step _ k s st AT1 AL R) as (sv & SZ & C).
    assert (LAST : th < inorm sv -> (S k < n)%nat).
    { intro T. destruct (Nat.eq_dec (S k) n) as [EN|]; [exfalso|lia].
      assert (Z : P (S k) rr0 = izero).
      { rewrite EN. apply (finite_at n D NB). intros j Lj. apply Z1. lia. }
      rewrite (SZ Z), inorm_izero in T. lra. }
    destruct C as [(C1 & C2 & C3 & C4)|[(C1 & C2)|(C1 & C2 & C3 & C4 & C5 & C6 & C7)]].
    + split; [rewrite C2; discriminate|]. intros _. rewrite C3. split; [exact C1|lia].
    + specialize (LAST C1). lia.
    + specialize (LAST C1). split.
      * intro C. specialize (NO k st R' C). split; [apply C7; exact NO|]. split; [lia|].
        intros j Lj. destruct (Nat.eq_dec j (S k)) as [->|]; [|apply Z1; lia].
        intro Z. rewrite C4 in C. apply orb_false_elim in C as [C _]. apply Rleb_false in C.
        rewrite C5, (C6 Z), inorm_izero in C. lra.
      * intro C. split; [|lia]. rewrite C4 in C. apply orb_true_elim in C. destruct C as [C|C]; [now apply Rleb_true|].
        apply Nat.leb_le in C. lia.
Qed.

Lemma bi_term : forall n fuel cnt o cnt', kdim BB rr0 n -> nobreak n -> 0 <= (q_abstol q : R) -> (2 * n <= mx)%nat ->
  (forall i s, @bi_reach KK WW q b kw cnt (S i) s -> b_fin s = false -> b_omega s <> 0 :> R) ->
  bi_solve fuel q (b : vc WW) kw cnt = Ok (o, cnt') ->
  o_conv o = true /\ (o_nmv o <= Nat.max gw (2 * n))%nat.
Proof.
  intros n fuel cnt o cnt' D NB AT MX NO H.
  pose proof (fun k st => bi_reach_at n cnt k st D NB AT MX NO) as RA. clear NO.
  unfold bi_reach in RA. unfold bi_solve in H.
  pose proof (start_r_is cnt) as ES. destruct (start_r q kw b cnt) as [r0 c0]. cbn [fst] in ES. subst r0.
  assert (RN : sabs (ssqrt (vdot (rr0 : vc WW) rr0)) = inorm rr0) by (apply (sq_norm sq E SQ)).
  rewrite RN in *.
  destruct (while _ _ _ _) as [st|] eqn:EW; [|discriminate]. injection H as <- <-. cbn [o_conv o_nmv].
  destruct (while_rounds _ _ _ _ _ EW) as (k & _ & R & C). apply negb_false_iff in C.
  assert (LK : (k <= n)%nat).
  { destruct (le_lt_dec k n) as [|GT]; [auto|exfalso].
    destruct (rounds_pre _ _ n k _ _ R GT) as (t & Rt & Ct). apply negb_true_iff in Ct.
    destruct (RA n t (le_n n) Rt) as [X _]. destruct (X Ct) as (_ & _ & Z).
    pose proof (nz_lt n n D NB (le_n n) Z). lia. }
  destruct (RA k st LK R) as [_ X]. destruct (X C) as [X1 X2]. split; [now apply Rleb_true|exact X2].
Qed.

(** The stabilisation never breaks down when the form of the operator is definite. *)
Lemma bi_omega : (forall v, v <> izero -> ip (BB v) v <> 0) -> 0 <= (q_abstol q : R) ->
  forall cnt i s, @bi_reach KK WW q b kw cnt (S i) s -> b_fin s = false -> b_omega s <> 0 :> R.
Proof.
  intros DEF AT cnt i s R F. unfold bi_reach in R.
  pose proof (start_r_is cnt) as ES. destruct (start_r q kw b cnt) as [r0 c0]. cbn [fst] in ES. subst r0.
  assert (RN : sabs (ssqrt (vdot (rr0 : vc WW) rr0)) = inorm rr0) by (apply (sq_norm sq E SQ)).
  rewrite RN in *. pose proof (th_pos (inorm rr0) AT) as T0.
  cbn [rounds] in R. destruct (rounds _ _ i _) as [t|]; [|discriminate]. destruct (negb (b_fin t)); [|discriminate].
  unfold bi_body, opmul in R. cbv beta iota zeta in R. cbn in R.
  match type of R with context [Rleb (inorm ?x) _] => set (sv := x) in R end.
  destruct (Rleb (inorm sv) th) eqn:T; [injection R as <-; discriminate F|]. apply Rleb_false in T.
  destruct (mx <=? _)%nat; [injection R as <-; discriminate F|]. injection R as <-. cbn [b_omega].
  change (q_A q (prec q sv)) with (BB sv). clear F.
  assert (NZ := norm_nz _ _ T0 T). specialize (DEF sv NZ).
  assert (NB : BB sv <> izero) by (intro Z; apply DEF; rewrite Z; apply ip_zerol).
  assert (N2 := ip_nz _ NB). rewrite DV by lra. unfold Rdiv.
  apply Rmult_integral_contrapositive_currified; [exact DEF|]. apply Rinv_neq_0_compat. lra.
Qed.

(** ** TFQMR *)
Definition tf_at (k : nat) (st : tf_st WW) : Prop :=
  t_w st = P k (P k rr0) :> iv E /\ t_y st = P k (Q k rr0) :> iv E /\ t_u st = BB (P k (Q k rr0)) :> iv E /\
  t_v st = BB (Q k (Q k rr0)) :> iv E /\ t_rho st = rho k :> R /\ 0 < (t_res st : R) /\
  t_nmv st = (2 * k + 1)%nat.

Lemma tf_pass_zero : forall (al : R) (w u d z x : iv E) (theta eta rs : R) (w' d' : iv E) (theta' rs' eta' : R) (x' : iv E),
  0 < rs -> @tf_pass KK WW al w u d z x theta eta rs = (w', d', theta', rs', eta', x') ->
  w' = isub w (iscale al u) /\ 0 <= rs' /\ (w' = izero -> rs' = 0) /\ (0 < rs' \/ rs' = 0).
Proof.
  intros al w u d z x theta eta rs w' d' theta' rs' eta' x' RP H.
  unfold tf_pass in H. cbv beta iota zeta in H. cbn in H. injection H as <- _ _ <- _ _.
  set (v := isub w (iscale al u)). split; [reflexivity|].
  rewrite !(DV (inorm v) rs) by lra. set (t := inorm v / rs).
  assert (T0 : 0 <= t) by (unfold t; apply Rle_mult_inv_pos; [apply inorm_pos|exact RP]).
  assert (P1 : 0 < 1 + t * t) by nra.
  assert (SP : 0 < sqrt (1 + t * t)) by (apply sqrt_lt_R0; exact P1).
  rewrite SQ by lra. rewrite DV by lra.
  assert (C0 : 0 < 1 / sqrt (1 + t * t)) by (apply Rdiv_lt_0_compat; lra).
  assert (RS : 0 <= rs * (t * (1 / sqrt (1 + t * t)))) by (apply Rmult_le_pos; [lra|]; apply Rmult_le_pos; lra).
  split; [exact RS|]. split; [|destruct RS; auto].
  intro Z. unfold t. rewrite Z, inorm_izero. unfold Rdiv at 1 2. ring.
Qed.

Lemma tf_test_R : forall (th rs m : R) nm, @tf_test KK th mx rs m nm = Rltb (rs * sq (m + 1)) th || (mx <=? nm)%nat.
Proof. reflexivity. Qed.
Lemma tf_step : forall th k st st', 0 < th -> tf_at k st -> rho k <> 0 -> sig k <> 0 -> (2 * k + 1 <= mx)%nat ->
  tf_body q (rr0 : vc WW) th mx st = Ok st' ->
  (P (S k) rr0 = izero -> t_fin st' = true) /\
  (t_fin st' = false -> tf_at (S k) st' /\ (2 * S k < mx)%nat) /\
  (t_fin st' = true -> exists m, t_m st' = Some m /\
     (t_res st' * sq (m + 1) < th \/ (P (S k) rr0 <> izero /\ (mx <= t_nmv st')%nat)) /\
     (t_nmv st' <= 2 * k + 2)%nat /\ (P (S k) rr0 = izero -> t_nmv st' = 2 * k + 1)%nat).
Proof.
  intros th0 k st st' TP (H1 & H2 & H3 & H4 & H5 & H6 & H7) NR NS HMX H.
  unfold tf_body, opmul in H. cbv beta iota zeta in H.
  rewrite H4, H5 in H.
  assert (EAL : @sdiv KK (rho k) (@vdot KK WW rr0 (BB (Q k (Q k rr0)))) = alp k).
  { cbn. rewrite sig_alt, (DV _ _ NS). reflexivity. }
  rewrite EAL in H.
  destruct (tf_pass _ _ _ _ _ _ _ _ _) as [[[[[w d] theta] rn] eta] x] eqn:T1.
  apply tf_pass_zero in T1; [|exact H6]. destruct T1 as (W1 & R1 & Z1 & D1).
  rewrite H1, H3 in W1.
  assert (EW : w = P (S k) (P k rr0)).
  { rewrite W1, (P_S BB rr0 k (P k rr0)), (comm (P k) (HP k) (Q k) (HQ k)). reflexivity. }
  set (m1 := @ssub KK _ _) in H.
  assert (TT : forall m : R, rn = 0 -> Rltb (rn * sq (m + 1)) th0 = true).
  { intros m ->. apply Rltb_true. rewrite Rmult_0_l. exact TP. }
  assert (WZ : P (S k) rr0 = izero -> rn = 0).
  { intro Z. apply Z1. rewrite EW, (comm (P (S k)) (HP (S k)) (P k) (HP k)), Z. apply (lin_zero _ (PP k)). }
  destruct (@tf_test KK th0 mx rn m1 (t_nmv st)) eqn:B1.
  { injection H as <-. cbn [t_fin t_m t_res t_nmv]. split; [reflexivity|]. split; [discriminate|]. intros _.
    exists m1. split; [reflexivity|]. split; [|split; [lia|intros _; exact H7]].
    destruct (Rltb (rn * sq (m1 + 1)) th0) eqn:TR; [left; now apply Rltb_true|].
    right. split; [intro Z; rewrite (TT m1 (WZ Z)) in TR; discriminate|].
    rewrite tf_test_R in B1. rewrite TR in B1. cbn [orb] in B1. now apply Nat.leb_le. }
  assert (NZ : P (S k) rr0 <> izero).
  { intro Z. rewrite tf_test_R in B1. rewrite (TT m1 (WZ Z)) in B1. discriminate. }
  assert (RP : 0 < rn).
  { destruct D1 as [D1|D1]; [exact D1|]. rewrite tf_test_R in B1. rewrite (TT m1 D1) in B1. discriminate. }
  assert (MN : (t_nmv st < mx)%nat).
  { unfold tf_test in B1. apply orb_false_elim in B1 as [_ B1]. now apply Nat.leb_gt. }
  destruct (tf_pass _ _ _ _ _ _ _ _ _) as [[[[[w' d'] theta'] rn'] eta'] x'] eqn:T2.
  apply tf_pass_zero in T2; [|exact RP]. destruct T2 as (W2 & R2 & Z2 & D2).
  cbn [vsub vscale vadd exactVn] in H, W2. rewrite H2 in H, W2.
  assert (EY : isub (P k (Q k rr0)) (iscale (alp k) (BB (Q k (Q k rr0)))) = P (S k) (Q k rr0)) by reflexivity.
  rewrite EY in H, W2. change (q_A q (prec q (P (S k) (Q k rr0)))) with (BB (P (S k) (Q k rr0))) in *.
  assert (EW2 : w' = P (S k) (P (S k) rr0)).
  { rewrite W2, EW. rewrite (P_S BB rr0 k rr0), (lin_sub _ (PP (S k))), (lin_scale _ (PP (S k))).
    rewrite (poly_B BB LB (P (S k)) (HP (S k))). reflexivity. }
  set (m2 := @sadd KK m1 s1) in H.
  destruct (@tf_test KK th0 mx rn' m2 (t_nmv st + 1)) eqn:B2.
  { injection H as <-. cbn [t_fin t_m t_res t_nmv]. split; [reflexivity|]. split; [discriminate|]. intros _.
    exists m2. split; [reflexivity|]. split; [|split; [lia|intro Z; contradiction]].
    rewrite tf_test_R in B2. destruct (Rltb (rn' * sq (m2 + 1)) th0) eqn:TR; [left; now apply Rltb_true|].
    right. split; [exact NZ|]. cbn [orb] in B2. now apply Nat.leb_le. }
  injection H as <-. cbn [t_fin]. split; [intro Z; contradiction|]. split; [|discriminate]. intros _.
  assert (RP' : 0 < rn').
  { destruct D2 as [D2|D2]; [exact D2|]. rewrite tf_test_R in B2. exfalso.
    assert (X : Rltb (rn' * sq (m2 + 1)) th0 = true) by (apply Rltb_true; rewrite D2, Rmult_0_l; exact TP).
    rewrite X in B2. discriminate. }
  unfold tf_test in B2. apply orb_false_elim in B2 as [_ B2]. apply Nat.leb_gt in B2.
  split; [|lia]. unfold tf_at. cbn [t_w t_y t_u t_v t_rho t_res t_nmv].
  rewrite EW2.
  assert (EB : dv (ip rr0 (P (S k) (P (S k) rr0))) (rho k) = bet k).
  { rewrite (DV _ _ NR). reflexivity. }
  rewrite EB.
  assert (EY2 : iadd (iscale (bet k) (P (S k) (Q k rr0))) (P (S k) (P (S k) rr0)) = P (S k) (Q (S k) rr0)).
  { rewrite (Q_S BB rr0 k rr0), (lin_add _ (PP (S k))), (lin_scale _ (PP (S k))). veq. }
  rewrite EY2. change (q_A q (prec q (P (S k) (Q (S k) rr0)))) with (BB (P (S k) (Q (S k) rr0))).
  split; [reflexivity|]. split; [reflexivity|]. split; [reflexivity|].
  split. { rewrite (Q_S BB rr0 k (Q (S k) rr0)). rewrite (lin_add BB LB), (lin_scale BB LB).
    rewrite (Q_S BB rr0 k rr0) at 3. rewrite (lin_add _ (QQ k)), (lin_scale _ (QQ k)).
    rewrite (comm (Q k) (HQ k) (P (S k)) (HP (S k))), (lin_add BB LB), (lin_scale BB LB). veq. }
  split; [reflexivity|]. split; [exact RP'|]. lia.
Qed.

Lemma tf_reach_at : forall n cnt k st, kdim BB rr0 n -> nobreak n -> 0 < th -> (2 * n <= mx + 1)%nat ->
  th < inorm rr0 -> (k <= n)%nat -> tf_reach dv sq E q b kw cnt k st ->
  (t_fin st = false -> tf_at k st /\ (forall j, (j <= k)%nat -> P j rr0 <> izero)) /\
  (t_fin st = true -> exists m, t_m st = Some m /\ t_res st * sq (m + 1) < th /\ (t_nmv st + 1 <= 2 * n)%nat).
Proof.
  intros n cnt k st D NB T0 MX NC. revert st. unfold tf_reach.
  pose proof (start_r_is cnt) as ES. destruct (start_r q kw b cnt) as [r0 c0]. cbn [fst] in ES. subst r0.
  assert (RN : sabs (ssqrt (vdot (rr0 : vc WW) rr0)) = inorm rr0) by (apply (sq_norm sq E SQ)).
  rewrite RN in *.
  assert (NZ0 : rr0 <> izero) by (apply (norm_nz rr0 th); lra).
  assert (N0 : (0 < n)%nat).
  { destruct n; [exfalso|lia]. apply NZ0. rewrite <- (P_0 BB rr0 rr0). apply (finite_at 0 D NB). lia. }
  induction k as [|k IH]; intros st L R.
  - cbn [rounds] in R. unfold tf_init in R. cbn [sleb exactK] in R.
    assert (X : Rleb (inorm rr0) th || (mx <=? 0)%nat = false).
    { apply orb_false_intro; [now apply Rleb_false|apply Nat.leb_gt; lia]. }
    rewrite X in R. unfold opmul in R. injection R as <-. cbn [t_fin]. split; [|discriminate]. intros _. split.
    + unfold tf_at. cbn [t_w t_y t_u t_v t_rho t_res t_nmv]. split; [reflexivity|]. split; [reflexivity|].
      split; [reflexivity|]. split; [reflexivity|]. split; [reflexivity|]. split; [lra|reflexivity].
    + intros j Lj. assert (j = 0)%nat as -> by lia. exact NZ0.
  - cbn [rounds] in R. destruct (rounds _ _ k _) as [s|]; [|discriminate].
    destruct (IH s ltac:(lia) eq_refl) as [I1 _].
    destruct (t_fin s) eqn:FS; cbn [negb] in R; [discriminate|].
    destruct (I1 eq_refl) as (AT1 & Z1).
    assert (LK := nz_lt n k D NB ltac:(lia) Z1).
    destruct (NB k LK) as [NR NS]; [exact Z1|].
    destruct (tf_step th k s st T0 AT1 NR NS ltac:(lia) R) as (C1 & C2 & C3).
    assert (LAST : P (S k) rr0 <> izero -> (S k < n)%nat).
    { intro Z. apply nz_lt; auto. intros j Lj. destruct (Nat.eq_dec j (S k)) as [->|]; [exact Z|]. apply Z1. lia. }
    split.
    + intro F. destruct (C2 F) as [A1 _]. split; [exact A1|]. intros j Lj.
      destruct (Nat.eq_dec j (S k)) as [->|]; [|apply Z1; lia]. intro Z. rewrite (C1 Z) in F. discriminate.
    + intro F. destruct (C3 F) as (m & M1 & M2 & M3 & M4). exists m. split; [exact M1|].
      destruct M2 as [M2|[M2 M2']]; [|specialize (LAST M2); lia].
      split; [exact M2|]. destruct (Req_dec (ip (P (S k) rr0) (P (S k) rr0)) 0) as [Z|Z].
      * apply ip_def in Z. specialize (M4 Z). lia.
      * assert ((S k < n)%nat) by (apply LAST; intro Z'; apply Z; rewrite Z'; apply ip_zero). lia.
Qed.

Lemma tf_term : forall n fuel cnt o cnt', kdim BB rr0 n -> nobreak n -> 0 < th -> (2 * n <= mx + 1)%nat ->
  tf_solve fuel q (b : vc WW) kw cnt = Ok (o, cnt') ->
  o_conv o = true /\ (o_nmv o + 1 <= 2 * n)%nat /\ inorm (isub b (A (o_x o))) < th.
Proof.
  intros n fuel cnt o cnt' D NB T0 MX H. assert (H' := H).
  assert (NC : th < inorm rr0).
  { destruct (Rlt_dec th (inorm rr0)) as [|N]; [assumption|exfalso].
    unfold tf_solve in H. pose proof (start_r_is cnt) as ES. destruct (start_r q kw b cnt) as [r0 c0].
    cbn [fst] in ES. subst r0.
    assert (RN : sabs (ssqrt (vdot (rr0 : vc WW) rr0)) = inorm rr0) by (apply (sq_norm sq E SQ)).
    rewrite RN in *. unfold tf_init in H. cbn [sleb exactK] in H.
    assert (X : Rleb (inorm rr0) th = true) by (apply Rleb_true; lra). rewrite X in H. cbn [orb] in H.
    destruct fuel; [discriminate|]. cbn [while t_fin negb t_m] in H. discriminate. }
  pose proof (fun k st => tf_reach_at n cnt k st D NB T0 MX NC) as RA.
  assert (KN : forall k st, tf_reach dv sq E q b kw cnt k st -> (k <= n)%nat).
  { intros k st R. destruct (le_lt_dec k n) as [|GT]; [auto|exfalso].
    pose proof (RA n) as RN. unfold tf_reach in R, RN. destruct (start_r q kw b cnt) as [r0 c0].
    destruct (rounds_pre _ _ n k _ _ R GT) as (t & Rt & Ct). apply negb_true_iff in Ct.
    destruct (RN t (le_n n) Rt) as [X _]. destruct (X Ct) as (_ & Z).
    pose proof (nz_lt n n D NB (le_n n) Z). lia. }
  assert (AL : forall k st, tf_reach dv sq E q b kw cnt k st -> t_fin st = false ->
     dv (t_rho st) (ip (isub b (A (@start_x KK WW kw b))) (t_v st)) <> 0).
  { intros k st R F. pose proof (KN k st R) as LK. destruct (RA k st LK R) as [X _]. destruct (X F) as (AT1 & Z).
    pose proof (nz_lt n k D NB LK Z) as LT. destruct (NB k LT Z) as [NR NS].
    destruct AT1 as (_ & _ & _ & H4 & H5 & _). rewrite H4, H5. fold rr0. rewrite sig_alt, (DV _ _ NS).
    unfold Rdiv. apply Rmult_integral_contrapositive_currified; [exact NR|]. now apply Rinv_neq_0_compat. }
  destruct (tf_exact dv sq E SQ q b kw LA DV fuel cnt o cnt' AL H') as (_ & _ & _ & X4). fold rr0 in X4.
  rewrite <- th_is in X4.
  assert (G : o_conv o = true /\ (o_nmv o + 1 <= 2 * n)%nat).
  { unfold tf_solve in H. clear AL H'. unfold tf_reach in RA, KN.
    pose proof (start_r_is cnt) as ES. destruct (start_r q kw b cnt) as [r0 c0]. cbn [fst] in ES. subst r0.
    assert (RN : sabs (ssqrt (vdot (rr0 : vc WW) rr0)) = inorm rr0) by (apply (sq_norm sq E SQ)).
    rewrite RN in *.
    destruct (while _ _ _ _) as [st|] eqn:EW; [|discriminate].
    destruct (while_rounds _ _ _ _ _ EW) as (k & _ & R & C). apply negb_false_iff in C.
    destruct (RA k st (KN k st R) R) as [_ X]. destruct (X C) as (m & M1 & M2 & M3).
    rewrite M1 in H. injection H as <- <-. cbn [o_conv o_nmv]. split; [|exact M3].
    apply Rltb_true. exact M2. }
  destruct G as [G1 G2]. split; [exact G1|]. split; [exact G2|]. exact (X4 G1).
Qed.
End Term.
