(** * Proofs about CGS, BiCGSTAB and TFQMR. *)
From Coq Require Import List ZArith QArith Qreals Reals Lia Lra Bool.
From Verif Require Import Base Num ToolsModel CgModel CgProof KrylovModel.
Import ListNotations.

(** ** Any arithmetic. *)
Section Flow.
Context {K : Scal} {W : Vs K}.
Notation S := (sc K).
Notation V := (vc W).
Variables (q : kprob W) (rhs : V) (kw : kkw W).
Notation mx := (mmax (w_mmax kw) rhs).
Definition gw : nat := match w_guess kw with Some _ => 1 | None => 0 end.

Lemma start_r_cnt : forall cnt, snd (start_r q kw rhs cnt) = (cnt + gw)%nat.
Proof. intro. unfold start_r, gw, opmul. destruct (w_guess kw); cbn; lia. Qed.

(** *** CGS *)
Definition cgs_flow (r0 : V) (c0 : nat) (th : S) (st : cgs_st W) : Prop :=
  s_cnt st = (c0 + s_nmv st)%nat /\ Nat.Even (s_nmv st) /\ (s_nmv st <= mx + 1)%nat /\
  (s_fin st = false -> (s_nmv st < mx)%nat).

Lemma cgs_step_flow : forall r0 c0 th st st', cgs_flow r0 c0 th st -> s_fin st = false ->
  cgs_body q r0 th mx st = Ok st' -> cgs_flow r0 c0 th st' /\ s_nmv st' = (s_nmv st + 2)%nat.
Proof.
  intros r0 c0 th st st' (H1 & [e H2] & H3 & H4) F H. specialize (H4 F).
  unfold cgs_body, opmul in H. cbv beta iota zeta in H.
  destruct (sleb _ th || (mx <=? _)%nat) eqn:B; injection H as <-;
    unfold cgs_flow; cbn [s_cnt s_nmv s_fin]; (split; [|lia]).
  - split; [lia|]. split; [exists (e + 1)%nat; lia|]. split; [lia|discriminate].
  - apply orb_false_elim in B as [_ B]. apply Nat.leb_gt in B.
    split; [lia|]. split; [exists (e + 1)%nat; lia|]. split; [lia|]. intros _. lia.
Qed.

Lemma cgs_body_ok : forall r0 th st, exists st', cgs_body q r0 th mx st = Ok st'.
Proof. intros. unfold cgs_body, opmul. cbv beta iota zeta. destruct (_ || _); eauto. Qed.

Lemma cgs_flow_spec : forall fuel cnt, (mx + 1 < fuel)%nat ->
  exists o cnt', cgs_solve fuel q rhs kw cnt = Ok (o, cnt') /\
    cnt' = (cnt + gw + o_nmv o)%nat /\ Nat.Even (o_nmv o) /\ (o_nmv o <= mx + 1)%nat.
Proof.
  intros fuel cnt HF. unfold cgs_solve.
  assert (C := start_r_cnt cnt). destruct (start_r q kw rhs cnt) as [r0 c0]. cbn in C. subst c0.
  set (rn := sabs (ssqrt (vdot r0 r0))). set (th := thr q rn).
  set (st := mkcgs (start_x kw rhs) r0 r0 r0 (vdot r0 r0) rn 0 (cnt + gw) (sleb rn th || (mx <=? 0)%nat)).
  assert (I0 : cgs_flow r0 (cnt + gw) th st).
  { unfold cgs_flow, st. cbn [s_cnt s_nmv s_fin]. split; [lia|]. split; [exists 0%nat; reflexivity|].
    split; [lia|]. intro F. apply orb_false_elim in F as [_ F]. apply Nat.leb_gt in F. exact F. }
  destruct (while_term (fun st => negb (s_fin st)) (cgs_body q r0 th mx) (cgs_flow r0 (cnt + gw) th)
    (fun st => if s_fin st then 0 else mx - s_nmv st + 1)%nat) with (fuel := fuel) (s := st) as [st' E].
  - intros s I C. apply negb_true_iff in C. destruct (cgs_body_ok r0 th s) as [s' E]. exists s'.
    destruct (cgs_step_flow _ _ _ _ _ I C E) as [I' N]. split; [exact E|]. split; [exact I'|].
    rewrite C. destruct (s_fin s') eqn:F; [lia|]. destruct I' as (_ & _ & _ & L). specialize (L F). lia.
  - exact I0.
  - unfold st. cbn. destruct (_ || _); lia.
  - rewrite E.
    apply while_inv with (I := cgs_flow r0 (cnt + gw) th) in E; [|intros s s' I C B|exact I0].
    + destruct E as [(H1 & H2 & H3 & _) _]. eexists _, _. split; [reflexivity|]. cbn. auto.
    + apply negb_true_iff in C. eapply cgs_step_flow; eauto.
Qed.

(** *** BiCGSTAB *)
Definition bi_flow (c0 : nat) (st : bi_st W) : Prop :=
  (b_cnt st + gw = c0 + gw + b_nmv st)%nat /\ (b_nmv st <= Nat.max gw mx)%nat /\
  (b_fin st = false -> (b_nmv st < mx)%nat).

Lemma bi_step_flow : forall r0 c0 th st st', bi_flow c0 st -> b_fin st = false ->
  bi_body q r0 th mx st = Ok st' -> bi_flow c0 st' /\ (b_nmv st < b_nmv st')%nat.
Proof.
  intros r0 c0 th st st' (H2 & H3 & H4) F H. specialize (H4 F).
  unfold bi_body, opmul in H. cbv beta iota zeta in H.
  destruct (sleb _ th); [|destruct (mx <=? _)%nat eqn:B]; injection H as <-;
    unfold bi_flow; cbn [b_cnt b_nmv b_fin].
  - split; [|lia]. split; [lia|]. split; [lia|discriminate].
  - split; [|lia]. split; [lia|]. split; [lia|discriminate].
  - apply Nat.leb_gt in B. split; [|lia]. split; [lia|]. split; [lia|].
    intro G. apply orb_false_elim in G as [_ G]. apply Nat.leb_gt in G. exact G.
Qed.

Lemma bi_body_ok : forall r0 th st, exists st', bi_body q r0 th mx st = Ok st'.
Proof.
  intros. unfold bi_body, opmul. cbv beta iota zeta. destruct (sleb _ _); [eauto|].
  destruct (mx <=? _)%nat; eauto.
Qed.

Lemma bi_flow_spec : forall fuel cnt, (mx + 1 < fuel)%nat ->
  exists o cnt', bi_solve fuel q rhs kw cnt = Ok (o, cnt') /\
    cnt' = (cnt + o_nmv o)%nat /\ (o_nmv o <= Nat.max gw mx)%nat.
Proof.
  intros fuel cnt HF. unfold bi_solve.
  assert (C := start_r_cnt cnt). destruct (start_r q kw rhs cnt) as [r0 c0]. cbn in C. subst c0.
  set (rn := sabs (ssqrt (vdot r0 r0))). set (th := thr q rn).
  change (match w_guess kw with Some _ => 1%nat | None => 0%nat end) with gw.
  set (st := mkbi (start_x kw rhs) r0 (vzeros (vlen rhs)) (vzeros (vlen rhs)) s1 (vdot r0 r0) s1 s1 rn gw
              (cnt + gw) (sleb rn th || (mx <=? gw)%nat)).
  assert (I0 : bi_flow cnt st).
  { unfold bi_flow, st. cbn [b_cnt b_nmv b_fin]. split; [lia|].
    split; [lia|]. intro F. apply orb_false_elim in F as [_ F]. apply Nat.leb_gt in F. exact F. }
  destruct (while_term (fun st => negb (b_fin st)) (bi_body q r0 th mx) (bi_flow cnt)
    (fun st => if b_fin st then 0 else mx - b_nmv st + 1)%nat) with (fuel := fuel) (s := st) as [st' E].
  - intros s I C. apply negb_true_iff in C. destruct (bi_body_ok r0 th s) as [s' E]. exists s'.
    destruct (bi_step_flow _ _ _ _ _ I C E) as [I' N]. split; [exact E|]. split; [exact I'|].
    rewrite C. destruct (b_fin s') eqn:F; [lia|]. destruct I' as (_ & _ & L). specialize (L F). lia.
  - exact I0.
  - unfold st. cbn. destruct (_ || _); lia.
  - rewrite E.
    apply while_inv with (I := bi_flow cnt) in E; [|intros s s' I C B|exact I0].
    + destruct E as [(H1 & H2 & _) _]. eexists _, _. split; [reflexivity|]. cbn. split; [lia|exact H2].
    + apply negb_true_iff in C. eapply bi_step_flow; eauto.
Qed.

(** *** TFQMR *)
Definition tf_flow (c0 : nat) (st : tf_st W) : Prop :=
  t_cnt st = (c0 + t_nmv st)%nat /\ (t_nmv st <= mx)%nat /\
  (t_fin st = true -> t_m st = None -> t_k st = 0%nat) /\ (t_m st = None <-> t_k st = 0%nat).

Lemma tf_step_flow : forall r0 c0 th st st', tf_flow c0 st -> t_fin st = false ->
  tf_body q r0 th mx st = Ok st' ->
  tf_flow c0 st' /\ t_k st' = (t_k st + 1)%nat /\
  (t_fin st' = false -> (t_nmv st' = t_nmv st + 2)%nat).
Proof.
  intros r0 c0 th st st' (H1 & H2 & H3 & H4) F H.
  unfold tf_body, opmul in H. cbv beta iota zeta in H.
  destruct (tf_pass _ _ _ _ _ _ _ _ _) as [[[[[w d] theta] rn] eta] x].
  destruct (tf_test th mx rn _ (t_nmv st)) eqn:B1.
  - injection H as <-. unfold tf_flow. cbn [t_cnt t_nmv t_fin t_m t_k].
    split; [|split; [lia|discriminate]]. split; [lia|]. split; [lia|].
    split; [discriminate|]. split; [discriminate|lia].
  - unfold tf_test in B1. apply orb_false_elim in B1 as [_ B1]. apply Nat.leb_gt in B1.
    destruct (tf_pass _ _ _ _ _ _ _ _ _) as [[[[[w' d'] theta'] rn'] eta'] x'].
    destruct (tf_test th mx rn' _ _) eqn:B2.
    + injection H as <-. unfold tf_flow. cbn [t_cnt t_nmv t_fin t_m t_k].
      split; [|split; [lia|discriminate]]. split; [lia|]. split; [lia|].
      split; [discriminate|]. split; [discriminate|lia].
    + unfold tf_test in B2. apply orb_false_elim in B2 as [_ B2]. apply Nat.leb_gt in B2.
      injection H as <-. unfold tf_flow. cbn [t_cnt t_nmv t_fin t_m t_k].
      split; [|split; [lia|intros _; lia]]. split; [lia|]. split; [lia|].
      split; [discriminate|]. split; [discriminate|lia].
Qed.

Lemma tf_body_ok : forall r0 th st, exists st', tf_body q r0 th mx st = Ok st'.
Proof.
  intros. unfold tf_body, opmul. cbv beta iota zeta.
  destruct (tf_pass _ _ _ _ _ _ _ _ _) as [[[[[w d] theta] rn] eta] x].
  destruct (tf_test _ _ _ _ _); [eauto|].
  destruct (tf_pass _ _ _ _ _ _ _ _ _) as [[[[[w' d'] theta'] rn'] eta'] x'].
  destruct (tf_test _ _ _ _ _); eauto.
Qed.

(** The initial residual norm and the threshold. *)
Definition rn0 (cnt : nat) : S := let r0 := fst (start_r q kw rhs cnt) in sabs (ssqrt (vdot r0 r0)).

Lemma tf_init_flow : forall r0 rn th cnt, tf_flow cnt (tf_init q rhs (start_x kw rhs) r0 rn th mx cnt).
Proof.
  intros. unfold tf_init, opmul. destruct (_ || _) eqn:B; unfold tf_flow; cbn.
  - split; [lia|]. split; [lia|]. split; [reflexivity|]. split; reflexivity.
  - apply orb_false_elim in B as [_ B]. apply Nat.leb_gt in B.
    split; [lia|]. split; [lia|]. split; [discriminate|]. split; reflexivity.
Qed.

Lemma tf_flow_spec : forall fuel cnt, (mx + 1 < fuel)%nat ->
  if sleb (rn0 cnt) (thr q (rn0 cnt)) || (mx =? 0)%nat
  then tf_solve fuel q rhs kw cnt = Err UnboundLocalError
  else exists o cnt', tf_solve fuel q rhs kw cnt = Ok (o, cnt') /\
    cnt' = (cnt + gw + o_nmv o)%nat /\ (1 <= o_nmv o <= mx)%nat.
Proof.
  intros fuel cnt HF. unfold tf_solve, rn0.
  assert (C := start_r_cnt cnt). destruct (start_r q kw rhs cnt) as [r0 c0]. cbn in C. subst c0.
  cbn [fst].
  set (rn := sabs (ssqrt (vdot r0 r0))). set (th := thr q rn).
  assert (EZ : (mx =? 0)%nat = (mx <=? 0)%nat) by (destruct mx; reflexivity). rewrite EZ.
  assert (I0 := tf_init_flow r0 rn th (cnt + gw)).
  destruct (sleb rn th || (mx <=? 0)%nat) eqn:B.
  - unfold tf_init. rewrite B. destruct fuel; [lia|]. reflexivity.
  - set (st := tf_init q rhs (start_x kw rhs) r0 rn th mx (cnt + gw)) in *.
    assert (N1 : t_nmv st = 1%nat /\ t_fin st = false)
      by (unfold st, tf_init; rewrite B; cbn; auto).
    assert (M1 : (1 <= mx)%nat) by (apply orb_false_elim in B as [_ B]; apply Nat.leb_gt in B; lia).
    set (I := fun s => tf_flow (cnt + gw) s /\ (1 <= t_nmv s)%nat /\ (t_fin s = true -> t_k s <> 0%nat)).
    assert (ST : forall s s', I s -> t_fin s = false -> tf_body q r0 th mx s = Ok s' ->
       I s' /\ (t_fin s' = false -> (t_nmv s' = t_nmv s + 2)%nat)).
    { intros s s' (F & L & _) FF E'. destruct (tf_step_flow _ _ _ _ _ F FF E') as (F' & K' & N').
      split; [|exact N']. split; [exact F'|]. split; [|lia].
      revert E'. unfold tf_body, opmul. cbv beta iota zeta.
      destruct (tf_pass _ _ _ _ _ _ _ _ _) as [[[[[w d] theta] rn'] eta] x].
      destruct (tf_test _ _ _ _ _); [intro E'; injection E' as <-; exact L|].
      destruct (tf_pass _ _ _ _ _ _ _ _ _) as [[[[[w' d'] theta'] rn''] eta'] x'].
      destruct (tf_test _ _ _ _ _); intro E'; injection E' as <-; cbn; lia. }
    assert (Ist : I st).
    { split; [exact I0|]. destruct N1 as [-> ->]. split; [lia|discriminate]. }
    destruct (while_term (fun st => negb (t_fin st)) (tf_body q r0 th mx) I
      (fun st => if t_fin st then 0 else mx - t_nmv st + 1)%nat) with (fuel := fuel) (s := st) as [st' E].
    + intros s Is C. apply negb_true_iff in C. destruct (tf_body_ok r0 th s) as [s' E]. exists s'.
      destruct (ST _ _ Is C E) as [I' N]. split; [exact E|]. split; [exact I'|].
      rewrite C. destruct (t_fin s') eqn:F; [lia|]. specialize (N eq_refl).
      destruct I' as ((_ & L & _) & _). lia.
    + exact Ist.
    + destruct N1 as [-> ->]. lia.
    + rewrite E. apply while_inv with (I := I) in E; [|intros s s' Is C B'; apply negb_true_iff in C; eapply ST; eauto|exact Ist].
      destruct E as [((H1 & H2 & H3 & H4) & L & NK) C]. apply negb_false_iff in C.
      destruct (t_m st') eqn:M.
      * eexists _, _. split; [reflexivity|]. cbn. auto.
      * exfalso. apply (NK C). apply H4. reflexivity.
Qed.
End Flow.

(** ** Exact arithmetic; the values of x/0 are arbitrary. *)
Section Exact.
Context (dv : R -> R -> R) (sq : R -> R) (E : IPS).
Notation KK := (exactK dv sq).
Notation WW := (exactV dv sq E).
Hypothesis SQ : sq_ok sq.
Variables (q : kprob WW) (b : iv E) (kw : kkw WW).
Notation A := (q_A q : iv E -> iv E).
Hypothesis LA : lin A.
Local Open Scope R_scope.
Notation mx := (@mmax KK WW (w_mmax kw) b).

Lemma sq_norm : forall r : iv E, Rabs (sq (ip r r)) = inorm r.
Proof.
  intro r. rewrite SQ by apply ip_pos. unfold inorm. apply Rabs_pos_eq. apply sqrt_pos.
Qed.

Lemma start_spec : forall cnt (r0 : vc WW) c0,
  @start_r KK WW q kw b cnt = (r0, c0) -> r0 = isub b (A (@start_x KK WW kw b)) :> iv E.
Proof.
  intros cnt r0 c0. unfold start_r, start_x, opmul. destruct (w_guess kw); cbn; intro H; injection H as <- _.
  - reflexivity.
  - rewrite (lin_zero A LA). veq.
Qed.

(** *** CGS: the residual recurrence is exact. *)
Definition cgs_inv (st : cgs_st WW) : Prop :=
  s_r st = isub b (A (s_x st)) :> iv E /\ s_res st = inorm (s_r st : iv E).

Lemma cgs_step_inv : forall r0 th st st', cgs_inv st -> cgs_body q r0 th mx st = Ok st' -> cgs_inv st'.
Proof.
  intros r0 th st st' [H1 H2] H. unfold cgs_body, opmul in H. cbv beta iota zeta in H. cbn in H.
  set (al := dv _ _) in H.
  match type of H with context [iadd (s_x st) (iscale al ?zz)] => set (z := zz) in H end.
  assert (RR : isub (s_r st : iv E) (iscale al (q_A q z)) = isub b (A (iadd (s_x st : iv E) (iscale al z)))).
  { rewrite H1, (lin_add A LA), (lin_scale A LA). veq. }
  destruct (_ || _); injection H as <-; split; cbn [s_r s_x s_res]; try reflexivity; exact RR.
Qed.

Lemma cgs_exact : forall fuel cnt o cnt', cgs_solve fuel q b kw cnt = Ok (o, cnt') ->
  o_residNorm o = inorm (isub b (A (o_x o))) /\
  o_residNorm0 o = inorm (isub b (A (@start_x KK WW kw b))) /\
  (o_conv o = true <-> inorm (isub b (A (o_x o))) <=
     Rmax (q_abstol q) (q_reltol q * inorm (isub b (A (@start_x KK WW kw b))))).
Proof.
  intros fuel cnt o cnt' H. unfold cgs_solve in H.
  destruct (start_r q kw b cnt) as [r0 c0] eqn:ER. apply start_spec in ER.
  set (rn := sabs (ssqrt (vdot r0 r0))) in H.
  assert (RN : rn = inorm (r0 : iv E)) by (apply sq_norm).
  destruct (while fuel _ _ _) as [st|] eqn:EW; [|discriminate]. injection H as <- <-.
  apply while_inv with (I := cgs_inv) in EW.
  - destruct EW as [[I1 I2] _]. cbn [o_residNorm o_x o_residNorm0 o_conv].
    rewrite <- I1, <- ER. split; [exact I2|]. split; [exact RN|].
    rewrite <- RN, I2. cbn [sleb exactK]. rewrite Rleb_true. unfold thr.
    rewrite (Rmax_pymax dv sq). reflexivity.
  - intros s s' I _ B. eapply cgs_step_inv; eauto.
  - split; cbn [s_r s_x s_res]; [exact ER|exact RN].
Qed.

(** *** BiCGSTAB *)
Definition bi_inv (th : R) (st : bi_st WW) : Prop :=
  (b_fin st = false -> b_r st = isub b (A (b_x st)) :> iv E /\ b_res st = inorm (b_r st : iv E)) /\
  (b_res st <= th \/ (b_nmv st < mx)%nat \/ b_fin st = true) /\
  (b_res st = inorm (isub b (A (b_x st))) \/
   (th < b_res st /\ (mx <= b_nmv st)%nat /\ b_fin st = true)).

Lemma bi_step_inv : forall r0 (th : R) st st', bi_inv th st -> b_fin st = false ->
  bi_body q r0 th mx st = Ok st' -> bi_inv th st'.
Proof.
  intros r0 th st st' (H1 & _ & _) F H. destruct (H1 F) as [HR HN].
  unfold bi_body, opmul in H. cbv beta iota zeta in H. cbn in H.
  match type of H with context [iadd (isub ?p1 ?p2) (b_r st)] => set (p := iadd (isub p1 p2) (b_r st)) in H end.
  set (qq := prec q p) in H.
  set (al := dv _ _) in H.
  set (s := isub (b_r st) (iscale al (q_A q qq))) in H.
  assert (S1 : s = isub b (A (iadd (b_x st : iv E) (iscale al qq)))).
  { unfold s. rewrite HR, (lin_add A LA), (lin_scale A LA). veq. }
  destruct (Rleb (inorm s) th) eqn:T.
  - injection H as <-. unfold bi_inv; cbn [b_fin b_r b_x b_res b_nmv].
    split; [discriminate|]. split; [right; right; reflexivity|]. left. rewrite <- S1. reflexivity.
  - apply Rleb_false in T. destruct (mx <=? _)%nat eqn:M.
    + apply Nat.leb_le in M. injection H as <-. unfold bi_inv; cbn [b_fin b_r b_x b_res b_nmv].
      split; [discriminate|]. split; [right; right; reflexivity|]. right. split; [exact T|].
      split; [exact M|reflexivity].
    + injection H as <-.
      set (z := prec q s). set (om := dv (ip (q_A q z : iv E) s) _).
      assert (RR : isub s (iscale om (q_A q z)) =
                   isub b (A (iadd (iadd (b_x st : iv E) (iscale om z)) (iscale al qq)))).
      { rewrite S1. rewrite !(lin_add A LA), !(lin_scale A LA). veq. }
      unfold bi_inv; cbn [b_fin b_r b_x b_res b_nmv].
      split; [|split].
      * intros _. split; [exact RR|reflexivity].
      * destruct (_ || _) eqn:G; [right; right; reflexivity|].
        apply orb_false_elim in G as [_ G]. apply Nat.leb_gt in G. right. left. exact G.
      * left. rewrite <- RR. reflexivity.
Qed.

Lemma bi_exact : forall fuel cnt o cnt', bi_solve fuel q b kw cnt = Ok (o, cnt') ->
  let th := Rmax (q_abstol q) (q_reltol q * inorm (isub b (A (@start_x KK WW kw b)))) in
  o_residNorm0 o = inorm (isub b (A (@start_x KK WW kw b))) /\
  (o_conv o = true <-> o_residNorm o <= th) /\
  (o_residNorm o = inorm (isub b (A (o_x o))) \/
   (o_conv o = false /\ (mx <= o_nmv o)%nat)) /\
  (o_conv o = true -> inorm (isub b (A (o_x o))) <= th).
Proof.
  intros fuel cnt o cnt' H th. unfold bi_solve in H.
  destruct (start_r q kw b cnt) as [r0 c0] eqn:ER. apply start_spec in ER.
  set (rn := sabs (ssqrt (vdot r0 r0))) in H.
  assert (RN : rn = inorm (r0 : iv E)) by (apply sq_norm).
  assert (TH : thr q rn = th).
  { unfold thr. rewrite (Rmax_pymax dv sq). unfold th. rewrite <- ER, <- RN. reflexivity. }
  rewrite TH in H.
  destruct (while fuel _ _ _) as [st|] eqn:EW; [|discriminate]. injection H as <- <-.
  apply while_inv with (I := bi_inv th) in EW.
  - destruct EW as [(_ & _ & I3) _]. cbn [o_residNorm o_x o_residNorm0 o_conv o_nmv].
    cbn [sleb exactK]. rewrite !Rleb_true.
    split; [rewrite <- ER; exact RN|]. split; [reflexivity|].
    split.
    + destruct I3 as [I3|(I3 & M & _)]; [left; exact I3|right].
      split; [apply Rleb_false; exact I3|exact M].
    + intro C. destruct I3 as [I3|(I3 & M & _)]; [rewrite <- I3; exact C|lra].
  - intros s s' I C B. apply negb_true_iff in C. eapply bi_step_inv; eauto.
  - unfold bi_inv; cbn [b_fin b_r b_x b_res b_nmv].
    split; [intros _; split; [exact ER|exact RN]|].
    split; [|left; rewrite <- ER; exact RN].
    destruct (_ || _) eqn:G; [right; right; reflexivity|].
    apply orb_false_elim in G as [_ G]. apply Nat.leb_gt in G. right. left. exact G.
Qed.

(** *** TFQMR *)
Hypothesis DV : dv_ok dv.

Lemma tf_pass_ident : forall (al : R) (w u d z x : iv E) (theta eta rs : R) w' d' theta' rs' eta' x',
  al <> 0 ->
  u = A z ->
  iscale (theta * theta * eta) (A d) = isub (isub b (A x)) w ->
  @tf_pass KK WW al w u d z x theta eta rs = (w', d', theta', rs', eta', x') ->
  let c2 := / (1 + theta' * theta') in
  iscale (theta' * theta' * eta') (A d') = isub (isub b (A x')) w' /\
  isub b (A x') = iadd (iscale (c2 * (theta' * theta')) (isub b (A x))) (iscale c2 w') /\
  theta' = dv (inorm w') rs /\ rs' = rs * (theta' * / sqrt (1 + theta' * theta')).
Proof.
  intros al w u d z x theta eta rs w' d' theta' rs' eta' x' NA HU HI HP c2.
  unfold tf_pass in HP. cbv beta iota zeta in HP. cbn in HP.
  injection HP as <- <- <- <- <- <-.
  set (w' := isub w (iscale al u)) in *.
  set (theta' := dv (inorm w') rs) in *.
  assert (P1 : 0 < 1 + theta' * theta') by (pose proof (Rle_0_sqr theta') as Q; unfold Rsqr in Q; lra).
  assert (SP : 0 < sqrt (1 + theta' * theta')) by (apply sqrt_lt_R0; exact P1).
  assert (C : dv 1 (sq (1 + theta' * theta')) = / sqrt (1 + theta' * theta')).
  { rewrite SQ by lra. rewrite DV by lra. unfold Rdiv. ring. }
  rewrite C in *. set (c := / sqrt (1 + theta' * theta')) in *.
  assert (C2 : c * c = c2).
  { unfold c, c2. rewrite <- Rinv_mult. rewrite sqrt_sqrt by lra. reflexivity. }
  assert (DD : dv (theta * theta * eta) al * al = theta * theta * eta).
  { rewrite DV by exact NA. unfold Rdiv. rewrite Rmult_assoc, Rinv_l by exact NA. ring. }
  set (d' := iadd (iscale (dv (theta * theta * eta) al) d) z) in *.
  assert (AD : iscale al (A d') = isub (isub b (A x)) w').
  { apply ip_ext. intro v. assert (HIv := f_equal (ip v) HI). rewrite ip_scale in HIv.
    unfold d', w'. rewrite (lin_add A LA), (lin_scale A LA), HU. unfold isub, ineg in *.
    rewrite !ip_scale, !ip_add, !ip_scale in *. rewrite <- DD in HIv.
    replace (al * (dv (theta * theta * eta) al * ip v (A d) + ip v (A z)))
      with (dv (theta * theta * eta) al * al * ip v (A d) + al * ip v (A z)) by ring.
    rewrite HIv. rewrite ?ip_add, ?ip_scale. ring. }
  assert (AX : isub b (A (iadd x (iscale (c * c * al) d'))) =
               iadd (iscale (c2 * (theta' * theta')) (isub b (A x))) (iscale c2 w')).
  { apply ip_ext. intro v. assert (ADv := f_equal (ip v) AD). rewrite ip_scale in ADv.
    rewrite (lin_add A LA), (lin_scale A LA). unfold isub, ineg in *.
    rewrite !ip_add, !ip_scale in *. rewrite !ip_add, !ip_scale in *.
    rewrite Rmult_assoc, ADv. rewrite C2.
    replace (c2 * (theta' * theta')) with (1 - c2) by (unfold c2; field; lra). ring. }
  split; [|split; [exact AX|split; [reflexivity|reflexivity]]].
  rewrite AX. apply ip_ext. intro v. assert (ADv := f_equal (ip v) AD). rewrite ip_scale in ADv.
  unfold isub, ineg in *. rewrite ?ip_add, ?ip_scale in *. rewrite ?ip_add, ?ip_scale in *.
  replace (theta' * theta' * (c * c * al) * ip v (A d')) with (theta' * theta' * (c * c) * (al * ip v (A d'))) by ring.
  rewrite ADv, C2. replace (c2 * (theta' * theta')) with (1 - c2) by (unfold c2; field; lra).
  replace (theta' * theta' * c2) with (1 - c2) by (unfold c2; field; lra). ring.
Qed.

(** One pass preserves the bound [||b - A x|| <= sqrt (m+1) * residNorm]. *)
Lemma tf_bound : forall (r r' w' : iv E) (theta rs rs' : R) (m : R),
  0 <= m -> 0 < rs -> theta = inorm w' / rs ->
  rs' = rs * (theta * / sqrt (1 + theta * theta)) ->
  r' = iadd (iscale (/ (1 + theta * theta) * (theta * theta)) r) (iscale (/ (1 + theta * theta)) w') ->
  inorm r <= sqrt (m + 1) * rs ->
  inorm r' <= sqrt (m + 1 + 1) * rs' /\ 0 <= rs'.
Proof.
  intros r r' w' theta rs rs' m Hm HR HT HRS -> HB.
  assert (T0 : 0 <= theta) by (rewrite HT; apply Rle_mult_inv_pos; [apply sqrt_pos|exact HR]).
  assert (P1 : 0 < 1 + theta * theta) by nra.
  set (c := / sqrt (1 + theta * theta)) in *.
  assert (SP : 0 < sqrt (1 + theta * theta)) by (apply sqrt_lt_R0; exact P1).
  assert (CP : 0 < c) by (apply Rinv_0_lt_compat; exact SP).
  assert (CC : / (1 + theta * theta) = c * c).
  { unfold c. rewrite <- Rinv_mult. rewrite sqrt_sqrt by lra. reflexivity. }
  assert (W' : inorm w' = theta * rs) by (rewrite HT; field; lra).
  rewrite CC.
  split; [|rewrite HRS; apply Rmult_le_pos; [lra|]; apply Rmult_le_pos; lra].
  eapply Rle_trans; [apply inorm_triangle|].
  rewrite !inorm_scale.
  rewrite (Rabs_pos_eq (c * c * (theta * theta))) by (apply Rmult_le_pos; nra).
  rewrite (Rabs_pos_eq (c * c)) by nra.
  rewrite W', HRS.
  assert (SM : 0 <= sqrt (m + 1)) by apply sqrt_pos.
  assert (SM2 : sqrt (m + 1) * sqrt (m + 1) = m + 1) by (apply sqrt_sqrt; lra).
  assert (KEY : c * (theta * sqrt (m + 1) + 1) <= sqrt (m + 1 + 1)).
  {
    rewrite <- (sqrt_Rsqr (c * (theta * sqrt (m + 1) + 1))).
    2:{ apply Rmult_le_pos; [lra|]. nra. }
    apply sqrt_le_1_alt. unfold Rsqr.
    assert (C1 : c * c * (1 + theta * theta) = 1) by (rewrite <- CC; field; lra).
    replace (m + 1 + 1) with (c * c * (1 + theta * theta) * (m + 1 + 1)) by (rewrite C1; ring).
    replace (c * (theta * sqrt (m + 1) + 1) * (c * (theta * sqrt (m + 1) + 1)))
      with (c * c * (theta * theta * (sqrt (m + 1) * sqrt (m + 1)) + 2 * theta * sqrt (m + 1) + 1)) by ring.
    rewrite SM2. rewrite (Rmult_assoc (c * c) (1 + theta * theta) (m + 1 + 1)).
    apply Rmult_le_compat_l; [nra|].
    assert (0 <= (theta - sqrt (m + 1)) * (theta - sqrt (m + 1))) by apply Rle_0_sqr.
    nra. }
  apply Rle_trans with (c * c * (theta * theta) * (sqrt (m + 1) * rs) + c * c * (theta * rs)).
  - apply Rplus_le_compat_r. apply Rmult_le_compat_l; [|exact HB]. apply Rmult_le_pos; nra.
  - replace (c * c * (theta * theta) * (sqrt (m + 1) * rs) + c * c * (theta * rs))
      with (c * (theta * sqrt (m + 1) + 1) * (rs * (theta * c))) by ring.
    apply Rmult_le_compat_r; [|exact KEY].
    apply Rmult_le_pos; [lra|]. apply Rmult_le_pos; lra.
Qed.

Lemma sofnat_INR : forall n, @sofnat KK n = INR n.
Proof.
  intro n. unfold sofnat. cbn. unfold Q2R, inject_Z. cbn. rewrite Rinv_1, Rmult_1_r.
  symmetry. apply INR_IZR_INZ.
Qed.

(** The loop invariant: [t_k] rounds are 2*[t_k] half steps. *)
Definition tf_inv (th : R) (st : tf_st WW) : Prop :=
  0 <= t_res st /\
  (t_fin st = false ->
     t_u st = A (t_z st) :> iv E /\ t_nmv st = (2 * t_k st + 1)%nat /\
     (0 < th -> 0 < t_res st) /\
     iscale (t_theta st * t_theta st * t_eta st) (A (t_d st)) =
       isub (isub b (A (t_x st))) (t_w st : iv E) /\
     (0 < th -> inorm (isub b (A (t_x st))) <= sqrt (2 * INR (t_k st) + 1) * t_res st)) /\
  (t_fin st = true -> t_m st = Some (INR (t_nmv st)) /\
     (0 < th -> inorm (isub b (A (t_x st))) <= sqrt (INR (t_nmv st) + 1) * t_res st)).

Lemma tf_pass_res : forall (al : R) (w u d z x : iv E) (theta eta rs : R) w' d' theta' rs' eta' x',
  @tf_pass KK WW al w u d z x theta eta rs = (w', d', theta', rs', eta', x') ->
  0 <= rs -> 0 <= rs'.
Proof.
  intros al w u d z x theta eta rs w' d' theta' rs' eta' x' HP HR.
  unfold tf_pass in HP. cbv beta iota zeta in HP. cbn in HP. injection HP as <- <- <- <- <- <-.
  set (wn := inorm _). set (t := dv wn rs).
  destruct HR as [HR|<-]; [|rewrite Rmult_0_l; lra].
  assert (T0 : 0 <= t).
  { unfold t. rewrite DV by lra. apply Rle_mult_inv_pos; [apply sqrt_pos|exact HR]. }
  assert (P1 : 0 < 1 + t * t) by nra.
  assert (SP : 0 < sqrt (1 + t * t)) by (apply sqrt_lt_R0; exact P1).
  rewrite SQ by lra. rewrite DV by lra.
  apply Rmult_le_pos; [lra|]. apply Rmult_le_pos; [lra|]. apply Rle_mult_inv_pos; lra.
Qed.

Lemma tf_step_inv : forall r0 (th : R) st st', tf_inv th st -> t_fin st = false ->
  dv (t_rho st) (ip (r0 : iv E) (t_v st)) <> 0 ->
  tf_body q (r0 : vc WW) th mx st = Ok st' -> tf_inv th st'.
Proof.
  intros r0 th st st' (R0 & H & _) F NA HB.
  destruct (H F) as (HU & HK & HP & HI & HB0). clear H.
  unfold tf_body, opmul in HB. cbv beta iota zeta in HB.
  change (sdiv (t_rho st) (vdot (r0 : vc WW) (t_v st))) with (dv (t_rho st) (ip (r0 : iv E) (t_v st))) in HB.
  set (al := dv (t_rho st) (ip (r0 : iv E) (t_v st))) in *.
  destruct (@tf_pass KK WW al _ _ _ _ _ _ _ _) as [[[[[w d] theta] rn] eta] x] eqn:P1.
  assert (R1 := tf_pass_res _ _ _ _ _ _ _ _ _ _ _ _ _ _ _ P1 R0).
  destruct (tf_pass_ident _ _ _ _ _ _ _ _ _ _ _ _ _ _ _ NA HU HI P1) as (I1 & X1 & T1 & S1). clear P1.
  assert (B1 : 0 < th -> inorm (isub b (A x)) <= sqrt (2 * INR (t_k st) + 1 + 1) * rn).
  { intro TP. specialize (HP TP). rewrite DV in T1 by lra.
    refine (proj1 (tf_bound (isub b (A (t_x st))) _ w theta (t_res st) rn (2 * INR (t_k st)) _ HP T1 S1 X1 (HB0 TP))).
    pose proof (pos_INR (t_k st)). lra. }
  assert (M1 : ssub (smul (slit 2) (@sofnat KK (t_k st + 1))) s1 = 2 * INR (t_k st) + 1 :> R).
  { rewrite sofnat_INR, plus_INR. cbn. unfold Q2R. cbn. field. }
  rewrite M1 in HB.
  destruct (@tf_test KK th mx rn (2 * INR (t_k st) + 1 : sc KK) (t_nmv st)) eqn:TT1.
  - injection HB as <-. unfold tf_inv; cbn [t_res t_fin t_u t_z t_nmv t_k t_theta t_eta t_d t_x t_w t_m].
    split; [exact R1|]. split; [discriminate|]. intros _.
    assert (EN : INR (t_nmv st) = 2 * INR (t_k st) + 1) by (rewrite HK, plus_INR, mult_INR; cbn; ring).
    rewrite EN. split; [reflexivity|exact B1].
  - assert (TT1' := TT1). unfold tf_test in TT1'. apply orb_false_elim in TT1' as [G1 _]. cbn in G1.
    apply Rltb_false in G1.
    assert (P2K := pos_INR (t_k st)).
    rewrite SQ in G1 by lra.
    assert (RP1 : 0 < th -> 0 < rn).
    { intro TP. destruct R1 as [R1|R1]; [exact R1|]. rewrite <- R1, Rmult_0_l in G1. lra. }
    destruct (@tf_pass KK WW al _ _ _ _ _ _ _ _) as [[[[[w2 d2] theta2] rn2] eta2] x2] eqn:P2.
    assert (R2 := tf_pass_res _ _ _ _ _ _ _ _ _ _ _ _ _ _ _ P2 R1).
    destruct (tf_pass_ident _ _ _ _ _ _ _ _ _ _ _ _ _ _ _ NA eq_refl I1 P2) as (I2 & X2 & T2 & S2).
    assert (B2 : 0 < th -> inorm (isub b (A x2)) <= sqrt (2 * INR (t_k st) + 1 + 1 + 1) * rn2).
    { intro TP. specialize (RP1 TP). rewrite DV in T2 by lra.
      refine (proj1 (tf_bound (isub b (A x)) _ w2 theta2 rn rn2 (2 * INR (t_k st) + 1) _ RP1 T2 S2 X2 (B1 TP))).
      lra. }
    change (sadd (2 * INR (t_k st) + 1 : sc KK) s1) with (2 * INR (t_k st) + 1 + 1) in HB.
    destruct (@tf_test KK th mx rn2 (2 * INR (t_k st) + 1 + 1 : sc KK) _) eqn:TT2.
    + injection HB as <-. unfold tf_inv; cbn [t_res t_fin t_u t_z t_nmv t_k t_theta t_eta t_d t_x t_w t_m].
      split; [exact R2|]. split; [discriminate|]. intros _.
      assert (EN : INR (t_nmv st + 1) = 2 * INR (t_k st) + 1 + 1)
        by (rewrite HK, !plus_INR, mult_INR; cbn; ring).
      rewrite EN. split; [reflexivity|exact B2].
    + unfold tf_test in TT2. apply orb_false_elim in TT2 as [G2 _]. cbn in G2.
      apply Rltb_false in G2. rewrite SQ in G2 by lra.
      injection HB as <-. unfold tf_inv; cbn [t_res t_fin t_u t_z t_nmv t_k t_theta t_eta t_d t_x t_w t_m].
      split; [exact R2|]. split; [|discriminate]. intros _.
      split; [reflexivity|]. split; [lia|].
      split; [intro TP; destruct R2 as [R2|R2]; [exact R2|]; rewrite <- R2, Rmult_0_l in G2; lra|].
      split; [exact I2|]. intro TP.
      replace (2 * INR (t_k st + 1) + 1) with (2 * INR (t_k st) + 1 + 1 + 1)
        by (rewrite plus_INR; cbn; ring). exact (B2 TP).
Qed.

Lemma tf_init_inv : forall cnt (r0 : vc WW) c0 , start_r q kw b cnt = (r0, c0) ->
  let rn := inorm (r0 : iv E) in let th := @thr KK WW q rn in
  Rleb rn th || (mx <=? 0)%nat = false ->
  tf_inv th (@tf_init KK WW q b (start_x kw b) r0 rn th mx c0).
Proof.
  intros cnt r0 c0 ER rn th NF. apply start_spec in ER.
  assert (RP : 0 <= rn) by apply sqrt_pos.
  unfold tf_init. cbn [sleb exactK]. rewrite NF. unfold opmul.
  unfold tf_inv; cbn [t_res t_fin t_u t_z t_nmv t_k t_theta t_eta t_d t_x t_w t_m].
  split; [exact RP|]. split; [|discriminate]. intros _.
  split; [reflexivity|]. split; [reflexivity|].
  apply orb_false_elim in NF as [NF _]. apply Rleb_false in NF.
  split; [intro; lra|]. split.
  - cbn. rewrite <- ER, (lin_zero A LA). veq.
  - intros _. rewrite <- ER. cbn. replace (2 * 0 + 1) with 1 by ring. rewrite sqrt_1. unfold rn. lra.
Qed.

(** The states at the loop head during a run. *)
Definition tf_reach (cnt k : nat) (st : tf_st WW) : Prop :=
  let '(r0, c0) := start_r q kw b cnt in
  let rn := sabs (ssqrt (vdot r0 r0)) in
  let th := thr q rn in
  rounds (fun st => negb (t_fin st)) (tf_body q r0 th mx) k
    (tf_init q b (start_x kw b) r0 rn th mx c0) = Ok st.

Lemma tf_exact : forall fuel cnt o cnt',
  (* no breakdown: alpha is nonzero in every iteration that is executed *)
  (forall k st, tf_reach cnt k st -> t_fin st = false ->
     dv (t_rho st) (ip (isub b (A (@start_x KK WW kw b))) (t_v st)) <> 0) ->
  tf_solve fuel q b kw cnt = Ok (o, cnt') ->
  let th := Rmax (q_abstol q) (q_reltol q * inorm (isub b (A (@start_x KK WW kw b)))) in
  o_residNorm0 o = inorm (isub b (A (@start_x KK WW kw b))) /\
  (0 < th -> inorm (isub b (A (o_x o))) <= sqrt (INR (o_nmv o) + 1) * o_residNorm o) /\
  (o_conv o = true <-> o_residNorm o * sqrt (INR (o_nmv o) + 1) < th) /\
  (o_conv o = true -> inorm (isub b (A (o_x o))) < th).
Proof.
  intros fuel cnt o cnt' NB H th. unfold tf_solve in H. unfold tf_reach in NB.
  destruct (start_r q kw b cnt) as [r0 c0] eqn:ER. assert (ER' := ER). apply start_spec in ER'.
  assert (RN : sabs (ssqrt (vdot r0 r0)) = inorm (r0 : iv E)) by (apply sq_norm).
  rewrite RN in *. set (rn := inorm (r0 : iv E)) in *.
  assert (TH : @thr KK WW q rn = th).
  { unfold thr. rewrite (Rmax_pymax dv sq). unfold th. rewrite <- ER'. reflexivity. }
  destruct (while fuel _ _ _) as [st|] eqn:EW; [|discriminate].
  destruct (t_m st) as [m|] eqn:EM; [|discriminate]. injection H as <- <-.
  destruct (Rleb rn (@thr KK WW q rn) || (mx <=? 0)%nat) eqn:NF.
  { exfalso. unfold tf_init in EW. cbn [sleb exactK] in EW. rewrite NF in EW.
    destruct fuel; [discriminate|]. cbn [while t_fin negb] in EW. injection EW as <-. discriminate. }
  assert (I0 := tf_init_inv cnt r0 c0 ER). cbv zeta in I0. fold rn in I0. specialize (I0 NF).
  set (st0 := tf_init q b (start_x kw b) r0 rn (thr q rn) mx c0) in *.
  apply while_inv with (I := fun s => tf_inv (@thr KK WW q rn) s /\
    exists k, rounds (fun st => negb (t_fin st)) (tf_body q r0 (thr q rn) mx) k st0 = Ok s) in EW.
  - destruct EW as [[(R0 & _ & HF) _] C]. apply negb_false_iff in C. destruct (HF C) as [HM HBd].
    rewrite EM in HM. injection HM as ->.
    cbn [o_residNorm0 o_residNorm o_x o_conv o_nmv]. rewrite TH in *.
    split; [rewrite <- ER'; reflexivity|].
    split; [exact HBd|].
    assert (CV : sltb (smul (t_res st) (ssqrt (sadd (INR (t_nmv st) : sc KK) s1))) (th : sc KK) = true <->
                 t_res st * sqrt (INR (t_nmv st) + 1) < th).
    { cbn. rewrite Rltb_true. rewrite SQ by (pose proof (pos_INR (t_nmv st)); lra). reflexivity. }
    split; [exact CV|]. rewrite CV. intro L.
    assert (0 <= sqrt (INR (t_nmv st) + 1)) by apply sqrt_pos.
    assert (0 <= t_res st * sqrt (INR (t_nmv st) + 1)) by (apply Rmult_le_pos; assumption).
    assert (TP : 0 < th) by lra. specialize (HBd TP). lra.
  - intros s s' [Is [k Hk]] C B. assert (C' := C). apply negb_true_iff in C'. split.
    + apply (tf_step_inv r0 _ s s' Is C'); [|exact B]. assert (Q := NB k s Hk C'). rewrite <- ER' in Q. exact Q.
    + exists (S k). cbn [rounds]. rewrite Hk. cbv beta. rewrite C. exact B.
  - split; [exact I0|]. exists 0%nat. reflexivity.
Qed.
End Exact.
