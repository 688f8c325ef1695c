(** * Property C99: which dtypes the solvers accept, and what integers do to CG. *)
From Coq Require Import List Bool Arith ZArith QArith Qreals Reals Lra Lia.
From Verif Require Import Base Num ToolsModel CgModel LinopModel DtModel DtReach.
Import ListNotations.
Local Open Scope nat_scope.

Definition rank (d : dtype) : nat := match d with DInt => 0 | DFloat => 1 | DComplex => 2 end.
(** No preconditioner, or one whose dtype is at most [k]. *)
Definition upto (P : option dtype) (k : nat) : Prop := forall d, P = Some d -> rank d <= k.

(** Every execution reaches the end of the method and leaves an [x] with [K]; two passes through the
    loop are possible. *)
Definition runs (p : dprog) (rhs : dtype) (K : dtype -> Prop) : Prop :=
  (forall o e, exec (whole p) [(rhs_, rhs)] o e -> o = Normal /\ exists k, get e self_x_ = Some k /\ K k) /\
  exists e, exec (two_passes p) [(rhs_, rhs)] Normal e.
(** No execution gets through two passes; some raise TypeError. *)
Definition raises (p : dprog) (rhs : dtype) : Prop :=
  (forall e, ~ exec (two_passes p) [(rhs_, rhs)] Normal e) /\ exists e, exec (two_passes p) [(rhs_, rhs)] CastError e.

(** The same, computed. *)
Definition runsb (p : dprog) (rhs : dtype) (K : dtype -> bool) : bool :=
  match coll 99 (whole p) [(rhs_, rhs)], coll 99 (two_passes p) [(rhs_, rhs)] with
  | Some c, Some t =>
      forallb (fun q => is_normal (fst q) && match get (snd q) self_x_ with Some k => K k | None => false end) c
      && existsb (fun q => is_normal (fst q)) t
  | _, _ => false
  end.
Definition raisesb (p : dprog) (rhs : dtype) : bool :=
  match coll 99 (two_passes p) [(rhs_, rhs)] with
  | Some t => forallb (fun q => negb (is_normal (fst q))) t && existsb (fun q => oc_beq (fst q) CastError) t
  | None => false
  end.
Lemma runsb_ok : forall p rhs (K : dtype -> Prop) Kb, (forall k, Kb k = true -> K k) -> runsb p rhs Kb = true -> runs p rhs K.
Proof.
  intros p rhs K Kb HK H. unfold runsb in H. destruct (coll 99 (whole p) _) as [c|] eqn:C; [|discriminate].
  destruct (coll 99 (two_passes p) _) as [t|] eqn:T; [|discriminate]. apply andb_prop in H. destruct H as [H1 H2]. split.
  - intros o e X. apply (coll_spec _ _ _ _ C) in X. rewrite forallb_forall in H1. specialize (H1 _ X). simpl in H1.
    apply andb_prop in H1. destruct H1 as [N G]. split; [destruct o; simpl in N; congruence|].
    destruct (get e self_x_) as [k|]; [|discriminate]. exists k. auto.
  - apply existsb_exists in H2. destruct H2 as ([o e] & I & N). exists e. apply (coll_spec _ _ _ _ T).
    destruct o; simpl in N; try discriminate. exact I.
Qed.
Lemma raisesb_ok : forall p rhs, raisesb p rhs = true -> raises p rhs.
Proof.
  intros p rhs H. unfold raisesb in H. destruct (coll 99 (two_passes p) _) as [t|] eqn:T; [|discriminate].
  apply andb_prop in H. destruct H as [H1 H2]. split.
  - intros e X. apply (coll_spec _ _ _ _ T) in X. rewrite forallb_forall in H1. specialize (H1 _ X). discriminate H1.
  - apply existsb_exists in H2. destruct H2 as ([o e] & I & N). simpl in N. apply oc_beq_eq in N. subst o.
    exists e. apply (coll_spec _ _ _ _ T). exact I.
Qed.

Definition uptob (P : option dtype) (k : nat) : bool := match P with Some d => rank d <=? k | None => true end.
Lemma upto_iff : forall P k, uptob P k = true <-> upto P k.
Proof.
  intros [d|] k; unfold upto; simpl.
  - rewrite Nat.leb_le. split; [intros H e E; injection E as <-; auto | auto].
  - split; [discriminate | auto].
Qed.
Definition join (a b : dtype) : nat := Nat.max (rank a) (rank b).
Definition ojoin (a : nat) (P : option dtype) : nat := match P with Some d => Nat.max a (rank d) | None => a end.

(** Either the condition holds and the method runs, or it does not and the method raises. *)
Lemma verdict : forall p rhs (C : Prop) (K : dtype -> Prop) c Kb,
  (c = true <-> C) -> (forall k, Kb k = true -> K k) ->
  (if c then runsb p rhs Kb else raisesb p rhs) = true ->
  (C -> runs p rhs K) /\ (~ C -> raises p rhs).
Proof.
  intros p rhs C K c Kb Hc HK H. destruct c.
  - split; [intros _; eapply runsb_ok; eauto | intros N; exfalso; apply N; apply Hc; auto].
  - split; [intros X; apply Hc in X; discriminate | intros _; apply raisesb_ok; auto].
Qed.
Ltac cond := rewrite ?andb_true_iff, ?Nat.leb_le, ?upto_iff; tauto.
Ltac kinds := let Hk := fresh in intros ? Hk; apply dt_beq_eq in Hk; exact Hk.

(** ** CG: operator and preconditioner at most the dtype of the right-hand side, guess or not. *)
Theorem C99_cg : forall op P (guess : bool) rhs,
  let C := rank op <= rank rhs /\ upto P (rank rhs) in
  (C -> runs (cg_dt op P guess) rhs (fun k => k = result_type op rhs)) /\ (~ C -> raises (cg_dt op P guess) rhs).
Proof.
  intros. apply (verdict _ _ _ _ ((rank op <=? rank rhs) && uptob P (rank rhs)) (fun k => dt_beq k (result_type op rhs)));
    [unfold C; cond | kinds |].
  destruct op, P as [[]|], guess, rhs; vm_compute; reflexivity.
Qed.

(** ** CGS: without a guess like CG; with one, the residual takes the dtype of the product. *)
Theorem C99_cgs : forall op P (guess : bool) rhs,
  let C := if guess then upto P (join op rhs) else rank op <= rank rhs /\ upto P (rank rhs) in
  (C -> runs (cgs_dt op P guess) rhs (fun k => k = result_type op rhs)) /\ (~ C -> raises (cgs_dt op P guess) rhs).
Proof.
  intros. apply (verdict _ _ _ _ (if guess then uptob P (join op rhs) else (rank op <=? rank rhs) && uptob P (rank rhs))
    (fun k => dt_beq k (result_type op rhs))); [unfold C; destruct guess; cond | kinds |].
  destruct op, P as [[]|], guess, rhs; vm_compute; reflexivity.
Qed.

(** ** BiCGSTAB: some operand not an integer, and the preconditioner at most their join. *)
Theorem C99_bicgstab : forall op P (guess : bool) rhs,
  let C := 1 <= join op rhs /\ upto P (join op rhs) in
  (C -> runs (bicgstab_dt op P guess) rhs (fun k => k = result_type op rhs)) /\ (~ C -> raises (bicgstab_dt op P guess) rhs).
Proof.
  intros. apply (verdict _ _ _ _ ((1 <=? join op rhs) && uptob P (join op rhs)) (fun k => dt_beq k (result_type op rhs)));
    [unfold C; cond | kinds |].
  destruct op, P as [[]|], guess, rhs; vm_compute; reflexivity.
Qed.

(** ** TFQMR. *)
Theorem C99_tfqmr : forall op P (guess : bool) rhs,
  let k := if guess then join op rhs else rank rhs in
  let C := 1 <= k /\ rank op <= k /\ upto P k in
  (C -> runs (tfqmr_dt op P guess) rhs (fun k => k = result_type op rhs)) /\ (~ C -> raises (tfqmr_dt op P guess) rhs).
Proof.
  intros. apply (verdict _ _ _ _ ((1 <=? k) && ((rank op <=? k) && uptob P k)) (fun k => dt_beq k (result_type op rhs)));
    [unfold C; cond | kinds |].
  unfold k. destruct op, P as [[]|], guess, rhs; vm_compute; reflexivity.
Qed.

(** ** MINRES. *)
Theorem C99_minres : forall op P shift rhs,
  let C := 1 <= join op rhs /\ upto P (join op rhs) /\ rank shift <= join op rhs in
  (C -> runs (minres_dt op P shift) rhs (fun k => k = result_type op rhs)) /\ (~ C -> raises (minres_dt op P shift) rhs).
Proof.
  intros. apply (verdict _ _ _ _ ((1 <=? join op rhs) && (uptob P (join op rhs) && (rank shift <=? join op rhs)))
    (fun k => dt_beq k (result_type op rhs))); [unfold C; cond | kinds |].
  destruct op, P as [[]|], shift, rhs; vm_compute; reflexivity.
Qed.

(** ** LSQR: the right-hand side is not an integer array and everything is real. *)
Theorem C99_lsqr : forall op M N rhs,
  let C := rank rhs = 1 /\ rank op <= 1 /\ upto M 1 /\ upto N 1 in
  (C -> runs (lsqr_dt op M N) rhs (fun k => k = DFloat)) /\ (~ C -> raises (lsqr_dt op M N) rhs).
Proof.
  intros. apply (verdict _ _ _ _ ((rank rhs =? 1) && ((rank op <=? 1) && (uptob M 1 && uptob N 1))) (fun k => dt_beq k DFloat));
    [unfold C; rewrite ?andb_true_iff, Nat.eqb_eq, ?Nat.leb_le, ?upto_iff; tauto | kinds |].
  destruct op, M as [[]|], N as [[]|], rhs; vm_compute; reflexivity.
Qed.

(** ** LSMR: only integer right-hand sides fail. *)
Theorem C99_lsmr : forall op M N rhs,
  let C := 1 <= rank rhs in
  (C -> runs (lsmr_dt op M N) rhs (fun k => k = DFloat \/ rank k = ojoin (ojoin (join op rhs) M) N)) /\
  (~ C -> raises (lsmr_dt op M N) rhs).
Proof.
  intros. apply (verdict _ _ _ _ (1 <=? rank rhs) (fun k => dt_beq k DFloat || (rank k =? ojoin (ojoin (join op rhs) M) N)));
    [unfold C; cond | |].
  { intros k Hk. apply orb_prop in Hk. rewrite dt_beq_eq, Nat.eqb_eq in Hk. exact Hk. }
  destruct op, M as [[]|], N as [[]|], rhs; vm_compute; reflexivity.
Qed.

(** ** CRAIG: besides, [A] and [N] may be complex only together with the right-hand side or [M]. *)
Theorem C99_craig : forall op M N a rhs,
  let C := 1 <= rank rhs /\ rank op <= ojoin (rank rhs) M /\ upto N (ojoin (rank rhs) M) in
  (C -> runs (craig_dt op M N a) rhs (fun k => rank k = ojoin (rank rhs) M)) /\ (~ C -> raises (craig_dt op M N a) rhs).
Proof.
  intros. apply (verdict _ _ _ _ ((1 <=? rank rhs) && ((rank op <=? ojoin (rank rhs) M) && uptob N (ojoin (rank rhs) M)))
    (fun k => rank k =? ojoin (rank rhs) M)); [unfold C; cond | intros k Hk; apply Nat.eqb_eq; exact Hk |].
  destruct op, M as [[]|], N as [[]|], a, rhs; vm_compute; reflexivity.
Qed.

(** ** CRAIG-MR. *)
Theorem C99_craigmr : forall op M N a rhs,
  let C := rank rhs = 1 /\ rank op <= 1 /\ upto M 1 /\ upto N 1 in
  (C -> runs (craigmr_dt op M N a) rhs (fun k => k = DFloat)) /\ (~ C -> raises (craigmr_dt op M N a) rhs).
Proof.
  intros. apply (verdict _ _ _ _ ((rank rhs =? 1) && ((rank op <=? 1) && (uptob M 1 && uptob N 1))) (fun k => dt_beq k DFloat));
    [unfold C; rewrite ?andb_true_iff, Nat.eqb_eq, ?Nat.leb_le, ?upto_iff; tauto | kinds |].
  destruct op, M as [[]|], N as [[]|], a, rhs; vm_compute; reflexivity.
Qed.

(** Both sides of each verdict occur: integer matrix with float data runs, float matrix with integer data raises. *)
Example ex_C99 :
  runs (cg_dt DInt (Some DFloat) true) DFloat (fun k => k = DFloat) /\ raises (cg_dt DFloat None false) DInt /\
  runs (cgs_dt DFloat None true) DInt (fun k => k = DFloat) /\ raises (cgs_dt DFloat None false) DInt /\
  raises (bicgstab_dt DInt None false) DInt /\ raises (craigmr_dt DComplex None None true) DFloat.
Proof.
  split; [|split; [|split; [|split; [|split]]]].
  - apply (C99_cg DInt (Some DFloat) true DFloat). split; [simpl; lia | intros d E; injection E as <-; simpl; lia].
  - apply (C99_cg DFloat None false DInt). intros [H _]. simpl in H. lia.
  - apply (C99_cgs DFloat None true DInt). intros d E. discriminate E.
  - apply (C99_cgs DFloat None false DInt). intros [H _]. simpl in H. lia.
  - apply (C99_bicgstab DInt None false DInt). intros [H _]. cbn in H. lia.
  - apply (C99_craigmr DComplex None None true DFloat). intros (_ & H & _). simpl in H. lia.
Qed.

(** ** Integer data: the steps of CG and CGS are integers, so the quotients are floors. *)
Theorem C99_integer : forall P guess o e, upto P 0 ->
  exec (whole (cg_dt DInt P guess)) [(rhs_, DInt)] o e \/ exec (whole (cgs_dt DInt P guess)) [(rhs_, DInt)] o e ->
  get e self_x_ = Some DInt /\ (get e alpha_ = None \/ get e alpha_ = Some DInt) /\ (get e beta_ = None \/ get e beta_ = Some DInt).
Proof.
  intros P guess o e H X.
  assert (G : forall p, (match coll 99 (whole p) [(rhs_, DInt)] with
      | Some c => forallb (fun q => match get (snd q) self_x_, get (snd q) alpha_, get (snd q) beta_ with
          | Some DInt, (None | Some DInt), (None | Some DInt) => true | _, _, _ => false end) c
      | None => false end) = true -> exec (whole p) [(rhs_, DInt)] o e ->
    get e self_x_ = Some DInt /\ (get e alpha_ = None \/ get e alpha_ = Some DInt) /\ (get e beta_ = None \/ get e beta_ = Some DInt)).
  { clear X. intros p T X. destruct (coll 99 (whole p) _) as [c|] eqn:E; [|discriminate].
    apply (coll_spec _ _ _ _ E) in X. rewrite forallb_forall in T. specialize (T _ X). cbn [snd] in T.
    destruct (get e self_x_) as [[]|], (get e alpha_) as [[]|], (get e beta_) as [[]|]; try discriminate T; auto. }
  assert (D : P = None \/ P = Some DInt).
  { destruct P as [[]|]; auto; specialize (H _ eq_refl); simpl in H; lia. }
  destruct X as [X|X]; (eapply G; [|exact X]); destruct D as [-> | ->], guess; vm_compute; reflexivity.
Qed.
Example ex_C99_integer : exists e, exec (whole (cg_dt DInt None false)) [(rhs_, DInt)] Normal e /\ get e alpha_ = Some DInt.
Proof.
  assert (T : match coll 99 (whole (cg_dt DInt None false)) [(rhs_, DInt)] with
    | Some c => existsb (fun q => is_normal (fst q) && match get (snd q) alpha_ with Some DInt => true | _ => false end) c
    | None => false end = true) by (vm_compute; reflexivity).
  destruct (coll 99 _ _) as [c|] eqn:E; [|discriminate]. apply existsb_exists in T. destruct T as ([o e] & I & T).
  apply andb_prop in T. destruct T as [N G]. exists e. cbn [fst snd] in *. split.
  - apply (coll_spec _ _ _ _ E). destruct o; try discriminate N. exact I.
  - destruct (get e alpha_) as [[]|]; try discriminate G. reflexivity.
Qed.

(** ** CG with floor division: no step is ever taken when <b, A b> exceeds <b, b>. *)
Section Floor.
Local Open Scope R_scope.
(** The quotient of two Python 2 (or numpy) integers. *)
Definition floor_ok (dv : R -> R -> R) : Prop := forall a b, b <> 0 -> dv a b = IZR (Int_part (a / b)).
Lemma Int_part_is : forall z a, IZR z <= a < IZR z + 1 -> Int_part a = z.
Proof.
  intros z a H. destruct (base_Int_part a) as [L U]. apply Z.le_antisymm.
  - apply Z.lt_succ_r. apply lt_IZR. rewrite succ_IZR. lra.
  - apply Z.lt_succ_r. apply lt_IZR. rewrite succ_IZR. lra.
Qed.
Variables (dv : R -> R -> R) (sq : R -> R) (E : IPS).
Hypotheses (FD : floor_ok dv) (SQ : sq_ok sq).
Variables (q : kprob (exactV dv sq E)) (b : iv E) (kw : cg_kw (exactV dv sq E)).
Hypotheses (NP : q_P q = None) (NG : k_guess kw = None) (NS : k_sym kw = false)
  (HO : forall a, q_A q (iscale a b) = iscale a (q_A q b))
  (B0 : 0 < ip b b) (B1 : ip b b < ip b (q_A q b))
  (T0 : q_abstol q < sqrt (ip b b)) (T1 : q_reltol q < 1).
Let mx := @mmax _ (exactV dv sq E) (k_mmax kw) b.
Let res0 := sqrt (ip b b).

Definition stuck (k cnt : nat) (st : cg_st (exactV dv sq E)) : Prop :=
  c_x st = izero /\ c_r st = ineg b /\ c_p st = iscale (INR k + 1) b /\ c_ry st = ip b b /\ c_res st = res0 /\
  c_nmv st = k /\ c_def st = true /\ c_cnt st = (cnt + k)%nat.
Lemma thr_lt : thr q res0 < res0.
Proof.
  assert (P : 0 < res0) by (apply sqrt_lt_R0; exact B0).
  unfold thr, pymax. cbn. destruct (Rltb _ _); [nra | exact T0].
Qed.
Lemma abs_sq : Rabs (sq (ip b b)) = res0.
Proof. rewrite SQ by lra. apply Rabs_right. apply Rle_ge. apply sqrt_pos. Qed.
Lemma stuck_step : forall k cnt st, stuck k cnt st -> exists st', cg_body q kw st = Ok st' /\ stuck (S k) cnt st'.
Proof.
  intros k cnt st (X & Rr & Pp & Ry & Rs & Nm & Df & Ct).
  assert (KP : 1 <= INR k + 1) by (pose proof (pos_INR k); lra).
  set (t := INR k + 1) in *. set (pAp := t * (t * ip b (q_A q b))).
  assert (PQ : ip (iscale t b) (q_A q (iscale t b)) = pAp) by (rewrite HO; ipx; unfold pAp; ring).
  assert (PL : ip b b < pAp).
  { set (c := ip b (q_A q b)) in *. assert (c <= t * c) by nra. assert (t * c <= t * (t * c)) by nra. unfold pAp. lra. }
  assert (AL : dv (ip b b) pAp = 0).
  { rewrite FD by lra. rewrite (Int_part_is 0); [reflexivity|]. split.
    - apply Rlt_le, Rdiv_lt_0_compat; lra.
    - apply (Rmult_lt_reg_r pAp); [lra|]. unfold Rdiv. rewrite Rmult_assoc, Rinv_l by lra. lra. }
  assert (BE : dv (ip b b) (ip b b) = 1).
  { rewrite FD by lra. unfold Rdiv. rewrite Rinv_r by lra. rewrite (Int_part_is 1); [reflexivity | lra]. }
  unfold cg_body, opmul, prec. rewrite NP, Pp, Ry, X, Rr, Nm, Df, Ct. cbn [vdot exactVn vscale vadd vsub sdiv exactK].
  match goal with |- context [k_curv kw && ?c] => assert (CB : k_curv kw && c = false) end.
  { apply andb_false_iff. right. unfold curv_bad, sgtb. cbn. rewrite PQ. apply orb_false_iff. split.
      - apply Rltb_false. apply Rmult_le_pos; [|apply Rabs_pos]. unfold Q2R. simpl. lra.
      - apply Rleb_false. lra. }
  rewrite CB. eexists. split; [reflexivity|].
  assert (RR : iadd (ineg b) (iscale (dv (ip b b) (ip (iscale t b) (q_A q (iscale t b)))) (q_A q (iscale t b))) = ineg b).
  { rewrite PQ, AL. veq. }
  assert (RD : ip (ineg b) (ineg b) = ip b b) by (ipx; ring).
  unfold stuck. cbn. rewrite RR, RD, PQ, AL, BE, abs_sq.
  split; [veq|]. split; [reflexivity|]. split.
  { replace (match k with O => 1 | S _ => INR k + 1 end) with t by (unfold t; destruct k; simpl; lra). veq. }
  split; [reflexivity|]. split; [reflexivity|]. split; [lia|]. split; [reflexivity | lia].
Qed.
Lemma stuck_while : forall j k cnt st fuel, (k + j = mx)%nat -> (j < fuel)%nat -> stuck k cnt st ->
  exists st', while fuel (cg_cond q kw b res0) (cg_body q kw) st = Ok st' /\ stuck mx cnt st'.
Proof.
  induction j; intros k cnt st fuel Hk Hf H; (destruct fuel; [lia|]); cbn [while].
  - assert (k = mx) by lia. subst k. exists st. split; [|exact H].
    destruct H as (_ & _ & _ & _ & _ & Nm & _). unfold cg_cond. rewrite Nm. fold mx. rewrite Nat.ltb_irrefl, andb_false_r. reflexivity.
  - destruct (stuck_step _ _ _ H) as (st1 & B & H1). destruct H as (_ & _ & _ & _ & Rs & Nm & Df & _).
    replace (cg_cond q kw b res0 st) with true.
    + rewrite B. apply (IHj (S k)); [lia | lia | exact H1].
    + symmetry. unfold cg_cond, sgtb. rewrite Rs, Nm, Df. fold mx. rewrite !andb_true_iff. repeat split.
      * cbn. apply Rltb_true. exact thr_lt.
      * apply Nat.ltb_lt. lia.
Qed.

Theorem floor_cg : forall o cnt fuel, (mx < fuel)%nat ->
  exists o', cg_solve fuel q o b kw cnt = Ok (o', (cnt + mx)%nat) /\
    g_x o' = Some izero /\ g_conv o' = false /\ g_nmv o' = mx /\ g_def o' = Some true /\ g_residNorm o' = Some res0.
Proof.
  intros o cnt fuel Hf. unfold cg_solve. rewrite NS. cbn [negb].
  set (st0 := cg_init q kw o b cnt).
  assert (I0 : stuck 0 cnt st0).
  { unfold st0, cg_init, prec. rewrite NG, NP. unfold stuck. cbn.
    assert (RD : ip (ineg b) (ineg b) = ip b b) by (ipx; ring). rewrite RD, abs_sq.
    repeat split; try lia. veq. }
  assert (R0 : c_res st0 = res0) by (destruct I0 as (_ & _ & _ & _ & Rs & _); exact Rs).
  cbn zeta. rewrite R0. destruct (stuck_while mx 0 cnt st0 fuel eq_refl Hf I0) as (st & -> & H).
  destruct H as (X & _ & _ & _ & Rs & Nm & Df & Ct).
  eexists. split; [rewrite Ct; reflexivity|]. cbn. rewrite X, Rs, Nm, Df. repeat split.
  apply Rleb_false. exact thr_lt.
Qed.
End Floor.

(** CG on integers: [x] stays zero for the whole budget and is returned as not converged. *)
Theorem C99_floor_cg : forall dv sq (E : IPS) (q : kprob (exactV dv sq E)) (b : iv E) kw o cnt fuel,
  floor_ok dv -> sq_ok sq -> q_P q = None -> k_guess kw = None -> k_sym kw = false ->
  (forall a, q_A q (iscale a b) = iscale a (q_A q b)) ->
  (0 < ip b b)%R -> (ip b b < ip b (q_A q b))%R -> (q_abstol q < sqrt (ip b b))%R -> (q_reltol q < 1)%R ->
  let mx := @mmax _ (exactV dv sq E) (k_mmax kw) b in
  mx < fuel ->
  exists o', cg_solve fuel q o b kw cnt = Ok (o', cnt + mx) /\
    g_x o' = Some izero /\ g_conv o' = false /\ g_nmv o' = mx /\ g_def o' = Some true /\
    g_residNorm o' = Some (sqrt (ip b b)).
Proof. intros. apply floor_cg; auto. Qed.

(** diag(2, 3) x = (2, 3): the solution (1, 1) is an integer vector, yet CG returns (0, 0). *)
Section ExFloor.
Local Open Scope R_scope.
Definition fdv (a b : R) : R := IZR (Int_part (a / b)).
Definition exA (x : iv (Rn 2)) : iv (Rn 2) := let '(x1, (x2, t)) := x in (2 * x1, (3 * x2, t)).
Definition exq : kprob (exactV fdv sqrt (Rn 2)) :=
  @mkprob _ (exactV fdv sqrt (Rn 2)) 2 2 exA None (1 / 1000) (1 / 1000) (fun x => x) [].
Example ex_C99_floor :
  let b : iv (Rn 2) := (2, (3, tt)) in
  exA (1, (1, tt)) = b /\
  exists o', cg_solve 5 exq cg_new b cg_kw0 0 = Ok (o', 4%nat) /\ g_x o' = Some (@izero (Rn 2)) /\ g_conv o' = false.
Proof.
  intro b. split; [unfold exA, b; f_equal; [ring | f_equal; ring]|].
  destruct (C99_floor_cg fdv sqrt (Rn 2) exq b cg_kw0 cg_new 0%nat 5%nat) as (o' & H1 & H2 & H3 & _).
  - intros x y _. reflexivity.
  - intros x _. reflexivity.
  - reflexivity.
  - reflexivity.
  - reflexivity.
  - intros a. unfold b. cbn. f_equal; [ring | f_equal; ring].
  - unfold b. cbn. lra.
  - unfold b. cbn. lra.
  - apply Rlt_trans with 1; [cbn; lra|]. rewrite <- sqrt_1 at 1. apply sqrt_lt_1; unfold b; cbn; lra.
  - cbn. lra.
  - cbn. lia.
  - exists o'. auto.
Qed.
End ExFloor.

Print Assumptions C99_cg.
Print Assumptions C99_cgs.
Print Assumptions C99_bicgstab.
Print Assumptions C99_tfqmr.
Print Assumptions C99_minres.
Print Assumptions C99_lsqr.
Print Assumptions C99_lsmr.
Print Assumptions C99_craig.
Print Assumptions C99_craigmr.
Print Assumptions C99_integer.
Print Assumptions C99_floor_cg.
