(** * C28-C34: the limited-memory BFGS operators of pykrylov/linop/lbfgs.py. *)
From Coq Require Import List ZArith QArith Qreals Reals Lra Lia Bool Arith String.
From Verif Require Import Base Num LbfgsModel LbfgsRing LbfgsMath LbfgsProof LbfgsFwd Gauss LbfgsCmp PyCall.
Import ListNotations.

(** ** C28.  No assumption on the arithmetic: this holds for floating point. *)
Theorem C28_memory : forall (K : Scal) (W : Vs K) (so : lsolve K) (k : kind) np sc (g : junk W) es st,
  (0 < np)%nat -> run (matvec so k) (lb_init np sc g) es = Ok st ->
  memory st = lastn np (accepted es) /\ List.length (memory st) = Nat.min np (List.length (accepted es)).
Proof.
  intros K W so k np sc g es st N H.
  destruct (run_ring _ _ _ _ _ _ (matvec_quiet so k) N H) as (_ & _ & R & _).
  rewrite (ring_memory _ _ R). split; [reflexivity|apply lastn_len].
Qed.

(** A store never fails; a rejected pair leaves the operator as it was; an accepted one becomes
    the newest pair, and the oldest is dropped if there were [npairs]. *)
Theorem C28_store : forall (K : Scal) (W : Vs K) (so : lsolve K) (k : kind) np sc (g : junk W) es st s y,
  (0 < np)%nat -> run (matvec so k) (lb_init np sc g) es = Ok st ->
  exists st', lb_store st s y = Ok st' /\
    (sleb (vdot s y) threshold = true -> st' = st) /\
    (sleb (vdot s y) threshold = false ->
       ((List.length (memory st) < np)%nat -> memory st' = memory st ++ [(s, y)]) /\
       (List.length (memory st) = np -> memory st' = tl (memory st) ++ [(s, y)])).
Proof.
  intros K W so k np sc g es st s y N H.
  destruct (run_ring _ _ _ _ _ _ (matvec_quiet so k) N H) as (E & _ & R & _).
  destruct (ring_store st _ s y R) as (st' & X & _ & _ & _ & A & B).
  exists st'. split; [exact X|]. split; [exact A|]. intro T. specialize (B T).
  rewrite (ring_memory _ _ R), (ring_memory _ _ B), E.
  set (l := lastn np (accepted es)). split; intro L.
  - apply lastn_small. rewrite app_length. cbn. lia.
  - unfold lastn at 1. rewrite app_length. cbn [List.length].
    replace (List.length l + 1 - np)%nat with 1%nat by lia.
    destruct l as [|p l]; [cbn in L; lia|reflexivity].
Qed.

Theorem C28_restart : forall (K : Scal) (W : Vs K) (so : lsolve K) (k : kind) np sc (g g' : junk W) es st,
  (0 < np)%nat -> run (matvec so k) (lb_init np sc g) es = Ok st ->
  memory (lb_restart st g') = [].
Proof.
  intros K W so k np sc g g' es st N H.
  destruct (run_ring _ _ _ _ _ _ (matvec_quiet so k) N H) as (_ & _ & R & _).
  apply ring_memory, (ring_restart st _ g' R).
Qed.

(** With [npairs = 0] the first acceptable pair raises IndexError. *)
Theorem C28_no_room : forall (K : Scal) (W : Vs K) sc (g : junk W) s y,
  sleb (vdot s y) threshold = false -> lb_store (lb_init 0 sc g) s y = Err IndexError.
Proof. intros K W sc g s y H. unfold lb_store. rewrite H. reflexivity. Qed.

(** ** C29-C33, exact arithmetic. *)
Section Exact.
Variables (dv : R -> R -> R) (sq : R -> R) (E : IPS).
Notation WW := (exactV dv sq E).
Notation V := (iv E).
Local Open Scope R_scope.

Lemma thr_pos : 0 < @threshold (exactK dv sq).
Proof. unfold threshold. cbn [slit exactK]. rewrite <- RMicromega.Q2R_0. apply Qlt_Rlt. reflexivity. Qed.

Lemma accepted_curved : forall es : list (event WW), Forall (@curved E) (accepted es).
Proof.
  intro es. induction es as [|e es IH] using rev_ind; [constructor|].
  unfold accepted. rewrite fold_left_app. cbn [fold_left]. fold (accepted es).
  destruct e as [s y|g|v]; cbn [accept]; [|constructor|exact IH].
  destruct (sleb (vdot s y) threshold) eqn:T; [exact IH|].
  apply Forall_app. split; [exact IH|]. constructor; [|constructor].
  apply Rleb_false in T. pose proof thr_pos. unfold curved. cbn [fst snd].
  eapply Rlt_trans; [exact H|exact T].
Qed.

Lemma lastn_curved : forall n (es : list (event WW)), Forall (@curved E) (lastn n (accepted es)).
Proof.
  intros n es. pose proof (accepted_curved es) as H. unfold lastn.
  rewrite <- (firstn_skipn (List.length (accepted es) - n) (accepted es)) in H.
  apply Forall_app in H. apply H.
Qed.

Definition pairs (np : nat) (es : list (event WW)) : list (V * V) := lastn np (accepted es).

(** The matrix that each class represents. *)
Definition matrix (k : kind) (sc : bool) (ps : list (V * V)) : V -> V :=
  match k with
  | KInverse => Hof (gam E sc ps) ps
  | KForward => Bof 1 ps
  | KCompact => Bof (/ gam E sc ps) ps
  end.

Hypothesis (DV : dv_ok dv) (SQ : sq_ok sq).
Variable so : lsolve (exactK dv sq).
Hypothesis SO : solver_ok dv sq so.

Lemma product : forall k np sc g es st v, (0 < np)%nat ->
  run (matvec so k) (lb_init np sc g) es = Ok st ->
  exists st', matvec so k st v = Ok (matrix k sc (pairs np es) v : vc WW, st').
Proof.
  intros k np sc g es st v N H.
  destruct (run_ring _ _ _ _ _ _ (matvec_quiet so k) N H) as (_ & S & R & G).
  pose proof (lastn_curved np es) as C. fold (pairs np es) in *.
  destruct k; cbn [matvec matrix].
  - rewrite <- S. apply inv_ok; assumption.
  - exists st. apply fwd_ok; try assumption. exact (v, v).
  - rewrite <- S. apply (cmp_ok dv sq E DV so st (pairs np es) v SO R C). intro Z. apply G. congruence.
Qed.

(** No call ever fails. *)
Theorem C28_total : forall k np sc (g : junk WW) es, (0 < np)%nat ->
  exists st, run (matvec so k) (lb_init np sc g) es = Ok st.
Proof.
  intros k np sc g es N. induction es as [|e es IH] using rev_ind; [eexists; reflexivity|].
  destruct IH as [st1 H1]. rewrite run_snoc, H1. cbn [rbind].
  destruct e as [s y|g'|v]; cbn [step].
  - destruct (C28_store _ _ so k np sc g es st1 s y N H1) as (st' & X & _). eauto.
  - eauto.
  - destruct (product k np sc g es st1 v N H1) as (st' & X). rewrite X. cbn. eauto.
Qed.

Theorem C29_two_loop : forall np sc g es st v, (0 < np)%nat ->
  run (matvec so KInverse) (lb_init np sc g) es = Ok st ->
  exists st', inv_matvec st v = Ok (Hof (gam E sc (pairs np es)) (pairs np es) v : vc WW, st').
Proof. exact (product KInverse). Qed.

(** The same for the other two classes. *)
Theorem C29_forward : forall np sc g es st v, (0 < np)%nat ->
  run (matvec so KForward) (lb_init np sc g) es = Ok st ->
  exists st', fwd_matvec st v = Ok (Bof 1 (pairs np es) v : vc WW, st').
Proof. exact (product KForward). Qed.

Lemma matrix_good : forall k sc np es, hgood (matrix k sc (pairs np es)).
Proof.
  intros k sc np es. pose proof (lastn_curved np es) as C. fold (pairs np es) in C.
  pose proof (of_good _ _ (gam_pos E sc _ C) C) as [GH GB _ _].
  pose proof (of_good _ _ Rlt_0_1 C) as [_ GB1 _ _]. rewrite Rinv_1 in GB1.
  destruct k; assumption.
Qed.

Theorem C30_symmetric : forall k np sc g es st u v Au Av st1 st2, (0 < np)%nat ->
  run (matvec so k) (lb_init np sc g) es = Ok st ->
  matvec so k st u = Ok (Au : vc WW, st1) -> matvec so k st v = Ok (Av, st2) ->
  ip (u : V) Av = ip (Au : V) v.
Proof.
  intros k np sc g es st u v Au Av st1 st2 N H A B.
  destruct (product k np sc g es st u N H) as (s1 & X). rewrite X in A. injection A as <- _.
  destruct (product k np sc g es st v N H) as (s2 & Y). rewrite Y in B. injection B as <- _.
  apply (hg_sym _ (matrix_good k sc np es)).
Qed.

Theorem C30_positive : forall k np sc g es st u Au st1, (0 < np)%nat ->
  run (matvec so k) (lb_init np sc g) es = Ok st ->
  matvec so k st u = Ok (Au : vc WW, st1) -> (u : V) <> izero -> 0 < ip (u : V) Au.
Proof.
  intros k np sc g es st u Au st1 N H A NZ.
  destruct (product k np sc g es st u N H) as (s1 & X). rewrite X in A. injection A as <- _.
  apply (hg_pos _ (matrix_good k sc np es)), NZ.
Qed.

(** A history whose last store is accepted, followed by any products. *)
Lemma accepted_last : forall (es : list (event WW)) s y vs, sleb (vdot s y) threshold = false ->
  accepted (es ++ EStore s y :: map EMul vs) = (accepted es ++ [(s, y)])%list.
Proof.
  intros es s y vs T. unfold accepted. rewrite fold_left_app. cbn [fold_left accept]. rewrite T.
  induction vs as [|v vs IH]; [reflexivity|]. cbn. exact IH.
Qed.

Lemma pairs_last : forall np es s y vs, (0 < np)%nat -> @sleb (exactK dv sq) (@vdot _ WW s y) threshold = false ->
  exists ps, pairs np (es ++ EStore s y :: map EMul vs) = (ps ++ [(s, y)])%list.
Proof.
  intros np es s y vs N T. unfold pairs. rewrite accepted_last by exact T.
  unfold lastn. rewrite app_length. cbn [List.length]. rewrite skipn_app.
  replace (List.length (accepted es) + 1 - np - List.length (accepted es))%nat with 0%nat by lia.
  eexists. reflexivity.
Qed.

Theorem C31_secant_inverse : forall np sc g es s y vs st, (0 < np)%nat ->
  @sleb (exactK dv sq) (@vdot _ WW s y) threshold = false ->
  run (matvec so KInverse) (lb_init np sc g) (es ++ EStore s y :: map EMul vs) = Ok st ->
  exists st', inv_matvec st y = Ok (s, st').
Proof.
  intros np sc g es s y vs st N T H.
  destruct (product KInverse _ _ _ _ _ y N H) as (st' & X). exists st'. etransitivity; [exact X|]. do 2 f_equal.
  pose proof (lastn_curved np (es ++ EStore s y :: map EMul vs)) as C. fold (pairs np (es ++ EStore s y :: map EMul vs)) in C.
  cbn [matrix]. pose proof (gam_pos E sc _ C) as G.
  destruct (pairs_last np es s y vs N T) as (ps & P). rewrite P in *.
  apply H_secant; assumption.
Qed.

Theorem C31_secant_forward : forall k np sc g es s y vs st, k <> KInverse -> (0 < np)%nat ->
  @sleb (exactK dv sq) (@vdot _ WW s y) threshold = false ->
  run (matvec so k) (lb_init np sc g) (es ++ EStore s y :: map EMul vs) = Ok st ->
  exists st', matvec so k st s = Ok (y, st').
Proof.
  intros k np sc g es s y vs st NK N T H.
  destruct (product k _ _ _ _ _ s N H) as (st' & X). exists st'. etransitivity; [exact X|]. do 2 f_equal.
  pose proof (lastn_curved np (es ++ EStore s y :: map EMul vs)) as C. fold (pairs np (es ++ EStore s y :: map EMul vs)) in C.
  pose proof (gam_pos E sc _ C) as G.
  destruct (pairs_last np es s y vs N T) as (ps & P).
  destruct k; [contradiction| |]; cbn [matrix]; rewrite P in *.
  - rewrite <- Rinv_1. apply B_secant; [apply Rlt_0_1|exact C].
  - apply B_secant; [exact G|exact C].
Qed.

(** C32: scaling off in the inverse operator (the forward operator ignores [scaling]). *)
Theorem C32_inverse_pair : forall np scf gi gf es sti stf v, (0 < np)%nat ->
  run (matvec so KInverse) (lb_init np false gi) es = Ok sti ->
  run (matvec so KForward) (lb_init np scf gf) es = Ok stf ->
  exists Hv Bv s1 s2 s3 s4,
    inv_matvec sti v = Ok (Hv : vc WW, s1) /\ fwd_matvec stf Hv = Ok (v, s2) /\
    fwd_matvec stf v = Ok (Bv, s3) /\ inv_matvec sti Bv = Ok (v, s4).
Proof.
  intros np scf gi gf es sti stf v N HI HF.
  pose proof (lastn_curved np es) as C. fold (pairs np es) in C.
  pose proof (of_good 1 _ Rlt_0_1 C) as [_ _ BH HB]. rewrite Rinv_1 in BH, HB.
  destruct (product KInverse _ _ _ _ _ v N HI) as (s1 & X1).
  destruct (product KForward _ _ _ _ _ v N HF) as (s3 & X3).
  destruct (product KForward _ _ _ _ _ (matrix KInverse false (pairs np es) v) N HF) as (s2 & X2).
  destruct (product KInverse _ _ _ _ _ (matrix KForward scf (pairs np es) v) N HI) as (s4 & X4).
  cbn [matrix gam matvec] in *.
  exists (Hof 1 (pairs np es) v), (Bof 1 (pairs np es) v), s1, s2, s3, s4.
  split; [exact X1|]. split; [rewrite X2; do 2 f_equal; apply BH|].
  split; [exact X3|]. rewrite X4. do 2 f_equal. apply HB.
Qed.

(** C33: the same setting of [scaling], on or off. *)
Theorem C33_compact_inverse : forall np sc gi gc es sti stc v, (0 < np)%nat ->
  run (matvec so KInverse) (lb_init np sc gi) es = Ok sti ->
  run (matvec so KCompact) (lb_init np sc gc) es = Ok stc ->
  exists Hv Bv s1 s2 s3 s4,
    inv_matvec sti v = Ok (Hv : vc WW, s1) /\ cmp_matvec so stc Hv = Ok (v, s2) /\
    cmp_matvec so stc v = Ok (Bv, s3) /\ inv_matvec sti Bv = Ok (v, s4).
Proof.
  intros np sc gi gc es sti stc v N HI HC.
  pose proof (lastn_curved np es) as C. fold (pairs np es) in C.
  pose proof (of_good _ _ (gam_pos E sc _ C) C) as [_ _ BH HB].
  destruct (product KInverse _ _ _ _ _ v N HI) as (s1 & X1).
  destruct (product KCompact _ _ _ _ _ v N HC) as (s3 & X3).
  destruct (product KCompact _ _ _ _ _ (matrix KInverse sc (pairs np es) v) N HC) as (s2 & X2).
  destruct (product KInverse _ _ _ _ _ (matrix KCompact sc (pairs np es) v) N HI) as (s4 & X4).
  cbn [matrix matvec] in *.
  exists (Hof (gam E sc (pairs np es)) (pairs np es) v), (Bof (/ gam E sc (pairs np es)) (pairs np es) v), s1, s2, s3, s4.
  split; [exact X1|]. split; [rewrite X2; do 2 f_equal; apply BH|].
  split; [exact X3|]. rewrite X4. do 2 f_equal. apply HB.
Qed.

Theorem C33_compact_forward : forall np scf gf gc es stf stc v, (0 < np)%nat ->
  run (matvec so KForward) (lb_init np scf gf) es = Ok stf ->
  run (matvec so KCompact) (lb_init np false gc) es = Ok stc ->
  exists Bv s1 s2, cmp_matvec so stc v = Ok (Bv : vc WW, s1) /\ fwd_matvec stf v = Ok (Bv, s2).
Proof.
  intros np scf gf gc es stf stc v N HF HC.
  destruct (product KForward _ _ _ _ _ v N HF) as (s1 & X1).
  destruct (product KCompact _ _ _ _ _ v N HC) as (s2 & X2).
  cbn [matrix matvec gam] in *. rewrite Rinv_1 in X2. eauto 8.
Qed.
End Exact.

(** With [scaling=True] the forward operator is not the inverse of the inverse operator. *)
Section Ex2.
Local Open Scope R_scope.
Notation D2 := (exactV Rdiv sqrt (Rn 2)).
Definition vec (a b : R) : rv 2 := (a, (b, tt)).
Definition g2 : junk D2 := @mkjunk _ D2 (fun _ => vec 7 7) (fun _ => vec 8 8) (fun _ => 9).
Definition so2 : lsolve (exactK Rdiv sqrt) := gauss_solve Rdiv sqrt.
Lemma DV2 : dv_ok Rdiv. Proof. intros a b _. reflexivity. Qed.
Lemma SQ2 : sq_ok sqrt. Proof. intros a _. reflexivity. Qed.
Lemma SO2 : solver_ok Rdiv sqrt so2. Proof. apply gauss_solver_ok. Qed.

(** A pair is accepted as soon as its product is at least one. *)
Lemma accept2 : forall s y : rv 2, 1 <= rvdot s y -> @sleb (exactK Rdiv sqrt) (@vdot _ D2 s y) threshold = false.
Proof.
  intros s y H. apply Rleb_false. apply Rlt_le_trans with 1; [|exact H].
  unfold threshold. cbn [slit exactK]. rewrite <- RMicromega.Q2R_1. apply Qlt_Rlt. reflexivity.
Qed.

Definition es32 : list (event D2) := [@EStore _ D2 (vec 1 0) (vec 2 0)].
Lemma pairs32 : pairs Rdiv sqrt (Rn 2) 5 es32 = [(vec 1 0, vec 2 0)].
Proof.
  unfold pairs, es32, accepted. cbn [fold_left accept].
  rewrite accept2 by (cbn; lra). reflexivity.
Qed.

Theorem C32_scaling_refuted : exists es sti stf (v Hv w : vc D2) s1 s2,
  run (matvec so2 KInverse) (lb_init 5 true g2) es = Ok sti /\
  run (matvec so2 KForward) (lb_init 5 true g2) es = Ok stf /\
  inv_matvec sti v = Ok (Hv, s1) /\ fwd_matvec stf Hv = Ok (w, s2) /\ w <> v.
Proof.
  assert (N : (0 < 5)%nat) by lia.
  destruct (C28_total Rdiv sqrt (Rn 2) DV2 SQ2 so2 SO2 KInverse 5 true g2 es32 N) as (sti & HI).
  destruct (C28_total Rdiv sqrt (Rn 2) DV2 SQ2 so2 SO2 KForward 5 true g2 es32 N) as (stf & HF).
  destruct (product Rdiv sqrt (Rn 2) DV2 SQ2 so2 SO2 KInverse _ _ _ _ _ (vec 0 1) N HI) as (s1 & X1).
  destruct (product Rdiv sqrt (Rn 2) DV2 SQ2 so2 SO2 KForward _ _ _ _ _
              (matrix (Rn 2) KInverse true (pairs Rdiv sqrt (Rn 2) 5 es32) (vec 0 1)) N HF) as (s2 & X2).
  eexists es32, sti, stf, (vec 0 1), _, _, s1, s2.
  split; [exact HI|]. split; [exact HF|]. split; [exact X1|]. split; [exact X2|].
  rewrite pairs32. unfold matrix, gam, Hof, Bof, Hupd, Bupd, vec, isub, ineg. cbn. intro X.
  injection X as _ X. match type of X with ?l = _ => assert (Y : l = 1 / 2) by (field; lra) end. lra.
Qed.

(** Every hypothesis above is met by a history that wraps around, with a rejected pair, a restart
    and products, for the three classes, with and without scaling. *)
Definition es_ex : list (event D2) :=
  [ @EStore _ D2 (vec 5 5) (vec 1 0); @ERestart _ D2 g2; @EStore _ D2 (vec 1 0) (vec 2 1);
    @EStore _ D2 (vec 1 0) (vec (-1) 0); @EMul _ D2 (vec 1 1);
    @EStore _ D2 (vec 1 1) (vec 2 0); @EStore _ D2 (vec 0 1) (vec 1 3); @EMul _ D2 (vec 0 1) ].
Example ex_C28 : forall k sc, exists st,
  run (matvec so2 k) (lb_init 2 sc g2) es_ex = Ok st /\
  memory st = [ (vec 1 1, vec 2 0); (vec 0 1, vec 1 3) ].
Proof.
  intros k sc.
  destruct (C28_total Rdiv sqrt (Rn 2) DV2 SQ2 so2 SO2 k 2 sc g2 es_ex ltac:(lia)) as (st & H).
  exists st. split; [exact H|].
  destruct (C28_memory _ _ so2 k 2 sc g2 es_ex st ltac:(lia) H) as [M _]. etransitivity; [exact M|].
  unfold es_ex, accepted. cbn [fold_left accept].
  rewrite !accept2 by (cbn; lra).
  assert (RJ : @sleb (exactK Rdiv sqrt) (@vdot _ D2 (vec 1 0) (vec (-1) 0)) threshold = true).
  { apply Rleb_true. apply Rle_trans with 0; [cbn; lra|]. apply Rlt_le, thr_pos. }
  rewrite RJ. rewrite !accept2 by (cbn; lra). reflexivity.
Qed.
Example ex_C31 : @sleb (exactK Rdiv sqrt) (@vdot _ D2 (vec 0 1) (vec 1 3)) threshold = false.
Proof. apply accept2. cbn. lra. Qed.
End Ex2.

(** ** C34: [StructuredLBFGSOperator] cannot be built. *)
Section C34.
Variables (val : Type) (five : val).
Open Scope string_scope.

Lemma fill_err : forall (ps : params val) pos e, fill val ps pos = Err e -> e = TypeError.
Proof.
  intros ps pos. revert ps. induction pos as [|v pos IH]; intros [|[p d] ps] e H; cbn in H; try discriminate.
  - injection H as <-. reflexivity.
  - destruct (fill val ps pos) eqn:F; [discriminate|]. cbn in H. injection H as <-. eapply IH, F.
Qed.
Lemma named_err : forall (ps : params val) kw e, named val ps kw = Err e -> e = TypeError.
Proof.
  intros ps kw. induction ps as [|[p d] ps IH]; intros e H; cbn in H; [discriminate|].
  destruct (lookup val p kw), d; try (destruct (named val ps kw) eqn:F; cbn in H; [discriminate|injection H as <-; eapply IH; reflexivity]).
  injection H as <-. reflexivity.
Qed.
Lemma call_err : forall (ps : params val) pos kw e, call val ps pos kw = Err e -> e = TypeError.
Proof.
  intros ps pos kw e H. unfold call in H.
  destruct (fill val ps pos) as [[env rest]|e'] eqn:F; cbn in H; [|injection H as <-; eapply fill_err, F].
  destruct (existsb _ env); [injection H as <-; reflexivity|].
  destruct (named val rest kw) as [env2|e'] eqn:M; cbn in H; [discriminate|].
  injection H as <-. eapply named_err, M.
Qed.

Theorem C34_structured : forall (obj : Type) (body : dict val -> dict val -> res obj) (rest : obj -> res obj)
    (self : val) (pos : list val) (kw : dict val),
  structured_init val five obj body rest self pos kw = Err TypeError.
Proof.
  intros obj body rest self pos kw. unfold structured_init.
  destruct (call val (lbfgs_params val five) (self :: pos) kw) as [[env kwargs]|e] eqn:C; cbn [rbind].
  - reflexivity.
  - apply call_err in C. subst e. reflexivity.
Qed.

(** The three other classes can: their constructor receives [self], [n] and possibly [npairs], by
    position or by name, and passes the other keywords on. *)
Theorem C34_others : forall (obj : Type) (body : dict val -> dict val -> res obj) (self n : val) (kw : dict val),
  (forall k, In k ["self"; "n"] -> lookup val k kw = None) ->
  inverse_init val five obj body [self; n] kw =
  body [("self", self); ("n", n); ("npairs", get val kw "npairs" five)]
       (filter (fun p => negb (existsb (fun q => String.eqb (fst p) (fst q)) (lbfgs_params val five))) kw).
Proof.
  intros obj body self n kw H. unfold inverse_init, call, get. cbn [fill lbfgs_params rmap rbind fst snd existsb].
  rewrite (H "self") by (left; reflexivity). rewrite (H "n") by (right; left; reflexivity).
  cbn [is_some orb named]. destruct (lookup val "npairs" kw); reflexivity.
Qed.
End C34.
Example ex_C34 : structured_init nat 5%nat unit (fun _ _ => Ok tt) (fun o => Ok o) 0%nat [10; 3]%nat [("scaling"%string, 1%nat)] = Err TypeError
  /\ inverse_init nat 5%nat _ (fun env kw => Ok (env, kw)) [0; 10]%nat [("scaling"%string, 1%nat)] =
     Ok ([("self", 0%nat); ("n", 10%nat); ("npairs", 5%nat)], [("scaling", 1%nat)])%string.
Proof. split; reflexivity. Qed.

Print Assumptions C28_memory.
Print Assumptions C28_store.
Print Assumptions C28_restart.
Print Assumptions C28_no_room.
Print Assumptions C28_total.
Print Assumptions C29_two_loop.
Print Assumptions C29_forward.
Print Assumptions C30_symmetric.
Print Assumptions C30_positive.
Print Assumptions C31_secant_inverse.
Print Assumptions C31_secant_forward.
Print Assumptions C32_inverse_pair.
Print Assumptions C32_scaling_refuted.
Print Assumptions C33_compact_inverse.
Print Assumptions C33_compact_forward.
Print Assumptions C34_structured.
Print Assumptions C34_others.
