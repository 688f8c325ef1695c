(** * Property C98: saddle-point systems built with block operators, solved by preconditioned MINRES *)
From Coq Require Import List ZArith Lia Bool Arith QArith Reals Lra Qreals.
From Verif Require Import Base Num Field Vec BlkModel BlkProof BlkSet BlkSpec BlkSym BlkSymErr BlkDiag BlkDiagOps PropEnd2 ToolsModel CgModel MinresModel MinresProof PropMinres Precon Cheb RateMath MinresStop
  PropRateLs PropMinresStop SaddleMath LinopModel LinopFrame LinopGood LinopDep LinopOps PropLinop Cplx Client ClientReal CgClient MrClient PropClient PropEnd LinopExpr LinopPtr LinopExtra LinopMat.
Import ListNotations.
Local Open Scope R_scope.

(** ** R^(n+m) as pairs *)
Section Split.
Variables (N n m : nat) (H : N = (n + m)%nat).
Definition ladd (l l' : list R) : list R := map (fun p => fst p + snd p) (combine l l').
Fixpoint ldot (l l' : list R) : R := match l, l' with a :: l, b :: l' => a * b + ldot l l' | _, _ => 0 end.
Definition ls1 (z : rv N) : rv n := oflist n (firstn n (tolist z)).
Definition ls2 (z : rv N) : rv m := oflist m (skipn n (tolist z)).
Definition lpair (x : rv n) (y : rv m) : rv N := oflist N (tolist x ++ tolist y).
Lemma tolist_pair : forall x y, tolist (lpair x y) = tolist x ++ tolist y.
Proof. intros x y. unfold lpair. apply tolist_oflist. rewrite app_length, !tolist_len. symmetry. exact H. Qed.
Lemma tolist_inj : forall k (x y : rv k), tolist x = tolist y -> x = y.
Proof. intros k x y E. rewrite <- (oflist_tolist k x), E. apply oflist_tolist. Qed.
Lemma tolist_add : forall k (x y : rv k), tolist (rvadd x y) = ladd (tolist x) (tolist y).
Proof. induction k as [|k IH]; intros x y; [reflexivity|]. cbn. unfold ladd in *. rewrite IH. reflexivity. Qed.
Lemma tolist_scale : forall k a (x : rv k), tolist (rvscale a x) = map (Rmult a) (tolist x).
Proof. induction k as [|k IH]; intros a x; [reflexivity|]. cbn. rewrite IH. reflexivity. Qed.
Lemma tolist_dot : forall k (x y : rv k), rvdot x y = ldot (tolist x) (tolist y).
Proof. induction k as [|k IH]; intros x y; [reflexivity|]. cbn. rewrite IH. reflexivity. Qed.
Lemma ladd_app : forall l1 l1' l2 l2', length l1 = length l1' -> ladd (l1 ++ l2) (l1' ++ l2') = ladd l1 l1' ++ ladd l2 l2'.
Proof.
  induction l1 as [|a l1 IH]; intros [|b l1'] l2 l2' L; try discriminate; [reflexivity|].
  injection L as L. cbn. unfold ladd in *. cbn. rewrite IH by exact L. reflexivity.
Qed.
Lemma ldot_app : forall l1 l1' l2 l2', length l1 = length l1' -> ldot (l1 ++ l2) (l1' ++ l2') = ldot l1 l1' + ldot l2 l2'.
Proof.
  induction l1 as [|a l1 IH]; intros [|b l1'] l2 l2' L; try discriminate; cbn; [ring|].
  injection L as L. rewrite IH by exact L. ring.
Qed.
Definition lsplit : split (Rn N) (Rn n) (Rn m).
Proof.
  refine (mksplit (Rn N) (Rn n) (Rn m) ls1 ls2 lpair _ _ _ _ _ _).
  - intro z. apply tolist_inj. rewrite tolist_pair. unfold ls1, ls2.
    rewrite !tolist_oflist; [apply firstn_skipn| |]; rewrite ?skipn_length, ?firstn_length, tolist_len; lia.
  - intros x y. unfold ls1. rewrite tolist_pair. rewrite firstn_app, tolist_len, Nat.sub_diag, firstn_all2 by (rewrite tolist_len; lia).
    cbn. rewrite app_nil_r. apply oflist_tolist.
  - intros x y. unfold ls2. rewrite tolist_pair. rewrite skipn_app, tolist_len, Nat.sub_diag, skipn_all2 by (rewrite tolist_len; lia).
    apply oflist_tolist.
  - intros x y x' y'. apply tolist_inj. cbn [iadd Rn]. rewrite tolist_add, !tolist_pair, ladd_app by (rewrite !tolist_len; reflexivity).
    rewrite <- !tolist_add. reflexivity.
  - intros a x y. apply tolist_inj. cbn [iscale Rn]. rewrite tolist_scale, !tolist_pair, map_app, <- !tolist_scale. reflexivity.
  - intros x y x' y'. cbn [ip Rn]. rewrite !tolist_dot, !tolist_pair, ldot_app by (rewrite !tolist_len; reflexivity). reflexivity.
Defined.
End Split.

(** ** Three iterations *)
Section Three.
Variables (dv : R -> R -> R) (sq : R -> R).
Hypothesis DV : dv_ok dv.
Hypothesis SQ : sq_ok sq.
Variables E E1 E2 : IPS.
Variable S : split E E1 E2.
Notation KK := (exactK dv sq).
Notation WW := (exactV dv sq E).
Variables (A Ai : iv E1 -> iv E1) (B : iv E1 -> iv E2) (Bt : iv E2 -> iv E1) (Si : iv E2 -> iv E2).
Notation K := (saddle S A B Bt).
Notation P := (blockpre S Ai Si).
Notation pnorm z := (sqrt (ip z (P z))).
Hypothesis SA : selfadj A.
Hypothesis AB : adjoint B Bt.
Hypothesis SAi : selfadj Ai.
Hypothesis PAi : posdef Ai.
Hypothesis SSi : selfadj Si.
Hypothesis PSi : posdef Si.
Hypothesis IA : forall x, A (Ai x) = x.
Hypothesis IS : forall y, B (Ai (Bt (Si y))) = y.

Lemma eps_half : @machine_eps KK <= / 2.
Proof. unfold machine_eps. cbn. unfold Q2R. cbn. lra. Qed.

Theorem C98_three : forall (q : kprob WW) (kw : mr_kw WW) (b : iv E) fuel hist cnt o cnt',
  (forall z, q_A q z = K z) -> (forall z, match m_precon kw with Some Q => Q z | None => z end = P z) -> m_shift kw = 0 ->
  @mr_solve KK WW fuel q hist b kw cnt = Ok (o, cnt') ->
  (exists xs : list (iv E), length xs = u_itn o /\
     (u_hist o : list R) = hist ++ map (fun z => pnorm (isub b (K z))) xs /\
     (u_x o : iv E) = last xs izero /\ (forall i z, nth_error xs i = Some z -> (2 <= i)%nat -> K z = b)) /\
  (0 <= (m_rtol kw : R) ->
   let v := iscale (/ pnorm b) b in
   10 * @machine_eps KK * pnorm b < pnorm (isub (K (P v)) (iscale (ip (P v) (K (P v))) v)) -> (u_itn o <= 3)%nat).
Proof.
  intros q kw b fuel hist cnt o cnt' QA QP SH H.
  pose proof (saddle_sym S A B Bt SA AB) as SK. pose proof (blockpre_sym S Ai Si SAi SSi) as SP.
  pose proof (blockpre_pos S Ai Si PAi PSi) as PP.
  set (Pm := match m_precon kw with Some P => P | None => fun z => z end : iv E -> iv E).
  assert (EP : forall z, Pm z = P z) by (intro z; rewrite <- QP; unfold Pm; destruct (m_precon kw); reflexivity).
  set (At := fun z : iv E => isub (q_A q z : iv E) (iscale (m_shift kw) z)).
  assert (EK : forall z : iv E, At z = K z) by (intro z; unfold At; rewrite QA, SH; veq).
  assert (SA' : selfadj (q_A q : iv E -> iv E)) by (intros x y; rewrite !QA; apply SK).
  assert (SP' : selfadj Pm) by (intros x y; rewrite !EP; apply SP).
  assert (PP' : posdef Pm) by (intros x Hx; rewrite !EP; apply PP; exact Hx).
  assert (AN : ann (fun z : iv E => At (Pm z)) golden b = izero).
  { rewrite <- (saddle_ann S A Ai B Bt Si SA AB SAi SSi IA IS b).
    assert (X : forall (f g : iv E -> iv E), (forall z, f z = g z) -> forall ls u, ann f ls u = ann g ls u).
    { intros f g FG. induction ls as [|l ls IH]; intro u; cbn [ann]; [reflexivity|]. rewrite IH, FG. reflexivity. }
    apply X. intro z. rewrite EK, EP. reflexivity. }
  assert (SG : forall (k : nat) (z : iv E), kry (fun z => At (Pm z)) b k z ->
    @machine_eps KK * sqrt (ip z (Pm z)) <= sqrt (ip (At (Pm z)) (Pm (At (Pm z))))).
  { intros k z _. rewrite !EK, !EP. pose proof (sT_lower S A Ai B Bt Si SA AB SAi PAi SSi PSi IA IS z) as L. unfold sT in L.
    eapply Rle_trans; [|exact L]. apply Rmult_le_compat_r; [apply sqrt_pos|apply eps_half]. }
  split.
  - destruct (C90_minres_eigenvalues dv sq DV SQ E q kw b SA' SP' PP' SG golden golden_nz AN fuel hist cnt o cnt' H)
      as (xs & X1 & X2 & X3 & X4).
    exists xs. split; [exact X1|]. split.
    { rewrite X2. f_equal. apply map_ext. intro z. change (sqrt (ip (isub b (At z)) (Pm (isub b (At z)))) = pnorm (isub b (K z))).
      rewrite EP, EK. reflexivity. }
    split; [exact X3|]. intros i z Hz Hi. rewrite <- EK. apply (X4 i z Hz). cbn. lia.
  - intros RT v NE.
    assert (NE' : 10 * @machine_eps KK * sqrt (ip b (Pm b)) < let u := iscale (/ sqrt (ip b (Pm b))) b in
      let w := isub (At (Pm u)) (iscale (ip (Pm u) (At (Pm u))) u) in sqrt (ip w (Pm w))).
    { cbv zeta. rewrite !EP, !EK. exact NE. }
    refine (C90_minres_stops_eigenvalues dv sq DV SQ E q kw b SA' SP' PP' RT NE' SG golden golden_nz AN _ fuel hist cnt o cnt' H).
    cbn. lia.
Qed.
End Three.

(** ** The operators built by BlockLinearOperator and BlockDiagonalLinearOperator *)
Section Blocks.
Variables (n m : nat).
Notation N := (sum_nat [n; m]).
Lemma sumN : N = (n + m)%nat.
Proof. cbn. lia. Qed.
Notation SS := (lsplit N n m sumN).

Lemma emb_pair : forall (x : rv n) (y : rv m), emb (pair2 SS x y : rv N) = emb x ++ emb y.
Proof. intros x y. unfold emb. cbn [pair2 lsplit]. rewrite (tolist_pair N n m sumN), map_app. reflexivity. Qed.
Lemma emb_s1 : forall z : rv N, emb (sp1 SS z : rv n) = firstn n (emb z).
Proof.
  intro z. unfold emb. cbn [sp1 lsplit]. unfold ls1. rewrite tolist_oflist; [symmetry; apply firstn_map|].
  rewrite firstn_length, tolist_len. pose proof sumN. lia.
Qed.
Lemma emb_s2 : forall z : rv N, emb (sp2 SS z : rv m) = skipn n (emb z).
Proof.
  intro z. unfold emb. cbn [sp2 lsplit]. unfold ls2. rewrite tolist_oflist; [symmetry; apply skipn_map|].
  rewrite skipn_length, tolist_len. pose proof sumN. lia.
Qed.
Lemma emb_add : forall k (x y : rv k), emb (rvadd x y) = vadd (emb x) (emb y).
Proof.
  induction k as [|k IH]; intros x y; [reflexivity|]. destruct x as [a x], y as [b y].
  change (emb (rvadd ((a, x) : rv (S k)) (b, y))) with (((a + b)%R, 0%R) :: emb (rvadd x y)).
  rewrite IH. change (vadd (emb ((a, x) : rv (S k))) (emb ((b, y) : rv (S k)))) with (((a + b)%R, (0 + 0)%R) :: vadd (emb x) (emb y)).
  rewrite Rplus_0_l. reflexivity.
Qed.
Lemma emb_izero : forall k, emb (@izero (Rn k) : rv k) = @vzero FCR k.
Proof.
  induction k as [|k IH]; [reflexivity|].
  change (emb (@izero (Rn (S k)) : rv (S k))) with ((0%R, 0%R) :: emb (@izero (Rn k) : rv k)). rewrite IH. reflexivity.
Qed.
Lemma act_emb_inv : forall k l f (x : rv k) (y : rv l), f (emb x) = emb y -> act k l f x = y.
Proof.
  intros k l f x y E. unfold act. rewrite E. unfold emb. rewrite map_map. cbn. rewrite map_id. apply oflist_tolist.
Qed.
Lemma firstn_s2 : forall z : rv N, firstn m (skipn n (emb z)) = skipn n (emb z).
Proof. intro z. apply firstn_all2. rewrite skipn_length, emb_len. pose proof sumN. lia. Qed.
Lemma act_diag : forall (g : nat -> (list FCR -> list FCR)) (Ai : rv n -> rv n) (Si : rv m -> rv m),
  (forall x, g 0%nat (emb x) = emb (Ai x)) -> (forall y, g 1%nat (emb y) = emb (Si y)) ->
  forall z, act N N (bdmap [n; m] g) z = @blockpre (Rn N) (Rn n) (Rn m) SS Ai Si z.
Proof.
  intros g Ai Si H0 H1 z. apply act_emb_inv. rewrite bdmap_spec. unfold diagmap, slice, blockpre.
  rewrite emb_pair, <- H0, <- H1, emb_s1, emb_s2. cbn [length seq map concat nth firstn skipn sum_nat fold_right].
  rewrite (Nat.add_0_r n), firstn_s2, app_nil_r. reflexivity.
Qed.
Lemma act_block : forall (G : nat -> nat -> (list FCR -> list FCR)) (A : rv n -> rv n) (B : rv n -> rv m) (Bt : rv m -> rv n),
  (forall x, G 0 0 (emb x) = emb (A x))%nat -> (forall y, G 0 1 (emb y) = emb (Bt y))%nat ->
  (forall x, G 1 0 (emb x) = emb (B x))%nat -> (forall y : rv m, G 1 1 (emb y) = @vzero FCR m)%nat ->
  forall z, act N N (bmap [n; m] [n; m] G) z = @saddle (Rn N) (Rn n) (Rn m) SS A B Bt z.
Proof.
  intros G A B Bt H00 H01 H10 H11 z. apply act_emb_inv. rewrite bmap_spec. unfold blkmap, slice, saddle, vsum.
  rewrite emb_pair. cbn [length seq map concat nth firstn skipn sum_nat fold_right fold_left].
  rewrite (Nat.add_0_r n), firstn_s2, app_nil_r, <- emb_s1, <- emb_s2, H00, H01, H10, H11.
  change (@iadd (Rn n)) with (@rvadd n). rewrite emb_add.
  rewrite !(vadd_zero_l FCR_OK), (vadd_zero_r FCR_OK) by apply emb_len. reflexivity.
Qed.
End Blocks.

(** BlockLinearOperator([[A, B'], [0]], symmetric=True), then BlockDiagonalPreconditioner([inv A, inv S]),
    whose method [solve] (blkop.py:259-276) is the product.
    Only the flag [symmetric] of the diagonal blocks is assumed; that they are symmetric follows. *)
Theorem C98_build : forall (s : st FCR) r0 r1 og a bt z ai si n m A Bt Ai Si oa oz, wfst s ->
  rows s r0 = Some [Some a; Some bt] -> rows s r1 = Some [Some z] -> rows s og = Some [Some ai; Some si] -> og <> r0 ->
  let u := norows [r0; r1] s in
  acts u a n n A -> acts u bt m n Bt -> acts u z m m (fun _ => @izero (Rn m)) -> acts u ai n n Ai -> acts u si m m Si ->
  objs s a = Some oa -> o_sym oa = true -> objs s z = Some oz -> o_sym oz = true ->
  exists s1 k s2 p (B : iv (Rn n) -> iv (Rn m)),
    block_op true false [r0; r1] s = (s1, Ok k) /\ bdiag_op og s1 = (s2, Ok p) /\ ext u s2 /\ k <> p /\
    selfadj A /\ adjoint B Bt /\
    acts s2 k (sum_nat [n; m]) (sum_nat [n; m]) (saddle (lsplit _ n m (sumN n m)) A B Bt) /\
    acts s2 p (sum_nat [n; m]) (sum_nat [n; m]) (blockpre (lsplit _ n m (sumN n m)) Ai Si).
Proof.
  intros s r0 r1 og a bt z ai si n m A Bt Ai Si oa oz W R0 R1 RG NG u HA HB HZ HAi HSi Oa Sa Oz Sz.
  destruct HA as (da & fa & Ga & Ca & Ea), HB as (db & fb & Gb & Cb & Eb), HZ as (dz & fz & Gz & Cz & Ez),
    HAi as (dai & fai & Gai & Cai & Eai), HSi as (dsi & fsi & Gsi & Csi & Esi).
  destruct (GoodD_act _ _ _ _ _ _ Ga Ca) as [La Ra]. destruct (GoodD_act _ _ _ _ _ _ Gb Cb) as [Lb Rb].
  destruct (GoodD_act _ _ _ _ _ _ Gz Cz) as [Lz Rz].
  destruct (GoodD_act _ _ _ _ _ _ Gai Cai) as [Lai Rai]. destruct (GoodD_act _ _ _ _ _ _ Gsi Csi) as [Lsi Rsi].
  set (U := fun i j : nat => match i, j with 0, 0 => a | 0, _ => bt | _, _ => z end%nat).
  set (dts := fun i j : nat => match i, j with 0, 0 => da | 0, _ => db | _, _ => dz end%nat).
  set (g := fun i j : nat => match i, j with 0, 0 => fa | 0, _ => fb | _, _ => fz end%nat).
  destruct (block_op_sym FCR_OK true s [r0; r1] [n; m] U dts g W) as
    (dt & s1 & UT & G & Hdt & E1 & X1 & W1 & N1 & _ & _ & HG & HD & GK & A' & dA & GO & SI & _).
  { discriminate. } { reflexivity. }
  { intros [|[|i]] Hi; cbn in Hi; [exact R0|exact R1|lia]. }
  { intros [|[|i]] [|[|j]] Hij Hj; cbn in Hj; try lia; assumption. }
  { intros [|[|i]] Hi; cbn in Hi; [exists oa|exists oz|lia]; auto. }
  assert (Cdt : is_complex dt = false).
  { rewrite (result_types_complex _ _ Hdt). cbn. rewrite Ca, Cb, Cz. reflexivity. }
  assert (D1 : is_complex (dA 1 0)%nat = false).
  { destruct (is_complex (dA 1 0)%nat) eqn:C; [|reflexivity].
    rewrite <- Cdt. symmetry. apply (si_dt _ _ _ _ _ _ _ _ _ SI 1 0)%nat; cbn; auto. }
  destruct (GoodD_act _ _ _ _ _ _ (si_good _ _ _ _ _ _ _ _ _ SI 1 0 ltac:(cbn; auto) ltac:(cbn; auto))%nat D1) as [Lc Rc]. cbn [nth] in Lc, Rc.
  assert (Rog : rows s1 og = Some [Some ai; Some si]).
  { apply (ext_row _ _ X1). rewrite norows_out; [exact RG|]. cbn. intros [Q|[Q|[]]]; [congruence|].
    rewrite <- Q, R1 in RG. discriminate. }
  set (gd := fun i : nat => match i with 0 => fai | _ => fsi end%nat).
  set (Ad := fun i : nat => match i with 0 => ai | _ => si end%nat).
  set (dd := fun i : nat => match i with 0 => dai | _ => dsi end%nat).
  assert (Gd : forall i, (i < length [n; m])%nat -> GoodD s1 (Ad i) (nth i [n; m] 0%nat) (nth i [n; m] 0%nat) (dd i) (gd i)).
  { intros [|[|i]] Hi; cbn in Hi; try lia; cbn [Ad dd gd nth]; eapply GoodD_mono; eauto. }
  destruct (bdiag_bdst FCR_OK s1 s1 og [n; m] [n; m] Ad dd gd W1 (ext_refl s1) ltac:(discriminate) eq_refl Rog Gd) as
    (s2 & ob & b & bT & bH & dt2 & A2 & E2 & X2 & W2 & N2 & Hob & Hdt2 & Bd & DT & DH & _).
  assert (GP : GoodD s2 (nxt s1) (sum_nat [n; m]) (sum_nat [n; m]) dt2 (bdmap [n; m] gd)).
  { eapply (bd_square FCR_OK); eauto.
    - intros C i Hi. unfold allf in C. rewrite forallb_forall in C.
      apply (Good_flag true s1 (Ad i) _ _ _ _ (ob (Ad i)) (Gd i Hi) (Hob i Hi)). cbn. apply C. apply in_seq. lia.
    - intros C i Hi. unfold allf in C. rewrite forallb_forall in C.
      apply (Good_flag false s1 (Ad i) _ _ _ _ (ob (Ad i)) (Gd i Hi) (Hob i Hi)). cbn. apply C. apply in_seq. lia. }
  assert (Cdt2 : is_complex dt2 = false).
  { rewrite (result_types_complex _ _ Hdt2). cbn. rewrite Cai, Csi. reflexivity. }
  set (B := act n m (G 1 0)%nat).
  exists s1, (nxt s), s2, (nxt s1), B. split; [exact E1|]. split; [exact E2|]. split; [eapply ext_trans; eauto|].
  split; [lia|].
  assert (SA : selfadj (A : iv (Rn n) -> iv (Rn n))).
  { assert (T : is_transpose n n fa fa).
    { assert (oa' : exists o, objs u a = Some o /\ o_sym o = true) by (exists oa; auto).
      destruct oa' as (o & Ho & So). exact (Good_flag true u a _ _ _ _ o Ga Ho So). }
    pose proof (act_adjoint n n fa fa La Ra La Ra T) as AA. intros x y. rewrite <- !Ea. exact (AA x y). }
  assert (G01 : G 0%nat 1%nat = fb) by (rewrite HG by lia; reflexivity).
  assert (AB : adjoint (B : iv (Rn n) -> iv (Rn m)) (Bt : iv (Rn m) -> iv (Rn n))).
  { pose proof (HD 1 0 ltac:(cbn; auto) ltac:(cbn; auto))%nat as T. cbn [nth is_dual] in T. rewrite G01 in T.
    pose proof (act_adjoint n m _ fb Lc Rc Lb Rb T) as AA. intros x y. unfold B. rewrite <- !Eb. exact (AA x y). }
  split; [exact SA|]. split; [exact AB|]. split.
  - exists dt, (bmap [n; m] [n; m] G). split; [eapply GoodD_mono; eauto|]. split; [exact Cdt|].
    apply act_block; intro x; rewrite ?HG by lia; cbn [g].
    + rewrite <- Ea. symmetry. apply act_emb; assumption.
    + rewrite <- Eb. symmetry. apply act_emb; assumption.
    + symmetry. apply act_emb; assumption.
    + rewrite <- (emb_izero m). rewrite <- (Ez x). symmetry. apply act_emb; assumption.
  - exists dt2, (bdmap [n; m] gd). split; [exact GP|]. split; [exact Cdt2|].
    apply act_diag; intro x; cbn [gd].
    + rewrite <- Eai. symmetry. apply act_emb; assumption.
    + rewrite <- Esi. symmetry. apply act_emb; assumption.
Qed.

(** ** Minres on the heap *)
Lemma adjoint_ext : forall (X Y : IPS) (B B' : iv X -> iv Y) Bt, adjoint B Bt -> adjoint B' Bt -> forall x, B x = B' x.
Proof. intros X Y B B' Bt H H' x. apply ip_ext. intro w. rewrite (H w x), (H' w x). reflexivity. Qed.

Section Heap.
Variables (dv : R -> R -> R) (sq : R -> R).
Hypotheses (DV : dv_ok dv) (SQ : sq_ok sq).
Notation KK := (exactK dv sq).
Notation W n := (exactV dv sq (Rn n)).

Theorem C98_minres : forall (s : st FCR) r0 r1 og a bt z ai si n m A B Bt Ai Si oa oz
    (cbrt : R -> R) (draws : list (iv (Rn (sum_nat [n; m])))) (kw : mr_kw (W (sum_nat [n; m]))) (b : iv (Rn (sum_nat [n; m]))) hist cnt fuel,
  wfst s -> rows s r0 = Some [Some a; Some bt] -> rows s r1 = Some [Some z] -> rows s og = Some [Some ai; Some si] -> og <> r0 ->
  let u := norows [r0; r1] s in
  acts u a n n A -> acts u bt m n Bt -> acts u z m m (fun _ => @izero (Rn m)) -> acts u ai n n Ai -> acts u si m m Si ->
  objs s a = Some oa -> o_sym oa = true -> objs s z = Some oz -> o_sym oz = true ->
  adjoint B Bt -> selfadj Ai -> posdef Ai -> selfadj Si -> posdef Si ->
  (forall x, A (Ai x) = x) -> (forall y, B (Ai (Bt (Si y))) = y) ->
  let S := lsplit _ n m (sumN n m) in
  let P := blockpre S Ai Si in
  let pnorm (w : iv (Rn (sum_nat [n; m]))) := sqrt (ip w (P w)) in
  m_precon kw = Some P -> m_shift kw = 0 -> m_pm kw = sum_nat [n; m] -> m_pn kw = sum_nat [n; m] ->
  0 <= cbrt (@machine_eps KK) -> (1 <= MinresModel.m_window kw)%nat -> (mr_lim kw b < fuel)%nat ->
  exists s1 k s2 p,
    block_op true false [r0; r1] s = (s1, Ok k) /\ bdiag_op og s1 = (s2, Ok p) /\ ext u s2 /\
    exists D, forall d, (D <= d)%nat -> exists s3 o cnt',
      runk (F := FCR) (K := KK) (W := W (sum_nat [n; m])) (@enc _) (dec _) k p d
        (mrc_solve fuel (@mkmpar KK (W (sum_nat [n; m])) (sum_nat [n; m]) (sum_nat [n; m]) true (sum_nat [n; m]) (sum_nat [n; m]) cbrt draws (m_pdraws kw))
          hist b kw cnt) s2 = (s3, Ok (Ok (o, cnt'))) /\
      only_counters s2 s3 /\ In (u_istop o) [-1; 0; 1; 2; 3; 4; 6; 10]%Z /\
      let x : iv (Rn n) := sp1 S (u_x o) in let y : iv (Rn m) := sp2 S (u_x o) in
      ((3 <= u_itn o)%nat -> iadd (A x) (Bt y) = sp1 S b /\ B x = sp2 S b) /\
      (0 <= (m_rtol kw : R) ->
       let v := iscale (/ pnorm b) b in let K := saddle S A B Bt in
       10 * @machine_eps KK * pnorm b < pnorm (isub (K (P v)) (iscale (ip (P v) (K (P v))) v)) -> (u_itn o <= 3)%nat).
Proof.
  intros s r0 r1 og a bt z ai si n m A B Bt Ai Si oa oz cbrt draws kw b hist cnt fuel W0 R0 R1 RG NG u HA HB HZ HAi HSi Oa Sa Oz Sz
    AB SAi PAi SSi PSi IA IS S P pnorm KP SH PM PN CB HW HF.
  destruct (C98_build s r0 r1 og a bt z ai si n m A Bt Ai Si oa oz W0 R0 R1 RG NG HA HB HZ HAi HSi Oa Sa Oz Sz)
    as (s1 & k & s2 & p & B' & E1 & E2 & X & NKP & SA & AB' & AK & AP). fold S in AK, AP. fold P in AP.
  set (NN := sum_nat [n; m]) in *.
  set (K := saddle S A B Bt).
  assert (AK' : acts s2 k NN NN K).
  { destruct AK as (dt & f & G & C & E). exists dt, f. split; [exact G|]. split; [exact C|]. intro w. rewrite E.
    unfold K, saddle. rewrite (adjoint_ext _ _ _ _ _ AB' AB). reflexivity. }
  assert (SK : selfadj (K : iv (Rn NN) -> iv (Rn NN))) by (apply saddle_sym; assumption).
  assert (SP : selfadj (P : iv (Rn NN) -> iv (Rn NN))) by (apply blockpre_sym; assumption).
  assert (PP : posdef (P : iv (Rn NN) -> iv (Rn NN))) by (apply blockpre_pos; assumption).
  assert (PO : pre_obj s2 p NN (m_precon kw)) by (rewrite KP; split; [exact AP|split; assumption]).
  assert (SG : forall w : iv (Rn NN), @machine_eps KK * sqrt (ip w (pmap (m_precon kw) w)) <=
    sqrt (ip (isub (K (pmap (m_precon kw) w)) (iscale (m_shift kw : R) (pmap (m_precon kw) w)))
       (pmap (m_precon kw) (isub (K (pmap (m_precon kw) w)) (iscale (m_shift kw : R) (pmap (m_precon kw) w)))))).
  { intro w. rewrite KP, SH. cbn [pmap].
    replace (isub (K (P w)) (iscale 0 (P w))) with (K (P w)) by veq.
    pose proof (sT_lower S A Ai B Bt Si SA AB SAi PAi SSi PSi IA IS w) as L. unfold sT in L.
    eapply Rle_trans; [|exact L]. apply Rmult_le_compat_r; [apply sqrt_pos|apply eps_half]. }
  exists s1, k, s2, p. split; [exact E1|]. split; [exact E2|]. split; [exact X|].
  destruct (C91_minres dv sq DV SQ s2 k p NN K cbrt draws kw b hist cnt fuel AK' SK PO PM PN CB HW HF SG) as [D1 H1].
  set (q := @mkprob KK (W NN) NN NN (K : vc (W NN) -> vc (W NN)) None 0%R 0%R cbrt draws).
  destruct (C47_stopping KK (W NN) q kw b fuel hist cnt HF HW) as (o & cnt' & H & _).
  destruct (C86_minres (K := KK) (W := W NN) (@enc NN) (dec NN) s2 k p q (acts_stands _ _ _ _ _ AK') fuel hist b kw cnt (pre_stands _ _ _ _ PO)) as [D2 H2].
  rewrite H in H2.
  exists (Nat.max D1 D2). intros d Hd.
  destruct (H1 d ltac:(lia)) as (s3 & o1 & c1 & Q1 & OC & _ & _ & IST & _).
  destruct (H2 d ltac:(lia)) as (s4 & Q2 & _). unfold mparof in Q2. cbn [q_m q_n q_cbrt q_draws q] in Q2. rewrite PM, PN in Q2.
  rewrite Q2 in Q1. injection Q1 as <- <- <-. rewrite KP in Q2.
  exists s4, o, cnt'. split; [exact Q2|]. split; [exact OC|]. split; [exact IST|].
  destruct (C98_three dv sq DV SQ (Rn NN) (Rn n) (Rn m) S A Ai B Bt Si SA AB SAi PAi SSi PSi IA IS q kw b fuel hist cnt o cnt'
    (fun w => eq_refl)) as [T1 T2].
  { intro w. rewrite KP. reflexivity. } { exact SH. } { exact H. }
  destruct T1 as (xs & LX & _ & EX & T1). split.
  - intro L3.
    assert (HL : nth_error xs (u_itn o - 1) = Some (u_x o : iv (Rn NN))).
    { rewrite EX, <- LX. destruct xs as [|x0 xs]; [exfalso; change (0 = u_itn o)%nat in LX; rewrite <- LX in L3; inversion L3|]. replace (length (x0 :: xs) - 1)%nat with (length xs) by (cbn; lia).
      clear. revert x0. induction xs as [|y xs IH]; intro x0; [reflexivity|]. cbn [nth_error length]. rewrite IH. reflexivity. }
    pose proof (T1 _ _ HL ltac:(lia)) as Q. unfold saddle in Q.
    split; rewrite <- Q; [rewrite sp_fst|rewrite sp_snd]; reflexivity.
  - exact T2.
Qed.
End Heap.

(** ** A concrete case: A = [[2, 1], [1, 2]], B = [1, 0], with the inverses of A and of B inv(A) B' = 2/3. *)
Definition sxAi : list (list FCR) := [[rc (2 / 3); rc (- / 3)]; [rc (- / 3); rc (2 / 3)]].
Definition sxBt : list (list FCR) := [[rc 1]; [rc 0]].
Definition sxZ : list (list FCR) := [[rc 0]].
Definition sxSi : list (list FCR) := [[rc (3 / 2)]].
Definition sxA : iv (Rn 2) -> iv (Rn 2) := act 2 2 (mat_vec mS).
Definition sxB (x : iv (Rn 2)) : iv (Rn 1) := ((fst x : R), tt).
Definition sxb : iv (Rn (sum_nat [2; 1]%nat)) := (0, (0, (1, tt))).
Ltac two := intros ? [<-|[<-|[]]]; unfold vreal, vconj; cbn [map]; rewrite ?rc_real; reflexivity.
Ltac one := intros ? [<-|[]]; unfold vreal, vconj; cbn [map]; rewrite ?rc_real; reflexivity.
Ltac tr2 := intros [|x [|x2 [|]]] [|y [|y2 [|]]] Hx Hy; try discriminate; destruct x, x2, y, y2; cbn; f_equal; ring.
Ltac tr1 := intros [|x [|]] [|y [|]] Hx Hy; try discriminate; destruct x, y; cbn; f_equal; ring.
Example ex_C98 : exists (s : st FCR) r0 r1 og a bt z ai si (A : iv (Rn 2) -> iv (Rn 2)) (B : iv (Rn 2) -> iv (Rn 1)) Bt Ai Si oa oz,
  wfst s /\ rows s r0 = Some [Some a; Some bt] /\ rows s r1 = Some [Some z] /\ rows s og = Some [Some ai; Some si] /\ og <> r0 /\
  let u := norows [r0; r1] s in
  acts u a 2 2 A /\ acts u bt 1 2 Bt /\ acts u z 1 1 (fun _ => @izero (Rn 1)) /\ acts u ai 2 2 Ai /\ acts u si 1 1 Si /\
  objs s a = Some oa /\ o_sym oa = true /\ objs s z = Some oz /\ o_sym oz = true /\
  adjoint B Bt /\ selfadj Ai /\ posdef Ai /\ selfadj Si /\ posdef Si /\
  (forall x, A (Ai x) = x) /\ (forall y, B (Ai (Bt (Si y))) = y) /\
  let S := lsplit _ 2 1 (sumN 2 1) in let P := blockpre S Ai Si in let K := saddle S A B Bt in
  let pnorm (w : iv (Rn (sum_nat [2; 1]%nat))) := sqrt (ip w (P w)) in
  let v := iscale (/ pnorm sxb) sxb in
  10 * @machine_eps (exactK Rdiv sqrt) * pnorm sxb < pnorm (isub (K (P v)) (iscale (ip (P v) (K (P v))) v)).
Proof.
  assert (B1 : forall s0 : st FCR, wfst s0 -> builds (ndarray_op DFloat 2 2 mS true None) s0 2 2 DFloat (mat_vec mS)).
  { intros s0 Wf. apply (ndarray_builds FCR_OK); auto; [split; [reflexivity|two]|intros _; two| |]; intros _; (split; [reflexivity|tr2]). }
  assert (B2 : forall s0 : st FCR, wfst s0 -> builds (ndarray_op DFloat 2 1 sxBt false None) s0 1 2 DFloat (mat_vec sxBt)).
  { intros s0 Wf. apply (ndarray_builds FCR_OK); auto; try discriminate; [split; [reflexivity|two]|intros _; two]. }
  assert (B3 : forall s0 : st FCR, wfst s0 -> builds (ndarray_op DFloat 1 1 sxZ true None) s0 1 1 DFloat (mat_vec sxZ)).
  { intros s0 Wf. apply (ndarray_builds FCR_OK); auto; [split; [reflexivity|one]|intros _; one| |]; intros _; (split; [reflexivity|tr1]). }
  assert (B4 : forall s0 : st FCR, wfst s0 -> builds (ndarray_op DFloat 2 2 sxAi true None) s0 2 2 DFloat (mat_vec sxAi)).
  { intros s0 Wf. apply (ndarray_builds FCR_OK); auto; [split; [reflexivity|two]|intros _; two| |]; intros _; (split; [reflexivity|tr2]). }
  assert (B5 : forall s0 : st FCR, wfst s0 -> builds (ndarray_op DFloat 1 1 sxSi true None) s0 1 1 DFloat (mat_vec sxSi)).
  { intros s0 Wf. apply (ndarray_builds FCR_OK); auto; [split; [reflexivity|one]|intros _; one| |]; intros _; (split; [reflexivity|tr1]). }
  destruct (B1 (@empty_st FCR)) as (s1 & a & E1 & _ & W1 & G1); [repeat split; auto|].
  destruct (B3 s1 W1) as (s2 & z & E2 & X2 & W2 & G2).
  assert (Oa : exists oa, objs s2 a = Some oa /\ o_sym oa = true).
  { unfold ndarray_op in E1. cbn in E1. injection E1 as <- <-. unfold ndarray_op in E2. cbn in E2. injection E2 as <- <-.
    eexists. split; reflexivity. }
  assert (Oz : exists oz, objs s2 z = Some oz /\ o_sym oz = true).
  { unfold ndarray_op in E1. cbn in E1. injection E1 as <- <-. unfold ndarray_op in E2. cbn in E2. injection E2 as <- <-.
    eexists. split; reflexivity. }
  destruct (B2 s2 W2) as (s3 & bt & E3 & X3 & W3 & G3).
  destruct (B4 s3 W3) as (s4 & ai & E4 & X4 & W4 & G4).
  destruct (B5 s4 W4) as (s5 & si & E5 & X5 & W5 & G5).
  assert (RW5 : forall i, rows s5 i = None).
  { clear - E1 E2 E3 E4 E5.
    unfold ndarray_op in E1. cbn in E1. injection E1 as <- <-. unfold ndarray_op in E2. cbn in E2. injection E2 as <- <-.
    unfold ndarray_op in E3. cbn in E3. injection E3 as <- <-. unfold ndarray_op in E4. cbn in E4. injection E4 as <- <-.
    unfold ndarray_op in E5. cbn in E5. injection E5 as <- <-. reflexivity. }
  destruct Oa as (oa & Oa & Sa). destruct Oz as (oz & Oz & Sz).
  pose proof (ext_trans _ _ _ (ext_trans _ _ _ X3 X4) X5) as X25.
  destruct (ext_obj _ _ X25 _ _ Oa) as (oa5 & Oa5 & Ma). destruct (ext_obj _ _ X25 _ _ Oz) as (oz5 & Oz5 & Mz).
  set (s := mkst (nxt s5) (objs s5) (narr s5) (arrs s5) 3 (nth_error [[Some a; Some bt]; [Some z]; [Some ai; Some si]])).
  assert (XS : ext s5 (norows [0; 1]%nat s)).
  { constructor; auto.
    - intros i o H. exists o. split; auto. apply same_refl.
    - intros i r H. rewrite RW5 in H. discriminate H. }
  exists s, 0%nat, 1%nat, 2%nat, a, bt, z, ai, si, sxA, sxB, (act 1 2 (mat_vec sxBt)), (act 2 2 (mat_vec sxAi)), (act 1 1 (mat_vec sxSi)), oa5, oz5.
  split. { destruct W5 as (H1 & H2 & _). split; [exact H1|]. split; [exact H2|]. intros i Hi. now apply nth_error_None. }
  split; [reflexivity|]. split; [reflexivity|]. split; [reflexivity|]. split; [discriminate|].
  intro u.
  assert (MK : forall c n m rows f, (forall x, act n m (mat_vec rows) x = f x) -> GoodD s5 c n m DFloat (mat_vec rows) -> acts u c n m f).
  { intros c n m rws f Hf G. exists DFloat, (mat_vec rws). split; [eapply GoodD_mono; [exact XS|exact G]|]. split; [reflexivity|exact Hf]. }
  split. { apply (MK a 2 2 mS)%nat; [reflexivity|]. eapply GoodD_mono; [|exact G1]. eapply ext_trans; [exact X2|exact X25]. }
  split. { apply (MK bt 1 2 sxBt)%nat; [reflexivity|]. eapply GoodD_mono; [|exact G3]. eapply ext_trans; eassumption. }
  split. { apply (MK z 1 1 sxZ)%nat; [|eapply GoodD_mono; [|exact G2]; exact X25]. intros [x []]. cbn. f_equal. ring. }
  split. { apply (MK ai 2 2 sxAi)%nat; [reflexivity|]. eapply GoodD_mono; [|exact G4]. exact X5. }
  split. { apply (MK si 1 1 sxSi)%nat; [reflexivity|]. exact G5. }
  split; [exact Oa5|]. split; [rewrite <- Sa; symmetry; apply (stable_sym _ _ Ma)|]. split; [exact Oz5|].
  split; [rewrite <- Sz; symmetry; apply (stable_sym _ _ Mz)|].
  split. { intros [y []] [x1 [x2 []]]. cbn. ring. }
  split. { intros [x1 [x2 []]] [y1 [y2 []]]. cbn. ring. }
  split. { intros [x [y []]] Nz. cbn.
    assert (0 < x * x + y * y).
    { destruct (Req_dec x 0) as [->|Nx]; [destruct (Req_dec y 0) as [->|Ny]; [exfalso; apply Nz; reflexivity|nra]|]. nra. }
    pose proof (Rle_0_sqr (x - y)) as Q. unfold Rsqr in Q. nra. }
  split. { intros [x []] [y []]. cbn. ring. }
  split. { intros [x []] Nz. cbn. destruct (Req_dec x 0) as [->|Nx]; [exfalso; apply Nz; reflexivity|nra]. }
  split. { intros [x1 [x2 []]]. cbn. f_equal; [field|]. f_equal. field. }
  split. { intros [y []]. unfold sxB. cbn. f_equal. field. }
  intros S P K pnorm v.
  assert (PB : pnorm sxb = sqrt (3 / 2)) by (unfold pnorm; f_equal; cbn; field).
  assert (P32 : 0 < sqrt (3 / 2)) by (apply sqrt_lt_R0; lra).
  assert (Q32 : sqrt (3 / 2) * sqrt (3 / 2) = 3 / 2) by (apply sqrt_sqrt; lra).
  assert (I32 : / sqrt (3 / 2) * / sqrt (3 / 2) = 2 / 3).
  { rewrite <- Rinv_mult_distr by lra. rewrite Q32. field. }
  match goal with |- _ < pnorm ?w => assert (PW : ip w (P w) = 1) end.
  { unfold v. rewrite PB. set (t := / sqrt (3 / 2)) in *. cbn.
    match goal with |- ?l = 1 => replace l with (t * t * (3 / 2)) by field end. rewrite I32. field. }
  unfold pnorm at 2. rewrite PW, sqrt_1, PB.
  assert (sqrt (3 / 2) < 2) by nra. cbn. unfold Q2R. cbn. lra.
Qed.
Print Assumptions C98_three.
Print Assumptions C98_build.
Print Assumptions C98_minres.
