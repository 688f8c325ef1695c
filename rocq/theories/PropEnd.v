(** * Property C87: from operator formulas to solutions.

    Exact arithmetic ([dv], [sq] as in Num.v), operators over the complex numbers.  Vocabulary:
    - [enc], [dec], [act] (ClientReal.v): vectors of R^n as float64 arrays, and the map between
      real spaces that an operator acting as [f] on lists of complex numbers induces;
    - [eval], [sem] (LinopExpr.v): running an operator formula, and its mathematical value;
    - [runk], [runl], [only_counters] (PropClient.v): running a solver on operator objects. *)
From Coq Require Import List ZArith Lia Bool Arith Reals Lra.
From Verif Require Import Base Num Field Vec ToolsModel CgModel CgProof KrylovModel LsqrModel MinresProof
  LinopModel LinopFrame LinopDep LinopGood LinopOps LinopExpr LinopPtr LinopExtra LinopMat PropLinop Cplx
  PropCg PropLsqr PropTerm Client CgClient LsClient ClientReal PropClient.
Import ListNotations.
Local Open Scope nat_scope.

Section End.
Variables (dv : R -> R -> R) (sq : R -> R).
Hypotheses (DV : dv_ok dv) (SQ : sq_ok sq).
Notation KK := (exactK dv sq).
Notation W n := (exactV dv sq (Rn n)).

(** CG, called with a right-hand side [b], an optional starting point and tolerances, and run on
    the object [a], returns a vector whose residual for the map [A] meets the stopping test,
    after at most [n] products (one more with a starting point); the products made are those
    reported, and apart from counters nothing changes. *)
Definition cg_solves (s : st FCR) (a : addr) (n : nat) (A : iv (Rn n) -> iv (Rn n)) : Prop :=
  forall (p : @kpar KK (W n)) (o : cg_obj (W n)) (b : iv (Rn n)) (kw : cg_kw (W n)) cnt,
  p_P p = false -> (0 <= (p_abstol p : R))%R -> k_sym kw = false -> k_mmax kw = None ->
  exists D, forall d, D <= d -> exists s' o' cnt' (x : iv (Rn n)),
    runk (F := FCR) (K := KK) (W := W n) (@enc n) (dec n) a a d (cgc_solve (2 * n + 1) p o b kw cnt) s = (s', Ok (Ok (o', cnt'))) /\
    only_counters s s' /\ g_conv o' = true /\ g_def o' = Some true /\ g_x o' = Some (x : vc (W n)) /\
    (inorm (isub b (A x)) <=
       Rmax (p_abstol p) (p_reltol p * inorm (isub b (A (@start _ (W n) kw b)))))%R /\
    count s' a = count s a + g_nmv o' /\
    g_nmv o' <= n + match k_guess kw with Some _ => 1 | None => 0 end.

Lemma cg_solves_of : forall (s : st FCR) a n dt f (A : iv (Rn n) -> iv (Rn n)), GoodD s a n n dt f ->
  (forall x, act n n f x = A x) -> selfadj A -> posdef A -> cg_solves s a n A.
Proof.
  intros s a n dt f A G EA SA PA p o b kw cnt NP AT NS MX.
  set (q := @mkprob KK (W n) (p_m p) (p_n p) (A : vc (W n) -> vc (W n)) None (p_abstol p) (p_reltol p) (p_cbrt p) (p_draws p)).
  assert (Ep : parof q = p) by (destruct p; cbn in NP; subst p_P; reflexivity).
  destruct (C37_Rn_default dv sq n q kw o b cnt DV SQ SA PA eq_refl AT NS MX) as (o' & cnt' & H & CV & DF & NM).
  destruct (C36_residual dv sq (Rn n) q kw o b cnt _ o' cnt' (adjoint_lin _ _ SA) SQ eq_refl NS H) as (x & Hx & _ & _ & RS).
  destruct (C35_counts KK (W n) q o b kw cnt _ o' cnt' NS H) as [CN _].
  assert (ST : stands s a (@enc n) (dec n) (q_A q)).
  { destruct (stands_act s a n n dt f G) as (n1 & m1 & d1 & g & G1 & S1). exists n1, m1, d1, g.
    split; [exact G1|]. intro z. destruct (S1 z) as (S2 & S3 & S4). split; [exact S2|]. split; [exact S3|].
    rewrite S4. apply EA. }
  destruct (C86_cg (K := KK) (W := W n) (@enc n) (dec n) s a a q ST ltac:(discriminate) (2 * n + 1) o b kw cnt) as [D HD].
  exists D. intros d Hd. destruct (HD d Hd) as (s' & E & OC & CC). rewrite Ep in E. rewrite H in E.
  exists s', o', cnt', x. split; [exact E|]. split; [exact OC|]. split; [exact CV|]. split; [exact DF|].
  split; [exact Hx|]. split; [apply RS; exact CV|]. split; [|exact NM].
  specialize (CC o' cnt' H ltac:(discriminate)). rewrite CN in CC. lia.
Qed.

(** ** A symmetric positive definite operator object. *)
Theorem C87_cg : forall (s : st FCR) a n m dt f o, GoodD s a n m dt f -> is_complex dt = false ->
  objs s a = Some o -> o_sym o = true -> posdef (act n n f : iv (Rn n) -> iv (Rn n)) ->
  m = n /\ cg_solves s a n (act n n f).
Proof.
  intros s a n m dt f o G RD Ho Sy PD.
  destruct (Good_attr _ _ _ _ _ (proj1 G)) as (o0 & H0 & _ & _ & HS & _).
  rewrite Ho in H0. injection H0 as <-. destruct (HS Sy) as [<- T].
  destruct (GoodD_act _ _ _ _ _ _ G RD) as [L RM].
  split; [reflexivity|]. apply (cg_solves_of s a n dt f); [exact G|reflexivity| |exact PD].
  exact (act_adjoint n n f f L RM L RM T).
Qed.

(** ** CGS, BiCGSTAB and TFQMR on such an object. *)
Theorem C87_family : forall (s : st FCR) a n m dt f o, GoodD s a n m dt f -> is_complex dt = false ->
  objs s a = Some o -> o_sym o = true -> posdef (act n n f : iv (Rn n) -> iv (Rn n)) ->
  forall (p : @kpar KK (W n)) (b : iv (Rn n)) (kw : kkw (W n)) cnt,
  p_P p = false -> (0 < (p_abstol p : R))%R -> w_mmax kw = None ->
  let r0 := isub b (act n n f (x_init dv sq (Rn n) kw)) in
  let th := Rmax (p_abstol p) (p_reltol p * inorm r0) in
  let solved (c : client (fun _ : lab => vc (W n)) (fun _ : lab => vc (W n)) (res (kout (W n) * nat))) k :=
    exists D, forall d, D <= d -> exists s' o' cnt',
      runk (F := FCR) (K := KK) (W := W n) (@enc n) (dec n) a a d c s = (s', Ok (Ok (o', cnt'))) /\
      only_counters s s' /\ KrylovModel.o_conv o' = true /\
      (inorm (isub b (act n n f (KrylovModel.o_x o'))) <= th)%R /\
      count s' a + cnt = count s a + cnt' /\ KrylovModel.o_nmv o' <= k in
  solved (cgsc_solve (2 * n + 2) p b kw cnt) (2 * n) /\
  solved (bic_solve (2 * n + 2) p b kw cnt) (Nat.max (match w_guess kw with Some _ => 1 | None => 0 end) (2 * n)) /\
  ((th < inorm r0)%R -> solved (tfc_solve (2 * n + 2) p b kw cnt) (2 * n - 1)).
Proof.
  intros s a n m dt f o G RD Ho Sy PD p b kw cnt NP AT MX r0 th solved.
  destruct (Good_attr _ _ _ _ _ (proj1 G)) as (o0 & H0 & _ & _ & HS & _).
  rewrite Ho in H0. injection H0 as <-. destruct (HS Sy) as [<- T].
  destruct (GoodD_act _ _ _ _ _ _ G RD) as [L RM].
  pose proof (act_adjoint n n f f L RM L RM T) as SA.
  set (q := @mkprob KK (W n) (p_m p) (p_n p) (act n n f : vc (W n) -> vc (W n)) None (p_abstol p) (p_reltol p) (p_cbrt p) (p_draws p)).
  assert (Ep : parof q = p) by (destruct p; cbn in NP; subst p_P; reflexivity).
  destruct (C72_spd dv sq n q b kw cnt DV SQ (adjoint_lin _ _ SA) SA PD eq_refl AT MX) as (S1 & S2 & S3).
  pose proof (stands_act _ _ _ _ _ _ G) as ST.
  assert (GO : forall c r k, same_run (F := FCR) (K := KK) (W := W n) (@enc n) (dec n) s a a (hasP q) c r cnt ->
    (exists o1 cnt1, r = Ok (o1, cnt1) /\ KrylovModel.o_conv o1 = true /\ KrylovModel.o_nmv o1 <= k /\ (inorm (isub b (q_A q (KrylovModel.o_x o1))) <= th)%R) ->
    solved c k).
  { intros c r k [D HD] (o1 & cnt1 & -> & CV & NM & RS). exists D. intros d Hd.
    destruct (HD d Hd) as (s' & E & OC & CC). exists s', o1, cnt1. split; [exact E|]. split; [exact OC|].
    split; [exact CV|]. split; [exact RS|]. split; [|exact NM]. apply (CC o1 cnt1 eq_refl). discriminate. }
  split; [|split].
  - rewrite <- Ep. eapply GO; [|exact S1]. apply C86_cgs; [exact ST|discriminate].
  - rewrite <- Ep. eapply GO; [|exact S2]. apply C86_bicgstab; [exact ST|discriminate].
  - intro LT. rewrite <- Ep. eapply GO; [|exact (S3 LT)]. apply C86_tfqmr; [exact ST|discriminate].
Qed.

(** ** A formula over real operators. *)
Lemma act_comp : forall n m k f g, linmap n m f -> real_map n f -> forall x : rv n,
  act n k (fun z => g (f z)) x = act m k g (act n m f x).
Proof. intros n m k f g L RM x. unfold act at 1 2. rewrite (act_emb n m f L RM). reflexivity. Qed.

(** For a real formula [e] of full column rank, CG solves the system of the formula [e.T * e],
    whatever the operators it is made of: no symmetry flag is needed. *)
Theorem C87_normal_equations : forall e env denv (s : st FCR) n m dt f, wfst s -> ewf e -> envok s env denv ->
  sem denv e = Ok (n, m, dt, f) -> is_complex dt = false ->
  (forall x : iv (Rn n), (act n m f x : iv (Rn m)) = izero -> x = izero) ->
  exists s' a At, eval env (EMul (ET e) e) s = (s', Ok a) /\
    @adjoint (Rn n) (Rn m) (act n m f) At /\ cg_solves s' a n (fun x => At (act n m f x)).
Proof.
  intros e env denv s n m dt f W We En Se RD INJ.
  assert (A1 := eval_agrees FCR_OK (EMul (ET e) e) env denv s W (conj We We) En).
  assert (A2 := eval_agrees FCR_OK (ET e) env denv s W We En).
  assert (A3 := eval_agrees FCR_OK e env denv s W We En).
  cbn [sem] in A1, A2. rewrite Se in A1, A2, A3. rewrite Nat.eqb_refl in A1. cbn [agrees] in *.
  rewrite result_type_idem in A1.
  destruct A1 as (s1 & a & E1 & _ & _ & G1), A2 as (s2 & a2 & _ & _ & _ & G2), A3 as (s3 & a3 & _ & _ & _ & G3).
  destruct (GoodD_act _ _ _ _ _ _ G2 RD) as [LT RT]. destruct (GoodD_act _ _ _ _ _ _ G3 RD) as [LF RF].
  assert (TR : is_transpose n m f (transposeOf n f)).
  { destruct (Good_T _ _ _ _ _ (proj1 G3)) as (t & g & _ & Gt & Tr). intros x y Hx Hy.
    rewrite (Tr x y Hx Hy). f_equal. apply (transposeOf_spec FCR_OK n m f g); [|exact Tr|exact Hy].
    intros z Hz. apply (lin_len _ _ _ (denotes_lin _ _ _ _ _ (Good_den _ _ _ _ _ Gt))). exact Hz. }
  assert (AD : @adjoint (Rn n) (Rn m) (act n m f) (act m n (transposeOf n f))) by (apply act_adjoint; assumption).
  exists s1, a, (act m n (transposeOf n f)). split; [exact E1|]. split; [exact AD|].
  apply (cg_solves_of s1 a n dt _ _ G1).
  - intro x. apply act_comp; assumption.
  - intros u v. rewrite <- (AD (act n m f u) v), (ip_sym u), <- (AD (act n m f v) u). apply ip_sym.
  - intros u Nu. rewrite (ip_sym u), <- (AD (act n m f u) u). apply ip_nz. intro Z. apply Nu, INJ. exact Z.
Qed.

(** With zero tolerances the vector returned for the right-hand side [A'c] is the least-squares
    solution of [A x = c]. *)
Theorem C87_least_squares : forall e env denv (s : st FCR) n m dt f, wfst s -> ewf e -> envok s env denv ->
  sem denv e = Ok (n, m, dt, f) -> is_complex dt = false ->
  (forall x : iv (Rn n), (act n m f x : iv (Rn m)) = izero -> x = izero) ->
  exists s' a At, eval env (EMul (ET e) e) s = (s', Ok a) /\ @adjoint (Rn n) (Rn m) (act n m f) At /\
  forall (c : iv (Rn m)) (p : @kpar KK (W n)) (o : cg_obj (W n)) (kw : cg_kw (W n)) cnt,
  p_P p = false -> (p_abstol p : R) = 0%R -> (p_reltol p : R) = 0%R -> k_sym kw = false -> k_mmax kw = None ->
  exists D, forall d, D <= d -> exists s'' o' cnt' (x : iv (Rn n)),
    runk (F := FCR) (K := KK) (W := W n) (@enc n) (dec n) a a d (cgc_solve (2 * n + 1) p o (At c) kw cnt) s' = (s'', Ok (Ok (o', cnt'))) /\
    g_x o' = Some (x : vc (W n)) /\
    forall z, (inorm (isub c (act n m f x : iv (Rn m))) <= inorm (isub c (act n m f z : iv (Rn m))))%R /\
      (inorm (isub c (act n m f x : iv (Rn m))) = inorm (isub c (act n m f z : iv (Rn m))) -> z = x).
Proof.
  intros e env denv s n m dt f W0 We En Se RD INJ.
  destruct (C87_normal_equations e env denv s n m dt f W0 We En Se RD INJ) as (s1 & a & At & Ev & AD & CS).
  exists s1, a, At. split; [exact Ev|]. split; [exact AD|]. intros c p o kw cnt NP A0 R0 NS MX.
  destruct (CS p o (At c) kw cnt NP ltac:(rewrite A0; lra) NS MX) as [D HD].
  exists D. intros d Hd. destruct (HD d Hd) as (s2 & o' & cnt' & x & E & _ & _ & _ & Hx & RS & _).
  exists s2, o', cnt', x. split; [exact E|]. split; [exact Hx|]. intro z.
  rewrite A0, R0, Rmult_0_l, Rmax_left in RS by lra.
  set (A := act n m f : iv (Rn n) -> iv (Rn m)) in *.
  assert (NE : isub (At c) (At (A x)) = izero) by (apply inorm_zero; pose proof (inorm_pos (isub (At c) (At (A x)))); lra).
  assert (OR : forall w, ip (isub c (A x)) (A w) = 0%R).
  { intro w. rewrite (AD _ w). pose proof (adjoint_lin_t _ _ AD) as LT. rewrite (lin_sub At LT), NE. rewrite ip_sym. apply ip_zero. }
  pose proof (adjoint_lin _ _ AD) as LA.
  assert (PY : ip (isub c (A z)) (isub c (A z)) = (ip (isub c (A x)) (isub c (A x)) + ip (A (isub x z)) (A (isub x z)))%R).
  { assert (S0 : isub c (A z) = iadd (isub c (A x)) (A (isub x z))) by (rewrite (lin_sub A LA); veq).
    rewrite S0. rewrite ip_addl, !ip_add. rewrite (ip_sym (A (isub x z))), !OR. ring. }
  split.
  - unfold inorm. apply sqrt_le_1; [apply ip_pos|apply ip_pos|]. rewrite PY. pose proof (ip_pos (A (isub x z))). lra.
  - unfold inorm. intro Eq. apply sqrt_inj in Eq; [|apply ip_pos|apply ip_pos]. rewrite PY in Eq.
    assert (Z : A (isub x z) = izero) by (apply ip_def; lra). apply INJ in Z.
    apply (@ip_ext (Rn n)). intro w.
    assert (I : ip (w : iv (Rn n)) (isub x z) = 0%R) by (rewrite Z; apply ip_zero). rewrite ip_sub in I.
    change (ip (w : iv (Rn n)) z = ip (w : iv (Rn n)) x). lra.
Qed.

(** ** LSQR on a rectangular formula: the transpose it uses is the attribute T of the formula, and
    it is the adjoint. *)
Theorem C87_lsqr : forall e env denv (s : st FCR) n m dt f, wfst s -> ewf e -> envok s env denv ->
  sem denv e = Ok (n, m, dt, f) -> is_complex dt = false ->
  exists s' a t At, eval env e s = (s', Ok a) /\ attrT s' a = Some t /\ @adjoint (Rn n) (Rn m) (act n m f) At /\
  forall (p : lpar) (kw : ls_kw (W n) (W m)) (b : iv (Rn m)) cnt fuel,
  a_M p = false -> a_N p = false -> l_M kw = None -> l_N kw = None -> 1 <= l_window kw -> l_wantvar kw = false ->
  Z.to_nat (if (l_itnlim kw =? 0)%Z then 3 * Z.of_nat (a_n p) else l_itnlim kw) < fuel ->
  exists D, forall d, D <= d -> exists s'' o cnt',
    runl (F := FCR) (K := KK) (WV := W n) (WU := W m) (@enc n) (dec n) (@enc m) (dec m) a t a a d (lsc_solve fuel p kw b cnt) s'
      = (s'', Ok (Ok (o, cnt'))) /\
    only_counters s' s'' /\
    let res (z : iv (Rn n)) := isub b (act n m f z : iv (Rn m)) in
    let nres (z : iv (Rn n)) := isub (At (res z)) (iscale (l_damp kw * l_damp kw)%R z) in
    let obj (z : iv (Rn n)) := (ip (res z) (res z) + l_damp kw * l_damp kw * ip z z)%R in
    (o_Arnorm o : R) = inorm (nres (o_x o)) /\
    o_itn o <= min n m + 1 /\
    (min n m <= o_itn o \/ (o_Arnorm o : R) = 0%R -> nres (o_x o) = izero /\ forall z, (obj (o_x o) <= obj z)%R) /\
    (t = a -> count s'' a + cnt = count s' a + cnt') /\
    (~ reach s' a t -> ~ reach s' t a -> count s'' a + count s'' t + cnt = count s' a + count s' t + cnt').
Proof.
  intros e env denv s n m dt f W0 We En Se RD.
  assert (A1 := eval_agrees FCR_OK e env denv s W0 We En). rewrite Se in A1.
  destruct A1 as (s1 & a & E1 & _ & _ & G1).
  destruct (GoodD_T _ _ _ _ _ _ G1 RD) as (t & g & Ht & Gt & AD).
  exists s1, a, t, (act m n g). split; [exact E1|]. split; [exact Ht|]. split; [exact AD|].
  intros p kw b cnt fuel ZM ZN NM NN HW NV HF.
  set (q := @mklprob KK (W n) (W m) (a_m p) (a_n p) (act n m f : vc (W n) -> vc (W m)) (act m n g : vc (W m) -> vc (W n))).
  destruct (C52_optimality dv sq DV SQ (Rn n) (Rn m) inorm inorm q kw b NM NN AD HW NV fuel cnt HF)
    as (o & cnt' & xs & H & _ & _ & AR & _ & OPT).
  destruct (C67_krylov dv sq DV SQ (Rn n) (Rn m) inorm inorm q kw b NM NN AD HW NV fuel cnt HF)
    as (o2 & cnt2 & xs2 & H2 & _ & _ & _ & _ & DM).
  rewrite H in H2. injection H2 as <- <-.
  assert (DM' : dim_le (Rn n) (min n m) \/ dim_le (Rn m) (min n m)).
  { destruct (Nat.min_dec n m) as [E|E]; rewrite E; [left|right]; apply Rn_dim. }
  destruct (DM (min n m)) as [D1 D2]; [destruct DM' as [D|D]; [left; exact D|right; left; exact D]|].
  assert (Ep : lparof q None None = p) by (destruct p; cbn in ZM, ZN; subst; reflexivity).
  destruct (C86_lsqr (K := KK) (WV := W n) (WU := W m) (@enc n) (dec n) (@enc m) (dec m) s1 a t a a q None None
    (stands_act _ _ _ _ _ _ G1) (stands_act _ _ _ _ _ _ Gt) ltac:(discriminate) ltac:(discriminate) fuel kw b cnt NM NN) as [D HD].
  exists D. intros d Hd. destruct (HD d Hd) as (s2 & E & OC & CC). rewrite Ep in E. rewrite H in E.
  exists s2, o, cnt'. split; [exact E|]. split; [exact OC|]. cbv zeta.
  split; [exact AR|]. split; [exact D1|]. split; [intros [L|Z]; [exact (D2 L)|exact (OPT Z)]|].
  apply (CC o cnt' H); intro Z; contradiction.
Qed.
End End.

(** ** Concrete cases.  With the 3 by 2 matrix [mA] of PropClient.v, the formula [2 * A] has full
    column rank and real dtype. *)
Definition eA : expr FCR := EScale (@mkscalar FCR DInt (rc 2)) (EVar 0).
Example ex_C87_normal : exists s env denv n m dt f, wfst s /\ ewf eA /\ envok s env denv /\
  sem denv eA = Ok (n, m, dt, f) /\ is_complex dt = false /\ n = 2 /\ m = 3 /\
  forall x : iv (Rn n), (act n m f x : iv (Rn m)) = izero -> x = izero.
Proof.
  destruct mA_builds as (s & a & _ & _ & Wf & G).
  exists s, [a], [(2, 3, DFloat, mat_vec mA)]. do 4 eexists. split; [exact Wf|].
  split. { cbn. split; [|exact I]. intros _. apply rc_real. }
  split. { constructor; [exact G|constructor]. }
  split; [reflexivity|]. split; [reflexivity|]. split; [reflexivity|]. split; [reflexivity|].
  intros [x [y []]] H. injection H as H1 H2 _. cbn in H1, H2.
  assert (x = 0)%R by lra. assert (y = 0)%R by lra. subst. reflexivity.
Qed.
(** A symmetric positive definite operator: the matrix [[2,1],[1,2]] declared symmetric. *)
Definition mS : list (list FCR) := [[rc 2; rc 1]; [rc 1; rc 2]].
Example ex_C87_cg : exists (s : st FCR) a o f, GoodD s a 2 2 DFloat f /\ objs s a = Some o /\ o_sym o = true /\
  posdef (act 2 2 f : iv (Rn 2) -> iv (Rn 2)).
Proof.
  assert (M : matok 2 2 mS) by (split; [reflexivity|]; intros r [<-|[<-|[]]]; reflexivity).
  assert (B : builds (ndarray_op DFloat 2 2 mS true None) (@empty_st FCR) 2 2 DFloat (mat_vec mS)).
  { assert (T : is_transpose 2 2 (mat_vec mS) (mat_vec mS)).
    { intros [|x [|x2 [|]]] [|y [|y2 [|]]] Hx Hy; try discriminate. destruct x, x2, y, y2. cbn. f_equal; ring. }
    apply (ndarray_builds FCR_OK); auto.
    - repeat split; auto.
    - intros _ r [<-|[<-|[]]]; unfold vreal, vconj; cbn [map]; rewrite !rc_real; reflexivity.
    - intros _. split; [reflexivity|].
      intros [|x [|x2 [|]]] [|y [|y2 [|]]] Hx Hy; try discriminate. destruct x, x2, y, y2. cbn. f_equal; ring. }
  destruct B as (s & a & E & _ & _ & G). unfold ndarray_op in E. cbn in E. injection E as Es Ea.
  subst s a. do 4 eexists. split; [exact G|]. split; [reflexivity|].
  split; [reflexivity|].
  intros [x [y []]] N. cbn.
  destruct (Req_dec x 0) as [->|Nx]; [destruct (Req_dec y 0) as [->|Ny]; [exfalso; apply N; reflexivity|nra]|].
  assert (0 < x * x)%R by nra. nra.
Qed.
Print Assumptions C87_cg.
Print Assumptions C87_normal_equations.
Print Assumptions C87_least_squares.
Print Assumptions C87_lsqr.
Print Assumptions C87_family.
