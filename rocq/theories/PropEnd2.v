(** * Property C91: the preconditioned solvers on operator objects.

    The operator, its transpose and the preconditioners are objects of the heap.  Vocabulary as in
    PropEnd.v ([enc], [dec], [act], [runk], [runl], [only_counters]). *)
From Coq Require Import List ZArith Lia Bool Arith Reals Lra Qreals.
From Verif Require Import Base Num Field Vec ToolsModel PropTools CgModel CgProof MinresModel MinresProof PropMinres
  LsqrModel LsmrModel CraigModel CraigProof LinopModel LinopFrame LinopDep LinopGood LinopOps LinopExpr LinopPtr
  LinopExtra LinopMat PropLinop Cplx Precon RateMath PropRate PropPrecon Client CgClient MrClient LsClient ClientReal PropClient PropEnd.
Import ListNotations.
Local Open Scope nat_scope.

(** ** A positive definite map of R^n has an inverse. *)
Lemma lift_choice : forall (E : IPS) (N : iv E -> iv E), lin N -> forall k (j : iv (Rn k) -> iv E), @lin (Rn k) E j ->
  (forall z, exists x, N x = j z) -> exists g : iv (Rn k) -> iv E, forall z, N (g z) = j z.
Proof.
  intros E N LN. induction k as [|k IH]; intros j Lj H.
  - destruct (H (@izero (Rn 0))) as [x Hx]. exists (fun _ => x). intros []. exact Hx.
  - set (j' := fun z : iv (Rn k) => j ((0%R, z) : iv (Rn (S k)))).
    destruct (IH j') as [g Hg].
    + split; intros.
      * unfold j'. rewrite <- (Num.lin_add _ Lj). f_equal. cbn. f_equal. ring.
      * unfold j'. rewrite <- (Num.lin_scale _ Lj). f_equal. cbn. f_equal. ring.
    + intro z. apply H.
    + destruct (H ((1%R, @izero (Rn k)) : iv (Rn (S k)))) as [w Hw].
      exists (fun z : iv (Rn (S k)) => iadd (iscale (fst z) w) (g (snd z))).
      intros [a z]. cbn [fst snd]. rewrite (Num.lin_add _ LN), (Num.lin_scale _ LN), Hw, Hg. unfold j'.
      rewrite <- (Num.lin_scale _ Lj), <- (Num.lin_add _ Lj). f_equal. cbn. f_equal; [ring|].
      apply (@ip_ext (Rn k)). intro v.
      change (@ip (Rn k) v (@iadd (Rn k) (@iscale (Rn k) a (@izero (Rn k))) z) = @ip (Rn k) v z).
      rewrite ip_add, ip_scale, ip_zero. ring.
Qed.
Theorem C91_inverse : forall n (P : iv (Rn n) -> iv (Rn n)), selfadj P -> posdef P ->
  exists Pi : iv (Rn n) -> iv (Rn n), (forall z, P (Pi z) = z) /\ forall z, Pi (P z) = z.
Proof.
  intros n P SP PP. destruct (lift_choice (Rn n) P (adjoint_lin _ _ SP) n (fun z => z)) as [g Hg].
  - split; reflexivity.
  - intro z. apply spd_solvable; assumption.
  - exists g. split; [exact Hg|]. intro z. apply (p_inj (Rn n) P SP PP). apply Hg.
Qed.

Section End2.
Variables (dv : R -> R -> R) (sq : R -> R).
Hypotheses (DV : dv_ok dv) (SQ : sq_ok sq).
Notation KK := (exactK dv sq).
Notation W n := (exactV dv sq (Rn n)).

(** The object [a] is an operator of real dtype that acts on R^n as [A]. *)
Definition acts (s : st FCR) (a : addr) (n m : nat) (A : iv (Rn n) -> iv (Rn m)) : Prop :=
  exists dt f, GoodD s a n m dt f /\ is_complex dt = false /\ forall x, act n m f x = A x.
(** An optional preconditioner: an object that acts as the map given, symmetric and positive definite. *)
Definition pre_obj (s : st FCR) (p : addr) (n : nat) (P : option (iv (Rn n) -> iv (Rn n))) : Prop :=
  match P with Some P => acts s p n n P /\ selfadj P /\ posdef P | None => True end.
Definition pmap {n : nat} (P : option (iv (Rn n) -> iv (Rn n))) : iv (Rn n) -> iv (Rn n) :=
  match P with Some P => P | None => fun z => z end.
(** What [a], its transpose [t] and the preconditioners must be to each other for the products with
    [a] and [t] to be told apart from the others. *)
Definition apart (s : st FCR) (p a t : addr) {n : nat} (P : option (iv (Rn n) -> iv (Rn n))) : Prop :=
  P <> None -> p <> a /\ p <> t /\ ~ reach s p a /\ ~ reach s p t.

Lemma acts_stands : forall s a n m A, acts s a n m A -> stands s a (@enc n) (dec m) A.
Proof.
  intros s a n m A (dt & f & G & _ & E).
  destruct (stands_act s a n m dt f G) as (n1 & m1 & d1 & g & G1 & S1). exists n1, m1, d1, g.
  split; [exact G1|]. intro z. destruct (S1 z) as (S2 & S3 & S4). split; [exact S2|]. split; [exact S3|].
  rewrite S4. apply E.
Qed.
Lemma acts_T : forall s a n m A, acts s a n m A -> exists t At, attrT s a = Some t /\ acts s t m n At /\ @adjoint (Rn n) (Rn m) A At.
Proof.
  intros s a n m A (dt & f & G & C & E). destruct (GoodD_T _ _ _ _ _ _ G C) as (t & g & Ht & Gt & AD).
  exists t, (act m n g). split; [exact Ht|]. split; [exists dt, g; auto|].
  intros u v. rewrite <- E. apply AD.
Qed.
(** An object flagged symmetric acts as a symmetric map. *)
Lemma acts_sym : forall s a n A o, acts s a n n A -> objs s a = Some o -> o_sym o = true -> selfadj A.
Proof.
  intros s a n A o (dt & f & G & C & E) Ho Sy.
  destruct (Good_attr _ _ _ _ _ (proj1 G)) as (o0 & H0 & _ & _ & HS & _).
  rewrite Ho in H0. injection H0 as <-. destruct (HS Sy) as [_ T].
  destruct (GoodD_act _ _ _ _ _ _ G C) as [L RM].
  intros u v. rewrite <- !E. exact (act_adjoint n n f f L RM L RM T u v).
Qed.
Lemma pre_sym : forall s p n P, pre_obj s p n P -> selfadj (pmap P) /\ posdef (pmap P).
Proof.
  intros s p n [P|] H; cbn in *; [tauto|]. split; [intros u v; reflexivity|].
  intros u Nu. apply ip_nz. exact Nu.
Qed.
Lemma pre_stands : forall s p n P, pre_obj s p n P -> forall Q, P = Some Q -> stands s p (@enc n) (dec n) Q.
Proof. intros s p n P H Q ->. cbn in H. apply acts_stands, H. Qed.

(** A zero gradient means a minimiser. *)
Lemma grad_min : forall n m (A : iv (Rn n) -> iv (Rn m)) At M N Ni (b : iv (Rn m)) (d : R),
  @adjoint (Rn n) (Rn m) A At -> selfadj M -> posdef M -> selfadj N -> posdef N -> (forall z, N (Ni z) = z) ->
  forall x : iv (Rn n), isub (At (M (isub b (A x)))) (iscale (d * d)%R (Ni x)) = izero ->
  forall z, (ip (M (isub b (A x))) (isub b (A x)) + d * d * ip x (Ni x) <=
    ip (M (isub b (A z))) (isub b (A z)) + d * d * ip z (Ni z))%R.
Proof.
  intros n m A At M N Ni b d AD SM PM SN PN NI x G0 z.
  pose proof (@ls_obj_split (Rn n) (Rn m) A At M N Ni b d AD SM SN NI x z G0) as H.
  unfold ls_obj, ls_H in H. rewrite H.
  pose proof (p_pos (Rn m) M PM (A (isub x z))) as P1.
  assert (P2 : (0 <= ip (isub x z) (Ni (isub x z)))%R).
  { rewrite <- (NI (isub x z)) at 1. apply (p_pos (Rn n) N PN). }
  assert (P3 : (0 <= d * d)%R) by apply Rle_0_sqr.
  pose proof (Rmult_le_pos _ _ P3 P2). lra.
Qed.

(** The solution of [A N A' y + Mi y = b] gives the minimiser of [|u|^2 + |v|^2] subject to [A u + v = b],
    in the norms of [Ni] and [M]. *)
Lemma craig_min : forall n m (A : iv (Rn n) -> iv (Rn m)) At M N Mi Ni (b : iv (Rn m)),
  @adjoint (Rn n) (Rn m) A At -> selfadj M -> posdef M -> selfadj N -> posdef N ->
  (forall z, M (Mi z) = z) -> (forall z, N (Ni z) = z) ->
  forall (x : iv (Rn n)) (y : iv (Rn m)), x = N (At y) -> iadd (A x) (Mi y) = b ->
  forall u v, iadd (A u) v = b -> (ip x (Ni x) + ip (Mi y) (M (Mi y)) <= ip u (Ni u) + ip v (M v))%R.
Proof.
  intros n m A At M N Mi Ni b AD SM PM SN PN MI NI x y EX EB u v HU.
  pose proof (adjoint_lin _ _ SM) as LM. pose proof (adjoint_lin _ _ SN) as LN.
  pose proof (adjoint_lin _ _ AD) as LA.
  set (h := isub u x). set (k := isub v (Mi y)).
  assert (Eu : u = iadd x h) by (unfold h; apply (@ip_ext (Rn n)); intro w; rewrite ip_add, ip_sub; ring).
  assert (Ev : v = iadd (Mi y) k) by (unfold k; apply (@ip_ext (Rn m)); intro w; rewrite ip_add, ip_sub; ring).
  assert (K0 : forall w, (ip w (A h) + ip w k = 0)%R).
  { intro w. unfold h, k. rewrite (Num.lin_sub A LA), !ip_sub.
    assert (Q1 : (ip w (A x) + ip w (Mi y) = ip w b)%R) by (rewrite <- ip_add, EB; reflexivity).
    assert (Q2 : (ip w (A u) + ip w v = ip w b)%R) by (rewrite <- ip_add, HU; reflexivity). lra. }
  assert (NIN : forall z, Ni (N z) = z).
  { intro z. apply (p_inj (Rn n) N SN PN). apply NI. }
  assert (LNi : lin Ni).
  { split; intros; apply (p_inj (Rn n) N SN PN).
    - rewrite (Num.lin_add N LN), !NI. reflexivity.
    - rewrite (Num.lin_scale N LN), !NI. reflexivity. }
  assert (SNi : forall p r, ip p (Ni r) = ip (Ni p) r).
  { intros p r. rewrite <- (NI p) at 1. rewrite <- (NI r) at 2. symmetry. rewrite (SN (Ni p) (Ni r)). reflexivity. }
  assert (X : ip x (Ni h) = ip y (A h)).
  { rewrite SNi, EX, NIN. symmetry. apply AD. }
  assert (X2 : ip h (Ni x) = ip y (A h)) by (rewrite SNi, ip_sym; exact X).
  assert (Y : ip (Mi y) (M k) = ip y k) by (rewrite (SM (Mi y) k), MI; reflexivity).
  rewrite Eu, Ev, (Num.lin_add Ni LNi), (Num.lin_add M LM), MI.
  repeat rewrite ?ip_add, ?ip_addl. rewrite X, X2, Y, (ip_sym k y).
  pose proof (K0 y).
  pose proof (p_pos (Rn m) M PM k) as P1. rewrite ip_sym in P1.
  assert (P2 : (0 <= ip h (Ni h))%R) by (rewrite <- (NI h) at 1; apply (p_pos (Rn n) N PN)).
  lra.
Qed.

Lemma kry_lin_zero : forall (E : IPS) (B : iv E -> iv E) v k, B izero = izero -> kry B v k izero.
Proof.
  intros E B v k B0. induction k as [|k IH]; [reflexivity|]. exists 0%R, izero. split; [exact IH|].
  rewrite B0. apply ip_ext. intro w. rewrite ip_add, ip_scale, ip_zero. ring.
Qed.

(** ** The least-squares solvers. *)
Section Ls.
Variables (s : st FCR) (a t pm pn : addr) (n m : nat) (A : iv (Rn n) -> iv (Rn m)).
Hypothesis HA : acts s a n m A.
Hypothesis HT : attrT s a = Some t.
Notation run := (runl (F := FCR) (K := KK) (WV := W n) (WU := W m) (@enc n) (dec n) (@enc m) (dec m) a t pm pn).
Notation somb o := (match o with Some _ => true | None => false end).

(** The products with A and A.T that were made are the reported ones. *)
Definition counted (s'' : st FCR) (cnt cnt' : nat) (M0 : option (iv (Rn m) -> iv (Rn m))) (N0 : option (iv (Rn n) -> iv (Rn n))) : Prop :=
  apart s pm a t M0 -> apart s pn a t N0 ->
  (t = a -> count s'' a + cnt = count s a + cnt') /\
  (~ reach s a t -> ~ reach s t a -> count s'' a + count s'' t + cnt = count s a + count s t + cnt').

Theorem C91_lsqr : forall (kw : ls_kw (W n) (W m)) (b : iv (Rn m)) cnt fuel,
  pre_obj s pm m (l_M kw) -> pre_obj s pn n (l_N kw) -> 1 <= l_window kw -> l_wantvar kw = false ->
  Z.to_nat (if (l_itnlim kw =? 0)%Z then 3 * Z.of_nat n else l_itnlim kw) < fuel ->
  exists At Ni, @adjoint (Rn n) (Rn m) A At /\ (forall z, pmap (l_N kw) (Ni z) = z) /\
  exists D, forall d, D <= d -> exists s'' o cnt',
    run d (lsc_solve fuel (mklpar m n (somb (l_M kw)) (somb (l_N kw))) kw b cnt) s = (s'', Ok (Ok (o, cnt'))) /\
    only_counters s s'' /\ counted s'' cnt cnt' (l_M kw) (l_N kw) /\
    let M := pmap (l_M kw) in let N := pmap (l_N kw) in
    let res (z : iv (Rn n)) := isub b (A z) in
    let obj (z : iv (Rn n)) := (ip (M (res z)) (res z) + l_damp kw * l_damp kw * ip z (Ni z))%R in
    let grad (z : iv (Rn n)) := isub (At (M (res z))) (iscale (l_damp kw * l_damp kw)%R (Ni z)) in
    (o_Arnorm o : R) = sqrt (ip (grad (o_x o)) (N (grad (o_x o)))) /\ (o_r2norm o : R) = sqrt (obj (o_x o)) /\
    o_itn o <= min n m + 1 /\
    (min n m <= o_itn o \/ (o_Arnorm o : R) = 0%R -> grad (o_x o) = izero /\ forall z, (obj (o_x o) <= obj z)%R).
Proof.
  intros kw b cnt fuel HM HN HW NV HF.
  destruct (acts_T s a n m A HA) as (t' & At & Ht' & HAt & AD). rewrite HT in Ht'. injection Ht' as <-.
  destruct (pre_sym _ _ _ _ HM) as [SM PM]. destruct (pre_sym _ _ _ _ HN) as [SN PN].
  destruct (C91_inverse n (pmap (l_N kw)) SN PN) as (Ni & NI & _).
  exists At, Ni. split; [exact AD|]. split; [exact NI|].
  set (q := @mklprob KK (W n) (W m) m n (A : vc (W n) -> vc (W m)) (At : vc (W m) -> vc (W n))).
  destruct (C76_lsqr dv sq DV SQ (Rn n) (Rn m) q kw b SM PM SN PN Ni NI AD HW NV fuel cnt HF)
    as (o & cnt' & xs & H & _ & _ & _ & _ & _ & (R2 & _ & AR & _) & _ & DM).
  destruct (C76_lsqr_optimal dv sq DV SQ (Rn n) (Rn m) q kw b SM PM SN PN Ni NI AD HW NV fuel cnt HF)
    as (o2 & cnt2 & H2 & OPT).
  rewrite H in H2. injection H2 as <- <-.
  assert (DM' : dim_le (Rn n) (min n m) \/ dim_le (Rn m) (min n m)).
  { destruct (Nat.min_dec n m) as [E|E]; rewrite E; [left|right]; apply Rn_dim. }
  destruct (DM (min n m)) as [D1 D2]; [destruct DM' as [D|D]; [left; exact D|right; left; exact D]|].
  destruct (C86_lsqr (K := KK) (WV := W n) (WU := W m) (@enc n) (dec n) (@enc m) (dec m) s a t pm pn q (l_M kw) (l_N kw)
    (acts_stands _ _ _ _ _ HA) (acts_stands _ _ _ _ _ HAt) (pre_stands _ _ _ _ HM) (pre_stands _ _ _ _ HN) fuel kw b cnt eq_refl eq_refl) as [D HD].
  exists D. intros d Hd. destruct (HD d Hd) as (s2 & E & OC & CC). rewrite H in E.
  exists s2, o, cnt'. split; [exact E|]. split; [exact OC|].
  split; [intros AM AN; exact (CC o cnt' H AM AN)|]. cbv zeta.
  split; [exact AR|]. split; [exact R2|]. split; [exact D1|].
  intro Z. assert (Z' : (o_Arnorm o : R) = 0%R) by (destruct Z as [L|Z]; [exact (D2 L)|exact Z]).
  destruct (OPT Z') as (G0 & O1 & _). split; [|exact O1].
  apply (@ip_ext (Rn n)). intro w. rewrite ip_sub, ip_zero.
  apply Rminus_diag_eq. exact (f_equal (ip w) G0).
Qed.

Theorem C91_lsmr : forall (kw : lm_kw (W n) (W m)) (ob : lm_obj (W n)) (b : iv (Rn m)) cnt fuel,
  pre_obj s pm m (m_M kw) -> pre_obj s pn n (m_N kw) -> 1 <= LsmrModel.m_window kw ->
  Z.to_nat (match LsmrModel.m_itnlim kw with None => Z.of_nat (min m n) | Some l => l end) < fuel ->
  exists At Ni, @adjoint (Rn n) (Rn m) A At /\ (forall z, pmap (m_N kw) (Ni z) = z) /\
  exists D, forall d, D <= d -> exists s'' r,
    run d (lmc_solve fuel (mklpar m n (somb (m_M kw)) (somb (m_N kw))) kw ob b cnt) s = (s'', Ok r) /\
    only_counters s s'' /\
    let M := pmap (m_M kw) in let N := pmap (m_N kw) in
    let res (z : iv (Rn n)) := isub b (A z) in
    let obj (z : iv (Rn n)) := (ip (M (res z)) (res z) + m_damp kw * m_damp kw * ip z (Ni z))%R in
    let grad (z : iv (Rn n)) := isub (At (M (res z))) (iscale (m_damp kw * m_damp kw)%R (Ni z)) in
    match r with
    | Ok (o, ob', cnt') => counted s'' cnt cnt' (m_M kw) (m_N kw) /\
        (At (M b) = izero -> (r_x o : iv (Rn n)) = izero) /\
        (At (M b) <> izero ->
           (r_normar o : R) = sqrt (ip (grad (r_x o)) (N (grad (r_x o)))) /\ (r_normr o : R) = sqrt (obj (r_x o)) /\
           LsmrModel.r_itn o <= min n m) /\
        (At (M b) = izero \/ min n m <= LsmrModel.r_itn o \/ (r_normar o : R) = 0%R ->
           grad (r_x o) = izero /\ forall z, (obj (r_x o) <= obj z)%R)
    | Err e => e = ZeroDivisionError /\ (m_damp kw : R) = 0%R /\ exists z, A z = b
    end.
Proof.
  intros kw ob b cnt fuel HM HN HW HF.
  destruct (acts_T s a n m A HA) as (t' & At & Ht' & HAt & AD). rewrite HT in Ht'. injection Ht' as <-.
  destruct (pre_sym _ _ _ _ HM) as [SM PM]. destruct (pre_sym _ _ _ _ HN) as [SN PN].
  destruct (C91_inverse n (pmap (m_N kw)) SN PN) as (Ni & NI & IN).
  exists At, Ni. split; [exact AD|]. split; [exact NI|].
  set (q := @mklprob KK (W n) (W m) m n (A : vc (W n) -> vc (W m)) (At : vc (W m) -> vc (W n))).
  pose proof (C77_lsmr_error dv sq DV SQ (Rn n) (Rn m) q kw b SM PM SN PN AD HW fuel cnt ob HF) as TE.
  pose proof (C77_lsmr_zero dv sq DV SQ (Rn n) (Rn m) q kw b SM PM SN PN AD HW fuel cnt ob HF) as TZ.
  pose proof (C77_lsmr dv sq DV SQ (Rn n) (Rn m) q kw b SM PM SN PN Ni NI AD HW fuel cnt ob HF) as TM.
  destruct (C86_lsmr (K := KK) (WV := W n) (WU := W m) (@enc n) (dec n) (@enc m) (dec m) s a t pm pn q (m_M kw) (m_N kw)
    (acts_stands _ _ _ _ _ HA) (acts_stands _ _ _ _ _ HAt) (pre_stands _ _ _ _ HM) (pre_stands _ _ _ _ HN) fuel kw ob b cnt eq_refl eq_refl) as [D HD].
  exists D. intros d Hd. destruct (HD d Hd) as (s2 & E & OC & CC).
  eexists s2, _. split; [exact E|]. split; [exact OC|]. cbv zeta.
  destruct (@lm_solve KK (W n) (W m) fuel q kw ob b cnt) as [[[o ob'] cnt']|e] eqn:H.
  2:{ destruct (TE e eq_refl) as (E1 & E2 & k & x & _ & _ & E3). split; [exact E1|]. split; [exact E2|]. exists x. exact E3. }
  split; [intros AM AN; exact (CC (o, ob') cnt' eq_refl AM AN)|].
  assert (X0 : At (pmap (m_M kw) b) = izero -> (r_x o : iv (Rn n)) = izero).
  { intro Z. destruct (TZ Z) as (o1 & ob1 & c1 & Ho & _ & _ & HX & _). injection Ho as <- _ _. exact HX. }
  split; [exact X0|].
  assert (G1 : At (pmap (m_M kw) b) <> izero ->
    (r_normar o : R) = sqrt (ip (isub (At (pmap (m_M kw) (isub b (A (r_x o))))) (iscale (m_damp kw * m_damp kw)%R (Ni (r_x o))))
      (pmap (m_N kw) (isub (At (pmap (m_M kw) (isub b (A (r_x o))))) (iscale (m_damp kw * m_damp kw)%R (Ni (r_x o)))))) /\
    (r_normr o : R) = sqrt (ip (pmap (m_M kw) (isub b (A (r_x o)))) (isub b (A (r_x o))) + m_damp kw * m_damp kw * ip (r_x o : iv (Rn n)) (Ni (r_x o))) /\
    LsmrModel.r_itn o <= min n m /\ (min n m <= LsmrModel.r_itn o ->
      isub (At (pmap (m_M kw) (isub b (A (r_x o))))) (iscale (m_damp kw * m_damp kw)%R (Ni (r_x o))) = izero)).
  { intro NZ. destruct (TM o ob' cnt' eq_refl NZ) as (xs & _ & _ & _ & _ & _ & _ & (E1 & E2 & _) & _ & _ & _ & DM).
    assert (DM' : dim_le (Rn n) (min n m) \/ dim_le (Rn m) (min n m)).
    { destruct (Nat.min_dec n m) as [E0|E0]; rewrite E0; [left|right]; apply Rn_dim. }
    destruct (DM (min n m)) as [D1 D2]; [destruct DM' as [D0|D0]; [left; exact D0|right; left; exact D0]|]. split; [exact E2|]. split; [exact E1|]. split; [exact D1|exact D2]. }
  split; [intro NZ; destruct (G1 NZ) as (E1 & E2 & E3 & _); auto|].
  intro C.
  assert (G0 : isub (At (pmap (m_M kw) (isub b (A (r_x o))))) (iscale (m_damp kw * m_damp kw)%R (Ni (r_x o))) = izero).
  { assert (Dec : At (pmap (m_M kw) b) = izero \/ At (pmap (m_M kw) b) <> izero).
    { destruct (Req_dec (@ip (Rn n) (At (pmap (m_M kw) b)) (At (pmap (m_M kw) b))) 0) as [Z|Z].
      - left. apply (@ip_def (Rn n)). exact Z.
      - right. intro Q. apply Z. rewrite Q. apply ip_zero. }
    destruct Dec as [Z|NZ].
    - rewrite (X0 Z). exact (eq_trans (@ls_grad0 (Rn n) (Rn m) A At (pmap (m_M kw)) (pmap (m_N kw)) Ni b (m_damp kw) AD SN NI) Z).
    - destruct (G1 NZ) as (E1 & _ & _ & E4). destruct C as [Z|[L|Z]]; [contradiction|exact (E4 L)|].
      rewrite E1 in Z. apply sqrt_eq_0 in Z; [|rewrite ip_sym; apply (p_pos (Rn n) _ PN)].
      apply (@ip_def (pspace (Rn n) _ SN PN)). exact (eq_trans (@ip_sym (Rn n) _ _) Z). }
  split; [exact G0|].
  exact (grad_min n m A At _ _ Ni b (m_damp kw) AD SM PM SN PN NI (r_x o) G0).
Qed.

Theorem C91_craig : forall (kw : cr_kw (W n) (W m)) (b : iv (Rn m)) cnt fuel,
  pre_obj s pm m (c_M kw) -> pre_obj s pn n (c_N kw) -> 1 <= c_window kw -> c_wantvar kw = false ->
  let lim := (if (c_itnlim kw =? 0)%Z then 3 * Z.of_nat n else c_itnlim kw)%Z in
  (1 <= lim)%Z -> Z.to_nat lim < fuel -> b <> izero ->
  exists At Mi Ni, @adjoint (Rn n) (Rn m) A At /\ (forall z, pmap (c_M kw) (Mi z) = z) /\ (forall z, pmap (c_N kw) (Ni z) = z) /\
  exists D, forall d, D <= d -> exists s'' o cnt',
    run d (crc_solve fuel (mklpar m n (somb (c_M kw)) (somb (c_N kw))) kw b cnt) s = (s'', Ok (Ok (o, cnt'))) /\
    only_counters s s'' /\ counted s'' cnt cnt' (c_M kw) (c_N kw) /\
    let x := go_x o : iv (Rn n) in let y := go_r o : iv (Rn m) in
    x = pmap (c_N kw) (At y) /\ (go_r2norm o : R) = sqrt (ip x (Ni x) + ip y (Mi y)) /\
    (min n m <= go_itn o -> iadd (A x) (Mi y) = b /\
       forall u v, iadd (A u) v = b -> (ip x (Ni x) + ip (Mi y) (pmap (c_M kw) (Mi y)) <= ip u (Ni u) + ip v (pmap (c_M kw) v))%R).
Proof.
  intros kw b cnt fuel HM HN HW NV lim L1 HF NZ.
  destruct (acts_T s a n m A HA) as (t' & At & Ht' & HAt & AD). rewrite HT in Ht'. injection Ht' as <-.
  destruct (pre_sym _ _ _ _ HM) as [SM PM]. destruct (pre_sym _ _ _ _ HN) as [SN PN].
  destruct (C91_inverse n (pmap (c_N kw)) SN PN) as (Ni & NI & IN).
  destruct (C91_inverse m (pmap (c_M kw)) SM PM) as (Mi & MI & IM).
  exists At, Mi, Ni. split; [exact AD|]. split; [exact MI|]. split; [exact NI|].
  set (q := @mklprob KK (W n) (W m) m n (A : vc (W n) -> vc (W m)) (At : vc (W m) -> vc (W n))).
  destruct (C78_craig_returns dv sq DV SQ (Rn n) (Rn m) q b (c_M kw) (c_N kw) SM PM SN PN AD fuel cnt kw eq_refl eq_refl HW NV HF NZ L1)
    as (o & cnt' & H).
  destruct (C78_craig dv sq DV SQ (Rn n) (Rn m) q b (c_M kw) (c_N kw) SM PM SN PN Ni NI Mi MI AD fuel cnt kw eq_refl eq_refl HW NV HF o cnt' H)
    as (R2 & p0 & ps & LP & LA & _ & _ & GA & _).
  assert (HL : nth_error (p0 :: ps) (go_itn o) = Some (go_x o : iv (Rn n), go_r o : iv (Rn m))).
  { rewrite <- LP, <- LA. clear. revert p0. induction ps as [|p ps IH]; intro p0; [reflexivity|]. cbn [nth_error length]. rewrite IH. reflexivity. }
  destruct (GA _ _ _ HL) as (EX & _ & _ & _ & EB).
  destruct (C86_craig (K := KK) (WV := W n) (WU := W m) (@enc n) (dec n) (@enc m) (dec m) s a t pm pn q (c_M kw) (c_N kw)
    (acts_stands _ _ _ _ _ HA) (acts_stands _ _ _ _ _ HAt) (pre_stands _ _ _ _ HM) (pre_stands _ _ _ _ HN) fuel kw b cnt eq_refl eq_refl) as [D HD].
  exists D. intros d Hd. destruct (HD d Hd) as (s2 & E & OC & CC). rewrite H in E.
  exists s2, o, cnt'. split; [exact E|]. split; [exact OC|].
  split; [intros AM AN; exact (CC o cnt' H AM AN)|]. cbv zeta.
  split; [exact EX|]. split; [exact R2|]. intro L.
  assert (EB' : iadd (A (go_x o)) (Mi (go_r o)) = b).
  { apply EB. right. split; [reflexivity|]. exists (min n m). split; [|exact L].
    destruct (Nat.min_dec n m) as [E0|E0]; rewrite E0; [left|right]; apply Rn_dim. }
  split; [exact EB'|]. intros u v HU.
  exact (craig_min n m A At _ _ Mi Ni b AD SM PM SN PN MI NI _ _ EX EB' u v HU).
Qed.

Theorem C91_craigmr : forall (kw : cm_kw (W n) (W m)) (b : iv (Rn m)) cnt fuel,
  pre_obj s pm m (h_M kw) -> pre_obj s pn n (h_N kw) -> 1 <= h_window kw ->
  Z.to_nat (match h_itnlim kw with None => Z.of_nat (min m n) | Some l => l end) < fuel ->
  exists At Mi, @adjoint (Rn n) (Rn m) A At /\ (forall z, pmap (h_M kw) (Mi z) = z) /\
  exists D, forall d, D <= d -> exists s'' o cnt',
    run d (cmc_solve fuel (mklpar m n (somb (h_M kw)) (somb (h_N kw))) kw b cnt) s = (s'', Ok (Ok (o, cnt'))) /\
    only_counters s s'' /\ counted s'' cnt cnt' (h_M kw) (h_N kw) /\
    let op (y : iv (Rn m)) := iadd (A (pmap (h_N kw) (At y))) (Mi y) in
    let mnorm (r : iv (Rn m)) := sqrt (ip r (pmap (h_M kw) r)) in
    (mnorm (isub b (op (ho_x o))) <= mnorm b)%R /\
    (m <= ho_itn o \/ n + 1 <= ho_itn o -> op (ho_x o) = b).
Proof.
  intros kw b cnt fuel HM HN HW HF.
  destruct (acts_T s a n m A HA) as (t' & At & Ht' & HAt & AD). rewrite HT in Ht'. injection Ht' as <-.
  destruct (pre_sym _ _ _ _ HM) as [SM PM]. destruct (pre_sym _ _ _ _ HN) as [SN PN].
  destruct (C91_inverse m (pmap (h_M kw)) SM PM) as (Mi & MI & IM).
  exists At, Mi. split; [exact AD|]. split; [exact MI|].
  set (q := @mklprob KK (W n) (W m) m n (A : vc (W n) -> vc (W m)) (At : vc (W m) -> vc (W n))).
  destruct (C78_craigmr dv sq DV SQ (Rn n) (Rn m) q b (h_M kw) (h_N kw) SM PM SN PN Mi MI AD fuel cnt kw eq_refl eq_refl HW HF)
    as (o & cnt' & xs & H & LX & EL & _ & OPT & _ & DM).
  destruct (C86_craigmr (K := KK) (WV := W n) (WU := W m) (@enc n) (dec n) (@enc m) (dec m) s a t pm pn q (h_M kw) (h_N kw)
    (acts_stands _ _ _ _ _ HA) (acts_stands _ _ _ _ _ HAt) (pre_stands _ _ _ _ HM) (pre_stands _ _ _ _ HN) fuel kw b cnt eq_refl eq_refl) as [D HD].
  exists D. intros d Hd. destruct (HD d Hd) as (s2 & E & OC & CC). rewrite H in E.
  exists s2, o, cnt'. split; [exact E|]. split; [exact OC|].
  split; [intros AM AN; exact (CC o cnt' H AM AN)|]. cbv zeta.
  split.
  - assert (HL : nth_error xs (ho_itn o) = Some (ho_x o : iv (Rn m))).
    { rewrite <- EL. clear - LX. destruct xs as [|z xs]; [discriminate|]. injection LX as <-.
      revert z. induction xs as [|p ps IH]; intro z; [reflexivity|]. cbn [nth_error length]. rewrite IH. reflexivity. }
    destruct (OPT _ _ HL) as [_ O1].
    assert (LT : @lin (Rn m) (Rn n) At).
    { apply (adjoint_lin At A). intros u v. rewrite ip_sym, <- AD. apply ip_sym. }
    pose proof (adjoint_lin _ _ SM) as LM. pose proof (adjoint_lin _ _ SN) as LN. pose proof (adjoint_lin _ _ AD) as LA.
    assert (MZ : pmap (h_M kw) (A (pmap (h_N kw) (At izero))) = izero).
    { rewrite (Num.lin_zero _ LT), (Num.lin_zero _ LN), (Num.lin_zero _ LA). apply (Num.lin_zero _ LM). }
    assert (Z : b = isub b (iadd (A (pmap (h_N kw) (At izero))) (Mi izero))).
    { assert (Mi0 : Mi izero = izero).
      { apply (p_inj (Rn m) _ SM PM). rewrite MI. symmetry. apply (Num.lin_zero _ LM). }
      rewrite Mi0, (Num.lin_zero _ LT), (Num.lin_zero _ LN), (Num.lin_zero _ LA).
      apply (@ip_ext (Rn m)). intro w. rewrite ip_sub, ip_add, ip_zero. ring. }
    rewrite Z at 3 4. apply O1. apply (kry_lin_zero (Rn m)). exact MZ.
  - intros [L|L]; apply DM; [left; exists m|right; left; exists n]; (split; [apply Rn_dim|exact L]).
Qed.
End Ls.

(** ** MINRES, with the symmetry checks of its constructor arguments on or off, a shift, and an
    optional preconditioner. *)
Theorem C91_minres : forall (s : st FCR) a p n (A : iv (Rn n) -> iv (Rn n)) (cbrt : R -> R) (draws : list (iv (Rn n)))
  (kw : mr_kw (W n)) (b : iv (Rn n)) hist cnt fuel,
  acts s a n n A -> selfadj A -> pre_obj s p n (m_precon kw) -> m_pm kw = n -> m_pn kw = n ->
  (0 <= cbrt (@machine_eps KK))%R -> 1 <= MinresModel.m_window kw -> mr_lim kw b < fuel ->
  let P := pmap (m_precon kw) in
  let B (z : iv (Rn n)) := isub (A z) (iscale (m_shift kw : R) z) in
  let pnorm (z : iv (Rn n)) := sqrt (ip z (P z)) in
  (forall z, (@machine_eps KK * pnorm z <= pnorm (B (P z)))%R) ->
  exists D, forall d, D <= d -> exists s' o cnt',
    runk (F := FCR) (K := KK) (W := W n) (@enc n) (dec n) a p d
      (mrc_solve fuel (@mkmpar KK (W n) n n (match m_precon kw with Some _ => true | None => false end) n n cbrt draws (m_pdraws kw))
        hist b kw cnt) s = (s', Ok (Ok (o, cnt'))) /\
    only_counters s s' /\
    ((m_precon kw <> None -> p <> a /\ ~ reach s p a) -> count s' a + cnt = count s a + cnt') /\
    u_itn o <= mr_lim kw b /\ In (u_istop o) [-1; 0; 1; 2; 3; 4; 6; 10]%Z /\
    (u_itn o <> 0 -> (u_rnorm o : R) = pnorm (isub b (B (u_x o)))) /\
    (pnorm (isub b (B (u_x o))) <= pnorm b)%R /\
    (n <= u_itn o -> B (u_x o) = b) /\
    (u_itn o = 0 -> 1 <= mr_lim kw b -> b = izero).
Proof.
  intros s a p n A cbrt draws kw b hist cnt fuel HA SA HP PM PN CB HW HF P B pnorm SG.
  destruct (pre_sym _ _ _ _ HP) as [SP PP]. fold P in SP, PP.
  set (q := @mkprob KK (W n) n n (A : vc (W n) -> vc (W n)) None 0%R 0%R cbrt draws).
  destruct (C47_stopping KK (W n) q kw b fuel hist cnt HF HW) as (o & cnt' & H & _ & IL & _ & IS & _ & I0 & X0 & _).
  assert (BA : fst (@check_symmetric KK (W n) cbrt n n A draws cnt) = true) by (apply C60_accepts; assumption).
  assert (BP : forall Q, m_precon kw = Some Q ->
    fst (@check_symmetric KK (W n) cbrt (m_pm kw) (m_pn kw) Q (m_pdraws kw) 0) = true).
  { intros Q EQ. rewrite PM, PN. apply C60_accepts; [|exact CB]. unfold P in SP. rewrite EQ in SP. exact SP. }
  destruct (C47_early KK (W n) q kw b fuel hist cnt o cnt' H) as (_ & EI & EZ).
  assert (EP : exists xs : list (iv (Rn n)), length xs = u_itn o /\ (u_x o : iv (Rn n)) = last xs izero /\
    (u_itn o <> 0 -> (u_rnorm o : R) = pnorm (isub b (B (u_x o)))) /\
    (forall i z, nth_error xs i = Some z -> forall z', kry (fun z => P (B z)) (P b) (S i) z' -> (pnorm (isub b (B z)) <= pnorm (isub b (B z')))%R) /\
    (n <= u_itn o -> u_istop o <> 7%Z -> u_istop o <> 8%Z -> B (u_x o) = b)).
  { unfold pnorm, P in *. destruct (m_precon kw) as [Q|] eqn:EQ; cbn [pmap] in *.
    - destruct (C75_minres dv sq (Rn n) DV SQ q kw b Q fuel hist cnt o cnt' EQ SP PP SA (fun k z _ => SG z) H)
        as (xs & H1 & _ & _ & H2 & H3 & _ & H4 & H5).
      exists xs. split; [exact H1|]. split; [exact H2|]. split; [exact H3|]. split.
      + intros i z Hz. exact (proj2 (H4 i z Hz)).
      + intros L N7 N8. exact (H5 n (Rn_dim n) L N7 N8).
    - destruct (C48_residual dv sq (Rn n) DV SQ q kw b fuel hist cnt o cnt' EQ SA (fun k z _ => SG z) H)
        as (xs & H1 & _ & _ & H2 & H3 & _ & H4 & H5).
      exists xs. split; [exact H1|]. split; [exact H2|]. split; [exact H3|]. split.
      + intros i z Hz. exact (proj2 (H4 i z Hz)).
      + intros L N7 _. exact (H5 n (Rn_dim n) L N7). }
  destruct EP as (xs & LX & EX & RN & MN & FIN).
  assert (N79 : u_istop o <> 7%Z /\ u_istop o <> 8%Z /\ u_istop o <> 9%Z /\ (u_itn o = 0 -> 1 <= mr_lim kw b -> b = izero)).
  { assert (EPb : match m_precon kw with Some P0 => P0 b | None => b end = P b) by (unfold P; destruct (m_precon kw); reflexivity).
    assert (PB : (0 <= ip b (P b))%R) by (rewrite ip_sym; apply (p_pos (Rn n) P PP)).
    assert (NB : @sltb KK (vdot (b : vc (W n)) (match m_precon kw with Some P0 => P0 b | None => b end : vc (W n))) Num.s0 = false).
    { rewrite EPb. apply Rltb_false. cbn [Num.s0 exactK]. apply Rle_ge in PB. exact (Rge_le _ _ PB). }
    assert (NBA : ~ (m_check kw = true /\ fst (@check_symmetric KK (W n) (q_cbrt q) (q_m q) (q_n q) (q_A q) (q_draws q) cnt) = false)).
    { intros [_ F]. cbn [q q_cbrt q_m q_n q_A q_draws] in F. congruence. }
    assert (NBP : ~ (m_check kw = true /\ exists P0, m_precon kw = Some P0 /\
      fst (@check_symmetric KK (W n) (q_cbrt q) (m_pm kw) (m_pn kw) P0 (m_pdraws kw) 0) = false)).
    { intros [_ (P0 & E0 & F)]. pose proof (BP P0 E0) as F'. cbn [q q_cbrt] in F. congruence. }
    destruct (Nat.eq_dec (u_itn o) 0) as [Z|NZ].
    - destruct (EZ Z) as (_ & _ & _ & Q4 & Q5). rewrite (Q4 NBP NBA NB).
      split; [discriminate|]. split; [discriminate|]. split; [discriminate|]. intros _ L.
      destruct Q5 as [Q|[Q|[Q|[Q|Q]]]]; [contradiction|contradiction|rewrite NB in Q; discriminate| |lia].
      rewrite EPb in Q. apply (@ip_def (pspace (Rn n) P SP PP)).
      apply Reqb_true in Q. exact (eq_trans (@ip_sym (Rn n) _ _) Q).
    - assert (NI : ~ In (u_istop o) [0; 7; 8; 9]%Z) by (intro Q; apply NZ, I0; exact Q).
      cbn [In] in NI. repeat split; try (intro Q; apply NI; rewrite Q; auto). intro Q; contradiction. }
  destruct N79 as (N7 & N8 & N9 & BZ).
  destruct (C86_minres (K := KK) (W := W n) (@enc n) (dec n) s a p q (acts_stands _ _ _ _ _ HA) fuel hist b kw cnt (pre_stands _ _ _ _ HP)) as [D HD].
  exists D. intros d Hd. destruct (HD d Hd) as (s' & E & OC & CC). rewrite H in E.
  unfold mparof in E. cbn [q_m q_n q_cbrt q_draws q] in E. rewrite PM, PN in E.
  exists s', o, cnt'. split; [exact E|]. split; [exact OC|].
  split. { intro AP. apply (CC o cnt' H). intro T. apply AP. destruct (m_precon kw); [discriminate|discriminate]. }
  split; [exact IL|]. split; [|split; [exact RN|split; [|split; [|exact BZ]]]].
  - apply not_eq_sym in N7, N8, N9. cbn [In] in IS |- *. tauto.
  - assert (SB : @selfadj (Rn n) B).
    { intros u v. unfold B. rewrite ip_sub, (ip_sym (isub _ _)), ip_sub, !ip_scale, (ip_sym v (A u)), SA, (ip_sym v u). reflexivity. }
    pose proof (adjoint_lin _ _ SB) as LB. pose proof (adjoint_lin _ _ SP) as LP.
    assert (Z0 : b = isub b (B izero)).
    { rewrite (Num.lin_zero _ LB). apply (@ip_ext (Rn n)). intro w. rewrite ip_sub, ip_zero. ring. }
    destruct xs as [|z xs].
    + rewrite EX. cbn [last]. rewrite <- Z0. apply Rle_refl.
    + assert (HL : nth_error (z :: xs) (length xs) = Some (u_x o : iv (Rn n))).
      { rewrite EX. clear. revert z. induction xs as [|y xs IH]; intro z; [reflexivity|]. cbn [nth_error length]. rewrite IH. reflexivity. }
      replace (pnorm b) with (pnorm (isub b (B izero))) by (rewrite <- Z0; reflexivity).
      apply (MN _ _ HL). apply (kry_lin_zero (Rn n)). rewrite (Num.lin_zero _ LB). apply (Num.lin_zero _ LP).
  - intro L. apply FIN; assumption.
Qed.
End End2.

(** ** Formulas evaluated one after the other give objects of this kind. *)
Fixpoint evals (env : list addr) (es : list (expr FCR)) (s : st FCR) : st FCR * res (list addr) :=
  match es with
  | [] => (s, Ok [])
  | e :: es => match eval env e s with
               | (s1, Ok a) => match evals env es s1 with (s2, Ok l) => (s2, Ok (a :: l)) | r => r end
               | (s1, Err x) => (s1, Err x)
               end
  end.
Theorem C91_formulas : forall es env denv (s : st FCR) ds, wfst s -> Forall ewf es -> envok s env denv ->
  Forall2 (fun e d => sem denv e = Ok d /\ is_complex (snd (fst d)) = false) es ds ->
  exists s' ps, evals env es s = (s', Ok ps) /\ wfst s' /\ ext s s' /\
    Forall2 (fun p d => let '(n, m, _, f) := d in acts s' p n m (act n m f)) ps ds.
Proof.
  induction es as [|e es IH]; intros env denv s ds W0 We En H; inversion H as [|? d ? ds' [Hd Cd] Hr]; subst.
  - exists s, []. cbn [evals]. split; [reflexivity|]. split; [exact W0|]. split; [apply ext_refl|constructor].
  - inversion We as [|? ? We1 We2]; subst. assert (A1 := eval_agrees FCR_OK e env denv s W0 We1 En).
    rewrite Hd in A1. destruct d as [[[n m] dt] f]. destruct A1 as (s1 & a & E1 & X1 & W1 & G1).
    destruct (IH env denv s1 ds' W1 We2 (envok_mono _ _ _ _ X1 En) Hr) as (s2 & ps & E2 & W2 & X2 & F2).
    exists s2, (a :: ps). cbn [evals]. rewrite E1, E2. split; [reflexivity|]. split; [exact W2|].
    split; [eapply ext_trans; eassumption|]. constructor; [|exact F2].
    exists dt, f. split; [eapply GoodD_mono; eassumption|]. split; [exact Cd|reflexivity].
Qed.

(** ** Concrete cases.  The matrices of PropClient.v: [mA] as operator, [mN] as preconditioner. *)
Lemma mN_spd : @selfadj (Rn 2) (act 2 2 (mat_vec mN)) /\ @posdef (Rn 2) (act 2 2 (mat_vec mN)).
Proof.
  split.
  - intros [x [y []]] [u [v []]]. cbn. ring.
  - intros [x [y []]] Nz. cbn.
    destruct (Req_dec x 0) as [->|Nx]; [destruct (Req_dec y 0) as [->|Ny]; [exfalso; apply Nz; reflexivity|nra]|].
    assert (0 < x * x)%R by nra. nra.
Qed.
Example ex_C91_ls : exists (s : st FCR) a t p A,
  acts s a 2 3 A /\ attrT s a = Some t /\ pre_obj s p 2 (Some (act 2 2 (mat_vec mN))) /\
  apart s p a t (Some (act 2 2 (mat_vec mN))) /\ ~ reach s a t /\ ~ reach s t a /\
  A (1%R, (1%R, tt)) = (1%R, (1%R, (3%R, tt))).
Proof.
  destruct mA_builds as (s & a & E & _ & Wf & G).
  assert (B : builds (ndarray_op DFloat 2 2 mN false None) s 2 2 DFloat (mat_vec mN)).
  { apply (ndarray_builds FCR_OK); try discriminate; try reflexivity; [exact Wf| |].
    - split; [reflexivity|]. intros r [<-|[<-|[]]]; reflexivity.
    - intros _ r [<-|[<-|[]]]; unfold vreal, vconj; cbn [map]; rewrite !rc_real; reflexivity. }
  destruct B as (s1 & p & E1 & X & Wf1 & G1). pose proof (GoodD_mono _ _ _ _ _ _ _ X G) as G0.
  unfold ndarray_op in E, E1. cbn in E. injection E as <- <-. cbn in E1. injection E1 as Es <-.
  exists s1, 0, 1, 2, (act 2 3 (mat_vec mA)).
  split; [exists DFloat, (mat_vec mA); auto|]. split; [rewrite <- Es; reflexivity|].
  split; [split; [exists DFloat, (mat_vec mN); auto|exact mN_spd]|].
  split; [|split; [|split]].
  - intros _. rewrite <- Es. repeat split; try discriminate; intro H;
      (eapply reach_leaf in H; [|reflexivity|reflexivity]; discriminate).
  - rewrite <- Es. intro H. eapply reach_leaf in H; [|reflexivity|reflexivity]; discriminate.
  - rewrite <- Es. intro H. eapply reach_leaf in H; [|reflexivity|reflexivity]; discriminate.
  - cbn. f_equal; [lra|f_equal; [lra|f_equal; lra]].
Qed.
Example ex_C91_minres : exists (s : st FCR) a p A, acts s a 2 2 A /\ selfadj A /\
  pre_obj s p 2 (Some (act 2 2 (mat_vec mN))) /\ p <> a /\ ~ reach s p a /\
  let P := act 2 2 (mat_vec mN) : iv (Rn 2) -> iv (Rn 2) in
  let B (z : iv (Rn 2)) := isub (A z) (iscale (-1)%R z) in
  forall z : iv (Rn 2), (@machine_eps (exactK Rdiv sqrt) * sqrt (ip z (P z)) <= sqrt (ip (B (P z)) (P (B (P z)))))%R.
Proof.
  assert (M : forall s0 : st FCR, wfst s0 -> builds (ndarray_op DFloat 2 2 mN false None) s0 2 2 DFloat (mat_vec mN)).
  { intros s0 Wf. apply (ndarray_builds FCR_OK); try discriminate; try reflexivity; [exact Wf| |].
    - split; [reflexivity|]. intros r [<-|[<-|[]]]; reflexivity.
    - intros _ r [<-|[<-|[]]]; unfold vreal, vconj; cbn [map]; rewrite !rc_real; reflexivity. }
  destruct (M (@empty_st FCR)) as (s & a & E & _ & Wf & G); [repeat split; auto|].
  destruct (M s Wf) as (s1 & p & E1 & X & _ & G1). pose proof (GoodD_mono _ _ _ _ _ _ _ X G) as G0.
  unfold ndarray_op in E, E1. cbn in E. injection E as <- <-. cbn in E1. injection E1 as Es <-.
  exists s1, 0, 2, (act 2 2 (mat_vec mN)).
  split; [exists DFloat, (mat_vec mN); auto|]. split; [exact (proj1 mN_spd)|].
  split; [split; [exists DFloat, (mat_vec mN); auto|exact mN_spd]|].
  split; [discriminate|]. split.
  { rewrite <- Es. intro H. eapply reach_leaf in H; [|reflexivity|reflexivity]; discriminate. }
  intros P B [x [y []]].
  match goal with |- (_ * sqrt ?u <= sqrt ?v)%R => assert (Q : (u <= v)%R) end.
  { unfold B, P. cbn. pose proof (Rle_0_sqr (x + y)). pose proof (Rle_0_sqr (x - y)). unfold Rsqr in *. lra. }
  apply sqrt_le_1_alt in Q. eapply Rle_trans; [|exact Q].
  rewrite <- (Rmult_1_l (sqrt _)) at 2. apply Rmult_le_compat_r; [apply sqrt_pos|].
  cbn. unfold Q2R. cbn. lra.
Qed.
Print Assumptions C91_inverse.
Print Assumptions C91_lsqr.
Print Assumptions C91_lsmr.
Print Assumptions C91_craig.
Print Assumptions C91_craigmr.
Print Assumptions C91_minres.
Print Assumptions C91_formulas.
