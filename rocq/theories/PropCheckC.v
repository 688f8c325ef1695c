(** * Property C96: check_symmetric and check_positive_definite (tools/utils.py:63-112) on complex operators.
    [np.dot] does not conjugate; [z > epsa] compares a real number with a complex one, which numpy does
    lexicographically. *)
From Coq Require Import List Arith Lia Bool QArith ZArith Reals Lra Qreals Psatz.
From Verif Require Import Base Field Cplx Num ToolsModel CgModel CgProof PropMinres CplxSolve.
Import ListNotations.
Local Open Scope R_scope.

Definition clt (a b : CR) : bool := Rltb (fst a) (fst b) || (Reqb (fst a) (fst b) && Rltb (snd a) (snd b)).
Definition cle (a b : CR) : bool := Rltb (fst a) (fst b) || (Reqb (fst a) (fst b) && Rleb (snd a) (snd b)).
(** The scalars of CplxSolve with numpy's order. *)
Definition cL (dvc : CR -> CR -> CR) (csq : CR -> CR) : Scal :=
  mkScal CR (0, 0) (1, 0) (fun q => (Q2R q, 0)) (kadd (f := FCR)) (ksub (f := FCR))
    (kmul (f := FCR)) dvc (kopp (f := FCR)) csq (fun z => (cmod z, 0)) (fun z => (fst z, 0))
    (fun z => (snd z, 0)) clt cle (fun a b => Reqb (fst a) (fst b) && Reqb (snd a) (snd b)).
Definition cLV (dvc : CR -> CR -> CR) (csq : CR -> CR) (E : IPS) : Vs (cL dvc csq) :=
  mkVs (cL dvc csq) (cv E) (fun u => ilen (fst u)) (fun _ => cvzero) cvadd cvsub cvneg cvscale
    (fun v a => cvscale (dvc (1, 0) a) v) cvdot (fun u => (cvnorm u, 0)).

Lemma clt_spec : forall a b, clt a b = true <-> fst a < fst b \/ (fst a = fst b /\ snd a < snd b).
Proof.
  intros a b. unfold clt. rewrite orb_true_iff, andb_true_iff, !Rltb_true, Reqb_true. tauto.
Qed.
Lemma cle_spec : forall a b, cle a b = true <-> fst a < fst b \/ (fst a = fst b /\ snd a <= snd b).
Proof.
  intros a b. unfold cle. rewrite orb_true_iff, andb_true_iff, Rltb_true, Rleb_true, Reqb_true. tauto.
Qed.
(** The Hermitian product. *)
Definition hdot {E : IPS} (u v : cv E) : CR := cvdot (fst u, ineg (snd u)) v.
Definition real_draws {E : IPS} (l : list (cv E)) : Prop := forall v, In v l -> snd v = izero.

Section Checks.
Variables (dvc : CR -> CR -> CR) (csq : CR -> CR) (E : IPS).
Hypothesis CS : csq_ok csq.
Notation KL := (cL dvc csq).
Notation WL := (cLV dvc csq E).
Notation eps := (/ 4503599627370496).
Lemma leps : (@machine_eps KL : CR) = (eps, 0).
Proof. unfold machine_eps. cbn. f_equal. unfold Q2R. cbn. lra. Qed.
Variables (n : nat) (A : cv E -> cv E).

(** What the symmetry check computes ([c] is the cube root of the machine epsilon). *)
Theorem C96_symmetric : forall (cbrt : CR -> CR) c draws cnt, cbrt (eps, 0) = (c, 0) ->
  (fst (@check_symmetric KL WL cbrt n n A draws cnt) = false <->
   exists x, In x draws /\
     let s := cvdot (A x) (A x) in let t := cvdot x (A (A x)) in
     let z := cmod (ksub (f := FCR) s t) in
     ((fst s + eps) * c < z \/ ((fst s + eps) * c = z /\ snd s * c < 0))).
Proof.
  intros cbrt c draws cnt HC. unfold check_symmetric. rewrite Nat.eqb_refl. cbn [negb]. revert cnt.
  induction draws as [|x draws IH]; intro cnt; cbn [check_symmetric_loop].
  - cbn. split; [discriminate|]. intros (x & [] & _).
  - unfold opmul. cbv beta iota zeta. unfold sgtb.
    rewrite leps, HC.
    set (T := sltb _ _).
    assert (ET : T = true <-> let s := cvdot (A x) (A x) in let t := cvdot x (A (A x)) in
       let z := cmod (ksub (f := FCR) s t) in ((fst s + eps) * c < z \/ ((fst s + eps) * c = z /\ snd s * c < 0))).
    { unfold T. change (@sltb KL) with clt. rewrite clt_spec. cbn [smul sadd sabs ssub vdot cL cLV kmul kadd FCR fst snd].
      set (s := cvdot (A x) (A x)). set (z := cmod _). cbn zeta.
      replace ((fst s + eps) * c - (snd s + 0) * 0) with ((fst s + eps) * c) by ring.
      replace ((fst s + eps) * 0 + (snd s + 0) * c) with (snd s * c) by ring. tauto. }
    clearbody T. destruct T.
    + cbn [fst]. split; [|reflexivity]. intros _. exists x. split; [now left|]. apply ET. reflexivity.
    + rewrite IH. split.
      * intros (y & Hy & Q). exists y. split; [now right|exact Q].
      * intros (y & [<-|Hy] & Q); [apply ET in Q; discriminate|]. exists y. auto.
Qed.

(** A symmetric operator passes if [w.w] has positive real part for every [w = A x], and fails if one
    [w.w] has real part below [-eps]. *)
Theorem C96_symmetric_operator : forall (cbrt : CR -> CR) c draws cnt, cbrt (eps, 0) = (c, 0) -> 0 < c ->
  (forall u v, cvdot (A u) v = cvdot u (A v)) ->
  ((forall x, In x draws -> - eps < fst (cvdot (A x) (A x))) -> fst (@check_symmetric KL WL cbrt n n A draws cnt) = true) /\
  ((exists x, In x draws /\ fst (cvdot (A x) (A x)) < - eps) -> fst (@check_symmetric KL WL cbrt n n A draws cnt) = false).
Proof.
  intros cbrt c draws cnt HC C0 SY.
  assert (Z : forall x, cmod (ksub (f := FCR) (cvdot (A x) (A x)) (cvdot x (A (A x)))) = 0).
  { intro x. rewrite (SY x (A x)). unfold cmod. cbn [ksub FCR fst snd].
    match goal with |- sqrt ?t = 0 => replace t with 0 by ring end. apply sqrt_0. }
  split.
  - intro P. destruct (fst _) eqn:F; [reflexivity|]. apply C96_symmetric with (c := c) in F; [|exact HC].
    destruct F as (x & Hx & Q). cbn zeta in Q. rewrite Z in Q. specialize (P x Hx). nra.
  - intros (x & Hx & L). apply (C96_symmetric cbrt c draws cnt HC). exists x. split; [exact Hx|]. cbn zeta. rewrite Z. left. nra.
Qed.

(** What the definiteness check computes. *)
Theorem C96_definite : forall semi draws cnt,
  (fst (@check_positive_definite KL WL n n A semi draws cnt) = false <->
   exists v, In v draws /\ let vw := cvdot v (A v) in
     (sqrt eps * cmod vw < snd vw \/ (if semi then fst vw < 0 else fst vw <= 0))).
Proof.
  intros semi draws cnt. unfold check_positive_definite. rewrite Nat.eqb_refl. cbn [negb]. revert cnt.
  induction draws as [|x draws IH]; intro cnt; cbn [check_pd_loop].
  - cbn. split; [discriminate|]. intros (x & [] & _).
  - unfold opmul. cbv beta iota zeta. unfold sgtb. rewrite leps.
    set (T := sltb (smul _ _) _).
    assert (ET : T = true <-> sqrt eps * cmod (cvdot x (A x)) < snd (cvdot x (A x))).
    { unfold T. change (@sltb KL) with clt. rewrite clt_spec. cbn [ssqrt smul simag sabs cL vdot cLV].
      destruct CS as [_ CS2]. rewrite CS2 by lra. cbn [kmul FCR fst snd].
      split; [intros [Q|[Q1 Q2]]; lra|]. intro Q. left. lra. }
    set (U := if semi then _ else _).
    assert (EU : U = true <-> (if semi then fst (cvdot x (A x)) < 0 else fst (cvdot x (A x)) <= 0)).
    { unfold U. destruct semi.
      - change (@sltb KL) with clt. rewrite clt_spec. cbn. split; [intros [Q|[Q1 Q2]]; lra|]. intro Q. left. exact Q.
      - change (@sleb KL) with cle. rewrite cle_spec. cbn. split; [intros [Q|[Q1 Q2]]; lra|]. intros [Q|Q]; [left; exact Q|right; split; [exact Q|lra]]. }
    clearbody T U. destruct T.
    + cbn [fst]. split; [|reflexivity]. intros _. exists x. split; [now left|]. left. apply ET. reflexivity.
    + destruct U.
      * cbn [fst]. split; [|reflexivity]. intros _. exists x. split; [now left|]. right. apply EU. reflexivity.
      * rewrite IH. split.
        { intros (y & Hy & Q). exists y. split; [now right|exact Q]. }
        intros (y & [<-|Hy] & Q); [|exists y; auto]. exfalso. cbn zeta in Q.
        destruct Q as [Q|Q]; [apply ET in Q; discriminate|apply EU in Q; discriminate].
Qed.

(** Hermitian operators and real draws (np.random.random): [v.Av] is real, so the check is the test of [v.Av > 0]. *)
Theorem C96_definite_hermitian : forall semi draws cnt, (forall u v, hdot (A u) v = hdot u (A v)) -> real_draws draws ->
  (fst (@check_positive_definite KL WL n n A semi draws cnt) = false <->
   exists v, In v draws /\ (if semi then fst (hdot v (A v)) < 0 else fst (hdot v (A v)) <= 0)).
Proof.
  intros semi draws cnt HE RD. rewrite C96_definite.
  assert (R : forall v, In v draws -> cvdot v (A v) = hdot v (A v) /\ snd (cvdot v (A v)) = 0).
  { intros v Hv. specialize (RD v Hv). destruct v as [a b]. cbn [snd] in RD. subst b.
    assert (Q : cvdot (a, @izero E) (A (a, izero)) = hdot (a, izero) (A (a, izero))).
    { unfold hdot. cbn [fst snd]. f_equal. f_equal. unfold ineg. veq. }
    split; [exact Q|]. rewrite Q. pose proof (HE (a, izero) (a, izero)) as H. apply (f_equal snd) in H.
    unfold hdot, cvdot in *. cbn [fst snd] in *. unfold ineg in *. rewrite !ip_scalel, !ip_zero, !ip_zerol in *.
    rewrite (ip_sym (snd _) a) in H. lra. }
  split.
  - intros (v & Hv & Q). destruct (R v Hv) as [R1 R2]. exists v. split; [exact Hv|]. cbn zeta in Q. rewrite <- R1.
    destruct Q as [Q|Q]; [|exact Q]. exfalso. rewrite R2 in Q.
    pose proof (sqrt_pos eps). pose proof (cmod_nonneg (cvdot v (A v))). nra.
  - intros (v & Hv & Q). destruct (R v Hv) as [R1 R2]. exists v. split; [exact Hv|]. cbn zeta. right. rewrite R1. exact Q.
Qed.
End Checks.

(** A symmetric operator that the symmetry check rejects: the multiplication by [i]. *)
Theorem C96_symmetric_refuted : forall dvc csq (E : IPS), exists A : cv E -> cv E,
  clin A /\ (forall u v, cvdot (A u) v = cvdot u (A v)) /\
  forall cbrt c n (x : cv E) draws cnt, cbrt (/ 4503599627370496, 0) = (c, 0) -> 0 < c ->
    In x draws -> snd x = izero -> / 4503599627370496 < ip (fst x) (fst x) ->
    fst (@check_symmetric (cL dvc csq) (cLV dvc csq E) cbrt n n A draws cnt) = false.
Proof.
  intros dvc csq E. exists (cvscale (0, 1)).
  assert (SY : forall u v : cv E, cvdot (cvscale (0, 1) u) v = cvdot u (cvscale (0, 1) v)).
  { intros [a b] [c d]. unfold cvdot, cvscale, isub, ineg. cbn [fst snd]. f_equal; ipx; ring. }
  split; [|split].
  - constructor.
    + intros [a b] [c d]. unfold cvscale, cvadd. cbn [fst snd]. f_equal; veq.
    + intros [r i] [c d]. unfold cvscale. cbn [fst snd]. f_equal; veq.
  - exact SY.
  - intros cbrt c n x draws cnt HC C0 Hx RX LX.
    apply (proj2 (C96_symmetric_operator dvc csq E n (cvscale (0, 1)) cbrt c draws cnt HC C0 SY)).
    exists x. split; [exact Hx|]. destruct x as [a b]. cbn [fst snd] in *. subst b.
    unfold cvdot, cvscale, isub, ineg. cbn [fst snd]. ipx. rewrite ?ip_zerol, ?ip_zero. lra.
Qed.

(** The sign of the imaginary part matters: the multiplication by [1 - 5i] passes the definiteness check, its
    adjoint does not. *)
Theorem C96_definite_refuted : forall dvc csq (E : IPS), csq_ok csq -> exists A B : cv E -> cv E,
  clin A /\ clin B /\ (forall u v, hdot (A u) v = hdot u (B v)) /\
  (forall u, snd (hdot u (A u)) = - 5 * (cvnorm u * cvnorm u)) /\
  forall n semi draws cnt, real_draws draws -> (forall v, In v draws -> fst v <> izero) ->
    fst (@check_positive_definite (cL dvc csq) (cLV dvc csq E) n n A semi draws cnt) = true /\
    (draws <> [] -> fst (@check_positive_definite (cL dvc csq) (cLV dvc csq E) n n B semi draws cnt) = false).
Proof.
  intros dvc csq E CS. exists (cvscale (1, - 5)), (cvscale (1, 5)).
  assert (CL : forall z : CR, clin (@cvscale E z)).
  { intros [p q]. constructor.
    - intros [a b] [c d]. unfold cvscale, cvadd. cbn [fst snd]. f_equal; veq.
    - intros [r i] [c d]. unfold cvscale. cbn [fst snd]. f_equal; veq. }
  split; [apply CL|]. split; [apply CL|]. split; [|split].
  - intros [a b] [c d]. unfold hdot, cvdot, cvscale, isub, ineg. cbn [fst snd]. f_equal; ipx; ring.
  - intros [a b]. unfold cvnorm. rewrite sqrt_sqrt by (cbn [fst snd]; pose proof (ip_pos a); pose proof (ip_pos b); lra).
    unfold hdot, cvdot, cvscale, isub, ineg. cbn [fst snd]. ipx. rewrite (ip_sym b a). ring.
  - intros n semi draws cnt RD NZ.
    assert (DV : forall p q v, In v draws -> cvdot v (cvscale (p, q) v) = (p * ip (fst v) (fst v), q * ip (fst v) (fst v)) /\ 0 < ip (fst v) (fst v)).
    { intros p q v Hv. specialize (RD v Hv). specialize (NZ v Hv). destruct v as [a b]. cbn [fst snd] in *. subst b. split; [|apply ip_nz; exact NZ].
      unfold cvdot, cvscale, isub, ineg. cbn [fst snd]. ipx. rewrite ?ip_zerol, ?ip_zero. f_equal; ring. }
    split.
    + destruct (fst _) eqn:F; [reflexivity|]. apply (C96_definite dvc csq E CS) in F. destruct F as (v & Hv & Q). cbn zeta in Q.
      destruct (DV 1 (- 5) v Hv) as [D1 D2]. rewrite D1 in Q. cbn [fst snd] in Q. exfalso.
      pose proof (sqrt_pos (/ 4503599627370496)) as S0. pose proof (cmod_nonneg (1 * ip (fst v) (fst v), - 5 * ip (fst v) (fst v))) as C0.
      destruct Q as [Q|Q]; [nra|]. destruct semi; lra.
    + intro NE. destruct draws as [|v draws]; [congruence|]. apply (C96_definite dvc csq E CS). exists v. split; [now left|]. cbn zeta. left.
      destruct (DV 1 5 v (or_introl eq_refl)) as [D1 D2]. rewrite D1. cbn [snd].
      set (s := ip (fst v) (fst v)) in *.
      assert (CM : cmod (1 * s, 5 * s) <= 6 * s).
      { unfold cmod. cbn [fst snd]. rewrite <- (sqrt_square (6 * s)) by lra. apply sqrt_le_1_alt. nra. }
      assert (SE : sqrt (/ 4503599627370496) <= / 2).
      { rewrite <- (sqrt_square (/ 2)) by lra. apply sqrt_le_1_alt. lra. }
      pose proof (sqrt_pos (/ 4503599627370496)) as S0. pose proof (cmod_nonneg (1 * s, 5 * s)) as C0. nra.
Qed.

(** A Hermitian positive definite operator that the symmetry check rejects. *)
Theorem C96_hermitian_refuted : forall dvc csq, exists A : cv (Rn 2) -> cv (Rn 2),
  clin A /\ (forall u v, hdot (A u) v = hdot u (A v)) /\ (forall u, cvnorm u * cvnorm u <= fst (hdot u (A u))) /\
  forall cbrt c n (x : cv (Rn 2)) draws cnt, cbrt (/ 4503599627370496, 0) = (c, 0) -> 0 < c < / 2 ->
    In x draws -> snd x = izero -> / 4503599627370496 < ip (fst x) (fst x) ->
    fst (@check_symmetric (cL dvc csq) (cLV dvc csq (Rn 2)) cbrt n n A draws cnt) = false.
Proof.
  intros dvc csq.
  (* A = [2 -i; i 2] *)
  exists (fun u : cv (Rn 2) => let '((a, (b, _)), (c, (d, _))) := u in
    ((v2 (2 * a + d) (2 * b - c), v2 (2 * c - b) (2 * d + a)) : cv (Rn 2))).
  split; [|split; [|split]].
  - constructor.
    + intros [[a [b []]] [c [d []]]] [[a' [b' []]] [c' [d' []]]]. unfold cvadd. cbn. apply f_equal2; apply v2_eq; ring.
    + intros [p q] [[a [b []]] [c [d []]]]. unfold cvscale, isub, ineg. cbn. apply f_equal2; apply v2_eq; ring.
  - intros [[a [b []]] [c [d []]]] [[a' [b' []]] [c' [d' []]]]. unfold hdot, cvdot, ineg. cbn. f_equal; ring.
  - intros [[a [b []]] [c [d []]]]. unfold cvnorm. rewrite sqrt_sqrt.
    + unfold hdot, cvdot, ineg. cbn. pose proof (Rle_0_sqr (a + d)) as Q1. pose proof (Rle_0_sqr (b - c)) as Q2. unfold Rsqr in *. lra.
    + pose proof (@ip_pos (Rn 2) (v2 a b)). pose proof (@ip_pos (Rn 2) (v2 c d)). cbn in *. lra.
  - intros cbrt c n x draws cnt HC C0 Hx RX LX. apply (C96_symmetric dvc csq (Rn 2) n _ cbrt c draws cnt HC).
    exists x. split; [exact Hx|]. destruct x as [[a [b []]] x2]. cbn [snd] in RX. subst x2. left.
    cbn in LX |- *.
    match goal with |- _ < cmod ?z => assert (CM : 2 * (a * a + b * b) <= cmod z) end.
    { unfold cmod. cbn [fst snd ksub FCR]. rewrite <- (sqrt_square (2 * (a * a + b * b))) by nra. apply sqrt_le_1_alt. cbn. nra. }
    eapply Rlt_le_trans; [|exact CM].
    match goal with |- ?l < _ => replace l with ((3 * (a * a + b * b) + / 4503599627370496) * c) by (cbn; ring) end. nra.
Qed.

(** The hypotheses hold: every draw of a unit vector; the cube root of [eps] is below 1/2. *)
Example ex_C96 : exists c, 0 < c < / 2 /\ c * c * c = / 4503599627370496 /\
  real_draws [(v2 1 0, v2 0 0) : cv (Rn 2)] /\ / 4503599627370496 < @ip (Rn 2) (v2 1 0) (v2 1 0) /\
  csq_ok csqrt.
Proof.
  set (e := / 4503599627370496). assert (E0 : 0 < e) by (unfold e; lra).
  exists (exp (ln e / 3)). pose proof (exp_pos (ln e / 3)) as P.
  assert (C : exp (ln e / 3) * exp (ln e / 3) * exp (ln e / 3) = e).
  { rewrite <- !exp_plus. replace (ln e / 3 + ln e / 3 + ln e / 3) with (ln e) by field. apply exp_ln. exact E0. }
  split; [split; [exact P|]|].
  - destruct (Rlt_dec (exp (ln e / 3)) (/ 2)) as [L|L]; [exact L|exfalso]. apply Rnot_lt_le in L.
    set (c := exp _) in *. assert (/ 4 <= c * c) by nra. assert (/ 8 <= c * c * c) by nra. unfold e in C. lra.
  - split; [exact C|]. split; [|split].
    + intros v [<-|[]]. reflexivity.
    + unfold e. cbn. lra.
    + apply csqrt_ok.
Qed.

Print Assumptions C96_symmetric.
Print Assumptions C96_symmetric_operator.
Print Assumptions C96_definite.
Print Assumptions C96_definite_hermitian.
Print Assumptions C96_symmetric_refuted.
Print Assumptions C96_definite_refuted.
Print Assumptions C96_hermitian_refuted.
