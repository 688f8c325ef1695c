(** * Property C94: Python programs mixing numbers, arrays, operators and other values.

    Vocabulary: [psem] (PyProof.v) is the mathematical value of an expression, an operator being its
    shape, dtype and linear map, or the exception raised; [psem] is [None] only if an array is the
    left operand of an operator, which numpy decides.  [vok s v d]: value [v] in heap [s] is what
    [d] says; [rok] is the same for outcomes.  [base] is what Python and numpy do when no operand is
    an operator; [np] is an instance. *)
From Coq Require Import List ZArith Lia Bool Ring.
From Verif Require Import Base Field Vec LinopModel LinopFrame LinopGood LinopInit LinopDep LinopAlg LinopOps LinopExpr
  LinopMisc LinopMat LinopExtra LinopUser PyModel PyProof PropLinop.
Import ListNotations.

Section P.
Context {F : Fld} (FOK : FldOK F).
Add Ring Kring94 : (fk_ring F FOK).
Notation st := (st F). Notation M := (M F). Notation arr := (arr F). Notation pexp := (pexp F).

(** An expression has the value, or raises the exception, that its meaning prescribes; nothing that
    existed before changes except counters. *)
Theorem C94_expression : forall (B : base F), basewf B -> forall e env senv (s : st) r,
  wfst s -> xwf e -> Forall2 (vok s) env senv -> psem B senv e = Some r ->
  exists D s' o, (forall d, D <= d -> peval B d env e s = (s', o)) /\ ext s s' /\ wfst s' /\ rok s' o r.
Proof. intros B BW e env senv s r. apply (peval_agrees FOK B BW). Qed.

(** A program: any sequence of guarded assignments. *)
Theorem C94_program : forall (B : base F), basewf B -> forall p env senv (s : st) rs,
  wfst s -> Forall xwf p -> Forall2 (vok s) env senv -> psems B senv p = Some rs ->
  exists D s' os, (forall d, D <= d -> prun B d env p s = (s', os)) /\ ext s s' /\ wfst s' /\ Forall2 (rok s') os rs.
Proof. intros B BW p env senv s rs. apply (prun_agrees FOK B BW). Qed.

(** ** Which operand types raise what: operator [e1], any value [e2]. *)
Theorem C94_dispatch : forall (B : base F) senv e1 e2 D v,
  psem B senv e1 = Some (Ok (SOp D)) -> psem B senv e2 = Some (Ok v) ->
  let isop := match v with SOp _ => True | _ => False end in
  let isnum := match v with SBase (PNum _) => True | _ => False end in
  let isint := match v with SBase (PNum (PyInt _)) => True | _ => False end in
  let isarr := match v with SBase (PArr _) => True | _ => False end in
  (v = SBase POther -> psem B senv (XBin BMul e1 e2) = Some (Err ValueError) /\
                       psem B senv (XBin BMul e2 e1) = Some (Err ValueError)) /\
  (~ isop -> psem B senv (XBin BAdd e1 e2) = Some (Err ValueError) /\ psem B senv (XBin BSub e1 e2) = Some (Err ValueError)) /\
  (~ isnum -> psem B senv (XBin BDiv e1 e2) = Some (Err ValueError) /\ psem B senv (XBin BTrueDiv e1 e2) = Some (Err ValueError)) /\
  (~ isint -> psem B senv (XBin BPow e1 e2) = Some (Err ValueError)) /\
  (~ isop -> ~ isarr -> forall o, o <> BMul -> psem B senv (XBin o e2 e1) = Some (Err TypeError)) /\
  psem B senv (XCall e1 e2) = psem B senv (XBin BMul e1 e2) /\
  psem B senv (XRmatvec e1 e2) = psem B senv (XBin BMul (XUn UH e1) e2).
Proof.
  intros B senv e1 e2 D v H1 H2 isop isnum isint isarr. subst isop isnum isint isarr.
  destruct D as [[[n m] dt] f].
  repeat split; try (intros); cbn [psem]; rewrite ?H1, ?H2; cbn [obind s_bin s_left s_mul s_un s_adj];
    try (subst v; reflexivity); destruct v as [[[z|x|x]|x|]|[[[n' m'] dt'] g]]; cbn in *; try tauto; try reflexivity;
    destruct o; try reflexivity; congruence.
Qed.

(** ** The instance for numbers and arrays keeps real values real. *)
Lemma num_real : forall c : pynum F, nwf c -> is_complex (sty (num_scalar c)) = false -> kconj (sval (num_scalar c)) = sval (num_scalar c).
Proof. intros c W. exact (num_swf FOK c W). Qed.
Lemma rt_real : forall a b, is_complex (result_type a b) = false -> is_complex a = false /\ is_complex b = false.
Proof. intros [] []; auto; discriminate. Qed.
Lemma num_op_wf : forall zop (kop : F -> F -> F) a b,
  (forall x y, kconj x = x -> kconj y = y -> kconj (kop x y) = kop x y) ->
  nwf a -> nwf b -> nwf (num_op zop kop a b).
Proof.
  intros zop kop a b HK Wa Wb.
  assert (G : nwf (num_of (result_type (sty (num_scalar a)) (sty (num_scalar b)))
    (kop (sval (num_scalar a)) (sval (num_scalar b))))).
  { destruct (result_type (sty (num_scalar a)) (sty (num_scalar b))) eqn:E; cbn [num_of nwf]; [|  |exact I];
      (assert (C : is_complex (result_type (sty (num_scalar a)) (sty (num_scalar b))) = false) by (rewrite E; reflexivity));
      apply rt_real in C; destruct C as [C1 C2]; apply HK; apply num_real; assumption. }
  destruct a as [x|x|x], b as [y|y|y]; try exact G. exact I.
Qed.
Lemma conj_mul_real : forall x y : F, kconj x = x -> kconj y = y -> kconj (kmul x y) = kmul x y.
Proof. intros x y Hx Hy. rewrite (fk_conj_mul F FOK). congruence. Qed.
Lemma conj_opp : forall x : F, kconj x = x -> kconj (kopp x) = kopp x.
Proof.
  intros x Hx. replace (kopp x) with (kmul (kofZ (-1)) x).
  - apply conj_mul_real; [apply (fk_ofZ_real F FOK)|exact Hx].
  - change (-1)%Z with (- (1))%Z. rewrite (fk_ofZ_opp F FOK), (fk_ofZ_1 F FOK). ring.
Qed.
Lemma num_div_wf : forall t (a b c : pynum F), nwf a -> nwf b -> num_div t a b = Ok c -> nwf c.
Proof.
  intros t a b c Wa Wb H. unfold num_div in H. destruct (keqb (sval (num_scalar b)) k0) eqn:N; [discriminate|].
  assert (I0 : is_complex (sty (num_scalar b)) = false -> kconj (kinv (sval (num_scalar b))) = kinv (sval (num_scalar b)))
    by (intro C; apply (conj_inv FOK); [now apply num_real|exact N]).
  assert (G : nwf (num_of (result_type (sty (num_scalar a)) (sty (num_scalar b)))
    (kmul (sval (num_scalar a)) (kinv (sval (num_scalar b)))))).
  { destruct (result_type (sty (num_scalar a)) (sty (num_scalar b))) eqn:E; cbn [num_of nwf]; [|  |exact I];
      (assert (C : is_complex (result_type (sty (num_scalar a)) (sty (num_scalar b))) = false) by (rewrite E; reflexivity));
      apply rt_real in C; destruct C as [C1 C2]; (apply conj_mul_real; [apply num_real; assumption|now apply I0]). }
  destruct a as [x|x|x], b as [y|y|y]; injection H as <-; try exact G.
  destruct t; [|exact I]. cbn [nwf]. apply conj_mul_real; [apply (fk_ofZ_real F FOK)|]. now apply I0.
Qed.
Lemma vreal_zip : forall (op : F -> F -> F) x y, (forall a b, kconj a = a -> kconj b = b -> kconj (op a b) = op a b) ->
  vreal x -> vreal y -> vreal (zipw op x y).
Proof.
  intros op x. induction x as [|a x IH]; intros [|b y] H Hx Hy; try reflexivity.
  unfold vreal, vconj in *. cbn in *. injection Hx as Ha Hx. injection Hy as Hb Hy. f_equal; [now apply H|now apply IH].
Qed.
Lemma np_wf : basewf (@np F).
Proof.
  assert (AD : forall a b : F, kconj a = a -> kconj b = b -> kconj (kadd a b) = kadd a b)
    by (intros a b Ha Hb; rewrite (fk_conj_add F FOK); congruence).
  assert (SB : forall a b : F, kconj a = a -> kconj b = b -> kconj (ksub a b) = ksub a b).
  { intros a b Ha Hb. replace (ksub a b) with (kadd a (kopp b)) by ring. apply AD; [exact Ha|now apply conj_opp]. }
  assert (SM : forall c (x : arr), nwf c -> awf x -> awf (LinopModel.smul (num_scalar c) x)).
  { intros c x Wc Wx C. cbn in C |- *. apply rt_real in C. destruct C as [C1 C2].
    unfold vreal, vconj, vscale. rewrite map_map. rewrite <- (Wx C2) at 2. unfold vconj. rewrite map_map. apply map_ext.
    intro a. rewrite (fk_conj_mul F FOK), (num_real c Wc C1). reflexivity. }
  split.
  - intros o p q r Wp Wq H. destruct o, p as [a|x|], q as [b|y|]; cbn in H; try discriminate;
      try (injection H as <-; cbn; apply num_op_wf; auto using conj_mul_real; fail);
      try (injection H as <-; cbn; apply SM; assumption).
    + destruct (asize x =? asize y); [|discriminate]. injection H as <-. intro C. cbn in C |- *. apply rt_real in C.
      apply vreal_zip; [exact AD|now apply Wp|now apply Wq].
    + destruct (asize x =? asize y); [|discriminate]. injection H as <-. intro C. cbn in C |- *. apply rt_real in C.
      apply vreal_zip; [exact SB|now apply Wp|now apply Wq].
    + destruct (num_div false a b) as [c|] eqn:E; [|discriminate]. injection H as <-. cbn. eapply num_div_wf; [| |exact E]; assumption.
    + destruct (num_div true a b) as [c|] eqn:E; [|discriminate]. injection H as <-. cbn. eapply num_div_wf; [| |exact E]; assumption.
  - intros o p r Wp H. destruct o, p as [[z|x|x]|x|]; cbn in H; try discriminate; injection H as <-; cbn; auto.
    + cbn in Wp. now apply conj_opp.
    + intro C. cbn in C |- *. specialize (Wp C). revert Wp. unfold vreal, vconj. rewrite map_map.
      generalize (adata x) as l. induction l as [|a l IH]; intro Wp; cbn in *; [reflexivity|].
      injection Wp as Ha Wp. f_equal; [now apply conj_opp|now apply IH].
Qed.

(** ** Laws of operator algebra seen by products with vectors, dtypes included.  [gives e y]: [e]
    evaluates to the array [y]. *)
Definition gives (env : list (val F)) (s : st) (e : pexp) (y : arr) : Prop :=
  exists D s', (forall d, D <= d -> peval np d env e s = (s', Ok (VBase (PArr y)))) /\ ext s s'.
Lemma gives_sem : forall env senv s e y, wfst s -> xwf e -> Forall2 (vok s) env senv ->
  psem np senv e = Some (Ok (SBase (PArr y))) -> gives env s e y.
Proof.
  intros env senv s e y W We En H.
  destruct (C94_expression np np_wf e env senv s _ W We En H) as (D & s' & o & HD & X & _ & R).
  destruct o as [[p|a]|x]; cbn in R; try tauto. destruct R as [-> _]. exists D, s'. split; [exact HD|exact X].
Qed.
(** An explicit call A.__rmul__(B): for an operator B it is B * A, for a number c it is A * c, anything else is a ValueError. *)
Theorem C94_rmul : forall d a b c x (s : st),
  py_rmul a (VOp b) s = py_mul d b (VOp a) s /\
  py_rmul a (VBase (PNum c)) s = py_mul d a (VBase (PNum c)) s /\
  py_rmul a (VBase (PArr x)) s = (s, Err ValueError) /\ py_rmul a (VBase POther) s = (s, Err ValueError).
Proof. intros. repeat split; reflexivity. Qed.

(** a.rmatvec(v) multiplies by the adjoint; without one it looks up a method of None. *)
Theorem C94_rmatvec : forall d a v (s : st) o, objs s a = Some o ->
  (forall h, o_H o = Some h -> py_rmatvec d (VOp a) v s = py_mul d h v s) /\
  (o_H o = None -> py_rmatvec d (VOp a) v s = (s, Err AttributeError)).
Proof.
  intros d a v s o Ho. unfold py_rmatvec, bind. rewrite (getattr_ok _ _ _ _ _ Ho).
  split; [intros h -> | intros ->]; reflexivity.
Qed.

(** abs(A) is a TypeError and sqrt(A) an AttributeError unless A is diagonal or zero; these return a new operator
    (C15_abs, C15_sqrt), respectively A itself. *)
Theorem C15_abs_other : forall kabs ksqrt kneg (s : st) a o, objs s a = Some o ->
  (o_pay o = PZero -> abs_op kabs a s = (s, Ok a) /\ sqrt_op ksqrt kneg a s = (s, Ok a)) /\
  (o_pay o <> PZero -> (forall d, o_pay o <> PDiag d) ->
     abs_op kabs a s = (s, Err TypeError) /\ sqrt_op ksqrt kneg a s = (s, Err AttributeError)).
Proof.
  intros kabs ksqrt kneg s a o Ho.
  assert (A : forall B (f : obj F -> B), getattr f a s = (s, Ok (f o))) by (intros; apply getattr_ok; exact Ho).
  unfold abs_op, sqrt_op. split.
  - intro P. erewrite !bind_ok by apply A. rewrite P. split; reflexivity.
  - intros P Q. erewrite !bind_ok by apply A.
    destruct (o_pay o); try congruence; try (now split); exfalso; eapply Q; reflexivity.
Qed.

Theorem C94_laws : forall env senv (s : st) e1 e2 e3 c k m d1 f n d2 g x,
  wfst s -> Forall2 (vok s) env senv -> xwf e1 -> xwf e2 -> xwf e3 -> nwf c ->
  psem np senv e1 = Some (Ok (SOp (k, m, d1, f))) -> psem np senv e2 = Some (Ok (SOp (n, k, d2, g))) ->
  psem np senv e3 = Some (Ok (SBase (PArr x))) -> asize x = n ->
  let same l r := exists y, gives env s l y /\ gives env s r y in
  let C := XLit (PNum c) in
  same (XBin BMul (XBin BMul e1 e2) e3) (XBin BMul e1 (XBin BMul e2 e3)) /\
  same (XBin BMul (XBin BMul C e2) e3) (XBin BMul C (XBin BMul e2 e3)) /\
  same (XBin BMul (XBin BMul e2 C) e3) (XBin BMul e2 (XBin BMul C e3)) /\
  same (XCall e2 e3) (XBin BMul e2 e3) /\
  (forall e2' d2' g', xwf e2' -> psem np senv e2' = Some (Ok (SOp (n, k, d2', g'))) ->
    same (XBin BMul (XBin BAdd e2 e2') e3) (XBin BAdd (XBin BMul e2 e3) (XBin BMul e2' e3)) /\
    same (XBin BMul (XBin BSub e2 e2') e3) (XBin BSub (XBin BMul e2 e3) (XBin BMul e2' e3))) /\
  (forall e3' x', xwf e3' -> psem np senv e3' = Some (Ok (SBase (PArr x'))) -> asize x' = n ->
    same (XBin BMul e2 (XBin BAdd e3 e3')) (XBin BAdd (XBin BMul e2 e3) (XBin BMul e2 e3'))).
Proof.
  intros env senv s e1 e2 e3 c k m d1 f n d2 g x W En W1 W2 W3 Wc H1 H2 H3 Sx same C.
  assert (LIN : forall e nn mm dd ff, xwf e -> psem np senv e = Some (Ok (SOp (nn, mm, dd, ff))) -> linmap nn mm ff).
  { intros e nn mm dd ff We H. destruct (C94_expression np np_wf e env senv s _ W We En H) as (D & s' & o & _ & _ & _ & R).
    destruct o as [[p|a]|z]; cbn in R; try tauto. eapply denotes_lin. apply (Good_den _ _ _ _ _ (proj1 R)). }
  assert (RT : forall a b c, result_type (result_type a b) c = result_type a (result_type b c)) by (intros [] [] []; reflexivity).
  assert (G : forall e y, xwf e -> psem np senv e = Some (Ok (SBase (PArr y))) -> gives env s e y)
    by (intros e y We H; eapply gives_sem; eauto).
  assert (SG : forall y, asize y = n -> length (g (adata y)) = k) by (intros y Sy; apply (LIN e2 n k d2 g W2 H2); exact Sy).
  pose proof (LIN e2 n k d2 g W2 H2) as LG.
  assert (Q2 : psem np senv (XBin BMul e2 e3) = Some (Ok (SBase (PArr (mkarr (result_type d2 (adt x)) (g (adata x))))))).
  { cbn [psem]. rewrite H2, H3. cbn [obind s_bin s_left s_mul]. rewrite Sx, Nat.eqb_refl. reflexivity. }
  assert (MU : forall e3' x', psem np senv e3' = Some (Ok (SBase (PArr x'))) -> asize x' = n ->
    psem np senv (XBin BMul e2 e3') = Some (Ok (SBase (PArr (mkarr (result_type d2 (adt x')) (g (adata x'))))))).
  { intros e3' x' H3' Sx'. cbn [psem]. rewrite H2, H3'. cbn [obind s_bin s_left s_mul]. rewrite Sx', Nat.eqb_refl. reflexivity. }
  repeat split.
  - exists (mkarr (result_type d1 (result_type d2 (adt x))) (f (g (adata x)))). split; (apply G; [cbn; auto|]).
    + cbn [psem]. rewrite H1, H2, H3. cbn [obind s_bin s_left s_mul]. rewrite Nat.eqb_refl. cbn [obind s_bin s_left s_mul].
      rewrite Sx, Nat.eqb_refl. rewrite RT. reflexivity.
    + cbn [psem]. cbn [psem] in Q2. rewrite Q2, H1. cbn [obind s_bin s_left s_mul]. unfold asize at 1. cbn [adata].
      rewrite (SG x Sx), Nat.eqb_refl. reflexivity.
  - exists (mkarr (result_type (sty (num_scalar c)) (result_type d2 (adt x))) (vscale (sval (num_scalar c)) (g (adata x)))).
    split; (apply G; [cbn; auto|]).
    + cbn [psem C]. rewrite H2, H3. cbn [obind s_bin s_left s_mul]. rewrite Sx, Nat.eqb_refl.
      replace (result_type (result_type d2 (sty (num_scalar c))) (adt x)) with (result_type (sty (num_scalar c)) (result_type d2 (adt x)));
        [reflexivity|]. destruct d2, (sty (num_scalar c)), (adt x); reflexivity.
    + cbn [psem] in Q2 |- *. rewrite Q2. reflexivity.
  - exists (mkarr (result_type d2 (result_type (sty (num_scalar c)) (adt x))) (g (vscale (sval (num_scalar c)) (adata x)))).
    split; (apply G; [cbn; auto|]).
    + cbn [psem C]. rewrite H2, H3. cbn [obind s_bin s_left s_mul]. rewrite Sx, Nat.eqb_refl, RT.
      rewrite (lin_scale n k g LG) by exact Sx. reflexivity.
    + cbn [psem C]. rewrite H2, H3. cbn [obind s_bin s_left s_mul rmap np b2 np2]. unfold asize at 1. cbn [LinopModel.smul adata adt].
      unfold vscale at 1. rewrite map_length. fold (asize x). rewrite Sx, Nat.eqb_refl. reflexivity.
  - eexists. split; (apply G; [cbn; auto|]); [|exact Q2].
    cbn [psem] in Q2 |- *. rewrite H2, H3 in *. exact Q2.
  - exists (mkarr (result_type (result_type d2 d2') (adt x)) (vadd (g (adata x)) (g' (adata x)))).
    split; (apply G; [cbn; auto|]).
    + cbn [psem]. rewrite H2, H0, H3. cbn [obind s_bin s_left saddsub opres]. rewrite !Nat.eqb_refl. cbn [andb obind opres s_bin s_left s_mul].
      rewrite Sx, Nat.eqb_refl. reflexivity.
    + cbn [psem]. rewrite H2, H0, H3. cbn [obind s_bin s_left s_mul]. rewrite Sx, Nat.eqb_refl. cbn [obind s_bin np b2 np2]. unfold asize. cbn [adata].
      pose proof (lin_len n k g' (LIN e2' n k d2' g' H H0) (adata x) Sx) as L'. rewrite (SG x Sx), L', Nat.eqb_refl. cbn [rmap].
      unfold aadd. cbn [adt adata].
      replace (result_type (result_type d2 (adt x)) (result_type d2' (adt x))) with (result_type (result_type d2 d2') (adt x));
        [reflexivity|]. destruct d2, d2', (adt x); reflexivity.
  - exists (mkarr (result_type (result_type d2 d2') (adt x)) (vsub (g (adata x)) (g' (adata x)))).
    split; (apply G; [cbn; auto|]).
    + cbn [psem]. rewrite H2, H0, H3. cbn [obind s_bin s_left saddsub opres]. rewrite !Nat.eqb_refl. cbn [andb obind opres s_bin s_left s_mul].
      rewrite Sx, Nat.eqb_refl. reflexivity.
    + cbn [psem]. rewrite H2, H0, H3. cbn [obind s_bin s_left s_mul]. rewrite Sx, Nat.eqb_refl. cbn [obind s_bin np b2 np2]. unfold asize. cbn [adata].
      pose proof (lin_len n k g' (LIN e2' n k d2' g' H H0) (adata x) Sx) as L'. rewrite (SG x Sx), L', Nat.eqb_refl. cbn [rmap].
      unfold asub. cbn [adt adata].
      replace (result_type (result_type d2 (adt x)) (result_type d2' (adt x))) with (result_type (result_type d2 d2') (adt x));
        [reflexivity|]. destruct d2, d2', (adt x); reflexivity.
  - intros e3' x' We' H3' Sx'. exists (mkarr (result_type d2 (result_type (adt x) (adt x'))) (vadd (g (adata x)) (g (adata x')))).
    split; (apply G; [cbn; auto|]).
    + cbn [psem]. rewrite H2, H3, H3'. cbn [obind s_bin np b2 np2 rmap]. rewrite Sx, Sx', Nat.eqb_refl. cbn [rmap obind s_bin s_left s_mul].
      unfold aadd, asize. cbn [adata adt]. unfold asize in Sx, Sx'. rewrite vadd_length, Sx, Nat.eqb_refl by congruence.
      rewrite (lin_add n k g LG) by assumption. reflexivity.
    + pose proof (MU e3' x' H3' Sx') as Q2'. cbn [psem] in Q2, Q2' |- *. rewrite Q2, Q2'. cbn [obind s_bin np b2 np2]. unfold asize. cbn [adata].
      rewrite (SG x Sx), (SG x' Sx'), Nat.eqb_refl. cbn [rmap]. unfold aadd. cbn [adt adata].
      replace (result_type (result_type d2 (adt x)) (result_type d2 (adt x'))) with (result_type d2 (result_type (adt x) (adt x')));
        [reflexivity|]. destruct d2, (adt x), (adt x'); reflexivity.
Qed.

(** ** Assigning the dtype attribute. *)
Theorem C94_dtype_setter : forall (s : st) a o v, objs s a = Some o ->
  set_dtype a None s = (s, Err TypeError) /\
  exists s', set_dtype a (Some v) s = (s', Ok tt) /\
    (forall b, b <> a -> objs s' b = objs s b) /\ arrs s' = arrs s /\ rows s' = rows s /\
    (is_complex v = false -> conjugate a s' = (s', Ok a)) /\
    forall g d (x y : arr), o_mv o = CUser g -> asize x = o_nargin o -> g x = Ok y -> asize y = o_nargout o ->
      exists s1, apply (S d) a x s' = (s1, Ok (astype (result_type v (adt x)) y)).
Proof.
  intros s a o v Ho. split; [reflexivity|].
  exists (set_obj a (with_dtype v o) s). split; [cbn; unfold modobj; now rewrite Ho|].
  split; [intros b N; cbn; unfold upd; apply Nat.eqb_neq in N; now rewrite N|].
  split; [reflexivity|]. split; [reflexivity|].
  assert (Ha : objs (set_obj a (with_dtype v o) s) a = Some (with_dtype v o)) by apply get_set_eq.
  split.
  - intro C. unfold conjugate, conjugate_, bind, getattr. rewrite Ha. cbn [with_dtype o_dtype]. rewrite C. reflexivity.
  - intros g d x y Hc Hx Hg Hy. rewrite (apply_unfold d a x _ _ Ha). cbn [with_dtype o_nargin o_mv o_nargout o_dtype].
    rewrite Hx, Nat.eqb_refl, Hc. cbn [negb call]. unfold lift. rewrite Hg, Hy, Nat.eqb_refl. cbn [negb]. eexists; reflexivity.
Qed.
End P.

Section Ex.
Local Notation arrQ := (arr FQI).
Definition s0 : st FQI := empty_st.
Lemma wf0 : wfst s0. Proof. repeat split; intros; reflexivity. Qed.

(** A program: A = (1+i) I of order 2, x = [1, 2];
    2*A*x - A(x);  A + 1;  1 + A;  A*[..] (a list);  A * (vector of length 3);  None;  (A*A).T*x *)
Definition exA : pexp FQI := XBin BMul (XLit (PNum (@PyComplex FQI (qi 1 1)))) (XId 2 DFloat).
Definition exx : pexp FQI := XLit (PArr (@mkarr FQI DFloat [qi 1 0; qi 2 0])).
Definition exp_prog : list (pexp FQI) :=
  [ exA; exx;
    XBin BSub (XBin BMul (XBin BMul (XLit (PNum (PyInt 2))) (XVar 0)) (XVar 1)) (XCall (XVar 0) (XVar 1));
    XBin BAdd (XVar 0) (XLit (PNum (PyInt 1)));
    XBin BAdd (XLit (PNum (PyInt 1))) (XVar 0);
    XBin BMul (XVar 0) (XLit POther);
    XBin BMul (XVar 0) (XLit (PArr (@mkarr FQI DFloat [qi 1 0; qi 2 0; qi 3 0])));
    XRmatvec (XBin BPow (XVar 0) (XLit (PNum (PyInt 2)))) (XVar 1) ].
Definition kind (r : res (sv (F := FQI))) : res (option arrQ) :=
  match r with Ok (SBase (PArr x)) => Ok (Some x) | Ok _ => Ok None | Err e => Err e end.
Definition arr_is (r : res (option arrQ)) (d : list (QI)) : bool :=
  match r with Ok (Some x) => Nat.eqb (length (adata x)) (length d) && forallb (fun p => @keqb FQI (fst p) (snd p)) (combine (adata x) d) | _ => false end.
Definition err_is (r : res (option arrQ)) (e : exn) : bool :=
  match r, e with Err ValueError, ValueError => true | Err TypeError, TypeError => true | _, _ => false end.
Definition ex_test (l : list (res (option arrQ))) : bool :=
  match l with
  | [_; _; r2; r3; r4; r5; r6; r7] =>
      arr_is r2 [qi 1 1; qi 2 2] && err_is r3 ValueError && err_is r4 TypeError && err_is r5 ValueError &&
      err_is r6 ValueError && arr_is r7 [qi 0 (-2); qi 0 (-4)]
  | _ => false
  end.
Example ex_C94 : exists rs D s' os, psems np [] exp_prog = Some rs /\
  (forall d, D <= d -> prun np d [] exp_prog s0 = (s', os)) /\ Forall2 (rok s') os rs /\ ex_test (map kind rs) = true.
Proof.
  assert (T : match psems np [] exp_prog with Some rs => ex_test (map kind rs) | None => false end = true)
    by (vm_compute; reflexivity).
  destruct (psems np [] exp_prog) as [rs|] eqn:E; [|discriminate].
  destruct (C94_program FQI_OK np (np_wf FQI_OK) exp_prog [] [] s0 rs wf0) as (D & s' & os & H & _ & _ & R); [|constructor|exact E|].
  - unfold exp_prog, exA, exx. repeat constructor; cbn; auto; intros _; vm_compute; reflexivity.
  - exists rs, D, s', os. split; [reflexivity|]. split; [exact H|]. split; [exact R|exact T].
Qed.

(** The model itself, run: (I + I) x = 2 x and (I - I) x = 0. *)
Definition ran (e : pexp FQI) : res (option arrQ) :=
  match snd (peval np 9 [] e s0) with Ok (VBase (PArr y)) => Ok (Some y) | Ok _ => Ok None | Err x => Err x end.
Example ex_C94_ran : let I2 := XId 2 DFloat in
  arr_is (ran (XBin BMul (XBin BAdd I2 I2) exx)) [qi 2 0; qi 4 0] = true /\
  arr_is (ran (XBin BMul (XBin BSub I2 I2) exx)) [qi 0 0; qi 0 0] = true.
Proof. split; vm_compute; reflexivity. Qed.

(** The laws apply to it. *)
Example ex_C94_laws : exists k m d1 f n d2 g x,
  psem np [] exA = Some (Ok (SOp (k, m, d1, f))) /\ psem np [] (XUn UNeg exA) = Some (Ok (SOp (n, k, d2, g))) /\
  psem np [] exx = Some (Ok (SBase (PArr x))) /\ asize x = n /\ n = 2.
Proof. do 8 eexists. repeat split; reflexivity. Qed.

(** Narrowing the dtype of a complex operator drops imaginary parts: the operator i I of order 1. *)
Definition iI : arrQ -> res arrQ := fun x => Ok (@mkarr FQI DComplex (@vscale FQI (qi 0 1) (adata x))).
Theorem C94_dtype_narrow_refuted : exists (s s' : st FQI) a x y y' s1 s2 d,
  user_op 1 1 iI None None true false DComplex s0 = (s, Ok a) /\
  apply d a x s = (s1, Ok y) /\ arr_is (Ok (Some y)) [qi 0 1] = true /\
  set_dtype a (Some DFloat) s = (s', Ok tt) /\
  apply d a x s' = (s2, Ok y') /\ arr_is (Ok (Some y')) [qi 0 0] = true.
Proof.
  set (x := @mkarr FQI DFloat [qi 1 0] : arrQ).
  assert (T : (let '(s, r) := user_op 1 1 iI None None true false DComplex s0 in
    match r with
    | Ok a =>
        match snd (apply 1 a x s), set_dtype a (Some DFloat) s with
        | Ok y, (s', Ok tt) =>
            match snd (apply 1 a x s') with
            | Ok y' => arr_is (Ok (Some y)) [qi 0 1] && arr_is (Ok (Some y')) [qi 0 0]
            | _ => false end
        | _, _ => false end
    | _ => false end) = true) by (vm_compute; reflexivity).
  destruct (user_op 1 1 iI None None true false DComplex s0) as [s [a|e]] eqn:E; [|discriminate].
  destruct (apply 1 a x s) as [s1 [y|e]] eqn:E1; [|discriminate]. cbn [snd] in T.
  destruct (set_dtype a (Some DFloat) s) as [s' [[]|e]] eqn:E'; [|discriminate].
  destruct (apply 1 a x s') as [s2 [y'|e]] eqn:E2; [|discriminate]. cbn [snd] in T.
  apply andb_true_iff in T. destruct T as [T1 T2].
  exists s, s', a, x, y, y', s1, s2, 1. auto 10.
Qed.
End Ex.

Print Assumptions C94_expression.
Print Assumptions C94_program.
Print Assumptions C94_dispatch.
Print Assumptions C94_rmul.
Print Assumptions C94_rmatvec.
Print Assumptions C15_abs_other.
Print Assumptions C94_laws.
Print Assumptions C94_dtype_setter.
Print Assumptions C94_dtype_narrow_refuted.
