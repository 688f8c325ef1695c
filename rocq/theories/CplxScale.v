(** * A real system with a complex right-hand side [z c]: the run is [z] times the real run. *)
From Coq Require Import List ZArith Lia Bool QArith Qreals Reals Lra Psatz.
From Verif Require Import Base Field Cplx Num ToolsModel CgModel CgProof KrylovModel CplxSolve.
Import ListNotations.
Local Open Scope R_scope.

(** Two results related by [T], or the same error. *)
Definition rrel {A B : Type} (T : A -> B -> Prop) (x : res A) (y : res B) : Prop :=
  match x, y with Ok a, Ok b => T a b | Err e, Err e' => e = e' | _, _ => False end.

Lemma while_rel : forall (S1 S2 : Type) (T : S1 -> S2 -> Prop) c1 b1 c2 b2,
  (forall s t, T s t -> c1 s = c2 t) ->
  (forall s t, T s t -> c1 s = true -> rrel T (b1 s) (b2 t)) ->
  forall fuel s t, T s t -> rrel T (while fuel c1 b1 s) (while fuel c2 b2 t).
Proof.
  intros S1 S2 T c1 b1 c2 b2 HC HB. induction fuel as [|f IH]; intros s t H; cbn [while]; [reflexivity|].
  rewrite <- (HC _ _ H). destruct (c1 s) eqn:C; [|exact H].
  specialize (HB _ _ H C). destruct (b1 s), (b2 t); cbn in HB; try contradiction; [now apply IH|exact HB].
Qed.

Section Scale.
Variables (dv : R -> R -> R) (sq : R -> R) (dvc : CR -> CR -> CR) (csq : CR -> CR) (E : IPS).
Variable z : CR.
Notation KR := (exactK dv sq).
Notation WR := (exactV dv sq E).
Notation KC := (cK dvc csq).
Notation WC := (cV dvc csq E).
Hypothesis Z0 : z <> (0, 0).
Hypothesis SQ : sq_ok sq.
Hypothesis CSQ : csq_ok csq.
(** Complex division of two numbers with a common factor is real division, also when the
    divisor is zero. *)
Hypothesis DV : forall t a b, t <> (0, 0) ->
  dvc (kmul (f := FCR) t (a, 0)) (kmul (f := FCR) t (b, 0)) = (dv a b, 0).

Definition zv (u : iv E) : cv E := (iscale (fst z) u, iscale (snd z) u).
Definition zw (a : R) : CR := kmul (f := FCR) (kmul (f := FCR) z z) (a, 0).
Definition zn (a : R) : CR := (cmod z * a, 0).
Definition re (a : R) : CR := (a, 0).

Lemma zz0 : kmul (f := FCR) z z <> (0, 0).
Proof.
  intro H. apply Z0. apply cmod_zero. assert (C : cmod z * cmod z = 0).
  { rewrite <- cmod_mul, H. unfold cmod. cbn [fst snd]. replace (0 * 0 + 0 * 0) with 0 by ring. apply sqrt_0. }
  nra.
Qed.
Lemma zn0 : 0 < cmod z. Proof. apply cmod_pos, Z0. Qed.

Lemma zv_add : forall u v, cvadd (zv u) (zv v) = zv (iadd u v).
Proof. intros. unfold zv. cveq. Qed.
Lemma zv_sub : forall u v, cvsub (zv u) (zv v) = zv (isub u v).
Proof. intros. unfold zv. cveq. Qed.
Lemma zv_neg : forall u, cvneg (zv u) = zv (ineg u).
Proof. intros. unfold zv. cveq. Qed.
Lemma zv_zero : cvzero = zv (@izero E).
Proof. unfold zv. cveq. Qed.
Lemma zv_scale : forall a u, cvscale (re a) (zv u) = zv (iscale a u).
Proof. intros. unfold zv, re. cveq. Qed.
Lemma zv_dot : forall u v, cvdot (zv u) (zv v) = zw (ip u v).
Proof. intros. unfold zv, cvdot, zw. cbn [fst snd kmul FCR]. ipx. apply f_equal2; ring. Qed.
Lemma zv_norm : forall u, cvnorm (zv u) = cmod z * inorm u.
Proof.
  intro u. unfold cvnorm, zv, inorm, cmod. cbn [fst snd]. ipx. rewrite <- sqrt_mult by (try apply ip_pos; nra).
  f_equal. ring.
Qed.
Lemma zv_A : forall A : iv E -> iv E, lin A -> forall u, cplx A (zv u) = zv (A u).
Proof. intros A L u. unfold cplx, zv. cbn [fst snd]. now rewrite !(lin_scale A L). Qed.
Lemma zw_div : forall a b, dvc (zw a) (zw b) = re (dv a b).
Proof. intros. apply DV, zz0. Qed.
Lemma re_div : forall a b, dvc (re a) (re b) = re (dv a b).
Proof.
  intros. unfold re at 3. rewrite <- (DV (1, 0)) by (intro H; injection H; lra).
  f_equal; unfold re; cbn [kmul FCR fst snd]; apply f_equal2; ring.
Qed.
Lemma zn_div : forall a b, dvc (zn a) (zn b) = re (dv a b).
Proof.
  intros. pose proof zn0 as P. unfold re. rewrite <- (DV (cmod z, 0)) by (intro H; injection H; lra).
  f_equal; unfold zn; cbn [kmul FCR fst snd]; apply f_equal2; ring.
Qed.
Lemma zw_root : forall a, 0 <= a -> (cmod (csq (zw a)), 0) = zn (Rabs (sq a)).
Proof.
  intros a H. rewrite cmod_csq by assumption. unfold zw. rewrite !cmod_mul, cmod_real.
  rewrite (SQ a H). unfold zn. f_equal. rewrite !Rabs_right by (try apply Rle_ge; try apply sqrt_pos; lra).
  rewrite sqrt_mult by (pose proof (cmod_nonneg z); nra). rewrite sqrt_square by apply cmod_nonneg. reflexivity.
Qed.
Lemma re_root : forall a, 0 <= a -> csq (re a) = re (sq a).
Proof. intros a H. unfold re. rewrite (proj2 CSQ a H), (SQ a H). reflexivity. Qed.
Lemma zn_lt : forall a b, Rltb (cmod z * a) (cmod z * b) = Rltb a b.
Proof.
  intros. pose proof zn0. unfold Rltb. destruct (Rlt_dec a b), (Rlt_dec (cmod z * a) (cmod z * b)); auto; exfalso; nra.
Qed.
Lemma zn_le : forall a b, Rleb (cmod z * a) (cmod z * b) = Rleb a b.
Proof.
  intros. pose proof zn0. unfold Rleb. destruct (Rle_dec a b), (Rle_dec (cmod z * a) (cmod z * b)); auto; exfalso; nra.
Qed.
Lemma re_mul_zn : forall a b, kmul (f := FCR) (re a) (zn b) = zn (a * b).
Proof. intros. unfold re, zn. cbn [kmul FCR fst snd]. apply f_equal2; ring. Qed.
Lemma zn_mul_re : forall a b, kmul (f := FCR) (zn b) (re a) = zn (b * a).
Proof. intros. unfold re, zn. cbn [kmul FCR fst snd]. apply f_equal2; ring. Qed.
Lemma re_mul : forall a b, kmul (f := FCR) (re a) (re b) = re (a * b).
Proof. intros. unfold re. cbn [kmul FCR fst snd]. apply f_equal2; ring. Qed.
Lemma re_add : forall a b, kadd (f := FCR) (re a) (re b) = re (a + b).
Proof. intros. unfold re. cbn [kadd FCR fst snd]. apply f_equal2; ring. Qed.
Lemma re_sub : forall a b, ksub (f := FCR) (re a) (re b) = re (a - b).
Proof. intros. unfold re. cbn [ksub FCR fst snd]. apply f_equal2; ring. Qed.
Lemma re_opp : forall a, kopp (f := FCR) (re a) = re (- a).
Proof. intros. unfold re. cbn [kopp FCR fst snd]. apply f_equal2; ring. Qed.
Lemma re_mul_zw : forall a b, kmul (f := FCR) (re a) (zw b) = zw (a * b).
Proof. intros. unfold re, zw. cbn [kmul FCR fst snd]. apply f_equal2; ring. Qed.

(** The complexified problem: real operator and preconditioner, absolute tolerance scaled by
    the modulus of [z]. *)
Definition cprob (q : kprob WR) (cbrt : CR -> CR) (draws : list (cv E)) : kprob WC :=
  @mkprob KC WC (q_m q) (q_n q) (cplx (q_A q))
    (match q_P q with Some P => Some (cplx P) | None => None end)
    (zn (q_abstol q)) (re (q_reltol q)) cbrt draws.

Variable q : kprob WR.
Variables (cbrt : CR -> CR) (draws : list (cv E)).
Notation qc := (cprob q cbrt draws).
Hypothesis LA : lin (E1 := E) (E2 := E) (q_A q).
Hypothesis LP : forall P, q_P q = Some P -> lin (E1 := E) (E2 := E) P.

Lemma thr_zn : forall a, thr qc (zn a) = zn (thr q a).
Proof.
  intro a. unfold thr, pymax. cbn [q_abstol q_reltol cprob sltb smul cK exactK].
  rewrite re_mul_zn. unfold zn at 1 2. cbn [fst]. rewrite zn_lt. destruct (Rltb _ _); reflexivity.
Qed.
Lemma prec_zv : forall u, prec qc (zv u) = zv (prec q u).
Proof.
  intro u. unfold prec. cbn [q_P cprob]. destruct (q_P q) as [P|] eqn:EP; [|reflexivity].
  apply (zv_A P (LP P eq_refl)).
Qed.
Lemma A_zv : forall u, q_A qc (zv u) = zv (q_A q u).
Proof. intro u. apply (zv_A _ LA). Qed.

Ltac up := cbn [vadd vsub vneg vscale vdot vnorm vzeros vdivs smul sdiv sadd ssub sneg s0 s1 sabs ssqrt
                  sltb sleb slit cK exactK cV exactVn].

(** ** CGS *)
Definition cgs_up (s : cgs_st WR) : cgs_st WC :=
  @mkcgs KC WC (zv (s_x s)) (zv (s_r s)) (zv (s_u s)) (zv (s_p s)) (zw (s_rho s)) (zn (s_res s))
    (s_nmv s) (s_cnt s) (s_fin s).
Lemma cgs_body_up : forall r0 th mx s,
  rrel (fun s t => t = cgs_up s) (cgs_body q r0 th mx s) (cgs_body qc (zv r0) (zn th) mx (cgs_up s)).
Proof.
  intros r0 th mx s. unfold cgs_body, opmul. cbn [s_x s_r s_u s_p s_rho s_res s_nmv s_cnt s_fin cgs_up].
  up. rewrite prec_zv, A_zv, zv_dot, zw_div, zv_scale, zv_sub, zv_add, prec_zv, A_zv, !zv_scale, zv_sub, zv_norm.
  unfold zn at 1. cbn [fst]. rewrite zn_le.
  destruct (_ || _); cbn [rrel]; unfold cgs_up; cbn [s_x s_r s_u s_p s_rho s_res s_nmv s_cnt s_fin].
  - f_equal. apply zv_add.
  - rewrite zv_dot, zw_div, !zv_scale, !zv_add, !zv_scale, !zv_add. reflexivity.
Qed.

Definition kw_up (kw : kkw WR) : kkw WC :=
  @mkkkw KC WC (match w_guess kw with Some g => Some (zv g) | None => None end) (w_mmax kw).
Definition out_up (o : kout WR) : kout WC :=
  @mkout KC WC (zn (o_residNorm0 o)) (zn (o_residNorm o)) (o_conv o) (o_nmv o) (zv (o_x o)).

Hypothesis LEN : forall (a : R) (u : iv E), ilen (iscale a u) = ilen u.

Lemma mmax_up : forall m (b : iv E), @mmax KC WC m (zv b) = @mmax KR WR m b.
Proof. intros m b. unfold mmax. destruct m; [reflexivity|]. cbn [vlen cV exactVn zv fst]. now rewrite LEN. Qed.
Lemma start_x_up : forall kw b, start_x (kw_up kw) (zv b) = zv (start_x kw b).
Proof. intros kw b. unfold start_x, kw_up. cbn [w_guess]. destruct (w_guess kw); [reflexivity|]. apply zv_zero. Qed.
Lemma start_r_up : forall kw b cnt,
  start_r qc (kw_up kw) (zv b) cnt = (zv (fst (start_r q kw b cnt)), snd (start_r q kw b cnt)).
Proof.
  intros kw b cnt. unfold start_r, kw_up, opmul. cbn [w_guess]. destruct (w_guess kw) as [g|]; [|reflexivity].
  cbn [fst snd]. up. rewrite A_zv, zv_sub. reflexivity.
Qed.
Lemma start_rn_up : forall r0 : iv E,
  @sabs KC (@ssqrt KC (@vdot KC WC (zv r0) (zv r0))) = zn (@sabs KR (@ssqrt KR (@vdot KR WR r0 r0))).
Proof. intro r0. up. rewrite zv_dot. apply zw_root, ip_pos. Qed.

Definition res_up (x : res (kout WR * nat)) : res (kout WC * nat) :=
  match x with Ok (o, c) => Ok (out_up o, c) | Err e => Err e end.

Theorem cgs_scaled : forall fuel b kw cnt,
  cgs_solve fuel qc (zv b) (kw_up kw) cnt = res_up (cgs_solve fuel q b kw cnt).
Proof.
  intros fuel b kw cnt. unfold cgs_solve. rewrite mmax_up, start_x_up, start_r_up.
  cbn [w_mmax kw_up]. destruct (start_r q kw b cnt) as [r0 c0]. cbn [fst snd].
  rewrite start_rn_up. set (rn := sabs (ssqrt (vdot r0 r0))). rewrite thr_zn.
  set (th := thr q rn). set (mx := @mmax KR WR (w_mmax kw) b).
  assert (EI : @mkcgs KC WC (zv (start_x kw b)) (zv r0) (zv r0) (zv r0) (@vdot KC WC (zv r0) (zv r0)) (zn rn) 0 c0
                 (@sleb KC (zn rn) (zn th) || (mx <=? 0)%nat) =
               cgs_up (@mkcgs KR WR (start_x kw b) r0 r0 r0 (vdot r0 r0) rn 0 c0 (sleb rn th || (mx <=? 0)%nat))).
  { unfold cgs_up. cbn [s_x s_r s_u s_p s_rho s_res s_nmv s_cnt s_fin]. up. rewrite zv_dot.
    unfold zn at 2 3. cbn [fst]. rewrite zn_le. reflexivity. }
  rewrite EI. clear EI.
  pose proof (while_rel _ _ (fun s t => t = cgs_up s) (fun st => negb (s_fin st)) (cgs_body q r0 th mx)
    (fun st => negb (s_fin st)) (cgs_body qc (zv r0) (zn th) mx)
    ltac:(intros s t ->; reflexivity) ltac:(intros s t -> _; apply cgs_body_up) fuel
    (@mkcgs KR WR (start_x kw b) r0 r0 r0 (vdot r0 r0) rn 0 c0 (sleb rn th || (mx <=? 0)%nat)) _ eq_refl) as H.
  destruct (while fuel _ (cgs_body q r0 th mx) _) as [s|e] eqn:E1;
  destruct (while fuel _ (cgs_body qc (zv r0) (zn th) mx) _) as [t|e'] eqn:E2; cbn [rrel] in H; try contradiction.
  - subst t. cbn [res_up]. unfold out_up. cbn [o_residNorm0 o_residNorm o_conv o_nmv o_x s_x s_res s_nmv s_cnt cgs_up].
    up. unfold zn at 3 4. cbn [fst]. rewrite zn_le. reflexivity.
  - subst e'. reflexivity.
Qed.

(** ** BiCGSTAB.  In the first round [p] and [v] are zero and [beta] is irrelevant. *)
Definition bi_up (s : bi_st WR) (t : bi_st WC) : Prop :=
  b_x t = zv (b_x s) /\ b_r t = zv (b_r s) /\ b_p t = zv (b_p s) /\ b_v t = zv (b_v s) /\
  b_rhon t = zw (b_rhon s) /\ b_alpha t = re (b_alpha s) /\ b_omega t = re (b_omega s) /\
  b_res t = zn (b_res s) /\ b_nmv t = b_nmv s /\ b_cnt t = b_cnt s /\ b_fin t = b_fin s /\
  (b_rho t = zw (b_rho s) \/ (b_p s = izero /\ b_v s = izero)).

Lemma vzero_scale : forall a, cvscale a (zv izero) = zv (@izero E).
Proof. intro a. unfold zv. cveq. Qed.
Lemma dir_up : forall (s : bi_st WR) (t : bi_st WC), bi_up s t ->
  let beta := sdiv (smul (sdiv (b_rhon t) (b_rho t)) (b_alpha t)) (b_omega t) in
  vadd (vsub (vscale beta (b_p t)) (vscale (smul beta (b_omega t)) (b_v t))) (b_r t) =
  zv (let beta := sdiv (smul (sdiv (b_rhon s) (b_rho s)) (b_alpha s)) (b_omega s) in
      vadd (vsub (vscale beta (b_p s)) (vscale (smul beta (b_omega s)) (b_v s))) (b_r s)).
Proof.
  intros s t (_ & -> & -> & -> & -> & -> & -> & _ & _ & _ & _ & [-> | [P V]]); cbv zeta; up.
  - rewrite zw_div, re_mul, re_div, re_mul, !zv_scale, zv_sub, zv_add. reflexivity.
  - rewrite P, V, !vzero_scale, zv_sub, zv_add. f_equal. veq.
Qed.

Lemma bi_body_up : forall r0 th mx s t, bi_up s t ->
  rrel bi_up (bi_body q r0 th mx s) (bi_body qc (zv r0) (zn th) mx t).
Proof.
  intros r0 th mx s t B. unfold bi_body, opmul. pose proof (dir_up s t B) as D. cbv zeta in D.
  set (betaC := sdiv (smul (sdiv (b_rhon t) (b_rho t)) (b_alpha t)) (b_omega t)) in *.
  set (betaR := sdiv (smul (sdiv (b_rhon s) (b_rho s)) (b_alpha s)) (b_omega s)) in *.
  set (pC := vadd (vsub (vscale betaC (b_p t)) (vscale (smul betaC (b_omega t)) (b_v t))) (b_r t)) in *.
  set (pR := vadd (vsub (vscale betaR (b_p s)) (vscale (smul betaR (b_omega s)) (b_v s))) (b_r s)) in *.
  clearbody pR. subst pC. rewrite D.
  destruct B as (Bx & Br & Bp & Bv & Bn & Ba & Bo & Bs & Bm & Bc & Bf & _).
  rewrite Bx, Br, Bn, Bo, Bm, Bc. up.
  rewrite prec_zv, A_zv, zv_dot, zw_div, !zv_scale, !zv_sub, zv_norm.
  unfold zn at 1. cbn [fst]. rewrite zn_le.
  destruct (Rleb _ _).
  { cbn [rrel]. unfold bi_up. cbn [b_x b_r b_p b_v b_rho b_rhon b_alpha b_omega b_res b_nmv b_cnt b_fin].
    rewrite zv_add. repeat split; auto. }
  destruct (_ <=? _)%nat.
  { cbn [rrel]. unfold bi_up. cbn [b_x b_r b_p b_v b_rho b_rhon b_alpha b_omega b_res b_nmv b_cnt b_fin].
    repeat split; auto. }
  rewrite prec_zv, A_zv, !zv_dot, zw_div, !zv_scale, zv_sub, !zv_add, zv_norm, re_opp, re_mul_zw.
  cbn [rrel]. unfold bi_up. cbn [b_x b_r b_p b_v b_rho b_rhon b_alpha b_omega b_res b_nmv b_cnt b_fin].
  unfold zn at 2. cbn [fst]. rewrite zn_le. repeat split; auto.
Qed.

Theorem bi_scaled : forall fuel b kw cnt,
  bi_solve fuel qc (zv b) (kw_up kw) cnt = res_up (bi_solve fuel q b kw cnt).
Proof.
  intros fuel b kw cnt. unfold bi_solve. rewrite mmax_up, start_x_up, start_r_up.
  cbn [w_mmax kw_up]. destruct (start_r q kw b cnt) as [r0 c0]. cbn [fst snd].
  rewrite start_rn_up. set (rn := sabs (ssqrt (vdot r0 r0))). rewrite thr_zn.
  set (th := thr q rn). set (mx := @mmax KR WR (w_mmax kw) b).
  replace (match w_guess (kw_up kw) with Some _ => 1%nat | None => 0%nat end)
    with (match w_guess kw with Some _ => 1%nat | None => 0%nat end) by (cbn [w_guess kw_up]; destruct (w_guess kw); reflexivity).
  set (k0 := match w_guess kw with Some _ => 1%nat | None => 0%nat end).
  match goal with |- context [while fuel ?c (bi_body q r0 th mx) ?s] => set (s0R := s) end.
  match goal with |- context [while fuel ?c (bi_body qc (zv r0) (zn th) mx) ?s] => set (s0C := s) end.
  assert (EI : bi_up s0R s0C).
  { unfold bi_up, s0R, s0C. cbn [b_x b_r b_p b_v b_rho b_rhon b_alpha b_omega b_res b_nmv b_cnt b_fin]. up.
    rewrite zv_dot, <- zv_zero. unfold zn at 3 4. cbn [fst]. rewrite zn_le. repeat split; auto. }
  pose proof (while_rel _ _ bi_up (fun st => negb (b_fin st)) (bi_body q r0 th mx)
    (fun st => negb (b_fin st)) (bi_body qc (zv r0) (zn th) mx)
    ltac:(intros s t (_ & _ & _ & _ & _ & _ & _ & _ & _ & _ & -> & _); reflexivity)
    ltac:(intros s t B _; now apply bi_body_up) fuel s0R s0C EI) as H.
  destruct (while fuel _ (bi_body q r0 th mx) _) as [s|e] eqn:E1;
  destruct (while fuel _ (bi_body qc (zv r0) (zn th) mx) _) as [t|e'] eqn:E2; cbn [rrel] in H; try contradiction.
  - destruct H as (Bx & _ & _ & _ & _ & _ & _ & Bs & Bm & Bc & _). rewrite Bx, Bs, Bm, Bc.
    cbn [res_up]. unfold out_up. cbn [o_residNorm0 o_residNorm o_conv o_nmv o_x].
    up. unfold zn at 3 4. cbn [fst]. rewrite zn_le. reflexivity.
  - subst e'. reflexivity.
Qed.

(** ** TFQMR *)
Definition tf_up (s : tf_st WR) : tf_st WC :=
  @mktf KC WC (zv (t_x s)) (zv (t_y s)) (zv (t_w s)) (zv (t_d s)) (zv (t_z s)) (zv (t_u s)) (zv (t_v s))
    (re (t_theta s)) (re (t_eta s)) (zw (t_rho s)) (zn (t_res s)) (t_k s)
    (match t_m s with Some m => Some (re m) | None => None end) (t_nmv s) (t_cnt s) (t_fin s).

Lemma tf_pass_up : forall alpha w u d zz x theta eta rs,
  @tf_pass KC WC (re alpha) (zv w) (zv u) (zv d) (zv zz) (zv x) (re theta) (re eta) (zn rs) =
  let '(w', d', theta', rs', eta', x') := @tf_pass KR WR alpha w u d zz x theta eta rs in
  (zv w', zv d', re theta', zn rs', re eta', zv x').
Proof.
  intros. unfold tf_pass. up. change ((1, 0) : CR) with (re 1).
  rewrite !zv_scale, zv_sub, !re_mul, !re_div, !zv_scale, !zv_add, zv_norm.
  change ((cmod z * inorm (isub w (iscale alpha u)), 0) : CR) with (zn (inorm (isub w (iscale alpha u)))).
  rewrite zn_div. set (th := dv _ rs). rewrite !re_mul, re_add, re_root by nra.
  rewrite re_div, !re_mul, zn_mul_re, zv_scale, zv_add. reflexivity.
Qed.

Lemma tf_test_up : forall th mx rs m nmv, 0 <= m + 1 ->
  @tf_test KC (zn th) mx (zn rs) (re m) nmv = @tf_test KR th mx rs m nmv.
Proof.
  intros. unfold tf_test. up. change ((1, 0) : CR) with (re 1). rewrite re_add, re_root by lra.
  rewrite zn_mul_re. unfold zn. cbn [fst]. rewrite zn_lt. reflexivity.
Qed.

Lemma Q2R_nat : forall k, Q2R (inject_Z (Z.of_nat k)) = INR k.
Proof. intro k. unfold Q2R, inject_Z. cbn [Qnum Qden]. rewrite INR_IZR_INZ. field. Qed.
Lemma tf_m_up : forall k, @ssub KC (@smul KC (@slit KC 2) (@sofnat KC k)) (@s1 KC) =
  re (@ssub KR (@smul KR (@slit KR 2) (@sofnat KR k)) (@s1 KR)).
Proof.
  intro k. unfold sofnat. up. change ((1, 0) : CR) with (re 1).
  change (ksub (f := FCR) (kmul (f := FCR) (re (Q2R 2)) (re (Q2R (inject_Z (Z.of_nat k))))) (re 1) =
    re (Q2R 2 * Q2R (inject_Z (Z.of_nat k)) - 1)).
  rewrite re_mul, re_sub. reflexivity.
Qed.
Lemma tf_m_pos : forall k, 0 <= (@ssub KR (@smul KR (@slit KR 2) (@sofnat KR k)) (@s1 KR) : R) + 1.
Proof.
  intro k. unfold sofnat. up. rewrite Q2R_nat. pose proof (pos_INR k).
  replace (Q2R 2) with 2 by (unfold Q2R; cbn; field). lra.
Qed.

Definition m_ok (s : tf_st WR) : Prop := forall m : R, t_m s = Some m -> 0 <= m + 1.
Definition tfT (s : tf_st WR) (t : tf_st WC) : Prop := t = tf_up s /\ m_ok s.

Lemma tf_body_up : forall r0 th mx s, m_ok s ->
  rrel tfT (tf_body q r0 th mx s) (tf_body qc (zv r0) (zn th) mx (tf_up s)).
Proof.
  intros r0 th mx s M. unfold tf_body, opmul.
  cbn [t_x t_y t_w t_d t_z t_u t_v t_theta t_eta t_rho t_res t_k t_m t_nmv t_cnt t_fin tf_up].
  rewrite tf_m_up. pose proof (tf_m_pos (t_k s + 1)) as MP.
  set (m := @ssub KR (@smul KR (@slit KR 2) (@sofnat KR (t_k s + 1))) (@s1 KR)) in *. clearbody m.
  change (@sadd KC (re m) (@s1 KC)) with (kadd (f := FCR) (re m) (re 1)). rewrite re_add.
  change (@sadd KR m (@s1 KR)) with (m + 1).
  change (@vdot KC WC (zv r0) (zv (t_v s))) with (cvdot (zv r0) (zv (t_v s))). rewrite zv_dot.
  change (@sdiv KC (zw (t_rho s)) (zw (ip r0 (t_v s)))) with (dvc (zw (t_rho s)) (zw (ip r0 (t_v s)))).
  rewrite zw_div. change (@sdiv KR (t_rho s) (vdot r0 (t_v s))) with (dv (t_rho s) (ip r0 (t_v s))).
  set (alpha := dv (t_rho s) (ip r0 (t_v s))).
  rewrite tf_pass_up. destruct (@tf_pass KR WR alpha _ _ _ _ _ _ _ _) as [[[[[w d] theta] rn] eta] x].
  rewrite tf_test_up by exact MP.
  destruct (@tf_test KR th mx rn m (t_nmv s)).
  { cbn [rrel]. split; [reflexivity|]. intros m' H. cbn [t_m] in H. injection H as <-. exact MP. }
  change (@vsub KC WC (zv (t_y s)) (@vscale KC WC (re alpha) (zv (t_v s))))
    with (cvsub (zv (t_y s)) (cvscale (re alpha) (zv (t_v s)))).
  rewrite zv_scale, zv_sub, prec_zv, A_zv.
  change (@vsub KR WR (t_y s) (@vscale KR WR alpha (t_v s))) with (isub (t_y s) (iscale alpha (t_v s))).
  set (y := isub (t_y s) (iscale alpha (t_v s))).
  rewrite tf_pass_up. destruct (@tf_pass KR WR alpha _ _ _ _ _ _ _ _) as [[[[[w' d'] theta'] rn'] eta'] x'].
  rewrite tf_test_up by lra.
  destruct (@tf_test KR th mx rn' (m + 1) (t_nmv s + 1)).
  { cbn [rrel]. split; [reflexivity|]. intros m' H. cbn [t_m] in H. injection H as <-. lra. }
  up. rewrite zv_dot, zw_div, !zv_scale, !zv_add, prec_zv, A_zv, zv_scale, zv_add.
  cbn [rrel]. split; [reflexivity|]. intros m' H. cbn [t_m] in H. injection H as <-. lra.
Qed.

Theorem tf_scaled : forall fuel b kw cnt,
  tf_solve fuel qc (zv b) (kw_up kw) cnt = res_up (tf_solve fuel q b kw cnt).
Proof.
  intros fuel b kw cnt. unfold tf_solve. rewrite mmax_up, start_x_up, start_r_up.
  cbn [w_mmax kw_up]. destruct (start_r q kw b cnt) as [r0 c0]. cbn [fst snd].
  rewrite start_rn_up. set (rn := sabs (ssqrt (vdot r0 r0))). rewrite thr_zn.
  set (th := thr q rn). set (mx := @mmax KR WR (w_mmax kw) b).
  assert (EI : tf_init qc (zv b) (zv (start_x kw b)) (zv r0) (zn rn) (zn th) mx c0 =
               tf_up (tf_init q b (start_x kw b) r0 rn th mx c0)).
  { unfold tf_init, opmul. up. unfold zn at 1 2. cbn [fst]. rewrite zn_le.
    destruct (_ || _); unfold tf_up; cbn [t_x t_y t_w t_d t_z t_u t_v t_theta t_eta t_rho t_res t_k t_m t_nmv t_cnt t_fin];
      rewrite zv_dot; [reflexivity|]. rewrite prec_zv, A_zv, <- zv_zero. reflexivity. }
  rewrite EI. clear EI.
  assert (M0 : m_ok (tf_init q b (start_x kw b) r0 rn th mx c0)).
  { unfold m_ok, tf_init, opmul. destruct (_ || _); cbn [t_m]; discriminate. }
  pose proof (while_rel _ _ tfT (fun st => negb (t_fin st)) (tf_body q r0 th mx)
    (fun st => negb (t_fin st)) (tf_body qc (zv r0) (zn th) mx)
    ltac:(intros s t [-> _]; reflexivity) ltac:(intros s t [-> M] _; now apply tf_body_up) fuel
    (tf_init q b (start_x kw b) r0 rn th mx c0) _ (conj eq_refl M0)) as H.
  destruct (while fuel _ (tf_body q r0 th mx) _) as [s|e] eqn:E1;
  destruct (while fuel _ (tf_body qc (zv r0) (zn th) mx) _) as [t|e'] eqn:E2; cbn [rrel] in H; try contradiction.
  - destruct H as [-> M]. cbn [t_m tf_up]. destruct (t_m s) as [m|] eqn:EM; [|reflexivity].
    cbn [res_up]. unfold out_up. cbn [o_residNorm0 o_residNorm o_conv o_nmv o_x t_x t_res t_nmv t_cnt tf_up].
    up. change ((1, 0) : CR) with (re 1). rewrite re_add, re_root by (apply M; exact EM).
    rewrite zn_mul_re. unfold zn at 3 4. cbn [fst]. rewrite zn_lt. reflexivity.
  - subst e'. reflexivity.
Qed.

(** ** CG.  [PP]: the preconditioner is positive semidefinite (or absent).  [PH]: either the
    curvature test is off, or the phase of [z] passes it. *)
Definition phase_ok : Prop :=
  0 < fst (kmul (f := FCR) z z) /\
  snd (kmul (f := FCR) z z) <= Q2R (1 # 100000000) * cmod (kmul (f := FCR) z z).

Lemma curv_up : phase_ok -> forall a, @curv_bad KC (zw a) = @curv_bad KR a.
Proof.
  intros [P1 P2] a. unfold curv_bad, sgtb. cbn [slit simag sreal smul sabs sltb sleb s0 cK exactK fst].
  unfold zw. rewrite cmod_mul, cmod_real. destruct (kmul (f := FCR) z z) as [w1 w2]. cbn [fst snd kmul FCR] in *.
  set (e := Q2R (1 # 100000000)) in *.
  assert (e0 : 0 < e) by (unfold e, Q2R; cbn; lra).
  assert (X : Rltb (e * Rabs a) 0 = false).
  { unfold Rltb. destruct (Rlt_dec _ _) as [L|]; [|reflexivity]. pose proof (Rabs_pos a). exfalso; nra. }
  rewrite X. cbn [orb].
  unfold Rleb. destruct (Rle_dec a 0) as [N|N].
  - destruct (Rle_dec (w1 * a - w2 * 0) 0) as [|C]; [apply orb_true_r|exfalso; nra].
  - destruct (Rle_dec (w1 * a - w2 * 0) 0) as [C|C]; [exfalso; nra|]. rewrite orb_false_r.
    unfold Rltb. destruct (Rlt_dec _ _) as [L|]; [exfalso|reflexivity]. rewrite Rabs_right in L by lra. nra.
Qed.

Definition cg_up (s : cg_st WR) : cg_st WC :=
  @mkst KC WC (zv (c_x s)) (zv (c_r s)) (zv (c_p s)) (zw (c_ry s)) (zn (c_res s)) (c_nmv s) (c_def s) (c_cnt s)
    (map zn (c_hist s)) (map zv (c_resids s)) (map zv (c_iters s)) (option_map zv (c_inf s)).
Definition obj_up (o : cg_obj WR) : cg_obj WC :=
  @mkcg KC WC (option_map zn (g_residNorm0 o)) (option_map zn (g_residNorm o)) (map zn (g_hist o))
    (map zv (g_resids o)) (map zv (g_iters o)) (option_map zv (g_inf o)) (g_conv o) (g_def o) (g_nmv o)
    (option_map zv (g_x o)).
Definition cgkw_up (kw : cg_kw WR) : cg_kw WC :=
  @mkkw KC WC (option_map zv (k_guess kw)) (k_mmax kw) (k_sym kw) (k_curv kw) (k_sres kw) (k_sit kw).

Hypothesis PP : forall u : iv E, 0 <= ip u (prec q u).

Lemma app_if : forall A B (f : A -> B) (c : bool) l x,
  (if c then map f l ++ [f x] else map f l) = map f (if c then l ++ [x] else l).
Proof. intros. destruct c; [|reflexivity]. now rewrite map_app. Qed.

Lemma cg_init_up : forall kw o b cnt,
  cg_init qc (cgkw_up kw) (obj_up o) (zv b) cnt = cg_up (cg_init q kw o b cnt).
Proof.
  intros kw o b cnt. unfold cg_init, opmul. cbn [k_guess k_sit k_sres cgkw_up g_iters g_resids g_hist g_inf obj_up].
  assert (F : forall (x r : iv E) nm c,
    @mkst KC WC (zv x) (zv r) (@vneg KC WC (zv r)) (@vdot KC WC (zv r) (prec qc (zv r))) (@sabs KC (@ssqrt KC (@vdot KC WC (zv r) (prec qc (zv r)))))
      nm true c (map zn (g_hist o) ++ [@sabs KC (@ssqrt KC (@vdot KC WC (zv r) (prec qc (zv r))))])
      (if k_sres kw then map zv (g_resids o) ++ [prec qc (zv r)] else map zv (g_resids o))
      (if k_sit kw then map zv (g_iters o) ++ [zv x] else map zv (g_iters o)) (option_map zv (g_inf o)) =
    cg_up (@mkst KR WR x r (@vneg KR WR r) (@vdot KR WR r (prec q r)) (@sabs KR (@ssqrt KR (@vdot KR WR r (prec q r)))) nm true c
      (g_hist o ++ [@sabs KR (@ssqrt KR (@vdot KR WR r (prec q r)))])
      (if k_sres kw then g_resids o ++ [prec q r] else g_resids o)
      (if k_sit kw then g_iters o ++ [x] else g_iters o) (g_inf o))).
  { intros x r nm c. rewrite prec_zv, !app_if. unfold cg_up.
    cbn [c_x c_r c_p c_ry c_res c_nmv c_def c_cnt c_hist c_resids c_iters c_inf]. up.
    rewrite zv_neg, zv_dot, zw_root by apply PP. rewrite map_app. reflexivity. }
  destruct (k_guess kw) as [g|]; cbn [option_map].
  - rewrite A_zv. change (@vadd KC WC (@vneg KC WC (zv b)) (zv (q_A q g))) with (cvadd (cvneg (zv b)) (zv (q_A q g))).
    rewrite zv_neg, zv_add. apply F.
  - change (@vneg KC WC (zv b)) with (cvneg (zv b)). rewrite zv_neg.
    change (@vzeros KC WC (@vlen KC WC (zv b))) with (@cvzero E). rewrite zv_zero. apply F.
Qed.

Lemma cg_body_up : forall kw s, k_curv kw = false \/ phase_ok ->
  rrel (fun s t => t = cg_up s) (cg_body q kw s) (cg_body qc (cgkw_up kw) (cg_up s)).
Proof.
  intros kw s PH. unfold cg_body, opmul.
  cbn [c_x c_r c_p c_ry c_res c_nmv c_def c_cnt c_hist c_resids c_iters c_inf cg_up k_curv k_sit k_sres cgkw_up].
  rewrite A_zv. change (@vdot KC WC (zv (c_p s)) (zv (q_A q (c_p s)))) with (cvdot (zv (c_p s)) (zv (q_A q (c_p s)))).
  rewrite zv_dot. change (@vdot KR WR (c_p s) (q_A q (c_p s))) with (ip (c_p s) (q_A q (c_p s) : iv E)).
  assert (CB : k_curv kw && @curv_bad KC (zw (ip (c_p s) (q_A q (c_p s) : iv E))) =
               k_curv kw && @curv_bad KR (ip (c_p s) (q_A q (c_p s) : iv E))).
  { destruct PH as [-> | P]; [reflexivity|]. now rewrite (curv_up P). }
  match goal with |- rrel _ (if ?c then _ else _) (if ?d then _ else _) => replace d with c by (symmetry; exact CB); destruct c end; [exact eq_refl|].
  up. rewrite zw_div, !zv_scale, !zv_add, prec_zv, !zv_dot, zw_div, zv_scale, zv_sub, !app_if.
  rewrite zw_root by apply PP. cbn [rrel]. unfold cg_up.
  cbn [c_x c_r c_p c_ry c_res c_nmv c_def c_cnt c_hist c_resids c_iters c_inf].
  rewrite map_app. reflexivity.
Qed.

Definition cgres_up (x : res (cg_obj WR * nat)) : res (cg_obj WC * nat) :=
  match x with Ok (o, c) => Ok (obj_up o, c) | Err e => Err e end.

Theorem cg_scaled : forall fuel o b kw cnt, k_sym kw = false -> k_curv kw = false \/ phase_ok ->
  cg_solve fuel qc (obj_up o) (zv b) (cgkw_up kw) cnt = cgres_up (cg_solve fuel q o b kw cnt).
Proof.
  intros fuel o b kw cnt SY PH. unfold cg_solve. cbn [k_sym cgkw_up]. rewrite SY. cbn [negb].
  rewrite cg_init_up. set (s0 := cg_init q kw o b cnt). cbn [c_res cg_up].
  pose proof (while_rel _ _ (fun s t => t = cg_up s) (cg_cond q kw b (c_res s0)) (cg_body q kw)
    (cg_cond qc (cgkw_up kw) (zv b) (zn (c_res s0))) (cg_body qc (cgkw_up kw))) as W.
  assert (HC : forall s t, t = cg_up s -> cg_cond q kw b (c_res s0) s = cg_cond qc (cgkw_up kw) (zv b) (zn (c_res s0)) t).
  { intros s t ->. unfold cg_cond, sgtb. cbn [c_res c_nmv c_def cg_up k_mmax cgkw_up]. rewrite mmax_up, thr_zn. up.
    unfold zn. cbn [fst]. rewrite zn_lt. reflexivity. }
  specialize (W HC ltac:(intros s t -> _; now apply cg_body_up) fuel s0 _ eq_refl).
  destruct (while fuel _ (cg_body q kw) _) as [s|e] eqn:E1;
  destruct (while fuel _ (cg_body qc (cgkw_up kw)) _) as [t|e'] eqn:E2; cbn [rrel] in W; try contradiction.
  - subst t. cbn [cgres_up c_cnt cg_up]. unfold cg_final, obj_up.
    cbn [g_residNorm0 g_residNorm g_hist g_resids g_iters g_inf g_conv g_def g_nmv g_x option_map
         c_x c_r c_p c_ry c_res c_nmv c_def c_cnt c_hist c_resids c_iters c_inf cg_up].
    rewrite thr_zn. up. change (Rleb (fst (zn (c_res s))) (fst (zn (thr q (c_res s0))))) with (Rleb (cmod z * c_res s) (cmod z * thr q (c_res s0))). rewrite zn_le. reflexivity.
  - subst e'. reflexivity.
Qed.
End Scale.
