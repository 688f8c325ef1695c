(** Property C100: scaling the right-hand side.

    A [grade K] is a family of maps [gm G k] on the scalars that the operations respect like multiplication by the k-th power of a
    positive number: sums and comparisons of terms of one degree, products and quotients add and subtract degrees, square roots halve
    them.  [vm H k] is the same on vectors.  [q_up]: the absolute tolerance is scaled with the right-hand side. *)
From Coq Require Import List Arith ZArith QArith Qreals Reals Bool Lia Lra.
From Verif Require Import Base Num ToolsModel CgModel CgProof PropCg KrylovModel LsqrModel LsmrModel CraigModel MinresModel MinresProof PropMinres
  MinresEarly Grade GradeLls GradeMr GradeInst.
Import CgModel.
Import ListNotations.
Local Open Scope Z_scope.

Section Any.
Context {K : Scal} (G : grade K) {W : Vs K} (H : vgrade G W).
(** CG: everything [solve] leaves in the object is scaled, and the flags, counts and errors are those of the unscaled call. *)
Theorem C100_cg : forall (q : kprob W), homog H H (q_A q) -> ohomog H (q_P q) -> forall fuel o rhs kw cnt,
  cg_solve fuel (q_up G q) (cg_obj_up G H o) (vm H 1 rhs) (cg_kw_up G H kw) cnt =
  rmap (fun p => (cg_obj_up G H (fst p), snd p)) (cg_solve fuel q o rhs kw cnt).
Proof. exact (cg_solve_up G H). Qed.
Theorem C100_cgs : forall (q : kprob W), homog H H (q_A q) -> ohomog H (q_P q) -> forall fuel rhs kw cnt,
  cgs_solve fuel (q_up G q) (vm H 1 rhs) (kkw_up G H kw) cnt = kres_up G H (cgs_solve fuel q rhs kw cnt).
Proof. exact (cgs_solve_up G H). Qed.
Theorem C100_bicgstab : forall (q : kprob W), homog H H (q_A q) -> ohomog H (q_P q) -> zero_mult G H -> forall fuel rhs kw cnt,
  bi_solve fuel (q_up G q) (vm H 1 rhs) (kkw_up G H kw) cnt = kres_up G H (bi_solve fuel q rhs kw cnt).
Proof. exact (bi_solve_up G H). Qed.
Theorem C100_tfqmr : forall (q : kprob W), homog H H (q_A q) -> ohomog H (q_P q) -> forall fuel rhs kw cnt,
  tf_solve fuel (q_up G q) (vm H 1 rhs) (kkw_up G H kw) cnt = kres_up G H (tf_solve fuel q rhs kw cnt).
Proof. exact (tf_solve_up G H). Qed.
End Any.

Section AnyLls.
Context {K : Scal} (G : grade K) {WV WU : Vs K} (HV : vgrade G WV) (HU : vgrade G WU).
(** The least-squares solvers, for a right-hand side of positive norm (in the norm of [M]).  No tolerance is scaled, and no assumption
    is made about the operator or about [N], which only see normalised vectors. *)
Theorem C100_lsqr : forall (q : lprob WV WU) (kw : ls_kw WV WU), nhomog G (l_lnorm kw) -> ohomog HU (l_M kw) -> forall fuel b cnt,
  sgtb (norm_M (l_M kw) b) s0 = true ->
  ls_solve fuel q kw (vm HU 1 b) cnt = rmap (fun p => (ls_out_up G HV (fst p), snd p)) (ls_solve fuel q kw b cnt).
Proof. exact (ls_solve_up G HV HU). Qed.
Theorem C100_lsmr : forall (q : lprob WV WU) (kw : lm_kw WV WU), nhomog G (LsmrModel.m_lnorm kw) -> ohomog HU (m_M kw) ->
  forall fuel ob b cnt, sgtb (norm_M (m_M kw) b) s0 = true ->
  lm_solve fuel q kw (lm_obj_up G HV ob) (vm HU 1 b) cnt =
  rmap (fun p => (lm_ret_up G HV (fst (fst p)), lm_obj_up G HV (snd (fst p)), snd p)) (lm_solve fuel q kw ob b cnt).
Proof. exact (lm_solve_up G HV HU). Qed.
Theorem C100_craig : forall (q : lprob WV WU) (kw : cr_kw WV WU), nhomog G (c_lnorm kw) -> ohomog HU (c_M kw) -> forall fuel b cnt,
  sgtb (norm_M (c_M kw) b) s0 = true ->
  cr_solve fuel q kw (vm HU 1 b) cnt = rmap (fun p => (cr_out_up G HV HU (fst p), snd p)) (cr_solve fuel q kw b cnt).
Proof. exact (cr_solve_up G HV HU). Qed.
Theorem C100_craigmr : forall (q : lprob WV WU) (kw : cm_kw WV WU), nhomog G (h_lnorm kw) -> ohomog HU (h_M kw) -> forall fuel b cnt,
  sgtb (norm_M (h_M kw) b) s0 = true ->
  cm_solve fuel q kw (vm HU 1 b) cnt = rmap (fun p => (cm_out_up G HU (fst p), snd p)) (cm_solve fuel q kw b cnt).
Proof. exact (cm_solve_up G HU). Qed.
End AnyLls.

(** MINRES: two calls that make the same number of iterations give scaled results. *)
Theorem C100_minres : forall (K : Scal) (G : grade K) (W : Vs K) (H : vgrade G W) (q : kprob W) (kw : mr_kw W),
  ohomog H (m_precon kw) -> nhomog G (m_lnorm kw) ->
  forall fuel fuel' hist b cnt o c o' c', sgtb (vdot b (mr_y0 kw b)) s0 = true ->
  mr_solve fuel q hist b kw cnt = Ok (o, c) -> mr_solve fuel' q (map (gm G 1) hist) (vm H 1 b) kw cnt = Ok (o', c') ->
  u_itn o' = u_itn o ->
  u_residNorm0 o' = gm G 1 (u_residNorm0 o) /\ u_x o' = vm H 1 (u_x o) /\ u_nmv o' = u_nmv o /\ c' = c /\
  u_rnorm o' = gm G 1 (u_rnorm o) /\ u_Arnorm o' = gm G 1 (u_Arnorm o) /\ u_Acond o' = u_Acond o /\
  u_ynorm o' = gm G 1 (u_ynorm o) /\ u_hist o' = map (gm G 1) (u_hist o) /\ u_dirs o' = u_dirs o /\
  u_iters o' = map (vm H 1) (u_iters o).
Proof. intros K G W H q kw. exact (mr_solve_up G H q kw). Qed.

(** ** In real arithmetic. *)
Local Open Scope R_scope.
Section RealT.
Variables (c : R) (dv : R -> R -> R) (sq : R -> R) (E : IPS).
Notation KK := (exactK dv sq).
Notation WW := (exactV dv sq E).
Definition sc_prob (q : kprob WW) : kprob WW :=
  @mkprob KK WW (q_m q) (q_n q) (q_A q) (q_P q) (c * q_abstol q : sc KK) (q_reltol q) (q_cbrt q) (q_draws q).
Definition sc_vec (z : iv E) : iv E := iscale c z.

Theorem C100_real_cg : 0 < c -> dv_hom dv -> sq_hom sq -> (forall u v : iv E, ilen u = ilen v) ->
  forall (q : kprob WW) fuel (rhs : iv E) g mx sy cu sr si cnt o1 cnt1,
  lin (q_A q : iv E -> iv E) -> (forall P, q_P q = Some P -> lin (P : iv E -> iv E)) ->
  @cg_solve KK WW fuel q (@cg_new KK WW) rhs (@mkkw KK WW g mx sy cu sr si) cnt = Ok (o1, cnt1) ->
  exists o2, @cg_solve KK WW fuel (sc_prob q) (@cg_new KK WW) (sc_vec rhs) (@mkkw KK WW (option_map sc_vec g) mx sy cu sr si) cnt = Ok (o2, cnt1) /\
    g_x o2 = option_map sc_vec (g_x o1) /\ g_residNorm0 o2 = option_map (Rmult c) (g_residNorm0 o1) /\
    g_residNorm o2 = option_map (Rmult c) (g_residNorm o1) /\ g_hist o2 = map (Rmult c) (g_hist o1) /\
    g_resids o2 = map sc_vec (g_resids o1) /\ g_iters o2 = map sc_vec (g_iters o1) /\ g_inf o2 = option_map sc_vec (g_inf o1) /\
    g_conv o2 = g_conv o1 /\ g_def o2 = g_def o1 /\ g_nmv o2 = g_nmv o1.
Proof.
  intros C0 DV SQ EL q fuel rhs g mx sy cu sr si cnt o1 cnt1 LA LP S.
  pose proof (C100_cg (realG c C0 dv sq DV SQ) (realV c C0 dv sq DV SQ E EL) q (lin_hom _ _ _ _ _ _ _ _ _ _ _ LA)
    (fun P PP => lin_hom _ _ _ _ _ _ _ _ _ _ _ (LP P PP)) fuel (@cg_new KK WW) rhs (@mkkw KK WW g mx sy cu sr si) cnt) as T.
  rewrite S in T. unfold q_up, cg_kw_up, cg_obj_up in T. cbn [rmap fst snd cg_new g_x g_residNorm0 g_residNorm g_hist g_resids g_iters g_inf
    g_conv g_def g_nmv k_guess k_mmax k_sym k_curv k_sres k_sit option_map map realG realV gm vm] in T. rewrite pw_1 in T.
  eexists. split; [exact T|]. cbn [g_x g_residNorm0 g_residNorm g_hist g_resids g_iters g_inf g_conv g_def g_nmv]. repeat split.
Qed.

(** CGS, BiCGSTAB and TFQMR. *)
Theorem C100_real_krylov : 0 < c -> dv_hom dv -> sq_hom sq -> (forall u v : iv E, ilen u = ilen v) ->
  forall (q : kprob WW) fuel (rhs : iv E) g mx cnt, lin (q_A q : iv E -> iv E) -> (forall P, q_P q = Some P -> lin (P : iv E -> iv E)) ->
  forall solve, In solve [@cgs_solve KK WW; @bi_solve KK WW; @tf_solve KK WW] -> forall o1 cnt1,
  solve fuel q rhs (@mkkkw KK WW g mx) cnt = Ok (o1, cnt1) ->
  exists o2, solve fuel (sc_prob q) (sc_vec rhs) (@mkkkw KK WW (option_map sc_vec g) mx) cnt = Ok (o2, cnt1) /\
    KrylovModel.o_x o2 = sc_vec (KrylovModel.o_x o1) /\ o_residNorm0 o2 = c * o_residNorm0 o1 /\ o_residNorm o2 = c * o_residNorm o1 /\
    o_conv o2 = o_conv o1 /\ KrylovModel.o_nmv o2 = KrylovModel.o_nmv o1.
Proof.
  intros C0 DV SQ EL q fuel rhs g mx cnt LA LP solve I o1 cnt1 S.
  pose (GG := realG c C0 dv sq DV SQ). pose (HH := realV c C0 dv sq DV SQ E EL).
  assert (HA : homog HH HH (q_A q)) by (apply (lin_hom _ _ _ _ _ _ _ _ _ _ _ LA)).
  assert (HP : ohomog HH (q_P q)) by (intros P PP; apply (lin_hom _ _ _ _ _ _ _ _ _ _ _ (LP P PP))).
  assert (ZM : zero_mult GG HH).
  { intros j k a n. cbn. veq. }
  assert (T : solve fuel (q_up GG q) (vm HH 1 rhs) (kkw_up GG HH (@mkkkw KK WW g mx)) cnt = kres_up GG HH (solve fuel q rhs (@mkkkw KK WW g mx) cnt)).
  { destruct I as [<-|[<-|[<-|[]]]]; [apply C100_cgs|apply C100_bicgstab|apply C100_tfqmr]; assumption. }
  rewrite S in T. unfold q_up, kkw_up, kres_up, kout_up, GG, HH in T. cbn [rmap fst snd w_guess w_mmax
    option_map map realG realV gm vm] in T. rewrite pw_1 in T.
  eexists. split; [exact T|]. cbn. repeat split.
Qed.
End RealT.

(** The least-squares solvers with the default norms ([M], [N] not given) and any norm of the window that is homogeneous. *)
Theorem C100_real_lsqr : forall c dv sq (E F : IPS), 0 < c -> dv_hom dv -> sq_hom sq -> sq_ok sq ->
  (forall u v : iv E, ilen u = ilen v) -> (forall u v : iv F, ilen u = ilen v) ->
  forall (q : lprob (exactV dv sq E) (exactV dv sq F)) (kw : ls_kw (exactV dv sq E) (exactV dv sq F)) fuel (b : iv F) cnt o1 cnt1,
  (forall l, l_lnorm kw (map (Rmult c) l) = c * l_lnorm kw l) -> l_M kw = None -> 0 < inorm b ->
  ls_solve fuel q kw b cnt = Ok (o1, cnt1) ->
  exists o2, ls_solve fuel q kw (iscale c b : vc (exactV dv sq F)) cnt = Ok (o2, cnt1) /\
    LsqrModel.o_x o2 = iscale c (LsqrModel.o_x o1 : iv E) /\ o_istop o2 = o_istop o1 /\ o_status o2 = o_status o1 /\
    o_optimal o2 = o_optimal o1 /\ o_itn o2 = o_itn o1 /\ LsqrModel.o_nmv o2 = LsqrModel.o_nmv o1 /\
    o_r1norm o2 = c * o_r1norm o1 /\ o_r2norm o2 = c * o_r2norm o1 /\ o_Anorm o2 = o_Anorm o1 /\ o_Acond o2 = o_Acond o1 /\
    o_Arnorm o2 = c * o_Arnorm o1 /\ o_xnorm o2 = c * o_xnorm o1.
Proof.
  intros c dv sq E F C0 DV SQ SO EL FL q kw fuel b cnt o1 cnt1 LN NM B S.
  pose proof (C100_lsqr (realG c C0 dv sq DV SQ) (realV c C0 dv sq DV SQ E EL) (realV c C0 dv sq DV SQ F FL) q kw) as T.
  assert (T1 : nhomog (realG c C0 dv sq DV SQ) (l_lnorm kw)) 
    by (intro l; cbn [realG gm]; rewrite pw_1; apply LN).
  assert (T2 : ohomog (realV c C0 dv sq DV SQ F FL) (l_M kw)) by (intros P PP; congruence).
  assert (T3 : sgtb (norm_M (l_M kw) b) s0 = true).
  { unfold norm_M. rewrite NM. apply Rltb_true. cbn. rewrite SO by apply ip_pos. exact B. }
  specialize (T T1 T2 fuel b cnt T3). rewrite S in T. unfold ls_out_up in T. cbn [rmap fst snd realG realV gm vm] in T.
  rewrite pw_1 in T. eexists. split; [exact T|]. cbn. repeat split.
Qed.

(** LSMR on a fresh object, CRAIG and CRAIG-MR.  CRAIG's [self.xnorm] and the entries of CRAIG's [norms] and [resids] are multiplied by
    the square of the factor: they are squares of norms (craig.py:262, 392, 518 and 286-287, 438-439), although the
    documentation of the class calls [xnorm] the norm of x (craig.py:153). *)
Section RealLls.
Variables (c : R) (dv : R -> R -> R) (sq : R -> R) (E F : IPS).
Hypotheses (C0 : 0 < c) (DV : dv_hom dv) (SQ : sq_hom sq) (SO : sq_ok sq).
Hypotheses (EL : forall u v : iv E, ilen u = ilen v) (FL : forall u v : iv F, ilen u = ilen v).
Notation GG := (realG c C0 dv sq DV SQ).
Notation HE := (realV c C0 dv sq DV SQ E EL).
Notation HF := (realV c C0 dv sq DV SQ F FL).
Notation WE := (exactV dv sq E).
Notation WF := (exactV dv sq F).
Lemma real_nhomog : forall ln, (forall l, ln (map (Rmult c) l) = c * ln l) -> nhomog GG ln.
Proof. intros ln LN l. cbn [realG gm]. rewrite pw_1. apply LN. Qed.
Lemma real_pos : forall b : iv F, 0 < inorm b -> @sgtb (exactK dv sq) (@norm_M (exactK dv sq) WF None b) s0 = true.
Proof. intros b B. unfold norm_M. apply Rltb_true. cbn. rewrite SO by apply ip_pos. exact B. Qed.
Lemma pw_2 : pw c 2 = c * c.
Proof. change 2%Z with (1 + 1)%Z. rewrite (pw_add c C0), pw_1. reflexivity. Qed.

Theorem C100_real_lsmr : forall (q : lprob WE WF) (kw : lm_kw WE WF) fuel (b : iv F) cnt r1 o1 cnt1,
  (forall l, LsmrModel.m_lnorm kw (map (Rmult c) l) = c * LsmrModel.m_lnorm kw l) -> m_M kw = None -> 0 < inorm b ->
  lm_solve fuel q kw lm_obj0 b cnt = Ok (r1, o1, cnt1) ->
  exists r2 o2, lm_solve fuel q kw lm_obj0 (iscale c b : vc WF) cnt = Ok (r2, o2, cnt1) /\
    LsmrModel.r_x r2 = iscale c (LsmrModel.r_x r1 : iv E) /\ LsmrModel.r_istop r2 = LsmrModel.r_istop r1 /\
    LsmrModel.r_itn r2 = LsmrModel.r_itn r1 /\ r_normr r2 = c * r_normr r1 /\ r_normar r2 = c * r_normar r1 /\
    r_normA r2 = r_normA r1 /\ r_condA r2 = r_condA r1 /\ r_normx r2 = c * r_normx r1 /\
    a_resids o2 = map (Rmult c) (a_resids o1) /\ a_nresids o2 = map (Rmult c) (a_nresids o1).
Proof.
  intros q kw fuel b cnt r1 o1 cnt1 LN NM B S.
  pose proof (C100_lsmr GG HE HF q kw (real_nhomog _ LN)) as T.
  assert (T2 : ohomog HF (m_M kw)) by (intros P PP; congruence).
  specialize (T T2 fuel lm_obj0 b cnt). rewrite NM in T. specialize (T (real_pos b B)). rewrite S in T.
  cbn [rmap fst snd] in T. unfold lm_ret_up, lm_obj_up in T. cbn [realG realV gm vm] in T. rewrite !pw_1 in T.
  eexists _, _. split; [exact T|]. cbn. repeat split.
Qed.

Theorem C100_real_craig : forall (q : lprob WE WF) (kw : cr_kw WE WF) fuel (b : iv F) cnt o1 cnt1,
  (forall l, c_lnorm kw (map (Rmult c) l) = c * c_lnorm kw l) -> c_M kw = None -> 0 < inorm b ->
  cr_solve fuel q kw b cnt = Ok (o1, cnt1) ->
  exists o2, cr_solve fuel q kw (iscale c b : vc WF) cnt = Ok (o2, cnt1) /\
    go_x o2 = iscale c (go_x o1 : iv E) /\ go_r o2 = iscale c (go_r o1 : iv F) /\ go_istop o2 = go_istop o1 /\
    go_status o2 = go_status o1 /\ go_optimal o2 = go_optimal o1 /\ go_itn o2 = go_itn o1 /\ go_nmv o2 = go_nmv o1 /\
    go_r1norm o2 = c * go_r1norm o1 /\ go_r2norm o2 = c * go_r2norm o1 /\ go_Arnorm o2 = c * go_Arnorm o1 /\
    go_xnorm o2 = c * c * go_xnorm o1 /\ go_norms o2 = map (Rmult (c * c)) (go_norms o1) /\
    go_resids o2 = map (Rmult (c * c)) (go_resids o1).
Proof.
  intros q kw fuel b cnt o1 cnt1 LN NM B S.
  pose proof (C100_craig GG HE HF q kw (real_nhomog _ LN)) as T.
  assert (T2 : ohomog HF (c_M kw)) by (intros P PP; congruence).
  specialize (T T2 fuel b cnt). rewrite NM in T. specialize (T (real_pos b B)). rewrite S in T.
  unfold cr_out_up in T. cbn [rmap fst snd realG realV gm vm] in T. rewrite !pw_1, !pw_2 in T.
  eexists. split; [exact T|]. cbn. repeat split.
Qed.

Theorem C100_real_craigmr : forall (q : lprob WE WF) (kw : cm_kw WE WF) fuel (b : iv F) cnt o1 cnt1,
  (forall l, h_lnorm kw (map (Rmult c) l) = c * h_lnorm kw l) -> h_M kw = None -> 0 < inorm b ->
  cm_solve fuel q kw b cnt = Ok (o1, cnt1) ->
  exists o2, cm_solve fuel q kw (iscale c b : vc WF) cnt = Ok (o2, cnt1) /\
    ho_x o2 = iscale c (ho_x o1 : iv F) /\ ho_istop o2 = ho_istop o1 /\ ho_status o2 = ho_status o1 /\
    ho_optimal o2 = ho_optimal o1 /\ ho_itn o2 = ho_itn o1 /\ ho_nmv o2 = ho_nmv o1 /\
    ho_norms o2 = map (Rmult (c * c)) (ho_norms o1) /\ ho_nresids o2 = map (Rmult c) (ho_nresids o1).
Proof.
  intros q kw fuel b cnt o1 cnt1 LN NM B S.
  pose proof (C100_craigmr GG HF q kw (real_nhomog _ LN)) as T.
  assert (T2 : ohomog HF (h_M kw)) by (intros P PP; congruence).
  specialize (T T2 fuel b cnt). rewrite NM in T. specialize (T (real_pos b B)). rewrite S in T.
  unfold cm_out_up in T. cbn [rmap fst snd realG realV gm vm] in T. rewrite !pw_1, !pw_2 in T.
  eexists. split; [exact T|]. cbn. repeat split.
Qed.
End RealLls.


(** ** MINRES stops by the size of the right-hand side.  [v = b / |b|], [al], [be] the first Lanczos coefficients of [A - shift I]
    and [ga = sqrt (al^2 + be^2)].  The estimate of the norm of the operator contains the norm of [b] (minres.py:256, where [oldb] is
    [beta1] in the first iteration), so one iteration is made and convergence reported as soon as [be / |b| <= rtol]. *)
Theorem C100_minres_early : forall dv sq (E : IPS) (q : kprob (exactV dv sq E)) (kw : mr_kw (exactV dv sq E)) (b : iv E),
  dv_ok dv -> sq_ok sq ->
  let At := fun z : iv E => isub (q_A q z : iv E) (iscale (m_shift kw) z) in
  let v : iv E := iscale (/ inorm b) b in
  let al := ip v (At v) in
  let be := inorm (isub (At v) (iscale al v)) in
  let ga := sqrt (al * al + be * be) in
  m_precon kw = None -> 0 < inorm b -> / 2 ^ 52 <= ga -> (1 <= m_window kw)%nat -> (1 <= mr_lim kw b)%nat ->
  (m_check kw = true -> fst (check_symmetric (q_cbrt q) (q_m q) (q_n q) (q_A q) (q_draws q) 0) = true) ->
  lin (q_A q : iv E -> iv E) -> 10 / 2 ^ 52 < be / inorm b -> be / inorm b <= m_rtol kw ->
  forall fuel hist, (2 <= fuel)%nat ->
  exists o c, @mr_solve (exactK dv sq) (exactV dv sq E) fuel q hist b kw 0 = Ok (o, c) /\
    u_itn o = 1%nat /\ u_istop o = 1%Z /\ u_conv o = true /\
    (u_x o : iv E) = iscale (al / (ga * ga)) b /\ u_rnorm o = be / ga * inorm b /\
    inorm (isub b (At (u_x o))) = be / ga * inorm b.
Proof.
  intros dv sq E q kw b DV SQ At v al be ga NP B0 GA WN LM CK LA H1 H2 fuel hist F.
  pose proof (me_eps dv sq) as EP. replace (2 ^ 52) with 4503599627370496 in * by lra.
  apply (me_stop dv sq E DV SQ q kw b NP B0 ltac:(rewrite EP; exact GA) WN LM CK LA); [|exact H2|exact F].
  rewrite EP. replace (Q2R 10) with 10 by (unfold Q2R; cbn; lra). exact H1.
Qed.

(** So for every operator and every right-hand side that is not an eigenvector there are scalings of the right-hand side for which
    the first iterate is returned as converged, with the relative residual [be / ga] of that iterate. *)
Theorem C100_minres_scale : forall dv sq (E : IPS) (q : kprob (exactV dv sq E)) (kw : mr_kw (exactV dv sq E)) (b : iv E),
  dv_ok dv -> sq_ok sq -> (forall u v : iv E, ilen u = ilen v) ->
  let At := fun z : iv E => isub (q_A q z : iv E) (iscale (m_shift kw) z) in
  let v : iv E := iscale (/ inorm b) b in
  let al := ip v (At v) in
  let be := inorm (isub (At v) (iscale al v)) in
  let ga := sqrt (al * al + be * be) in
  m_precon kw = None -> 0 < inorm b -> / 2 ^ 52 <= ga -> (1 <= m_window kw)%nat -> (1 <= mr_lim kw b)%nat ->
  (m_check kw = true -> fst (check_symmetric (q_cbrt q) (q_m q) (q_n q) (q_A q) (q_draws q) 0) = true) ->
  lin (q_A q : iv E -> iv E) -> 0 < be -> 10 / 2 ^ 52 < m_rtol kw ->
  exists lo, 0 < lo /\ lo < be / (inorm b * (10 / 2 ^ 52)) /\ forall t, lo <= t -> t < be / (inorm b * (10 / 2 ^ 52)) ->
  forall fuel hist, (2 <= fuel)%nat ->
  exists o c, @mr_solve (exactK dv sq) (exactV dv sq E) fuel q hist (iscale t b : iv E) kw 0 = Ok (o, c) /\
    u_itn o = 1%nat /\ u_istop o = 1%Z /\ u_conv o = true /\
    inorm (isub (iscale t b) (At (u_x o))) = be / ga * inorm (iscale t b).
Proof.
  intros dv sq E q kw b DV SQ EL At v al be ga NP B0 GA WN LM CK LA BE RT.
  assert (P52 : 0 < 10 / 2 ^ 52) by lra. assert (RP : 0 < m_rtol kw) by lra.
  exists (be / (inorm b * m_rtol kw)). split; [apply Rdiv_lt_0_compat; nra|]. split.
  { apply Rmult_lt_compat_l; [exact BE|]. apply Rinv_lt_contravar; nra. }
  intros t T1 T2 fuel hist F.
  assert (TP : 0 < t) by (eapply Rlt_le_trans; [|exact T1]; apply Rdiv_lt_0_compat; nra).
  assert (NT : inorm (iscale t b) = t * inorm b) by (rewrite inorm_scale, Rabs_pos_eq by lra; reflexivity).
  assert (VT : iscale (/ inorm (iscale t b)) (iscale t b) = v) by (rewrite NT; unfold v; veq; field; lra).
  pose proof (C100_minres_early dv sq E q kw (iscale t b) DV SQ) as X. cbv zeta in X. rewrite VT in X.
  fold (At v) in X. fold al in X. fold be in X. fold ga in X.
  destruct X with (fuel := fuel) (hist := hist) as (o & cc & S & I & J & C & _ & _ & R); try assumption.
  - rewrite NT. nra.
  - unfold mr_lim in *. destruct (m_itnlim kw); [exact LM|]. change (@vlen _ (exactV dv sq E) (iscale t b)) with (ilen (iscale t b)).
    rewrite (EL (iscale t b) b). exact LM.
  - rewrite NT. apply Rmult_lt_reg_r with (t * inorm b); [nra|]. unfold Rdiv at 2. rewrite Rmult_assoc, Rinv_l by nra.
    apply (Rmult_lt_compat_r (inorm b * (10 / 2 ^ 52))) in T2; [|nra]. unfold Rdiv at 2 in T2. rewrite Rmult_assoc, Rinv_l in T2 by nra. lra.
  - rewrite NT. apply Rmult_le_reg_r with (t * inorm b); [nra|]. unfold Rdiv. rewrite Rmult_assoc, Rinv_l by nra.
    apply (Rmult_le_compat_r (inorm b * m_rtol kw)) in T1; [|nra]. unfold Rdiv in T1. rewrite Rmult_assoc, Rinv_l in T1 by nra. lra.
  - exists o, cc. repeat split; assumption.
Qed.

(** ** [A = diag(1,2)], [b = (3,4)], the documented defaults: the call on [b] solves the system, the call on [10^12 b] returns after
    one iteration a vector with a relative residual above 1/4, and reports convergence. *)
Section Refute.
Notation K2 := (exactK Rdiv sqrt).
Notation E2 := (Rn 2).
Notation W2 := (exactV Rdiv sqrt E2).
Definition eA (z : iv E2) : iv E2 := v2 (fst z) (2 * fst (snd z)).
Definition eprob : kprob W2 :=
  @mkprob K2 W2 2 2 (eA : vc W2 -> vc W2) None (0 : sc K2) (0 : sc K2) (fun x => x) [].
Definition eb : iv E2 := v2 3 4.
Lemma eA_lin : lin eA.
Proof. split; [intros [a [b []]] [c [d []]]|intros s [a [b []]]]; unfold eA; cbn; apply v2_eq; ring. Qed.
Lemma eA_sym : selfadj eA.
Proof. intros [a [b []]] [c [d []]]. cbn. ring. Qed.
Lemma rn_len : forall n (u v : iv (Rn n)), ilen u = ilen v.
Proof. reflexivity. Qed.
Lemma e_b : inorm eb = 5.
Proof. unfold inorm. apply sqrt_val; [lra|]. cbn. ring. Qed.
Lemma e_v : iscale (/ inorm eb) eb = v2 (3/5) (4/5).
Proof. rewrite e_b. cbn. apply v2_eq; field. Qed.
Lemma e_At : forall a b, isub (q_A eprob (v2 a b) : iv E2) (iscale (m_shift dkw) (v2 a b)) = v2 a (2 * b).
Proof. intros. unfold isub, ineg. cbn. apply v2_eq; ring. Qed.
Lemma e_At0 : forall z : iv E2, isub (q_A eprob z : iv E2) (iscale (m_shift dkw) z) = q_A eprob z.
Proof. intros [a [b []]]. exact (e_At a b). Qed.
Lemma e_al : ip (v2 (3/5) (4/5)) (v2 (3/5) (2 * (4/5))) = 41/25.
Proof. cbn. field. Qed.
Lemma e_be : inorm (isub (v2 (3/5) (2 * (4/5))) (iscale (41/25) (v2 (3/5) (4/5)))) = 12/25.
Proof. unfold inorm. apply sqrt_val; [lra|]. unfold isub, ineg. cbn. field. Qed.
Lemma e_ga : 17/10 < sqrt (41/25 * (41/25) + 12/25 * (12/25)) < 171/100.
Proof.
  split.
  - rewrite <- (sqrt_square (17/10)) by lra. apply sqrt_lt_1_alt. lra.
  - rewrite <- (sqrt_square (171/100)) by lra. apply sqrt_lt_1_alt. lra.
Qed.

Theorem C100_minres_refuted : exists (q : kprob W2) (b : iv E2) (t : R), selfadj (q_A q : iv E2 -> iv E2) /\ 0 < t /\
  (exists o c, @mr_solve K2 W2 11 q [] b dkw 0 = Ok (o, c) /\ q_A q (u_x o) = b) /\
  (exists o c, @mr_solve K2 W2 11 q [] (iscale t b) dkw 0 = Ok (o, c) /\ u_itn o = 1%nat /\ u_conv o = true /\
     inorm (isub (iscale t b) (q_A q (u_x o) : iv E2)) > 1/4 * inorm (iscale t b)).
Proof.
  exists eprob, eb, (10 ^ 12). split; [exact eA_sym|]. split; [lra|].
  pose proof e_ga as GB.
  assert (RT : (m_rtol dkw : R) = / 1000000000000) by (cbn; unfold Q2R; cbn; lra).
  pose proof (me_eps Rdiv sqrt) as EV.
  split.
  - destruct (C47_stopping K2 W2 eprob dkw eb 11 [] 0 ltac:(cbn; lia) ltac:(cbn; lia)) as (o & c & S & _ & _ & _ & IN & _ & I7 & _).
    exists o, c. split; [exact S|].
    assert (N2 : (2 <= u_itn o)%nat).
    { destruct (me_start Rdiv sqrt E2 sqrt_ok eprob dkw eb eq_refl ltac:(rewrite e_b; lra) ltac:(reflexivity)) as [c0 ST].
      unfold mr_solve in S. rewrite ST in S. change (mr_lim dkw eb) with 10%nat in S.
      destruct (@mr_body_ok K2 W2 eprob dkw eb (@machine_eps K2) (inorm eb) (@mr_init K2 W2 dkw eb (inorm eb) 0 false [] c0) ltac:(cbn; lia)) as [st B].
      pose proof (me_first Rdiv sqrt E2 Rdiv_ok sqrt_ok eprob dkw eb eq_refl ltac:(rewrite e_b; lra)) as F. cbv zeta in F.
      rewrite e_v, e_At, e_al, e_be in F.
      destruct (F ltac:(rewrite EV; lra) ltac:(cbn; lia) ltac:(cbn; lia) [] c0 st B) as (_ & _ & IT & _ & IS & BR). clear F.
      change (mr_lim dkw eb) with 10%nat in *. rewrite e_b in *. set (ga := sqrt (41/25 * (41/25) + 12/25 * (12/25))) in *.
      set (an := sqrt (41 / 25 * (41 / 25) + 5 * 5 + 12 / 25 * (12 / 25))) in *.
      assert (AN : 5 < an < 6).
      { unfold an. split.
        - apply Rle_lt_trans with (sqrt 25); [right; symmetry; apply sqrt_val; lra|apply sqrt_lt_1_alt; lra].
        - apply Rlt_le_trans with (sqrt 36); [apply sqrt_lt_1_alt; lra|right; apply sqrt_val; lra]. }
      replace (Rleb (12 / 25 / 5) (Q2R 10 * @machine_eps K2)) with false in IS
        by (symmetry; apply Rleb_false; rewrite EV; unfold Q2R; cbn; lra).
      assert (I0 : r_istop st = 0%Z).
      { rewrite IS. rewrite (Rabs_pos_eq (41/25)) by lra. rewrite Rmax_right by lra.
        assert (Pm : @pymin K2 (41/25) ga = 41/25).
        { unfold pymin. cbn. replace (Rltb ga (41/25)) with false; [reflexivity|]. symmetry. apply Rltb_false. lra. }
        rewrite Pm.
        assert (T1p : 1/100 < 12 / 25 / an).
        { apply Rmult_lt_reg_r with an; [lra|]. unfold Rdiv at 2. rewrite Rmult_assoc, Rinv_l by lra. lra. }
        assert (T2p : 1/100 < ga / an).
        { apply Rmult_lt_reg_r with an; [lra|]. unfold Rdiv at 2. rewrite Rmult_assoc, Rinv_l by lra. lra. }
        assert (IG : 5 / ga < 3).
        { apply Rmult_lt_reg_r with ga; [lra|]. unfold Rdiv. rewrite Rmult_assoc, Rinv_l by lra. lra. }
        assert (IG0 : 0 < 5 / ga) by (apply Rdiv_lt_0_compat; lra).
        unfold mr_tests, sgeb. rewrite RT.
        assert (F1 : sleb (sadd (s1 : sc K2) (ga / an : sc K2)) s1 = false) by (apply Rleb_false; cbn; lra).
        assert (F2 : sleb (sadd (s1 : sc K2) (12 / 25 / an : sc K2)) s1 = false) by (apply Rleb_false; cbn; lra).
        assert (F3 : sleb (sdiv (slit (1 # 10)) (@machine_eps K2)) (ga / (41 / 25) : sc K2) = false).
        { apply Rleb_false. cbn -[machine_eps]. rewrite EV. unfold Q2R. cbn. lra. }
        assert (F4 : sleb (5 : sc K2) (an * (5 / ga) * @machine_eps K2 : sc K2) = false).
        { apply Rleb_false. rewrite EV. cbn. nra. }
        assert (F5 : sleb (ga / an : sc K2) (/ 1000000000000 : sc K2) = false) by (apply Rleb_false; lra).
        assert (F6 : sleb (12 / 25 / an : sc K2) (/ 1000000000000 : sc K2) = false) by (apply Rleb_false; lra).
        rewrite F1, F2, F3, F4, F5, F6. reflexivity. }
      rewrite I0 in BR. cbn [Z.ltb Z.compare] in BR.
      destruct (@mr_body_ok K2 W2 eprob dkw eb (@machine_eps K2) 5 st ltac:(cbn; lia)) as [st2 B2].
      change (mr_lim dkw eb) with 10%nat in *.
      match type of S with match while 11 ?cd ?bd ?s with _ => _ end = _ =>
        assert (WW : while 11 cd bd s = while 9 cd bd st2) end.
      { cbn [while]. change (mr_cond 10 (mr_init dkw eb 5 0 false [] c0)) with true. cbv iota. rewrite B.
        unfold mr_cond at 1. rewrite BR, IT. cbn [negb andb Nat.ltb Nat.leb]. rewrite B2. reflexivity. }
      rewrite WW in S. clear WW. destruct (while 9 _ _ _) as [s|] eqn:W; [|discriminate]. injection S as <- _. cbn [u_itn].
      apply while_rounds in W. destruct W as (k & _ & W & _). pose proof (mr_rounds_itn _ _ _ _ _ _ _ _ W) as N.
      pose proof (mr_body_itn _ _ _ _ _ _ _ B2) as N1. lia. }
    destruct (C48_residual Rdiv sqrt E2 Rdiv_ok sqrt_ok eprob dkw eb 11 [] 0 o c eq_refl eA_sym) with (2 := S)
      as (xs & _ & _ & _ & _ & _ & _ & _ & D).
    { intros k z _. rewrite EV. assert (Q : inorm z <= inorm (isub (q_A eprob z : iv E2) (iscale (m_shift dkw) z))).
      { apply sqrt_le_1_alt. destruct z as [a [b []]]. unfold isub, ineg. cbn. nra. }
      pose proof (inorm_pos z). lra. }
    assert (N7 : u_istop o <> 7%Z).
    { intro X. assert (Z0 : u_itn o = 0%nat) by (apply I7; rewrite X; cbn; auto). lia. }
    specialize (D 2%nat (Rn_dim 2) N2 N7). rewrite e_At0 in D. exact D.
  - assert (NT : inorm (iscale (10 ^ 12) eb) = 10 ^ 12 * 5) by (rewrite inorm_scale, e_b, Rabs_pos_eq by lra; reflexivity).
    assert (VT : iscale (/ inorm (iscale (10 ^ 12) eb)) (iscale (10 ^ 12) eb) = v2 (3/5) (4/5)).
    { rewrite NT. cbn -[pow]. apply v2_eq; field; lra. }
    pose proof (C100_minres_early Rdiv sqrt E2 eprob dkw (iscale (10 ^ 12) eb) Rdiv_ok sqrt_ok) as X. cbv zeta in X.
    rewrite VT, e_At, e_al, e_be, NT in X.
    destruct X with (fuel := 11%nat) (hist := @nil R) as (o & c & S & I & J & C & _ & _ & R); try lra; try reflexivity.
    + cbn; lia.
    + cbn; lia.
    + exact eA_lin.
    + lia.
    + exists o, c. split; [exact S|]. split; [exact I|]. split; [exact C|]. rewrite NT.
      rewrite e_At0 in R. rewrite R.
      set (s := sqrt (41/25 * (41/25) + 12/25 * (12/25))) in *. apply Rlt_gt, Rmult_lt_compat_r; [lra|].
      apply Rmult_lt_reg_r with s; [lra|]. replace (12 / 25 / s * s) with (12 / 25) by (field; lra). lra.
Qed.
End Refute.

(** ** In rounded arithmetic without over- and underflow: every operation rounds to the nearest number of [p + 1] binary digits, and
    scaling the right-hand side by a power of 2 changes the exponents only.  [None]: not a finite number. *)
Section Rounded.
Variables (p e : Z) (n : nat).
Notation rn := (near p).
Definition two : R := powerRZ 2 e.
Lemma two_pos : 0 < two.
Proof. apply powerRZ_lt. lra. Qed.
Lemma two_pw : forall k, pw two k = powerRZ 2 (e * k).
Proof.
  assert (N : forall i, two ^ i = powerRZ 2 (e * Z.of_nat i)).
  { induction i as [|i IH]; [rewrite Z.mul_0_r; reflexivity|]. cbn [pow]. rewrite IH. unfold two. rewrite <- powerRZ_add by lra. f_equal. lia. }
  intro k. unfold pw. destruct k as [|k|k]; cbn [powerRZ].
  - rewrite Z.mul_0_r. reflexivity.
  - rewrite N. f_equal. lia.
  - rewrite N. set (u := (e * Z.of_nat (Pos.to_nat k))%Z). assert (0 < powerRZ 2 u) by (apply powerRZ_lt; lra).
    apply Rmult_eq_reg_l with (powerRZ 2 u); [|lra]. rewrite Rinv_r by lra. rewrite <- powerRZ_add by lra.
    replace (u + e * Z.neg k)%Z with 0%Z by lia. reflexivity.
Qed.
Lemma rn_two : forall k a, rn (pw two k * a) = pw two k * rn a.
Proof. intros k a. rewrite two_pw. apply near_shift. Qed.
Notation RK := (rndK rn).
Notation RV := (rndV rn).
Notation RG := (rndG two two_pos rn rn_two).
Notation RH := (rndVG two two_pos rn rn_two).
Definition sh (a : option R) : option R := option_map (Rmult two) a.
Definition shv {m} (x : option (rv m)) : option (rv m) := option_map (rvscale two) x.
Lemma sh_gm : gm RG 1 = sh.
Proof. change ((fun a : option R => option_map (Rmult (pw two 1)) a) = sh). rewrite pw_1. reflexivity. Qed.
Lemma shv_vm : forall m, vm (RH m) 1 = shv.
Proof. intro m. change ((fun x : option (rv m) => option_map (rvscale (pw two 1)) x) = shv). rewrite pw_1. reflexivity. Qed.
Lemma rn_0 : rn 0 = 0.
Proof. unfold near. destruct (Req_EM_T 0 0); [reflexivity|contradiction]. Qed.
Lemma rn_zero : zero_mult RG (RH n).
Proof.
  intros j k [a|] m; [|reflexivity]. cbn. f_equal.
  assert (Z0 : forall b i, r1 rn (Rmult b) (rv0 i) = rv0 i).
  { intros b i. induction i as [|i IH]; cbn; [reflexivity|]. rewrite IH, Rmult_0_r, rn_0. reflexivity. }
  rewrite !Z0. symmetry. apply rvs_0.
Qed.
Definition rprob (A : rmat n n) (P : option (rmat n n)) (abstol reltol : option R) (cb : option R -> option R) dr : kprob (RV n) :=
  @mkprob RK (RV n) n n (rop rn A) (option_map (rop rn) P) abstol reltol cb dr.

Theorem C100_rounded_cg : forall A P abstol reltol cb dr fuel rhs g mx sy cu sr si cnt o1 cnt1,
  @cg_solve RK (RV n) fuel (rprob A P abstol reltol cb dr) (@cg_new RK (RV n)) rhs (@mkkw RK (RV n) g mx sy cu sr si) cnt = Ok (o1, cnt1) ->
  exists o2, @cg_solve RK (RV n) fuel (rprob A P (sh abstol) reltol cb dr) (@cg_new RK (RV n)) (shv rhs)
      (@mkkw RK (RV n) (option_map shv g) mx sy cu sr si) cnt = Ok (o2, cnt1) /\
    g_x o2 = option_map shv (g_x o1) /\ g_hist o2 = map sh (g_hist o1) /\ g_conv o2 = g_conv o1 /\ g_def o2 = g_def o1 /\ g_nmv o2 = g_nmv o1.
Proof.
  intros A P abstol reltol cb dr fuel rhs g mx sy cu sr si cnt o1 cnt1 S.
  pose proof (C100_cg RG (RH n) (rprob A P abstol reltol cb dr) (rop_hom _ _ _ _ _ _ A)) as T.
  assert (HP : ohomog (RH n) (q_P (rprob A P abstol reltol cb dr))).
  { intros f F. cbn in F. destruct P as [P|]; [|discriminate]. injection F as <-. apply rop_hom. }
  specialize (T HP fuel (@cg_new RK (RV n)) rhs (@mkkw RK (RV n) g mx sy cu sr si) cnt). rewrite S in T.
  unfold q_up, cg_kw_up, cg_obj_up in T. rewrite sh_gm, shv_vm in T. eexists. split; [exact T|]. cbn. repeat split.
Qed.
Theorem C100_rounded_krylov : forall solve, In solve [@cgs_solve RK (RV n); @bi_solve RK (RV n); @tf_solve RK (RV n)] ->
  forall A P abstol reltol cb dr fuel rhs g mx cnt o1 cnt1,
  solve fuel (rprob A P abstol reltol cb dr) rhs (@mkkkw RK (RV n) g mx) cnt = Ok (o1, cnt1) ->
  exists o2, solve fuel (rprob A P (sh abstol) reltol cb dr) (shv rhs) (@mkkkw RK (RV n) (option_map shv g) mx) cnt = Ok (o2, cnt1) /\
    KrylovModel.o_x o2 = shv (KrylovModel.o_x o1) /\ o_residNorm0 o2 = sh (o_residNorm0 o1) /\ o_residNorm o2 = sh (o_residNorm o1) /\
    o_conv o2 = o_conv o1 /\ KrylovModel.o_nmv o2 = KrylovModel.o_nmv o1.
Proof.
  intros solve I A P abstol reltol cb dr fuel rhs g mx cnt o1 cnt1 S.
  assert (HA : homog (RH n) (RH n) (q_A (rprob A P abstol reltol cb dr))) by apply rop_hom.
  assert (HP : ohomog (RH n) (q_P (rprob A P abstol reltol cb dr))).
  { intros f F. cbn in F. destruct P as [P|]; [|discriminate]. injection F as <-. apply rop_hom. }
  assert (T : solve fuel (q_up RG (rprob A P abstol reltol cb dr)) (vm (RH n) 1 rhs) (kkw_up RG (RH n) (@mkkkw RK (RV n) g mx)) cnt
    = kres_up RG (RH n) (solve fuel (rprob A P abstol reltol cb dr) rhs (@mkkkw RK (RV n) g mx) cnt)).
  { pose proof rn_zero. destruct I as [<-|[<-|[<-|[]]]]; [apply C100_cgs|apply C100_bicgstab|apply C100_tfqmr]; assumption. }
  rewrite S in T. unfold q_up, kkw_up, kres_up, kout_up in T. rewrite sh_gm, shv_vm in T.
  eexists. split; [exact T|]. cbn. repeat split.
Qed.
(** LSQR on a rounded [m x n] matrix and its transpose. *)
Theorem C100_rounded_lsqr : forall m (A : rmat m n) (At : rmat n m) (kw : ls_kw (RV n) (RV m)) fuel b cnt o1 cnt1,
  (forall l, l_lnorm kw (map sh l) = sh (l_lnorm kw l)) -> l_M kw = None -> sgtb (norm_M None b) s0 = true ->
  @ls_solve RK (RV n) (RV m) fuel (mklprob m n (rop rn A) (rop rn At)) kw b cnt = Ok (o1, cnt1) ->
  exists o2, @ls_solve RK (RV n) (RV m) fuel (mklprob m n (rop rn A) (rop rn At)) kw (shv b) cnt = Ok (o2, cnt1) /\
    LsqrModel.o_x o2 = shv (LsqrModel.o_x o1) /\ o_istop o2 = o_istop o1 /\ o_optimal o2 = o_optimal o1 /\ o_itn o2 = o_itn o1 /\
    o_r2norm o2 = sh (o_r2norm o1) /\ o_Anorm o2 = o_Anorm o1 /\ o_Acond o2 = o_Acond o1 /\ o_xnorm o2 = sh (o_xnorm o1).
Proof.
  intros m A At kw fuel b cnt o1 cnt1 LN NM B S.
  pose proof (C100_lsqr RG (RH n) (RH m) (mklprob m n (rop rn A) (rop rn At)) kw) as T.
  assert (T1 : nhomog RG (l_lnorm kw)) by (intro l; rewrite sh_gm; apply LN).
  assert (T2 : ohomog (RH m) (l_M kw)) by (intros f F; congruence).
  specialize (T T1 T2 fuel b cnt). rewrite NM in T. specialize (T B). rewrite S in T. unfold ls_out_up in T. rewrite sh_gm, !shv_vm in T.
  eexists. split; [exact T|]. cbn. repeat split.
Qed.
End Rounded.

(** ** Examples. *)
(** Twice the right-hand side [(1,2)] with the guess [(1,1)]: CG on the symmetric positive definite [A2] of PropCg.v returns the
    doubled solution. *)
Example ex_C100_real : dv_hom Rdiv /\ sq_hom sqrt /\ exists o1 o2 c x,
  @cg_solve (exactK Rdiv sqrt) (exactV Rdiv sqrt (Rn 2)) 5 q2 cg_new (v2 1 2) (kw2 (Some (v2 1 1))) 0 = Ok (o1, c) /\
  @cg_solve (exactK Rdiv sqrt) (exactV Rdiv sqrt (Rn 2)) 5 (sc_prob 2 Rdiv sqrt (Rn 2) q2) cg_new (iscale 2 (v2 1 2)) (kw2 (Some (iscale 2 (v2 1 1)))) 0
    = Ok (o2, c) /\
  A2 x = v2 1 2 /\ g_x o2 = Some (iscale 2 (x : iv (Rn 2))).
Proof.
  split; [exact Rdiv_hom|]. split; [exact sqrt_hom|].
  destruct (ex_C37 (v2 1 2) (v2 1 1)) as (o1 & c & x & S & CV & _ & X & AX).
  destruct (C100_real_cg 2 Rdiv sqrt (Rn 2) ltac:(lra) Rdiv_hom sqrt_hom (rn_len 2) q2 5 (v2 1 2) (Some (v2 1 1)) None false true true true 0 o1 c
    (adjoint_lin _ _ ex_A2_sym) ltac:(intros P PP; discriminate) S) as (o2 & S2 & X2 & _).
  exists o1, o2, c, x. split; [exact S|]. split; [exact S2|]. split; [exact AX|]. rewrite X2, X. reflexivity.
Qed.

(** The hypotheses of C100_minres_scale hold of [diag(1,2)] and [(3,4)]. *)
Example ex_C100_minres : let At := fun z : iv (Rn 2) => isub (q_A eprob z : iv (Rn 2)) (iscale (m_shift dkw) z) in
  let v : iv (Rn 2) := iscale (/ inorm eb) eb in
  let al := ip v (At v) in
  let be := inorm (isub (At v) (iscale al v)) in
  m_precon dkw = None /\ 0 < inorm eb /\ / 2 ^ 52 <= sqrt (al * al + be * be) /\ (1 <= m_window dkw)%nat /\ (1 <= mr_lim dkw eb)%nat /\
  fst (check_symmetric (q_cbrt eprob) (q_m eprob) (q_n eprob) (q_A eprob) (q_draws eprob) 0) = true /\
  lin (q_A eprob : iv (Rn 2) -> iv (Rn 2)) /\ 0 < be /\ 10 / 2 ^ 52 < m_rtol dkw.
Proof.
  cbv zeta. rewrite e_v, e_At, e_al, e_be, e_b. pose proof e_ga.
  assert (RT : (m_rtol dkw : R) = / 1000000000000) by (cbn; unfold Q2R; cbn; lra).
  repeat match goal with |- _ /\ _ => split end; try exact eA_lin; try reflexivity; try (rewrite RT; lra); try lra; cbn; lia.
Qed.

(** The rounding rounds: to one binary digit, 7/5 becomes 1. *)
Lemma int_part_is : forall r z, IZR z <= r < IZR z + 1 -> Int_part r = z.
Proof. intros r z H. unfold Int_part. rewrite <- (tech_up r (z + 1)); [lia| |]; rewrite plus_IZR; lra. Qed.
Example ex_near : near 0 (7/5) = 1.
Proof.
  assert (L : lg (7/5) = 0%Z).
  { unfold lg. rewrite Rabs_pos_eq by lra. assert (A1 : 0 < ln (7/5)) by (rewrite <- ln_1; apply ln_increasing; lra).
    assert (A2 : ln (7/5) < ln 2) by (apply ln_increasing; lra). apply int_part_is. split.
    2:{ assert (ln (7/5) / ln 2 < 1); [|cbn; lra]. apply Rmult_lt_reg_r with (ln 2); [lra|]. unfold Rdiv at 1.
      rewrite Rmult_assoc, Rinv_l by lra. lra. }
    apply Rlt_le, Rdiv_lt_0_compat; lra. }
  unfold near. destruct (Req_EM_T (7/5) 0); [lra|]. rewrite L. cbn [Z.sub Z.opp Z.add powerRZ].
  replace (Int_part (7 / 5 / 1 + / 2)) with 1%Z; [ring|]. symmetry. apply int_part_is. lra.
Qed.

Print Assumptions C100_cg. Print Assumptions C100_cgs. Print Assumptions C100_bicgstab. Print Assumptions C100_tfqmr.
Print Assumptions C100_lsqr. Print Assumptions C100_lsmr. Print Assumptions C100_craig. Print Assumptions C100_craigmr.
Print Assumptions C100_minres. Print Assumptions C100_real_cg. Print Assumptions C100_real_krylov. Print Assumptions C100_real_lsqr.
Print Assumptions C100_minres_early. Print Assumptions C100_minres_scale. Print Assumptions C100_minres_refuted.
Print Assumptions C100_rounded_cg. Print Assumptions C100_rounded_krylov. Print Assumptions C100_rounded_lsqr.
Print Assumptions C100_real_lsmr. Print Assumptions C100_real_craig. Print Assumptions C100_real_craigmr.
