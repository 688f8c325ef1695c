(** * Preconditioned CRAIG and CRAIG-MR in exact arithmetic: they are the methods without
      preconditioners on [A N] in the spaces with the inner products [<N u, v>] and [<M u, v>]. *)
From Coq Require Import List Arith Lia Bool ZArith Reals Lra.
From Verif Require Import Base Num ToolsModel MinresModel LsqrModel CraigModel CraigFlow CraigProof Precon LsqrPrecon.
Import ListNotations.
Local Open Scope R_scope.

Section CraigPrecon.
Variables (dv : R -> R -> R) (sq : R -> R).
Variables E1 E2 : IPS.
Local Notation KK := (exactK dv sq).
Local Notation WV := (exactV dv sq E1).
Local Notation WU := (exactV dv sq E2).
Variables (q : lprob WV WU) (b : iv E2).
Variables (oM : option (iv E2 -> iv E2)) (oN : option (iv E1 -> iv E1)).
Let M : iv E2 -> iv E2 := pre_of oM.
Let N : iv E1 -> iv E1 := pre_of oN.
Hypothesis SM : selfadj M.
Hypothesis PM : posdef M.
Hypothesis SN : selfadj N.
Hypothesis PN : posdef N.
Let LN : lin N := adjoint_lin N N SN.
Let LM : lin M := adjoint_lin M M SM.
Local Notation F1 := (pspace E1 N SN PN).
Local Notation F2 := (pspace E2 M SM PM).
Local Notation XV := (exactVn dv sq F1 (@inorm F1)).
Local Notation XU := (exactVn dv sq F2 (@inorm F2)).

Definition cpq : lprob XV XU :=
  @mklprob KK XV XU (lp_m q) (lp_n q) ((fun z => lp_A q (N z)) : vc XV -> vc XU) ((fun y => lp_At q (M y)) : vc XU -> vc XV).

Lemma ckU : forall y : iv E2, @gk_norm KK WU oM y =
  rmap (fun '(y', u', b) => (y', M u', b)) (@gk_norm KK XU None y).
Proof. exact (gk_sim dv sq E2 inorm (@inorm F2) oM SM PM). Qed.
Lemma ckV : forall y : iv E1, @gk_norm KK WV oN y =
  rmap (fun '(y', u', b) => (y', N u', b)) (@gk_norm KK XV None y).
Proof. exact (gk_sim dv sq E1 inorm (@inorm F1) oN SN PN). Qed.

Lemma cbidiag_sim : forall Mu v Nv al cnt,
  @cr_bidiag KK WV WU q oM oN Mu (N v) Nv al cnt =
  rmap (fun '(Mu, u, v, Nv, alpha, beta, cnt) => (Mu, M u, N v, Nv, alpha, beta, cnt))
    (@cr_bidiag KK XV XU cpq None None Mu v Nv al cnt).
Proof.
  intros. unfold cr_bidiag.
  rewrite ckU.
  change (@vsub KK XU (lp_A cpq v) (@vscale KK XU al Mu)) with (@vsub KK WU (lp_A q (N v)) (@vscale KK WU al Mu)).
  match goal with |- context[@gk_norm KK ?W None ?y] => destruct (@gk_norm KK W None y) as [[[Mu' u'] be]|] end;
    [|reflexivity].
  cbn [rmap rbind].
  destruct (sgtb be s0); [|reflexivity]. destruct Nv as [Nv|]; [|reflexivity].
  rewrite ckV.
  change (@vsub KK XV (lp_At cpq u') (@vscale KK XV be Nv)) with (@vsub KK WV (lp_At q (M u')) (@vscale KK WV be Nv)).
  match goal with |- context[@gk_norm KK ?W None ?y] => destruct (@gk_norm KK W None y) as [[[Nv' v'] al']|] end;
    reflexivity.
Qed.

Lemma cupd_sim : forall u d r v wbar x a1 a2 a3 a4 a5 a6 a7,
  @cr_upd KK WV WU (M u) (M d) (M r) (N v) (N wbar) (N x) a1 a2 a3 a4 a5 a6 a7 =
  rmap (fun '(d, tau, r, zeta, wbar, x) => (M d, tau, M r, zeta, N wbar, N x))
    (@cr_upd KK XV XU u d r v wbar x a1 a2 a3 a4 a5 a6 a7).
Proof.
  intros. unfold cr_upd. cbv zeta.
  destruct (@pydiv KK (smul (sneg a3) a1) a5) as [f1|]; [|reflexivity]. cbn [rbind].
  destruct (@pydiv KK (smul (sneg a3) a2) a5) as [f2|]; [|reflexivity]. cbn [rbind rmap vadd vsub vscale vdivs exactVn].
  change (@iscale F1) with (@iscale E1). change (@iadd F1) with (@iadd E1). change (@isub F1) with (@isub E1).
  change (@iscale F2) with (@iscale E2). change (@iadd F2) with (@iadd E2). change (@isub F2) with (@isub E2).
  rewrite ?(lin_add N LN), ?(lin_sub N LN), ?(lin_scale N LN), ?(lin_add N LN), ?(lin_sub N LN), ?(lin_scale N LN).
  rewrite ?(lin_add M LM), ?(lin_sub M LM), ?(lin_scale M LM), ?(lin_add M LM), ?(lin_sub M LM), ?(lin_scale M LM).
  reflexivity.
Qed.

(** ** CRAIG *)
Section Cr.
Variable kw : cr_kw WV WU.
Hypothesis HM : c_M kw = oM.
Hypothesis HN : c_N kw = oN.
Definition ckwp : cr_kw XV XU :=
  @mkcrkw KK XV XU (c_itnlim kw) (c_damp kw) None None (c_atol kw) (c_btol kw) (c_conlim kw) (c_wantvar kw) (c_etol kw)
    (c_sres kw) (c_sit kw) (c_window kw) (c_lnorm kw).

Definition Tc (s : cr_st XV XU) : cr_st WV WU :=
  @mkcr KK WV WU (N (g_x s)) (M (g_r s)) (g_Mu s) (N (g_v s)) (g_Nv s) (M (g_d s)) (N (g_wbar s))
  (g_alpha s) (g_c s) (g_s s) (g_tau s) (g_zeta s)
  (g_rnorm s) (g_xnorm s) (g_r1 s) (g_rnrg2 s) (g_xnrg2 s) (g_Ar s) (g_dErr s)
  (g_istop s) (g_itn s) (g_cnt s) (g_brk s)
  (g_norms s) (g_resids s) (g_nresids s) (g_dirs s) (map N (g_itp s)) (map M (g_itd s)).

Lemma cbody_sim : forall bn lim (s : cr_st XV XU),
  @cr_body KK WV WU q kw bn lim (Tc s) = rmap Tc (@cr_body KK XV XU cpq ckwp bn lim s).
Proof.
  intros bn lim s. unfold cr_body. rewrite HM, HN.
  cbn [Tc g_x g_r g_Mu g_v g_Nv g_d g_wbar g_alpha g_c g_s g_tau g_zeta g_rnorm g_xnorm g_r1 g_rnrg2 g_xnrg2 g_Ar g_dErr
       g_istop g_itn g_cnt g_brk g_norms g_resids g_nresids g_dirs g_itp g_itd].
  change (c_M ckwp) with (@None (vc XU -> vc XU)). change (c_N ckwp) with (@None (vc XV -> vc XV)).
  rewrite cbidiag_sim.
  match goal with |- context[rmap _ (@cr_bidiag KK XV XU ?a ?b' ?c ?d ?e ?f ?g ?h)] =>
    destruct (@cr_bidiag KK XV XU a b' c d e f g h) as [[[[[[[Mu' u'] v'] Nv'] al'] be'] cnt']|] end; [|reflexivity].
  cbn [rmap rbind].
  destruct (cr_rot (g_c s) (g_s s) al' be') as [[[[[bh s2] ah] c] sn]|]; [|reflexivity].
  cbn [rbind]. rewrite cupd_sim.
  destruct (@cr_upd KK XV XU u' (g_d s) (g_r s) v' (g_wbar s) (g_x s) (g_tau s) (g_zeta s) bh s2 ah c sn) as [[[[[[d' tau'] r'] ze'] wb'] x']|]; [|reflexivity].
  cbn [rmap rbind].
  change (c_window ckwp) with (c_window kw). change (c_etol ckwp) with (c_etol kw). change (c_lnorm ckwp) with (c_lnorm kw).
  destruct (cr_derr (c_window kw) (c_etol kw) (c_lnorm kw) (g_itn s + 1) tau' (sadd (g_rnrg2 s) (smul tau' tau')) (g_dErr s) (g_dirs s) (g_istop s)) as [[[dE di] is]|]; [|reflexivity].
  cbn [rbind].
  change (@cr_tests KK XV XU ckwp) with (@cr_tests KK WV WU kw).
  destruct (@cr_tests KK WV WU kw (lim <=? Z.of_nat (g_itn s + 1))%Z is (sadd (g_rnorm s) (smul tau' tau')) bn) as [i'|]; [|reflexivity].
  cbn [rbind rmap]. unfold Tc.
  cbn [Tc g_x g_r g_Mu g_v g_Nv g_d g_wbar g_alpha g_c g_s g_tau g_zeta g_rnorm g_xnorm g_r1 g_rnrg2 g_xnrg2 g_Ar g_dErr
       g_istop g_itn g_cnt g_brk g_norms g_resids g_nresids g_dirs g_itp g_itd].
  change (c_sres ckwp) with (c_sres kw). change (c_sit ckwp) with (c_sit kw).
  destruct (c_sit kw); [|reflexivity]. rewrite !map_app. reflexivity.
Qed.

Lemma cinit_sim : forall cnt, @cr_init KK WV WU q kw b cnt =
  rmap (fun p => (Tc (fst p), snd p)) (@cr_init KK XV XU cpq ckwp b cnt).
Proof.
  intro cnt. unfold cr_init. cbv zeta. rewrite HM, HN.
  change (c_M ckwp) with (@None (vc XU -> vc XU)). change (c_N ckwp) with (@None (vc XV -> vc XV)).
  change (c_conlim ckwp) with (c_conlim kw).
  destruct (if sgtb (c_conlim kw) s0 then pydiv s1 (c_conlim kw) else Ok s0) as [w|]; [|reflexivity]. cbn [rbind].
  rewrite ckU.
  match goal with |- context[@gk_norm KK ?W None ?y] => destruct (@gk_norm KK W None y) as [[[Mu' u'] be]|] end;
    [|reflexivity].
  cbn [rmap rbind].
  destruct (sgtb be s0).
  - rewrite ckV. change (lp_At cpq u') with (lp_At q (M u')).
    match goal with |- context[@gk_norm KK ?W None ?y] => destruct (@gk_norm KK W None y) as [[[Nv' v'] al']|] end;
      [|reflexivity].
    cbn [rmap rbind].
    destruct (@pnorm2 KK al' s1) as [rho|]; [|reflexivity]. cbn [rbind].
    destruct (@pydiv KK be rho) as [tau|]; [|reflexivity]. cbn [rbind].
    destruct (@pydiv KK al' rho) as [c|]; [|reflexivity]. cbn [rbind].
    destruct (@pydiv KK s1 rho) as [sn|]; [|reflexivity]. cbn [rbind rmap fst snd]. unfold Tc.
    cbn [Tc g_x g_r g_Mu g_v g_Nv g_d g_wbar g_alpha g_c g_s g_tau g_zeta g_rnorm g_xnorm g_r1 g_rnrg2 g_xnrg2 g_Ar g_dErr
       g_istop g_itn g_cnt g_brk g_norms g_resids g_nresids g_dirs g_itp g_itd].
    cbn [vadd vsub vscale vdivs exactVn c_window c_sres c_sit ckwp].
    change (@iscale F1) with (@iscale E1). change (@iscale F2) with (@iscale E2).
    rewrite ?(lin_scale N LN), ?(lin_scale M LM), ?(lin_scale N LN), ?(lin_scale M LM).
    destruct (c_sit kw); [|reflexivity]. cbn [map].
    rewrite ?(lin_scale N LN), ?(lin_scale M LM), ?(lin_scale N LN), ?(lin_scale M LM). reflexivity.
  - cbn [rbind rmap].
    destruct (@pnorm2 KK s0 s1) as [rho|]; [|reflexivity]. cbn [rbind].
    destruct (@pydiv KK be rho) as [tau|]; [|reflexivity]. cbn [rbind].
    destruct (@pydiv KK s0 rho) as [c|]; [|reflexivity]. cbn [rbind].
    destruct (@pydiv KK s1 rho) as [sn|]; reflexivity.
Qed.

Definition Tco (o : cr_out XV XU) : cr_out WV WU :=
  @mkcrout KK WV WU (N (go_x o)) (M (go_r o)) (go_istop o) (go_status o) (go_optimal o) (go_itn o) (go_nmv o)
    (go_r1norm o) (go_r2norm o) (go_Arnorm o) (go_xnorm o) (go_norms o) (go_resids o) (go_nresids o) (go_dirs o)
    (map N (go_itp o)) (map M (go_itd o)).

Lemma csolve_sim : forall fuel cnt,
  @cr_solve KK WV WU fuel q kw b cnt = rmap (fun p => (Tco (fst p), snd p)) (@cr_solve KK XV XU fuel cpq ckwp b cnt).
Proof.
  intros fuel cnt. unfold cr_solve. change (c_wantvar ckwp) with (c_wantvar kw).
  destruct (c_wantvar kw); [reflexivity|].
  rewrite cinit_sim. change (cr_lim cpq ckwp) with (cr_lim q kw).
  destruct (@cr_init KK XV XU cpq ckwp b cnt) as [[st0 bn]|]; [|reflexivity]. cbn [rmap rbind fst snd].
  rewrite (while_map Tc (cr_cond (cr_lim q kw)) (cr_cond (cr_lim q kw)) _ (@cr_body KK XV XU cpq ckwp bn (cr_lim q kw))).
  - match goal with |- context[rmap Tc ?w] => destruct w as [st|] end; [|reflexivity]. cbn [rmap rbind].
    change (g_r1 (Tc st)) with (g_r1 st). change (g_rnorm (Tc st)) with (g_rnorm st). change (g_Ar (Tc st)) with (g_Ar st).
    destruct (@pysqrt KK (g_r1 st)); [|reflexivity]. cbn [rbind].
    destruct (@pysqrt KK (g_rnorm st)); [|reflexivity]. cbn [rbind].
    destruct (g_Ar st); reflexivity.
  - intro s. reflexivity.
  - intros s _. apply cbody_sim.
Qed.
End Cr.

(** ** CRAIG-MR *)
Section Cm.
Variable kw : cm_kw WV WU.
Hypothesis HM : h_M kw = oM.
Hypothesis HN : h_N kw = oN.
Definition cmkwp : cm_kw XV XU :=
  @mkcmkw KK XV XU (h_damp kw) (h_atol kw) (h_btol kw) (h_conlim kw) None None (h_itnlim kw) (h_etol kw)
    (h_sres kw) (h_sit kw) (h_window kw) (h_lnorm kw).

Definition Th (s : cm_st XV XU) : cm_st WV WU :=
  @mkcm KK WV WU (M (h_x s)) (h_Mu s) (N (h_v s)) (h_Nv s) (M (h_d s)) (M (h_dbar s))
  (h_alpha s) (h_c s) (h_s s) (h_zhat s) (h_atil s) (h_theta s) (h_nrg2 s) (h_dErr s)
  (h_istop s) (h_itn s) (h_cnt s) (h_brk s) (h_norms s) (h_nresids s) (h_dirs s) (map M (h_iters s)).

Lemma hupd_sim : forall u d dbar x a1 a2 a3 a4 a5,
  @cm_upd KK WU (M u) (M d) (M dbar) (M x) a1 a2 a3 a4 a5 =
  rmap (fun '(dbar, theta, atil, zeta, zhat, d, x) => (M dbar, theta, atil, zeta, zhat, M d, M x))
    (@cm_upd KK XU u d dbar x a1 a2 a3 a4 a5).
Proof.
  intros. unfold cm_upd.
  destruct (@pnorm2 KK a3 a1) as [rho|]; [|reflexivity]. cbn [rbind].
  destruct (@pydiv KK a3 rho) as [f1|]; [|reflexivity]. cbn [rbind].
  destruct (@pydiv KK a1 rho) as [f2|]; [|reflexivity]. cbn [rbind rmap vadd vsub vscale vdivs exactVn].
  change (@iscale F2) with (@iscale E2). change (@iadd F2) with (@iadd E2). change (@isub F2) with (@isub E2).
  rewrite ?(lin_add M LM), ?(lin_sub M LM), ?(lin_scale M LM), ?(lin_add M LM), ?(lin_sub M LM), ?(lin_scale M LM),
    ?(lin_sub M LM), ?(lin_scale M LM).
  reflexivity.
Qed.

Lemma hbody_sim : forall lim (s : cm_st XV XU),
  @cm_body KK WV WU q kw lim (Th s) = rmap Th (@cm_body KK XV XU cpq cmkwp lim s).
Proof.
  intros lim s. unfold cm_body. rewrite HM, HN.
  cbn [Th h_x h_Mu h_v h_Nv h_d h_dbar h_alpha h_c h_s h_zhat h_atil h_theta h_nrg2 h_dErr h_istop h_itn h_cnt h_brk
       h_norms h_nresids h_dirs h_iters].
  change (h_M cmkwp) with (@None (vc XU -> vc XU)). change (h_N cmkwp) with (@None (vc XV -> vc XV)).
  rewrite cbidiag_sim.
  match goal with |- context[rmap _ (@cr_bidiag KK XV XU ?a ?b' ?c ?d ?e ?f ?g ?h)] =>
    destruct (@cr_bidiag KK XV XU a b' c d e f g h) as [[[[[[[Mu' u'] v'] Nv'] al'] be'] cnt']|] end; [|reflexivity].
  cbn [rmap rbind].
  destruct (cr_rot (h_c s) (h_s s) al' be') as [[[[[bh s2] ah] c] sn]|]; [|reflexivity].
  cbn [rbind]. rewrite hupd_sim.
  destruct (@cm_upd KK XU u' (h_d s) (h_dbar s) (h_x s) bh ah (h_atil s) (h_theta s) (h_zhat s)) as [[[[[[[db' th'] at'] ze'] zh'] d'] x']|]; [|reflexivity].
  cbn [rmap rbind].
  change (h_window cmkwp) with (h_window kw). change (h_etol cmkwp) with (h_etol kw). change (h_lnorm cmkwp) with (h_lnorm kw).
  destruct (cr_derr (h_window kw) (h_etol kw) (h_lnorm kw) (h_itn s + 1) ze' (sadd (h_nrg2 s) (smul ze' ze')) (h_dErr s) (h_dirs s) (h_istop s)) as [[[dE di] is]|]; [|reflexivity].
  cbn [rbind rmap]. unfold Th.
  cbn [Th h_x h_Mu h_v h_Nv h_d h_dbar h_alpha h_c h_s h_zhat h_atil h_theta h_nrg2 h_dErr h_istop h_itn h_cnt h_brk
       h_norms h_nresids h_dirs h_iters].
  change (h_sres cmkwp) with (h_sres kw). change (h_sit cmkwp) with (h_sit kw).
  destruct (h_sit kw); [|reflexivity]. rewrite !map_app. reflexivity.
Qed.

Lemma hinit_sim : forall cnt, @cm_init KK WV WU q kw b cnt = rmap Th (@cm_init KK XV XU cpq cmkwp b cnt).
Proof.
  intro cnt. unfold cm_init. cbv zeta. rewrite HM, HN.
  change (h_M cmkwp) with (@None (vc XU -> vc XU)). change (h_N cmkwp) with (@None (vc XV -> vc XV)).
  rewrite ckU.
  match goal with |- context[@gk_norm KK ?W None ?y] => destruct (@gk_norm KK W None y) as [[[Mu' u'] be]|] end;
    [|reflexivity].
  cbn [rmap rbind].
  destruct (sgtb be s0).
  - rewrite ckV. change (lp_At cpq u') with (lp_At q (M u')).
    match goal with |- context[@gk_norm KK ?W None ?y] => destruct (@gk_norm KK W None y) as [[[Nv' v'] al']|] end;
      [|reflexivity].
    cbn [rmap rbind].
    destruct (@pnorm2 KK al' s1) as [rho|]; [|reflexivity]. cbn [rbind].
    destruct (@pydiv KK al' rho) as [c|]; [|reflexivity]. cbn [rbind].
    destruct (@pydiv KK s1 rho) as [sn|]; [|reflexivity]. cbn [rbind rmap fst snd]. unfold Th.
    cbn [h_x h_Mu h_v h_Nv h_d h_dbar h_alpha h_c h_s h_zhat h_atil h_theta h_nrg2 h_dErr h_istop h_itn h_cnt h_brk
       h_norms h_nresids h_dirs h_iters].
    cbn [vzeros vdivs exactVn h_window h_sres h_sit cmkwp lp_m lp_n cpq].
    change (@iscale F2) with (@iscale E2). change (@izero F2) with (@izero E2).
    rewrite ?(lin_scale M LM), ?(lin_zero M LM).
    destruct (h_sit kw); [|reflexivity]. cbn [map]. rewrite ?(lin_zero M LM). reflexivity.
  - cbn [rbind rmap].
    destruct (@pnorm2 KK s0 s1) as [rho|]; [|reflexivity]. cbn [rbind].
    destruct (@pydiv KK s0 rho) as [c|]; [|reflexivity]. cbn [rbind].
    destruct (@pydiv KK s1 rho) as [sn|]; [|reflexivity]. cbn [rbind rmap fst snd]. unfold Th.
    cbn [h_x h_Mu h_v h_Nv h_d h_dbar h_alpha h_c h_s h_zhat h_atil h_theta h_nrg2 h_dErr h_istop h_itn h_cnt h_brk
       h_norms h_nresids h_dirs h_iters].
    cbn [vzeros vdivs exactVn h_window h_sres h_sit cmkwp lp_m lp_n cpq].
    change (@iscale F2) with (@iscale E2). change (@izero F2) with (@izero E2). change (@izero F1) with (@izero E1).
    rewrite ?(lin_scale M LM), ?(lin_zero M LM), ?(lin_zero N LN).
    destruct (h_sit kw); [|reflexivity]. cbn [map]. rewrite ?(lin_zero M LM). reflexivity.
Qed.

Definition Tho (o : cm_out XU) : cm_out WU :=
  @mkcmout KK WU (M (ho_x o)) (ho_istop o) (ho_status o) (ho_optimal o) (ho_itn o) (ho_nmv o) (ho_norms o) (ho_nresids o)
    (ho_dirs o) (map M (ho_iters o)).

Lemma hsolve_sim : forall fuel cnt,
  @cm_solve KK WV WU fuel q kw b cnt = rmap (fun p => (Tho (fst p), snd p)) (@cm_solve KK XV XU fuel cpq cmkwp b cnt).
Proof.
  intros fuel cnt. unfold cm_solve.
  rewrite hinit_sim. change (cm_lim cpq cmkwp) with (cm_lim q kw).
  destruct (@cm_init KK XV XU cpq cmkwp b cnt) as [st0|]; [|reflexivity]. cbn [rmap rbind].
  rewrite (while_map Th (cm_cond (cm_lim q kw)) (cm_cond (cm_lim q kw)) _ (@cm_body KK XV XU cpq cmkwp (cm_lim q kw))).
  - match goal with |- context[rmap Th ?w] => destruct w as [st|] end; reflexivity.
  - intro s. reflexivity.
  - intros s _. apply hbody_sim.
Qed.
End Cm.
End CraigPrecon.
