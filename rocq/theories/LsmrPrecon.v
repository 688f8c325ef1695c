(** * Preconditioned LSMR in exact arithmetic: it is LSMR without preconditioners on [A N] in the
      spaces with the inner products [<N u, v>] and [<M u, v>]. *)
From Coq Require Import List Arith Lia Bool ZArith Reals Lra.
From Verif Require Import Base Num ToolsModel MinresModel LsqrModel LsmrModel LsmrFlow LsmrProof Precon LsqrPrecon.
Import ListNotations.
Local Open Scope R_scope.

Section LsmrPrecon.
Variables (dv : R -> R -> R) (sq : R -> R).
Variables E1 E2 : IPS.
Local Notation KK := (exactK dv sq).
Local Notation WV := (exactV dv sq E1).
Local Notation WU := (exactV dv sq E2).
Variables (q : lprob WV WU) (kw : lm_kw WV WU) (b : iv E2).
Let M : iv E2 -> iv E2 := pre_of (m_M kw).
Let N : iv E1 -> iv E1 := pre_of (m_N kw).
Hypothesis SM : selfadj M.
Hypothesis PM : posdef M.
Hypothesis SN : selfadj N.
Hypothesis PN : posdef N.
Let LN : lin N := adjoint_lin N N SN.
Local Notation F1 := (pspace E1 N SN PN).
Local Notation F2 := (pspace E2 M SM PM).
(** [norm(x)] is the norm of [x = N x']. *)
Let nv1 (z : iv F1) : R := @inorm E1 (N z).
Local Notation XV := (exactVn dv sq F1 nv1).
Local Notation XU := (exactVn dv sq F2 (@inorm F2)).

Definition mpq : lprob XV XU :=
  @mklprob KK XV XU (lp_m q) (lp_n q) ((fun z => lp_A q (N z)) : vc XV -> vc XU) ((fun y => lp_At q (M y)) : vc XU -> vc XV).
Definition mpkw : lm_kw XV XU :=
  @mklmkw KK XV XU (m_damp kw) (m_atol kw) (m_btol kw) (m_conlim kw) None None (m_itnlim kw) (m_etol kw) (m_sres kw)
    (m_sit kw) (m_window kw) (m_lnorm kw).

Definition Tm (s : lm_st XV XU) : lm_st WV WU :=
  @mklm KK WV WU (N (t_x s)) (t_Mu s) (N (t_v s)) (t_Nv s) (N (t_h s)) (N (t_hbar s))
  (t_alpha s) (t_beta s) (t_alphabar s) (t_rho s) (t_rhobar s) (t_cbar s) (t_sbar s)
  (t_zetabar s) (t_zeta s) (t_betadd s) (t_betad s) (t_rhodold s) (t_tautil s) (t_thetil s) (t_d s)
  (t_normA2 s) (t_normA s) (t_maxrbar s) (t_minrbar s) (t_condA s)
  (t_normr s) (t_normar s) (t_normx s) (t_nrg2 s) (t_dErr s)
  (t_istop s) (t_itn s) (t_cnt s) (t_brk s) (t_resids s) (t_nresids s) (t_norms s) (t_dirs s) (map N (t_iters s)).

Lemma mkU : forall y : iv E2, @gk_norm KK WU (m_M kw) y =
  rmap (fun '(y', u', b) => (y', M u', b)) (@gk_norm KK XU None y).
Proof. exact (gk_sim dv sq E2 inorm (@inorm F2) (m_M kw) SM PM). Qed.
Lemma mkV : forall y : iv E1, @gk_norm KK WV (m_N kw) y =
  rmap (fun '(y', u', b) => (y', N u', b)) (@gk_norm KK XV None y).
Proof. exact (gk_sim dv sq E1 inorm nv1 (m_N kw) SN PN). Qed.

Lemma mbidiag_sim : forall Mu v Nv al cnt,
  @lm_bidiag KK WV WU q kw Mu (N v) Nv al cnt =
  rmap (fun '(Mu, v, Nv, alpha, beta, cnt) => (Mu, N v, Nv, alpha, beta, cnt))
    (@lm_bidiag KK XV XU mpq mpkw Mu v Nv al cnt).
Proof.
  intros. unfold lm_bidiag.
  rewrite mkU.
  change (m_M mpkw) with (@None (vc XU -> vc XU)). change (m_N mpkw) with (@None (vc XV -> vc XV)).
  change (@vsub KK XU (lp_A mpq v) (@vscale KK XU al Mu)) with (@vsub KK WU (lp_A q (N v)) (@vscale KK WU al Mu)).
  match goal with |- context[@gk_norm KK ?W None ?y] => destruct (@gk_norm KK W None y) as [[[Mu' u'] be]|] end;
    [|reflexivity].
  cbn [rmap rbind].
  destruct (sgtb be s0); [|reflexivity]. destruct Nv as [Nv|]; [|reflexivity].
  rewrite mkV.
  change (@vsub KK XV (lp_At mpq u') (@vscale KK XV be Nv)) with (@vsub KK WV (lp_At q (M u')) (@vscale KK WV be Nv)).
  match goal with |- context[@gk_norm KK ?W None ?y] => destruct (@gk_norm KK W None y) as [[[Nv' v'] al']|] end;
    reflexivity.
Qed.

Lemma mupx_sim : forall x h hbar v a1 a2 a3 a4 a5 a6 a7,
  @lm_upx KK WV (N x) (N h) (N hbar) (N v) a1 a2 a3 a4 a5 a6 a7 =
  rmap (fun '(x, h, hbar) => (N x, N h, N hbar)) (@lm_upx KK XV x h hbar v a1 a2 a3 a4 a5 a6 a7).
Proof.
  intros. unfold lm_upx.
  destruct (pydiv (smul a1 a2) (smul a3 a4)) as [f1|]; [|reflexivity]. cbn [rbind].
  destruct (pydiv a5 (smul a2 a6)) as [f2|]; [|reflexivity]. cbn [rbind].
  destruct (pydiv a7 a2) as [f3|]; [|reflexivity]. cbn [rbind rmap vadd vsub vscale exactVn].
  change (@iscale F1) with (@iscale E1). change (@iadd F1) with (@iadd E1). change (@isub F1) with (@isub E1).
  rewrite !(lin_add N LN), !(lin_sub N LN), !(lin_scale N LN), !(lin_sub N LN), !(lin_scale N LN). reflexivity.
Qed.

Lemma mbody_sim : forall bn lim (s : lm_st XV XU),
  @lm_body KK WV WU q kw bn lim (Tm s) = rmap Tm (@lm_body KK XV XU mpq mpkw bn lim s).
Proof.
  intros bn lim s. unfold lm_body.
  cbn [Tm t_x t_Mu t_v t_Nv t_h t_hbar t_alpha t_beta t_alphabar t_rho t_rhobar t_cbar t_sbar t_zetabar t_zeta t_betadd t_betad
       t_rhodold t_tautil t_thetil t_d t_normA2 t_normA t_maxrbar t_minrbar t_condA t_normr t_normar t_normx t_nrg2 t_dErr t_istop
       t_itn t_cnt t_brk t_resids t_nresids t_norms t_dirs t_iters].
  rewrite mbidiag_sim.
  match goal with |- context[rmap _ (@lm_bidiag KK XV XU ?a ?b' ?c ?d ?e ?f ?g)] =>
    destruct (@lm_bidiag KK XV XU a b' c d e f g) as [[[[[[Mu' v'] Nv'] al'] be'] cnt']|] end; [|reflexivity].
  cbn [rmap rbind]. change (m_damp mpkw) with (m_damp kw).
  destruct (lm_rot1 (m_damp kw) (t_alphabar s) al' be') as [[[[[[[chat shat] c] sn] rho] th] ab]|]; [|reflexivity].
  cbn [rbind]. 
  destruct (lm_rot2 (t_cbar s) (t_sbar s) rho th (t_zetabar s)) as [[[[[[[tb rt] cb] sb] rb] ze] zb]|]; [|reflexivity].
  cbn [rbind]. rewrite mupx_sim.
  destruct (@lm_upx KK XV (t_x s) (t_h s) (t_hbar s) v' tb rho (t_rho s) (t_rhobar s) ze rb th) as [[[x' h'] hb']|]; [|reflexivity].
  cbn [rmap rbind].
  change (@lm_derr KK XV XU mpkw) with (@lm_derr KK WV WU kw).
  change (@lm_tests KK XV XU mpkw) with (@lm_tests KK WV WU kw).
  destruct (@lm_derr KK WV WU kw (t_itn s + 1) ze (t_nrg2 s) (t_dErr s) (t_dirs s) (t_istop s)) as [[[[n2 dE] di] is]|]; [|reflexivity].
  cbn [rbind].
  destruct (lm_nr chat shat c sn tb rb (t_zeta s) ze (t_betadd s) (t_betad s) (t_rhodold s) (t_tautil s) (t_thetil s) (t_d s))
    as [[[[[[[bdd tt'] ro] bd] ta] dd] nr]|]; [|reflexivity].
  cbn [rbind].
  destruct (lm_na (t_itn s + 1) (t_normA2 s) al' be' (t_maxrbar s) (t_minrbar s) (t_rhobar s) rt) as [[[[[nA2 nA] mx] mn] cA]|]; [|reflexivity].
  cbn [rbind].
  change (@vnorm KK XV x') with (@vnorm KK WV (N x')).
  destruct (@lm_tests KK WV WU kw (lim <=? Z.of_nat (t_itn s + 1))%Z is bn nA cA nr (sabs zb) (@vnorm KK WV (N x'))) as [i'|]; [|reflexivity].
  cbn [rbind rmap]. unfold Tm.
  cbn [Tm t_x t_Mu t_v t_Nv t_h t_hbar t_alpha t_beta t_alphabar t_rho t_rhobar t_cbar t_sbar t_zetabar t_zeta t_betadd t_betad
       t_rhodold t_tautil t_thetil t_d t_normA2 t_normA t_maxrbar t_minrbar t_condA t_normr t_normar t_normx t_nrg2 t_dErr t_istop
       t_itn t_cnt t_brk t_resids t_nresids t_norms t_dirs t_iters].
  change (m_sres mpkw) with (m_sres kw). change (m_sit mpkw) with (m_sit kw).
  destruct (m_sit kw); [|reflexivity]. rewrite map_app. reflexivity.
Qed.

Lemma minit_sim : forall cnt, @lm_init KK WV WU q kw b cnt = rmap Tm (@lm_init KK XV XU mpq mpkw b cnt).
Proof.
  intro cnt. unfold lm_init. cbv zeta.
  rewrite mkU.
  change (m_M mpkw) with (@None (vc XU -> vc XU)). change (m_N mpkw) with (@None (vc XV -> vc XV)).
  match goal with |- context[@gk_norm KK ?W None ?y] => destruct (@gk_norm KK W None y) as [[[Mu' u'] be]|] end;
    [|reflexivity].
  cbn [rmap rbind].
  destruct (sgtb be s0).
  - rewrite mkV. change (lp_At mpq u') with (lp_At q (M u')).
    match goal with |- context[@gk_norm KK ?W None ?y] => destruct (@gk_norm KK W None y) as [[[Nv' v'] al']|] end;
      [|reflexivity].
    cbn [rmap rbind]. destruct (@pysqrt KK (smul al' al')) as [nA|]; [|reflexivity]. cbn [rmap rbind]. unfold Tm.
    cbn [Tm t_x t_Mu t_v t_Nv t_h t_hbar t_alpha t_beta t_alphabar t_rho t_rhobar t_cbar t_sbar t_zetabar t_zeta t_betadd t_betad
       t_rhodold t_tautil t_thetil t_d t_normA2 t_normA t_maxrbar t_minrbar t_condA t_normr t_normar t_normx t_nrg2 t_dErr t_istop
       t_itn t_cnt t_brk t_resids t_nresids t_norms t_dirs t_iters].
    cbn [vzeros exactVn lp_n mpq m_window m_sres m_sit mpkw]. change (@izero F1) with (@izero E1).
    rewrite !(lin_zero N LN).
    destruct (m_sit kw); [cbn [map]; rewrite !(lin_zero N LN)|]; reflexivity.
  - cbn [rmap rbind]. destruct (@pysqrt KK (smul s0 s0)) as [nA|]; [|reflexivity]. cbn [rmap rbind]. unfold Tm.
    cbn [Tm t_x t_Mu t_v t_Nv t_h t_hbar t_alpha t_beta t_alphabar t_rho t_rhobar t_cbar t_sbar t_zetabar t_zeta t_betadd t_betad
       t_rhodold t_tautil t_thetil t_d t_normA2 t_normA t_maxrbar t_minrbar t_condA t_normr t_normar t_normx t_nrg2 t_dErr t_istop
       t_itn t_cnt t_brk t_resids t_nresids t_norms t_dirs t_iters].
    cbn [vzeros exactVn lp_n mpq m_window m_sres m_sit mpkw]. change (@izero F1) with (@izero E1).
    rewrite !(lin_zero N LN).
    destruct (m_sit kw); [cbn [map]; rewrite !(lin_zero N LN)|]; reflexivity.
Qed.

Definition Tmr (r : lm_ret XV) : lm_ret WV :=
  @mklmret KK WV (N (r_x r)) (r_istop r) (r_itn r) (r_normr r) (r_normar r) (r_normA r) (r_condA r) (r_normx r).
(** The attributes: [x] is the solver's own only if the loop was reached. *)
Definition Tmo (ob : lm_obj WV) (o : lm_obj XV) (fresh : bool) : lm_obj WV :=
  @mklmobj KK WV (if fresh then option_map N (a_x o) else a_x ob) (a_itn o) (a_istop o) (a_Anorm o) (a_Acond o) (a_Arnorm o)
    (a_xnorm o) (a_r1norm o) (a_r2norm o) (a_optimal o) (a_nMatvec o) (a_converged o) (a_resids o) (a_nresids o) (a_norms o)
    (a_dirs o) (map N (a_iters o)).
(** The same attributes in the other space. *)
Definition oob (ob : lm_obj WV) : lm_obj XV :=
  @mklmobj KK XV None (a_itn ob) (a_istop ob) (a_Anorm ob) (a_Acond ob) (a_Arnorm ob)
    (a_xnorm ob) (a_r1norm ob) (a_r2norm ob) (a_optimal ob) (a_nMatvec ob) (a_converged ob) [] [] [] [] [].

Lemma msolve_sim : forall fuel ob cnt,
  @lm_solve KK WV WU fuel q kw ob b cnt =
  rmap (fun '(r, o, c) => (Tmr r, Tmo ob o (match a_x o with Some _ => true | None => false end), c))
    (@lm_solve KK XV XU fuel mpq mpkw (oob ob) b cnt).
Proof.
  intros fuel ob cnt. unfold lm_solve.
  rewrite minit_sim. change (lm_lim mpq mpkw) with (lm_lim q kw).
  destruct (@lm_init KK XV XU mpq mpkw b cnt) as [st0|]; [|reflexivity]. cbn [rmap rbind].
  change (t_beta (Tm st0)) with (t_beta st0). change (t_normar (Tm st0)) with (t_normar st0).
  rewrite (while_map Tm (lm_cond (lm_lim q kw)) (lm_cond (lm_lim q kw)) _ (@lm_body KK XV XU mpq mpkw (t_beta st0) (lm_lim q kw))).
  - match goal with |- context[rmap Tm ?w] => destruct w end; [|reflexivity]. cbn [rmap rbind].
    destruct (seqb (t_normar st0) s0); reflexivity.
  - intro s. reflexivity.
  - intros s _. apply mbody_sim.
Qed.
End LsmrPrecon.
