(** * Preconditioned LSQR in exact arithmetic: it is LSQR without preconditioners on [A N] in the
      spaces with the inner products [<N u, v>] and [<M u, v>]. *)
From Coq Require Import List Arith Lia Bool ZArith Reals Lra.
From Verif Require Import Base Num ToolsModel MinresModel LsqrModel LsqrFlow LsqrProof Precon.
Import ListNotations.
Local Open Scope R_scope.

(** The normalisation step. *)
Lemma gk_sim : forall dv sq (E : IPS) (nv nv' : iv E -> R) (P : option (iv E -> iv E))
  (SP : selfadj (pre_of P)) (PD : posdef (pre_of P)) (y : iv E),
  @gk_norm (exactK dv sq) (exactVn dv sq E nv) P y =
  rmap (fun '(y', u', b) => (y', pre_of P u', b))
    (@gk_norm (exactK dv sq) (exactVn dv sq (pspace E (pre_of P) SP PD) nv') None y).
Proof.
  intros dv sq E nv nv' P SP PD y. set (K := exactK dv sq).
  transitivity (rbind (@pysqrt K (ip (pre_of P y) y)) (fun be =>
    if @sgtb K be s0 then Ok (iscale (dv 1 be) y, iscale (dv 1 be) (pre_of P y), be) else Ok (y, pre_of P y, be))).
  { destruct P; reflexivity. }
  transitivity (rmap (fun '(y', u', b) => (y', pre_of P u', b)) (rbind (@pysqrt K (ip (pre_of P y) y)) (fun be =>
    if @sgtb K be s0 then Ok (iscale (dv 1 be) y, iscale (dv 1 be) y, be) else Ok (y, y, be)))); [|reflexivity].
  destruct (@pysqrt K (ip (pre_of P y) y)) as [be|e]; [|reflexivity]. cbn [rbind].
  destruct (sgtb be s0); cbn [rmap]; [|reflexivity].
  rewrite (lin_scale _ (adjoint_lin _ _ SP)). reflexivity.
Qed.

Section LsqrPrecon.
Variables (dv : R -> R -> R) (sq : R -> R).
Variables E1 E2 : IPS.
Local Notation KK := (exactK dv sq).
Local Notation WV := (exactV dv sq E1).
Local Notation WU := (exactV dv sq E2).
Variables (q : lprob WV WU) (kw : ls_kw WV WU) (b : iv E2).
Let M : iv E2 -> iv E2 := pre_of (l_M kw).
Let N : iv E1 -> iv E1 := pre_of (l_N kw).
Hypothesis SM : selfadj M.
Hypothesis PM : posdef M.
Hypothesis SN : selfadj N.
Hypothesis PN : posdef N.
Let LN : lin N := adjoint_lin N N SN.
Local Notation F1 := (pspace E1 N SN PN).
Local Notation F2 := (pspace E2 M SM PM).
(** [norm(dk)] is the norm of [dk = N dk']. *)
Let nv1 (z : iv F1) : R := @inorm E1 (N z).
Local Notation XV := (exactVn dv sq F1 nv1).
Local Notation XU := (exactVn dv sq F2 (@inorm F2)).

Definition lpq : lprob XV XU :=
  @mklprob KK XV XU (lp_m q) (lp_n q) ((fun z => lp_A q (N z)) : vc XV -> vc XU) ((fun y => lp_At q (M y)) : vc XU -> vc XV).
Definition lpkw : ls_kw XV XU :=
  @mklskw KK XV XU (l_itnlim kw) (l_damp kw) None None (l_atol kw) (l_btol kw) (l_conlim kw) (l_wantvar kw) (l_etol kw)
    (l_sres kw) (l_sit kw) (l_window kw) (l_lnorm kw) (l_infle kw).

Definition Tl (s : ls_st XV XU) : ls_st WV WU :=
  @mkls KK WV WU (N (s_x s)) (s_Mu s) (M (s_u s)) (option_map (fun p => (N (fst p), snd p)) (s_vN s))
    (option_map N (s_w s)) (s_alpha s) (s_beta s) (s_rhobar s) (s_phibar s) (s_Anorm s) (s_Acond s) (s_ddnorm s)
    (s_z s) (s_xnorm s) (s_xxnorm s) (s_res2 s) (s_cs2 s) (s_sn2 s) (s_Arnorm s) (s_r1norm s) (s_r2norm s) (s_nrg2 s)
    (s_dErr s) (s_istop s) (s_itn s) (s_cnt s) (s_brk s) (s_resids s) (s_nresids s) (s_dirs s) (map N (s_iters s)).

Lemma gkU : forall y : iv E2, @gk_norm KK WU (l_M kw) y =
  rmap (fun '(y', u', b) => (y', M u', b)) (@gk_norm KK XU None y).
Proof. exact (gk_sim dv sq E2 inorm (@inorm F2) (l_M kw) SM PM). Qed.
Lemma gkV : forall y : iv E1, @gk_norm KK WV (l_N kw) y =
  rmap (fun '(y', u', b) => (y', N u', b)) (@gk_norm KK XV None y).
Proof. exact (gk_sim dv sq E1 inorm nv1 (l_N kw) SN PN). Qed.

Lemma bidiag_sim : forall Mu u v Nv al An cnt u0,
  @ls_bidiag KK WV WU q kw Mu u0 (N v) Nv al An cnt =
  rmap (fun '(Mu, u, v, Nv, alpha, beta, Anorm, cnt) => (Mu, M u, N v, Nv, alpha, beta, Anorm, cnt))
    (@ls_bidiag KK XV XU lpq lpkw Mu u v Nv al An cnt).
Proof.
  intros. unfold ls_bidiag.
  rewrite gkU.
  change (l_M lpkw) with (@None (vc XU -> vc XU)). change (l_N lpkw) with (@None (vc XV -> vc XV)).
  change (@vsub KK XU (lp_A lpq v) (@vscale KK XU al Mu)) with (@vsub KK WU (lp_A q (N v)) (@vscale KK WU al Mu)).
  match goal with |- context[@gk_norm KK ?W None ?y] => destruct (@gk_norm KK W None y) as [[[Mu' u'] be]|] end;
    [|reflexivity].
  cbn [rmap rbind]. change (l_damp lpkw) with (l_damp kw).
  destruct (sgtb be s0); [|reflexivity].
  destruct (pnorm4 An al be (l_damp kw)) as [An'|]; [|reflexivity]. cbn [rbind].
  rewrite gkV.
  change (@vsub KK XV (lp_At lpq u') (@vscale KK XV be Nv)) with (@vsub KK WV (lp_At q (M u')) (@vscale KK WV be Nv)).
  match goal with |- context[@gk_norm KK ?W None ?y] => destruct (@gk_norm KK W None y) as [[[Nv' v'] al']|] end;
    reflexivity.
Qed.

Lemma upx_sim : forall x w v phi rho theta,
  @ls_upx KK WV (N x) (N w) (N v) phi rho theta =
  rmap (fun '(x, w, dk) => (N x, N w, dk)) (@ls_upx KK XV x w v phi rho theta).
Proof.
  intros. unfold ls_upx.
  destruct (pydiv phi rho) as [t1|]; [|reflexivity]. destruct (pydiv (sneg theta) rho) as [t2|]; [|reflexivity].
  destruct (pydiv s1 rho) as [i|]; [|reflexivity]. cbn [rbind rmap vadd vscale vnorm exactVn].
  change (@iscale F1) with (@iscale E1). change (@iadd F1) with (@iadd E1). unfold nv1.
  rewrite !(lin_add N LN), !(lin_scale N LN). reflexivity.
Qed.

Lemma lbody_sim : forall bn lim (s : ls_st XV XU),
  @ls_body KK WV WU q kw bn lim (Tl s) = rmap Tl (@ls_body KK XV XU lpq lpkw bn lim s).
Proof.
  intros bn lim s. unfold ls_body. cbn [s_vN s_w s_Mu s_u s_alpha s_Anorm s_cnt s_itn Tl].
  destruct (s_vN s) as [[v Nv]|]; [|reflexivity]. cbn [option_map fst snd].
  rewrite (bidiag_sim (s_Mu s) (s_u s)).
  match goal with |- context[rmap _ (@ls_bidiag KK XV XU ?a ?b' ?c ?d ?e ?f ?g ?h ?i)] =>
    destruct (@ls_bidiag KK XV XU a b' c d e f g h i) as [[[[[[[[Mu' u'] v'] Nv'] al'] be'] An'] cnt']|] end; [|reflexivity].
  cbn [rmap rbind s_rhobar s_phibar Tl]. change (l_damp lpkw) with (l_damp kw).
  destruct (ls_rot (l_damp kw) (s_rhobar s) (s_phibar s) al' be') as [[[[[[[psi rho] th] rb] phi] pb] tau]|]; [|reflexivity].
  cbn [rbind]. destruct (s_w s) as [w|]; cbn [option_map].
  2:{ destruct (pydiv phi rho); [|reflexivity]. destruct (pydiv (sneg th) rho); [|reflexivity].
      destruct (pydiv s1 rho); reflexivity. }
  cbn [s_x Tl]. rewrite upx_sim.
  destruct (@ls_upx KK XV (s_x s) w v' phi rho th) as [[[x' w'] dk]|]; [|reflexivity].
  cbn [rmap rbind s_nrg2 s_dErr s_dirs s_istop s_ddnorm s_cs2 s_sn2 s_z s_xxnorm s_res2 Tl].
  change (@ls_derr KK XV XU lpkw) with (@ls_derr KK WV WU kw).
  change (@ls_tests KK XV XU lpkw) with (@ls_tests KK WV WU kw).
  destruct (@ls_derr KK WV WU kw (s_itn s + 1) phi (s_nrg2 s) (s_dErr s) (s_dirs s) (s_istop s)) as [[[[n2 dE] di] is]|]; [|reflexivity].
  cbn [rbind].
  destruct (ls_xn (s_cs2 s) (s_sn2 s) (s_z s) (s_xxnorm s) rho th phi) as [[[[[xn c2] sn2] z] xx]|]; [|reflexivity].
  cbn [rbind].
  destruct (ls_norms (l_damp kw) An' (sadd (s_ddnorm s) (smul dk dk)) pb psi (s_res2 s) al' tau xx) as [[[[[Ac r2] rn] Ar] r1]|]; [|reflexivity].
  cbn [rbind].
  destruct (@ls_tests KK WV WU kw (lim <=? Z.of_nat (s_itn s + 1))%Z is bn An' Ac rn Ar xn) as [i'|]; [|reflexivity].
  cbn [rbind rmap]. unfold Tl.
  cbn [s_x s_Mu s_u s_vN s_w s_alpha s_beta s_rhobar s_phibar s_Anorm s_Acond s_ddnorm s_z s_xnorm s_xxnorm s_res2 s_cs2 s_sn2
       s_Arnorm s_r1norm s_r2norm s_nrg2 s_dErr s_istop s_itn s_cnt s_brk s_resids s_nresids s_dirs s_iters option_map fst snd].
  change (l_sres lpkw) with (l_sres kw). change (l_sit lpkw) with (l_sit kw).
  destruct (l_sit kw); [|reflexivity]. rewrite map_app. reflexivity.
Qed.

Lemma linit_sim : forall cnt, @ls_init KK WV WU q kw b cnt = rmap Tl (@ls_init KK XV XU lpq lpkw b cnt).
Proof.
  intro cnt. unfold ls_init. cbv zeta.
  rewrite gkU.
  change (l_M lpkw) with (@None (vc XU -> vc XU)). change (l_N lpkw) with (@None (vc XV -> vc XV)).
  match goal with |- context[@gk_norm KK ?W None ?y] => destruct (@gk_norm KK W None y) as [[[Mu' u'] be]|] end;
    [|reflexivity].
  cbn [rmap rbind].
  destruct (sgtb be s0).
  - rewrite gkV. change (lp_At lpq u') with (lp_At q (M u')).
    match goal with |- context[@gk_norm KK ?W None ?y] => destruct (@gk_norm KK W None y) as [[[Nv' v'] al']|] end;
      [|reflexivity].
    cbn [rmap rbind]. unfold Tl.
    cbn [s_x s_Mu s_u s_vN s_w s_alpha s_beta s_rhobar s_phibar s_Anorm s_Acond s_ddnorm s_z s_xnorm s_xxnorm s_res2 s_cs2 s_sn2
         s_Arnorm s_r1norm s_r2norm s_nrg2 s_dErr s_istop s_itn s_cnt s_brk s_resids s_nresids s_dirs s_iters option_map fst snd].
    cbn [vzeros exactVn lp_n lpq l_window l_sres l_sit lpkw]. change (@izero F1) with (@izero E1).
    rewrite !(lin_zero N LN).
    destruct (sgtb al' s0); (destruct (l_sit kw); [cbn [map]; rewrite !(lin_zero N LN)|]); reflexivity.
  - cbn [rmap rbind]. unfold Tl.
    cbn [s_x s_Mu s_u s_vN s_w s_alpha s_beta s_rhobar s_phibar s_Anorm s_Acond s_ddnorm s_z s_xnorm s_xxnorm s_res2 s_cs2 s_sn2
         s_Arnorm s_r1norm s_r2norm s_nrg2 s_dErr s_istop s_itn s_cnt s_brk s_resids s_nresids s_dirs s_iters option_map fst snd].
    cbn [vzeros exactVn lp_n lpq l_window l_sres l_sit lpkw]. change (@izero F1) with (@izero E1).
    rewrite !(lin_zero N LN).
    destruct (sgtb s0 s0); (destruct (l_sit kw); [cbn [map]; rewrite !(lin_zero N LN)|]); reflexivity.
Qed.

Definition Tlo (o : ls_out XV) : ls_out WV :=
  @mklsout KK WV (N (o_x o)) (o_istop o) (o_status o) (o_optimal o) (o_itn o) (o_nmv o) (o_r1norm o) (o_r2norm o)
    (o_Anorm o) (o_Acond o) (o_Arnorm o) (o_xnorm o) (o_resids o) (o_nresids o) (o_dirs o) (map N (o_iters o)).

Lemma lsolve_sim : forall fuel cnt,
  @ls_solve KK WV WU fuel q kw b cnt = rmap (fun p => (Tlo (fst p), snd p)) (@ls_solve KK XV XU fuel lpq lpkw b cnt).
Proof.
  intros fuel cnt. unfold ls_solve. change (l_wantvar lpkw) with (l_wantvar kw).
  destruct (l_wantvar kw); [reflexivity|].
  rewrite linit_sim. change (ls_lim lpq lpkw) with (ls_lim q kw).
  destruct (@ls_init KK XV XU lpq lpkw b cnt) as [st0|]; [|reflexivity]. cbn [rmap rbind].
  change (s_beta (Tl st0)) with (s_beta st0).
  rewrite (while_map Tl (ls_cond (ls_lim q kw)) (ls_cond (ls_lim q kw)) _ (@ls_body KK XV XU lpq lpkw (s_beta st0) (ls_lim q kw))).
  - match goal with |- context[rmap Tl ?w] => destruct w end; reflexivity.
  - intro s. reflexivity.
  - intros s _. apply lbody_sim.
Qed.
End LsqrPrecon.
