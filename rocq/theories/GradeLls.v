(** * Scaling the right-hand side of the least-squares solvers and of MINRES (see Grade.v). *)
From Coq Require Import List ZArith QArith Bool Lia.
From Verif Require Import Base Num ToolsModel CgModel MinresModel LsqrModel LsmrModel CraigModel Grade.
Import ListNotations.
Local Open Scope Z_scope.

Section Lls.
Context {K : Scal} (G : grade K) {WV WU : Vs K} (HV : vgrade G WV) (HU : vgrade G WU).
Notation m := (gm G).
Notation w := (vm HV).
Notation wu := (vm HU).

(** The norm of the right-hand side that the methods compute first, in the norm of [M]. *)
Definition norm_M {W : Vs K} (P : option (vc W -> vc W)) (y : vc W) : sc K :=
  ssqrt (vdot (match P with Some P => P y | None => y end) y).
Lemma gk_up : forall {W : Vs K} (H : vgrade G W) P y, ohomog H P -> sgtb (norm_M P y) s0 = true ->
  gk_norm P (vm H 1 y) = rmap (fun p => (fst p, m 1 (snd p))) (gk_norm P y) /\
  forall Mu u beta, gk_norm P y = Ok (Mu, u, beta) -> sgtb beta s0 = true.
Proof.
  intros W H P y HP B. unfold gk_norm, norm_M in *.
  assert (E : match P with Some P => P (vm H 1 y) | None => vm H 1 y end = vm H 1 (match P with Some P => P y | None => y end))
    by (destruct P as [P|]; [apply (HP P eq_refl)|reflexivity]).
  rewrite E. set (py := match P with Some P => P y | None => y end) in *. unfold sgtb, pysqrt in *. gms.
  destruct (sltb (vdot py y) s0); cbn [rbind rmap]; [split; [reflexivity|discriminate]|]. gms. rewrite B. cbn. gms.
  split; [reflexivity|]. intros Mu u beta X. injection X as _ _ <-. exact B.
Qed.
Lemma lset_up : forall l i v, lset (map (m 1) l) i (m 1 v) = map (m 1) (lset l i v).
Proof. induction l as [|a l IH]; intros [|i] v; cbn; rewrite ?IH; reflexivity. Qed.
Lemma repeat_up : forall k n, map (m k) (repeat s0 n) = repeat s0 n.
Proof. intros k n. induction n as [|n IH]; cbn; [reflexivity|]. rewrite IH, gm_s0. reflexivity. Qed.
(** [numpy.linalg.norm] on the window of error terms. *)
Definition nhomog (nrm : list (sc K) -> sc K) : Prop := forall l, nrm (map (m 1) l) = m 1 (nrm l).

Ltac step := repeat (cbn [rbind rmap]; first [gm1 | match goal with |- context [if ?c then _ else _] => clean c; destruct c end]); cbn [rbind rmap].

(** ** LSQR *)
Section Lsqr.
Context (q : lprob WV WU) (kw : ls_kw WV WU) (HN : nhomog (l_lnorm kw)) (HM : ohomog HU (l_M kw)).

Definition ls_up (k : Z) (st : ls_st WV WU) : ls_st WV WU :=
  mkls (w 1 (s_x st)) (s_Mu st) (s_u st) (s_vN st) (s_w st) (s_alpha st) (m k (s_beta st)) (s_rhobar st)
    (m 1 (s_phibar st)) (s_Anorm st) (s_Acond st) (s_ddnorm st) (m 1 (s_z st)) (m 1 (s_xnorm st)) (m 2 (s_xxnorm st))
    (m 2 (s_res2 st)) (s_cs2 st) (s_sn2 st) (m 1 (s_Arnorm st)) (m 1 (s_r1norm st)) (m 1 (s_r2norm st))
    (m 2 (s_nrg2 st)) (map (m 1) (s_dErr st)) (s_istop st) (s_itn st) (s_cnt st) (s_brk st)
    (map (m 1) (s_resids st)) (map (m 1) (s_nresids st)) (s_dirs st) (map (w 1) (s_iters st)).

Lemma ls_rot_up : forall damp rhobar phibar alpha beta,
  ls_rot damp rhobar (m 1 phibar) alpha beta =
  rmap (fun '(psi, rho, theta, rhobar, phi, phibar, tau) => (m 1 psi, rho, theta, rhobar, m 1 phi, m 1 phibar, m 1 tau))
    (ls_rot damp rhobar phibar alpha beta).
Proof. intros. unfold ls_rot, pnorm2, pydiv, pysqrt. step; reflexivity. Qed.
Lemma ls_upx_up : forall x ww v phi rho theta,
  ls_upx (w 1 x) ww v (m 1 phi) rho theta = rmap (fun '(x, ww, dk) => (w 1 x, ww, dk)) (ls_upx x ww v phi rho theta).
Proof. intros. unfold ls_upx, pydiv. step; try reflexivity. rewrite (vm_scalel G HV). gms. reflexivity. Qed.
Lemma ls_derr_up : forall itn phi nrg2 dErr dirs istop,
  ls_derr kw itn (m 1 phi) (m 2 nrg2) (map (m 1) dErr) dirs istop =
  rmap (fun '(nrg2, dErr, dirs, istop) => (m 2 nrg2, map (m 1) dErr, dirs, istop)) (ls_derr kw itn phi nrg2 dErr dirs istop).
Proof. intros. unfold ls_derr, pysqrt. rewrite lset_up, HN. step; reflexivity. Qed.
Lemma ls_xn_up : forall cs2 sn2 z xx rho theta phi,
  ls_xn cs2 sn2 (m 1 z) (m 2 xx) rho theta (m 1 phi) =
  rmap (fun '(xn, cs2, sn2, z, xx) => (m 1 xn, cs2, sn2, m 1 z, m 2 xx)) (ls_xn cs2 sn2 z xx rho theta phi).
Proof. intros. unfold ls_xn, pnorm2, pydiv, pysqrt. step; reflexivity. Qed.
Lemma ls_norms_up : forall damp An dd phibar psi res2 alpha tau xx,
  ls_norms damp An dd (m 1 phibar) (m 1 psi) (m 2 res2) alpha (m 1 tau) (m 2 xx) =
  rmap (fun '(Ac, r2, rn, Ar, r1) => (Ac, m 2 r2, m 1 rn, m 1 Ar, m 1 r1)) (ls_norms damp An dd phibar psi res2 alpha tau xx).
Proof. intros. unfold ls_norms, pysqrt. step; reflexivity. Qed.
Lemma ls_tests_up : forall late istop bn An Ac rn Ar xn,
  ls_tests kw late istop (m 1 bn) An Ac (m 1 rn) (m 1 Ar) (m 1 xn) = ls_tests kw late istop bn An Ac rn Ar xn.
Proof. intros. unfold ls_tests, pydiv. step; try reflexivity. Qed.

Lemma ls_body_up : forall k bn lim st,
  ls_body q kw (m 1 bn) lim (ls_up k st) = rmap (ls_up 0) (ls_body q kw bn lim st).
Proof.
  intros k bn lim st. unfold ls_body. cbn [ls_up s_x s_Mu s_u s_vN s_w s_alpha s_beta s_rhobar s_phibar s_Anorm s_Acond
    s_ddnorm s_z s_xnorm s_xxnorm s_res2 s_cs2 s_sn2 s_Arnorm s_r1norm s_r2norm s_nrg2 s_dErr s_istop s_itn s_cnt s_brk
    s_resids s_nresids s_dirs s_iters].
  destruct (s_vN st) as [[v Nv]|]; [|reflexivity].
  destruct (ls_bidiag q kw _ _ _ _ _ _ _) as [[[[[[[[Mu u] v'] Nv'] alpha] beta] Anorm] cnt]|e]; [|reflexivity]. cbn [rbind].
  rewrite ls_rot_up. destruct (ls_rot _ _ _ _ _) as [[[[[[[psi rho] theta] rhobar] phi] phibar] tau]|e]; [|reflexivity]. cbn [rbind rmap].
  destruct (s_w st) as [ww|].
  2:{ unfold pydiv. step; reflexivity. }
  rewrite ls_upx_up. destruct (ls_upx _ _ _ _ _ _) as [[[x w'] dk]|e]; [|reflexivity]. cbn [rbind rmap].
  rewrite ls_derr_up. destruct (ls_derr _ _ _ _ _ _ _) as [[[[nrg2 dErr] dirs] istop]|e]; [|reflexivity]. cbn [rbind rmap].
  rewrite ls_xn_up. destruct (ls_xn _ _ _ _ _ _ _) as [[[[[xn cs2] sn2] z] xx]|e]; [|reflexivity]. cbn [rbind rmap].
  rewrite ls_norms_up. destruct (ls_norms _ _ _ _ _ _ _ _ _) as [[[[[Ac r2] rn] Ar] r1]|e]; [|reflexivity]. cbn [rbind rmap].
  rewrite ls_tests_up. destruct (ls_tests _ _ _ _ _ _ _ _ _) as [i|e]; [|reflexivity]. cbn [rbind rmap].
  unfold ls_up. cbn. rewrite gm_0. destruct (l_sres kw), (l_sit kw); rewrite ?map_app; reflexivity.
Qed.

Definition ls_out_up (o : ls_out WV) : ls_out WV :=
  mklsout (w 1 (o_x o)) (o_istop o) (o_status o) (o_optimal o) (o_itn o) (o_nmv o)
    (m 1 (o_r1norm o)) (m 1 (o_r2norm o)) (o_Anorm o) (o_Acond o) (m 1 (o_Arnorm o)) (m 1 (o_xnorm o))
    (map (m 1) (o_resids o)) (map (m 1) (o_nresids o)) (o_dirs o) (map (w 1) (o_iters o)).

Lemma ls_init_up : forall b cnt, sgtb (norm_M (l_M kw) b) s0 = true ->
  ls_init q kw (wu 1 b) cnt = rmap (ls_up 1) (ls_init q kw b cnt).
Proof.
  intros b cnt B. unfold ls_init. destruct (gk_up HU (l_M kw) b HM B) as [E P]. rewrite E.
  destruct (gk_norm (l_M kw) b) as [[[Mu u] beta]|e]; [|reflexivity]. cbn [rbind rmap fst snd].
  pose proof (P _ _ _ eq_refl) as B2. unfold sgtb in *. gms. rewrite B2.
  destruct (gk_norm (l_N kw) (lp_At q u)) as [[[Nv v] alpha]|e]; [|reflexivity]. cbn [rbind rmap]. gms.
  f_equal. unfold ls_up. cbn. rewrite ?vm_zeros, ?repeat_up. gms.
  destruct (l_sres kw), (l_sit kw); cbn; rewrite ?vm_zeros; reflexivity.
Qed.
(** Loops whose first state may have another degree than the later ones. *)
Lemma ls_while_up : forall fuel bn lim k st, exists k',
  while fuel (ls_cond lim) (ls_body q kw (m 1 bn) lim) (ls_up k st) =
  rmap (ls_up k') (while fuel (ls_cond lim) (ls_body q kw bn lim) st).
Proof.
  intros fuel bn lim k st. destruct fuel as [|fuel]; [exists 0; reflexivity|]. cbn [while].
  change (ls_cond lim (ls_up k st)) with (ls_cond lim st). destruct (ls_cond lim st); [|exists k; reflexivity].
  exists 0. rewrite ls_body_up. destruct (ls_body q kw bn lim st) as [s|e]; [|reflexivity]. cbn [rmap].
  apply (while_map (ls_up 0)); [reflexivity|intros; apply ls_body_up].
Qed.
Lemma ls_solve_up : forall fuel b cnt, sgtb (norm_M (l_M kw) b) s0 = true ->
  ls_solve fuel q kw (wu 1 b) cnt = rmap (fun p => (ls_out_up (fst p), snd p)) (ls_solve fuel q kw b cnt).
Proof.
  intros fuel b cnt B. unfold ls_solve. destruct (l_wantvar kw); [reflexivity|].
  rewrite ls_init_up by exact B. destruct (ls_init q kw b cnt) as [st0|e]; [|reflexivity]. cbn [rbind rmap].
  change (s_beta (ls_up 1 st0)) with (m 1 (s_beta st0)).
  destruct (ls_while_up fuel (s_beta st0) (ls_lim q kw) 1 st0) as [k' ->].
  destruct (while _ _ _ _) as [st|e]; reflexivity.
Qed.
End Lsqr.

(** ** LSMR *)
Section Lsmr.
Context (q : lprob WV WU) (kw : lm_kw WV WU) (HN : nhomog (LsmrModel.m_lnorm kw)) (HM : ohomog HU (m_M kw)).

Definition lm_up (k : Z) (st : lm_st WV WU) : lm_st WV WU :=
  mklm (w 1 (t_x st)) (t_Mu st) (t_v st) (t_Nv st) (t_h st) (t_hbar st) (t_alpha st) (m k (t_beta st)) (t_alphabar st)
    (t_rho st) (t_rhobar st) (t_cbar st) (t_sbar st) (m 1 (t_zetabar st)) (m 1 (t_zeta st)) (m 1 (t_betadd st)) (m 1 (t_betad st))
    (t_rhodold st) (m 1 (t_tautil st)) (t_thetil st) (m 2 (t_d st)) (t_normA2 st) (t_normA st) (t_maxrbar st) (t_minrbar st)
    (t_condA st) (m 1 (t_normr st)) (m 1 (t_normar st)) (m 1 (t_normx st)) (m 2 (t_nrg2 st)) (map (m 1) (t_dErr st))
    (t_istop st) (t_itn st) (t_cnt st) (t_brk st) (map (m 1) (t_resids st)) (map (m 1) (t_nresids st)) (map (m 2) (t_norms st))
    (t_dirs st) (map (w 1) (t_iters st)).

Lemma lm_rot2_up : forall cbar sbar rho thetanew zetabar,
  lm_rot2 cbar sbar rho thetanew (m 1 zetabar) =
  rmap (fun '(tb, rt, cb, sb, rb, z, zb) => (tb, rt, cb, sb, rb, m 1 z, m 1 zb)) (lm_rot2 cbar sbar rho thetanew zetabar).
Proof. intros. unfold lm_rot2. destruct (symOrtho _ _) as [[[c s] r]|e]; [|reflexivity]. step; reflexivity. Qed.
Lemma lm_upx_up : forall x h hbar v thetabar rho rhoold rhobarold zeta rhobar thetanew,
  lm_upx (w 1 x) h hbar v thetabar rho rhoold rhobarold (m 1 zeta) rhobar thetanew =
  rmap (fun '(x, h, hbar) => (w 1 x, h, hbar)) (lm_upx x h hbar v thetabar rho rhoold rhobarold zeta rhobar thetanew).
Proof. intros. unfold lm_upx, pydiv. step; try reflexivity. rewrite (vm_scalel G HV). gms. reflexivity. Qed.
Lemma lm_derr_up : forall itn zeta nrg2 dErr dirs istop,
  lm_derr kw itn (m 1 zeta) (m 2 nrg2) (map (m 1) dErr) dirs istop =
  rmap (fun '(nrg2, dErr, dirs, istop) => (m 2 nrg2, map (m 1) dErr, dirs, istop)) (lm_derr kw itn zeta nrg2 dErr dirs istop).
Proof. intros. unfold lm_derr, pysqrt. rewrite lset_up, HN. step; reflexivity. Qed.
Lemma lm_nr_up : forall chat shat c s tb rb zo z bdd bd ro tt th d,
  lm_nr chat shat c s tb rb (m 1 zo) (m 1 z) (m 1 bdd) (m 1 bd) ro (m 1 tt) th (m 2 d) =
  rmap (fun '(bdd, th, ro, bd, tt, d, nr) => (m 1 bdd, th, ro, m 1 bd, m 1 tt, m 2 d, m 1 nr))
    (lm_nr chat shat c s tb rb zo z bdd bd ro tt th d).
Proof.
  intros. unfold lm_nr. destruct (symOrtho _ _) as [[[ct st] rt]|e]; [|reflexivity]. unfold pydiv, pysqrt. step; reflexivity.
Qed.
Lemma lm_tests_up : forall late istop nb nA cA nr nar nx,
  lm_tests kw late istop (m 1 nb) nA cA (m 1 nr) (m 1 nar) (m 1 nx) = lm_tests kw late istop nb nA cA nr nar nx.
Proof. intros. unfold lm_tests, pydiv. step; try reflexivity. Qed.

Lemma lm_body_up : forall k bn lim st,
  lm_body q kw (m 1 bn) lim (lm_up k st) = rmap (lm_up 0) (lm_body q kw bn lim st).
Proof.
  intros k bn lim st. unfold lm_body. cbn [lm_up t_x t_Mu t_v t_Nv t_h t_hbar t_alpha t_beta t_alphabar t_rho t_rhobar t_cbar t_sbar
    t_zetabar t_zeta t_betadd t_betad t_rhodold t_tautil t_thetil t_d t_normA2 t_normA t_maxrbar t_minrbar t_condA t_normr t_normar
    t_normx t_nrg2 t_dErr t_istop t_itn t_cnt t_brk t_resids t_nresids t_norms t_dirs t_iters].
  destruct (lm_bidiag q kw _ _ _ _ _) as [[[[[[Mu v] Nv] alpha] beta] cnt]|e]; [|reflexivity]. cbn [rbind].
  destruct (lm_rot1 _ _ _ _) as [[[[[[[chat shat] c] s] rho] tn] ab]|e]; [|reflexivity]. cbn [rbind].
  rewrite lm_rot2_up. destruct (lm_rot2 _ _ _ _ _) as [[[[[[[tb rt] cb] sb] rb] z] zb]|e]; [|reflexivity]. cbn [rbind rmap].
  rewrite lm_upx_up. destruct (lm_upx _ _ _ _ _ _ _ _ _ _ _) as [[[x h] hbar]|e]; [|reflexivity]. cbn [rbind rmap].
  rewrite lm_derr_up. destruct (lm_derr _ _ _ _ _ _ _) as [[[[nrg2 dErr] dirs] istop]|e]; [|reflexivity]. cbn [rbind rmap].
  rewrite lm_nr_up. destruct (lm_nr _ _ _ _ _ _ _ _ _ _ _ _ _ _) as [[[[[[[bdd th] ro] bd] tt] d] nr]|e]; [|reflexivity]. cbn [rbind rmap].
  destruct (lm_na _ _ _ _ _ _ _ _) as [[[[[A2 nA] mx] mn] cA]|e]; [|reflexivity]. cbn [rbind]. gms.
  rewrite lm_tests_up. destruct (lm_tests _ _ _ _ _ _ _ _ _) as [i|e]; [|reflexivity]. cbn [rbind rmap].
  unfold lm_up. cbn. rewrite gm_0. destruct (m_sres kw), (LsmrModel.m_sit kw); rewrite ?map_app; reflexivity.
Qed.

Definition lm_ret_up (r : lm_ret WV) : lm_ret WV :=
  mklmret (w 1 (LsmrModel.r_x r)) (LsmrModel.r_istop r) (LsmrModel.r_itn r) (m 1 (r_normr r)) (m 1 (r_normar r)) (r_normA r) (r_condA r)
    (m 1 (r_normx r)).
(** The attributes [x], [resids], [normal_eqns_resids], [norms] and [iterates]; the others are never assigned. *)
Definition lm_obj_up (o : lm_obj WV) : lm_obj WV :=
  mklmobj (option_map (w 1) (a_x o)) (a_itn o) (a_istop o) (a_Anorm o) (a_Acond o) (a_Arnorm o) (a_xnorm o) (a_r1norm o) (a_r2norm o)
    (a_optimal o) (a_nMatvec o) (a_converged o)
    (map (m 1) (a_resids o)) (map (m 1) (a_nresids o)) (map (m 2) (a_norms o)) (a_dirs o) (map (w 1) (a_iters o)).

Lemma lm_init_up : forall b cnt, sgtb (norm_M (m_M kw) b) s0 = true ->
  lm_init q kw (wu 1 b) cnt = rmap (lm_up 1) (lm_init q kw b cnt).
Proof.
  intros b cnt B. unfold lm_init. destruct (gk_up HU (m_M kw) b HM B) as [E P]. rewrite E.
  destruct (gk_norm (m_M kw) b) as [[[Mu u] beta]|e]; [|reflexivity]. cbn [rbind rmap fst snd].
  pose proof (P _ _ _ eq_refl) as B2. unfold sgtb in *. gms. rewrite B2.
  destruct (gk_norm (m_N kw) (lp_At q u)) as [[[Nv v] alpha]|e]; [|reflexivity]. cbn [rbind rmap].
  unfold pysqrt. destruct (sltb (smul alpha alpha) s0); [reflexivity|]. cbn [rbind rmap]. gms.
  f_equal. unfold lm_up. cbn. rewrite ?vm_zeros, ?repeat_up. gms.
  destruct (negb _ && m_sres kw), (LsmrModel.m_sit kw); cbn; rewrite ?vm_zeros; reflexivity.
Qed.
Lemma lm_while_up : forall fuel bn lim k st, exists k',
  while fuel (lm_cond lim) (lm_body q kw (m 1 bn) lim) (lm_up k st) =
  rmap (lm_up k') (while fuel (lm_cond lim) (lm_body q kw bn lim) st).
Proof.
  intros fuel bn lim k st. destruct fuel as [|fuel]; [exists 0; reflexivity|]. cbn [while].
  change (lm_cond lim (lm_up k st)) with (lm_cond lim st). destruct (lm_cond lim st); [|exists k; reflexivity].
  exists 0. rewrite lm_body_up. destruct (lm_body q kw bn lim st) as [s|e]; [|reflexivity]. cbn [rmap].
  apply (while_map (lm_up 0)); [reflexivity|intros; apply lm_body_up].
Qed.
Lemma lm_solve_up : forall fuel ob b cnt, sgtb (norm_M (m_M kw) b) s0 = true ->
  lm_solve fuel q kw (lm_obj_up ob) (wu 1 b) cnt =
  rmap (fun p => (lm_ret_up (fst (fst p)), lm_obj_up (snd (fst p)), snd p)) (lm_solve fuel q kw ob b cnt).
Proof.
  intros fuel ob b cnt B. unfold lm_solve.
  rewrite lm_init_up by exact B. destruct (lm_init q kw b cnt) as [st0|e]; [|reflexivity]. cbn [rbind rmap].
  change (t_beta (lm_up 1 st0)) with (m 1 (t_beta st0)). change (t_normar (lm_up 1 st0)) with (m 1 (t_normar st0)). gms.
  destruct (lm_while_up fuel (t_beta st0) (lm_lim q kw) 1 st0) as [k' ->].
  destruct (while _ _ _ _) as [st|e]; [|reflexivity]. cbn [rbind rmap fst snd].
  destruct (seqb (t_normar st0) s0); reflexivity.
Qed.
End Lsmr.

(** ** CRAIG *)
Section Craig.
Context (q : lprob WV WU) (kw : cr_kw WV WU) (HN : nhomog (c_lnorm kw)) (HM : ohomog HU (c_M kw)).

Definition cr_up (st : cr_st WV WU) : cr_st WV WU :=
  mkcr (w 1 (g_x st)) (wu 1 (g_r st)) (g_Mu st) (g_v st) (g_Nv st) (g_d st) (g_wbar st) (g_alpha st) (g_c st) (g_s st)
    (m 1 (g_tau st)) (m 1 (g_zeta st)) (m 2 (g_rnorm st)) (m 2 (g_xnorm st)) (m 2 (g_r1 st)) (m 2 (g_rnrg2 st)) (m 2 (g_xnrg2 st))
    (option_map (m 1) (g_Ar st)) (map (m 1) (g_dErr st)) (g_istop st) (g_itn st) (g_cnt st) (g_brk st)
    (map (m 2) (g_norms st)) (map (m 2) (g_resids st)) (map (m 1) (g_nresids st)) (g_dirs st) (map (w 1) (g_itp st)) (map (wu 1) (g_itd st)).

Lemma cr_upd_up : forall u d r v wbar x tau zeta bh s2 ah c s,
  cr_upd u d (wu 1 r) v wbar (w 1 x) (m 1 tau) (m 1 zeta) bh s2 ah c s =
  rmap (fun '(d, tau, r, zeta, wbar, x) => (d, m 1 tau, wu 1 r, m 1 zeta, wbar, w 1 x)) (cr_upd u d r v wbar x tau zeta bh s2 ah c s).
Proof.
  intros. unfold cr_upd, pydiv. step; try reflexivity. rewrite (vm_scalel G HV), (vm_scalel G HU). gms. reflexivity.
Qed.
Lemma cr_derr_up : forall window etol lnorm itn t nrg2 dErr dirs istop, nhomog lnorm ->
  cr_derr window etol lnorm itn (m 1 t) (m 2 nrg2) (map (m 1) dErr) dirs istop =
  rmap (fun '(dErr, dirs, istop) => (map (m 1) dErr, dirs, istop)) (cr_derr window etol lnorm itn t nrg2 dErr dirs istop).
Proof. intros window etol lnorm itn t nrg2 dErr dirs istop HL. unfold cr_derr, pysqrt. rewrite lset_up, HL. step; reflexivity. Qed.
Lemma cr_tests_up : forall late istop rn bn, cr_tests kw late istop (m 2 rn) (m 1 bn) = cr_tests kw late istop rn bn.
Proof. intros. unfold cr_tests, pydiv, pysqrt. step; reflexivity. Qed.

Lemma cr_body_up : forall bn lim st, cr_body q kw (m 1 bn) lim (cr_up st) = rmap cr_up (cr_body q kw bn lim st).
Proof.
  intros bn lim st. unfold cr_body. cbn [cr_up g_x g_r g_Mu g_v g_Nv g_d g_wbar g_alpha g_c g_s g_tau g_zeta g_rnorm g_xnorm g_r1
    g_rnrg2 g_xnrg2 g_Ar g_dErr g_istop g_itn g_cnt g_brk g_norms g_resids g_nresids g_dirs g_itp g_itd].
  destruct (cr_bidiag q _ _ _ _ _ _ _) as [[[[[[[Mu u] v] Nv] alpha] beta] cnt]|e]; [|reflexivity]. cbn [rbind].
  destruct (cr_rot _ _ _ _) as [[[[[bh s2] ah] c] s]|e]; [|reflexivity]. cbn [rbind].
  rewrite cr_upd_up. destruct (cr_upd _ _ _ _ _ _ _ _ _ _ _ _ _) as [[[[[[d tau] r] zeta] wbar] x]|e]; [|reflexivity]. cbn [rbind rmap].
  gms. rewrite (cr_derr_up _ _ _ _ _ _ _ _ _ HN).
  destruct (cr_derr _ _ _ _ _ _ _ _ _) as [[[dErr dirs] istop]|e]; [|reflexivity]. cbn [rbind rmap].
  rewrite cr_tests_up. destruct (cr_tests _ _ _ _ _) as [i|e]; [|reflexivity]. cbn [rbind rmap].
  unfold cr_up. cbn. destruct (c_sres kw), (c_sit kw); rewrite ?map_app; reflexivity.
Qed.
Definition cr_out_up (o : cr_out WV WU) : cr_out WV WU :=
  mkcrout (w 1 (go_x o)) (wu 1 (go_r o)) (go_istop o) (go_status o) (go_optimal o) (go_itn o) (go_nmv o)
    (m 1 (go_r1norm o)) (m 1 (go_r2norm o)) (m 1 (go_Arnorm o)) (m 2 (go_xnorm o)) (map (m 2) (go_norms o)) (map (m 2) (go_resids o))
    (map (m 1) (go_nresids o)) (go_dirs o) (map (w 1) (go_itp o)) (map (wu 1) (go_itd o)).
Lemma cr_init_up : forall b cnt, sgtb (norm_M (c_M kw) b) s0 = true ->
  cr_init q kw (wu 1 b) cnt = rmap (fun p => (cr_up (fst p), m 1 (snd p))) (cr_init q kw b cnt).
Proof.
  intros b cnt B. unfold cr_init. destruct (if sgtb (c_conlim kw) s0 then _ else _) as [cl|e]; [|reflexivity]. cbn [rbind].
  destruct (gk_up HU (c_M kw) b HM B) as [E P]. rewrite E.
  destruct (gk_norm (c_M kw) b) as [[[Mu u] beta]|e]; [|reflexivity]. cbn [rbind rmap fst snd].
  pose proof (P _ _ _ eq_refl) as B2. unfold sgtb in *. gms. rewrite B2.
  destruct (gk_norm (c_N kw) (lp_At q u)) as [[[Nv v] alpha]|e]; [|reflexivity]. cbn [rbind rmap].
  unfold pnorm2, pydiv, pysqrt. step; try reflexivity; rewrite ?(vm_scalel G HV), ?(vm_scalel G HU); gms;
  unfold cr_up; cbn; rewrite ?repeat_up; gms; reflexivity.
Qed.
Lemma cr_solve_up : forall fuel b cnt, sgtb (norm_M (c_M kw) b) s0 = true ->
  cr_solve fuel q kw (wu 1 b) cnt = rmap (fun p => (cr_out_up (fst p), snd p)) (cr_solve fuel q kw b cnt).
Proof.
  intros fuel b cnt B. unfold cr_solve. destruct (c_wantvar kw); [reflexivity|].
  rewrite cr_init_up by exact B. destruct (cr_init q kw b cnt) as [[st0 bn]|e]; [|reflexivity]. cbn [rbind rmap fst snd].
  rewrite (while_map cr_up (cr_cond (cr_lim q kw)) (cr_body q kw bn (cr_lim q kw))); [|reflexivity|intros; apply cr_body_up].
  destruct (while _ _ _ _) as [st|e]; [|reflexivity]. cbn [rbind].
  change (g_r1 (cr_up st)) with (m 2 (g_r1 st)). change (g_rnorm (cr_up st)) with (m 2 (g_rnorm st)).
  unfold pysqrt. step; try reflexivity. cbn [cr_up g_Ar]. destruct (g_Ar st) as [Ar|]; reflexivity.
Qed.
End Craig.

(** ** CRAIG-MR *)
Section CraigMR.
Context (q : lprob WV WU) (kw : cm_kw WV WU) (HN : nhomog (h_lnorm kw)) (HM : ohomog HU (h_M kw)).
Definition cm_up (st : cm_st WV WU) : cm_st WV WU :=
  mkcm (wu 1 (h_x st)) (h_Mu st) (h_v st) (h_Nv st) (h_d st) (h_dbar st) (h_alpha st) (h_c st) (h_s st) (m 1 (h_zhat st)) (h_atil st)
    (h_theta st) (m 2 (h_nrg2 st)) (map (m 1) (h_dErr st)) (h_istop st) (h_itn st) (h_cnt st) (h_brk st)
    (map (m 2) (h_norms st)) (map (m 1) (h_nresids st)) (h_dirs st) (map (wu 1) (h_iters st)).
Lemma cm_upd_up : forall u d dbar x bh ah atil theta zhat,
  cm_upd u d dbar (wu 1 x) bh ah atil theta (m 1 zhat) =
  rmap (fun '(dbar, theta, atil, zeta, zhat, d, x) => (dbar, theta, atil, m 1 zeta, m 1 zhat, d, wu 1 x))
    (cm_upd u d dbar x bh ah atil theta zhat).
Proof. intros. unfold cm_upd, pnorm2, pydiv, pysqrt. step; try reflexivity. rewrite (vm_scalel G HU). gms. reflexivity. Qed.
Lemma cm_body_up : forall lim st, cm_body q kw lim (cm_up st) = rmap cm_up (cm_body q kw lim st).
Proof.
  intros lim st. unfold cm_body. cbn [cm_up h_x h_Mu h_v h_Nv h_d h_dbar h_alpha h_c h_s h_zhat h_atil h_theta h_nrg2 h_dErr h_istop
    h_itn h_cnt h_brk h_norms h_nresids h_dirs h_iters].
  destruct (cr_bidiag q _ _ _ _ _ _ _) as [[[[[[[Mu u] v] Nv] alpha] beta] cnt]|e]; [|reflexivity]. cbn [rbind].
  destruct (cr_rot _ _ _ _) as [[[[[bh s2] ah] c] s]|e]; [|reflexivity]. cbn [rbind].
  rewrite cm_upd_up. destruct (cm_upd _ _ _ _ _ _ _ _ _) as [[[[[[[dbar theta] atil] zeta] zhat] d] x]|e]; [|reflexivity]. cbn [rbind rmap].
  gms. rewrite (cr_derr_up _ _ _ _ _ _ _ _ _ HN).
  destruct (cr_derr _ _ _ _ _ _ _ _ _) as [[[dErr dirs] istop]|e]; [|reflexivity]. cbn [rbind rmap].
  unfold cm_up. cbn. destruct (h_sres kw), (h_sit kw); rewrite ?map_app; reflexivity.
Qed.
Definition cm_out_up (o : cm_out WU) : cm_out WU :=
  mkcmout (wu 1 (ho_x o)) (ho_istop o) (ho_status o) (ho_optimal o) (ho_itn o) (ho_nmv o)
    (map (m 2) (ho_norms o)) (map (m 1) (ho_nresids o)) (ho_dirs o) (map (wu 1) (ho_iters o)).
Lemma cm_init_up : forall b cnt, sgtb (norm_M (h_M kw) b) s0 = true ->
  cm_init q kw (wu 1 b) cnt = rmap cm_up (cm_init q kw b cnt).
Proof.
  intros b cnt B. unfold cm_init. destruct (gk_up HU (h_M kw) b HM B) as [E P]. rewrite E.
  destruct (gk_norm (h_M kw) b) as [[[Mu u] beta]|e]; [|reflexivity]. cbn [rbind rmap fst snd].
  pose proof (P _ _ _ eq_refl) as B2. unfold sgtb in *. gms. rewrite B2.
  destruct (gk_norm (h_N kw) (lp_At q u)) as [[[Nv v] alpha]|e]; [|reflexivity]. cbn [rbind rmap].
  unfold pnorm2, pydiv, pysqrt. step; try reflexivity;
  unfold cm_up; cbn; rewrite ?repeat_up, ?vm_zeros; gms; reflexivity.
Qed.
Lemma cm_solve_up : forall fuel b cnt, sgtb (norm_M (h_M kw) b) s0 = true ->
  cm_solve fuel q kw (wu 1 b) cnt = rmap (fun p => (cm_out_up (fst p), snd p)) (cm_solve fuel q kw b cnt).
Proof.
  intros fuel b cnt B. unfold cm_solve.
  rewrite cm_init_up by exact B. destruct (cm_init q kw b cnt) as [st0|e]; [|reflexivity]. cbn [rbind rmap fst snd].
  rewrite (while_map cm_up (cm_cond (cm_lim q kw)) (cm_body q kw (cm_lim q kw))); [|reflexivity|intros; apply cm_body_up].
  destruct (while _ _ _ _) as [st|e]; reflexivity.
Qed.
End CraigMR.
End Lls.
