(** * LSQR in exact arithmetic: what [Anorm] (lsqr.py:262) is. *)
From Coq Require Import List ZArith QArith Reals Lia Lra Bool.
From Verif Require Import Base Num ToolsModel SpanMath MinresModel MinresProof GkProof LsqrModel LsqrFlow LsqrMath LsqrProof.
Import ListNotations.
Local Open Scope R_scope.

(** Sum of [|A w|^2] over a list; orthonormal lists. *)
Definition wsum {E1 E2 : IPS} (A : iv E1 -> iv E2) (W : list (iv E1)) : R := rsum (map (fun w => ip (A w) (A w)) W).
Definition onl {E : IPS} (W : list (iv E)) : Prop := orthog W /\ forall w, In w W -> ip w w = 1.

Lemma wsum_cons : forall {E1 E2 : IPS} (A : iv E1 -> iv E2) w W, wsum A (w :: W) = ip (A w) (A w) + wsum A W.
Proof. reflexivity. Qed.
Lemma wsum_pos : forall {E1 E2 : IPS} (A : iv E1 -> iv E2) W, 0 <= wsum A W.
Proof. intros. induction W as [|w W IH]; [apply Rle_refl|]. rewrite wsum_cons. pose proof (ip_pos (A w)). lra. Qed.
Lemma onl_cons : forall {E : IPS} (w : iv E) W, onl W -> ip w w = 1 -> (forall z, In z W -> ip z w = 0) -> onl (w :: W).
Proof.
  intros E w W [O U] N H. split.
  - constructor; [|exact O]. apply Forall_forall. intros z I. rewrite ip_sym. apply H. exact I.
  - intros z [<-|I]; [exact N|apply U; exact I].
Qed.
Lemma onl_nil : forall {E : IPS}, onl (@nil (iv E)).
Proof. intro E. split; [constructor|intros w []]. Qed.

Section Exact.
Variables (dv : R -> R -> R) (sq : R -> R).
Hypothesis DV : dv_ok dv.
Hypothesis SQ : sq_ok sq.
Variables E1 E2 : IPS.
Local Notation KK := (exactK dv sq).
Variables (nv1 : iv E1 -> R) (nv2 : iv E2 -> R).
Local Notation WV := (exactVn dv sq E1 nv1).
Local Notation WU := (exactVn dv sq E2 nv2).
Variables (q : lprob WV WU) (kw : ls_kw WV WU) (b : iv E2).
Hypothesis NM : l_M kw = None.
Hypothesis NN : l_N kw = None.
Local Notation A := (lp_A q : iv E1 -> iv E2).
Local Notation At := (lp_At q : iv E2 -> iv E1).
Hypothesis AD : adjoint A At.
Hypothesis HW : (1 <= l_window kw)%nat.
Local Notation d := (l_damp kw : R).
Local Notation lim := (ls_lim q kw).
Local Notation nr := (nres A At b d).
Local Notation AA := (AtA A At).
Local Notation St := (ls_st WV WU).
Local Notation pre := (ls_pre dv sq E1 E2 nv1 nv2 kw).

(** [Anorm] and [alpha] after one iteration. *)
Lemma an_body : forall (bn : R) (st st' : St) u v w, pre st u v w -> @ls_body KK WV WU q kw bn lim st = Ok st' ->
  let be := inorm (isub (A v) (iscale (s_alpha st) u)) in
  (be = 0 -> (s_Anorm st' : R) = s_Anorm st) /\
  (0 < be -> (s_Anorm st' * s_Anorm st' : R) = s_Anorm st * s_Anorm st + s_alpha st * s_alpha st + be * be + d * d).
Proof.
  intros bn st st' u v w P H be. destruct P as [P1 P2 P3 P4 P5 P6 P7 P8 P9 P10 P11 P12].
  unfold ls_body in H. rewrite P3, P1, P2 in H. unfold ls_bidiag in H. cbv zeta in H.
  rewrite NM, NN in H.
  destruct (ex_gk dv sq DV SQ E2 nv2 (isub (A v) (iscale (s_alpha st) u))) as (u' & G1 & _ & _).
  change (@vsub KK WU (lp_A q v) (@vscale KK WU (s_alpha st) u)) with (isub (A v) (iscale (s_alpha st) u)) in H.
  rewrite G1 in H. cbn [rbind] in H. fold be in H.
  destruct (@sgtb KK be (@s0 KK)) eqn:EB.
  - apply ex_gt in EB. rewrite (ex_norm4 dv sq SQ) in H. cbn [rbind] in H.
    destruct (gk_norm _ _) as [[[Nv' v'] al']|]; [|discriminate]. cbn [rbind] in H.
    destruct (ls_rot _ _ _ _ _) as [[[[[[[psi rho] th] rb] phi] pb] tau]|]; [|discriminate]. cbn [rbind] in H.
    rewrite P4 in H.
    destruct (ls_upx _ _ _ _ _ _) as [[[x w'] dk]|]; [|discriminate]. cbn [rbind] in H.
    destruct (ls_derr _ _ _ _ _ _ _) as [[[[nrg dE] di] i]|]; [|discriminate]. cbn [rbind] in H.
    destruct (ls_xn _ _ _ _ _ _ _) as [[[[[xn cs2] sn2] z] xx]|]; [|discriminate]. cbn [rbind] in H.
    destruct (ls_norms _ _ _ _ _ _ _ _ _) as [[[[[Ac r2] rn] Ar] r1n]|]; [|discriminate]. cbn [rbind] in H.
    destruct (ls_tests _ _ _ _ _ _ _ _ _) as [i'|]; [|discriminate]. cbn [rbind] in H. injection H as <-.
    cbn [s_Anorm]. split; [intro; lra|]. intros _. rewrite sqrt_sqrt by nra. ring.
  - apply ex_gtf in EB. cbn [rbind] in H.
    destruct (ls_rot _ _ _ _ _) as [[[[[[[psi rho] th] rb] phi] pb] tau]|]; [|discriminate]. cbn [rbind] in H.
    rewrite P4 in H.
    destruct (ls_upx _ _ _ _ _ _) as [[[x w'] dk]|]; [|discriminate]. cbn [rbind] in H.
    destruct (ls_derr _ _ _ _ _ _ _) as [[[[nrg dE] di] i]|]; [|discriminate]. cbn [rbind] in H.
    destruct (ls_xn _ _ _ _ _ _ _) as [[[[[xn cs2] sn2] z] xx]|]; [|discriminate]. cbn [rbind] in H.
    destruct (ls_norms _ _ _ _ _ _ _ _ _) as [[[[[Ac r2] rn] Ar] r1n]|]; [|discriminate]. cbn [rbind] in H.
    destruct (ls_tests _ _ _ _ _ _ _ _ _) as [i'|]; [|discriminate]. cbn [rbind] in H. injection H as <-.
    cbn [s_Anorm]. split; [reflexivity|]. intro; lra.
Qed.

(** If the first iteration breaks down, no test fires and the loop goes on. *)
Lemma an_first : forall (bn : R) (st st' : St) u v w, pre st u v w -> @ls_body KK WV WU q kw bn lim st = Ok st' ->
  inorm (isub (A v) (iscale (s_alpha st) u)) = 0 -> (s_Anorm st : R) = 0 -> s_istop st = 0%Z ->
  (s_itn st + 1 <= l_window kw)%nat -> (Z.of_nat (s_itn st + 1) < lim)%Z -> (forall a, l_infle kw a = false) -> 0 < bn ->
  l_btol kw * bn < s_r2norm st' -> 0 < (s_r2norm st' : R) -> s_brk st' = false.
Proof.
  intros bn st st' u v w P H be An I0 WI LI0 INF BN RT RP. destruct P as [P1 P2 P3 P4 P5 P6 P7 P8 P9 P10 P11 P12].
  unfold ls_body in H. rewrite P3, P1, P2 in H. unfold ls_bidiag in H. cbv zeta in H.
  rewrite NM, NN in H.
  destruct (ex_gk dv sq DV SQ E2 nv2 (isub (A v) (iscale (s_alpha st) u))) as (u' & G1 & _ & _).
  change (@vsub KK WU (lp_A q v) (@vscale KK WU (s_alpha st) u)) with (isub (A v) (iscale (s_alpha st) u)) in H.
  rewrite G1 in H. cbn [rbind] in H. rewrite be in H.
  replace (@sgtb KK 0 (@s0 KK)) with false in H by (symmetry; apply Rltb_false; apply Rle_refl). cbn [rbind] in H.
  destruct (ls_rot _ _ _ _ _) as [[[[[[[psi rho] th] rb] phi] pb] tau]|]; [|discriminate]. cbn [rbind] in H.
  rewrite P4 in H.
  destruct (ls_upx _ _ _ _ _ _) as [[[x w'] dk]|]; [|discriminate]. cbn [rbind] in H.
  unfold ls_derr in H at 1. cbv zeta in H.
  replace (l_window kw =? 0)%nat with false in H by (symmetry; apply Nat.eqb_neq; lia).
  replace (l_window kw <? s_itn st + 1)%nat with false in H by (symmetry; apply Nat.ltb_ge; exact WI). cbn [rbind] in H.
  destruct (ls_xn _ _ _ _ _ _ _) as [[[[[xn cs2] sn2] z] xx]|]; [|discriminate]. cbn [rbind] in H.
  destruct (ls_norms _ _ _ _ _ _ _ _ _) as [[[[[Ac r2] rn] Ar] r1n]|] eqn:EN; [|discriminate]. cbn [rbind] in H.
  assert (AC : Ac = 0 :> R).
  { unfold ls_norms in EN. cbv zeta in EN.
    repeat match type of EN with rbind ?X _ = _ => destruct X; [|discriminate]; cbn [rbind] in EN end.
    injection EN as <- _ _ _ _. rewrite An. apply Rmult_0_l. }
  destruct (ls_tests _ _ _ _ _ _ _ _ _) as [i'|] eqn:ET; [|discriminate]. cbn [rbind] in H. injection H as <-.
  cbn [s_brk s_r2norm] in *.
  unfold ls_tests in ET. rewrite (ex_div dv sq DV) in ET by lra. cbn [rbind] in ET.
  rewrite An, AC in ET.
  replace (@seqb KK 0 (@s0 KK)) with true in ET by (symmetry; apply Reqb_true; reflexivity). cbn [orb rbind] in ET.
  rewrite (ex_div dv sq DV) in ET by lra. cbn [rbind] in ET.
  rewrite (ex_div dv sq DV) in ET by (cbn; unfold Rdiv; lra). cbn [rbind] in ET.
  rewrite (ex_div dv sq DV) in ET by lra. cbn [rbind] in ET. unfold ls_le1, ls_le in ET.
  rewrite !INF in ET. replace (lim <=? Z.of_nat (s_itn st + 1))%Z with false in ET by (symmetry; apply Z.leb_gt; exact LI0).
  assert (T : 0 < rn / bn) by (apply Rdiv_lt_0_compat; assumption).
  match type of ET with context [@sleb KK ?X (@s1 KK)] => replace (@sleb KK X (@s1 KK)) with false in ET end.
  2: { symmetry. apply Rleb_false. cbn. unfold Rdiv at 2 3. 
       replace (1 + 0 * xn * / bn) with 1 by ring. unfold Rdiv in *. lra. }
  match type of ET with context [@sleb KK ?X ?Y] => replace (@sleb KK X Y) with false in ET end.
  2: { symmetry. apply Rleb_false. cbn. apply Rmult_lt_reg_r with (r := bn); [exact BN|].
       assert (X1 : forall r : R, r / bn * bn = r) by (intro r; field; lra).
       assert (X2 : forall r s t : R, (r + s * 0 * t / bn) * bn = r * bn) by (intros r s t; field; lra).
       rewrite X1, X2. exact RT. }
  injection ET as <-. rewrite I0. reflexivity.
Qed.

(** Orthonormal vectors of the Krylov space. *)
Definition an_list (W : list (iv E1)) : Prop := onl W /\ forall w, In w W -> kry AA (At b) (length W) w.

Definition an_sum (W : list (iv E1)) : R := wsum A W + INR (length W) * (d * d).

Definition an_live (st : St) : Prop :=
  exists U V u v w tu te su se, pre st u v w /\
    LI A At b d (s_itn st) U V u v (s_alpha st) (s_x st) w tu te su se (s_rhobar st) (s_phibar st)
      (s_res2 st) (s_xxnorm st) (s_cs2 st) (s_sn2 st * s_z st) /\
    an_list V /\ (s_Anorm st * s_Anorm st : R) = an_sum V.

(** After [beta = 0] with damping: the next iteration computes with [u = 0]. *)
Definition an_dead (st : St) : Prop :=
  exists v w V, pre st izero v w /\
    ((s_phibar st : R) = 0 /\ (s_res2 st : R) = dres2 A b d (s_x st) /\ nr (s_x st) = izero /\
     (s_xxnorm st : R) = @ip E1 (s_x st) (s_x st) /\ (s_sn2 st : R) * s_z st = 0 /\ d <> 0 /\ @izero E2 = izero /\ A v <> izero) /\
    an_list (v :: V) /\ (s_alpha st * s_alpha st : R) = ip (A v) (A v) /\
    s_itn st = S (length V) /\ an_list V /\ (s_Anorm st * s_Anorm st : R) = an_sum V.

(** What is known of [Anorm]. *)
Definition an_ok (itn : nat) (x : iv E1) (An : R) : Prop :=
  exists W e, an_list W /\ (length W <= itn <= S (length W))%nat /\ (itn = S (length W) \/ e <> 0 -> nr x = izero) /\
    An * An = an_sum W + e /\
    (e = 0 \/ (d <> 0 /\ itn = S (length W) /\ (1 <= length W)%nat /\ exists w, In w W /\ e = ip (A w) (A w))).

Definition an_inv (st : St) : Prop :=
  an_ok (s_itn st) (s_x st) (s_Anorm st) /\ (s_brk st = false -> an_live st \/ an_dead st).

Lemma an_Av : forall U V u v al, GK A At U V u v al -> let y := isub (A v) (iscale al u) in
  ip (A v) (A v) = ip y y + al * al.
Proof.
  intros U V u v al G y. assert (Y : A v = iadd y (iscale al u)) by (unfold y; veq).
  pose proof (gk_y A At AD G u ltac:(apply dp_in; left; reflexivity)) as H. fold y in H.
  rewrite Y. ipx. rewrite (ip_sym y u), H, (gk_uu _ _ _ _ _ _ _ G). ring.
Qed.

Lemma an_ext : forall U V u v w x al tu te su se rb pb r2 xx cs2 zs k,
  LI A At b d k U V u v al x w tu te su se rb pb r2 xx cs2 zs -> an_list V -> an_list (v :: V).
Proof.
  intros U V u v w x al tu te su se rb pb r2 xx cs2 zs k I [O K].
  pose proof (li_gk _ _ _ _ _ _ _ _ _ _ _ _ _ _ _ _ _ _ _ _ _ _ I) as G. split.
  - apply onl_cons; [exact O|exact (gk_vv _ _ _ _ _ _ _ G)|exact (gk_vV _ _ _ _ _ _ _ G)].
  - intros z [<-|Z].
    + cbn [length]. rewrite (li_lenV _ _ _ _ _ _ _ _ _ _ _ _ _ _ _ _ _ _ _ _ _ _ I). exact (li_kv _ _ _ _ _ _ _ _ _ _ _ _ _ _ _ _ _ _ _ _ _ _ I).
    + cbn [length]. apply kry_S; [exact (sym_AtA A At AD)|apply K; exact Z].
Qed.

Lemma an_step : forall bn st, 0 < bn -> an_inv st -> s_brk st = false -> forall st',
  @ls_body KK WV WU q kw bn lim st = Ok st' -> an_inv st'.
Proof.
  intros bn st HB [_ I] NB st' EB. destruct (I NB) as [L|L]; clear I.
  - destruct L as (U & V & u & v & w & tu & te & su & se & P & LL & KV & EA).
    destruct (ex_body dv sq DV SQ E1 E2 nv1 nv2 q kw NM NN HW bn st u v w HB P) as (st2 & u' & v' & al' & EB2 & O).
    rewrite EB in EB2. injection EB2 as <-.
    pose proof (an_body bn st st' u v w P EB) as [A0 A1]. cbv zeta in A0, A1.
    pose proof (li_gk _ _ _ _ _ _ _ _ _ _ _ _ _ _ _ _ _ _ _ _ _ _ LL) as G.
    pose proof (an_Av _ _ _ _ _ G) as AV. cbv zeta in AV. rewrite <- (inorm_sq (isub (A v) (iscale (s_alpha st) u))) in AV.
    pose proof (an_ext _ _ _ _ _ _ _ _ _ _ _ _ _ _ _ _ _ _ LL KV) as KV'.
    pose proof (li_lenV _ _ _ _ _ _ _ _ _ _ _ _ _ _ _ _ _ _ _ _ _ _ LL) as LV.
    pose proof (eo_itn _ _ _ _ _ _ _ _ _ _ _ _ _ _ _ _ O) as EI.
    assert (SUM : 0 < inorm (isub (A v) (iscale (s_alpha st) u)) -> (s_Anorm st' * s_Anorm st' : R) = an_sum (v :: V)).
    { intro B. rewrite (A1 B), EA. unfold an_sum. rewrite wsum_cons, AV. cbn [length]. rewrite S_INR. 
      match goal with |- ?l = ?r => change (l = r :> R) end. ring. }
    assert (OKL : 0 < inorm (isub (A v) (iscale (s_alpha st) u)) -> an_ok (s_itn st') (s_x st') (s_Anorm st')).
    { intro B. exists (v :: V), 0. split; [exact KV'|]. cbn [length]. split; [lia|]. split; [intros [Q|Q]; [lia|contradiction]|].
      split; [rewrite (SUM B), Rplus_0_r; reflexivity|left; reflexivity]. }
    destruct (Req_dec (inorm (isub (A v) (iscale (s_alpha st) u))) 0) as [Z|NZ].
    + pose proof (eo_be0 _ _ _ _ _ _ _ _ _ _ _ _ _ _ _ _ O Z) as (EV & EAL & _ & EU).
      destruct (el_next dv sq E1 E2 nv1 nv2 q kw b AD st u v w P LL st' u' v' al' O) as [(N & Q)|(tu' & te' & su' & se' & P' & I' & C')].
      * split.
        { exists V, 0. split; [exact KV|]. split; [lia|]. split; [intros _; exact N|].
          split; [rewrite (A0 Z), Rplus_0_r; exact EA|left; reflexivity]. }
        intro NB'. right. destruct Q as [Q|(u2 & v2 & w2 & P2 & D2)]; [congruence|].
        assert (v2 = v).
        { pose proof (lp_vN _ _ _ _ _ _ _ _ _ _ _ P2) as X. pose proof (eo_vN _ _ _ _ _ _ _ _ _ _ _ _ _ _ _ _ O) as X2.
          rewrite X in X2. injection X2 as X2 _. rewrite X2. exact EV. }
        subst v2. assert (u2 = izero) by apply D2. subst u2.
        exists v, w2, V. split; [exact P2|]. split; [exact D2|]. split; [exact KV'|].
        split; [rewrite (eo_al _ _ _ _ _ _ _ _ _ _ _ _ _ _ _ _ O), EAL, AV, Z;
          match goal with |- ?l = ?r => change (l = r :> R) end; ring|].
        split; [lia|]. split; [exact KV|]. rewrite (A0 Z). exact EA.
      * exfalso. pose proof (li_gk _ _ _ _ _ _ _ _ _ _ _ _ _ _ _ _ _ _ _ _ _ _ I') as G'.
        pose proof (gk_vV _ _ _ _ _ _ _ G' v ltac:(left; reflexivity)) as X. rewrite EV, (gk_vv _ _ _ _ _ _ _ G) in X. lra.
    + assert (B : 0 < inorm (isub (A v) (iscale (s_alpha st) u))) by (pose proof (inorm_pos (isub (A v) (iscale (s_alpha st) u))); lra).
      split; [exact (OKL B)|]. intro NB'.
      destruct (el_next dv sq E1 E2 nv1 nv2 q kw b AD st u v w P LL st' u' v' al' O) as [(N & Q)|(tu' & te' & su' & se' & P' & I' & C')].
      * exfalso. pose proof (el_Ar dv sq E1 E2 nv1 nv2 q kw b AD st u v w P LL st' u' v' al' O) as X.
        rewrite N, inorm_izero in X. pose proof (eo_stop2 _ _ _ _ _ _ _ _ _ _ _ _ _ _ _ _ O B X). congruence.
      * left. exists (u :: U), (v :: V), u', v'. eexists _, tu', te', su', se'. split; [exact P'|]. split; [exact I'|].
        split; [exact KV'|exact (SUM B)].
  - destruct L as (v & w & V & P & D & KV' & EAL & LV & KV & EA).
    destruct (ex_body dv sq DV SQ E1 E2 nv1 nv2 q kw NM NN HW bn st izero v w HB P) as (st2 & u' & v' & al' & EB2 & O).
    rewrite EB in EB2. injection EB2 as <-.
    destruct (ed_next dv sq E1 E2 nv1 nv2 q kw b st izero v w D st' u' v' al' O) as (OK & N' & BR).
    pose proof (an_body bn st st' izero v w P EB) as [_ A1]. cbv zeta in A1.
    assert (Y : isub (A v) (iscale (s_alpha st) izero) = A v) by veq. rewrite Y in A1.
    assert (B : 0 < inorm (A v)).
    { pose proof (inorm_pos (A v)). destruct (Req_dec (inorm (A v)) 0) as [Z|Z]; [|lra]. apply inorm_zero in Z. exfalso. apply D. exact Z. }
    specialize (A1 B). rewrite EAL, inorm_sq, EA in A1.
    split; [|intro; congruence]. exists (v :: V), (ip (A v) (A v)). split; [exact KV'|].
    pose proof (eo_itn _ _ _ _ _ _ _ _ _ _ _ _ _ _ _ _ O) as EI. cbn [length].
    split; [lia|]. split; [intros _; exact N'|]. split.
    + rewrite A1. unfold an_sum. rewrite wsum_cons. cbn [length]. rewrite S_INR. ring.
    + right. split; [apply D|]. split; [lia|]. split; [lia|]. exists v. split; [left; reflexivity|reflexivity].
Qed.

Theorem an_solve : forall fuel cnt o cnt', @ls_solve KK WV WU fuel q kw b cnt = Ok (o, cnt') ->
  an_ok (o_itn o) (o_x o) (o_Anorm o).
Proof.
  intros fuel cnt o cnt' H. unfold ls_solve in H. destruct (l_wantvar kw); [discriminate|].
  destruct (ex_init dv sq DV SQ E1 E2 nv1 nv2 q kw b NM NN AD HW cnt) as (st0 & E0 & I0 & G0 & B0 & P0 & BP).
  rewrite E0 in H. cbn [rbind] in H.
  destruct (while fuel (ls_cond lim) (ls_body q kw (s_beta st0) lim) st0) as [st|] eqn:W; [|discriminate].
  cbn [rbind] in H. injection H as <- <-. cbn [o_itn o_x o_Anorm].
  assert (A0 : (s_Anorm st0 : R) = 0).
  { unfold ls_init in E0. cbv zeta in E0. destruct (gk_norm (l_M kw) b) as [[[Mu u] be]|]; [|discriminate]. cbn [rbind] in E0.
    match type of E0 with rbind ?X _ = _ => destruct X as [[[vN al] c]|] end; [|discriminate]. cbn [rbind] in E0.
    injection E0 as <-. reflexivity. }
  assert (S0 : an_sum [] = 0) by (unfold an_sum, wsum; cbn; ring).
  assert (L0 : an_list []) by (split; [apply onl_nil|intros w []]).
  assert (J0 : an_inv st0).
  { split.
    - exists [], 0. split; [exact L0|]. rewrite I0. cbn [length]. split; [lia|]. split; [intros [Q|Q]; [lia|contradiction]|].
      split; [rewrite A0, S0; ring|left; reflexivity].
    - intro NB. left. destruct P0 as [(U & V & u & v & w & tu & te & su & se & P & I & EC)|(N0 & [X|DD] & DIM)].
      + pose proof (li_lenV _ _ _ _ _ _ _ _ _ _ _ _ _ _ _ _ _ _ _ _ _ _ I) as LV. rewrite I0 in LV.
        destruct V; [|discriminate].
        exists U, [], u, v, w, tu, te, su, se. split; [exact P|]. split; [exact I|]. split; [exact L0|]. rewrite A0, S0. apply Rmult_0_l.
      + congruence.
      + exfalso. destruct DD as (u & v & w & P & D).
        assert (R2 : (s_res2 st0 : R) = 0).
        { unfold ls_init in E0. cbv zeta in E0. destruct (gk_norm (l_M kw) b) as [[[Mu u0] be]|]; [|discriminate]. cbn [rbind] in E0.
          match type of E0 with rbind ?X _ = _ => destruct X as [[[vN al] c]|] end; [|discriminate]. cbn [rbind] in E0.
          injection E0 as <-. reflexivity. }
        destruct D as (_ & D2 & _). rewrite R2, (gh_x _ _ _ _ _ _ _ _ _ _ _ G0) in D2.
        change (last [] izero) with (@izero E1) in D2. unfold dres2 in D2.
        rewrite (lin_zero A (adjoint_lin A At AD)) in D2.
        assert (X : isub b izero = b) by veq. rewrite X, ip_zero, Rmult_0_r, Rplus_0_r in D2.
        specialize (BP NB). unfold inorm in BP. rewrite <- D2, sqrt_0 in BP. lra. }
  assert (HB : ls_cond lim st0 = true -> 0 < inorm b).
  { intro C. apply BP. unfold ls_cond in C. apply andb_prop in C as [C _]. apply negb_true_iff in C. exact C. }
  destruct (ls_cond lim st0) eqn:C0.
  - specialize (HB eq_refl).
    apply while_inv with (I := an_inv) in W; [apply W| |exact J0].
    intros s s' I C EB. unfold ls_cond in C. apply andb_prop in C as [C _]. apply negb_true_iff in C.
    apply (an_step (s_beta st0) s ltac:(rewrite B0; exact HB) I C s' EB).
  - destruct fuel as [|f]; [discriminate|]. cbn [while] in W. rewrite C0 in W. injection W as <-. apply J0.
Qed.
End Exact.
