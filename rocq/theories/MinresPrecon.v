(** * Preconditioned MINRES in exact arithmetic. *)
From Coq Require Import List Arith Lia Bool ZArith Reals Lra.
From Verif Require Import Base Num ToolsModel CgModel CgProof MinresModel MinresProof Precon.
Import ListNotations.
Local Open Scope R_scope.

Section MinresPrecon.
Variables (dv : R -> R -> R) (sq : R -> R).
Hypothesis DV : dv_ok dv.
Hypothesis SQ : sq_ok sq.
Variable E : IPS.
Local Notation KK := (exactK dv sq).
Local Notation WW := (exactV dv sq E).
Variables (q : kprob WW) (kw : mr_kw WW) (b : iv E) (P : iv E -> iv E).
Hypothesis HP : m_precon kw = Some (P : vc WW -> vc WW).
Hypothesis SP : selfadj P.
Hypothesis PD : posdef P.
Hypothesis SA : selfadj (q_A q : iv E -> iv E).
Let LP : lin P := adjoint_lin P P SP.
Local Notation E' := (pspace E P SP PD).
Local Notation WW' := (exactV dv sq E').

Let At (z : iv E) : iv E := isub (q_A q z : iv E) (iscale (m_shift kw) z).

Definition pq : kprob WW' :=
  @mkprob KK WW' (q_m q) (q_n q) ((fun z => At (P z)) : vc WW' -> vc WW') None (q_abstol q) (q_reltol q) (q_cbrt q) [].
Definition pkw : mr_kw WW' :=
  @mkmrkw KK WW' None 0 0 [] (0 : sc KK) false (m_itnlim kw) (m_rtol kw) (m_etol kw) (m_sit kw) (m_window kw) (m_lnorm kw).

Definition T (s : mr_st WW') : mr_st WW :=
  @mkmr KK WW (P (r_x s)) (P (r_y s)) (r_r1 s) (r_r2 s) (P (r_w s)) (P (r_w2 s))
    (r_oldb s) (r_beta s) (r_dbar s) (r_epsln s) (r_phibar s) (r_rhs1 s) (r_rhs2 s)
    (r_Arnorm s) (r_tnorm2 s) (r_ynorm2 s) (r_cs s) (r_sn s) (r_gmax s) (r_gmin s)
    (r_Anorm s) (r_Acond s) (r_rnorm s) (r_ynorm s) (r_nrg2 s) (r_dErr s)
    (r_dirs s) (r_istop s) (r_itn s) (r_cnt s) (r_brk s) (r_hist s) (map P (r_iters s)).

Lemma sub0 : forall u v : iv E, isub u (iscale 0 v) = u.
Proof. intros. veq. Qed.

Lemma lan_sim : forall s : mr_st WW',
  @mr_lan KK WW q kw (T s) =
  let '(v, alfa, r2, y, beta, cnt) := @mr_lan KK WW' pq pkw s in (P v, alfa, r2, P y, beta, cnt).
Proof.
  intro s. unfold mr_lan. rewrite HP.
  cbn [opmul fst snd r_y r_beta r_oldb r_r1 r_r2 r_itn r_cnt T m_precon pkw m_shift q_A pq
       vscale vsub vadd vdot exactVn exactK sdiv s1 sneg].
  assert (EV : iscale (dv 1 (r_beta s)) (P (r_y s)) = P (iscale (dv 1 (r_beta s)) (r_y s)))
    by (symmetry; apply (lin_scale P LP)).
  rewrite !EV. set (v := iscale (dv 1 (r_beta s)) (r_y s) : iv E) in *.
  change (@iscale E' (dv 1 (r_beta s)) (r_y s)) with v.
  assert (EA : @isub E' (At (P v)) (@iscale E' 0 v) = isub (q_A q (P v)) (iscale (m_shift kw) (P v))).
  { change (isub (At (P v)) (iscale 0 v) = At (P v)). apply sub0. }
  rewrite EA. clearbody v.
  set (y1 := isub (q_A q (P v) : iv E) (iscale (m_shift kw) (P v))).
  change (@isub E') with (@isub E). change (@iscale E') with (@iscale E). change (@iadd E') with (@iadd E).
  apply f_equal2; [apply f_equal2; [reflexivity|exact (@ip_sym E _ _)]|reflexivity].
Qed.

Lemma upd_sim : forall eps beta1 lim (s : mr_st WW') v alfa r2 y cnt beta delta gbar root gamma,
  @mr_upd KK WW kw eps beta1 lim (T s) (P v) alfa r2 (P y) cnt beta delta gbar root gamma =
  T (@mr_upd KK WW' pkw eps beta1 lim s v alfa r2 y cnt beta delta gbar root gamma).
Proof.
  intros. unfold mr_upd, T.
  cbn [r_x r_y r_r1 r_r2 r_w r_w2 r_oldb r_beta r_dbar r_epsln r_phibar r_rhs1 r_rhs2 r_Arnorm r_tnorm2
       r_ynorm2 r_cs r_sn r_gmax r_gmin r_Anorm r_Acond r_rnorm r_ynorm r_nrg2 r_dErr r_dirs r_istop r_itn
       r_cnt r_brk r_hist r_iters m_window m_lnorm m_etol m_rtol m_sit pkw vscale vsub vadd exactVn].
  change (@isub E') with (@isub E). change (@iscale E') with (@iscale E). change (@iadd E') with (@iadd E).
  change (iv E') with (iv E) in *.
  assert (EW : forall a c d (u1 u2 u3 : iv E),
    iscale a (isub (isub (P u1) (iscale c (P u2))) (iscale d (P u3))) =
    P (iscale a (isub (isub u1 (iscale c u2)) (iscale d u3)))).
  { intros. rewrite (lin_scale P LP), !(lin_sub P LP), !(lin_scale P LP). reflexivity. }
  rewrite EW.
  assert (EX : forall a (u1 u2 : iv E), iadd (P u1) (iscale a (P u2)) = P (iadd u1 (iscale a u2))).
  { intros. rewrite (lin_add P LP), (lin_scale P LP). reflexivity. }
  rewrite EX. f_equal.
  destruct (m_sit kw); [|reflexivity]. rewrite map_app. reflexivity.
Qed.

Lemma body_sim : forall eps beta1 lim (s : mr_st WW'),
  @mr_body KK WW q kw eps beta1 lim (T s) = rmap T (@mr_body KK WW' pq pkw eps beta1 lim s).
Proof.
  intros. unfold mr_body. rewrite lan_sim.
  destruct (@mr_lan KK WW' pq pkw s) as [[[[[v alfa] r2] y] beta] cnt].
  destruct (sltb beta s0); [reflexivity|].
  change (m_window pkw) with (m_window kw).
  destruct (m_window kw =? 0)%nat; [reflexivity|].
  cbn [rmap]. f_equal.
  change (mr_gbar (T s) alfa) with (mr_gbar s alfa).
  change (mr_delta (T s) alfa) with (mr_delta s alfa).
  change (mr_root (T s)) with (mr_root s).
  apply upd_sim.
Qed.

Lemma init_sim : forall beta1 istop done hist cnt,
  @mr_init KK WW kw b beta1 istop done hist cnt = T (@mr_init KK WW' pkw b beta1 istop done hist cnt).
Proof.
  intros. unfold mr_init, T, mr_y0. rewrite HP.
  cbn [r_x r_y r_r1 r_r2 r_w r_w2 r_oldb r_beta r_dbar r_epsln r_phibar r_rhs1 r_rhs2 r_Arnorm r_tnorm2
       r_ynorm2 r_cs r_sn r_gmax r_gmin r_Anorm r_Acond r_rnorm r_ynorm r_nrg2 r_dErr r_dirs r_istop r_itn
       r_cnt r_brk r_hist r_iters m_window m_lnorm m_etol m_rtol m_sit m_precon pkw vzeros exactVn].
  change (@izero E') with (@izero E).
  rewrite (lin_zero P LP). f_equal. destruct (m_sit kw); [|reflexivity].
  cbn. rewrite (lin_zero P LP). reflexivity.
Qed.

Definition To (o : mr_out WW') : mr_out WW :=
  @mkmrout KK WW (u_residNorm0 o) (P (u_x o)) (u_istop o) (u_itn o) (u_nmv o) (u_conv o)
    (u_rnorm o) (u_Arnorm o) (u_Anorm o) (u_Acond o) (u_ynorm o) (u_hist o) (u_dirs o) (map P (u_iters o)).

(** If the symmetry checks pass, the preconditioned run is the image of the other one. *)
Lemma solve_sim : forall fuel hist cnt,
  (forall c0, snd (@mr_start KK WW q kw b cnt) = c0 ->
   snd (fst (@mr_start KK WW q kw b cnt)) = (Rltb (ip b (P b)) 0 || Reqb (ip b (P b)) 0)%bool ->
   snd (fst (fst (@mr_start KK WW q kw b cnt))) = (if Rltb (ip b (P b)) 0 then 9%Z else 0%Z) ->
   @mr_solve KK WW fuel q hist b kw cnt =
   rmap (fun p => (To (fst p), snd p)) (@mr_solve KK WW' fuel pq hist b pkw c0)).
Proof.
  intros fuel hist cnt c0 E0 E1 E2. unfold mr_solve.
  assert (ES : @mr_start KK WW q kw b cnt =
    (if Rltb 0 (ip b (P b)) then sq (ip b (P b)) else ip b (P b), if Rltb (ip b (P b)) 0 then 9%Z else 0%Z,
     (Rltb (ip b (P b)) 0 || Reqb (ip b (P b)) 0)%bool, c0)).
  { assert (E3 : fst (fst (fst (@mr_start KK WW q kw b cnt))) =
      (if Rltb 0 (ip b (P b)) then sq (ip b (P b)) else ip b (P b))).
    { unfold mr_start, mr_y0. rewrite HP.
      match goal with |- context[let '(_, _) := ?x in _] => destruct x end. reflexivity. }
    destruct (@mr_start KK WW q kw b cnt) as [[[? ?] ?] ?]. cbn [fst snd] in *. subst. reflexivity. }
  rewrite ES.
  assert (ES' : @mr_start KK WW' pq pkw b c0 =
    (if Rltb 0 (ip b (P b)) then sq (ip b (P b)) else ip b (P b), if Rltb (ip b (P b)) 0 then 9%Z else 0%Z,
     (Rltb (ip b (P b)) 0 || Reqb (ip b (P b)) 0)%bool, c0)).
  { unfold mr_start, mr_y0. cbn [m_precon m_check pkw].
    change (@vdot KK WW' b b) with (ip (P b) b). rewrite (ip_sym (P b) b).
    cbn [negb]. rewrite !orb_false_r. reflexivity. }
  rewrite ES'. rewrite init_sim.
  change (@mr_lim KK WW' pkw b) with (@mr_lim KK WW kw b).
  set (lim := @mr_lim KK WW kw b).
  rewrite (while_map T (mr_cond lim) (mr_cond lim) _ (@mr_body KK WW' pq pkw machine_eps
     (if Rltb 0 (ip b (P b)) then sq (ip b (P b)) else ip b (P b)) lim)).
  - match goal with |- context[rmap T ?w] =>
      match goal with |- _ = rmap _ match ?w' with Ok _ => _ | Err _ => _ end => change w with w'; destruct w' end end;
      reflexivity.
  - intro s. reflexivity.
  - intros s _. apply body_sim.
Qed.

Definition pnorm (z : iv E) : R := sqrt (ip z (P z)).
Lemma pnorm_eq : forall z, @inorm E' z = pnorm z.
Proof. intro z. unfold inorm, pnorm. cbn. rewrite ip_sym. reflexivity. Qed.

Hypothesis SG : forall k z, kry (fun z => At (P z)) b k z ->
  @machine_eps KK * pnorm z <= pnorm (At (P z)).

Lemma pAt : forall z : iv E, @isub E' (At (P z)) (@iscale E' 0 z) = At (P z).
Proof. intro z. exact (sub0 (At (P z)) z). Qed.

Lemma mr_precon_exact : forall fuel hist cnt o cnt',
  @mr_solve KK WW fuel q hist b kw cnt = Ok (o, cnt') ->
  exists xs, length xs = u_itn o /\ (u_hist o : list R) = hist ++ map (fun z => pnorm (isub b (At z))) xs /\
    (m_sit kw = true -> (u_iters o : list (iv E)) = izero :: xs) /\
    (u_x o : iv E) = last xs izero /\
    (u_itn o <> 0%nat -> u_rnorm o = pnorm (isub b (At (u_x o)))) /\
    (u_itn o <> 0%nat -> u_Arnorm o = pnorm (At (P (isub b (At (last (removelast xs) izero)))))) /\
    (forall i z, nth_error xs i = Some z ->
       kry (fun z => P (At z)) (P b) (S i) z /\
       (forall z', kry (fun z => P (At z)) (P b) (S i) z' -> pnorm (isub b (At z)) <= pnorm (isub b (At z')))) /\
    (forall n, dim_le E n -> (n <= u_itn o)%nat -> u_istop o <> 7%Z -> u_istop o <> 8%Z -> At (u_x o) = b).
Proof.
  intros fuel hist cnt o cnt' H.
  destruct (@mr_start KK WW q kw b cnt) as [[[beta1 istop] done] c0] eqn:ES.
  destruct (Bool.bool_dec done (Rltb (ip b (P b)) 0 || Reqb (ip b (P b)) 0)%bool) as [ED|ND].
  - assert (EI : istop = (if Rltb (ip b (P b)) 0 then 9%Z else 0%Z) \/ (done = true /\ (istop = 7%Z \/ istop = 8%Z))).
    { unfold mr_start, mr_y0 in ES. rewrite HP in ES.
      match type of ES with context[let '(_, _) := ?x in _] => destruct x as [ok c1] end.
      match type of ES with context[if ?x then _ else 8%Z] => destruct x end; injection ES as _ <- <- _;
        destruct ok; rewrite ?orb_true_r; auto. }
    destruct EI as [EI|[DT EI]].
    + pose proof (solve_sim fuel hist cnt c0) as S. rewrite ES in S. cbn [fst snd] in S.
      specialize (S eq_refl ED EI). rewrite H in S.
      destruct (@mr_solve KK WW' fuel pq hist b pkw c0) as [[o' c2]|] eqn:ES'; [|discriminate].
      injection S as -> ->. cbn [fst snd] in *.
      assert (SA' : @selfadj E' (q_A pq : iv E' -> iv E')).
      { apply (p_selfadj E P SP PD At). intros u v. unfold At. ipx. rewrite <- SA. reflexivity. }
      assert (SG' : forall k z, @kry E' (fun z => @isub E' (q_A pq z) (@iscale E' (m_shift pkw) z)) b k z ->
        @machine_eps KK * @inorm E' z <= @inorm E' (@isub E' (q_A pq z) (@iscale E' (m_shift pkw) z))).
      { intros k z Hk. cbn [m_shift pkw] in *.
        rewrite !pnorm_eq.
        change (q_A pq z) with (At (P z)). rewrite pAt. apply (SG k).
        apply kry_same in Hk. eapply kry_extf; [|exact Hk]. intro y. exact (pAt y). }
      destruct (mr_exact dv sq DV SQ E' pq pkw b eq_refl SA' SG' fuel hist c0 o' c2 ES')
        as (xs & L & Hh & Hi & Hx & Hr & Ha & Hm & Hd).
      exists (map P xs). unfold To.
      cbn [u_residNorm0 u_x u_istop u_itn u_nmv u_conv u_rnorm u_Arnorm u_Anorm u_Acond u_ynorm u_hist u_dirs u_iters].
      assert (LASTP : forall l : list (iv E), last (map P l) izero = P (last l izero)).
      { induction l as [|a l IH]; cbn [map last]; [symmetry; apply (lin_zero P LP)|].
        destruct l; [reflexivity|]. exact IH. }
      assert (RLP : forall l : list (iv E), removelast (map P l) = map P (removelast l)).
      { induction l as [|a l IH]; [reflexivity|]. destruct l; [reflexivity|].
        cbn [map removelast] in *. f_equal. exact IH. }
      assert (RES : forall z : iv E, @inorm E' (@isub E' b (@isub E' (At (P z)) (@iscale E' 0 z))) = pnorm (isub b (At (P z)))).
      { intro z. rewrite pnorm_eq, pAt. reflexivity. }
      split; [rewrite map_length; exact L|].
      split.
      { rewrite Hh. f_equal. rewrite map_map. apply map_ext. intro z. apply RES. }
      split.
      { intro S0. rewrite (Hi S0). cbn [map]. f_equal. apply (lin_zero P LP). }
      split; [rewrite LASTP; f_equal; exact Hx|].
      split.
      { intro N. rewrite (Hr N). apply RES. }
      split.
      { intro N. rewrite (Ha N). rewrite RLP, LASTP.
        set (z := last (removelast xs) izero : iv E).
        transitivity (pnorm (isub (At (P (isub b (isub (At (P z)) (iscale 0 z)))))
                                  (iscale 0 (isub b (isub (At (P z)) (iscale 0 z))))));
          [apply pnorm_eq|rewrite !sub0; reflexivity]. }
      split.
      { intros i z Hz. rewrite nth_error_map in Hz.
        change (option_map P (@nth_error (iv E) xs i) = Some z) in Hz.
        destruct (@nth_error (iv E) xs i) as [z0|] eqn:Z0; [|discriminate]. injection Hz as <-.
        destruct (Hm i z0 Z0) as [K1 K2].
        assert (KE : forall k y, @kry E' (fun z => @isub E' (q_A pq z) (@iscale E' (m_shift pkw) z)) b k y <->
                                 kry (fun z => At (P z)) b k y).
        { intros k y. rewrite kry_same. split; apply kry_extf; intro y0; [exact (pAt y0)|symmetry; exact (pAt y0)]. }
        split.
        - apply kry_push; [exact SP|]. apply KE. exact K1.
        - intros z' Kz'. apply kry_pull in Kz' as (y & -> & Ky); [|exact SP].
          apply KE in Ky. specialize (K2 y Ky). 
          rewrite <- (RES z0), <- (RES y). exact K2. }
      intros n Dn Ln I7 _. specialize (Hd n (p_dim E P SP PD n Dn) Ln I7). 
      rewrite <- (pAt (u_x o')). exact Hd.
    + assert (F : u_itn o = 0%nat /\ u_istop o = istop /\ (u_x o : iv E) = izero /\ u_hist o = hist /\
                  (m_sit kw = true -> (u_iters o : list (iv E)) = [izero])).
      { unfold mr_solve in H. rewrite ES, DT in H. destruct fuel as [|fuel]; [discriminate|].
        cbn [while mr_cond r_brk mr_init negb andb] in H. injection H as <- _. cbn.
        split; [reflexivity|]. split; [reflexivity|]. split; [reflexivity|]. split; [reflexivity|].
        intros ->. reflexivity. }
      destruct F as (F1 & F2 & F3 & F4 & F5). exists []. rewrite F1.
      split; [reflexivity|]. split; [rewrite app_nil_r; exact F4|]. split; [exact F5|]. split; [exact F3|].
      split; [congruence|]. split; [congruence|]. split; [intros [|] z Z; discriminate|].
      intros n _ _ I7 I8. destruct EI; congruence.
  - assert (DT : done = true /\ (istop = 7%Z \/ istop = 8%Z)).
    { unfold mr_start, mr_y0 in ES. rewrite HP in ES.
      match type of ES with context[let '(_, _) := ?x in _] => destruct x as [ok c1] end.
      match type of ES with context[if ?x then _ else 8%Z] => destruct x end; injection ES as _ <- <- _;
        destruct ok; rewrite ?orb_true_r; auto.
      exfalso. apply ND. cbn [negb]. rewrite !orb_false_r. reflexivity. }
    destruct DT as [DT EI].
    assert (F : u_itn o = 0%nat /\ u_istop o = istop /\ (u_x o : iv E) = izero /\ u_hist o = hist /\
                  (m_sit kw = true -> (u_iters o : list (iv E)) = [izero])).
      { unfold mr_solve in H. rewrite ES, DT in H. destruct fuel as [|fuel]; [discriminate|].
        cbn [while mr_cond r_brk mr_init negb andb] in H. injection H as <- _. cbn.
        split; [reflexivity|]. split; [reflexivity|]. split; [reflexivity|]. split; [reflexivity|].
        intros ->. reflexivity. }
      destruct F as (F1 & F2 & F3 & F4 & F5). exists []. rewrite F1.
      split; [reflexivity|]. split; [rewrite app_nil_r; exact F4|]. split; [exact F5|]. split; [exact F3|].
      split; [congruence|]. split; [congruence|]. split; [intros [|] z Z; discriminate|].
      intros n _ _ I7 I8. destruct EI; congruence.
Qed.
End MinresPrecon.
