(** * Properties C35-C40: the conjugate gradient method. *)
From Coq Require Import List ZArith QArith Qreals Reals Lia Lra Bool Sorted.
From Verif Require Import Base Num ToolsModel ToolsProof CgModel CgProof.
Import ListNotations.

(** ** C35: termination, budget, truthful counting; any arithmetic. *)
Theorem C35_terminates : forall (K : Scal) (W : Vs K) (q : kprob W) o rhs kw cnt,
  exists o' cnt', forall fuel, (mmax (k_mmax kw) rhs < fuel)%nat ->
    cg_solve fuel q o rhs kw cnt = Ok (o', cnt').
Proof.
  intros K W q o rhs kw cnt.
  destruct (cg_solve_term q kw rhs (S (mmax (k_mmax kw) rhs)) o cnt) as [o' [cnt' H]]; [lia|].
  exists o', cnt'. intros fuel Hf.
  rewrite cg_solve_unfold in *. destruct (negb _); [exact H|].
  cbn zeta in *.
  destruct (while (S _) _ _ _) as [st|e] eqn:Ew; [|discriminate].
  rewrite (while_mono _ _ _ fuel _ _ Hf Ew); [exact H|discriminate].
Qed.

Theorem C35_counts : forall (K : Scal) (W : Vs K) (q : kprob W) o rhs kw cnt fuel o' cnt',
  k_sym kw = false ->
  cg_solve fuel q o rhs kw cnt = Ok (o', cnt') ->
  cnt' = (cnt + g_nmv o')%nat /\
  ((g_nmv o' <= mmax (k_mmax kw) rhs)%nat \/
   (k_guess kw <> None /\ mmax (k_mmax kw) rhs = 0%nat /\ g_nmv o' = 1%nat)).
Proof.
  intros K W q o rhs kw cnt fuel o' cnt' NS H.
  assert (S0 : sym_ok q kw cnt = (true, cnt)) by (unfold sym_ok; rewrite NS; reflexivity).
  apply cg_solve_flow in H; [|rewrite S0; reflexivity].
  rewrite S0 in H. cbn [snd] in H. destruct H as [st [F [-> [-> _]]]]. cbn [g_nmv cg_final].
  split; [apply (fi_cnt _ _ _ _ _ _ F)|].
  pose proof (fi_hi _ _ _ _ _ _ F) as HI. pose proof (fi_lo _ _ _ _ _ _ F) as LO. unfold g01 in *.
  destruct (k_guess kw).
  - destruct (Nat.eq_dec (mmax (k_mmax kw) rhs) 0) as [Z|NZ]; [|left; lia].
    right. split; [discriminate|]. split; [exact Z|lia].
  - left. lia.
Qed.

(** With the symmetry check, only its at most two products per random vector come on top. *)
Theorem C35_counts_check : forall (K : Scal) (W : Vs K) (q : kprob W) o rhs kw cnt fuel o' cnt',
  cg_solve fuel q o rhs kw cnt = Ok (o', cnt') ->
  (cnt' <= cnt + 2 * length (q_draws q) \/ cnt + g_nmv o' <= cnt' <= cnt + g_nmv o' + 2 * length (q_draws q))%nat.
Proof.
  intros K W q o rhs kw cnt fuel o' cnt' H.
  destruct (fst (sym_ok q kw cnt)) eqn:HS.
  - apply cg_solve_flow in H; [|exact HS].
    destruct H as [st [F [-> [-> _]]]]. cbn [g_nmv cg_final].
    rewrite (fi_cnt _ _ _ _ _ _ F). right. unfold sym_ok.
    destruct (k_sym kw); cbn [snd]; [|lia].
    pose proof (check_symmetric_count (q_cbrt q) (q_m q) (q_n q) (q_A q) (q_draws q) cnt). lia.
  - rewrite cg_solve_unfold, HS in H. cbn in H. injection H as <- <-. left. unfold sym_ok.
    destruct (k_sym kw); cbn [snd]; [|lia].
    pose proof (check_symmetric_count (q_cbrt q) (q_m q) (q_n q) (q_A q) (q_draws q) cnt). lia.
Qed.

(** ** C36: exact arithmetic, no preconditioner: the reported residual is the true one. *)
Definition start {K : Scal} {W : Vs K} (kw : cg_kw W) (rhs : vc W) : vc W :=
  match k_guess kw with Some g => g | None => vzeros (vlen rhs) end.

Lemma cg_init_res0 : forall dv sq (E : IPS) (q : kprob (exactV dv sq E)) kw o (b : iv E) cnt,
  lin (q_A q : iv E -> iv E) -> sq_ok sq -> q_P q = None ->
  c_res (cg_init q kw o b cnt) = inorm (isub b (q_A q (@start _ (exactV dv sq E) kw b) : iv E)).
Proof.
  intros dv sq E q kw o b cnt L SQ NP.
  destruct (res_init dv sq E q kw b L o cnt) as [I1 I2 I3 _].
  rewrite I3, I2. unfold prec. rewrite NP, (abs_sq sq E SQ), I1, inorm_subC. f_equal. f_equal.
  unfold cg_init, opmul, start. destruct (k_guess kw); reflexivity.
Qed.

Theorem C36_residual : forall dv sq (E : IPS) (q : kprob (exactV dv sq E)) kw o (b : iv E) cnt fuel o' cnt',
  lin (q_A q : iv E -> iv E) -> sq_ok sq -> q_P q = None -> k_sym kw = false ->
  cg_solve fuel q o b kw cnt = Ok (o', cnt') ->
  let resid x := inorm (isub b (q_A q x : iv E)) in
  exists x : iv E,
    g_x o' = Some (x : vc (exactV dv sq E)) /\
    g_residNorm o' = Some (resid x : sc (exactK dv sq)) /\
    g_residNorm0 o' = Some (resid (@start _ (exactV dv sq E) kw b) : sc (exactK dv sq)) /\
    (g_conv o' = true <->
     (resid x <= Rmax (q_abstol q) (q_reltol q * resid (@start _ (exactV dv sq E) kw b)))%R).
Proof.
  intros dv sq E q kw o b cnt fuel o' cnt' L SQ NP NS H resid.
  assert (S0 : sym_ok q kw cnt = (true, cnt)) by (unfold sym_ok; rewrite NS; reflexivity).
  apply cg_solve_res in H; [|exact L|rewrite S0; reflexivity].
  rewrite S0 in H. cbn [snd] in H. destruct H as [st [RI [F [-> [-> C]]]]].
  rewrite (cg_init_res0 dv sq E q kw o b cnt L SQ NP) in *.
  exists (c_x st). cbn [g_x g_residNorm g_residNorm0 g_conv cg_final].
  assert (HR : c_res st = resid (c_x st)).
  { destruct RI as [I1 I2 I3 _]. rewrite I3, I2. unfold prec. rewrite NP, (abs_sq sq E SQ), I1.
    apply inorm_subC. }
  rewrite HR. split; [reflexivity|]. split; [reflexivity|]. split; [reflexivity|].
  unfold thr. rewrite Rmax_pymax. cbn. apply Rleb_true.
Qed.

Theorem C36_history : forall dv sq (E : IPS) (q : kprob (exactV dv sq E)) kw o (b : iv E) cnt fuel o' cnt',
  lin (q_A q : iv E -> iv E) -> sq_ok sq -> q_P q = None -> k_sym kw = false ->
  cg_solve fuel q o b kw cnt = Ok (o', cnt') ->
  exists xs : list (iv E),
    (exists x, g_x o' = Some x /\ xs <> [] /\ last xs x = x) /\
    g_hist o' = g_hist o ++ map (fun x => inorm (isub b (q_A q x : iv E))) xs /\
    (k_sit kw = true -> g_iters o' = g_iters o ++ xs).
Proof.
  intros dv sq E q kw o b cnt fuel o' cnt' L SQ NP NS H.
  assert (S0 : sym_ok q kw cnt = (true, cnt)) by (unfold sym_ok; rewrite NS; reflexivity).
  apply cg_solve_res in H; [|exact L|rewrite S0; reflexivity].
  rewrite S0 in H. cbn [snd] in H. destruct H as [st [RI [F [-> [-> C]]]]].
  destruct RI as [_ _ _ [xs [H1 [H2 [H3 [H4 _]]]]]].
  exists xs. cbn [g_x g_hist g_iters cg_final].
  split; [exists (c_x st); auto|]. split; [|exact H4].
  rewrite H1. f_equal. apply map_ext. intro x. unfold prec. rewrite NP, (abs_sq sq E SQ).
  apply inorm_subC.
Qed.

(** ** C37: symmetric positive definite systems. *)
Definition steps_of {E : IPS} (l : list (iv E)) : list (iv E) :=
  match l with
  | [] => []
  | x :: t => map (fun p => isub (snd p) (fst p)) (combine l t)
  end.

Lemma combine_seq : forall {X} (f : nat -> X) st k,
  combine (map f (seq st (S k))) (map f (seq (S st) k)) =
  map (fun i => (f i, f (S i))) (seq st k).
Proof.
  intros X f st k. revert st. induction k as [|k IH]; intro st; [reflexivity|].
  cbn [seq map combine]. f_equal. specialize (IH (S st)). cbn [seq map] in IH.
  destruct k; [reflexivity|]. cbn [seq map combine] in *. exact IH.
Qed.

Lemma steps_seq : forall {E : IPS} (f : nat -> iv E) k,
  steps_of (map f (seq 0 (S k))) = map (fun i => isub (f (S i)) (f i)) (seq 0 k).
Proof.
  intros E f k.
  assert (H := combine_seq f 0 k). cbn [seq map] in H.
  unfold steps_of. cbn [seq map]. rewrite H, map_map. reflexivity.
Qed.

Lemma FOP_seq : forall {X} (P : X -> X -> Prop) (f : nat -> X) k,
  (forall i j, (i < j < k)%nat -> P (f i) (f j)) -> ForallOrdPairs P (map f (seq 0 k)).
Proof.
  intros X P f k H.
  assert (G : forall len st, (st + len <= k)%nat -> ForallOrdPairs P (map f (seq st len))).
  { induction len as [|len IH]; intros st Hl; cbn; [constructor|].
    constructor; [|apply IH; lia].
    apply Forall_forall. intros v Hv. apply in_map_iff in Hv as [j [<- Hj]].
    apply in_seq in Hj. apply H. lia. }
  apply G. lia.
Qed.

Lemma Sorted_seq : forall {X} (P : X -> X -> Prop) (f : nat -> X) k,
  (forall i, (S i < k)%nat -> P (f i) (f (S i))) -> Sorted P (map f (seq 0 k)).
Proof.
  intros X P f k H.
  assert (G : forall len st, (st + len <= k)%nat -> Sorted P (map f (seq st len))).
  { induction len as [|len IH]; intros st Hl; cbn; [constructor|].
    constructor; [apply IH; lia|].
    destruct len; cbn; [constructor|]. constructor. apply H. lia. }
  apply G. lia.
Qed.

(** Convergence within [n] iterations ([n] bounds the dimension; the budget allows [n]
    iterations).  The iterations made are the products minus the one for the guess. *)
Theorem C37_converges : forall dv sq (E : IPS) n (q : kprob (exactV dv sq E)) kw o (b : iv E) cnt fuel o' cnt',
  dv_ok dv -> sq_ok sq -> dim_le E n ->
  selfadj (q_A q : iv E -> iv E) -> posdef (q_A q : iv E -> iv E) ->
  q_P q = None -> (0 <= (q_abstol q : R))%R -> k_sym kw = false ->
  (n + (match k_guess kw with Some _ => 1 | None => 0 end)
     <= match k_mmax kw with Some m => m | None => 2 * ilen b end)%nat ->
  cg_solve fuel q o b kw cnt = Ok (o', cnt') ->
  g_conv o' = true /\ g_def o' = Some true /\
  (g_nmv o' <= n + match k_guess kw with Some _ => 1 | None => 0 end)%nat.
Proof.
  intros dv sq E n q kw o b cnt fuel o' cnt' DV SQ DM SA PA NP AT NS HM H.
  assert (S0 : sym_ok q kw cnt = (true, cnt)) by (unfold sym_ok; rewrite NS; reflexivity).
  destruct (cg_spd_converges dv sq E q kw b DV SQ SA PA NP AT n fuel o cnt o' cnt' DM) as
    [k [Hk [CV [DF [NM _]]]]]; [left; exact HM|rewrite S0; reflexivity|exact H|].
  split; [exact CV|]. split; [exact DF|]. rewrite NM. unfold g01. lia.
Qed.

(** The same for R^n with the default budget 2n and with or without a guess. *)
Theorem C37_Rn_default : forall dv sq n (q : kprob (exactV dv sq (Rn n))) kw o (b : iv (Rn n)) cnt,
  dv_ok dv -> sq_ok sq ->
  selfadj (q_A q : iv (Rn n) -> iv (Rn n)) -> posdef (q_A q : iv (Rn n) -> iv (Rn n)) ->
  q_P q = None -> (0 <= (q_abstol q : R))%R -> k_sym kw = false -> k_mmax kw = None ->
  exists o' cnt', cg_solve (2 * n + 1) q o b kw cnt = Ok (o', cnt') /\
    g_conv o' = true /\ g_def o' = Some true /\
    (g_nmv o' <= n + match k_guess kw with Some _ => 1 | None => 0 end)%nat.
Proof.
  intros dv sq n q kw o b cnt DV SQ SA PA NP AT NS MX.
  destruct (cg_solve_term q kw b (2 * n + 1) o cnt) as [o' [cnt' H]].
  { rewrite MX. cbn. lia. }
  exists o', cnt'. split; [exact H|].
  assert (S0 : sym_ok q kw cnt = (true, cnt)) by (unfold sym_ok; rewrite NS; reflexivity).
  destruct (cg_spd_converges dv sq (Rn n) q kw b DV SQ SA PA NP AT n (2 * n + 1) o cnt o' cnt' (Rn_dim n)) as
    [k [Hk [CV [DF [NM _]]]]]; [|rewrite S0; reflexivity|exact H|].
  - unfold g01. rewrite MX. cbn. destruct (k_guess kw); lia.
  - split; [exact CV|]. split; [exact DF|]. rewrite NM. unfold g01. lia.
Qed.

(** Stored residuals are mutually orthogonal, stored steps are A-conjugate and the energy norm
    of the error decreases strictly along the stored iterates. *)
Theorem C37_orthogonality : forall dv sq (E : IPS) n (q : kprob (exactV dv sq E)) kw o (b : iv E) cnt fuel o' cnt',
  dv_ok dv -> sq_ok sq -> dim_le E n ->
  selfadj (q_A q : iv E -> iv E) -> posdef (q_A q : iv E -> iv E) ->
  q_P q = None -> (0 <= (q_abstol q : R))%R -> k_sym kw = false ->
  (n + (match k_guess kw with Some _ => 1 | None => 0 end)
     <= match k_mmax kw with Some m => m | None => 2 * ilen b end)%nat ->
  k_sit kw = true -> k_sres kw = true ->
  cg_solve fuel q o b kw cnt = Ok (o', cnt') ->
  exists xs rs : list (iv E),
    g_iters o' = g_iters o ++ xs /\ g_resids o' = g_resids o ++ rs /\
    rs = map (fun x => isub (q_A q x) b) xs /\
    (length xs <= n + 1)%nat /\
    ForallOrdPairs (fun u v => ip u v = 0%R) rs /\
    ForallOrdPairs (fun u v => ip u (q_A q v) = 0%R) (steps_of xs) /\
    (forall xstar, q_A q xstar = b ->
       Sorted (fun u v => (v < u)%R)
         (map (fun x => ip (isub x xstar) (q_A q (isub x xstar) : iv E)) xs)).
Proof.
  intros dv sq E n q kw o b cnt fuel o' cnt' DV SQ DM SA PA NP AT NS HM SI SR H.
  assert (S0 : sym_ok q kw cnt = (true, cnt)) by (unfold sym_ok; rewrite NS; reflexivity).
  destruct (cg_spd_converges dv sq E q kw b DV SQ SA PA NP AT n fuel o cnt o' cnt' DM) as
    [k [Hk [_ [_ [_ [_ [_ [AL [_ [HI HR]]]]]]]]]]; [left; exact HM|rewrite S0; reflexivity|exact H|].
  assert (LA := adjoint_lin _ _ SA).
  assert (OA := orth_all dv sq E q b LA (cgx0 dv sq E kw) DV SA PA k AL).
  eexists. eexists. split; [apply HI; exact SI|]. split; [apply HR; exact SR|].
  split; [rewrite map_map; apply map_ext; intro i; apply (sR_true dv sq E q b LA)|].
  split; [rewrite map_length, seq_length; lia|].
  split; [|split].
  - apply FOP_seq. intros i j Hij. apply (oi_rr _ _ _ _ _ _ _ (OA j ltac:(lia))). lia.
  - rewrite steps_seq. apply FOP_seq. intros i j Hij.
    rewrite !sX_S.
    replace (isub (iadd (sX dv sq E q b (cgx0 dv sq E kw) i) _) _) with
      (iscale (al dv sq E q b (cgx0 dv sq E kw) i) (sP dv sq E q b (cgx0 dv sq E kw) i)) by veq.
    replace (isub (iadd (sX dv sq E q b (cgx0 dv sq E kw) j) _) _) with
      (iscale (al dv sq E q b (cgx0 dv sq E kw) j) (sP dv sq E q b (cgx0 dv sq E kw) j)) by veq.
    rewrite (lin_scale _ LA). ipx.
    rewrite (oi_pp _ _ _ _ _ _ _ (OA j ltac:(lia)) i ltac:(lia)). ring.
  - intros xs HX. rewrite map_map. apply Sorted_seq. intros i Hi.
    assert (ALi : alive dv sq E q b (cgx0 dv sq E kw) i) by (intros t Ht; apply AL; lia).
    assert (Ni : sR dv sq E q b (cgx0 dv sq E kw) i <> izero) by (apply AL; lia).
    pose proof (energy_step dv sq E q b LA (cgx0 dv sq E kw) DV SA PA i xs ALi Ni HX) as ES.
    cbn zeta in ES. rewrite ES.
    pose proof (pAp_pos dv sq E q b (cgx0 dv sq E kw) PA i (OA i ltac:(lia)) Ni) as PP.
    pose proof (ip_nz _ Ni) as RP.
    assert (0 < ip (sR dv sq E q b (cgx0 dv sq E kw) i) (sR dv sq E q b (cgx0 dv sq E kw) i) *
                ip (sR dv sq E q b (cgx0 dv sq E kw) i) (sR dv sq E q b (cgx0 dv sq E kw) i) /
      ip (sP dv sq E q b (cgx0 dv sq E kw) i) (q_A q (sP dv sq E q b (cgx0 dv sq E kw) i)))%R.
    { apply Rdiv_lt_0_compat; [apply Rmult_lt_0_compat; exact RP|exact PP]. }
    lra.
Qed.

(** ** C38: negative curvature. *)
Theorem C38_sound : forall (K : Scal) (W : Vs K) (q : kprob W) o rhs kw cnt fuel o' cnt',
  k_sym kw = false ->
  cg_solve fuel q o rhs kw cnt = Ok (o', cnt') ->
  (g_def o' = Some true /\ g_inf o' = g_inf o) \/
  (g_def o' = Some false /\ k_curv kw = true /\
   exists p, g_inf o' = Some p /\
     (sltb (smul (slit (1 # 100000000)) (sabs (vdot p (q_A q p)))) (simag (vdot p (q_A q p))) = true \/
      sleb (sreal (vdot p (q_A q p))) s0 = true)).
Proof.
  intros K W q o rhs kw cnt fuel o' cnt' NS H.
  assert (S0 : sym_ok q kw cnt = (true, cnt)) by (unfold sym_ok; rewrite NS; reflexivity).
  apply cg_solve_flow in H; [|rewrite S0; reflexivity].
  rewrite S0 in H. cbn [snd] in H. destruct H as [st [F [-> [-> _]]]]. cbn [g_def g_inf cg_final].
  pose proof (fi_inf _ _ _ _ _ _ F) as FI.
  destruct (c_def st); [left; auto|right].
  destruct FI as [p [E1 [E2 E3]]]. split; [reflexivity|]. split; [exact E3|].
  exists p. split; [exact E1|]. apply orb_prop in E2. exact E2.
Qed.

Theorem C38_direction : forall dv sq (E : IPS) (q : kprob (exactV dv sq E)) kw o (b : iv E) cnt fuel o' cnt',
  k_sym kw = false ->
  cg_solve fuel q o b kw cnt = Ok (o', cnt') -> g_def o' = Some false ->
  exists p : iv E, g_inf o' = Some (p : vc (exactV dv sq E)) /\ (ip p (q_A q p : iv E) <= 0)%R.
Proof.
  intros dv sq E q kw o b cnt fuel o' cnt' NS H D.
  assert (S0 : sym_ok q kw cnt = (true, cnt)) by (unfold sym_ok; rewrite NS; reflexivity).
  apply cg_solve_flow in H; [|rewrite S0; reflexivity].
  rewrite S0 in H. cbn [snd] in H. destruct H as [st [F [-> [-> _]]]]. cbn [g_def g_inf cg_final] in *.
  injection D as D. pose proof (fi_inf _ _ _ _ _ _ F) as FI. rewrite D in FI.
  destruct FI as [p [E1 [E2 _]]]. exists p. split; [exact E1|].
  apply curv_bad_neg in E2. exact E2.
Qed.

Theorem C38_definite : forall dv sq (E : IPS) (q : kprob (exactV dv sq E)) kw o (b : iv E) cnt fuel o' cnt',
  dv_ok dv -> sq_ok sq -> posdef (q_A q : iv E -> iv E) -> q_P q = None ->
  (0 <= (q_abstol q : R))%R -> k_sym kw = false ->
  cg_solve fuel q o b kw cnt = Ok (o', cnt') -> g_def o' = Some true.
Proof.
  intros dv sq E q kw o b cnt fuel o' cnt' DV SQ PA NP AT NS H.
  eapply cg_solve_pd; eauto. unfold sym_ok. rewrite NS. reflexivity.
Qed.

Theorem C38_check_off : forall (K : Scal) (W : Vs K) (q : kprob W) o rhs kw cnt fuel o' cnt',
  k_sym kw = false -> k_curv kw = false ->
  cg_solve fuel q o rhs kw cnt = Ok (o', cnt') -> g_def o' = Some true /\ g_inf o' = g_inf o.
Proof.
  intros K W q o rhs kw cnt fuel o' cnt' NS CO H.
  destruct (C38_sound K W q o rhs kw cnt fuel o' cnt' NS H) as [T|[_ [F _]]]; [exact T|congruence].
Qed.

(** ** C39: preconditioned CG. *)
Theorem C39_residual : forall dv sq (E : IPS) (q : kprob (exactV dv sq E)) kw o (b : iv E) cnt fuel o' cnt' P,
  lin (q_A q : iv E -> iv E) -> q_P q = Some P -> k_sym kw = false ->
  cg_solve fuel q o b kw cnt = Ok (o', cnt') ->
  exists x : iv E, g_x o' = Some (x : vc (exactV dv sq E)) /\
    let r := isub (q_A q x : iv E) b in
    g_residNorm o' = Some (Rabs (sq (ip r (P r : iv E))) : sc (exactK dv sq)).
Proof.
  intros dv sq E q kw o b cnt fuel o' cnt' P L HP NS H.
  assert (S0 : sym_ok q kw cnt = (true, cnt)) by (unfold sym_ok; rewrite NS; reflexivity).
  apply cg_solve_res in H; [|exact L|rewrite S0; reflexivity].
  rewrite S0 in H. cbn [snd] in H. destruct H as [st [RI [F [-> [-> C]]]]].
  exists (c_x st). cbn [g_x g_residNorm cg_final]. split; [reflexivity|].
  destruct RI as [I1 I2 I3 _]. rewrite I3, I2, I1. unfold prec. rewrite HP. reflexivity.
Qed.

(** The real line as an inner product space, for 1x1 systems. *)
Lemma R1_ext : forall u v : R, (forall w, (w * u = w * v)%R) -> u = v.
Proof. intros u v H. specialize (H 1%R). lra. Qed.
Definition R1 : IPS :=
  mkIPS R (fun _ => 1%nat) 0%R Rplus Rmult Rmult Rmult_comm Rmult_plus_distr_l
    (fun w a u => ltac:(ring)) Rmult_0_r (fun u => Rle_0_sqr u) R1_ext.

Definition one_by_one (a m : R) : kprob (exactV Rdiv sqrt R1) :=
  @mkprob (exactK Rdiv sqrt) (exactV Rdiv sqrt R1) 1 1 (fun x => (a * x)%R)
    (Some (fun r => (m * r)%R)) (1 / 100000000)%R (1 / 1000000)%R (fun x => x) [].

Lemma cg_solve_nosym : forall {K : Scal} {W : Vs K} fuel (q : kprob W) o rhs kw cnt,
  k_sym kw = false ->
  cg_solve fuel q o rhs kw cnt =
  let st := cg_init q kw o rhs cnt in
  match while fuel (cg_cond q kw rhs (c_res st)) (cg_body q kw) st with
  | Ok st' => Ok (cg_final q (c_res st) st', c_cnt st')
  | Err e => Err e
  end.
Proof. intros K W fuel q o rhs kw cnt H. unfold cg_solve. rewrite H. reflexivity. Qed.

Lemma sqrt_ge : forall a b, (0 <= b -> b * b <= a -> b <= sqrt a)%R.
Proof.
  intros a b Hb H. rewrite <- (sqrt_square b Hb). apply sqrt_le_1_alt. exact H.
Qed.
Lemma sqrt_le : forall a b, (0 <= b -> a <= b * b -> sqrt a <= b)%R.
Proof.
  intros a b Hb H. rewrite <- (sqrt_square b Hb). apply sqrt_le_1_alt. exact H.
Qed.

Lemma thr_small : forall a m r, (Rabs r <= 2 -> (thr (one_by_one a m) r : R) <= 1 / 100000)%R.
Proof.
  intros a m r H. unfold thr. rewrite Rmax_pymax. cbn [q_abstol q_reltol one_by_one].
  apply Rmax_lub; [lra|]. cbn. unfold Rabs in H. destruct (Rcase_abs r); lra.
Qed.

Lemma cond_go : forall a m r0 (st : cg_st (exactV Rdiv sqrt R1)),
  (Rabs r0 <= 2)%R -> (1 / 10 <= (c_res st : R))%R -> (c_nmv st < 2)%nat -> c_def st = true ->
  cg_cond (one_by_one a m) cg_kw0 (1%R : vc (exactV Rdiv sqrt R1)) r0 st = true.
Proof.
  intros a m r0 st H0 H1 H2 H3. unfold cg_cond. rewrite H3. cbn [k_mmax cg_kw0 mmax].
  change (2 * vlen _)%nat with 2%nat. apply Nat.ltb_lt in H2. rewrite H2.
  unfold sgtb. cbn [sltb exactK].
  replace (Rltb (thr (one_by_one a m) r0) (c_res st)) with true; [reflexivity|].
  symmetry. apply Rltb_true. pose proof (thr_small a m r0 H0). lra.
Qed.

Lemma cond_stop : forall a m r0 (st : cg_st (exactV Rdiv sqrt R1)), (2 <= c_nmv st)%nat ->
  cg_cond (one_by_one a m) cg_kw0 (1%R : vc (exactV Rdiv sqrt R1)) r0 st = false.
Proof.
  intros a m r0 st H. unfold cg_cond. cbn [k_mmax cg_kw0 mmax].
  change (2 * vlen _)%nat with 2%nat. apply Nat.ltb_ge in H. rewrite H, andb_false_r. reflexivity.
Qed.

(** One step of the model on a 1x1 system, in closed form. *)
Lemma body11 : forall a m (st : cg_st (exactV Rdiv sqrt R1)), (0 < (c_p st : R) * (a * c_p st))%R ->
  cg_body (one_by_one a m) cg_kw0 st =
  let p : R := c_p st in let ry : R := c_ry st in
  let al := (ry / (p * (a * p)))%R in
  let r := (c_r st + al * (a * p))%R in
  let ry' := (r * (m * r))%R in
  Ok (@mkst _ (exactV Rdiv sqrt R1) (c_x st + al * p)%R r (ry' / ry * p + -1 * r)%R ry'
        (Rabs (sqrt ry')) (c_nmv st + 1) (c_def st) (c_cnt st + 1)
        (c_hist st ++ [Rabs (sqrt ry')]) (c_resids st) (c_iters st) (c_inf st)).
Proof.
  intros a m st H. unfold cg_body, opmul. cbn [q_A one_by_one].
  assert (C := curv_ok Rdiv sqrt _ H). cbn beta iota zeta.
  change (vdot (c_p st) _) with ((c_p st : R) * (a * c_p st))%R. rewrite C. cbn [k_curv cg_kw0 andb].
  reflexivity.
Qed.

(** With the exact inverse as preconditioner CG needs one step; this code has not converged
    when the default budget of 2n products is spent. *)
Theorem C39_exact_inverse_refuted : exists a m : R,
  (a * m = 1 /\ 0 < a)%R /\
  exists o', cg_solve 3 (one_by_one a m) cg_new (1%R : vc (exactV Rdiv sqrt R1)) cg_kw0 0 = Ok (o', 2%nat) /\
    g_conv o' = false /\ exists x : R, g_x o' = Some (x : vc (exactV Rdiv sqrt R1)) /\ (a * x <> 1)%R.
Proof.
  exists 2%R, (1 / 2)%R. split; [lra|].
  set (st0 := cg_init (one_by_one 2 (1 / 2)) cg_kw0 cg_new (1%R : vc (exactV Rdiv sqrt R1)) 0).
  assert (Er : c_r st0 = (-1)%R :> R) by (cbn; ring).
  assert (Ep : c_p st0 = 1%R :> R) by (cbn; unfold ineg; cbn; ring).
  assert (Ey : c_ry st0 = (1 / 2)%R :> R) by (cbn; unfold ineg; cbn; field).
  assert (Es : c_res st0 = Rabs (sqrt (1 / 2)) :> R).
  { rewrite <- Ey. reflexivity. }
  assert (B0 : (0 <= sqrt (1 / 2) <= 2)%R) by (split; [apply sqrt_pos|apply sqrt_le; lra]).
  assert (Ab : (Rabs (c_res st0) <= 2)%R).
  { rewrite Es, Rabs_Rabsolu, Rabs_pos_eq; lra. }
  rewrite cg_solve_nosym by reflexivity. cbn zeta. fold st0.
  cbn [while].
  rewrite cond_go; [|exact Ab| |cbn; lia|reflexivity].
  2:{ rewrite Es, Rabs_pos_eq by lra. apply sqrt_ge; lra. }
  rewrite body11 by (rewrite Ep; lra). cbn zeta.
  set (st1 := mkst _ _ _ _ _ _ _ _ _ _ _ _). cbv beta iota.
  assert (Ex1 : c_x st1 = (1 / 4)%R :> R).
  { unfold st1. cbn [c_x]. rewrite Ep, Ey. cbn. field. }
  assert (Er1 : c_r st1 = (-1 / 2)%R :> R).
  { unfold st1. cbn [c_r]. rewrite Ep, Ey, Er. field. }
  assert (Ey1 : c_ry st1 = (1 / 8)%R :> R).
  { change (c_ry st1) with ((c_r st1 : R) * (1 / 2 * c_r st1))%R. rewrite Er1. field. }
  assert (Ep1 : c_p st1 = (3 / 4)%R :> R).
  { change (c_p st1) with ((c_ry st1 : R) / c_ry st0 * c_p st0 + -1 * c_r st1)%R.
    rewrite Er1, Ey1, Ey, Ep. field. }
  assert (Es1 : c_res st1 = Rabs (sqrt (1 / 8)) :> R).
  { rewrite <- Ey1. reflexivity. }
  rewrite cond_go; [|exact Ab| |cbn; lia|reflexivity].
  2:{ rewrite Es1, Rabs_pos_eq by apply sqrt_pos. apply sqrt_ge; lra. }
  rewrite body11 by (rewrite Ep1; lra). cbn zeta.
  set (st2 := mkst _ _ _ _ _ _ _ _ _ _ _ _). cbv beta iota.
  assert (Ex2 : c_x st2 = (1 / 3)%R :> R).
  { unfold st2. cbn [c_x]. rewrite Ep1, Ey1, Ex1. field. }
  assert (Er2 : c_r st2 = (-1 / 3)%R :> R).
  { unfold st2. cbn [c_r]. rewrite Ep1, Ey1, Er1. field. }
  assert (Ey2 : c_ry st2 = (1 / 18)%R :> R).
  { change (c_ry st2) with ((c_r st2 : R) * (1 / 2 * c_r st2))%R. rewrite Er2. field. }
  rewrite cond_stop by (cbn; lia).
  eexists. split; [reflexivity|]. cbn [g_conv g_x cg_final]. split.
  - cbn [sleb exactK]. apply Rleb_false.
    change (c_res st2) with (Rabs (sqrt (c_ry st2))). rewrite Ey2.
    rewrite (Rabs_pos_eq (sqrt (1 / 18))) by apply sqrt_pos.
    pose proof (thr_small 2 (1 / 2) (c_res st0) Ab).
    assert (1 / 5 <= sqrt (1 / 18))%R by (apply sqrt_ge; lra). lra.
  - exists (1 / 3)%R. split; [f_equal; exact Ex2|lra].
Qed.

(** With a positive definite preconditioner a positive definite operator can be reported
    indefinite (and the zero vector as its direction of negative curvature). *)
Theorem C38_preconditioned_refuted : exists a m : R,
  (0 < a /\ 0 < m)%R /\
  exists o', cg_solve 3 (one_by_one a m) cg_new (1%R : vc (exactV Rdiv sqrt R1)) cg_kw0 0 = Ok (o', 2%nat) /\
    g_def o' = Some false /\ g_inf o' = Some (0%R : vc (exactV Rdiv sqrt R1)) /\ g_conv o' = false.
Proof.
  exists 1%R, 2%R. split; [lra|].
  set (st0 := cg_init (one_by_one 1 2) cg_kw0 cg_new (1%R : vc (exactV Rdiv sqrt R1)) 0).
  assert (Er : c_r st0 = (-1)%R :> R) by (cbn; ring).
  assert (Ep : c_p st0 = 1%R :> R) by (cbn; unfold ineg; cbn; ring).
  assert (Ey : c_ry st0 = 2%R :> R) by (cbn; unfold ineg; cbn; field).
  assert (Es : c_res st0 = Rabs (sqrt 2) :> R) by (rewrite <- Ey; reflexivity).
  assert (B0 : (1 <= sqrt 2 <= 2)%R) by (split; [apply sqrt_ge; lra|apply sqrt_le; lra]).
  assert (Ab : (Rabs (c_res st0) <= 2)%R).
  { rewrite Es, Rabs_Rabsolu, Rabs_pos_eq; lra. }
  rewrite cg_solve_nosym by reflexivity. cbn zeta. fold st0.
  cbn [while].
  rewrite cond_go; [|exact Ab| |cbn; lia|reflexivity].
  2:{ rewrite Es, Rabs_pos_eq by lra. lra. }
  rewrite body11 by (rewrite Ep; lra). cbn zeta.
  set (st1 := mkst _ _ _ _ _ _ _ _ _ _ _ _). cbv beta iota.
  assert (Er1 : c_r st1 = 1%R :> R).
  { unfold st1. cbn [c_r]. rewrite Ep, Ey, Er. field. }
  assert (Ey1 : c_ry st1 = 2%R :> R).
  { change (c_ry st1) with ((c_r st1 : R) * (2 * c_r st1))%R. rewrite Er1. ring. }
  assert (Ep1 : c_p st1 = 0%R :> R).
  { change (c_p st1) with ((c_ry st1 : R) / c_ry st0 * c_p st0 + -1 * c_r st1)%R.
    rewrite Er1, Ey1, Ey, Ep. field. }
  assert (Es1 : c_res st1 = Rabs (sqrt 2) :> R) by (rewrite <- Ey1; reflexivity).
  rewrite cond_go; [|exact Ab| |cbn; lia|reflexivity].
  2:{ rewrite Es1, Rabs_pos_eq by lra. lra. }
  assert (B2 : cg_body (one_by_one 1 2) cg_kw0 st1 =
    Ok (mkst (c_x st1) (c_r st1) (c_p st1) (c_ry st1) (c_res st1) 2 false 2
             (c_hist st1) (c_resids st1) (c_iters st1) (Some (c_p st1)))).
  { unfold cg_body, opmul. cbn [q_A one_by_one]. cbn beta iota zeta.
    change (vdot (c_p st1) _) with ((c_p st1 : R) * (1 * c_p st1))%R.
    replace (@curv_bad (exactK Rdiv sqrt) (c_p st1 * (1 * c_p st1))%R) with true; [reflexivity|].
    symmetry. unfold curv_bad. apply orb_true_iff. right. cbn [sleb sreal exactK].
    apply Rleb_true. rewrite Ep1. cbn [s0 exactK]. lra. }
  rewrite B2. cbv beta iota. rewrite cond_stop by (cbn; lia).
  eexists. split; [reflexivity|]. cbn [g_conv g_def g_inf cg_final c_def c_inf c_res].
  split; [reflexivity|]. split; [f_equal; exact Ep1|].
  apply Rleb_false. rewrite Es1. rewrite (Rabs_pos_eq (sqrt 2)) by lra.
  pose proof (thr_small 1 2 (c_res st0) Ab). lra.
Qed.

(** ** C40: histories and repeated solves. *)
Theorem C40_histories : forall (K : Scal) (W : Vs K) (q : kprob W) o rhs kw cnt fuel o' cnt',
  k_sym kw = false ->
  cg_solve fuel q o rhs kw cnt = Ok (o', cnt') ->
  exists iterations lh lr lx,
    (* an iteration is a product that is neither the guess's nor the failed curvature test's *)
    (g_nmv o' = iterations + (match k_guess kw with Some _ => 1 | None => 0 end)
                + (match g_def o' with Some false => 1 | _ => 0 end))%nat /\
    g_hist o' = g_hist o ++ lh /\ length lh = (iterations + 1)%nat /\
    Some (last lh s0) = g_residNorm o' /\
    g_resids o' = g_resids o ++ lr /\ length lr = (if k_sres kw then iterations + 1 else 0)%nat /\
    g_iters o' = g_iters o ++ lx /\ length lx = (if k_sit kw then iterations + 1 else 0)%nat.
Proof.
  intros K W q o rhs kw cnt fuel o' cnt' NS H.
  assert (S0 : sym_ok q kw cnt = (true, cnt)) by (unfold sym_ok; rewrite NS; reflexivity).
  apply cg_solve_flow in H; [|rewrite S0; reflexivity].
  rewrite S0 in H. cbn [snd] in H. destruct H as [st [F [-> [-> _]]]].
  cbn [g_nmv g_def g_hist g_resids g_iters g_residNorm cg_final].
  destruct F as [F1 F2 F3 F4 [lh [H1 [H2 [H3 H4]]]] [lr [R1' R2]] [lx [X1 [X2 _]]] F8].
  unfold g01 in *.
  exists (c_nmv st - (match k_guess kw with Some _ => 1 | None => 0 end) - (if c_def st then 0 else 1))%nat,
    lh, lr, lx.
  split. { destruct (k_guess kw), (c_def st); try specialize (F4 eq_refl); lia. }
  split; [exact H1|]. split; [exact H4|].
  split.
  { f_equal. rewrite <- H3. destruct lh as [|a t]; [congruence|].
    clear. revert a. induction t as [|c t IH]; intro a; [reflexivity|].
    change (last (c :: t) s0 = last (c :: t) (c_res st)). apply IH. }
  split; [exact R1'|]. split; [exact R2|]. split; [exact X1|exact X2].
Qed.

(** Any sequence of solves on one solver object only ever extends its histories. *)
Fixpoint solves {K : Scal} {W : Vs K} (fuel : nat) (q : kprob W) (o : cg_obj W)
  (calls : list (vc W * cg_kw W)) (cnt : nat) : res (cg_obj W * nat) :=
  match calls with
  | [] => Ok (o, cnt)
  | (rhs, kw) :: t =>
      match cg_solve fuel q o rhs kw cnt with
      | Ok (o', cnt') => solves fuel q o' t cnt'
      | Err e => Err e
      end
  end.

Theorem C40_accumulate : forall (K : Scal) (W : Vs K) (q : kprob W) fuel calls o cnt o' cnt',
  Forall (fun c => k_sym (snd c) = false) calls ->
  solves fuel q o calls cnt = Ok (o', cnt') ->
  exists lh lr lx,
    g_hist o' = g_hist o ++ lh /\ g_resids o' = g_resids o ++ lr /\ g_iters o' = g_iters o ++ lx /\
    (length calls <= length lh)%nat.
Proof.
  intros K W q fuel calls. induction calls as [|[rhs kw] t IH]; intros o cnt o' cnt' NS H; cbn in H.
  - injection H as <- <-. exists [], [], []. rewrite !app_nil_r. cbn. auto.
  - destruct (cg_solve fuel q o rhs kw cnt) as [[o1 c1]|e] eqn:E1; [|discriminate].
    inversion NS as [|? ? N1 N2]; subst. cbn in N1.
    destruct (C40_histories _ _ _ _ _ _ _ _ _ _ N1 E1) as
      [it [lh [lr [lx [_ [A1 [A2 [_ [A3 [_ [A4 _]]]]]]]]]]].
    destruct (IH _ _ _ _ N2 H) as [lh' [lr' [lx' [B1 [B2 [B3 B4]]]]]].
    exists (lh ++ lh'), (lr ++ lr'), (lx ++ lx').
    rewrite B1, B2, B3, A1, A3, A4, !app_assoc, app_length. cbn.
    split; [reflexivity|]. split; [reflexivity|]. split; [reflexivity|]. lia.
Qed.

(** A failed symmetry check leaves every attribute of the previous solve in place. *)
Theorem C40_failed_check : forall (K : Scal) (W : Vs K) (q : kprob W) o rhs kw cnt fuel,
  k_sym kw = true ->
  fst (check_symmetric (q_cbrt q) (q_m q) (q_n q) (q_A q) (q_draws q) cnt) = false ->
  exists cnt', cg_solve fuel q o rhs kw cnt = Ok (o, cnt').
Proof.
  intros K W q o rhs kw cnt fuel KS CF. rewrite cg_solve_unfold. unfold sym_ok.
  rewrite KS, CF. cbn. eauto.
Qed.

(** ** Examples: the hypotheses are met by a concrete 2x2 system. *)
Definition A2 (v : rv 2) : rv 2 :=
  let '(x, (y, _)) := v in ((2 * x + y)%R, ((x + 3 * y)%R, tt)).

Example ex_A2_sym : @selfadj (Rn 2) A2.
Proof. intros [u1 [u2 []]] [v1 [v2 []]]. cbn. ring. Qed.
Example ex_A2_pd : @posdef (Rn 2) A2.
Proof.
  intros [x [y []]] N. cbn.
  assert (Hp : (0 < x * x + y * y)%R).
  { destruct (Req_dec x 0) as [->|]; [destruct (Req_dec y 0) as [->|]|]; try nra.
    exfalso. apply N. reflexivity. }
  nra.
Qed.

Definition q2 : kprob (exactV Rdiv sqrt (Rn 2)) :=
  @mkprob (exactK Rdiv sqrt) (exactV Rdiv sqrt (Rn 2)) 2 2 A2 None 0%R 0%R (fun x => x) [].
Definition kw2 (g : option (rv 2)) : cg_kw (exactV Rdiv sqrt (Rn 2)) :=
  @mkkw (exactK Rdiv sqrt) (exactV Rdiv sqrt (Rn 2)) g None false true true true.

Lemma Rdiv_ok : dv_ok Rdiv.
Proof. intros a b _. reflexivity. Qed.
Lemma sqrt_ok : sq_ok sqrt.
Proof. intros a _. reflexivity. Qed.

(** With zero tolerances CG finds the exact solution of A2 x = b for every b and guess. *)
Example ex_C37 : forall (b g : rv 2), exists o' cnt' x,
  cg_solve 5 q2 cg_new (b : vc (exactV Rdiv sqrt (Rn 2))) (kw2 (Some g)) 0 = Ok (o', cnt') /\
  g_conv o' = true /\ (cnt' <= 3)%nat /\ g_x o' = Some (x : vc (exactV Rdiv sqrt (Rn 2))) /\ A2 x = b.
Proof.
  intros b g.
  destruct (C37_Rn_default Rdiv sqrt 2 q2 (kw2 (Some g)) cg_new b 0 Rdiv_ok sqrt_ok
    ex_A2_sym ex_A2_pd eq_refl (Rle_refl 0) eq_refl eq_refl) as [o' [cnt' [H [CV [_ NM]]]]].
  destruct (C36_residual Rdiv sqrt (Rn 2) q2 (kw2 (Some g)) cg_new b 0 _ o' cnt'
    (adjoint_lin _ _ ex_A2_sym) sqrt_ok eq_refl eq_refl H) as [x [HX [_ [_ CI]]]].
  apply CI in CV.
  destruct (C35_counts _ _ q2 cg_new _ (kw2 (Some g)) 0 _ o' cnt' eq_refl H) as [HC _].
  exists o', cnt', x. split; [exact H|]. split; [apply CI; exact CV|].
  split; [cbn in NM; rewrite HC; exact NM|]. split; [exact HX|].
  cbn [q_abstol q_reltol q2] in CV. rewrite Rmult_0_l, Rmax_left in CV by lra.
  pose proof (inorm_pos (isub (b : iv (Rn 2)) (A2 x : iv (Rn 2)))) as NN.
  assert (Z : isub (b : iv (Rn 2)) (A2 x : iv (Rn 2)) = izero).
  { apply inorm_zero. apply Rle_antisym; assumption. }
  apply (@ip_ext (Rn 2)). intro w.
  assert (W0 : ip w (isub (b : iv (Rn 2)) (A2 x : iv (Rn 2))) = 0%R) by (rewrite Z; apply ip_zero).
  rewrite ip_sub in W0. lra.
Qed.

(** A run that does report indefiniteness: A = -1. *)
Example ex_C38 : exists o',
  cg_solve 3 (@mkprob (exactK Rdiv sqrt) (exactV Rdiv sqrt R1) 1 1 (fun x => (- x)%R) None
      (1 / 100000000)%R (1 / 1000000)%R (fun x => x) [])
    cg_new (1%R : vc (exactV Rdiv sqrt R1)) cg_kw0 0 = Ok (o', 1%nat) /\
  g_def o' = Some false.
Proof.
  set (q := mkprob _ _ _ _ _ _ _ _).
  set (st0 := cg_init q cg_kw0 cg_new (1%R : vc (exactV Rdiv sqrt R1)) 0).
  assert (Ey : c_ry st0 = 1%R :> R) by (cbn; unfold ineg; cbn; ring).
  assert (Ep : c_p st0 = 1%R :> R) by (cbn; unfold ineg; cbn; ring).
  assert (Es : c_res st0 = 1%R :> R).
  { change (c_res st0) with (Rabs (sqrt (c_ry st0))). rewrite Ey, sqrt_1. apply Rabs_R1. }
  rewrite cg_solve_nosym by reflexivity. cbn zeta. fold st0.
  cbn [while].
  assert (C : cg_cond q cg_kw0 (1%R : vc (exactV Rdiv sqrt R1)) (c_res st0) st0 = true).
  { unfold cg_cond. apply andb_true_iff. split; [|reflexivity].
    apply andb_true_iff. split; [|reflexivity].
    unfold sgtb. apply Rltb_true. unfold thr. rewrite Rmax_pymax, Es.
    cbn [q_abstol q_reltol q]. apply Rmax_lub_lt; cbn; lra. }
  rewrite C. unfold cg_body at 1. unfold opmul. cbn [q_A q]. cbn beta iota zeta.
  replace (curv_bad _) with true.
  2:{ symmetry. unfold curv_bad. apply orb_true_iff. right.
      change (Rleb ((c_p st0 : R) * - c_p st0) 0 = true). apply Rleb_true. rewrite Ep. lra. }
  cbn [k_curv cg_kw0 andb].
  unfold cg_cond at 1. cbn [c_def]. rewrite andb_false_r.
  eexists. split; reflexivity.
Qed.

(** A failing symmetry check: shape 1x2. *)
Example ex_C40_failed : forall o,
  exists cnt', cg_solve 1 (@mkprob (exactK Rdiv sqrt) (exactV Rdiv sqrt R1) 1 2 (fun x => x) None
      0%R 0%R (fun x => x) []) o (1%R : vc (exactV Rdiv sqrt R1))
      (@mkkw (exactK Rdiv sqrt) (exactV Rdiv sqrt R1) None None true true false false) 0 = Ok (o, cnt').
Proof. intro o. apply C40_failed_check; reflexivity. Qed.

Print Assumptions C35_terminates.
Print Assumptions C35_counts.
Print Assumptions C35_counts_check.
Print Assumptions C36_residual.
Print Assumptions C36_history.
Print Assumptions C37_converges.
Print Assumptions C37_Rn_default.
Print Assumptions C37_orthogonality.
Print Assumptions C38_sound.
Print Assumptions C38_direction.
Print Assumptions C38_definite.
Print Assumptions C38_check_off.
Print Assumptions C38_preconditioned_refuted.
Print Assumptions C39_residual.
Print Assumptions C39_exact_inverse_refuted.
Print Assumptions C40_histories.
Print Assumptions C40_accumulate.
Print Assumptions C40_failed_check.
