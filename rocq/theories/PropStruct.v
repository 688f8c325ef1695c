(** * C85: [StructuredLBFGSOperator], pykrylov/linop/lbfgs.py:256-350, on repaired objects. *)
From Coq Require Import List ZArith QArith Qreals Reals Lra Lia Bool Arith.
From Verif Require Import Base Num LbfgsModel LbfgsRing LbfgsMath LbfgsProof LbfgsFwd PropLbfgs StructModel StructProof.
Import ListNotations.

(** ** The memory; no assumption on the arithmetic. *)
Lemma nth_lastn : forall (A : Type) n (l : list A) j, nth_error (lastn n l) j = nth_error l (length l - n + j).
Proof.
  intros A n l j. unfold lastn. generalize (length l - n)%nat as m. clear n.
  intro m. revert l. induction m as [|m IH]; intro l; [reflexivity|].
  destruct l as [|x l]; [destruct j; reflexivity|]. cbn. apply IH.
Qed.

Section Mem.
Context {K : Scal} {W : Vs K}.
Notation V := (vc W).
Implicit Types (st : slb W) (ts : list (V * V * V)).

(** The memory holds the triples [ts], oldest first: the filled slots, in the order in which a
    product visits them, are those of [ts]. *)
Definition holds3 st ts : Prop :=
  ring (t_lb st) (map fst ts) /\
  forall j t, nth_error ts j = Some t ->
    t_yd st (up (t_lb st) (l_np (t_lb st) - length ts + j)) = snd t.

(** Without the attribute [matvec], which no constructor of the package creates, [store] fails
    before it changes anything. *)
Theorem C85_store_fails : forall st s y yd, str_store None st s y yd = Err AttributeError.
Proof. reflexivity. Qed.

(** Without room for a pair, an accepted triple is an IndexError (an assignment to column 0 of an
    array with no columns) and a rejected one is ignored. *)
Theorem C85_store_no_room : forall (mv : slb W -> V -> res (V * slb W)) st s y yd Bs st1,
  mv st s = Ok (Bs, st1) -> l_np (t_lb st1) = 0%nat ->
  str_store (Some mv) st s y yd =
    if sgeb (sadd (vdot s y) (ssqrt (smul (vdot s y) (vdot s Bs)))) (slit (1 # 100000000)) then Err IndexError else Ok st1.
Proof.
  intros mv st s y yd Bs st1 M N. unfold str_store. rewrite M. cbn [rbind]. rewrite N.
  change (@st_threshold K) with (@slit K (1 # 100000000)). destruct (sgeb _ _); reflexivity.
Qed.

(** With it, [store] either leaves the memory alone or makes the triple the newest one, and it
    does so exactly when y's + (y's s'Bs)^(1/2) >= 1e-8. *)
Theorem C85_store : forall (mv : slb W -> V -> res (V * slb W)) st ts s y yd Bs st1,
  holds3 st ts -> mv st s = Ok (Bs, st1) ->
  (exists al ga, st1 = mkslb (set_ag (t_lb st) al ga) (t_yd st)) ->
  exists st', str_store (Some mv) st s y yd = Ok st' /\
    let test := sgeb (sadd (vdot s y) (ssqrt (smul (vdot s y) (vdot s Bs)))) (slit (1 # 100000000)) in
    (test = false -> holds3 st' ts) /\
    (test = true -> holds3 st' (lastn (l_np (t_lb st)) (ts ++ [(s, y, yd)]))).
Proof.
  intros mv st ts s y yd Bs st1 [RG YD] M (al & ga & E1). unfold str_store. rewrite M. cbn [rbind].
  pose proof (rg_ins _ _ RG) as B.
  change (slit (1 # 100000000)) with (@st_threshold K).
  destruct (sgeb (sadd (vdot s y) (ssqrt (smul (vdot s y) (vdot s Bs)))) st_threshold) eqn:T.
  - subst st1. cbn [t_lb t_yd l_np set_ag].
    destruct (Nat.eqb_spec (l_np (t_lb st)) 0) as [Z|Z]; [lia|].
    eexists. split; [reflexivity|]. cbv zeta. split; [discriminate|]. intros _.
    set (np := l_np (t_lb st)) in *. set (i := l_insert (t_lb st)) in *.
    pose proof (ring_put (set_ag (t_lb st) al ga) _ s y (ring_ag _ _ al ga RG)) as RP.
    change (l_np (set_ag (t_lb st) al ga)) with np in RP.
    assert (ML : map fst (lastn np (ts ++ [(s, y, yd)])) = lastn np (map fst ts ++ [(s, y)])).
    { unfold lastn. rewrite <- skipn_map, map_app, !app_length, map_length. reflexivity. }
    split.
    + rewrite ML. exact RP.
    + cbn [t_lb t_yd l_np]. fold np.
      assert (LEN : length (lastn np (ts ++ [(s, y, yd)])) = Nat.min np (length ts + 1)).
      { rewrite lastn_len, app_length. reflexivity. }
      rewrite LEN. intros j t N. rewrite nth_lastn, app_length in N. cbn [length] in N.
      assert (LT : (length ts + 1 - np + j < length (ts ++ [(s, y, yd)]))%nat).
      { apply nth_error_Some. rewrite N. discriminate. }
      rewrite app_length in LT. cbn [length] in LT.
      unfold up. cbn [l_insert l_np set_ag]. fold np i.
      rewrite Nat.add_mod_idemp_l by exact Z.
      pose proof (rg_len _ _ RG) as LE. rewrite map_length in LE. fold np in LE.
      destruct (lt_dec (length ts + 1 - np + j) (length ts)) as [O|O].
      * rewrite nth_error_app1 in N by exact O. specialize (YD _ _ N). unfold up in YD. fold np i in YD.
        replace (i + 1 + (np - Nat.min np (length ts + 1) + j))%nat
          with (i + (np - length ts + (length ts + 1 - np + j)))%nat by lia.
        unfold upd. destruct (Nat.eqb_spec ((i + (np - length ts + (length ts + 1 - np + j))) mod np) i) as [X|X]; [|exact YD].
        exfalso. assert (X' : ((i + (np - length ts + (length ts + 1 - np + j))) mod np = (i + 0) mod np)%nat).
        { rewrite X, Nat.add_0_r. symmetry. apply Nat.mod_small. exact B. }
        apply mod_inj in X'; lia.
      * rewrite nth_error_app2 in N by lia.
        replace (length ts + 1 - np + j - length ts)%nat with 0%nat in N by lia.
        cbn in N. injection N as <-.
        replace (i + 1 + (np - Nat.min np (length ts + 1) + j))%nat with (i + 1 * np)%nat by lia.
        rewrite Nat.mod_add by exact Z. rewrite Nat.mod_small by exact B.
        unfold upd. rewrite Nat.eqb_refl. reflexivity.
  - exists st1. split; [reflexivity|]. cbv zeta. split; [|discriminate]. intros _. subst st1.
    split; [exact (ring_ag _ _ al ga RG)|exact YD].
Qed.

(** A product succeeds, unless [npairs] is zero and scaling is on; it changes nothing but [gamma]. *)
Theorem C85_product_quiet : forall st v r st', str_matvec st v = Ok (r, st') ->
  exists al ga, st' = mkslb (set_ag (t_lb st) al ga) (t_yd st).
Proof.
  intros st v r st' H. unfold str_matvec in H.
  destruct (scal_gamma (t_lb st)) as [o|]; [|discriminate]. cbn [rbind] in H. injection H as _ <-. eauto.
Qed.
End Mem.

(** ** The product, in exact arithmetic. *)
Section Exact.
Variables (dv : R -> R -> R) (sq : R -> R) (E : IPS).
Hypothesis (DV : dv_ok dv) (SQ : sq_ok sq).
Notation WW := (exactV dv sq E).
Notation V := (iv E).
Local Open Scope R_scope.

(** The scaling factor: s'y / y'y of the newest triple, or one. *)
Definition sgam (sc : bool) (ts : list (V * V * V)) : R :=
  match sc, rev ts with
  | true, (s, y, _) :: _ => ip s y / ip y y
  | _, _ => 1
  end.
Lemma sgam_gam : forall sc ts, sgam sc ts = tgam E sc ts.
Proof.
  intros sc ts. unfold sgam, tgam, gam. rewrite <- map_rev.
  destruct sc; [|reflexivity]. destruct (rev ts) as [|[[s y] yd] l]; reflexivity.
Qed.

(** An object in use: its memory holds [ts], whose curvatures s'y are positive, and [gamma] is one
    if scaling is off. *)
Record inuse (st : slb WW) (ts : list (V * V * V)) : Prop := mkuse {
  iu_mem : @holds3 _ WW st ts;
  iu_cur : Forall (fun t => 0 < ip (fst (fst t)) (snd (fst t))) ts;
  iu_gam : l_scal (t_lb st) = false -> l_gamma (t_lb st) = 1 }.

Theorem C85_product : forall st ts (v : V), inuse st ts ->
  let g := sgam (l_scal (t_lb st)) ts in
  Forall (fun f => ip (snd (fst f)) (fst (fst f)) <> 0) (factors g ts) ->
  exists st', str_matvec st v = Ok (iadd (iscale (/ g) v) (sumf dgw (factors g ts) v) : vc WW, st').
Proof.
  intros st ts v [M C G] g NS. unfold g in *. rewrite sgam_gam in *.
  apply (str_ok dv sq E DV SQ st ts v M C G). exact NS.
Qed.

Theorem C85_symmetric : forall st ts u v Au Av st1 st2, inuse st ts ->
  Forall (fun f => ip (snd (fst f)) (fst (fst f)) <> 0) (factors (sgam (l_scal (t_lb st)) ts) ts) ->
  str_matvec st u = Ok (Au : vc WW, st1) -> str_matvec st v = Ok (Av, st2) ->
  ip (u : V) Av = ip (Au : V) v.
Proof.
  intros st ts u v Au Av st1 st2 I NS A B.
  destruct (C85_product st ts u I NS) as (s1 & X). rewrite X in A. injection A as <- _.
  destruct (C85_product st ts v I NS) as (s2 & Y). rewrite Y in B. injection B as <- _.
  ipx. rewrite sumf_sym. ring.
Qed.

Lemma one_gam : forall sc s y yd, 0 < ip s y -> 0 < sgam sc [(s, y, yd)].
Proof.
  intros sc s y yd C. rewrite sgam_gam. apply gam_pos. constructor; [exact C|constructor].
Qed.

(** One triple in memory: the matrix is the intended one.  It satisfies B s = yd, and when yd = y
    it is the BFGS matrix of the compact operator. *)
Theorem C85_one : forall st s y yd (v : V), inuse st [(s, y, yd)] ->
  let g := sgam (l_scal (t_lb st)) [(s, y, yd)] in
  exists st' st'',
    str_matvec st v = Ok (Sof (/ g) [(s, y, yd)] v : vc WW, st') /\
    str_matvec st s = Ok (yd, st'') /\
    (yd = y -> str_matvec st v = Ok (Bof (/ g) [(s, y)] v : vc WW, st')).
Proof.
  intros st s y yd v I g. pose proof (iu_cur _ _ I) as C. apply Forall_inv in C. cbn [fst snd] in C.
  pose proof (one_gam (l_scal (t_lb st)) s y yd C) as GP. fold g in GP.
  destruct (curved_nz _ _ C) as [SN _]. pose proof (ip_nz _ SN) as SS.
  assert (COEF : sqrt (g * ip s y / ip s s) = sqrt (ip s y / ip s (iscale (/ g) s))).
  { f_equal. ipx. field. split; lra. }
  assert (FE : factors g [(s, y, yd)] =
      [(s, iadd y (iscale (sqrt (ip s y / ip s (iscale (/ g) s))) (iscale (/ g) s)), isub yd (iscale (/ g) s))]).
  { unfold factors. cbn [fold_left app next]. unfold sumf. cbn [fold_left]. rewrite COEF.
    do 2 f_equal; [f_equal|]; veq. }
  assert (BP : 0 < ip s (iscale (/ g) s)).
  { ipx. apply Rmult_lt_0_compat; [apply Rinv_0_lt_compat, GP|exact SS]. }
  assert (NS : Forall (fun f => ip (snd (fst f)) (fst (fst f)) <> 0) (factors g [(s, y, yd)])).
  { rewrite FE. constructor; [|constructor]. cbn [fst snd]. rewrite ip_addl, ip_scalel.
    rewrite (ip_sym y s), (ip_sym (iscale (/ g) s) s).
    pose proof (sqrt_pos (ip s y / ip s (iscale (/ g) s))) as P.
    assert (0 <= sqrt (ip s y / ip s (iscale (/ g) s)) * ip s (iscale (/ g) s)) by (apply Rmult_le_pos; lra). lra. }
  assert (EQ : forall w, iadd (iscale (/ g) w) (sumf dgw (factors g [(s, y, yd)]) w) = Sof (/ g) [(s, y, yd)] w).
  { intro w. rewrite FE. unfold sumf, Sof. cbn [fold_left Supd]. veq. }
  destruct (C85_product st _ v I NS) as (st1 & X). fold g in X. rewrite EQ in X.
  destruct (C85_product st _ s I NS) as (st2 & Y). fold g in Y. rewrite EQ in Y.
  exists st1, st2. split; [exact X|]. split.
  - etransitivity; [exact Y|]. do 2 f_equal. unfold Sof. cbn [fold_left]. apply supd_secant; assumption.
  - intros ->. etransitivity; [exact X|]. do 2 f_equal. unfold Sof, Bof. cbn [fold_left]. apply supd_bfgs; assumption.
Qed.

(** In general the structured secant equation B s = yd for the newest triple fails by exactly this
    vector, a combination of the [ad] of the older triples. *)
Theorem C85_defect : forall st old s y yd, inuse st (old ++ [(s, y, yd)]) ->
  let ts := (old ++ [(s, y, yd)])%list in
  let g := sgam (l_scal (t_lb st)) ts in
  Forall (fun f => ip (snd (fst f)) (fst (fst f)) <> 0) (factors g ts) ->
  exists st', str_matvec st s =
    Ok (iadd yd (sumf (fun f v => let '(sl, a, ad) := f in
                         iscale (ip a v / ip a sl * (1 - / ip a sl)) ad) (factors g old) s) : vc WW, st').
Proof.
  intros st old s y yd I ts g NS. destruct (C85_product st ts s I NS) as (st' & X). fold g in X.
  exists st'. etransitivity; [exact X|]. do 2 f_equal. clear X.
  unfold ts in *. rewrite factors_snoc in *. apply Forall_app in NS. destruct NS as [NO NN].
  apply Forall_inv in NN. rewrite sumf_snoc. cbn [next] in *.
  rewrite dgw_s by exact NN. clear NN.
  generalize dependent (factors g old). intros F NO.
  assert (X : sumf dgw F s = iadd (sumf code_dgw F s)
     (sumf (fun f v => let '(sl, a, ad) := f in iscale (ip a v / ip a sl * (1 - / ip a sl)) ad) F s)).
  { induction F as [|f F IH] using rev_ind; [unfold sumf; cbn; veq|].
    apply Forall_app in NO. destruct NO as [N1 N2]. apply Forall_inv in N2.
    rewrite !sumf_snoc, (IH N1). destruct f as [[sl a] ad]. cbn [fst snd] in N2.
    rewrite (code_err sl a ad s N2). veq. }
  rewrite X. veq.
Qed.
End Exact.

(** ** Examples. *)
Section Ex.
Local Open Scope R_scope.
Notation D2 := (exactV Rdiv sqrt (Rn 2)).
(** Two slots, both filled; slot 1 holds the older triple. *)
Definition st85 : slb D2 :=
  @mkslb _ D2
    (@mklb _ D2 2 false 1 (fun _ => vec 1 0) (fun _ => vec 1 0) (fun _ => 0) (fun _ => Some (rvdot (n:=2) (vec 1 0) (vec 1 0))) 1)
    (fun k => if Nat.eqb k 1 then vec 1 1 else vec 3 0).
Definition ts85 : list (rv 2 * rv 2 * rv 2) := [(vec 1 0, vec 1 0, vec 1 1); (vec 1 0, vec 1 0, vec 3 0)].

Lemma use85 : inuse Rdiv sqrt (Rn 2) st85 ts85.
Proof.
  split.
  - split.
    + split; cbn; [lia|lia|intros; lia|].
      intros [|[|[|j]]] p H; try discriminate; injection H as <-; repeat split.
    + intros [|[|[|j]]] t H; try discriminate; injection H as <-; reflexivity.
  - repeat constructor; cbn; lra.
  - reflexivity.
Qed.

Lemma sqrt_one : forall x, x = 1 -> sqrt x = 1.
Proof. intros x ->. apply sqrt_1. Qed.
Lemma fac85_1 : factors (E := Rn 2) 1 [(vec 1 0, vec 1 0, vec 1 1)] = [(vec 1 0, vec 2 0, vec 0 1)].
Proof.
  unfold factors. cbn [fold_left app next]. rewrite sqrt_one by (cbn; field).
  unfold sumf, vec. cbn. repeat match goal with |- context [(?a, ?b) = _] => f_equal | |- _ :: _ = _ => f_equal end; try reflexivity; try (cbn; field).
Qed.
Lemma fac85 : factors (E := Rn 2) 1 ts85 = [(vec 1 0, vec 2 0, vec 0 1); (vec 1 0, vec 2 (1/2), vec 2 (-1/2))].
Proof.
  unfold ts85. change [(vec 1 0, vec 1 0, vec 1 1); (vec 1 0, vec 1 0, vec 3 0)]
    with ([(vec 1 0, vec 1 0, vec 1 1)] ++ [(vec 1 0, vec 1 0, vec 3 0)]).
  rewrite (factors_snoc (E := Rn 2)), fac85_1. cbn [app]. f_equal. f_equal. cbn [next].
  rewrite sqrt_one by (cbn; field). unfold sumf, vec. cbn. repeat match goal with |- context [(?a, ?b) = _] => f_equal | |- _ :: _ = _ => f_equal end; try reflexivity; try (cbn; field).
Qed.
Lemma ns85 : Forall (fun f : rv 2 * rv 2 * rv 2 => rvdot (snd (fst f)) (fst (fst f)) <> 0) (factors (E := Rn 2) 1 ts85).
Proof. rewrite fac85. repeat constructor; cbn; lra. Qed.

(** With two triples in memory the secant equation B s = yd for the newest one fails. *)
Theorem C85_secant_refuted : exists (st : slb D2) old s y yd Bs st',
  inuse Rdiv sqrt (Rn 2) st (old ++ [(s, y, yd)]) /\ length old = 1%nat /\
  str_matvec st s = Ok (Bs, st') /\ Bs <> yd.
Proof.
  destruct (C85_defect Rdiv sqrt (Rn 2) DV2 SQ2 st85 [(vec 1 0, vec 1 0, vec 1 1)] (vec 1 0) (vec 1 0) (vec 3 0) use85 ns85)
    as (st' & X).
  exists st85, [(vec 1 0, vec 1 0, vec 1 1)], (vec 1 0), (vec 1 0), (vec 3 0). do 2 eexists.
  split; [exact use85|]. split; [reflexivity|]. split; [exact X|].
  change (l_scal (t_lb st85)) with false. cbn [sgam].
  rewrite fac85_1. unfold sumf, vec. cbn. intro Y. injection Y as _ Y. lra.
Qed.

Example ex_C85 : inuse Rdiv sqrt (Rn 2) st85 ts85 /\
  Forall (fun f => ip (i := Rn 2) (snd (fst f)) (fst (fst f)) <> 0)
         (factors (E := Rn 2) (sgam (Rn 2) (l_scal (t_lb st85)) ts85) ts85).
Proof. split; [exact use85|exact ns85]. Qed.

(** One triple, scaling on. *)
Definition st85a : slb D2 :=
  @mkslb _ D2
    (@mklb _ D2 3 true 1 (fun _ => vec 1 2) (fun _ => vec 2 1) (fun _ => 0)
           (fun k => if Nat.eqb k 0 then Some (rvdot (n:=2) (vec 1 2) (vec 2 1)) else None) 1)
    (fun _ => vec 5 7).
Example ex_C85_one : inuse Rdiv sqrt (Rn 2) st85a [(vec 1 2, vec 2 1, vec 5 7)].
Proof.
  split.
  - split.
    + split; cbn; [lia|lia| |].
      * intros [|[|j]] H; [reflexivity|reflexivity|lia].
      * intros [|j] p H; [|destruct j; discriminate]. injection H as <-. repeat split.
    + intros [|j] t H; [|destruct j; discriminate]. injection H as <-. reflexivity.
  - repeat constructor; cbn; lra.
  - discriminate.
Qed.
End Ex.

Print Assumptions C85_store_fails.
Print Assumptions C85_store.
Print Assumptions C85_product_quiet.
Print Assumptions C85_product.
Print Assumptions C85_symmetric.
Print Assumptions C85_one.
Print Assumptions C85_defect.
Print Assumptions C85_secant_refuted.
Print Assumptions C85_store_no_room.
