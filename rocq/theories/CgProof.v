(** * Proofs about the CG model. *)
From Coq Require Import List ZArith QArith Qreals Reals Lia Lra Bool.
From Verif Require Import Base Num ToolsModel CgModel.
Import ListNotations.

(** ** Any arithmetic: termination, counting, histories. *)
Section Flow.
Context {K : Scal} {W : Vs K}.
Notation S := (sc K).
Notation V := (vc W).
Variables (q : kprob W) (kw : cg_kw W) (rhs : V).
Notation mx := (mmax (k_mmax kw) rhs).
Definition g01 : nat := match k_guess kw with Some _ => 1 | None => 0 end.

Lemma cg_init_nmv : forall o cnt, c_nmv (cg_init q kw o rhs cnt) = g01.
Proof. intros. unfold cg_init, g01. destruct (k_guess kw); reflexivity. Qed.
Lemma cg_init_cnt : forall o cnt, c_cnt (cg_init q kw o rhs cnt) = (cnt + g01)%nat.
Proof. intros. unfold cg_init, g01, opmul. destruct (k_guess kw); cbn; lia. Qed.
Lemma cg_init_def : forall o cnt, c_def (cg_init q kw o rhs cnt) = true.
Proof. intros. unfold cg_init. destruct (k_guess kw); reflexivity. Qed.
Lemma cg_init_hist : forall o cnt,
  c_hist (cg_init q kw o rhs cnt) = g_hist o ++ [c_res (cg_init q kw o rhs cnt)].
Proof. intros. unfold cg_init. destruct (k_guess kw); reflexivity. Qed.
Lemma cg_init_inf : forall o cnt, c_inf (cg_init q kw o rhs cnt) = g_inf o.
Proof. intros. unfold cg_init. destruct (k_guess kw); reflexivity. Qed.

Lemma cg_body_ok : forall st, exists st', cg_body q kw st = Ok st'.
Proof. intro st. unfold cg_body, opmul. cbn. destruct (k_curv kw && _); eauto. Qed.

Lemma cg_body_count : forall st st', cg_body q kw st = Ok st' ->
  c_nmv st' = (c_nmv st + 1)%nat /\ c_cnt st' = (c_cnt st + 1)%nat.
Proof.
  intros st st' H. unfold cg_body, opmul in H. cbn in H.
  destruct (k_curv kw && _); injection H as <-; cbn; auto.
Qed.

Lemma cg_cond_true : forall res0 st, cg_cond q kw rhs res0 st = true ->
  sgtb (c_res st) (thr q res0) = true /\ (c_nmv st < mx)%nat /\ c_def st = true.
Proof.
  intros res0 st H. unfold cg_cond in H. apply andb_prop in H as [H D].
  apply andb_prop in H as [H L]. apply Nat.ltb_lt in L. auto.
Qed.

Lemma cg_loop_term : forall fuel res0 st, (mx - c_nmv st < fuel)%nat ->
  exists st', while fuel (cg_cond q kw rhs res0) (cg_body q kw) st = Ok st'.
Proof.
  intros fuel res0 st H.
  apply (while_term _ _ (fun _ => True) (fun st => mx - c_nmv st)%nat); [|exact I|exact H].
  intros s _ C. destruct (cg_body_ok s) as [s' E]. exists s'. split; [exact E|]. split; [exact I|].
  apply cg_cond_true in C as [_ [L _]]. apply cg_body_count in E as [E _]. lia.
Qed.

(** [cg_solve] splits into "symmetry check failed" and "ran the loop". *)
Definition sym_ok (cnt : nat) : bool * nat :=
  if k_sym kw then check_symmetric (q_cbrt q) (q_m q) (q_n q) (q_A q) (q_draws q) cnt
  else (true, cnt).

Lemma cg_solve_unfold : forall fuel o cnt,
  cg_solve fuel q o rhs kw cnt =
  if negb (fst (sym_ok cnt)) then Ok (o, snd (sym_ok cnt))
  else let st := cg_init q kw o rhs (snd (sym_ok cnt)) in
       match while fuel (cg_cond q kw rhs (c_res st)) (cg_body q kw) st with
       | Ok st' => Ok (cg_final q (c_res st) st', c_cnt st')
       | Err e => Err e
       end.
Proof.
  intros. unfold cg_solve, sym_ok.
  destruct (if k_sym kw then _ else _) as [ok c]. reflexivity.
Qed.

Lemma cg_solve_term : forall fuel o cnt, (mx < fuel)%nat ->
  exists o' cnt', cg_solve fuel q o rhs kw cnt = Ok (o', cnt').
Proof.
  intros fuel o cnt H. rewrite cg_solve_unfold.
  destruct (negb _); [eauto|].
  cbn zeta.
  destruct (cg_loop_term fuel (c_res (cg_init q kw o rhs (snd (sym_ok cnt))))
              (cg_init q kw o rhs (snd (sym_ok cnt)))) as [st' E]; [lia|].
  rewrite E. eauto.
Qed.

(** What every run of the loop preserves, in any arithmetic. *)
Record flow_inv (o : cg_obj W) (cnt0 : nat) (st : cg_st W) : Prop := {
  fi_cnt : c_cnt st = (cnt0 + c_nmv st)%nat;
  fi_lo : (g01 <= c_nmv st)%nat;
  fi_hi : (c_nmv st <= Nat.max g01 mx)%nat;
  fi_pos : c_def st = false -> (g01 + 1 <= c_nmv st)%nat;
  fi_hist : exists l, c_hist st = g_hist o ++ l /\ l <> [] /\ last l (c_res st) = c_res st /\
      length l = (c_nmv st - g01 - (if c_def st then 0 else 1) + 1)%nat;
  fi_resids : exists l, c_resids st = g_resids o ++ l /\
      length l = if k_sres kw then (c_nmv st - g01 - (if c_def st then 0 else 1) + 1)%nat else 0%nat;
  fi_iters : exists l, c_iters st = g_iters o ++ l /\
      length l = (if k_sit kw then (c_nmv st - g01 - (if c_def st then 0 else 1) + 1)%nat else 0%nat)
      /\ (k_sit kw = true -> last l (c_x st) = c_x st);
  fi_inf : if c_def st then c_inf st = g_inf o
           else exists p, c_inf st = Some p /\ curv_bad (vdot p (q_A q p)) = true /\
                          k_curv kw = true }.

Lemma flow_init : forall o cnt, flow_inv o cnt (cg_init q kw o rhs cnt).
Proof.
  intros o cnt. split.
  - rewrite cg_init_cnt, cg_init_nmv. reflexivity.
  - rewrite cg_init_nmv. lia.
  - rewrite cg_init_nmv. lia.
  - rewrite cg_init_def. discriminate.
  - rewrite cg_init_hist. exists [c_res (cg_init q kw o rhs cnt)].
    rewrite cg_init_nmv, cg_init_def. cbn. repeat split; try discriminate; try lia.
  - rewrite cg_init_nmv, cg_init_def, Nat.sub_diag. unfold cg_init.
    destruct (k_guess kw), (k_sres kw); cbn;
      try (eexists [_]; split; reflexivity);
      (exists []; rewrite app_nil_r; split; reflexivity).
  - rewrite cg_init_nmv, cg_init_def, Nat.sub_diag. unfold cg_init.
    destruct (k_guess kw), (k_sit kw); cbn;
      try (eexists [_]; split; [reflexivity|]; split; reflexivity);
      (exists []; rewrite app_nil_r; split; [reflexivity|]; split; [reflexivity|discriminate]).
  - rewrite cg_init_def. apply cg_init_inf.
Qed.

Lemma last_snoc : forall {X} (l : list X) a d, last (l ++ [a]) d = a.
Proof. intros. apply last_last. Qed.

Lemma flow_step : forall o cnt0 res0 st st', flow_inv o cnt0 st ->
  cg_cond q kw rhs res0 st = true -> cg_body q kw st = Ok st' -> flow_inv o cnt0 st'.
Proof.
  intros o cnt0 res0 st st' [I1 I2 I3 I4 I5 I6 I7 I8] C H.
  apply cg_cond_true in C as [_ [L D]].
  rewrite D in *.
  unfold cg_body, opmul in H. cbn in H.
  destruct (k_curv kw && curv_bad _) eqn:EC; injection H as <-.
  - split; cbn.
    + lia.
    + lia.
    + lia.
    + intros _. lia.
    + destruct I5 as [l [E [N [La Le]]]]. exists l. repeat split; auto. lia.
    + destruct I6 as [l [E Le]]. exists l. split; [exact E|]. destruct (k_sres kw); lia.
    + destruct I7 as [l [E [Le La]]]. exists l. split; [exact E|].
      split; [destruct (k_sit kw); lia|exact La].
    + apply andb_prop in EC as [EC EB]. eauto.
  - split; cbn; rewrite ?D.
    + lia.
    + lia.
    + lia.
    + discriminate.
    + destruct I5 as [l [E [N [La Le]]]]. eexists (l ++ [_]). rewrite E, <- app_assoc.
      split; [reflexivity|]. split; [destruct l; discriminate|].
      split; [apply last_snoc|]. rewrite app_length. cbn. lia.
    + destruct I6 as [l [E Le]]. rewrite E. destruct (k_sres kw).
      * eexists (l ++ [_]). rewrite <- app_assoc. split; [reflexivity|].
        rewrite app_length. cbn. lia.
      * exists l. auto.
    + destruct I7 as [l [E [Le La]]]. rewrite E. destruct (k_sit kw).
      * eexists (l ++ [_]). rewrite <- app_assoc. split; [reflexivity|].
        split; [rewrite app_length; cbn; lia|]. intros _. apply last_snoc.
      * exists l. split; [reflexivity|]. split; [exact Le|discriminate].
    + exact I8.
Qed.

(** Summary of a solve that passes (or skips) the symmetry check. *)
Lemma cg_solve_flow : forall fuel o cnt o' cnt',
  fst (sym_ok cnt) = true ->
  cg_solve fuel q o rhs kw cnt = Ok (o', cnt') ->
  exists st, flow_inv o (snd (sym_ok cnt)) st /\ cnt' = c_cnt st /\
    o' = cg_final q (c_res (cg_init q kw o rhs (snd (sym_ok cnt)))) st /\
    cg_cond q kw rhs (c_res (cg_init q kw o rhs (snd (sym_ok cnt)))) st = false.
Proof.
  intros fuel o cnt o' cnt' HS H. rewrite cg_solve_unfold, HS in H. cbn [negb] in H. cbn zeta in H.
  destruct (while fuel _ _ _) as [st|e] eqn:Ew; [|discriminate].
  injection H as <- <-. exists st.
  apply while_inv with (I := flow_inv o (snd (sym_ok cnt))) in Ew.
  - destruct Ew as [Iv C]. auto.
  - intros s s' Is C B. eapply flow_step; eauto.
  - apply flow_init.
Qed.
End Flow.

(** ** Exact arithmetic. *)
Section Exact.
Context (dv : R -> R -> R) (sq : R -> R) (E : IPS).
Notation KK := (exactK dv sq).
Notation WW := (exactV dv sq E).
Variables (q : kprob WW) (kw : cg_kw WW) (b : iv E).
Notation A := (q_A q : iv E -> iv E).
Hypothesis LA : lin A.
Local Open Scope R_scope.

(** The residual recurrence is exact, whatever the preconditioner and the division. *)
Record res_inv (o : cg_obj WW) (st : cg_st WW) : Prop := {
  ri_r : c_r st = isub (A (c_x st)) b :> iv E;
  ri_ry : c_ry st = ip (c_r st : iv E) (prec q (c_r st));
  ri_res : c_res st = Rabs (sq (c_ry st));
  ri_hist : exists xs : list (iv E),
      c_hist st = g_hist o ++
        map (fun x => Rabs (sq (ip (isub (A x) b) (prec q (isub (A x) b : iv E))))) xs /\
      last xs (c_x st) = c_x st /\ xs <> [] /\
      (k_sit kw = true -> c_iters st = g_iters o ++ xs) /\
      (k_sres kw = true -> c_resids st = g_resids o ++ map (fun x => prec q (isub (A x) b : iv E)) xs) }.

Lemma res_init : forall o cnt, res_inv o (cg_init q kw o b cnt).
Proof.
  intros o cnt.
  assert (G : forall (x r : vc WW) nmv c, r = isub (A x) b -> res_inv o
     (mkst x r (vneg r) (vdot r (prec q r)) (sabs (ssqrt (vdot r (prec q r)))) nmv true c
           (g_hist o ++ [sabs (ssqrt (vdot r (prec q r)))])
           (if k_sres kw then g_resids o ++ [prec q r] else g_resids o)
           (if k_sit kw then g_iters o ++ [x] else g_iters o) (g_inf o))).
  { intros x r nmv c ->. split; cbn [c_r c_x c_ry c_res c_hist c_iters c_resids]; try reflexivity.
    exists [x]. cbn [map last]. split; [reflexivity|]. split; [reflexivity|].
    split; [discriminate|]. split; intros ->; reflexivity. }
  unfold cg_init, opmul. destruct (k_guess kw) as [g|]; apply G; cbn.
  - veq.
  - rewrite (lin_zero A LA). veq.
Qed.

Lemma res_step : forall o st st', res_inv o st -> cg_body q kw st = Ok st' -> res_inv o st'.
Proof.
  intros o st st' [I1 I2 I3 I4] H. unfold cg_body, opmul in H. cbn beta iota zeta in H.
  destruct (k_curv kw && curv_bad _); injection H as <-.
  - split; cbn [c_r c_x c_ry c_res c_hist c_iters c_resids]; auto.
  - cbn. set (alpha := dv (c_ry st) (ip (c_p st : iv E) (q_A q (c_p st)))) in *.
    assert (HR : @iadd E (c_r st) (iscale alpha (q_A q (c_p st))) =
                 isub (A (iadd (c_x st) (iscale alpha (c_p st)))) b).
    { rewrite I1, (lin_add A LA), (lin_scale A LA). veq. }
    split; cbn [c_r c_x c_ry c_res c_hist c_iters c_resids]; try reflexivity.
    + exact HR.
    + destruct I4 as [xs [H1 [H2 [H3 [H4 H5]]]]].
      exists (xs ++ [iadd (c_x st) (iscale alpha (c_p st))]).
      rewrite !map_app. cbn [map]. rewrite HR.
      split; [rewrite H1, <- app_assoc; reflexivity|].
      split; [apply last_last|]. split; [destruct xs; discriminate|].
      split; intro F.
      * rewrite F, H4, <- app_assoc by exact F. reflexivity.
      * rewrite F, H5, <- app_assoc by exact F. reflexivity.
Qed.

Lemma cg_solve_res : forall fuel o cnt o' cnt',
  fst (sym_ok q kw cnt) = true ->
  cg_solve fuel q o b kw cnt = Ok (o', cnt') ->
  exists st, res_inv o st /\ flow_inv q kw b o (snd (sym_ok q kw cnt)) st /\ cnt' = c_cnt st /\
    o' = cg_final q (c_res (cg_init q kw o b (snd (sym_ok q kw cnt)))) st /\
    cg_cond q kw b (c_res (cg_init q kw o b (snd (sym_ok q kw cnt)))) st = false.
Proof.
  intros fuel o cnt o' cnt' HS H. rewrite cg_solve_unfold, HS in H. cbn [negb] in H. cbn zeta in H.
  destruct (while fuel _ _ _) as [st|e] eqn:Ew; [|discriminate].
  injection H as <- <-. exists st.
  apply while_inv with (I := fun s => res_inv o s /\ flow_inv q kw b o (snd (sym_ok q kw cnt)) s) in Ew.
  - destruct Ew as [[Iv Fv] C]. auto.
  - intros s s' [Is Fs] C B. split; [eapply res_step; eauto|eapply flow_step; eauto].
  - split; [apply res_init|apply flow_init].
Qed.

(** *** The exact conjugate gradient sequence. *)
Variable x0 : iv E.

Fixpoint cgseq (k : nat) : iv E * iv E * iv E :=
  match k with
  | O => let r := isub (A x0) b in (x0, r, ineg r)
  | S k => let '(x, r, p) := cgseq k in
           let a := dv (ip r r) (ip p (A p)) in
           let x' := iadd x (iscale a p) in
           let r' := iadd r (iscale a (A p)) in
           (x', r', isub (iscale (dv (ip r' r') (ip r r)) p) r')
  end.
Definition sX (k : nat) : iv E := fst (fst (cgseq k)).
Definition sR (k : nat) : iv E := snd (fst (cgseq k)).
Definition sP (k : nat) : iv E := snd (cgseq k).
Definition al (k : nat) : R := dv (ip (sR k) (sR k)) (ip (sP k) (A (sP k))).
Definition be (k : nat) : R := dv (ip (sR (S k)) (sR (S k))) (ip (sR k) (sR k)).

Lemma sX_S : forall k, sX (S k) = iadd (sX k) (iscale (al k) (sP k)).
Proof. intro k. unfold sX, al, sR, sP. cbn [cgseq]. destruct (cgseq k) as [[x r] p]. reflexivity. Qed.
Lemma sR_S : forall k, sR (S k) = iadd (sR k) (iscale (al k) (A (sP k))).
Proof. intro k. unfold al, sR, sP. cbn [cgseq]. destruct (cgseq k) as [[x r] p]. reflexivity. Qed.
Lemma sP_S : forall k, sP (S k) = isub (iscale (be k) (sP k)) (sR (S k)).
Proof. intro k. unfold be, sR, sP. cbn [cgseq]. destruct (cgseq k) as [[x r] p]. reflexivity. Qed.

Lemma sR_true : forall k, sR k = isub (A (sX k)) b.
Proof.
  induction k as [|k IH]; [reflexivity|].
  rewrite sR_S, sX_S, (lin_add A LA), (lin_scale A LA), IH. veq.
Qed.

Hypothesis DV : dv_ok dv.
Hypothesis SA : selfadj A.
Hypothesis PA : posdef A.

Definition alive (k : nat) : Prop := forall i, (i < k)%nat -> sR i <> izero.

Record orth_inv (k : nat) : Prop := {
  oi_rr : forall i, (i < k)%nat -> ip (sR i) (sR k) = 0;
  oi_pp : forall i, (i < k)%nat -> ip (sP i) (A (sP k)) = 0;
  oi_pr : ip (sP k) (sR k) = - ip (sR k) (sR k) }.

Lemma sP_nz : forall k, orth_inv k -> sR k <> izero -> sP k <> izero.
Proof.
  intros k [_ _ H] N Z. rewrite Z, ip_zerol in H. pose proof (ip_nz _ N). lra.
Qed.

Lemma pAp_pos : forall k, orth_inv k -> sR k <> izero -> 0 < ip (sP k) (A (sP k)).
Proof. intros k O N. apply PA. apply sP_nz; assumption. Qed.

Lemma orth_all : forall k, alive k -> (forall j, (j <= k)%nat -> orth_inv j).
Proof.
  induction k as [|k IH]; intros AL j Hj.
  - assert (j = 0)%nat by lia. subst j. split; intros; try lia.
    unfold sP, sR. cbn. rewrite ip_negl. reflexivity.
  - assert (ALk : alive k) by (intros i Hi; apply AL; lia).
    specialize (IH ALk).
    destruct (Nat.eq_dec j (S k)) as [->|Nj]; [|apply IH; lia].
    assert (Ok_ := IH k (le_n _)).
    assert (Nk : sR k <> izero) by (apply AL; lia).
    assert (Pk := pAp_pos k Ok_ Nk).
    assert (Rk := ip_nz _ Nk).
    assert (Ea : al k = ip (sR k) (sR k) / ip (sP k) (A (sP k))) by (apply DV; lra).
    assert (Eb : be k = ip (sR (S k)) (sR (S k)) / ip (sR k) (sR k)) by (apply DV; lra).
    (* r_i against A p_k *)
    assert (HrA : forall i, (i < k)%nat -> ip (sR i) (A (sP k)) = 0).
    { intros i Hi. destruct Ok_ as [_ Hpp _].
      destruct i as [|i].
      - assert (T := Hpp 0%nat Hi). change (sP 0) with (ineg (sR 0)) in T. rewrite ip_negl in T. lra.
      - assert (T1 := Hpp i ltac:(lia)). assert (T2 := Hpp (S i) Hi).
        rewrite sP_S in T2. ipx_in T2. rewrite T1 in T2. lra. }
    assert (HrkA : ip (sR k) (A (sP k)) = - ip (sP k) (A (sP k))).
    { destruct k as [|k'].
      - change (sP 0) with (ineg (sR 0)) at 2. rewrite ip_negl. ring.
      - assert (T := oi_pp _ Ok_ k' ltac:(lia)).
        assert (U : ip (sP (S k')) (A (sP (S k'))) =
                    be k' * ip (sP k') (A (sP (S k'))) - ip (sR (S k')) (A (sP (S k')))).
        { rewrite (sP_S k') at 1. ipx. reflexivity. }
        rewrite T in U. lra. }
    assert (Hrr : forall i, (i < S k)%nat -> ip (sR i) (sR (S k)) = 0).
    { intros i Hi. rewrite sR_S. ipx.
      destruct (Nat.eq_dec i k) as [->|Ni].
      - rewrite HrkA, Ea. field. lra.
      - rewrite HrA by lia. rewrite (oi_rr _ Ok_) by lia. ring. }
    assert (Hpr : ip (sP k) (sR (S k)) = 0).
    { rewrite sR_S. ipx. rewrite (oi_pr _ Ok_), Ea. field. lra. }
    split.
    + exact Hrr.
    + intros i Hi. 
      assert (Oi := IH i ltac:(lia)).
      assert (Ni : sR i <> izero) by (apply AL; lia).
      assert (Pi := pAp_pos i Oi Ni). assert (Ri := ip_nz _ Ni).
      assert (Eai : al i = ip (sR i) (sR i) / ip (sP i) (A (sP i))) by (apply DV; lra).
      assert (Nai : al i <> 0).
      { rewrite Eai. apply Rmult_integral_contrapositive_currified; [lra|].
        apply Rinv_neq_0_compat. lra. }
      assert (HA : ip (sP i) (A (sR (S k))) =
                   (ip (sR (S i)) (sR (S k)) - ip (sR i) (sR (S k))) / al i).
      { rewrite (SA (sP i)). rewrite (sR_S i). ipx. field. exact Nai. }
      rewrite sP_S, (lin_sub A LA), (lin_scale A LA). ipx. rewrite HA.
      rewrite (Hrr i Hi).
      destruct (Nat.eq_dec i k) as [->|Nik].
      * rewrite Eb, Ea. field. split; lra.
      * rewrite (Hrr (S i)) by lia. rewrite (oi_pp _ Ok_) by lia. field. exact Nai.
    + rewrite sP_S at 1. ipx. rewrite Hpr. ring.
Qed.

Lemma orthog_seq : forall k, (forall j, (j < k)%nat -> orth_inv j) ->
  @orthog E (map sR (seq 0 k)).
Proof.
  intros k H.
  assert (G : forall len st, (st + len <= k)%nat -> @orthog E (map sR (seq st len))).
  { induction len as [|len IH]; intros st Hl; cbn; [constructor|].
    constructor; [|apply IH; lia].
    apply Forall_forall. intros v Hv. apply in_map_iff in Hv as [j [<- Hj]].
    apply in_seq in Hj. apply (oi_rr j); [apply H; lia|lia]. }
  apply G. lia.
Qed.

Lemma alive_dim : forall n k, dim_le E n -> alive k -> (k <= n)%nat.
Proof.
  intros n k D AL.
  assert (O := orth_all k AL).
  specialize (D (map sR (seq 0 k))).
  rewrite map_length, seq_length in D. apply D.
  - apply orthog_seq. intros j Hj. apply O. lia.
  - apply Forall_forall. intros v Hv. apply in_map_iff in Hv as [j [<- Hj]].
    apply in_seq in Hj. apply AL. lia.
Qed.

(** Error in the energy norm. *)
Lemma energy_step : forall k xs, alive k -> sR k <> izero -> A xs = b ->
  let e j := isub (sX j) xs in
  ip (e (S k)) (A (e (S k))) =
  ip (e k) (A (e k)) - ip (sR k) (sR k) * ip (sR k) (sR k) / ip (sP k) (A (sP k)).
Proof.
  intros k xs AL N HX e.
  assert (O := orth_all k AL k (le_n _)).
  assert (P := pAp_pos k O N). assert (Rk := ip_nz _ N).
  assert (Ea : al k = ip (sR k) (sR k) / ip (sP k) (A (sP k))) by (apply DV; lra).
  assert (HE : e (S k) = iadd (e k) (iscale (al k) (sP k))).
  { unfold e. rewrite sX_S. veq. }
  assert (HAe : A (e k) = sR k).
  { unfold e. rewrite (lin_sub A LA), HX. symmetry. apply sR_true. }
  rewrite HE, (lin_add A LA), (lin_scale A LA). ipx.
  rewrite HAe. 
  assert (HeP : ip (e k) (A (sP k)) = ip (sP k) (sR k)).
  { rewrite (SA (e k)), HAe. apply ip_sym. }
  rewrite HeP, (oi_pr _ O), Ea. field. lra.
Qed.
End Exact.

(** *** Running CG on a symmetric positive definite system. *)
Section SPD.
Context (dv : R -> R -> R) (sq : R -> R) (E : IPS).
Notation KK := (exactK dv sq).
Notation WW := (exactV dv sq E).
Variables (q : kprob WW) (kw : cg_kw WW) (b : iv E).
Notation A := (q_A q : iv E -> iv E).
Hypothesis DV : dv_ok dv.
Hypothesis SQ : sq_ok sq.
Hypothesis SA : selfadj A.
Hypothesis PA : posdef A.
Hypothesis NP : q_P q = None.
Hypothesis AT : (0 <= (q_abstol q : R))%R.
Local Open Scope R_scope.

Definition cgx0 : iv E := match k_guess kw with Some g => g | None => izero end.
Notation X := (sX dv sq E q b cgx0).
Notation Rs := (sR dv sq E q b cgx0).
Notation Ps := (sP dv sq E q b cgx0).

Lemma LA' : lin A.
Proof. exact (adjoint_lin A A SA). Qed.

Lemma thr_nonneg : forall res0 : R, 0 <= (thr q res0 : R).
Proof.
  intro res0. unfold thr, pymax. cbn. destruct (Rltb _ _) eqn:Eb; [|exact AT].
  apply Rltb_true in Eb. lra.
Qed.

Lemma abs_sq : forall u : iv E, Rabs (sq (ip u u)) = inorm u.
Proof.
  intro u. rewrite SQ by apply ip_pos. apply Rabs_pos_eq, sqrt_pos.
Qed.

Lemma curv_ok : forall a : R, 0 < a -> @curv_bad KK a = false.
Proof.
  intros a H. unfold curv_bad, sgtb. cbn. apply orb_false_intro.
  - apply Rltb_false. apply Rmult_le_pos; [|apply Rabs_pos].
    replace 0 with (Q2R 0) by (unfold Q2R; cbn; lra). apply Qle_Rle. unfold Qle. cbn. lia.
  - apply Rleb_false. exact H.
Qed.

Lemma curv_bad_neg : forall a : R, @curv_bad KK a = true -> a <= 0.
Proof.
  intros a H. destruct (Rle_dec a 0) as [|N]; [assumption|].
  rewrite curv_ok in H by lra. discriminate.
Qed.

Record seq_inv (o : cg_obj WW) (k : nat) (st : cg_st WW) : Prop := {
  si_x : c_x st = X k :> iv E;
  si_r : c_r st = Rs k :> iv E;
  si_p : c_p st = Ps k :> iv E;
  si_ry : c_ry st = ip (Rs k) (Rs k);
  si_res : c_res st = inorm (Rs k);
  si_alive : alive dv sq E q b cgx0 k;
  si_def : c_def st = true;
  si_nmv : c_nmv st = (g01 kw + k)%nat;
  si_hist : c_hist st = g_hist o ++ map (fun i => inorm (Rs i)) (seq 0 (S k));
  si_iters : k_sit kw = true -> c_iters st = g_iters o ++ map X (seq 0 (S k));
  si_resids : k_sres kw = true -> c_resids st = g_resids o ++ map Rs (seq 0 (S k)) }.

Lemma seq_init : forall o cnt, seq_inv o 0 (cg_init q kw o b cnt).
Proof.
  intros o cnt.
  assert (HR : c_r (cg_init q kw o b cnt) = Rs 0 :> iv E).
  { unfold cg_init, opmul, sR, cgx0. cbn. destruct (k_guess kw); cbn; [veq|].
    change (@izero E) with (@izero E). rewrite (lin_zero A LA'). veq. }
  assert (HX : c_x (cg_init q kw o b cnt) = X 0 :> iv E).
  { unfold cg_init, opmul, sX, cgx0. cbn. destruct (k_guess kw); reflexivity. }
  assert (HY : c_ry (cg_init q kw o b cnt) = ip (Rs 0) (Rs 0)).
  { rewrite <- HR. unfold cg_init, opmul, prec. rewrite NP. destruct (k_guess kw); reflexivity. }
  assert (HN : c_res (cg_init q kw o b cnt) = inorm (Rs 0)).
  { rewrite <- abs_sq, <- HY. unfold cg_init, opmul. destruct (k_guess kw); reflexivity. }
  split; try assumption.
  - change (Ps 0) with (ineg (Rs 0)). rewrite <- HR.
    unfold cg_init, opmul. destruct (k_guess kw); reflexivity.
  - intros i Hi. lia.
  - apply cg_init_def.
  - rewrite cg_init_nmv. lia.
  - rewrite cg_init_hist, HN. reflexivity.
  - intro F. cbn [seq map]. rewrite <- HX. unfold cg_init, opmul. rewrite F.
    destruct (k_guess kw); reflexivity.
  - intro F. cbn [seq map]. rewrite <- HR. unfold cg_init, opmul, prec. rewrite F, NP.
    destruct (k_guess kw); reflexivity.
Qed.

Lemma seq_step : forall o res0 k st st', seq_inv o k st ->
  cg_cond q kw b res0 st = true -> cg_body q kw st = Ok st' -> seq_inv o (S k) st'.
Proof.
  intros o res0 k st st' I C H.
  apply cg_cond_true in C as [C [L D]].
  assert (Nk : Rs k <> izero).
  { intro Z. unfold sgtb in C. apply Rltb_true in C. rewrite (si_res _ _ _ I), Z, inorm_izero in C.
    pose proof (thr_nonneg res0). lra. }
  assert (OI := orth_all dv sq E q b LA' cgx0 DV SA PA k (si_alive _ _ _ I) k (le_n _)).
  assert (PP := pAp_pos dv sq E q b cgx0 PA k OI Nk).
  unfold cg_body, opmul in H. cbn in H.
  rewrite (si_p _ _ _ I) in H.
  assert (CV : @curv_bad KK (ip (Ps k) (A (Ps k))) = false) by (apply curv_ok; exact PP).
  cbn in CV. rewrite CV, andb_false_r in H. injection H as <-.
  assert (HR : iadd (c_r st : iv E) (iscale (dv (c_ry st) (ip (Ps k) (A (Ps k)))) (A (Ps k))) = Rs (S k)).
  { rewrite (si_r _ _ _ I), (si_ry _ _ _ I), sR_S. reflexivity. }
  assert (HX : iadd (c_x st : iv E) (iscale (dv (c_ry st) (ip (Ps k) (A (Ps k)))) (Ps k)) = X (S k)).
  { rewrite (si_x _ _ _ I), (si_ry _ _ _ I), sX_S. reflexivity. }
  unfold prec. rewrite NP. cbn in HR, HX |- *.
  rewrite HR, HX.
  split; cbn [c_x c_r c_p c_ry c_res c_def c_nmv c_hist c_iters c_resids].
  - reflexivity.
  - reflexivity.
  - rewrite (si_ry _ _ _ I), sP_S. reflexivity.
  - reflexivity.
  - apply abs_sq.
  - intros i Hi. destruct (Nat.eq_dec i k) as [->|Ni]; [exact Nk|].
    apply (si_alive _ _ _ I). lia.
  - exact D.
  - rewrite (si_nmv _ _ _ I). lia.
  - rewrite (si_hist _ _ _ I), <- app_assoc, (seq_S (S k)), map_app. cbn [map plus].
    rewrite abs_sq. reflexivity.
  - intro F. rewrite F, (si_iters _ _ _ I F), <- app_assoc, (seq_S (S k)), map_app. reflexivity.
  - intro F. rewrite F, (si_resids _ _ _ I F), <- app_assoc, (seq_S (S k)), map_app. reflexivity.
Qed.

Lemma cg_solve_spd : forall fuel o cnt o' cnt',
  fst (sym_ok q kw cnt) = true ->
  cg_solve fuel q o b kw cnt = Ok (o', cnt') ->
  exists k st, seq_inv o k st /\ cnt' = c_cnt st /\
    o' = cg_final q (c_res (cg_init q kw o b (snd (sym_ok q kw cnt)))) st /\
    cg_cond q kw b (c_res (cg_init q kw o b (snd (sym_ok q kw cnt)))) st = false.
Proof.
  intros fuel o cnt o' cnt' HS H. rewrite cg_solve_unfold, HS in H. cbn [negb] in H. cbn zeta in H.
  destruct (while fuel _ _ _) as [st|e] eqn:Ew; [|discriminate].
  injection H as <- <-.
  apply while_inv with (I := fun s => exists k, seq_inv o k s) in Ew.
  - destruct Ew as [[k Iv] C]. exists k, st. auto.
  - intros s s' [k Is] C B. exists (S k). eapply seq_step; eauto.
  - exists 0%nat. apply seq_init.
Qed.

Lemma cg_spd_converges : forall n fuel o cnt o' cnt',
  dim_le E n ->
  (n + g01 kw <= @mmax KK WW (k_mmax kw) b \/ n = 0)%nat ->
  fst (sym_ok q kw cnt) = true ->
  cg_solve fuel q o b kw cnt = Ok (o', cnt') ->
  exists k, (k <= n)%nat /\ g_conv o' = true /\ g_def o' = Some true /\
    g_nmv o' = (g01 kw + k)%nat /\ g_x o' = Some (X k : vc WW) /\
    g_residNorm o' = Some (inorm (Rs k) : sc KK) /\
    alive dv sq E q b cgx0 k /\
    g_hist o' = g_hist o ++ map (fun i => inorm (Rs i)) (seq 0 (S k)) /\
    (k_sit kw = true -> g_iters o' = g_iters o ++ map X (seq 0 (S k))) /\
    (k_sres kw = true -> g_resids o' = g_resids o ++ map Rs (seq 0 (S k))).
Proof.
  intros n fuel o cnt o' cnt' DM HM HS H.
  destruct (cg_solve_spd _ _ _ _ _ HS H) as [k [st [I [_ [-> C]]]]].
  assert (Hk := alive_dim dv sq E q b LA' cgx0 DV SA PA n k DM (si_alive _ _ _ I)).
  exists k. split; [exact Hk|].
  assert (CV : g_conv (cg_final q (c_res (cg_init q kw o b (snd (sym_ok q kw cnt)))) st) = true).
  { cbn [g_conv cg_final]. unfold cg_cond in C. rewrite (si_def _ _ _ I), andb_true_r in C.
    apply andb_false_iff in C as [C|C].
    - unfold sgtb in C. cbn in C |- *. apply Rltb_false in C. apply Rleb_true. exact C.
    - apply Nat.ltb_ge in C. rewrite (si_nmv _ _ _ I) in C.
      assert (Z : Rs k = izero).
      { destruct (Req_dec (ip (Rs k) (Rs k)) 0) as [Z|NZ]; [apply ip_def; exact Z|exfalso].
        assert (AL : alive dv sq E q b cgx0 (S k)).
        { intros i Hi. destruct (Nat.eq_dec i k) as [->|Ni].
          - intro Z. rewrite Z, ip_zero in NZ. lra.
          - apply (si_alive _ _ _ I). lia. }
        assert (T := alive_dim dv sq E q b LA' cgx0 DV SA PA n (S k) DM AL). lia. }
      cbn. apply Rleb_true. rewrite (si_res _ _ _ I), Z, inorm_izero. apply thr_nonneg. }
  split; [exact CV|]. cbn [g_conv cg_final g_def g_nmv g_x g_residNorm g_hist g_iters g_resids].
  rewrite (si_def _ _ _ I), (si_nmv _ _ _ I), (si_x _ _ _ I), (si_res _ _ _ I).
  split; [reflexivity|]. split; [reflexivity|]. split; [reflexivity|]. split; [reflexivity|].
  split; [apply (si_alive _ _ _ I)|]. split; [apply (si_hist _ _ _ I)|].
  split; [apply (si_iters _ _ _ I)|apply (si_resids _ _ _ I)].
Qed.
End SPD.

(** *** Positive definite, not necessarily symmetric, no preconditioner. *)
Section PD.
Context (dv : R -> R -> R) (sq : R -> R) (E : IPS).
Notation KK := (exactK dv sq).
Notation WW := (exactV dv sq E).
Variables (q : kprob WW) (kw : cg_kw WW) (b : iv E).
Notation A := (q_A q : iv E -> iv E).
Hypothesis DV : dv_ok dv.
Hypothesis SQ : sq_ok sq.
Hypothesis PA : posdef A.
Hypothesis NP : q_P q = None.
Hypothesis AT : (0 <= (q_abstol q : R))%R.
Local Open Scope R_scope.

Record pd_inv (st : cg_st WW) : Prop := {
  pi_ry : c_ry st = ip (c_r st : iv E) (c_r st);
  pi_res : c_res st = inorm (c_r st : iv E);
  pi_pr : ip (c_p st : iv E) (c_r st) = - ip (c_r st : iv E) (c_r st);
  pi_def : c_def st = true }.

Lemma pd_init : forall o cnt, pd_inv (cg_init q kw o b cnt).
Proof.
  intros o cnt. unfold cg_init, opmul, prec. rewrite NP.
  destruct (k_guess kw); (split; cbn [c_ry c_r c_res c_p c_def]; try reflexivity;
    [apply (abs_sq sq E SQ)|apply ip_negl]).
Qed.

Lemma pd_step : forall res0 st st', pd_inv st ->
  cg_cond q kw b res0 st = true -> cg_body q kw st = Ok st' -> pd_inv st'.
Proof.
  intros res0 st st' [I1 I2 I3 I4] C H.
  apply cg_cond_true in C as [C [L D]].
  assert (Nr : (c_r st : iv E) <> izero).
  { intro Z. unfold sgtb in C. apply Rltb_true in C. rewrite I2, Z, inorm_izero in C.
    pose proof (thr_nonneg dv sq E q AT res0). lra. }
  pose proof (ip_nz _ Nr) as Rp.
  assert (Np : (c_p st : iv E) <> izero).
  { intro Z. rewrite Z, ip_zerol in I3. lra. }
  assert (PP := PA _ Np).
  unfold cg_body, opmul, prec in H. rewrite NP in H. cbn in H.
  assert (CV : @curv_bad KK (ip (c_p st : iv E) (A (c_p st))) = false)
    by (apply curv_ok; exact PP).
  cbn in CV. rewrite CV, andb_false_r in H. injection H as <-.
  split; cbn [c_ry c_r c_res c_p c_def]; [reflexivity|apply (abs_sq sq E SQ)| |exact D].
  set (r' := iadd _ _).
  assert (Z : ip (c_p st : iv E) r' = 0).
  { unfold r'. ipx. rewrite I3, I1, DV by lra. field. lra. }
  ipx. rewrite Z. ring.
Qed.

Lemma cg_solve_pd : forall fuel o cnt o' cnt',
  fst (sym_ok q kw cnt) = true ->
  cg_solve fuel q o b kw cnt = Ok (o', cnt') -> g_def o' = Some true.
Proof.
  intros fuel o cnt o' cnt' HS H. rewrite cg_solve_unfold, HS in H. cbn [negb] in H. cbn zeta in H.
  destruct (while fuel _ _ _) as [st|e] eqn:Ew; [|discriminate].
  injection H as <- <-.
  apply while_inv with (I := pd_inv) in Ew.
  - destruct Ew as [Iv C]. cbn. f_equal. apply pi_def, Iv.
  - intros s s' Is C B. eapply pd_step; eauto.
  - apply pd_init.
Qed.
End PD.

Lemma Rmax_pymax : forall dv sq (a b : R), @pymax (exactK dv sq) a b = Rmax a b.
Proof.
  intros. unfold pymax. cbn. unfold Rltb, Rmax.
  destruct (Rlt_dec a b), (Rle_dec a b); lra.
Qed.

Lemma inorm_subC : forall {E : IPS} (u v : iv E), inorm (isub u v) = inorm (isub v u).
Proof. intros E u v. rewrite <- inorm_neg. f_equal. veq. Qed.
