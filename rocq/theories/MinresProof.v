(** * Proofs about the MINRES model. *)
From Coq Require Import List ZArith QArith Qreals Reals Lia Lra Bool.
From Verif Require Import Base Num ToolsModel ToolsProof CgModel CgProof MinresModel.
Import ListNotations.

(** ** Any arithmetic. *)
Section Flow.
Context {K : Scal} {W : Vs K}.
Notation S := (sc K).
Notation V := (vc W).
Variables (q : kprob W) (kw : mr_kw W) (b : V).
Notation lim := (mr_lim kw b).

Lemma mr_tests_range : forall eps beta1 rtol itn l t1 t2 ac ex,
  In (@mr_tests K eps beta1 rtol itn l t1 t2 ac ex) [0; 1; 2; 3; 4; 6]%Z /\
  ((l <= itn)%nat -> @mr_tests K eps beta1 rtol itn l t1 t2 ac ex <> 0%Z).
Proof.
  intros. unfold mr_tests. split.
  - repeat match goal with |- context [if ?c then _ else _] => destruct c end; cbn; auto 10.
  - intro H. apply Nat.leb_le in H. rewrite H.
    repeat match goal with |- context [if ?c then _ else _] => destruct c end; discriminate.
Qed.

Record mr_flow (c0 : nat) (h0 : list S) (st : mr_st W) : Prop := {
  mf_cnt : r_cnt st = (c0 + r_itn st)%nat;
  mf_itn : (r_itn st <= lim)%nat;
  mf_run : r_brk st = false -> r_istop st = (-1)%Z \/ r_istop st = 0%Z;
  mf_brk : r_brk st = true -> In (r_istop st) [1; 2; 3; 4; 6; 10]%Z /\ (1 <= r_itn st)%nat;
  mf_zero : r_itn st = 0%nat -> r_istop st = 0%Z /\ r_x st = vzeros (vlen b);
  mf_run0 : r_brk st = false -> r_istop st = 0%Z -> (1 <= r_itn st)%nat -> (r_itn st < lim)%nat;
  mf_hist : exists l, r_hist st = h0 ++ l /\
      (length l = r_itn st \/ (length l + 1 = r_itn st /\ r_istop st = 6%Z))%nat;
  mf_runh : r_brk st = false -> exists l, r_hist st = h0 ++ l /\ length l = r_itn st }.

Lemma mr_step_flow : forall eps beta1 c0 h0 st st', mr_flow c0 h0 st -> mr_cond lim st = true ->
  mr_body q kw eps beta1 lim st = Ok st' ->
  mr_flow c0 h0 st' /\ r_itn st' = (r_itn st + 1)%nat.
Proof.
  intros eps beta1 c0 h0 st st' F C H.
  unfold mr_cond in C. apply andb_prop in C as [C1 C2]. apply negb_true_iff in C1. apply Nat.ltb_lt in C2.
  destruct F as [F1 F2 F3 F4 F5 F6 F7 F8]. specialize (F3 C1). destruct (F8 C1) as [l [L1 L2]].
  unfold mr_body in H.
  destruct (mr_lan q kw st) as [[[[[v alfa] r2] y] beta2] cnt] eqn:EL.
  assert (CN : cnt = (r_cnt st + 1)%nat) by (unfold mr_lan, opmul in EL; injection EL as _ _ _ _ _ <-; reflexivity).
  clear EL. destruct (sltb _ s0).
  - injection H as <-. split; [|reflexivity]. split; cbn [r_cnt r_itn r_brk r_istop r_x r_hist].
    + lia.
    + lia.
    + discriminate.
    + intros _. split; [cbn; auto 10|lia].
    + lia.
    + discriminate.
    + exists l. split; [exact L1|]. right. lia.
    + discriminate.
  - destruct (m_window kw =? 0)%nat; [discriminate|].
    cbv zeta in H. revert H.
    generalize (ssqrt beta2) (mr_delta st alfa) (mr_root st (mr_gbar st alfa) (ssqrt beta2)) (mr_gamma eps (mr_gbar st alfa) (ssqrt beta2)).
    intros beta delta root gamma H. generalize dependent (mr_gbar st alfa). intros gbar H.
    injection H as <-. unfold mr_upd. cbv zeta.
    match goal with |- mr_flow _ _ (mkmr _ _ _ _ _ _ _ _ _ _ _ _ _ _ _ _ _ _ _ _ _ _ _ _ _ _ _ ?i _ _ _ _ _) /\ _ =>
      set (is := i) end.
    assert (IS : In is [-1; 0; 1; 2; 3; 4; 6; 10]%Z /\ (is = 0%Z -> (r_itn st + 1 < lim)%nat)).
    { unfold is.
      match goal with |- context [if (?j =? 0)%Z then _ else _] => set (js := j) end.
      assert (JS : In js [-1; 0; 10]%Z).
      { unfold js. destruct (_ && sltb _ _); [cbn; auto|]. destruct (_ && sleb _ _); [cbn; auto|].
        destruct F3 as [-> | ->]; cbn; auto. }
      destruct (Z.eqb_spec js 0) as [J|J].
      - match goal with |- context [mr_tests ?a1 ?a2 ?a3 ?a4 ?a5 ?a6 ?a7 ?a8 ?a9] =>
          destruct (mr_tests_range a1 a2 a3 a4 a5 a6 a7 a8 a9) as [T1 T2] end.
        split; [cbn in T1 |- *; clear - T1; intuition|]. intro Z. destruct (le_lt_dec lim (r_itn st + 1)) as [G|G]; [|exact G].
        exfalso. exact (T2 G Z).
      - split; [cbn in JS |- *; clear - JS; intuition|]. congruence. }
    destruct IS as [IS1 IS2].
    split; [|reflexivity]. split; cbn [r_cnt r_itn r_brk r_istop r_x r_hist].
    + lia.
    + lia.
    + intro B. apply Z.ltb_ge in B. cbn in IS1. lia.
    + intro B. apply Z.ltb_lt in B. split; [|lia]. cbn in IS1 |- *. lia.
    + lia.
    + intros _ Z _. exact (IS2 Z).
    + eexists (l ++ [_]). rewrite L1, <- app_assoc. split; [reflexivity|]. left.
      rewrite app_length, L2. reflexivity.
    + intros _. eexists (l ++ [_]). rewrite L1, <- app_assoc. split; [reflexivity|].
      rewrite app_length, L2. reflexivity.
Qed.

Lemma mr_body_ok : forall eps beta1 st, (1 <= m_window kw)%nat -> exists st', mr_body q kw eps beta1 lim st = Ok st'.
Proof.
  intros eps beta1 st HW. unfold mr_body.
  destruct (mr_lan q kw st) as [[[[[v alfa] r2] y] beta2] cnt]. destruct (sltb _ s0); [eauto|].
  destruct (Nat.eqb_spec (m_window kw) 0); [lia|]. eauto.
Qed.

Lemma mr_start_spec : forall cnt beta1 istop done c0,
  mr_start q kw b cnt = (beta1, istop, done, c0) ->
  In istop [0; 7; 8; 9]%Z /\ (done = false -> istop = 0%Z) /\
  (cnt <= c0 <= cnt + (if m_check kw then 2 * length (q_draws q) else 0))%nat.
Proof.
  intros cnt beta1 istop done c0 H. unfold mr_start in H.
  assert (C : (cnt <= snd (if m_check kw then check_symmetric (q_cbrt q) (q_m q) (q_n q) (q_A q) (q_draws q) cnt
                    else (true, cnt)) <= cnt + (if m_check kw then 2 * length (q_draws q) else 0))%nat).
  { destruct (m_check kw); [apply check_symmetric_count|cbn; lia]. }
  destruct (if m_check kw then check_symmetric _ _ _ _ _ _ else _) as [ok c1]. cbn [snd] in C.
  set (okP := match m_precon kw with Some _ => _ | None => _ end) in H.
  injection H as _ <- <- <-.
  split; [|split; [|exact C]].
  - destruct okP, ok, (sltb (vdot b (mr_y0 kw b)) s0); cbn; auto.
  - destruct okP, ok, (sltb (vdot b (mr_y0 kw b)) s0), (seqb (vdot b (mr_y0 kw b)) s0); cbn; congruence.
Qed.

Lemma mr_init_flow : forall beta1 hist cnt,
  mr_flow cnt hist (mr_init kw b beta1 0 false hist cnt).
Proof.
  intros. split; cbn; try lia; try discriminate; auto.
  - exists []. rewrite app_nil_r. split; [reflexivity|]. left. reflexivity.
  - intros _. exists []. rewrite app_nil_r. auto.
Qed.

Lemma mr_flow_spec : forall fuel hist cnt, (lim < fuel)%nat -> (1 <= m_window kw)%nat ->
  exists o cnt', mr_solve fuel q hist b kw cnt = Ok (o, cnt') /\
    u_nmv o = u_itn o /\ (u_itn o <= lim)%nat /\
    (cnt + u_itn o <= cnt' <= cnt + u_itn o + (if m_check kw then 2 * length (q_draws q) else 0))%nat /\
    In (u_istop o) [-1; 0; 1; 2; 3; 4; 6; 7; 8; 9; 10]%Z /\
    (u_conv o = true <-> In (u_istop o) [1; 2; 3; 4; 10]%Z) /\
    (In (u_istop o) [0; 7; 8; 9]%Z <-> u_itn o = 0%nat) /\
    (u_itn o = 0%nat -> u_x o = vzeros (vlen b)) /\
    (u_istop o = (-1)%Z -> u_itn o = lim) /\
    (exists l, u_hist o = hist ++ l /\
       (length l = u_itn o \/ (length l + 1 = u_itn o /\ u_istop o = 6%Z))%nat).
Proof.
  intros fuel hist cnt HF HW. unfold mr_solve.
  destruct (mr_start q kw b cnt) as [[[beta1 istop] done] c0] eqn:ES.
  apply mr_start_spec in ES as (S1 & S2 & S3).
  assert (CV : forall i, mr_conv i = true <-> In i [1; 2; 3; 4; 10]%Z).
  { intro i. unfold mr_conv. rewrite !orb_true_iff, !Z.eqb_eq. cbn. intuition. }
  destruct done.
  - destruct fuel as [|fuel]; [lia|]. cbn [while mr_cond r_brk mr_init negb andb].
    eexists _, _. split; [reflexivity|].
    cbn [u_nmv u_itn u_istop u_conv u_x u_hist r_itn r_istop r_x r_hist r_cnt mr_init].
    split; [reflexivity|]. split; [lia|]. split; [lia|].
    split; [cbn in S1 |- *; intuition|]. split; [apply CV|].
    split; [split; auto|]. split; [reflexivity|].
    split; [cbn in S1; lia|].
    exists []. rewrite app_nil_r. split; [reflexivity|left; reflexivity].
  - rewrite (S2 eq_refl) in *. clear S1 S2.
    destruct (while_term (mr_cond lim) (mr_body q kw machine_eps beta1 lim) (mr_flow c0 hist)
      (fun st => lim - r_itn st)%nat) with (fuel := fuel) (s := mr_init kw b beta1 0 false hist c0) as [st E].
    + intros s I C. destruct (mr_body_ok machine_eps beta1 s HW) as [s' B]. exists s'.
      destruct (mr_step_flow _ _ _ _ _ _ I C B) as [I' N]. split; [exact B|]. split; [exact I'|].
      unfold mr_cond in C. apply andb_prop in C as [_ C]. apply Nat.ltb_lt in C. lia.
    + apply mr_init_flow.
    + cbn. lia.
    + rewrite E.
      apply while_inv with (I := mr_flow c0 hist) in E; [|intros s s' I C B; eapply mr_step_flow; eauto|apply mr_init_flow].
      destruct E as [[F1 F2 F3 F4 F5 F6 F7 F8] C].
      eexists _, _. split; [reflexivity|].
      cbn [u_nmv u_itn u_istop u_conv u_x u_hist].
      assert (EX : r_brk st = false -> r_itn st = lim).
      { intro B. unfold mr_cond in C. rewrite B in C. cbn in C. apply Nat.ltb_ge in C. lia. }
      split; [reflexivity|]. split; [exact F2|]. split; [lia|].
      split.
      { destruct (r_brk st) eqn:B.
        - destruct (F4 eq_refl) as [F _]. cbn in F |- *. intuition.
        - destruct (F3 eq_refl) as [-> | ->]; cbn; auto. }
      split; [apply CV|].
      split.
      { split.
        - intro I. destruct (r_brk st) eqn:B.
          + destruct (F4 eq_refl) as [F _]. cbn in F, I. lia.
          + destruct (F3 eq_refl) as [F|F]; [rewrite F in I; cbn in I; lia|].
            destruct (Nat.eq_dec (r_itn st) 0) as [Z|Z]; [exact Z|].
            specialize (F6 eq_refl F ltac:(lia)). rewrite (EX eq_refl) in F6. lia.
        - intro Z. destruct (F5 Z) as [-> _]. cbn. auto. }
      split; [intro Z; apply (F5 Z)|].
      split; [|exact F7].
      intro I. apply EX. destruct (r_brk st) eqn:B; [|reflexivity].
      destruct (F4 eq_refl) as [F _]. rewrite I in F. cbn in F. lia.
Qed.

(** [window = 0]: an iteration that is not cut short by an indefinite preconditioner raises. *)
Lemma mr_early : forall fuel hist cnt o cnt',
  let bPb := vdot b (match m_precon kw with Some P => P b | None => b end) in
  let badA := m_check kw = true /\
    fst (check_symmetric (q_cbrt q) (q_m q) (q_n q) (q_A q) (q_draws q) cnt) = false in
  let badP := m_check kw = true /\ exists P, m_precon kw = Some P /\
    fst (check_symmetric (q_cbrt q) (m_pm kw) (m_pn kw) P (m_pdraws kw) 0) = false in
  mr_solve fuel q hist b kw cnt = Ok (o, cnt') ->
  (u_residNorm0 o = if sltb s0 bPb then ssqrt bPb else bPb) /\
  (badP \/ badA \/ sltb bPb s0 = true \/ seqb bPb s0 = true -> u_itn o = 0%nat) /\
  (u_itn o = 0%nat ->
     (badP -> u_istop o = 8%Z) /\ (~ badP -> badA -> u_istop o = 7%Z) /\
     (~ badP -> ~ badA -> sltb bPb s0 = true -> u_istop o = 9%Z) /\
     (~ badP -> ~ badA -> sltb bPb s0 = false -> u_istop o = 0%Z) /\
     (badP \/ badA \/ sltb bPb s0 = true \/ seqb bPb s0 = true \/ mr_lim kw b = 0%nat)).
Proof.
  intros fuel hist cnt o cnt' bPb badA badP H.
  unfold mr_solve in H.
  destruct (mr_start q kw b cnt) as [[[beta1 istop] done] c0] eqn:ES.
  match type of H with context[while ?f ?c ?bd ?s] => destruct (while f c bd s) as [st|] eqn:EW end; [|discriminate].
  injection H as <- _. cbn [u_residNorm0 u_itn u_istop].
  assert (FL : (done = true -> r_itn st = 0%nat /\ r_istop st = istop) /\
               (done = false -> istop = 0%Z /\ (r_itn st = 0%nat -> r_istop st = 0%Z /\ lim = 0%nat))).
  { split; intro D.
    - rewrite D in EW. destruct fuel as [|fuel]; [discriminate|]. cbn [while mr_cond r_brk mr_init negb andb] in EW.
      injection EW as <-. split; reflexivity.
    - subst done. apply mr_start_spec in ES as (S1 & S2 & S3). rewrite (S2 eq_refl) in *. split; [reflexivity|].
      intro Z.
      apply while_inv with (I := mr_flow c0 hist) in EW; [|intros s s' I C B; eapply mr_step_flow; eauto|apply mr_init_flow].
      destruct EW as [[F1 F2 F3 F4 F5 F6 F7 F8] C]. destruct (F5 Z) as [I0 _].
      split; [exact I0|]. unfold mr_cond in C. destruct (r_brk st) eqn:B.
      + destruct (F4 eq_refl) as [F _]. rewrite I0 in F. cbn in F. lia.
      + cbn in C. apply Nat.ltb_ge in C. lia. }
  destruct FL as [FT FF].
  unfold mr_start in ES. change (vdot b (mr_y0 kw b)) with bPb in ES.
  destruct (if m_check kw then check_symmetric (q_cbrt q) (q_m q) (q_n q) (q_A q) (q_draws q) cnt else (true, cnt))
    as [ok c1] eqn:EA.
  set (okP := match m_precon kw with
              | Some P => if m_check kw
                          then fst (check_symmetric (q_cbrt q) (m_pm kw) (m_pn kw) P (m_pdraws kw) 0) else true
              | None => true end) in *.
  injection ES as <- EI ED _.
  assert (HA : badA <-> ok = false).
  { subst badA. destruct (m_check kw); [|injection EA as <- _; split; [intros [D _]|intro]; discriminate].
    rewrite EA. cbn. tauto. }
  assert (HP : badP <-> okP = false).
  { subst badP okP. destruct (m_precon kw) as [P|].
    - destruct (m_check kw).
      + split; [intros [_ (P' & E & F)]; injection E as <-; exact F|]. intro F. split; [reflexivity|]. eauto.
      + split; [intros [D _]; discriminate|discriminate].
    - split; [intros [_ (P' & E & F)]; discriminate|discriminate]. }
  split; [reflexivity|].
  clearbody badA badP okP.
  rewrite HA, HP. clear HA HP EA.
  rewrite <- EI, <- ED in *. clear EI ED.
  destruct okP, ok, (sltb bPb s0), (seqb bPb s0); cbn [orb negb] in *;
    (split; [intro X; first [apply FT; reflexivity | exfalso; intuition discriminate]|]);
    intro Z;
    first [ destruct (FF eq_refl) as [_ FF']; destruct (FF' Z) as [-> LZ]; clear FT FF
          | destruct (FT eq_refl) as [_ ->]; clear FT FF ];
    repeat split; intros; intuition congruence.
Qed.

Lemma mr_window0 : forall fuel hist cnt o cnt', m_window kw = 0%nat ->
  mr_solve fuel q hist b kw cnt = Ok (o, cnt') ->
  u_itn o = 0%nat \/ (u_itn o = 1%nat /\ u_istop o = 6%Z).
Proof.
  intros fuel hist cnt o cnt' HW H. unfold mr_solve in H.
  destruct (mr_start q kw b cnt) as [[[beta1 istop] done] c0].
  destruct (while _ _ _ _) as [st|] eqn:E; [|discriminate]. injection H as <- <-.
  cbn [u_itn u_istop].
  apply while_inv with (I := fun st => r_itn st = 0%nat \/ (r_itn st = 1%nat /\ r_istop st = 6%Z /\ r_brk st = true)) in E.
  - destruct E as [[H|(H1 & H2 & _)] _]; auto.
  - intros s s' I C B. destruct I as [I|(_ & _ & I)].
    2:{ unfold mr_cond in C. rewrite I in C. discriminate. }
    unfold mr_body in B. destruct (mr_lan q kw s) as [[[[[v alfa] r2] y] beta2] cnt2].
    rewrite HW in B. cbn [Nat.eqb] in B.
    destruct (sltb _ s0); [|discriminate]. injection B as <-. cbn. right. rewrite I. auto.
  - left. reflexivity.
Qed.
End Flow.

(** ** Exact arithmetic: the Lanczos process behind the recurrences. *)
Section Lanczos.
Context {E : IPS}.
Implicit Types u v w t x y z : iv E.
Local Open Scope R_scope.

(** [z] lies in the span of [l], expressed by double orthogonality. *)
Definition dp (l : list (iv E)) z : Prop := forall y, (forall v, In v l -> ip v y = 0) -> ip z y = 0.

Lemma dp_in : forall l v, In v l -> dp l v.
Proof. intros l v I y Hy. apply Hy. exact I. Qed.
Lemma dp_weak : forall l l' z, dp l z -> incl l l' -> dp l' z.
Proof. intros l l' z H I y Hy. apply H. intros v Iv. apply Hy. apply I. exact Iv. Qed.
Lemma dp_add : forall l u v, dp l u -> dp l v -> dp l (iadd u v).
Proof. intros l u v H1 H2 y Hy. rewrite ip_addl, (H1 y Hy), (H2 y Hy). ring. Qed.
Lemma dp_scale : forall l a v, dp l v -> dp l (iscale a v).
Proof. intros l a v H y Hy. rewrite ip_scalel, (H y Hy). ring. Qed.
Lemma dp_sub : forall l u v, dp l u -> dp l v -> dp l (isub u v).
Proof. intros l u v H1 H2 y Hy. rewrite ip_subl, (H1 y Hy), (H2 y Hy). ring. Qed.
Lemma dp_zero : forall l, dp l izero.
Proof. intros l y _. apply ip_zerol. Qed.

Variables (A : iv E -> iv E) (b : iv E).
Hypothesis SA : selfadj A.
Let LA : lin A := adjoint_lin A A SA.

(** [z = p(A) b] for a polynomial [p] of degree less than [k] (Horner form). *)
Fixpoint kry (k : nat) z : Prop :=
  match k with
  | O => z = izero
  | S k => exists a z', kry k z' /\ z = iadd (iscale a b) (A z')
  end.

Lemma kry_zero : forall k, kry k izero.
Proof.
  induction k as [|k IH]; [reflexivity|]. exists 0, izero. split; [exact IH|].
  rewrite (lin_zero A LA). veq.
Qed.
Lemma kry_add : forall k u v, kry k u -> kry k v -> kry k (iadd u v).
Proof.
  induction k as [|k IH]; cbn; intros u v.
  - intros -> ->. veq.
  - intros (a & u' & U & ->) (c & v' & V & ->). exists (a + c), (iadd u' v'). split; [auto|].
    rewrite (lin_add A LA). veq.
Qed.
Lemma kry_scale : forall k c u, kry k u -> kry k (iscale c u).
Proof.
  induction k as [|k IH]; cbn; intros c u.
  - intros ->. veq.
  - intros (a & u' & U & ->). exists (c * a), (iscale c u'). split; [auto|].
    rewrite (lin_scale A LA). veq.
Qed.
Lemma kry_sub : forall k u v, kry k u -> kry k v -> kry k (isub u v).
Proof. intros. unfold isub, ineg. apply kry_add; [|apply kry_scale]; assumption. Qed.
Lemma kry_A : forall k u, kry k u -> kry (S k) (A u).
Proof. intros k u H. exists 0, u. split; [exact H|]. veq. Qed.
Lemma kry_b : forall k, kry (S k) b.
Proof. intros k. exists 1, izero. split; [apply kry_zero|]. rewrite (lin_zero A LA). veq. Qed.
Lemma kry_S : forall k u, kry k u -> kry (S k) u.
Proof.
  induction k as [|k IH]; intros u H.
  - cbn in H. subst u. apply kry_zero.
  - destruct H as (a & u' & U & ->). exists a, u'. split; [apply IH; exact U|reflexivity].
Qed.
Lemma kry_le : forall k l u, (k <= l)%nat -> kry k u -> kry l u.
Proof. intros k l u H. induction H; [auto|]. intro. apply kry_S. auto. Qed.

(** The state of the method after [k] iterations without breakdown: [u] the current Lanczos vector,
    [V] the previous ones, [t] the direction of the residual, [rt] the vector subtracted from [A u]
    in the next iteration. *)
Record MI (k : nat) (V : list (iv E)) (u t rt x w w2 : iv E) (cs sn ep db phib : R) : Prop := {
  mi_len : length V = k;
  mi_uu : ip u u = 1;
  mi_uV : forall v, In v V -> ip v u = 0;
  mi_V1 : forall v, In v V -> ip v v = 1;
  mi_Vo : orthog V;
  mi_tt : ip t t = 1;
  mi_t : dp (u :: V) t;
  mi_cs : cs * cs + sn * sn = 1;
  mi_u : u = isub (iscale sn (A w)) (iscale cs t);
  mi_rt : rt = iadd (iscale ep (A w2)) (iscale db (iadd (iscale cs (A w)) (iscale sn t)));
  mi_rtV : forall v, In v V -> ip v rt = ip (A v) u;
  mi_rtd : dp V rt;
  mi_AV : forall v, In v V -> dp (u :: V) (A v);
  mi_r : isub b (A x) = iscale phib t;
  mi_phib : 0 <= phib;
  mi_tV : forall v, In v V -> ip t (A v) = 0;
  mi_tw : ip t (A w) = 0;
  mi_tw2 : ip t (A w2) = 0;
  mi_Aw : dp (u :: V) (A w);
  mi_b : dp (u :: V) b;
  mi_kd : forall z, kry k z -> dp V z;
  mi_ku : kry (S k) u;
  mi_kw : kry k w;
  mi_kw2 : kry k w2;
  mi_kx : kry k x;
  mi_krt : kry k rt }.
Arguments mi_len {k V u t rt x w w2 cs sn ep db phib} _.
Arguments mi_uu {k V u t rt x w w2 cs sn ep db phib} _.
Arguments mi_uV {k V u t rt x w w2 cs sn ep db phib} _.
Arguments mi_V1 {k V u t rt x w w2 cs sn ep db phib} _.
Arguments mi_Vo {k V u t rt x w w2 cs sn ep db phib} _.
Arguments mi_tt {k V u t rt x w w2 cs sn ep db phib} _.
Arguments mi_t {k V u t rt x w w2 cs sn ep db phib} _.
Arguments mi_cs {k V u t rt x w w2 cs sn ep db phib} _.
Arguments mi_u {k V u t rt x w w2 cs sn ep db phib} _.
Arguments mi_rt {k V u t rt x w w2 cs sn ep db phib} _.
Arguments mi_rtV {k V u t rt x w w2 cs sn ep db phib} _.
Arguments mi_rtd {k V u t rt x w w2 cs sn ep db phib} _.
Arguments mi_AV {k V u t rt x w w2 cs sn ep db phib} _.
Arguments mi_r {k V u t rt x w w2 cs sn ep db phib} _.
Arguments mi_phib {k V u t rt x w w2 cs sn ep db phib} _.
Arguments mi_tV {k V u t rt x w w2 cs sn ep db phib} _.
Arguments mi_tw {k V u t rt x w w2 cs sn ep db phib} _.
Arguments mi_tw2 {k V u t rt x w w2 cs sn ep db phib} _.
Arguments mi_Aw {k V u t rt x w w2 cs sn ep db phib} _.
Arguments mi_b {k V u t rt x w w2 cs sn ep db phib} _.
Arguments mi_kd {k V u t rt x w w2 cs sn ep db phib} _.
Arguments mi_ku {k V u t rt x w w2 cs sn ep db phib} _.
Arguments mi_kw {k V u t rt x w w2 cs sn ep db phib} _.
Arguments mi_kw2 {k V u t rt x w w2 cs sn ep db phib} _.
Arguments mi_kx {k V u t rt x w w2 cs sn ep db phib} _.
Arguments mi_krt {k V u t rt x w w2 cs sn ep db phib} _.

Section Step.
Variables (k : nat) (V : list (iv E)) (u t rt x w w2 : iv E) (cs sn ep db phib : R).
Hypothesis I : MI k V u t rt x w w2 cs sn ep db phib.
Variable sg : R.
Hypothesis Hsg : forall z, kry (S k) z -> sg * inorm z <= inorm (A z).

Let p := isub (A u) rt.
Let al := ip u p.
Let y2 := isub p (iscale al u).
Let be := inorm y2.
Let de := cs * db + sn * al.
Let gb := sn * db - cs * al.
Let ga := sqrt (gb * gb + be * be).
Let p' := isub (isub u (iscale ep w2)) (iscale de w).

Lemma ms_y2u : ip u y2 = 0.
Proof. unfold y2, p. rewrite ip_sub, ip_scale, (mi_uu I). fold p al. ring. Qed.
Lemma ms_y2V : forall v, In v V -> ip v y2 = 0.
Proof.
  intros v Hv. unfold y2, p. rewrite !ip_sub, ip_scale, (mi_uV I v Hv).
  rewrite (mi_rtV I v Hv), (SA v u). ring.
Qed.
Lemma ms_y2 : forall z, dp (u :: V) z -> ip z y2 = 0.
Proof. intros z D. apply D. intros v [<- | Hv]; [apply ms_y2u|apply ms_y2V; exact Hv]. Qed.

Lemma ms_Ap : A p' = iadd y2 (iscale gb t).
Proof.
  unfold p'. rewrite !(lin_sub A LA), !(lin_scale A LA).
  apply ip_ext. intro z.
  pose proof (mi_u I) as U. pose proof (mi_rt I) as RT.
  assert (U' : ip z u = sn * ip z (A w) - cs * ip z t).
  { etransitivity; [rewrite U; reflexivity|]. ipx. ring. }
  assert (R' : ip z rt = ep * ip z (A w2) + db * (cs * ip z (A w) + sn * ip z t)).
  { rewrite RT. ipx. ring. }
  unfold y2, p. ipx. rewrite R', U'. unfold de, gb. ring.
Qed.

Lemma ms_be2 : be * be = ip y2 y2.
Proof. unfold be. apply inorm_sq. Qed.
Lemma ms_be0 : 0 <= be.
Proof. apply inorm_pos. Qed.
Lemma ms_ty2 : ip t y2 = 0.
Proof. apply ms_y2. apply (mi_t I). Qed.
Lemma ms_ga2 : ga * ga = gb * gb + be * be.
Proof. unfold ga. apply sqrt_sqrt. nra. Qed.
Lemma ms_nAp : inorm (A p') = ga.
Proof.
  rewrite ms_Ap. unfold inorm, ga. f_equal. ipx.
  rewrite (ip_sym y2 t), ms_ty2, (mi_tt I), ms_be2. ring.
Qed.
Lemma ms_kd : forall z, kry k z -> ip u z = 0.
Proof.
  intros z Hz. rewrite ip_sym. apply (mi_kd I z Hz).
  apply (mi_uV I).
Qed.
(** The rotation is well conditioned whenever the operator is. *)
Lemma ms_kp : kry (S k) p'.
Proof.
  unfold p'. apply kry_sub; [apply kry_sub|].
  - apply (mi_ku I).
  - apply kry_scale, kry_S, (mi_kw2 I).
  - apply kry_scale, kry_S, (mi_kw I).
Qed.
Lemma ms_ga_sg : 0 <= sg -> sg <= ga.
Proof.
  intro P. rewrite <- ms_nAp. eapply Rle_trans; [|apply Hsg, ms_kp].
  assert (N : 1 <= inorm p').
  { assert (Q : ip u p' = 1).
    { unfold p'. ipx. rewrite (mi_uu I), (ms_kd w2), (ms_kd w).
      - ring. - apply (mi_kw I). - apply (mi_kw2 I). }
    pose proof (cauchy_norm u p') as C. rewrite Q in C.
    unfold inorm in C at 1. rewrite (mi_uu I), sqrt_1 in C. lra. }
  nra.
Qed.

Hypothesis G : 0 < ga.
Let cs' := gb / ga.
Let sn' := be / ga.
Let w' := iscale (1 / ga) p'.
Let x' := iadd x (iscale (cs' * phib) w').

Lemma ms_rot : cs' * cs' + sn' * sn' = 1.
Proof. unfold cs', sn'. pose proof ms_ga2. field_simplify; [|lra]. 
  replace (gb ^ 2 + be ^ 2) with (ga * ga) by (rewrite ms_ga2; ring). field. lra. Qed.
Lemma ms_sn : 0 <= sn' <= 1.
Proof.
  unfold sn'. pose proof ms_ga2. pose proof ms_be0. split.
  - apply Rmult_le_pos; [lra|]. left. apply Rinv_0_lt_compat. exact G.
  - apply Rmult_le_reg_r with ga; [exact G|]. replace (be / ga * ga) with be by (field; lra). nra.
Qed.
Lemma ms_Aw : A w' = iadd (iscale cs' t) (iscale (1 / ga) y2).
Proof. unfold w'. rewrite (lin_scale A LA), ms_Ap. unfold cs'. apply ip_ext. intro z. ipx. field. lra. Qed.

Lemma ms_res : isub b (A x') =
  isub (iscale (sn' * sn' * phib) t) (iscale (cs' * phib / ga) y2).
Proof.
  unfold x'. rewrite (lin_add A LA), (lin_scale A LA), ms_Aw.
  pose proof (mi_r I) as R.
  apply ip_ext. intro z. assert (R' : ip z b - ip z (A x) = phib * ip z t).
  { rewrite <- ip_sub, R, ip_scale. reflexivity. }
  ipx. 
  replace (ip z b - (ip z (A x) + cs' * phib * (cs' * ip z t + 1 / ga * ip z y2)))
    with (phib * ip z t - cs' * phib * (cs' * ip z t + 1 / ga * ip z y2)) by (rewrite <- R'; ring).
  replace (sn' * sn') with (1 - cs' * cs') by (rewrite <- ms_rot; ring). field. lra.
Qed.

Lemma ms_kw' : kry (S k) w'.
Proof. unfold w'. apply kry_scale, ms_kp. Qed.
Lemma ms_kx' : kry (S k) x'.
Proof.
  unfold x'. apply kry_add; [apply kry_S, (mi_kx I)|].
  apply kry_scale, ms_kw'.
Qed.

Lemma ms_tAu : ip t (A u) = gb.
Proof.
  assert (Q : ip t (A u) = ip t y2 + ip t rt + al * ip t u).
  { unfold y2, p. ipx. ring. }
  pose proof (mi_u I) as U. pose proof (mi_rt I) as RT.
  assert (U' : ip t u = - cs).
  { etransitivity; [rewrite U; reflexivity|]. ipx.
    rewrite (mi_tw I), (mi_tt I). ring. }
  assert (R' : ip t rt = db * sn).
  { rewrite RT. ipx. rewrite (mi_tw I), (mi_tw2 I),
      (mi_tt I). ring. }
  rewrite Q, ms_ty2, R', U'. unfold gb. ring.
Qed.

(** [A t] in terms of the two newest Lanczos directions, and its norm. *)
Lemma ms_tu : ip t u = - cs.
Proof.
  pose proof (mi_u I) as U. etransitivity; [rewrite U; reflexivity|]. ipx.
  rewrite (mi_tw I), (mi_tt I). ring.
Qed.
Lemma ms_Aty2 : ip (A t) y2 = - cs * (be * be).
Proof.
  assert (D : dp V (iadd t (iscale cs u))).
  { intros y Hy.
    assert (Q : ip (iadd t (iscale cs u)) (isub y (iscale (ip u y) u)) = 0).
    { apply dp_add with (l := u :: V); [apply (mi_t I)|apply dp_scale, dp_in; left; reflexivity|].
      intros v [<- | Hv]; rewrite ip_sub, ip_scale.
      - rewrite (mi_uu I). ring.
      - rewrite (mi_uV I v Hv), (Hy v Hv). ring. }
    rewrite ip_sub, ip_scale, (ip_addl u t), ip_scalel, ms_tu, (mi_uu I) in Q.
    rewrite <- Q. ring. }
  assert (D2 : ip (A (iadd t (iscale cs u))) y2 = 0).
  { rewrite <- (SA (iadd t (iscale cs u)) y2). apply D. intros v Hv. rewrite (SA v y2).
    apply ms_y2. apply (mi_AV I v Hv). }
  assert (D3 : ip (A u) y2 = be * be).
  { rewrite ms_be2. unfold y2 at 2. unfold p. rewrite !ip_subl, ip_scalel, ms_y2u, (ms_y2 rt); [ring|].
    eapply dp_weak; [apply (mi_rtd I)|]. intros v Hv. right. exact Hv. }
  rewrite (lin_add A LA), (lin_scale A LA), ip_addl, ip_scalel, D3 in D2. lra.
Qed.
Lemma ms_At : A t = isub (iscale gb u) (iscale cs y2).
Proof.
  set (z := isub (A t) (isub (iscale gb u) (iscale cs y2))).
  assert (Hu : ip u z = 0).
  { unfold z. ipx. rewrite (SA u t), ip_sym, ms_tAu, (mi_uu I), ms_y2u. ring. }
  assert (HV : forall v, In v V -> ip v z = 0).
  { intros v Hv. unfold z. ipx. rewrite (SA v t), ip_sym, (mi_tV I v Hv), (mi_uV I v Hv), (ms_y2V v Hv). ring. }
  assert (Hy : ip y2 z = 0).
  { unfold z. ipx. rewrite (ip_sym y2 (A t)), ms_Aty2, (ip_sym y2 u), ms_y2u, ms_be2. ring. }
  assert (D : ip (A t) z = 0).
  { rewrite <- (SA t z). apply (mi_t I). intros v [<- | Hv]; rewrite (SA _ z).
    - assert (Q : A u = iadd (iadd y2 rt) (iscale al u)) by (unfold y2, p; veq).
      rewrite Q, !ip_addl, ip_scalel, Hy, Hu, (mi_rtd I z HV). ring.
    - apply (mi_AV I v Hv). intros v' [<- | Hv']; [exact Hu|exact (HV v' Hv')]. }
  assert (Z : ip z z = 0).
  { unfold z at 1. rewrite !ip_subl, !ip_scalel, D, Hu, Hy. ring. }
  apply ip_def in Z. apply ip_ext. intro y. assert (Q : ip y z = 0) by (rewrite Z; apply ip_zero).
  unfold z in Q. rewrite ip_sub in Q. lra.
Qed.
Lemma ms_nAt : inorm (A t) = sqrt (gb * gb + (- cs * be) * (- cs * be)).
Proof.
  rewrite ms_At. unfold inorm. f_equal. ipx. rewrite (ip_sym y2 u), ms_y2u, (mi_uu I), <- ms_be2. ring.
Qed.

(** Breakdown: the new iterate is an exact solution. *)
Lemma ms_dead : be = 0 -> A x' = b /\ sn' = 0.
Proof.
  intro B.
  assert (S0 : sn' = 0) by (unfold sn'; rewrite B; field; lra).
  assert (Y0 : y2 = izero) by (apply inorm_zero; exact B).
  split; [|exact S0]. pose proof ms_res as R. rewrite S0, Y0 in R.
  apply ip_ext. intro z. assert (Q : ip z b - ip z (A x') = 0).
  { rewrite <- ip_sub, R. ipx. ring. }
  lra.
Qed.

(** No breakdown: the invariant is kept. *)
Hypothesis B : 0 < be.
Let u' := iscale (1 / be) y2.
Let t' := isub (iscale sn' t) (iscale cs' u').
Let rt' := iscale be u.
Let V' := u :: V.

Lemma ms_u'V : forall v, In v V' -> ip v u' = 0.
Proof.
  intros v Hv. unfold u'. rewrite ip_scale. destruct Hv as [<- | Hv]; [rewrite ms_y2u|rewrite (ms_y2V v Hv)]; ring.
Qed.
Lemma ms_u'd : forall z, dp V' z -> ip z u' = 0.
Proof. intros z D. apply D. apply ms_u'V. Qed.
Lemma ms_u'1 : ip u' u' = 1.
Proof. unfold u'. rewrite ip_scale, ip_scalel, <- ms_be2. field. lra. Qed.
Lemma ms_y2u' : y2 = iscale be u'.
Proof. unfold u'. apply ip_ext. intro z. ipx. field. lra. Qed.
Lemma ms_tu' : ip t u' = 0.
Proof. apply ms_u'd. apply (mi_t I). Qed.
Lemma ms_Aw1 : A w' = iadd (iscale cs' t) (iscale sn' u').
Proof. rewrite ms_Aw, ms_y2u' at 1. unfold sn'. apply ip_ext. intro z. ipx. field. lra. Qed.
Lemma ms_Au : A u = iadd (iadd (iscale be u') rt) (iscale al u).
Proof. rewrite <- ms_y2u'. unfold y2, p. apply ip_ext. intro z. ipx. ring. Qed.

Lemma ms_step : MI (S k) V' u' t' rt' x' w' w cs' sn' (sn * be) (- cs * be) (sn' * phib).
Proof.
  pose proof ms_rot as ROT. pose proof ms_sn as SN.
  assert (IV : incl V (u' :: V')) by (intros v Hv; right; right; exact Hv).
  assert (IV' : incl V' (u' :: V')) by (intros v Hv; right; exact Hv).
  assert (DT : dp (u' :: V') t').
  { unfold t'. apply dp_sub; apply dp_scale.
    - eapply dp_weak; [apply (mi_t I)|exact IV'].
    - apply dp_in. left. reflexivity. }
  assert (DAw : ip u' (A w) = 0).
  { rewrite ip_sym. apply ms_u'd. apply (mi_Aw I). }
  assert (TR : iadd (iscale cs' (A w')) (iscale sn' t') = t).
  { rewrite ms_Aw1. unfold t'. apply ip_ext. intro z. ipx.
    replace (cs' * (cs' * ip z t + sn' * ip z u') + sn' * (sn' * ip z t - cs' * ip z u'))
      with ((cs' * cs' + sn' * sn') * ip z t) by ring. rewrite ROT. ring. }
  split.
  - cbn. f_equal. apply (mi_len I).
  - apply ms_u'1.
  - apply ms_u'V.
  - intros v [<- | Hv]; [apply (mi_uu I)|apply (mi_V1 I v Hv)].
  - constructor; [|apply (mi_Vo I)].
    apply Forall_forall. intros v Hv. rewrite ip_sym. apply (mi_uV I v Hv).
  - unfold t'. ipx. rewrite (mi_tt I), ms_u'1, (ip_sym u' t), ms_tu'.
    transitivity (cs' * cs' + sn' * sn'); [ring|exact ROT].
  - exact DT.
  - exact ROT.
  - rewrite ms_Aw1. unfold t'. apply ip_ext. intro z. ipx.
    replace (sn' * (cs' * ip z t + sn' * ip z u') - cs' * (sn' * ip z t - cs' * ip z u'))
      with ((cs' * cs' + sn' * sn') * ip z u') by ring. rewrite ROT. ring.
  - rewrite TR. unfold rt'. pose proof (mi_u I) as U.
    etransitivity; [rewrite U; reflexivity|]. apply ip_ext. intro z. ipx. ring.
  - intros v [<- | Hv]; unfold rt'; rewrite ip_scale.
    + rewrite (mi_uu I), ms_Au, !ip_addl, !ip_scalel, ms_u'1,
        (ms_u'V u (or_introl eq_refl)), (ms_u'd rt); [ring|].
      eapply dp_weak; [apply (mi_rtd I)|]. intros v Hv. right. exact Hv.
    + rewrite (mi_uV I v Hv), (ms_u'd (A v)); [ring|].
      apply (mi_AV I v Hv).
  - unfold rt'. apply dp_scale, dp_in. left. reflexivity.
  - intros v [<- | Hv].
    + rewrite ms_Au. apply dp_add; [apply dp_add|].
      * apply dp_scale, dp_in. left. reflexivity.
      * eapply dp_weak; [apply (mi_rtd I)|exact IV].
      * apply dp_scale, dp_in. right. left. reflexivity.
    + eapply dp_weak; [apply (mi_AV I v Hv)|exact IV'].
  - rewrite ms_res. pose proof ms_y2u' as Y. unfold t'. apply ip_ext. intro z.
    assert (Y' : ip z y2 = be * ip z u') by (rewrite Y at 1; apply ip_scale).
    ipx. rewrite Y'. unfold sn'. field. lra.
  - pose proof (mi_phib I). nra.
  - intros v [<- | Hv].
    + unfold t'. rewrite ip_subl, !ip_scalel, ms_tAu.
      rewrite ms_Au, !ip_add, !ip_scale, ms_u'1, (ip_sym u' u), (ms_u'V u (or_introl eq_refl)),
        (ip_sym u' rt), (ms_u'd rt).
      * unfold sn', cs'. field. lra.
      * eapply dp_weak; [apply (mi_rtd I)|]. intros v Hv. right. exact Hv.
    + unfold t'. rewrite ip_subl, !ip_scalel, (mi_tV I v Hv),
        (ip_sym u' (A v)), (ms_u'd (A v)); [ring|]. apply (mi_AV I v Hv).
  - rewrite ms_Aw1. unfold t'. ipx. rewrite (mi_tt I), ms_u'1, (ip_sym u' t), ms_tu'. ring.
  - unfold t'. rewrite ip_subl, !ip_scalel, (mi_tw I), DAw. ring.
  - rewrite ms_Aw1. apply dp_add; apply dp_scale.
    + eapply dp_weak; [apply (mi_t I)|exact IV'].
    + apply dp_in. left. reflexivity.
  - eapply dp_weak; [apply (mi_b I)|exact IV'].
  - intros z (a & z' & Z & ->). apply dp_add; [apply dp_scale, (mi_b I)|].
    intros y Hy. rewrite <- (SA z' y).
    apply (mi_kd I z' Z). intros v Hv. rewrite (SA v y).
    apply (mi_AV I v Hv). exact Hy.
  - unfold u', y2, p. apply kry_scale, kry_sub; [apply kry_sub|].
    + apply kry_A, (mi_ku I).
    + apply kry_S, kry_S, (mi_krt I).
    + apply kry_scale, kry_S, (mi_ku I).
  - apply ms_kw'.
  - apply kry_S, (mi_kw I).
  - apply ms_kx'.
  - unfold rt'. apply kry_scale, (mi_ku I).
Qed.
End Step.
End Lanczos.
Arguments mi_len {E A b k V u t rt x w w2 cs sn ep db phib} _.
Arguments mi_uu {E A b k V u t rt x w w2 cs sn ep db phib} _.
Arguments mi_uV {E A b k V u t rt x w w2 cs sn ep db phib} _.
Arguments mi_V1 {E A b k V u t rt x w w2 cs sn ep db phib} _.
Arguments mi_Vo {E A b k V u t rt x w w2 cs sn ep db phib} _.
Arguments mi_tt {E A b k V u t rt x w w2 cs sn ep db phib} _.
Arguments mi_t {E A b k V u t rt x w w2 cs sn ep db phib} _.
Arguments mi_cs {E A b k V u t rt x w w2 cs sn ep db phib} _.
Arguments mi_u {E A b k V u t rt x w w2 cs sn ep db phib} _.
Arguments mi_rt {E A b k V u t rt x w w2 cs sn ep db phib} _.
Arguments mi_rtV {E A b k V u t rt x w w2 cs sn ep db phib} _.
Arguments mi_rtd {E A b k V u t rt x w w2 cs sn ep db phib} _.
Arguments mi_AV {E A b k V u t rt x w w2 cs sn ep db phib} _.
Arguments mi_r {E A b k V u t rt x w w2 cs sn ep db phib} _.
Arguments mi_phib {E A b k V u t rt x w w2 cs sn ep db phib} _.
Arguments mi_tV {E A b k V u t rt x w w2 cs sn ep db phib} _.
Arguments mi_tw {E A b k V u t rt x w w2 cs sn ep db phib} _.
Arguments mi_tw2 {E A b k V u t rt x w w2 cs sn ep db phib} _.
Arguments mi_Aw {E A b k V u t rt x w w2 cs sn ep db phib} _.
Arguments mi_b {E A b k V u t rt x w w2 cs sn ep db phib} _.
Arguments mi_kd {E A b k V u t rt x w w2 cs sn ep db phib} _.
Arguments mi_ku {E A b k V u t rt x w w2 cs sn ep db phib} _.
Arguments mi_kw {E A b k V u t rt x w w2 cs sn ep db phib} _.
Arguments mi_kw2 {E A b k V u t rt x w w2 cs sn ep db phib} _.
Arguments mi_kx {E A b k V u t rt x w w2 cs sn ep db phib} _.
Arguments mi_krt {E A b k V u t rt x w w2 cs sn ep db phib} _.

(** ** The model, in exact arithmetic. *)
Section Exact.
Variables (dv : R -> R -> R) (sq : R -> R).
Hypothesis DV : dv_ok dv.
Hypothesis SQ : sq_ok sq.
Variable E : IPS.
Local Notation KK := (exactK dv sq).
Local Notation WW := (exactV dv sq E).
Variables (q : kprob WW) (kw : mr_kw WW) (b : iv E).
Hypothesis NP : m_precon kw = None.
Hypothesis SA : selfadj (q_A q : iv E -> iv E).
Local Open Scope R_scope.

(** The shifted operator. *)
Definition shifted (A : iv E -> iv E) (s : R) (z : iv E) : iv E := isub (A z) (iscale s z).
Local Notation At := (shifted (q_A q) (m_shift kw)).
Local Notation eps := (@machine_eps KK).
Local Notation lim := (@mr_lim KK WW kw b).
Local Notation res z := (inorm (isub b (At z))).

Lemma shifted_sym : selfadj At.
Proof.
  intros u v. unfold shifted. rewrite ip_sub, ip_subl, ip_scale, ip_scalel, (SA u v). reflexivity.
Qed.
Let SAt := shifted_sym.
Let LAt : lin At := adjoint_lin At At SAt.

Lemma eps_pos : 0 < eps.
Proof. apply Q2R_pos_lit. Qed.

Lemma mr_body_eq : forall beta1 (st st' : mr_st WW),
  @mr_body KK WW q kw eps beta1 lim st = Ok st' ->
  let v : iv E := iscale (dv 1 (r_beta st)) (r_y st) in
  let rt : iv E := iscale (dv (r_beta st) (r_oldb st)) (r_r1 st) in
  let p : iv E := if (2 <=? r_itn st + 1)%nat then isub (At v) rt else At v in
  let al := ip v p in
  let y2 : iv E := iadd (iscale (dv (- al) (r_beta st)) (r_r2 st)) p in
  let be := sq (ip y2 y2) in
  let de := r_cs st * r_dbar st + r_sn st * al in
  let gb := r_sn st * r_dbar st - r_cs st * al in
  let ga := Rmax (sq (gb * gb + be * be)) eps in
  let root := sq (gb * gb + (- r_cs st * be) * (- r_cs st * be)) in
  let cs := dv gb ga in
  let sn := dv be ga in
  let w : iv E := iscale (dv 1 ga) (isub (isub v (iscale (r_epsln st) (r_w2 st))) (iscale de (r_w st))) in
  let x : iv E := iadd (r_x st) (iscale (cs * r_phibar st) w) in
  r_x st' = x /\ r_y st' = y2 /\ r_r1 st' = r_r2 st /\ r_r2 st' = y2 /\ r_w st' = w /\ r_w2 st' = r_w st /\
  r_oldb st' = r_beta st /\ r_beta st' = be /\ r_dbar st' = - r_cs st * be /\ r_epsln st' = r_sn st * be /\
  r_phibar st' = sn * r_phibar st /\ r_cs st' = cs /\ r_sn st' = sn /\ r_rnorm st' = sn * r_phibar st /\
  r_Arnorm st' = r_phibar st * root /\ r_itn st' = (r_itn st + 1)%nat /\
  r_hist st' = r_hist st ++ [sn * r_phibar st] /\
  r_iters st' = (if m_sit kw then r_iters st ++ [x] else r_iters st).
Proof.
  intros beta1 st st' H.
  intros v rt p al y2 be de gb ga root cs sn w x.
  assert (U : st' = @mr_upd KK WW kw eps beta1 lim st v al y2 y2 (r_cnt st + 1) be de gb root ga).
  { unfold mr_body in H.
    destruct (mr_lan q kw st) as [[[[[v0 al0] r20] y0] be20] cnt0] eqn:EL. unfold mr_lan, opmul in EL.
    rewrite NP in EL. cbv beta iota zeta in EL. injection EL as Ev Ea Er Ey Eb Ec.
    assert (P : sltb be20 (s0 : sc KK) = false) by (apply Rltb_false; rewrite <- Eb; apply ip_pos).
    rewrite P in H. destruct (m_window kw =? 0)%nat; [discriminate|].
    assert (V0 : v0 = v) by (symmetry; exact Ev). rewrite V0 in H. clear Ev.
    assert (A0 : al0 = al) by (symmetry; exact Ea). rewrite A0 in H. clear Ea.
    assert (R0 : r20 = y2) by (symmetry; exact Er). rewrite R0 in H. clear Er.
    assert (Y0 : y0 = y2) by (symmetry; exact Ey). rewrite Y0 in H. clear Ey.
    assert (B0 : ssqrt be20 = be) by (rewrite <- Eb; reflexivity). clear Eb.
    rewrite B0, <- Ec in H.
    assert (G0 : @mr_gamma KK eps (mr_gbar st al) be = ga) by (apply Rmax_pymax).
    rewrite G0 in H. clear - H. clearbody ga be al v y2. injection H as <-. reflexivity. }
  clear H. clearbody root ga gb de be y2 al p rt v. subst st'. repeat (split; [reflexivity|]). reflexivity.
Qed.

(** The remaining fields, up to iteration [window]. *)
Lemma mr_body_eq2 : forall beta1 (st st' : mr_st WW),
  @mr_body KK WW q kw eps beta1 lim st = Ok st' -> (r_itn st + 1 <= m_window kw)%nat ->
  let itn := (r_itn st + 1)%nat in
  let v : iv E := iscale (dv 1 (r_beta st)) (r_y st) in
  let rt : iv E := iscale (dv (r_beta st) (r_oldb st)) (r_r1 st) in
  let p : iv E := if (2 <=? itn)%nat then isub (At v) rt else At v in
  let al := ip v p in
  let y2 : iv E := iadd (iscale (dv (- al) (r_beta st)) (r_r2 st)) p in
  let be := sq (ip y2 y2) in
  let de := r_cs st * r_dbar st + r_sn st * al in
  let gb := r_sn st * r_dbar st - r_cs st * al in
  let ga := Rmax (sq (gb * gb + be * be)) eps in
  let root := sq (gb * gb + (- r_cs st * be) * (- r_cs st * be)) in
  let z := dv (r_rhs1 st) ga in
  let gmax := Rmax (if (itn =? 1)%nat then Rabs al else r_gmax st) ga in
  let gmin := @pymin KK (if (itn =? 1)%nat then Rabs al else r_gmin st) ga in
  let istop := if ((itn =? 1)%nat && Rleb (dv be beta1) (Q2R 10 * eps))%bool then (-1)%Z else r_istop st in
  r_tnorm2 st' = r_tnorm2 st + al * al + r_beta st * r_beta st + be * be /\
  r_ynorm2 st' = z * z + r_ynorm2 st /\
  r_Anorm st' = sq (r_tnorm2 st') /\ r_ynorm st' = sq (r_ynorm2 st') /\
  r_rhs1 st' = r_rhs2 st - de * z /\ r_rhs2 st' = - (r_sn st * be) * z /\
  r_gmax st' = gmax /\ r_gmin st' = gmin /\
  r_istop st' = (if (istop =? 0)%Z
    then @mr_tests KK eps beta1 (m_rtol kw) itn lim (dv (r_rnorm st') (r_Anorm st' * r_ynorm st'))
           (dv root (r_Anorm st')) (dv gmax gmin) (r_Anorm st' * r_ynorm st' * eps) else istop) /\
  r_brk st' = (0 <? r_istop st')%Z.
Proof.
  intros beta1 st st' H HW.
  intros itn v rt p al y2 be de gb ga root z gmax gmin istop.
  assert (U : st' = @mr_upd KK WW kw eps beta1 lim st v al y2 y2 (r_cnt st + 1) be de gb root ga).
  { unfold mr_body in H.
    destruct (mr_lan q kw st) as [[[[[v0 al0] r20] y0] be20] cnt0] eqn:EL. unfold mr_lan, opmul in EL.
    rewrite NP in EL. cbv beta iota zeta in EL. injection EL as Ev Ea Er Ey Eb Ec.
    assert (P : sltb be20 (s0 : sc KK) = false) by (apply Rltb_false; rewrite <- Eb; apply ip_pos).
    rewrite P in H. destruct (m_window kw =? 0)%nat; [discriminate|].
    assert (V0 : v0 = v) by (symmetry; exact Ev). rewrite V0 in H. clear Ev.
    assert (A0 : al0 = al) by (symmetry; exact Ea). rewrite A0 in H. clear Ea.
    assert (R0 : r20 = y2) by (symmetry; exact Er). rewrite R0 in H. clear Er.
    assert (Y0 : y0 = y2) by (symmetry; exact Ey). rewrite Y0 in H. clear Ey.
    assert (B0 : ssqrt be20 = be) by (rewrite <- Eb; reflexivity). clear Eb.
    rewrite B0, <- Ec in H.
    assert (G0 : @mr_gamma KK eps (mr_gbar st al) be = ga) by (apply Rmax_pymax).
    rewrite G0 in H. clear - H. clearbody ga be al v y2. injection H as <-. reflexivity. }
  assert (GM : gmax = @pymax KK (if (itn =? 1)%nat then Rabs al else r_gmax st) ga) by (symmetry; apply Rmax_pymax).
  assert (L : (m_window kw <? r_itn st + 1)%nat = false) by (apply Nat.ltb_ge; lia).
  subst istop z gmin. clearbody gmax. clear H. clearbody root ga gb de be y2 al p rt v. subst st' gmax.
  unfold mr_upd. rewrite L. cbn [andb]. repeat (split; [reflexivity|]). reflexivity.
Qed.

Record mr_live (st : mr_st WW) : Prop := {
  ml_ex : exists V u t rt,
    MI At b (r_itn st) V u t rt (r_x st) (r_w st) (r_w2 st) (r_cs st) (r_sn st) (r_epsln st) (r_dbar st) (r_phibar st) /\
    (r_y st : iv E) = iscale (r_beta st) u /\
    (if (2 <=? r_itn st + 1)%nat then iscale (dv (r_beta st) (r_oldb st)) (r_r1 st) = rt else rt = izero);
  ml_beta : 0 < r_beta st;
  ml_r2 : r_r2 st = r_y st }.

Record mr_dead (st : mr_st WW) : Prop := {
  md_y : (r_y st : iv E) = izero;
  md_r2 : (r_r2 st : iv E) = izero;
  md_rt : iscale (dv (r_beta st) (r_oldb st)) (r_r1 st) = (izero : iv E);
  md_beta : r_beta st = 0;
  md_phi : r_phibar st = 0;
  md_sn : r_sn st = 0;
  md_x : At (r_x st) = b;
  md_k : kry At b (r_itn st) (r_x st) }.

Definition mr_ghost (h0 : list R) (xs : list (iv E)) (st : mr_st WW) : Prop :=
  length xs = r_itn st /\ (r_hist st : list R) = h0 ++ map (fun z => res z) xs /\
  ((r_iters st : list (iv E)) = if m_sit kw then izero :: xs else []) /\
  (r_x st : iv E) = last xs izero /\
  (xs <> [] -> r_rnorm st = res (r_x st)) /\
  (xs <> [] -> r_Arnorm st = inorm (At (isub b (At (last (removelast xs) izero))))) /\
  (forall i z, nth_error xs i = Some z ->
     kry At b (S i) z /\ (forall z', kry At b (S i) z' -> res z <= res z')).

Lemma mi_min : forall k V u t rt x w w2 cs sn ep db phib,
  MI At b k V u t rt x w w2 cs sn ep db phib ->
  res x = phib /\ forall z, kry At b k z -> res x <= res z.
Proof.
  intros k V u t rt x w w2 cs sn ep db phib I.
  assert (Q : res x = phib).
  { rewrite (mi_r I). rewrite inorm_scale. unfold inorm. rewrite (mi_tt I), sqrt_1, Rabs_right; [ring|].
    apply Rle_ge, (mi_phib I). }
  split; [exact Q|]. intros z Hz.
  assert (D : ip t (At (isub z x)) = 0).
  { rewrite (SAt t), ip_sym.
    apply (mi_kd I); [apply kry_sub; [exact SAt|exact Hz|apply (mi_kx I)]|].
    intros v Hv. rewrite (SAt v t), ip_sym. apply (mi_tV I v Hv). }
  apply sqrt_le_1_alt.
  assert (R : isub b (At z) = isub (iscale phib t) (At (isub z x))).
  { rewrite <- (mi_r I), (lin_sub At LAt). veq. }
  rewrite R, (mi_r I). pose proof (ip_pos (At (isub z x))) as P.
  set (d := At (isub z x)) in *. ipx. rewrite (ip_sym d t), D. lra.
Qed.

(** The iterations keep the invariant when [At] is bounded below by [eps] on the Krylov space. *)
Hypothesis SG : forall k z, kry At b k z -> eps * inorm z <= inorm (At z).

Lemma mr_ghost_app : forall h0 xs (st st' : mr_st WW) (x : iv E),
  mr_ghost h0 xs st -> (r_x st' : iv E) = x -> r_itn st' = (r_itn st + 1)%nat ->
  (r_hist st' : list R) = r_hist st ++ [res x] ->
  (r_iters st' : list (iv E)) = (if m_sit kw then r_iters st ++ [x] else r_iters st) ->
  r_rnorm st' = res x -> r_Arnorm st' = inorm (At (isub b (At (r_x st)))) ->
  kry At b (S (r_itn st)) x -> (forall z', kry At b (S (r_itn st)) z' -> res x <= res z') ->
  mr_ghost h0 (xs ++ [x]) st'.
Proof.
  intros h0 xs st st' x (G1 & G2 & G3 & G4 & G5 & G6 & G7) X N H I R AR K M.
  split; [rewrite app_length; cbn; lia|]. split.
  { rewrite map_app, app_assoc, <- G2. exact H. }
  split.
  { rewrite I, G3. destruct (m_sit kw); reflexivity. }
  split; [rewrite last_last; exact X|]. split; [intros _; rewrite X; exact R|]. split.
  { intros _. rewrite removelast_last, <- G4. exact AR. }
  intros i z Hi. destruct (lt_dec i (length xs)) as [L|L].
  - rewrite nth_error_app1 in Hi by exact L. apply G7. exact Hi.
  - rewrite nth_error_app2 in Hi by lia. destruct (i - length xs)%nat eqn:Ei; cbn in Hi; [|destruct n; discriminate].
    injection Hi as <-. replace i with (r_itn st) by lia. auto.
Qed.

Lemma mr_step_live : forall beta1 h0 xs (st st' : mr_st WW), mr_live st -> mr_ghost h0 xs st ->
  @mr_body KK WW q kw eps beta1 lim st = Ok st' ->
  exists x, mr_ghost h0 (xs ++ [x]) st' /\ (mr_live st' \/ mr_dead st').
Proof.
  intros beta1 h0 xs st st' [(V & u & t & rt & I & Y & RT) BP R2] G H.
  apply mr_body_eq in H. cbv zeta in H.
  assert (Ev : iscale (dv 1 (r_beta st)) (r_y st) = u).
  { rewrite Y, DV by lra. apply ip_ext. intro z. ipx. field. lra. }
  rewrite Ev in H.
  assert (Ep : (if (2 <=? r_itn st + 1)%nat
       then isub (At u) (iscale (dv (r_beta st) (r_oldb st)) (r_r1 st)) else At u) = isub (At u) rt).
  { destruct (2 <=? r_itn st + 1)%nat; [rewrite RT; reflexivity|]. rewrite RT. veq. }
  rewrite Ep in H. clear Ep.
  set (p := isub (At u) rt) in *. set (al := ip u p) in *.
  assert (Ey : iadd (iscale (dv (- al) (r_beta st)) (r_r2 st)) p = isub p (iscale al u)).
  { rewrite R2, Y, DV by lra. apply ip_ext. intro z. ipx. field. lra. }
  rewrite Ey in H. clear Ey. set (y2 := isub p (iscale al u)) in *.
  assert (Eb : sq (ip y2 y2) = inorm y2) by (rewrite SQ; [reflexivity|apply ip_pos]).
  rewrite Eb in H. clear Eb. set (be := inorm y2) in *.
  set (gb := r_sn st * r_dbar st - r_cs st * al) in *.
  set (de := r_cs st * r_dbar st + r_sn st * al) in *.
  assert (Eg : Rmax (sq (gb * gb + be * be)) eps = sqrt (gb * gb + be * be)).
  { rewrite SQ by nra. apply Rmax_left.
    apply (ms_ga_sg At b SAt _ _ _ _ _ _ _ _ _ _ _ _ _ I eps (fun z Hz => SG _ z Hz)).
    left. apply eps_pos. }
  rewrite Eg in H. 
  assert (GP : 0 < sqrt (gb * gb + be * be)).
  { eapply Rlt_le_trans; [apply eps_pos|]. rewrite <- Eg. apply Rmax_r. }
  clear Eg. set (ga := sqrt (gb * gb + be * be)) in *.
  rewrite SQ in H by nra. rewrite !(DV _ ga) in H by lra.
  set (w' := iscale (1 / ga) (isub (isub u (iscale (r_epsln st) (r_w2 st))) (iscale de (r_w st)))) in *.
  set (x' := iadd (r_x st : iv E) (iscale (gb / ga * r_phibar st) w')) in *.
  destruct H as (X & HY & HR1 & HR2 & HW & HW2 & HO & HB & HD & HE & HPH & HC & HS & HRN & HAR & HN & HH & HI).
  assert (AR : inorm (At (isub b (At (r_x st)))) =
    r_phibar st * sqrt (gb * gb + - r_cs st * be * (- r_cs st * be))).
  { rewrite (mi_r I), (lin_scale At LAt), inorm_scale, Rabs_right by (apply Rle_ge, (mi_phib I)).
    f_equal. apply (ms_nAt At b SAt _ _ _ _ _ _ _ _ _ _ _ _ _ I). }
  rewrite <- AR in HAR. clear AR.
  assert (KX : kry At b (S (r_itn st)) x').
  { apply (ms_kx' At b SAt _ _ _ _ _ _ _ _ _ _ _ _ _ I). }
  destruct (Req_dec be 0) as [B0|B0].
  - destruct (ms_dead At b SAt _ _ _ _ _ _ _ _ _ _ _ _ _ I GP B0) as [D1 D2].
    fold p al y2 be gb ga de w' x' in D1, D2.
    assert (Y0 : y2 = izero) by (apply inorm_zero; exact B0).
    assert (RZ : res x' = 0) by (rewrite D1; transitivity (inorm (@izero E)); [f_equal; veq|apply inorm_izero]).
    exists x'. split.
    + apply mr_ghost_app with (st := st); auto.
      * rewrite HH, D2, RZ, Rmult_0_l. reflexivity.
      * rewrite HRN, D2, RZ. apply Rmult_0_l.
      * intros z' _. rewrite RZ. apply inorm_pos.
    + right. split.
      * rewrite HY. exact Y0.
      * rewrite HR2. exact Y0.
      * rewrite HB, HO, B0, DV by lra. apply ip_ext. intro z. ipx. field. lra.
      * rewrite HB. exact B0.
      * rewrite HPH, D2. apply Rmult_0_l.
      * rewrite HS. exact D2.
      * rewrite X. exact D1.
      * rewrite HN, X, Nat.add_1_r. exact KX.
  - assert (BP' : 0 < be) by (pose proof (inorm_pos y2); unfold be in *; lra).
    pose proof (ms_step At b SAt _ _ _ _ _ _ _ _ _ _ _ _ _ I GP BP') as MS.
    fold p al y2 be gb ga de w' x' in MS.
    destruct (mi_min _ _ _ _ _ _ _ _ _ _ _ _ _ MS) as [Q M].
    exists x'. split.
    + apply mr_ghost_app with (st := st); auto.
      * rewrite HH, Q. reflexivity.
      * rewrite HRN, Q. reflexivity.
    + left. split.
      * rewrite HN, X, HW, HW2, HC, HS, HE, HD, HPH, HY, HB, HO, HR1, R2, Y, Nat.add_1_r.
        eexists _, _, _, _. split; [exact MS|]. split.
        -- apply ip_ext. intro z. ipx. field. lra.
        -- rewrite DV by lra. replace (2 <=? S (r_itn st) + 1)%nat with true by (symmetry; apply Nat.leb_le; lia).
           apply ip_ext. intro z. ipx. field. lra.
      * rewrite HB. exact BP'.
      * rewrite HR2, HY. reflexivity.
Qed.

Lemma mr_step_dead : forall beta1 h0 xs (st st' : mr_st WW), mr_dead st -> (1 <= r_itn st)%nat -> mr_ghost h0 xs st ->
  @mr_body KK WW q kw eps beta1 lim st = Ok st' ->
  exists x, mr_ghost h0 (xs ++ [x]) st' /\ mr_dead st'.
Proof.
  intros beta1 h0 xs st st' [D1 D2 D3 D4 D5 D6 D7 D8] N G H.
  apply mr_body_eq in H. cbv zeta in H.
  rewrite D1, D3 in H.
  assert (Ev : forall a, iscale a (@izero E) = izero) by (intro; veq).
  rewrite !Ev in H.
  assert (Ep : (if (2 <=? r_itn st + 1)%nat then isub (At izero) (@izero E) else At izero) = izero).
  { destruct (2 <=? _)%nat; rewrite (lin_zero At LAt); [veq|reflexivity]. }
  rewrite !Ep in H. clear Ep. rewrite ip_zero in H.
  assert (Ey : iadd (iscale (dv (- 0) (r_beta st)) (r_r2 st)) izero = (@izero E)).
  { rewrite D2. veq. }
  rewrite Ey in H. clear Ey. rewrite ip_zero, D5, D6, (SQ 0), sqrt_0 in H by lra.
  assert (Z1 : forall a c, 0 * a - c * 0 = 0) by (intros; ring). rewrite !Z1 in H.
  rewrite (SQ (0 * 0 + 0 * 0)) in H by lra.
  replace (0 * 0 + 0 * 0) with 0 in H by ring. rewrite sqrt_0 in H.
  pose proof eps_pos as EP. rewrite (Rmax_right 0) in H by lra.
  rewrite !(DV 0) in H by lra. replace (0 / eps) with 0 in H by (field; lra).
  rewrite !Rmult_0_r, !Rmult_0_l in H.
  destruct H as (X & HY & HR1 & HR2 & HW & HW2 & HO & HB & HD & HE & HPH & HC & HS & HRN & HAR & HN & HH & HI).
  assert (Ex : iadd (r_x st) (iscale 0 (iscale (dv 1 eps)
          (isub (isub izero (iscale (r_epsln st) (r_w2 st)))
             (iscale (r_cs st * r_dbar st + r_sn st * 0) (r_w st))))) = (r_x st : iv E)) by (apply ip_ext; intro; rewrite ip_add, ip_scale; ring).
  rewrite D6, Rmult_0_l in Ex. rewrite Ex in X, HI. clear Ex.
  assert (RZ0 : isub b (At (r_x st)) = izero) by (rewrite D7; apply ip_ext; intro z; rewrite ip_sub, ip_zero; ring).
  assert (RZ : res (r_x st) = 0) by (rewrite RZ0; apply inorm_izero).
  exists (r_x st). split.
  - apply mr_ghost_app with (st := st); auto.
    + rewrite HH, RZ. reflexivity.
    + rewrite HRN, RZ. reflexivity.
    + rewrite HAR, RZ0, (lin_zero At LAt), inorm_izero. reflexivity.
    + apply kry_S; [exact SAt|exact D8].
    + intros z' _. rewrite RZ. apply inorm_pos.
  - split.
    + exact HY. + exact HR2.
    + rewrite HR1, D2. apply Ev.
    + exact HB. + exact HPH. + exact HS. + rewrite X. exact D7.
    + rewrite X, HN, Nat.add_1_r. apply kry_S; [exact SAt|exact D8].
Qed.

Lemma mr_init_live : forall beta1 hist cnt, beta1 = inorm b -> 0 < beta1 ->
  mr_live (@mr_init KK WW kw b beta1 0 false hist cnt).
Proof.
  intros beta1 hist cnt EB P. split.
  - exists [], (iscale (1 / beta1) b), (iscale (1 / beta1) b), izero.
    cbn [mr_init r_itn r_x r_w r_w2 r_cs r_sn r_epsln r_dbar r_phibar r_y r_beta r_oldb r_r1].
    assert (BB : beta1 * beta1 = ip b b) by (rewrite EB; apply inorm_sq).
    assert (U1 : ip (iscale (1 / beta1) b) (iscale (1 / beta1) b) = 1).
    { rewrite ip_scale, ip_scalel, <- BB. field. lra. }
    assert (M1 : Q2R (-1) = -1) by (unfold Q2R; cbn; lra).
    split; [|split].
    + split.
      * reflexivity.
      * exact U1.
      * intros v [].
      * intros v [].
      * constructor.
      * exact U1.
      * apply dp_in. left. reflexivity.
      * cbn. rewrite M1. ring.
      * cbn. rewrite M1. apply ip_ext. intro z. ipx. ring.
      * cbn. apply ip_ext. intro z. ipx. ring.
      * intros v [].
      * apply dp_zero.
      * intros v [].
      * change (isub b (At izero) = iscale beta1 (iscale (1 / beta1) b)).
        rewrite (lin_zero At LAt). apply ip_ext. intro z. ipx. field. lra.
      * lra.
      * intros v [].
      * change (ip (iscale (1 / beta1) b) (At izero) = 0). rewrite (lin_zero At LAt). apply ip_zero.
      * change (ip (iscale (1 / beta1) b) (At izero) = 0). rewrite (lin_zero At LAt). apply ip_zero.
      * change (dp [iscale (1 / beta1) b] (At izero)). rewrite (lin_zero At LAt). apply dp_zero.
      * assert (Q : b = iscale beta1 (iscale (1 / beta1) b)) by (apply ip_ext; intro z; ipx; field; lra).
        rewrite Q at 2. apply dp_scale, dp_in. left. reflexivity.
      * intros z ->. apply dp_zero.
      * apply kry_scale; [exact SAt|]. apply kry_b. exact SAt.
      * reflexivity.
      * reflexivity.
      * reflexivity.
      * reflexivity.
    + unfold mr_y0. rewrite NP. change (b = iscale beta1 (iscale (1 / beta1) b)).
      apply ip_ext; intro z; ipx; field; lra.
    + reflexivity.
  - exact P.
  - cbn. unfold mr_y0. rewrite NP. reflexivity.
Qed.

Lemma mr_init_ghost : forall beta1 istop done hist cnt,
  mr_ghost hist [] (@mr_init KK WW kw b beta1 istop done hist cnt).
Proof.
  intros. split; [reflexivity|]. split; [symmetry; apply app_nil_r|]. split; [reflexivity|]. split; [reflexivity|].
  split; [congruence|]. split; [congruence|]. intros i z H. destruct i; discriminate.
Qed.

Lemma mr_while_exact : forall fuel beta1 hist cnt st, beta1 = inorm b -> 0 < beta1 ->
  while fuel (mr_cond lim) (@mr_body KK WW q kw eps beta1 lim)
    (@mr_init KK WW kw b beta1 0 false hist cnt) = Ok st ->
  exists xs, mr_ghost hist xs st /\ (mr_live st \/ (1 <= r_itn st)%nat /\ mr_dead st).
Proof.
  intros fuel beta1 hist cnt st EB P H.
  apply while_inv with (I := fun st => exists xs, mr_ghost hist xs st /\ (mr_live st \/ (1 <= r_itn st)%nat /\ mr_dead st)) in H.
  - apply H.
  - intros s s' (xs & G & I) _ B.
    assert (N : r_itn s' = (r_itn s + 1)%nat).
    { apply mr_body_eq in B. cbv zeta in B. apply B. }
    destruct I as [I|[Ni I]].
    + destruct (mr_step_live _ _ _ _ _ I G B) as (x & G' & I').
      exists (xs ++ [x]). split; [exact G'|]. destruct I' as [I'|I']; [left; exact I'|right].
      split; [lia|exact I'].
    + destruct (mr_step_dead _ _ _ _ _ I Ni G B) as (x & G' & I').
      exists (xs ++ [x]). split; [exact G'|]. right. split; [lia|exact I'].
  - exists []. split; [apply mr_init_ghost|]. left. apply mr_init_live; assumption.
Qed.

Lemma unit_nz : forall u : iv E, ip u u = 1 -> u <> izero.
Proof. intros u H ->. rewrite ip_zero in H. lra. Qed.

Lemma mr_exact : forall fuel hist cnt o cnt',
  @mr_solve KK WW fuel q hist b kw cnt = Ok (o, cnt') ->
  exists xs, length xs = u_itn o /\ (u_hist o : list R) = hist ++ map (fun z => res z) xs /\
    (m_sit kw = true -> (u_iters o : list (iv E)) = izero :: xs) /\
    (u_x o : iv E) = last xs izero /\
    (u_itn o <> 0%nat -> u_rnorm o = res (u_x o)) /\
    (u_itn o <> 0%nat -> u_Arnorm o = inorm (At (isub b (At (last (removelast xs) izero))))) /\
    (forall i z, nth_error xs i = Some z ->
       kry At b (S i) z /\ (forall z', kry At b (S i) z' -> res z <= res z')) /\
    (forall n, dim_le E n -> (n <= u_itn o)%nat -> u_istop o <> 7%Z -> At (u_x o) = b).
Proof.
  intros fuel hist cnt o cnt' H. unfold mr_solve in H.
  destruct (mr_start q kw b cnt) as [[[beta1 istop] done] c0] eqn:ES.
  assert (S1 : done = false -> istop = 0%Z /\ beta1 = inorm b /\ 0 < beta1).
  { clear H. unfold mr_start, mr_y0 in ES. rewrite NP in ES. intros ->.
    destruct (if m_check kw then check_symmetric _ _ _ _ _ _ else _) as [ok c1].
    replace (sltb (@vdot KK WW b b) (@s0 KK)) with false in ES by (symmetry; apply Rltb_false, ip_pos).
    destruct (seqb (@vdot KK WW b b) (@s0 KK)) eqn:EZ; [destruct ok; discriminate|]. destruct ok; [|discriminate].
    cbv beta iota in ES. injection ES as EB <- _.
    assert (NZ : ip b b <> 0) by (apply Reqb_false; exact EZ).
    pose proof (ip_pos b). assert (PB : 0 < ip b b) by lra.
    split; [reflexivity|].
    assert (EB' : beta1 = inorm b).
    { rewrite <- EB. change ((if Rltb 0 (ip b b) then sq (ip b b) else ip b b) = inorm b).
      rewrite (proj2 (Rltb_true _ _) PB), SQ by lra. reflexivity. }
    split; [exact EB'|]. rewrite EB'. apply sqrt_lt_R0. exact PB. }
  assert (S2 : done = true -> istop <> 7%Z -> b = izero).
  { clear H S1. intros -> N7. unfold mr_start, mr_y0 in ES. rewrite NP in ES.
    destruct (if m_check kw then check_symmetric _ _ _ _ _ _ else _) as [ok c1].
    replace (sltb (@vdot KK WW b b) (@s0 KK)) with false in ES by (symmetry; apply Rltb_false, ip_pos).
    destruct (seqb (@vdot KK WW b b) (@s0 KK)) eqn:EZ; [apply Reqb_true in EZ; apply ip_def; exact EZ|].
    destruct ok; [discriminate|]. cbv beta iota in ES. injection ES as _ <- _. congruence. }
  destruct (while _ _ _ _) as [st|] eqn:EW; [|discriminate]. injection H as <- <-.
  cbn [u_itn u_hist u_iters u_x u_rnorm u_Arnorm u_istop].
  destruct done.
  - destruct fuel as [|fuel]; [discriminate|]. cbn [while mr_cond r_brk mr_init negb andb] in EW. injection EW as <-.
    destruct (mr_init_ghost beta1 istop true hist c0) as (G1 & G2 & G3 & G4 & G5 & G6 & G7).
    exists []. split; [exact G1|]. split; [exact G2|]. split; [intro Si; rewrite Si in G3; exact G3|].
    split; [exact G4|]. split; [cbn; congruence|]. split; [cbn; congruence|]. split; [exact G7|].
    intros n D N N7. cbn in N7 |- *. rewrite (S2 eq_refl N7). change (At izero = izero). apply (lin_zero At LAt).
  - destruct (S1 eq_refl) as (-> & EB & PB).
    destruct (mr_while_exact _ _ _ _ _ EB PB EW) as (xs & (G1 & G2 & G3 & G4 & G5 & G6 & G7) & LD).
    assert (NX : r_itn st <> 0%nat -> xs <> []) by (intros N ->; cbn in G1; congruence).
    exists xs. split; [exact G1|]. split; [exact G2|]. split; [intro Si; rewrite Si in G3; exact G3|].
    split; [exact G4|]. split; [auto|]. split; [auto|]. split; [exact G7|].
    intros n D N _. destruct LD as [[(V & u & t & rt & I & _) _ _]|[_ LD]]; [|exact (md_x _ LD)].
    exfalso. assert (L : (length (u :: V) <= n)%nat).
    { apply D.
      - constructor; [|apply (mi_Vo I)]. apply Forall_forall. intros v Hv. rewrite ip_sym. apply (mi_uV I v Hv).
      - constructor; [apply unit_nz, (mi_uu I)|]. apply Forall_forall. intros v Hv. apply unit_nz, (mi_V1 I v Hv). }
    cbn in L. rewrite (mi_len I) in L. lia.
Qed.
End Exact.
