(** * The structured L-BFGS product in exact arithmetic. *)
From Coq Require Import List ZArith QArith Qreals Reals Lra Lia Bool Arith.
From Verif Require Import Base Num LbfgsModel LbfgsRing LbfgsMath LbfgsProof LbfgsFwd StructModel.
Import ListNotations.
Local Open Scope R_scope.

(** ** The update formula of Dennis, Gay and Welsch, with a general vector [a]. *)
Section Math.
Context {E : IPS}.
Notation V := (iv E).

(** (ad a' + a ad') / (a's) - (ad's) / (a's)^2 a a', applied to [v]; a factor is [(s, a, ad)]. *)
Definition fac := (V * V * V)%type.
Definition dgw (f : fac) (v : V) : V :=
  let '(s, a, ad) := f in
  iadd (iscale (ip a v / ip a s) ad)
       (iscale (ip ad v / ip a s - ip a v * ip ad s / (ip a s * ip a s)) a).

(** What lines 318-320 compute instead: the first quotient is divided by [a's] once more. *)
Definition code_dgw (f : fac) (v : V) : V :=
  let '(s, a, ad) := f in
  iadd (iscale (ip a v / ip a s / ip a s) ad)
       (iscale (ip ad v / ip a s - ip a v * ip ad s / (ip a s * ip a s)) a).

Definition sumf (g : fac -> V -> V) (F : list fac) (v : V) : V :=
  fold_left (fun w f => iadd w (g f v)) F izero.

Lemma sumf_snoc : forall g F f v, sumf g (F ++ [f]) v = iadd (sumf g F v) (g f v).
Proof. intros g F f v. unfold sumf. rewrite fold_left_app. reflexivity. Qed.

(** The factors that the code computes from the triples [(s, y, yd)], oldest first. *)
Definition next (gamma : R) (F : list fac) (t : V * V * V) : fac :=
  let '(s, y, yd) := t in
  let u := iadd (iscale (/ gamma) s) (sumf code_dgw F s) in
  (s, iadd y (iscale (sqrt (gamma * ip s y / ip s s)) u), isub yd u).
Definition factors (gamma : R) (ts : list (V * V * V)) : list fac :=
  fold_left (fun F t => F ++ [next gamma F t]) ts [].

Lemma factors_snoc : forall g ts t, factors g (ts ++ [t]) = factors g ts ++ [next g (factors g ts) t].
Proof. intros. unfold factors. rewrite fold_left_app. reflexivity. Qed.
Lemma factors_len : forall g ts, length (factors g ts) = length ts.
Proof.
  intros g ts. induction ts as [|t ts IH] using rev_ind; [reflexivity|].
  rewrite factors_snoc, !app_length, IH. reflexivity.
Qed.

Definition nonsing (f : fac) : Prop := ip (snd (fst f)) (fst (fst f)) <> 0.

(** ** The intended matrix: B + dgw, with ad = yd - B s and a = y + (y's / s'Bs)^(1/2) B s. *)
Definition Supd (B : V -> V) (t : V * V * V) (v : V) : V :=
  let '(s, y, yd) := t in
  iadd (B v) (dgw (s, iadd y (iscale (sqrt (ip s y / ip s (B s))) (B s)), isub yd (B s)) v).
Definition Sof (b : R) (ts : list (V * V * V)) : V -> V := fold_left Supd ts (iscale b).

Lemma dgw_sym : forall f u v, ip u (dgw f v) = ip (dgw f u) v.
Proof.
  intros [[s a] ad] u v. unfold dgw. ipx. rewrite (ip_sym u a), (ip_sym u ad). unfold Rdiv. ring.
Qed.
Lemma dgw_lin : forall f, lin (dgw f).
Proof.
  intros [[s a] ad]. split; intros; unfold dgw; apply ip_ext; intro w; ipx; unfold Rdiv; ring.
Qed.
Lemma dgw_s : forall s a ad, ip a s <> 0 -> dgw (s, a, ad) s = ad.
Proof. intros s a ad N. unfold dgw. apply ip_ext; intro w. ipx. field. exact N. Qed.

Lemma sumf_lin : forall F, lin (sumf dgw F).
Proof.
  intro F. induction F as [|f F IH] using rev_ind.
  - split; intros; unfold sumf; cbn; veq.
  - destruct IH as [A S]. pose proof (dgw_lin f) as [A' S'].
    split; intros; rewrite !sumf_snoc.
    + rewrite A, A'. veq.
    + rewrite S, S'. veq.
Qed.
Lemma sumf_sym : forall F u v, ip u (sumf dgw F v) = ip (sumf dgw F u) v.
Proof.
  intros F u v. induction F as [|f F IH] using rev_ind.
  - unfold sumf; cbn. ipx. reflexivity.
  - rewrite !sumf_snoc. ipx. rewrite IH, dgw_sym. reflexivity.
Qed.

(** The error of [code_dgw]. *)
Lemma code_err : forall s a ad v, ip a s <> 0 ->
  dgw (s, a, ad) v = iadd (code_dgw (s, a, ad) v) (iscale (ip a v / ip a s * (1 - / ip a s)) ad).
Proof. intros s a ad v N. unfold dgw, code_dgw. apply ip_ext; intro w. ipx. field. exact N. Qed.

(** The intended update is a symmetric rank-two change that meets the structured secant equation,
    and it is the BFGS update when [yd = y]. *)
Lemma supd_secant : forall B s y yd, 0 < ip s y -> 0 < ip s (B s) -> Supd B (s, y, yd) s = yd.
Proof.
  intros B s y yd Y P. unfold Supd. rewrite dgw_s.
  - veq.
  - ipx. rewrite (ip_sym y s), (ip_sym (B s) s). pose proof (sqrt_pos (ip s y / ip s (B s))).
    assert (0 <= sqrt (ip s y / ip s (B s)) * ip s (B s)) by (apply Rmult_le_pos; lra). lra.
Qed.

Lemma supd_bfgs : forall B s y v, 0 < ip s y -> 0 < ip s (B s) ->
  Supd B (s, y, y) v = Bupd B (s, y) v.
Proof.
  intros B s y v Y P. unfold Supd, Bupd, dgw.
  assert (Q : 0 < ip s y / ip s (B s)) by (apply Rdiv_lt_0_compat; assumption).
  set (c := sqrt (ip s y / ip s (B s))).
  assert (C : 0 < c) by (apply sqrt_lt_R0, Q).
  assert (CC : ip s y = c * c * ip s (B s)).
  { unfold c. rewrite sqrt_sqrt by lra. field. lra. }
  clearbody c.
  assert (N : c * ip s (B s) * (c + 1) <> 0).
  { apply Rgt_not_eq. apply Rmult_lt_0_compat; [apply Rmult_lt_0_compat|]; lra. }
  apply ip_ext; intro w. ipx. rewrite (ip_sym y s), (ip_sym (B s) s), CC.
  field. split; [lra|]. split; [nra|lra].
Qed.
End Math.

Section Exact.
Variables (dv : R -> R -> R) (sq : R -> R) (E : IPS).
Hypothesis (DV : dv_ok dv) (SQ : sq_ok sq).
Notation WW := (exactV dv sq E).
Notation V := (iv E).

Definition pr (t : V * V * V) : V * V := fst t.

(** Slot number [j] of the memory holds the triple [t]. *)
Definition tring (st : slb WW) (ts : list (V * V * V)) : Prop :=
  ring (t_lb st) (map pr ts : list (vc WW * vc WW)) /\
  forall j t, nth_error ts j = Some t ->
    t_yd st (up (t_lb st) (l_np (t_lb st) - length ts + j)) = snd t.

Variables (st : slb WW) (ts : list (V * V * V)) (gamma : R) (d0 : V * V * V).
Hypothesis (TR : tring st ts) (CU : Forall (fun t => curved (pr t)) ts) (GP : 0 < gamma).
Let c := length ts.
Let slot (j : nat) : nat := up (t_lb st) (l_np (t_lb st) - length ts + j)%nat.

Lemma t_len : length (map pr ts) = length ts. Proof. apply map_length. Qed.
Lemma t_le : (c <= l_np (t_lb st))%nat.
Proof. unfold c. rewrite <- t_len. apply (rg_len _ _ (proj1 TR)). Qed.

Lemma t_slot_inj : forall i j, (i < c)%nat -> (j < c)%nat -> slot i = slot j -> i = j.
Proof. intros i j I J H. pose proof t_le. unfold c in *. apply up_inj in H; lia. Qed.

Definition sj (j : nat) : V := fst (fst (nth j ts d0)).
Definition yj (j : nat) : V := snd (fst (nth j ts d0)).
Definition ydj (j : nat) : V := snd (nth j ts d0).

Lemma t_slot_at : forall j, (j < c)%nat ->
  l_s (t_lb st) (slot j) = sj j /\ l_y (t_lb st) (slot j) = yj j /\
  l_ys (t_lb st) (slot j) = Some (ip (sj j) (yj j)) /\ t_yd st (slot j) = ydj j.
Proof.
  intros j J. assert (N : nth_error ts j = Some (nth j ts d0)) by (apply nth_error_nth', J).
  destruct TR as [RG YD].
  assert (N' : nth_error (map pr ts) j = Some (pr (nth j ts d0))) by (rewrite nth_error_map, N; reflexivity).
  destruct (rg_some _ _ RG j _ N') as (A & B & C).
  change (@length (vc WW * vc WW) (map pr ts)) with (@length (V * V) (map pr ts)) in A, B, C.
  rewrite t_len in A, B, C. split; [exact A|]. split; [exact B|]. split; [exact C|]. apply (YD j _ N).
Qed.

Lemma t_curved : forall j, (j < c)%nat -> 0 < ip (sj j) (yj j).
Proof. intros j J. rewrite Forall_forall in CU. apply (CU (nth j ts d0)). apply nth_In, J. Qed.

(** The arrays hold the first [j] factors. *)
Definition arrs_ok (z : sst WW) (F : list (@fac E)) : Prop :=
  forall l f, nth_error F l = Some f ->
    t_a z (slot l) = snd (fst f) /\ t_ad z (slot l) = snd f /\
    t_at z (slot l) = ip (snd (fst f)) (fst (fst f)) /\ t_adt z (slot l) = ip (snd f) (fst (fst f)).

Lemma update_ok : forall (z : sst WW) l (f : @fac E) (sk : V), t_a z (slot l) = snd (fst f) -> t_ad z (slot l) = snd f ->
  t_at z (slot l) = ip (snd (fst f)) (fst (fst f)) -> t_adt z (slot l) = ip (snd f) (fst (fst f)) ->
  nonsing f -> str_update z (slot l) sk = code_dgw f sk.
Proof.
  intros z l [[s a] ad] sk A D T U N. cbn [fst snd] in *. unfold nonsing in N. cbn in N.
  unfold str_update. rewrite A, D, T, U. unfold code_dgw.
  change (@vc (exactK dv sq) WW) with V in *.
  cbn [vadd vsub vscale vdot exactVn WW sdiv smul exactK]. rewrite !DV by exact N.
  apply ip_ext; intro w. ipx. field. exact N.
Qed.

Lemma str_inner_ok : forall (z : sst WW) coef F j t, (j < c)%nat -> (t <= j)%nat -> length F = j ->
  arrs_ok z F -> Forall nonsing F ->
  let k := slot j in
  let z' := fold_left (fun z l => str_inner st k coef z (l_np (t_lb st) - length ts + l)%nat) (seq 0 t) z in
  let u := sumf code_dgw (firstn t F) (sj j) in
  t_a z' k = iadd (t_a z k) (iscale coef u) /\ t_ad z' k = isub (t_ad z k) u /\
  (forall l, l <> k -> t_a z' l = t_a z l /\ t_ad z' l = t_ad z l) /\
  t_q z' = t_q z /\ t_at z' = t_at z /\ t_adt z' = t_adt z.
Proof.
  intros z coef F j t J T LF AO NS. cbv zeta. induction t as [|t IH].
  - cbn. unfold sumf. cbn. split; [veq|]. split; [veq|]. auto.
  - specialize (IH ltac:(lia)). rewrite seq_S, fold_left_app. cbn [fold_left plus].
    match goal with |- context [fold_left ?f (seq 0 t) ?a0] => set (z1 := fold_left f (seq 0 t) a0) in * end.
    destruct IH as (A & D & O & Q & AT & ADT).
    unfold str_inner. fold (slot t). destruct (t_slot_at t ltac:(lia)) as (_ & _ & D1 & _). rewrite D1.
    destruct (t_slot_at j J) as (SK & _).
    assert (NE : slot t <> slot j) by (intro X; apply t_slot_inj in X; lia).
    cbn [t_a t_ad t_q t_at t_adt]. rewrite !upd_eq.
    assert (LT : (t < length F)%nat) by lia.
    destruct (nth_error F t) as [f|] eqn:NF; [|apply nth_error_None in NF; lia].
    destruct (AO t f NF) as (X1 & X2 & X3 & X4). destruct (O _ NE) as [O1 O2].
    assert (U : str_update z1 (slot t) (l_s (t_lb st) (slot j)) = code_dgw f (sj j)).
    { rewrite SK. apply update_ok; try congruence.
      rewrite Forall_forall in NS. apply NS. eapply nth_error_In, NF. }
    rewrite U.
    assert (FS : firstn (S t) F = firstn t F ++ [f]).
    { rewrite (first_snoc _ F f t LT). f_equal. f_equal. apply nth_error_nth. exact NF. }
    rewrite FS, sumf_snoc, A, D.
    change (@vc (exactK dv sq) WW) with V in *.
    cbn [vadd vsub vscale vdot exactVn WW]. split; [veq|]. split; [veq|].
    split; [|auto]. intros l L. rewrite !(upd_ne _ _ _ _ _ L). apply O, L.
Qed.

Lemma str_inv : forall (v q0 : V) (z0 : sst WW) j, t_q z0 = q0 -> (j <= c)%nat ->
  Forall nonsing (factors gamma (firstn j ts)) ->
  let z := fold_left (fun z i => str_body st gamma v z (l_np (t_lb st) - length ts + i)%nat) (seq 0 j) z0 in
  t_q z = iadd q0 (sumf dgw (factors gamma (firstn j ts)) v) /\ arrs_ok z (factors gamma (firstn j ts)).
Proof.
  intros v q0 z0 j Z. cbv zeta. induction j as [|j IH]; intros J NS.
  - cbn. rewrite Z. unfold sumf, factors; cbn. split; [veq|]. intros [|l] f H; discriminate.
  - assert (FS : firstn (S j) ts = firstn j ts ++ [(sj j, yj j, ydj j)]).
    { rewrite (first_snoc _ ts d0 j ltac:(unfold c in *; lia)). unfold sj, yj, ydj. destruct (nth j ts d0) as [[? ?] ?]; reflexivity. }
    rewrite FS in NS |- *. rewrite factors_snoc in NS |- *. apply Forall_app in NS. destruct NS as [NS NF].
    specialize (IH ltac:(lia) NS). rewrite seq_S, fold_left_app. cbn [fold_left plus].
    match goal with |- context [fold_left ?f (seq 0 j) ?a0] => set (z1 := fold_left f (seq 0 j) a0) in * end.
    destruct IH as [Q AO]. set (F := factors gamma (firstn j ts)) in *.
    assert (LF : length F = j) by (unfold F; rewrite factors_len, firstn_length; unfold c in *; lia).
    unfold str_body. fold (slot j).
    destruct (t_slot_at j ltac:(lia)) as (HS & HY & HD & HYD). rewrite HD. cbv zeta.
    pose proof (t_curved j ltac:(lia)) as C. destruct (curved_nz _ _ C) as [SN _].
    pose proof (ip_nz _ SN) as SS.
    rewrite HS, HY, HYD. set (s := sj j) in *. set (y := yj j) in *. set (yd := ydj j) in *. set (k := slot j) in *.
    change (@vc (exactK dv sq) WW) with V in *.
    cbn [vadd vsub vscale vdot vdivs exactVn WW sdiv smul ssqrt exactK].
    rewrite (DV (gamma * ip s y)) by lra. rewrite (DV 1) by lra.
    assert (SQE : sq (gamma * ip s y / ip s s) = sqrt (gamma * ip s y / ip s s)).
    { apply SQ. apply Rlt_le, Rdiv_lt_0_compat; [apply Rmult_lt_0_compat|]; assumption. }
    rewrite SQE. set (coef := sqrt (gamma * ip s y / ip s s)).
    match goal with |- context [fold_left (str_inner st k coef) _ ?a0] => set (zi := a0) end.
    rewrite <- t_len.
    rewrite !(skip_fold _ _ (t_lb st) (map pr ts) j zi (proj1 TR))
      by (intros x i N; unfold str_inner; rewrite N; reflexivity).
    change (@length (vc WW * vc WW) (map pr ts)) with (@length (V * V) (map pr ts)). rewrite t_len.
    assert (NE : forall l, (l < j)%nat -> slot l <> k) by (intros l L X; apply t_slot_inj in X; lia).
    assert (AOi : arrs_ok zi F).
    { intros l f HL. assert (l < j)%nat by (rewrite <- LF; apply nth_error_Some; congruence).
      destruct (AO l f HL) as (X1 & X2 & X3 & X4). unfold zi. cbn [t_a t_ad t_at t_adt].
      rewrite !upd_ne by (apply NE; assumption). auto. }
    destruct (str_inner_ok zi coef F j j ltac:(lia) (le_n _) LF AOi NS) as (A & D & O & QQ & AT & ADT).
    fold k s in A, D, O, QQ, AT, ADT. rewrite <- LF, firstn_all, LF in A, D.
    match goal with |- context [fold_left ?f (seq 0 j) zi] => set (z2 := fold_left f (seq 0 j) zi) in * end.
    cbn [t_q t_a t_ad t_at t_adt]. rewrite !upd_eq.
    unfold zi in A, D. cbn [t_a t_ad] in A, D. rewrite upd_eq in A, D.
    assert (EF : next gamma F (s, y, yd) = (s, t_a z2 k, t_ad z2 k)).
    { unfold next. rewrite A, D. fold coef. change (@vc (exactK dv sq) WW) with V.
      f_equal; [f_equal|]; apply ip_ext; intro w; ipx; field; lra. }
    rewrite EF. apply Forall_inv in NF. rewrite EF in NF. unfold nonsing in NF. cbn [fst snd] in NF.
    assert (NF2 : ip (t_a z2 k : V) s * ip (t_a z2 k : V) s <> 0) by (apply Rmult_integral_contrapositive; auto).
    split.
    + rewrite sumf_snoc, QQ. unfold zi. cbn [t_q]. rewrite Q. rewrite !DV by (exact NF || exact NF2). unfold dgw.
      apply ip_ext; intro w. ipx. field. exact NF.
    + intros l f HL. cbn [t_a t_ad t_at t_adt]. destruct (Nat.eq_dec l j) as [->|N].
      * fold k. rewrite nth_error_app2 in HL by lia. rewrite LF, Nat.sub_diag in HL. cbn in HL. injection HL as <-.
        rewrite !upd_eq. cbn [fst snd]. auto.
      * assert (L : (l < j)%nat).
        { assert (X : forall (G : list (@fac E)) g0, nth_error G l = Some g0 -> (l < length G)%nat)
            by (intros G g0 HG; apply nth_error_Some; congruence).
          specialize (X _ _ HL).
          rewrite app_length, LF in X. cbn in X. lia. }
        rewrite nth_error_app1 in HL by lia.
        destruct (AO l f HL) as (X1 & X2 & X3 & X4). destruct (O _ (NE l L)) as [O1 O2].
        rewrite !upd_ne by (apply NE; assumption). rewrite O1, O2, AT, ADT. unfold zi. cbn [t_a t_ad t_at t_adt].
        rewrite !upd_ne by (apply NE; assumption). auto.
Qed.

End Exact.

Section Product.
Variables (dv : R -> R -> R) (sq : R -> R) (E : IPS).
Hypothesis (DV : dv_ok dv) (SQ : sq_ok sq).
Notation WW := (exactV dv sq E).
Notation V := (iv E).

Definition tgam (sc : bool) (ts : list (V * V * V)) : R := gam E sc (map (pr E) ts).

Theorem str_ok : forall (st : slb WW) ts (v : V),
  tring dv sq E st ts -> Forall (fun t => curved (pr E t)) ts ->
  (l_scal (t_lb st) = false -> l_gamma (t_lb st) = 1) ->
  let g := tgam (l_scal (t_lb st)) ts in
  Forall nonsing (factors g ts) ->
  exists st', str_matvec st v = Ok (iadd (iscale (/ g) v) (sumf dgw (factors g ts) v) : vc WW, st').
Proof.
  intros st ts v TR CU G1 g NS.
  assert (CU' : Forall curved (map (pr E) ts)) by (apply Forall_map; exact CU).
  assert (GP : 0 < g) by (apply gam_pos, CU').
  destruct (scal_ok dv sq E DV (t_lb st) (map (pr E) ts) (proj1 TR) CU') as [S1 S2].
  assert (LEN : @length (vc WW * vc WW) (map (pr E) ts) = length ts) by apply map_length.
  assert (LE : (length ts <= l_np (t_lb st))%nat) by (rewrite <- LEN; apply (rg_len _ _ (proj1 TR))).
  assert (SK : forall ga z, fold_left (str_body st ga v) (seq 0 (l_np (t_lb st))) z =
     fold_left (fun z i => str_body st ga v z (l_np (t_lb st) - length ts + i)%nat) (seq 0 (length ts)) z).
  { intros ga z. replace (seq 0 (l_np (t_lb st))) with (seq 0 (l_np (t_lb st) - length ts + length ts)) by (f_equal; lia).
    rewrite <- LEN. apply (skip_fold _ _ (t_lb st) (map (pr E) ts) _ z (proj1 TR)).
    intros x i N. unfold str_body. rewrite N. reflexivity. }
  assert (CS : ts = [] \/ exists t0, ts <> [] /\ In t0 ts) by (destruct ts as [|t0 ?]; [left; reflexivity|right; exists t0; split; [discriminate|left; reflexivity]]).
  unfold str_matvec. destruct CS as [TS|(t0 & TS & _)].
  - subst ts. rewrite (S2 (or_intror eq_refl)). cbn [rbind]. rewrite SK. eexists. f_equal. f_equal.
    unfold g, tgam, gam, factors, sumf. cbn.
    destruct (l_scal (t_lb st)); apply ip_ext; intro w; ipx; field.
  - assert (X : exists o, scal_gamma (t_lb st) = Ok o /\ or_gamma o (t_lb st) = g /\
              (match o with Some g => @vdivs _ WW v g | None => v end : V) = iscale (/ g) v).
    { destruct (l_scal (t_lb st)) eqn:SC.
      - assert (NE : map (pr E) ts <> []).
        { intro Z. apply map_eq_nil in Z. exact (TS Z). }
        exists (Some g). split; [exact (S1 eq_refl NE)|]. split; [reflexivity|].
        assert (GN : g <> 0) by lra. clearbody g. cbn. rewrite DV by exact GN. veq. field. exact GN.
      - exists None. split; [exact (S2 (or_introl eq_refl))|].
        split; [exact (G1 eq_refl)|]. unfold g, tgam, gam. rewrite Rinv_1. veq. }
    destruct X as (o & O1 & O2 & O3). rewrite O1. cbn [rbind]. rewrite O2, SK. eexists. f_equal. f_equal.
    match goal with |- t_q (fold_left _ _ ?z0) = _ =>
      destruct (str_inv dv sq E DV SQ st ts g t0 TR CU GP v (iscale (/ g) v) z0 (length ts) O3 (le_n _)) as [Q _] end.
    { rewrite firstn_all. exact NS. }
    rewrite firstn_all in Q. exact Q.
Qed.
End Product.
