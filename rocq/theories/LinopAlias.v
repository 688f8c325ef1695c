(** * Counters of composite operators, diagonal operators and aliasing of the caller's array. *)
From Coq Require Import List ZArith Lia Bool Ring.
From Verif Require Import Base Field Vec LinopModel LinopFrame LinopGood LinopInit LinopDep LinopAlg
  LinopOps LinopExpr LinopExtra LinopUser LinopBase LinopMat LinopMisc.
Import ListNotations.

Section Alias.
Context {F : Fld} (FOK : FldOK F).
Add Ring Kring8 : (fk_ring F FOK).
Notation st := (st F). Notation obj := (obj F). Notation M := (M F). Notation arr := (arr F).
Notation map1 := (list F -> list F).

(** ** C09: one application of A*B *)
Lemma count_bumped_ne : forall (s : st) a o b, b <> a -> count (bumped a o s) b = count s b.
Proof. intros. unfold count, bumped. now rewrite (get_set_ne s a b _ (objs s b)). Qed.
Lemma cle_bumped : forall (s : st) a o, objs s a = Some o -> cle s (bumped a o s).
Proof.
  intros s a o Ho. apply (frame_bump a s _ (Ok tt)). unfold bump, modobj. rewrite Ho. reflexivity.
Qed.
Lemma unch_count : forall (Q : addr -> Prop) (s s' : st) b, unch Q s s' -> ~ Q b -> count s' b = count s b.
Proof. intros Q s s' b [_ U] N. unfold count. now rewrite U. Qed.

Lemma mul_apply_count : forall (s s' : st) c oc a b x y d, objs s c = Some oc -> o_mv oc = CMul WN a b ->
  Acc (dep s) c -> (exists oa, objs s a = Some oa) -> (exists ob, objs s b = Some ob) ->
  ~ reach s a b -> ~ reach s b a ->
  apply (S (S d)) c x s = (s', Ok y) ->
  count s' c = S (count s c) /\ count s' a = S (count s a) /\ count s' b = S (count s b) /\
  (forall e, e <> c -> ~ reach s a e -> ~ reach s b e -> count s' e = count s e).
Proof.
  intros s s' c oc a b x y d Hc Hm Ac (oa & Ha) (ob & Hb) Nab Nba E.
  split; [eapply apply_count; eauto|].
  assert (Da : dep s a c) by (exists oc; split; auto; rewrite Hm; cbn; auto).
  assert (Db : dep s b c) by (exists oc; split; auto; rewrite Hm; cbn; auto).
  assert (Nac : a <> c) by (intro Eac; eapply (reach_acc_irrefl s c a Ac Da); rewrite Eac; apply reach_refl).
  assert (Nbc : b <> c) by (intro Eac; eapply (reach_acc_irrefl s c b Ac Db); rewrite Eac; apply reach_refl).
  rewrite (apply_unfold (S d) c x s oc Hc), Hm in E.
  destruct (negb (Nat.eqb (asize x) (o_nargin oc))); [discriminate|].
  cbn [call ap_w] in E. set (s0 := bumped c oc s) in *.
  assert (C0 : cle s s0) by (apply cle_bumped; auto).
  unfold bind in E. destruct (apply (S d) b x s0) as [s1 [v|]] eqn:E1; [|discriminate].
  destruct (apply (S d) a v s1) as [s2 [v2|]] eqn:E2; [|discriminate].
  assert (C1 : cle s0 s1) by (eapply frame_apply; eauto).
  assert (A0 : Acc (dep s0) b) by (eapply acc_cle; [exact C0|exact (Acc_inv Ac Db)]).
  assert (A1 : Acc (dep s1) a)
    by (eapply acc_cle; [exact (cle_trans _ _ _ C0 C1)|exact (Acc_inv Ac Da)]).
  destruct (ext_obj _ _ (cle_ext _ _ C0) _ _ Hb) as (ob0 & Hb0 & _).
  destruct (ext_obj _ _ (cle_ext _ _ (cle_trans _ _ _ C0 C1)) _ _ Ha) as (oa1 & Ha1 & _).
  assert (K1 := apply_count _ _ _ _ _ _ _ A0 Hb0 E1).
  assert (K2 := apply_count _ _ _ _ _ _ _ A1 Ha1 E2).
  assert (U1 := apply_unch _ _ _ _ _ _ E1). assert (U2 := apply_unch _ _ _ _ _ _ E2).
  assert (R1 : forall e, reach s0 b e -> reach s b e)
    by (intros e; apply reach_mono, cle_ext_r; auto).
  assert (R2 : forall e, reach s1 a e -> reach s a e)
    by (intros e; apply reach_mono, cle_ext_r; eapply cle_trans; eauto).
  destruct (negb (Nat.eqb (asize v2) (o_nargout oc))); [discriminate|]. injection E as <- _.
  split; [|split].
  - rewrite K2, (unch_count _ _ _ _ U1); [|auto]. unfold s0. now rewrite count_bumped_ne.
  - rewrite (unch_count _ _ _ _ U2); [|auto]. rewrite K1. unfold s0. now rewrite count_bumped_ne.
  - intros e Nc Na Nb. rewrite (unch_count _ _ _ _ U2), (unch_count _ _ _ _ U1); auto.
    unfold s0. now rewrite count_bumped_ne.
Qed.

(** hermitian complex operators: applying A.T applies A *)
Lemma herm_T_count : forall (s : st) n m g gT gH, wfst s ->
  exists s1 a t, user_op n m g gT gH false true DComplex s = (s1, Ok a) /\ wtgt s1 WT a t /\ t <> a /\
    forall s2 d y s3 r, ext s1 s2 -> asize y = n -> apply (S (S d)) t y s2 = (s3, r) ->
      count s3 a = S (count s2 a).
Proof.
  intros s n m g gT gH W. unfold user_op.
  destruct (new_linop_desc s n m (CUser g) (option_map (fun h => CUser h) gT)
      (option_map (fun h => CUser h) gH) false true DComplex W) as (s1 & E & X & W' & L & D & _).
  exists s1, (nxt s).
  assert (G : exists t o oq, wtgt s1 WT (nxt s) t /\ t <> nxt s /\ objs s1 (nxt s) = Some o /\
            o_mv o = CUser g /\ objs s1 t = Some oq /\ o_mv oq = CConj WN (nxt s) /\ o_nargin oq = n).
  { unfold desc in D. cbn [is_complex] in D.
    destruct gT; cbn [option_map] in D; destruct D as (t & q & D1 & D2 & _ & D3);
      destruct D1 as (o1 & ? & ? & ? & ? & ? & ? & ? & ? & ?);
      destruct D2 as (o2 & ? & ? & ? & ? & ? & ? & ? & ? & ?);
      exists q, o1, o2; repeat split; auto; exists o1; auto. }
  destruct G as (t & o & oq & Wt & Nt & Ho & Hm & Hq & Hqm & Hqn).
  exists t. split; [exact E|]. split; auto. split; auto.
  intros s2 d y s3 r X2 Hy Ea.
  destruct (ext_obj _ _ X2 _ _ Ho) as (o2 & Ho2 & S2).
  destruct (ext_obj _ _ X2 _ _ Hq) as (oq2 & Hq2 & Sq2).
  rewrite (apply_unfold (S d) t y s2 oq2 Hq2), <- (stable_nargin _ _ Sq2), Hqn, Hy, Nat.eqb_refl in Ea.
  cbn [negb] in Ea. rewrite <- (stable_mv _ _ Sq2), Hqm in Ea. cbn [call ap_w] in Ea.
  set (s2' := bumped t oq2 s2) in *.
  assert (C0 : cle s2 s2') by (apply cle_bumped; auto).
  destruct (ext_obj _ _ (cle_ext _ _ C0) _ _ Ho2) as (o3 & Ho3 & S3).
  assert (A : Acc (dep s2') (nxt s)).
  { constructor. intros b (o' & Ho' & T). rewrite Ho3 in Ho'; injection Ho' as <-.
    rewrite <- (stable_mv _ _ S3), <- (stable_mv _ _ S2), Hm in T. contradiction. }
  assert (K : forall z s4 r4, apply (S d) (nxt s) z s2' = (s4, r4) -> count s4 (nxt s) = S (count s2 (nxt s))).
  { intros z s4 r4 E4. rewrite (apply_count _ _ _ _ _ _ _ A Ho3 E4).
    unfold s2'. rewrite count_bumped_ne; auto. }
  unfold bind in Ea.
  destruct (is_complex (adt y));
   (match type of Ea with context[apply (S d) (nxt s) ?z s2'] =>
      specialize (K z); destruct (apply (S d) (nxt s) z s2') as [s4 [v|e]] eqn:E4 end;
    [|injection Ea as <- _; eapply K; reflexivity];
    cbn [ret] in Ea; unfold ret in Ea;
    destruct (negb _) in Ea; injection Ea as <- _; eapply K; reflexivity).
Qed.

(** ** C16: the product reads the caller's array, .diag / abs / sqrt the private copy *)
Lemma diag_has : forall (s s1 : st) l d a, wfst s -> arrs s l = Some d -> awf d ->
  diag_op l s = (s1, Ok a) ->
  exists o, objs s1 a = Some o /\ o_nargin o = asize d /\ o_nargout o = asize d /\ o_dtype o = adt d /\
    o_mv o = CDiag false l /\ o_pay o = PDiag d /\ o_sym o = true /\ o_herm o = negb (is_complex (adt d)).
Proof.
  intros s s1 l d a W Hd Wd E. unfold diag_op in E.
  assert (E0 : get_arr l s = (s, Ok d)) by (unfold get_arr; now rewrite Hd).
  rewrite (bind_ok _ _ _ _ _ _ _ E0) in E. clear E0.
  destruct (new_linop_desc s (asize d) (asize d) (CDiag false l) None (Some (CDiag true l))
              true (negb (is_complex (adt d))) (adt d) W) as (s' & E' & _ & _ & _ & D & _).
  rewrite (bind_ok _ _ _ _ _ _ _ E') in E. clear E'. 
  assert (G : exists T H, has s' (nxt s) (asize d) (asize d) true (negb (is_complex (adt d))) (adt d)
                (CDiag false l) T H).
  { unfold desc in D. destruct (is_complex (adt d)); cbn [negb] in D |- *.
    - destruct D as (q & D & _). eauto.
    - eauto. }
  destruct G as (T & H & o & Ho & ? & ? & ? & ? & ? & ? & ? & ?).
  erewrite bind_ok in E by (unfold modobj; rewrite Ho; reflexivity). injection E as <- <-.
  exists (with_pay (PDiag d) o). split; [apply get_set_eq|]. cbn. repeat split; auto.
Qed.
Lemma diag_alias : forall (s s1 s2 : st) l d a, wfst s -> arrs s l = Some d -> awf d ->
  diag_op l s = (s1, Ok a) ->
  (exists o1 o2, objs s1 a = Some o1 /\ objs s2 a = Some o2 /\ same o1 o2) ->
  forall d', arrs s2 l = Some d' -> adt d' = adt d -> asize d' = asize d -> awf d' ->
  (forall k (x : arr), asize x = asize d -> awf x ->
     exists s3, apply (S k) a x s2 = (s3, Ok (mkarr (result_type (adt d) (adt x)) (vmul (adata d') (adata x))))) /\
  diag_attr a s2 = (s2, Ok d) /\
  (forall kabs, abs_op kabs a s2 =
     diag_op_list (mkarr (if is_complex (adt d) then DFloat else adt d) (map kabs (adata d))) s2) /\
  (forall ksqrt kneg, sqrt_op ksqrt kneg a s2 =
     if negb (is_complex (adt d)) && existsb kneg (adata d) then (s2, Err ValueError)
     else diag_op_list (mkarr (result_type (adt d) DFloat) (map ksqrt (adata d))) s2).
Proof.
  intros s s1 s2 l d a W Hd Wd E (o1 & o2 & Ho1 & Ho2 & S) d' Hd' Edt Esz Wd'.
  destruct (diag_has s s1 l d a W Hd Wd E) as (o & Ho & Hn & Hm & Hdt & Hmv & Hp & _).
  rewrite Ho1 in Ho; injection Ho as <-.
  rewrite (stable_nargin _ _ S) in Hn. rewrite (stable_nargout _ _ S) in Hm.
  rewrite (stable_dtype _ _ S) in Hdt. rewrite (stable_mv _ _ S) in Hmv. rewrite (stable_pay _ _ S) in Hp.
  split; [|split; [|split]].
  - intros k x Hx Wx. rewrite (apply_unfold k a x s2 o2 Ho2), Hn, Hx, Nat.eqb_refl, Hmv.
    cbn [negb call].
    assert (E0 : get_arr l (bumped a o2 s2) = (bumped a o2 s2, Ok d'))
      by (unfold get_arr; cbn [bumped set_obj arrs]; now rewrite Hd').
    erewrite bind_ok by exact E0. unfold ret. cbn [asize adata].
    rewrite Hm. unfold asize at 1. cbn [adata].
    unfold asize in Esz, Hx |- *. rewrite vmul_length, Esz, Nat.eqb_refl by congruence. cbn [negb].
    eexists. f_equal. f_equal. unfold astype. cbn [adt adata]. rewrite Hdt. f_equal.
    destruct (is_complex (result_type (adt d) (adt x))) eqn:C; auto.
    rewrite result_type_complex, orb_false_iff in C. destruct C as [C1 C2].
    apply vre_real; auto. unfold vreal. rewrite (vconj_mul FOK). f_equal; [apply Wd'; congruence|apply Wx; auto].
  - unfold diag_attr. erewrite bind_ok by (apply getattr_ok; exact Ho2). rewrite Hp. reflexivity.
  - intros kabs. unfold abs_op. erewrite bind_ok by (apply getattr_ok; exact Ho2). rewrite Hp. reflexivity.
  - intros ksqrt kneg. unfold sqrt_op. erewrite bind_ok by (apply getattr_ok; exact Ho2).
    erewrite bind_ok by (apply getattr_ok; exact Ho2). rewrite Hp, Hdt. destruct (_ && _); reflexivity.
Qed.
(** built from a list: no in-place change of an array the caller already holds is visible *)
Lemma diag_list_insulated : forall (s s1 s2 s3 : st) d a l v, wfst s -> awf d ->
  diag_op_list d s = (s1, Ok a) -> l < narr s -> ext s1 s2 -> set_arr l v s2 = (s3, Ok tt) ->
  forall k (x : arr), asize x = asize d -> awf x ->
    exists s4, apply (S k) a x s3 = (s4, Ok (mkarr (result_type (adt d) (adt x)) (vmul (adata d) (adata x)))).
Proof.
  intros s s1 s2 s3 d a l v W Wd E Hl X E3 k x Hx Wx.
  destruct (new_arr_ok s d W) as (s' & E' & X' & W' & Hd).
  unfold diag_op_list in E. rewrite (bind_ok _ _ _ _ _ _ _ E') in E.
  destruct (diag_has s' s1 (narr s) d a W' Hd Wd E) as (o & Ho & _).
  destruct (diag_op_builds FOK s' (narr s) d W' Hd Wd) as [(s1' & a' & E1 & X1 & _ & _) _].
  rewrite E in E1. injection E1 as <- <-.
  destruct (ext_obj _ _ X _ _ Ho) as (o2 & Ho2 & S2).
  unfold set_arr in E3. injection E3 as <-.
  apply (diag_alias s' s1 _ (narr s) d a W' Hd Wd E); auto.
  - exists o, o2. auto.
  - cbn [arrs]. unfold upd. destruct (Nat.eqb_spec (narr s) l); [lia|].
    apply (ext_arr _ _ X), (ext_arr _ _ X1), Hd.
Qed.

(** ** C15: the adjoint of a diagonal operator, abs and sqrt *)
Lemma diag_adjoint : forall (s : st) a d, GoodD s a (asize d) (asize d) (adt d) (vmul (adata d)) ->
  exists h, wtgt s WH a h /\ denotes s h (asize d) (asize d) (vmul (vconj (adata d))).
Proof.
  intros s a d [G _]. destruct (Good_H _ _ _ _ _ G) as (h & g & Hh & Gh & Ad).
  exists h. split; auto. assert (D := Good_den _ _ _ _ _ Gh).
  eapply denotes_ext; [|exact D].
  intros x Hx. eapply (adjoint_unique FOK (asize d) (asize d) (vmul (adata d))); eauto.
  - intros y Hy. apply (lin_len _ _ _ (denotes_lin _ _ _ _ _ D)); auto.
  - intros y Hy. unfold asize in *. rewrite vmul_length; rewrite vconj_length; auto.
  - apply (ad_vmul FOK).
Qed.
Lemma abs_builds : forall kabs (s : st) a o d, wfst s -> objs s a = Some o -> o_pay o = PDiag d ->
  (forall z, kconj (kabs z) = kabs z) ->
  builds (abs_op kabs a) s (asize d) (asize d) (if is_complex (adt d) then DFloat else adt d)
    (vmul (map kabs (adata d))).
Proof.
  intros kabs s a o d W Ho Hp R.
  assert (A : awf (mkarr (if is_complex (adt d) then DFloat else adt d) (map kabs (adata d)))).
  { intros _. unfold vreal, vconj. cbn. rewrite map_map. apply map_ext. auto. }
  destruct (diag_op_list_builds FOK s _ W A) as (s' & b & E & X & W' & G).
  exists s', b. split.
  - unfold abs_op. erewrite bind_ok by (apply getattr_ok; exact Ho). rewrite Hp. exact E.
  - unfold asize in G. cbn [adata adt] in G. rewrite map_length in G. auto.
Qed.
Lemma sqrt_fails : forall ksqrt kneg (s : st) a o d, objs s a = Some o -> o_pay o = PDiag d ->
  o_dtype o = adt d -> is_complex (adt d) = false -> existsb kneg (adata d) = true ->
  sqrt_op ksqrt kneg a s = (s, Err ValueError).
Proof.
  intros ksqrt kneg s a o d Ho Hp Hd C N. unfold sqrt_op.
  erewrite bind_ok by (apply getattr_ok; exact Ho). erewrite bind_ok by (apply getattr_ok; exact Ho).
  rewrite Hp, Hd, C, N. reflexivity.
Qed.
Lemma sqrt_builds : forall ksqrt kneg (s : st) a o d, wfst s -> objs s a = Some o -> o_pay o = PDiag d ->
  o_dtype o = adt d -> awf d -> ~ (is_complex (adt d) = false /\ existsb kneg (adata d) = true) ->
  (forall z, kconj z = z -> kneg z = false -> kconj (ksqrt z) = ksqrt z) ->
  builds (sqrt_op ksqrt kneg a) s (asize d) (asize d) (result_type (adt d) DFloat) (vmul (map ksqrt (adata d))).
Proof.
  intros ksqrt kneg s a o d W Ho Hp Hd Wd N R.
  assert (Nb : (negb (is_complex (adt d)) && existsb kneg (adata d)) = false).
  { destruct (is_complex (adt d)), (existsb kneg (adata d)); auto. exfalso; apply N; auto. }
  assert (A : awf (mkarr (result_type (adt d) DFloat) (map ksqrt (adata d)))).
  { intros C. cbn [adt] in C. rewrite result_type_complex in C. apply orb_false_iff in C. destruct C as [C _].
    rewrite C in Nb. cbn [negb andb] in Nb. specialize (Wd C). clear - R Nb Wd. unfold vreal in *.
    cbn [adata]. induction (adata d) as [|z l IH]; [reflexivity|]. cbn in *.
    apply orb_false_iff in Nb. destruct Nb. injection Wd as Hz Hl. f_equal; auto. }
  destruct (diag_op_list_builds FOK s _ W A) as (s' & b & E & X & W' & G).
  exists s', b. split.
  - unfold sqrt_op. erewrite bind_ok by (apply getattr_ok; exact Ho). erewrite bind_ok by (apply getattr_ok; exact Ho).
    rewrite Hp, Hd, Nb. exact E.
  - unfold asize in G. cbn [adata adt] in G. rewrite map_length in G. auto.
Qed.
Lemma sqrt_twice : forall (ksqrt : F -> F) (d x : list F), (forall z, In z d -> kmul (ksqrt z) (ksqrt z) = z) ->
  vmul (map ksqrt d) (vmul (map ksqrt d) x) = vmul d x.
Proof.
  intros ksqrt d. induction d as [|z d IH]; intros [|y x] H; cbn; auto.
  f_equal. - rewrite <- (H z) at 3 by (cbn; auto). ring. - apply IH. intros w Hw. apply H. cbn; auto.
Qed.
End Alias.
