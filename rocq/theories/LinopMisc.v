(** * Shape errors, result dtypes, counters, flags and aliasing for arbitrary operator objects. *)
From Coq Require Import List ZArith Lia Bool Ring.
From Verif Require Import Base Field Vec LinopModel LinopFrame LinopGood LinopInit LinopDep LinopAlg
  LinopOps LinopExpr LinopExtra LinopUser LinopBase LinopMat.
Import ListNotations.

Section Misc.
Context {F : Fld} (FOK : FldOK F).
Add Ring Kring7 : (fk_ring F FOK).
Notation st := (st F). Notation obj := (obj F). Notation M := (M F). Notation arr := (arr F).
Notation map1 := (list F -> list F).

(** ** C07: which calls raise what *)
Lemma addsub_result : forall mk (s : st) a b oa ob, wfst s -> objs s a = Some oa -> objs s b = Some ob ->
  (o_nargin oa = o_nargin ob /\ o_nargout oa = o_nargout ob /\ exists s' c, addsub mk a b s = (s', Ok c)) \/
  ((o_nargin oa <> o_nargin ob \/ o_nargout oa <> o_nargout ob) /\ addsub mk a b s = (s, Err ShapeError)).
Proof.
  intros mk s a b oa ob W Ha Hb. unfold addsub.
  do 2 (erewrite bind_ok by (apply getattr_ok; exact Ha)).
  do 2 (erewrite bind_ok by (apply getattr_ok; exact Hb)).
  destruct (Nat.eqb_spec (o_nargout oa) (o_nargout ob)), (Nat.eqb_spec (o_nargin oa) (o_nargin ob));
    cbn [andb negb]; auto.
  left. split; auto. split; auto.
  erewrite bind_ok by (apply getattr_ok; exact Ha). erewrite bind_ok by (apply getattr_ok; exact Hb).
  erewrite bind_ok by (apply getattr_ok; exact Ha). erewrite bind_ok by (apply getattr_ok; exact Hb).
  erewrite bind_ok by (apply getattr_ok; exact Ha). erewrite bind_ok by (apply getattr_ok; exact Hb).
  match goal with |- exists _ _, new_linop ?n ?m ?cc ?cT ?cH ?sy ?he ?dt s = _ =>
    destruct (new_linop_desc s n m cc cT cH sy he dt W) as (s' & E & _) end.
  eauto.
Qed.
Lemma mul_result : forall (s : st) a b oa ob, wfst s -> objs s a = Some oa -> objs s b = Some ob ->
  (o_nargin oa = o_nargout ob /\ exists s' c, mul_linop a b s = (s', Ok c)) \/
  (o_nargin oa <> o_nargout ob /\ mul_linop a b s = (s, Err ShapeError)).
Proof.
  intros s a b oa ob W Ha Hb. unfold mul_linop.
  erewrite bind_ok by (apply getattr_ok; exact Ha). erewrite bind_ok by (apply getattr_ok; exact Hb).
  destruct (Nat.eqb_spec (o_nargin oa) (o_nargout ob)); cbn [negb]; auto.
  left. split; auto.
  erewrite bind_ok by (apply getattr_ok; exact Ha). erewrite bind_ok by (apply getattr_ok; exact Hb).
  erewrite bind_ok by (apply getattr_ok; exact Hb). erewrite bind_ok by (apply getattr_ok; exact Ha).
  match goal with |- exists _ _, new_linop ?n ?m ?cc ?cT ?cH ?sy ?he ?dt s = _ =>
    destruct (new_linop_desc s n m cc cT cH sy he dt W) as (s' & E & _) end.
  eauto.
Qed.
Lemma pow_result : forall (s : st) a oa k, objs s a = Some oa ->
  ((k < 0)%Z -> pow_linop a k s = (s, Err ValueError)) /\
  ((0 <= k)%Z -> o_nargin oa <> o_nargout oa -> pow_linop a k s = (s, Err ShapeError)) /\
  (o_nargin oa = o_nargout oa -> pow_linop a 1 s = (s, Ok a)).
Proof.
  intros s a oa k Ha. unfold pow_linop. split; [|split].
  - intros H. apply Z.ltb_lt in H. now rewrite H.
  - intros H N. apply Z.ltb_ge in H. rewrite H.
    do 2 (erewrite bind_ok by (apply getattr_ok; exact Ha)). apply Nat.eqb_neq in N. now rewrite N.
  - intros N. change (1 <? 0)%Z with false. cbv iota.
    do 2 (erewrite bind_ok by (apply getattr_ok; exact Ha)). rewrite N, Nat.eqb_refl. reflexivity.
Qed.
Definition bumped (a : addr) (o : obj) (s : st) : st := set_obj a (with_count (S (o_count o)) o) s.
Lemma apply_unfold : forall d a (x : arr) (s : st) o, objs s a = Some o ->
  apply (S d) a x s =
  (if negb (Nat.eqb (asize x) (o_nargin o)) then (bumped a o s, Err ValueError) else
   match call (apply d) (o_mv o) x (bumped a o s) with
   | (s1, Err e) => (s1, Err e)
   | (s1, Ok y) => if negb (Nat.eqb (asize y) (o_nargout o)) then (s1, Err ValueError)
                   else (s1, Ok (astype (result_type (o_dtype o) (adt x)) y)) end).
Proof.
  intros d a x s o Ho. cbn [apply]. unfold mul_vector.
  assert (Ho1 : objs (bumped a o s) a = Some (with_count (S (o_count o)) o)) by apply get_set_eq.
  erewrite bind_ok by (unfold bump, modobj; rewrite Ho; reflexivity). fold (bumped a o s).
  do 3 (erewrite bind_ok by (apply getattr_ok; exact Ho1)).
  change (o_nargin (with_count (S (o_count o)) o)) with (o_nargin o).
  destruct (negb (Nat.eqb (asize x) (o_nargin o))); [reflexivity|].
  erewrite bind_ok by (apply getattr_ok; exact Ho1).
  change (o_mv (with_count (S (o_count o)) o)) with (o_mv o).
  unfold bind. destruct (call (apply d) (o_mv o) x (bumped a o s)) as [s1 [y|e]]; auto.
  change (o_nargout (with_count (S (o_count o)) o)) with (o_nargout o).
  destruct (negb _); reflexivity.
Qed.
Lemma apply_wrong_in : forall d a (x : arr) (s : st) o, objs s a = Some o -> asize x <> o_nargin o ->
  exists s', apply (S d) a x s = (s', Err ValueError).
Proof.
  intros d a x s o Ho N. rewrite (apply_unfold d a x s o Ho). apply Nat.eqb_neq in N. rewrite N.
  eexists; reflexivity.
Qed.
Lemma apply_wrong_out : forall d a (x y : arr) (s : st) o g, objs s a = Some o -> o_mv o = CUser g ->
  asize x = o_nargin o -> g x = Ok y -> asize y <> o_nargout o ->
  exists s', apply (S d) a x s = (s', Err ValueError).
Proof.
  intros d a x y s o g Ho Hc Hx Hg N. rewrite (apply_unfold d a x s o Ho), Hx, Nat.eqb_refl, Hc.
  cbn [negb call]. unfold lift. rewrite Hg. apply Nat.eqb_neq in N. rewrite N. eexists; reflexivity.
Qed.
(** ** C10 *)
Lemma apply_dtype : forall d a (x y : arr) (s s' : st) o, objs s a = Some o ->
  apply d a x s = (s', Ok y) -> adt y = result_type (o_dtype o) (adt x) /\ asize y = o_nargout o /\
  asize x = o_nargin o.
Proof.
  intros [|d] a x y s s' o Ho E; [discriminate|]. rewrite (apply_unfold d a x s o Ho) in E.
  destruct (Nat.eqb_spec (asize x) (o_nargin o)); cbn [negb] in E; [|discriminate].
  destruct (call _ _ _ _) as [s1 [z|e']]; [|discriminate].
  destruct (Nat.eqb_spec (asize z) (o_nargout o)); cbn [negb] in E; [|discriminate].
  injection E as <- <-. split; [reflexivity|]. split; auto.
  unfold asize, astype in *. cbn. destruct (is_complex _); auto. now rewrite vre_length.
Qed.

(** ** C11: products are never flagged *)
Lemma mul_flags : forall (s s' : st) a b c, wfst s -> mul_linop a b s = (s', Ok c) ->
  exists o, objs s' c = Some o /\ o_sym o = false /\ o_herm o = false.
Proof.
  intros s s' a b c W E. unfold mul_linop in E.
  destruct (objs s a) as [oa|] eqn:Ha; [|unfold bind, getattr in E; rewrite Ha in E; discriminate].
  erewrite bind_ok in E by (apply getattr_ok; exact Ha).
  destruct (objs s b) as [ob|] eqn:Hb; [|unfold bind, getattr in E; rewrite Hb in E; discriminate].
  erewrite bind_ok in E by (apply getattr_ok; exact Hb).
  destruct (negb _); [discriminate|].
  erewrite bind_ok in E by (apply getattr_ok; exact Ha). erewrite bind_ok in E by (apply getattr_ok; exact Hb).
  erewrite bind_ok in E by (apply getattr_ok; exact Hb). erewrite bind_ok in E by (apply getattr_ok; exact Ha).
  match type of E with new_linop ?n ?m ?cc ?cT ?cH ?sy ?he ?dt s = _ =>
    destruct (new_linop_desc s n m cc cT cH sy he dt W) as (s2 & E2 & _ & _ & _ & D & _) end.
  rewrite E2 in E. injection E as <- <-. clear E2. unfold desc in D.
  destruct (is_complex _);
    repeat match goal with H : exists _, _ |- _ => destruct H end;
    repeat match goal with H : _ /\ _ |- _ => destruct H end;
    match goal with H : has s2 (nxt s) _ _ _ _ _ _ _ _ |- _ =>
      destruct H as (o & ? & ? & ? & ? & ? & ? & ? & ?); exists o; auto end.
Qed.

(** ** C12: division by Python integers *)
Lemma div_int_ge2 : forall (s : st) a n m dt f k, wfst s -> GoodD s a n m dt f -> (2 <= k)%Z ->
  builds (div_linop a (PyInt k)) s n m dt (fun _ => vzero m).
Proof.
  intros s a n m dt f k W G H. unfold builds, div_linop.
  destruct (Z.eqb_spec k 0); [lia|]. replace (1 / k)%Z with 0%Z by (symmetry; apply Z.div_small; lia).
  rewrite (fk_ofZ_0 F FOK), <- (result_type_int dt) .
  eapply builds_ext; [|apply (mul_scalar_builds FOK s a n m dt f (mkscalar DInt k0)); auto].
  - intros x Hx. cbn. rewrite (vscale_0 FOK), (lin_len n m f); auto.
    apply (denotes_lin s a). now apply Good_den, G.
  - intros _. apply (conj0 FOK).
Qed.
Lemma div_int_neg : forall (s : st) a n m dt f k, wfst s -> GoodD s a n m dt f -> (k <= -1)%Z ->
  builds (div_linop a (PyInt k)) s n m dt (fun x => vscale (kopp k1) (f x)).
Proof.
  intros s a n m dt f k W G H. unfold builds, div_linop.
  destruct (Z.eqb_spec k 0); [lia|].
  replace (1 / k)%Z with (-1)%Z.
  2:{ apply (Z.div_unique 1 k (-1) (1 + k)). right; lia. lia. }
  rewrite <- (result_type_int dt).
  replace (kopp (@k1 F)) with (@kofZ F (-1)).
  - apply (mul_scalar_builds FOK s a n m dt f (mkscalar DInt (kofZ (-1)))); auto.
    apply (swf_ofZ FOK).
  - change (-1)%Z with (- (1))%Z. now rewrite (fk_ofZ_opp F FOK), (fk_ofZ_1 F FOK).
Qed.
Lemma zero_op_pay : forall (s s' : st) n m dt a, zero_op n m dt s = (s', Ok a) ->
  exists o, objs s' a = Some o /\ o_pay o = PZero.
Proof.
  intros s s' n m dt a E. unfold zero_op, next_addr, bind in E.
  destruct (new_linop n m _ _ _ _ _ _ s) as [s1 [b|e]]; [|discriminate].
  unfold modobj in E. destruct (objs s1 b) eqn:Hb; [|discriminate].
  injection E as <- <-. eexists. split; [apply get_set_eq|reflexivity].
Qed.
Lemma mul_zero_pay : forall (s s' : st) a c b, sval c = k0 -> mul_scalar a c s = (s', Ok b) ->
  exists o, objs s' b = Some o /\ o_pay o = PZero.
Proof.
  intros s s' a c b Hc E. unfold mul_scalar, bind, getattr in E.
  destruct (objs s a) as [oa|] eqn:Ha; [|discriminate]. rewrite Ha in E.
  rewrite Hc, (proj2 (fk_eqb F FOK k0 k0) eq_refl) in E. rewrite Ha in E. eapply zero_op_pay; exact E.
Qed.

(** ** C09: counters *)
Lemma reset_spec : forall (s : st) a o, objs s a = Some o ->
  exists s', reset_counters a s = (s', Ok tt) /\ count s' a = 0 /\
    (forall b, b <> a -> objs s' b = objs s b) /\
    (exists o', objs s' a = Some o' /\ same o o') /\ arrs s' = arrs s /\ rows s' = rows s.
Proof.
  intros s a o Ho. unfold reset_counters, modobj. rewrite Ho. eexists. split; [reflexivity|].
  split; [unfold count; now rewrite get_set_eq|]. split.
  - intros b Nb. now apply get_set_ne.
  - split; [|split; reflexivity]. exists (with_count 0 o). split; [apply get_set_eq|].
    apply same_sym, with_count_same.
Qed.
Lemma reach_user : forall (s : st) t o g b, objs s t = Some o -> o_mv o = CUser g -> reach s t b -> b = t.
Proof.
  intros s t o g b Ho Hc R. inversion R; subst; auto.
  destruct H as (o' & Ho' & T). rewrite Ho in Ho'; injection Ho' as <-. rewrite Hc in T. contradiction.
Qed.
(** A.T and A.H applied: the counter of A itself does not move *)
Lemma user_T_count : forall (s : st) n m g gT gH dt w, wfst s -> w <> WN -> (gT <> None \/ gH <> None) ->
  exists s1 a t, user_op n m g gT gH false false dt s = (s1, Ok a) /\ wtgt s1 w a t /\ t <> a /\
    forall s2 d y s3 r, ext s1 s2 -> apply d t y s2 = (s3, r) -> count s3 a = count s2 a.
Proof.
  intros s n m g gT gH dt w W Nw NN. unfold user_op.
  destruct (new_linop_desc s n m (CUser g) (option_map (fun h => CUser h) gT)
      (option_map (fun h => CUser h) gH) false false dt W) as (s1 & E & X & W' & L & D & _).
  exists s1, (nxt s).
  assert (G : exists t, wtgt s1 w (nxt s) t /\ t <> nxt s /\
     exists ot, objs s1 t = Some ot /\
      ((exists h, o_mv ot = CUser h) \/
       (exists w' t' o' h, o_mv ot = CConj w' (nxt s) /\ wtgt s1 w' (nxt s) t' /\ t' <> nxt s /\
          objs s1 t' = Some o' /\ o_mv o' = CUser h))).
  { clear - D NN Nw. unfold desc in D.
    destruct (is_complex dt), gT as [hT|], gH as [hH|]; cbn [option_map] in D;
      try (destruct NN; congruence);
      repeat match goal with H : exists _, _ |- _ => destruct H end;
      repeat match goal with H : _ /\ _ |- _ => destruct H end;
      repeat match goal with H : has _ _ _ _ _ _ _ _ _ _ |- _ =>
        let o := fresh "o" in destruct H as (o & ? & ? & ? & ? & ? & ? & ? & ? & ?) end;
      (destruct w; [congruence| |]);
      match goal with |- exists t, wtgt _ ?w ?a t /\ _ => idtac end;
      (eexists; split; [eexists; split; eassumption|]; split; [assumption|];
       eexists; split; [eassumption|];
       first [ left; eexists; eassumption
             | right; do 4 eexists; split; [eassumption|]; split;
               [eexists; split; eassumption|]; split; [assumption|]; split; eassumption ]). }
  destruct G as (t & Wt & Nt & ot & Hot & Hc). exists t. split; auto. split; auto. split; auto.
  intros s2 d y s3 r X2 Ea.
  destruct (apply_unch d s2 t y s3 r Ea) as [_ U].
  unfold count. rewrite U; auto. intros R.
  destruct (ext_obj _ _ X2 _ _ Hot) as (ot2 & Hot2 & S2).
  destruct Hc as [(h & Hc)|(w' & t' & o' & h & Hc & Wt' & Nt' & Ho' & Hc')].
  - apply Nt. symmetry. eapply reach_user; [exact Hot2| |exact R]. rewrite <- (stable_mv _ _ S2). exact Hc.
  - destruct (ext_obj _ _ X2 _ _ Ho') as (o2' & Ho2' & S2').
    inversion R; subst; [congruence|]. destruct H as (oo & Hoo & T).
    rewrite Hot2 in Hoo; injection Hoo as <-. rewrite <- (stable_mv _ _ S2), Hc in T. cbn in T.
    assert (b = t').
    { apply (wtgt_mono _ _ _ _ _ X2) in Wt'. clear - T Wt'.
      destruct w'; cbn in *; [congruence| |]; destruct T as (o1 & Ho1 & E1), Wt' as (o3 & Ho3 & E3); congruence. }
    subst b. apply Nt'. symmetry. eapply reach_user; [exact Ho2'| |exact H0].
    rewrite <- (stable_mv _ _ S2'). exact Hc'.
Qed.
End Misc.
