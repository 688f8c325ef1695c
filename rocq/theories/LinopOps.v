(** * The operator algebra preserves goodness: one lemma per API call. *)
From Coq Require Import List ZArith Lia Bool Ring.
From Verif Require Import Base Field Vec LinopModel LinopFrame LinopGood LinopDep LinopInit LinopAlg.
Import ListNotations.

Section Ops.
Context {F : Fld} (FOK : FldOK F).
Add Ring Kring3 : (fk_ring F FOK).
Notation st := (st F). Notation obj := (obj F). Notation M := (M F). Notation arr := (arr F).
Notation map1 := (list F -> list F).

Lemma Good_ext : forall (s : st) a n m (f g : map1),
  (forall x, length x = n -> f x = g x) -> Good s a n m f -> Good s a n m g.
Proof.
  intros s a n m f g E (S & HS & Ha).
  exists (fun a n m g => exists f, S a n m f /\ forall x, length x = n -> f x = g x).
  split; [|eauto]. clear a n m f g E Ha.
  intros a n m g (f & Ha & E). destruct (HS _ _ _ _ Ha) as [H1 H2 H3 H4 H5].
  constructor.
  - eapply denotes_ext; eauto.
  - intros o Ho Hs. destruct (H2 o Ho Hs) as [-> T]. split; auto.
    eapply is_transpose_ext; eauto.
  - intros o Ho Hs. destruct (H3 o Ho Hs) as [-> T]. split; auto.
    eapply is_adjoint_ext; eauto.
  - destruct H4 as (o & t & g' & Ho & Ht & Hg & Tr). exists o, t, g'. repeat split; eauto.
    eapply is_transpose_ext; [exact E| |exact Tr]. auto.
  - destruct H5 as (o & t & g' & Ho & Ht & Hg & Tr). exists o, t, g'. repeat split; eauto.
    eapply is_adjoint_ext; [exact E| |exact Tr]. auto.
Qed.

Lemma apply_den : forall (s : st) a n m (f : map1), denotes s a n m f ->
  exists d, forall d' s' x, d <= d' -> ext s s' -> awf x -> asize x = n ->
    exists s'' y, apply d' a x s' = (s'', Ok y) /\ adata y = f (adata x) /\ awf y /\
      asize y = m /\ ext s s''.
Proof.
  intros s a n m f (o & d & Ho & Hn & Hm & HL & HR & H).
  exists d. intros d' s' x Hd E Hx Hl.
  destruct (H x Hx Hl) as (s1 & Ha).
  destruct (mono_apply d d' a x Hd _ _ _ _ E Ha eq_refl) as (s2 & H2 & E2).
  eexists s2, _. split; [exact H2|]. split; [reflexivity|]. split; [|split].
  - intro C. cbn in C. rewrite result_type_complex in C. apply orb_false_elim in C.
    destruct C as [C1 C2]. cbn. unfold vreal. rewrite <- (HR C1) by auto.
    f_equal. now apply Hx.
  - unfold asize; cbn. now apply HL.
  - eapply ext_trans; [exact E|]. apply cle_ext. eapply frame_apply; eauto.
Qed.

Lemma ap_w_den : forall (s : st) w a t n m (f : map1), wtgt s w a t -> denotes s t n m f ->
  exists d, forall d' s' x, d <= d' -> ext s s' -> awf x -> asize x = n ->
    exists s'' y, ap_w (apply d') w a x s' = (s'', Ok y) /\ adata y = f (adata x) /\ awf y /\
      asize y = m /\ ext s s''.
Proof.
  intros s w a t n m f Hw D. destruct (apply_den _ _ _ _ _ D) as [d H].
  exists d. intros d' s' x Hd E Hx Hl.
  destruct (H d' s' x Hd E Hx Hl) as (s2 & y & Ha & Hy).
  exists s2, y. split; auto. apply (wtgt_mono _ _ _ _ _ E) in Hw.
  destruct w; cbn [ap_w]; cbn in Hw.
  - now subst.
  - destruct Hw as (o & Ho & Ht). erewrite bind_ok by (apply getattr_ok; exact Ho).
    rewrite Ht. auto.
  - destruct Hw as (o & Ho & Ht). erewrite bind_ok by (apply getattr_ok; exact Ho).
    rewrite Ht. auto.
Qed.

(** ** closures *)
Definition wconj (w : which) (c : F) : F := match w with WH => kconj c | _ => c end.
Lemma cden_scale : forall (s : st) w c a t n m (f : map1),
  wtgt s w a t -> denotes s t n m f ->
  cden s (CScale w c a) n (fun x => vscale (wconj w (sval c)) (f x)).
Proof.
  intros s w c a t n m f Hw D. destruct (ap_w_den _ _ _ _ _ _ _ Hw D) as [d H].
  exists d. intros x Hx Hl.
  destruct (H d s x (le_n _) (ext_refl _) Hx Hl) as (s2 & y & Ha & Hy & _).
  cbn [call]. eexists _, _. split.
  - erewrite bind_ok by exact Ha. reflexivity.
  - cbn. rewrite Hy. destruct w; reflexivity.
Qed.
Lemma cden_addsub : forall (s : st) (b : bool) w a a' t t' n m (f g : map1),
  wtgt s w a t -> denotes s t n m f -> wtgt s w a' t' -> denotes s t' n m g ->
  cden s ((if b then CAdd else CSub) w a a') n
       (fun x => (if b then vadd else vsub) (f x) (g x)).
Proof.
  intros s b w a a' t t' n m f g Hw D Hw' D'.
  destruct (ap_w_den _ _ _ _ _ _ _ Hw D) as [d H].
  destruct (ap_w_den _ _ _ _ _ _ _ Hw' D') as [d' H'].
  exists (max d d'). intros x Hx Hl.
  destruct (H (max d d') s x (Nat.le_max_l _ _) (ext_refl _) Hx Hl) as (s2 & y & Ha & Hy & _ & _ & E).
  destruct (H' (max d d') s2 x (Nat.le_max_r _ _) E Hx Hl) as (s3 & z & Ha' & Hz & _ & _).
  destruct b; cbn [call]; eexists _, _; (split;
    [erewrite bind_ok by exact Ha; erewrite bind_ok by exact Ha'; reflexivity
    | cbn; rewrite Hy, Hz; reflexivity]).
Qed.
Lemma cden_mulN : forall (s : st) a b n k m (f g : map1),
  denotes s a k m f -> denotes s b n k g -> cden s (CMul WN a b) n (fun x => f (g x)).
Proof.
  intros s a b n k m f g D D'.
  destruct (ap_w_den s WN a a _ _ _ eq_refl D) as [d H].
  destruct (ap_w_den s WN b b _ _ _ eq_refl D') as [d' H'].
  exists (max d d'). intros x Hx Hl.
  destruct (H' (max d d') s x (Nat.le_max_r _ _) (ext_refl _) Hx Hl) as (s2 & y & Ha & Hy & Wy & Ly & E).
  destruct (H (max d d') s2 y (Nat.le_max_l _ _) E Wy Ly) as (s3 & z & Ha' & Hz & _).
  cbn [call]. eexists _, _. split.
  - erewrite bind_ok by exact Ha. exact Ha'.
  - now rewrite Hz, Hy.
Qed.
Lemma cden_mulW : forall (s : st) w a b t u n k m (f g : map1), w <> WN ->
  wtgt s w a t -> wtgt s w b u ->
  denotes s t n k f -> denotes s u k m g -> cden s (CMul w a b) n (fun x => g (f x)).
Proof.
  intros s w a b t u n k m f g Nw Wa Wb D D'.
  destruct (ap_w_den s w a t _ _ _ Wa D) as [d H].
  destruct (ap_w_den s w b u _ _ _ Wb D') as [d' H'].
  exists (max d d'). intros x Hx Hl.
  destruct (H (max d d') s x (Nat.le_max_l _ _) (ext_refl _) Hx Hl) as (s2 & y & Ha & Hy & Wy & Ly & E).
  destruct (H' (max d d') s2 y (Nat.le_max_r _ _) E Wy Ly) as (s3 & z & Ha' & Hz & _).
  assert (Ec : call (apply (max d d')) (CMul w a b) x s = (s3, Ok z)).
  { destruct w; [congruence| |]; cbn [call]; erewrite bind_ok by exact Ha; exact Ha'. }
  eexists _, _. split; [exact Ec|]. now rewrite Hz, Hy.
Qed.
Lemma cden_ident : forall (s : st) n, cden s CIdent n (fun x => x).
Proof. intros. exists 0. intros x _ _. eexists _, _. split; reflexivity. Qed.
Lemma cden_zero : forall (s : st) a o n m, objs s a = Some o -> cden s (CZero a n m) n (fun _ => vzero m).
Proof.
  intros s a o n m Ho. exists 0. intros x _ Hl. cbn [call]. rewrite Hl, Nat.eqb_refl. cbn [negb].
  eexists _, _. split; [erewrite bind_ok by (apply getattr_ok; exact Ho); reflexivity | reflexivity].
Qed.
Lemma cden_diag : forall (s : st) l d cj, arrs s l = Some d ->
  cden s (CDiag cj l) (asize d) (fun x => vmul (if cj then vconj (adata d) else adata d) x).
Proof.
  intros s l d cj Hd. exists 0. intros x _ Hl. cbn [call].
  eexists _, _. split.
  - erewrite bind_ok by (unfold get_arr; rewrite Hd; reflexivity). reflexivity.
  - reflexivity.
Qed.

(** ** linear maps, transposes, adjoints of the results *)
Lemma vscale_add : forall c (x y : list F), vscale c (vadd x y) = vadd (vscale c x) (vscale c y).
Proof. induction x; destruct y; cbn; auto. f_equal; [ring|apply IHx]. Qed.
Lemma vscale_sub : forall c (x y : list F), vscale c (vsub x y) = vsub (vscale c x) (vscale c y).
Proof. induction x; destruct y; cbn; auto. f_equal; [ring|apply IHx]. Qed.
Lemma vscale_scale : forall c d (x : list F), vscale c (vscale d x) = vscale d (vscale c x).
Proof. induction x; cbn; auto. f_equal; [ring|apply IHx]. Qed.
Lemma vadd_swap : forall (a b c d : list F),
  vadd (vadd a b) (vadd c d) = vadd (vadd a c) (vadd b d).
Proof.
  induction a; destruct b, c, d; cbn; auto. f_equal; [ring|apply IHa].
Qed.
Lemma vsub_swap : forall (a b c d : list F),
  vsub (vadd a b) (vadd c d) = vadd (vsub a c) (vsub b d).
Proof.
  induction a; destruct b, c, d; cbn; auto. f_equal; [ring|apply IHa].
Qed.

Lemma lin_scaled : forall n m c (f : map1), linmap n m f -> linmap n m (fun x => vscale c (f x)).
Proof.
  intros n m c f [H1 H2 H3]; constructor; intros.
  - rewrite vscale_length; auto.
  - rewrite H2 by auto. apply vscale_add.
  - rewrite H3 by auto. apply vscale_scale.
Qed.
Lemma lin_addsub : forall (b : bool) n m (f g : map1), linmap n m f -> linmap n m g ->
  linmap n m (fun x => (if b then vadd else vsub) (f x) (g x)).
Proof.
  intros b n m f g [H1 H2 H3] [G1 G2 G3]; constructor; intros.
  - destruct b; [rewrite vadd_length|rewrite vsub_length]; rewrite ?H1, ?G1; auto.
  - rewrite H2, G2 by auto. destruct b; [apply vadd_swap|apply vsub_swap].
  - rewrite H3, G3 by auto. destruct b; [symmetry; apply vscale_add | symmetry; apply vscale_sub].
Qed.
Lemma lin_comp : forall n k m (f g : map1), linmap k m f -> linmap n k g ->
  linmap n m (fun x => f (g x)).
Proof.
  intros n k m f g [H1 H2 H3] [G1 G2 G3]; constructor; intros; auto.
  - rewrite G2, H2; auto.
  - rewrite G3, H3; auto.
Qed.
Lemma lin_id : forall n, linmap n n (fun x : list F => x).
Proof. constructor; auto. Qed.
Lemma vadd_zero : forall n, vadd (vzero n) (vzero n) = @vzero F n.
Proof. induction n; cbn; auto. f_equal; [ring|apply IHn]. Qed.
Lemma vscale_zero : forall c n, vscale c (vzero n) = @vzero F n.
Proof. induction n; cbn; auto. f_equal; [ring|apply IHn]. Qed.
Lemma vscale_0 : forall (x : list F), vscale k0 x = vzero (length x).
Proof. induction x; cbn; auto. f_equal; [ring|apply IHx]. Qed.
Lemma lin_zero : forall n m, linmap n m (fun _ : list F => vzero m).
Proof.
  constructor; intros; auto using vzero_length. symmetry; apply vadd_zero.
  symmetry; apply vscale_zero.
Qed.
Lemma vmul_add : forall d x y : list F, vmul d (vadd x y) = vadd (vmul d x) (vmul d y).
Proof. induction d; destruct x, y; cbn; auto. f_equal; [ring|apply IHd]. Qed.
Lemma vmul_scale : forall c (d x : list F), vmul d (vscale c x) = vscale c (vmul d x).
Proof. induction d; destruct x; cbn; auto. f_equal; [ring|apply IHd]. Qed.
Lemma lin_vmul : forall d : list F, linmap (length d) (length d) (vmul d).
Proof.
  constructor; intros. now rewrite vmul_length. apply vmul_add. apply vmul_scale.
Qed.

Lemma tr_scaled : forall n m c (f g : map1), is_transpose n m f g ->
  is_transpose n m (fun x => vscale c (f x)) (fun y => vscale c (g y)).
Proof.
  intros n m c f g H x y Hx Hy. rewrite (dot_scale_r FOK), (dot_scale_l FOK), H; auto.
Qed.
Lemma ad_scaled : forall n m c (f g : map1), is_adjoint n m f g ->
  is_adjoint n m (fun x => vscale c (f x)) (fun y => vscale (kconj c) (g y)).
Proof.
  intros n m c f g H x y Hx Hy.
  rewrite (vconj_scale FOK), (fk_conj_conj F FOK), (dot_scale_r FOK), (dot_scale_l FOK), H; auto.
Qed.
Lemma tr_addsub : forall (b : bool) n m (f g f' g' : map1),
  linmap n m f -> linmap n m f' -> linmap m n g -> linmap m n g' ->
  is_transpose n m f g -> is_transpose n m f' g' ->
  is_transpose n m (fun x => (if b then vadd else vsub) (f x) (f' x))
                   (fun y => (if b then vadd else vsub) (g y) (g' y)).
Proof.
  intros b n m f g f' g' L L' Lg Lg' H H' x y Hx Hy. destruct b.
  - rewrite (dot_add_r FOK), (dot_add_l FOK), H, H'; auto.
    rewrite (lin_len _ _ _ Lg), (lin_len _ _ _ Lg'); auto.
    rewrite (lin_len _ _ _ L), (lin_len _ _ _ L'); auto.
  - rewrite (dot_sub_r FOK), (dot_sub_l FOK), H, H'; auto.
    rewrite (lin_len _ _ _ Lg), (lin_len _ _ _ Lg'); auto.
    rewrite (lin_len _ _ _ L), (lin_len _ _ _ L'); auto.
Qed.
Lemma ad_addsub : forall (b : bool) n m (f g f' g' : map1),
  linmap n m f -> linmap n m f' -> linmap m n g -> linmap m n g' ->
  is_adjoint n m f g -> is_adjoint n m f' g' ->
  is_adjoint n m (fun x => (if b then vadd else vsub) (f x) (f' x))
                   (fun y => (if b then vadd else vsub) (g y) (g' y)).
Proof.
  intros b n m f g f' g' L L' Lg Lg' H H' x y Hx Hy. destruct b.
  - rewrite (vconj_add FOK), (dot_add_r FOK), (dot_add_l FOK), H, H'; auto.
    rewrite !vconj_length, (lin_len _ _ _ Lg), (lin_len _ _ _ Lg'); auto.
    rewrite (lin_len _ _ _ L), (lin_len _ _ _ L'); auto.
  - rewrite (vconj_sub FOK), (dot_sub_r FOK), (dot_sub_l FOK), H, H'; auto.
    rewrite !vconj_length, (lin_len _ _ _ Lg), (lin_len _ _ _ Lg'); auto.
    rewrite (lin_len _ _ _ L), (lin_len _ _ _ L'); auto.
Qed.
Lemma tr_comp : forall n k m (f g f' g' : map1),
  linmap n k f' -> linmap m k g ->
  is_transpose k m f g -> is_transpose n k f' g' ->
  is_transpose n m (fun x => f (f' x)) (fun y => g' (g y)).
Proof.
  intros n k m f g f' g' L Lg H H' x y Hx Hy. rewrite H, H'; auto. now apply Lg. now apply L.
Qed.
Lemma ad_comp : forall n k m (f g f' g' : map1),
  linmap n k f' -> linmap m k g ->
  is_adjoint k m f g -> is_adjoint n k f' g' ->
  is_adjoint n m (fun x => f (f' x)) (fun y => g' (g y)).
Proof.
  intros n k m f g f' g' L Lg H H' x y Hx Hy. rewrite H, H'; auto. now apply Lg. now apply L.
Qed.
Lemma tr_id : forall n, is_transpose n n (fun x : list F => x) (fun y => y).
Proof. intros n x y _ _; auto. Qed.
Lemma ad_id : forall n, is_adjoint n n (fun x : list F => x) (fun y => y).
Proof. intros n x y _ _; auto. Qed.
Lemma tr_zero : forall n m, is_transpose n m (fun _ : list F => vzero m) (fun _ => vzero n).
Proof. intros n m x y _ _. rewrite (dot_zero_r FOK), (dot_zero_l FOK); auto. Qed.
Lemma ad_zero : forall n m, is_adjoint n m (fun _ : list F => vzero m) (fun _ => vzero n).
Proof. intros n m x y _ _. rewrite (vconj_zero FOK), (dot_zero_r FOK), (dot_zero_l FOK); auto. Qed.

(** ** results of API calls *)
Definition dt_of (s : st) (a : addr) (dt : dtype) : Prop :=
  exists o, objs s a = Some o /\ o_dtype o = dt.
(** every operator reachable through .T/.H has dtype [dt] *)
Definition Dts (s : st) (a : addr) (dt : dtype) : Prop :=
  exists S : addr -> Prop, S a /\ forall b, S b -> exists o, objs s b = Some o /\ o_dtype o = dt /\
    (forall t, o_T o = Some t -> S t) /\ (forall t, o_H o = Some t -> S t).
Lemma Dts_dt : forall s a dt, Dts s a dt -> dt_of s a dt.
Proof. intros s a dt (S & Ha & H). destruct (H a Ha) as (o & ? & ? & _). exists o; auto. Qed.
Lemma Dts_w : forall s w a t dt, Dts s a dt -> wtgt s w a t -> Dts s t dt.
Proof.
  intros s w a t dt (S & Ha & H) Hw. exists S. split; auto.
  destruct (H a Ha) as (o & Ho & _ & H1 & H2).
  destruct w; cbn in Hw; subst; auto; destruct Hw as (o' & Ho' & Ht);
    rewrite Ho in Ho'; inversion Ho'; subst; auto.
Qed.
(** [GoodD]: good, with known dtype *)
Definition GoodD (s : st) (a : addr) (n m : nat) (dt : dtype) (f : map1) : Prop :=
  Good s a n m f /\ Dts s a dt /\ Acy s a.

Lemma dt_mono : forall (s s' : st) a dt, ext s s' -> Dts s a dt -> Dts s' a dt.
Proof.
  intros s s' a dt E (S & Ha & H). exists S. split; auto. intros b Hb.
  destruct (H b Hb) as (o & Ho & Hd & H1 & H2).
  destruct (ext_obj _ _ E _ _ Ho) as (o' & Ho' & Hs).
  exists o'. rewrite <- (stable_dtype _ _ Hs), <- (stable_T _ _ Hs), <- (stable_H _ _ Hs). auto.
Qed.
Lemma GoodD_mono : forall (s s' : st) a n m dt f, ext s s' -> GoodD s a n m dt f -> GoodD s' a n m dt f.
Proof. intros s s' a n m dt f E (H1 & H2 & H3); split; [|split]; eauto using Good_mono, dt_mono, Acy_mono. Qed.
Lemma GoodD_ext : forall (s : st) a n m dt (f g : map1),
  (forall x, length x = n -> f x = g x) -> GoodD s a n m dt f -> GoodD s a n m dt g.
Proof. intros s a n m dt f g E [H1 H2]; split; eauto using Good_ext. Qed.

(** a call [c] run in [s] builds a good operator *)
Definition builds (c : M addr) (s : st) (n m : nat) (dt : dtype) (f : map1) : Prop :=
  exists s' b, c s = (s', Ok b) /\ ext s s' /\ wfst s' /\ GoodD s' b n m dt f.

Lemma has_dts : forall (s : st) (S : addr -> Prop) a n m sy he dt c T H,
  has s a n m sy he dt c T H ->
  (forall t, T = Some t -> S t) -> (forall t, H = Some t -> S t) ->
  exists o, objs s a = Some o /\ o_dtype o = dt /\
    (forall t, o_T o = Some t -> S t) /\ (forall t, o_H o = Some t -> S t).
Proof.
  intros s S a n m sy he dt c T H (o & Ho & H1 & H2 & H3 & H4 & H5 & H6 & H7 & H8) HT HH.
  subst. exists o. auto.
Qed.
Ltac ends := repeat match goal with H : exists _, _ |- _ => destruct H end;
    repeat match goal with H : _ /\ _ |- _ => destruct H end.
Ltac dts_go L := exists (fun b => In b L); split; [cbn; auto 6|]; intros b Hb; cbn in Hb;
  repeat (destruct Hb as [Hb|Hb]; [subst b|]); try contradiction;
  (eapply has_dts; [eassumption| |]; intros ? Et; inversion Et; subst; cbn; auto 6).
Ltac coll acc := match goal with
  | H : has ?s ?a _ _ _ _ _ _ _ _ |- _ =>
      lazymatch acc with context[a] => fail | _ => coll (a :: acc) end
  | _ => dts_go acc end.
Lemma desc_dts : forall (s : st) N n m c cT cH sym herm dt,
  desc s N n m c cT cH sym herm dt -> Dts s N dt.
Proof.
  intros s N n m c cT cH sym herm dt D. unfold desc in D.
  destruct (is_complex dt), sym, herm, cT, cH; ends; coll (@nil addr).
Qed.
Lemma base_acc : forall (s : st) a n m sy he dt c T H, has s a n m sy he dt c T H ->
  refsP (Acy s) s c -> Acc (dep s) a.
Proof.
  intros s a n m sy he dt c T H (o & Ho & _ & _ & _ & _ & _ & Hc & _) R.
  constructor. intros b (o' & Ho' & Ht). rewrite Ho in Ho'; injection Ho' as <-. subst c.
  destruct (tgts_closed (Acy s) s s (o_mv o) b (ext_refl s)) as [A _]; auto.
  - intros d Pd. destruct (Acy_closed s d Pd) as (od & ? & _ & _ & ? & ?). eauto.
  - now apply Acy_acc.
Qed.
Lemma conj_acc : forall (s : st) a n m sy he dt w N T H, has s a n m sy he dt (CConj w N) T H ->
  (forall t, wtgt s w N t -> Acc (dep s) t) -> Acc (dep s) a.
Proof.
  intros s a n m sy he dt w N T H (o & Ho & _ & _ & _ & _ & _ & Hc & _) R.
  constructor. intros b (o' & Ho' & Ht). rewrite Ho in Ho'; injection Ho' as <-. rewrite Hc in Ht. auto.
Qed.
Lemma has_wT : forall (s : st) a n m sy he dt c T H t, has s a n m sy he dt c T H ->
  wtgt s WT a t -> T = Some t.
Proof.
  intros s a n m sy he dt c T H t (o & Ho & _ & _ & _ & _ & _ & _ & HT & _) (o' & Ho' & Ht).
  rewrite Ho in Ho'; injection Ho' as <-. congruence.
Qed.
Lemma has_wH : forall (s : st) a n m sy he dt c T H t, has s a n m sy he dt c T H ->
  wtgt s WH a t -> H = Some t.
Proof.
  intros s a n m sy he dt c T H t (o & Ho & _ & _ & _ & _ & _ & _ & _ & HT) (o' & Ho' & Ht).
  rewrite Ho in Ho'; injection Ho' as <-. congruence.
Qed.
Lemma has_closed : forall (s : st) (P : addr -> Prop) a n m sy he dt c T H,
  has s a n m sy he dt c T H -> Acc (dep s) a -> refsP P s c ->
  (forall t, T = Some t -> P t) -> (forall t, H = Some t -> P t) ->
  exists o, objs s a = Some o /\ Acc (dep s) a /\ refsP P s (o_mv o) /\
    (forall t, o_T o = Some t -> P t) /\ (forall t, o_H o = Some t -> P t).
Proof.
  intros s P a n m sy he dt c T H (o & Ho & _ & _ & _ & _ & _ & Hc & HT & HH) A R PT PH.
  subst. exists o. auto.
Qed.
Ltac acc_go := lazymatch goal with
  | H : has ?s ?a _ _ _ _ _ (CConj ?w ?N) _ _ |- Acc (dep ?s) ?a =>
      apply (conj_acc _ _ _ _ _ _ _ _ _ _ _ H);
      let t := fresh "t" in let Hw := fresh "Hw" in intros t Hw;
      lazymatch w with
      | WN => cbn in Hw; subst t
      | WT => match goal with HN : has _ N _ _ _ _ _ _ _ _ |- _ =>
                let E := fresh in pose proof (has_wT _ _ _ _ _ _ _ _ _ _ _ HN Hw) as E; injection E as <- end
      | WH => match goal with HN : has _ N _ _ _ _ _ _ _ _ |- _ =>
                let E := fresh in pose proof (has_wH _ _ _ _ _ _ _ _ _ _ _ HN Hw) as E; injection E as <- end
      end; acc_go
  | H : has ?s ?a _ _ _ _ _ _ _ _ |- Acc (dep ?s) ?a => eapply (base_acc _ _ _ _ _ _ _ _ _ _ H); eauto
  end.
Ltac acy_go s L := exists (fun b => Acy s b \/ In b L); split; [right; cbn; auto 6|]; intros b [Hb|Hb];
  [ destruct (Acy_closed _ b Hb) as (oq & Hoq & Aq & Rq & HTq & HHq); exists oq; split; [auto|];
    split; [auto|]; split; [eapply refsP_weak; [apply ext_refl| |exact Rq]; auto | split; auto]
  | cbn in Hb; repeat (destruct Hb as [Hb|Hb]; [subst b|]); try contradiction;
    (eapply has_closed; [eassumption|acc_go| | |];
      [ first [ solve [cbn; auto 8] | eapply refsP_weak; [apply ext_refl| |eauto]; auto ]
      | intros ? Et; inversion Et; subst; cbn; auto 8
      | intros ? Et; inversion Et; subst; cbn; auto 8 ]) ].
Ltac coll2 s acc := match goal with
  | H : has s ?a _ _ _ _ _ _ _ _ |- _ =>
      lazymatch acc with context[a] => fail | _ => coll2 s (a :: acc) end
  | _ => acy_go s acc end.
Lemma desc_acy : forall (s : st) N n m c cT cH sym herm dt,
  desc s N n m c cT cH sym herm dt -> refsP (Acy s) s c ->
  (forall ct, cT = Some ct -> refsP (Acy s) s ct) -> (forall ch, cH = Some ch -> refsP (Acy s) s ch) ->
  Acy s N.
Proof.
  intros s N n m c cT cH sym herm dt D R RT RH. unfold desc in D.
  destruct (is_complex dt), sym, herm, cT, cH; ends; coll2 s (@nil addr).
Qed.

Lemma new_linop_builds : forall (s : st) n m c cT cH sym herm dt f fT fH,
  wfst s -> refsP (Acy s) s c ->
  (forall ct, cT = Some ct -> refsP (Acy s) s ct) -> (forall ch, cH = Some ch -> refsP (Acy s) s ch) ->
  complete sym herm dt cT cH = true ->
  (forall s', ext s s' -> (exists o, objs s' (nxt s) = Some o) ->
     honest s' n m c cT cH sym herm dt f fT fH) ->
  builds (new_linop n m c cT cH sym herm dt) s n m dt f.
Proof.
  intros s n m c cT cH sym herm dt f fT fH W Rc RT RH CP HO.
  destruct (new_linop_desc s n m c cT cH sym herm dt W) as (s' & E & X & W' & _ & D & (o & Ho & _)).
  exists s', (nxt s). split; [exact E|]. split; auto. split; auto. split.
  - eapply (desc_good FOK); eauto.
  - split; [eapply desc_dts; eauto|].
    assert (RW : forall k, refsP (Acy s) s k -> refsP (Acy s') s' k).
    { intros k Hk. apply (refsP_weak (Acy s) (Acy s') s s'); auto. intros b Hb. eapply Acy_mono; eauto. }
    eapply desc_acy; [exact D| | |]; intros; apply RW; auto.
Qed.

(** what a good operator provides for w in {N,T,H} *)
Lemma Good_den : forall (s : st) a n m f, Good s a n m f -> denotes s a n m f.
Proof. intros s a n m f G. now destruct (Good_good1 _ _ _ _ _ G). Qed.
Lemma Good_T : forall (s : st) a n m f, Good s a n m f ->
  exists t g, wtgt s WT a t /\ Good s t m n g /\ is_transpose n m f g.
Proof.
  intros s a n m f G. destruct (Good_good1 _ _ _ _ _ G) as [_ _ _ (o & t & g & ? & ? & ? & ?) _].
  exists t, g. repeat split; auto. exists o; auto.
Qed.
Lemma Good_H : forall (s : st) a n m f, Good s a n m f ->
  exists t g, wtgt s WH a t /\ Good s t m n g /\ is_adjoint n m f g.
Proof.
  intros s a n m f G. destruct (Good_good1 _ _ _ _ _ G) as [_ _ _ _ (o & t & g & ? & ? & ? & ?)].
  exists t, g. repeat split; auto. exists o; auto.
Qed.
Lemma denotes_lin : forall (s : st) a n m f, denotes s a n m f -> linmap n m f.
Proof. intros s a n m f (o & d & ? & ? & ? & ? & ?); auto. Qed.
Lemma GoodD_real : forall (s : st) a n m dt f, GoodD s a n m dt f ->
  is_complex dt = false -> real_map n f.
Proof.
  intros s a n m dt f [G [Hq Hacy]] C. destruct (Dts_dt _ _ _ Hq) as (o & Ho & Hd).
  destruct (Good_den _ _ _ _ _ G) as (o' & d & Ho' & _ & _ & _ & R & _).
  rewrite Ho in Ho'; inversion Ho'; subst. auto.
Qed.
Lemma Good_attr : forall (s : st) a n m f, Good s a n m f ->
  exists o, objs s a = Some o /\ o_nargin o = n /\ o_nargout o = m /\
    (o_sym o = true -> n = m /\ is_transpose n n f f) /\
    (o_herm o = true -> n = m /\ is_adjoint n n f f).
Proof.
  intros s a n m f G. destruct (Good_good1 _ _ _ _ _ G) as [D H2 H3 _ _].
  destruct D as (o & d & Ho & Hn & Hm & _). exists o.
  split; [auto|]. split; [auto|]. split; [auto|]. split; intros; eauto.
Qed.

Definition swf (c : scalar F) : Prop := is_complex (sty c) = false -> kconj (sval c) = sval c.

Lemma zero_op_builds : forall (s : st) n m dt, wfst s ->
  builds (zero_op n m dt) s n m dt (fun _ => vzero m).
Proof.
  intros s n m dt W. unfold zero_op.
  destruct (new_linop_desc s n m (CZero (nxt s) n m) (Some (CZero (nxt s) m n))
              (Some (CZero (nxt s) m n)) (Nat.eqb n m) false dt W)
    as (s' & E & X & W' & L & D & (o & Ho & Hp & _)).
  set (s2 := set_obj (nxt s) (with_pay PZero o) s').
  exists s2, (nxt s). split.
  { erewrite bind_ok by reflexivity. erewrite bind_ok by exact E.
    erewrite bind_ok by (unfold modobj; rewrite Ho; reflexivity). reflexivity. }
  assert (X2 : ext s s2) by (apply ext_set_fresh; auto; now apply (proj1 W)).
  split; auto. split; [apply wf_set; auto|].
  (* description survives setting the payload *)
  assert (D2 : desc s2 (nxt s) n m (CZero (nxt s) n m) (Some (CZero (nxt s) m n))
              (Some (CZero (nxt s) m n)) (Nat.eqb n m) false dt).
  { assert (HH : forall a n m sy he dt c T H, has s' a n m sy he dt c T H -> has s2 a n m sy he dt c T H).
    { clear - Ho. intros a n m sy he dt c T H (oa & Ha & R). unfold s2.
      destruct (Nat.eq_dec a (nxt s)) as [->|Ne].
      - rewrite Ho in Ha; inversion Ha; subst oa.
        exists (with_pay PZero o). split; [apply get_set_eq|]. exact R.
      - exists oa. split; auto. now apply get_set_ne. }
    unfold desc in *. destruct (is_complex dt), (Nat.eqb n m);
      repeat match goal with H : exists _, _ |- _ => destruct H end;
      repeat match goal with H : _ /\ _ |- _ => destruct H end;
      repeat match goal with |- exists _, _ => eexists end; repeat split; eauto. }
  split.
  - eapply (desc_good FOK) with (fT := fun _ => vzero n) (fH := fun _ => vzero n); eauto.
    { unfold complete. destruct (Nat.eqb n m), (is_complex dt); auto. }
    constructor; auto using lin_zero, tr_zero, ad_zero; try discriminate.
    + intros _ x _. now rewrite (vconj_zero FOK).
    + eapply cden_zero. apply get_set_eq.
    + intros ct Ect; injection Ect as <-. eapply cden_zero. apply get_set_eq.
    + intros ct Ect; injection Ect as <-. eapply cden_zero. apply get_set_eq.
    + intros En. apply Nat.eqb_eq in En. subst m. split; auto using tr_zero.
  - split; [eapply desc_dts; eauto|].
    eapply desc_acy; [exact D2|exact I| |]; intros ? Ec; injection Ec as <-; exact I.
Qed.

Lemma mul_scalar_builds : forall (s : st) a n m dt f c, wfst s -> swf c ->
  GoodD s a n m dt f ->
  builds (mul_scalar a c) s n m (result_type dt (sty c)) (fun x => vscale (sval c) (f x)).
Proof.
  intros s a n m dt f c W Sc GD. pose proof GD as [G [Hq Hacy]]. destruct (Dts_dt _ _ _ Hq) as (od & Hod & Hdt).
  destruct (Good_attr _ _ _ _ _ G) as (o & Ho & Hn & Hm & Hs & Hh).
  rewrite Ho in Hod; inversion Hod; subst od; clear Hod.
  assert (Lf := denotes_lin _ _ _ _ _ (Good_den _ _ _ _ _ G)).
  assert (E : mul_scalar a c s =
     (if keqb (sval c) k0 then zero_op n m (result_type dt (sty c)) else
      new_linop n m (CScale WN c a) (Some (CScale WT c a)) (Some (CScale WH c a))
            (o_sym o) (negb (is_complex (result_type dt (sty c))) && o_herm o)
            (result_type dt (sty c))) s).
  { unfold mul_scalar. do 3 (erewrite bind_ok by (apply getattr_ok; exact Ho)).
    rewrite Hn, Hm, Hdt. destruct (keqb (sval c) k0); auto.
    do 2 (erewrite bind_ok by (apply getattr_ok; exact Ho)). reflexivity. }
  unfold builds. rewrite E. clear E.
  destruct (keqb (sval c) k0) eqn:Ez.
  - apply (fk_eqb F FOK) in Ez. rewrite Ez.
    destruct (zero_op_builds s n m (result_type dt (sty c)) W) as (s' & b & Hb & X & W' & GD').
    exists s', b. split; [exact Hb|]. split; auto. split; auto. eapply GoodD_ext; [|exact GD'].
    intros x Hx. cbn. rewrite vscale_0, (lin_len _ _ _ Lf); auto.
  - destruct (Good_T _ _ _ _ _ G) as (t & g & Wt & Gt & Tr).
    destruct (Good_H _ _ _ _ _ G) as (h & g' & Wh & Gh & Ad).
    assert (Lg := denotes_lin _ _ _ _ _ (Good_den _ _ _ _ _ Gt)).
    assert (Lg' := denotes_lin _ _ _ _ _ (Good_den _ _ _ _ _ Gh)).
    eapply new_linop_builds with (fT := fun y => vscale (sval c) (g y))
        (fH := fun y => vscale (kconj (sval c)) (g' y)); auto;
      try (cbn; auto; fail); try (intros ? Ec; injection Ec as <-; cbn; auto; fail).
    { unfold complete. destruct (o_sym o), (is_complex _), (o_herm o); auto. }
    intros s' X _. constructor; auto using lin_scaled, tr_scaled, ad_scaled.
    + intros C x Hx. rewrite result_type_complex in C. apply orb_false_elim in C.
      destruct C as [C1 C2]. rewrite (GoodD_real _ _ _ _ _ _ GD C1) by auto.
      rewrite (vconj_scale FOK), (Sc C2). reflexivity.
    + apply (cden_scale s' WN c a a n m f); [reflexivity|].
      apply (denotes_mono s s'); auto. now apply Good_den.
    + intros ct Ect; injection Ect as <-.
      apply (cden_scale s' WT c a t m n g); [eapply wtgt_mono; eauto|].
      apply (denotes_mono s s'); auto. now apply Good_den.
    + intros ct Ect; injection Ect as <-.
      apply (cden_scale s' WH c a h m n g'); [eapply wtgt_mono; eauto|].
      apply (denotes_mono s s'); auto. now apply Good_den.
    + intros Hs'. destruct (Hs Hs'). split; auto using tr_scaled.
    + intros Hh'. apply andb_true_iff in Hh'. destruct Hh' as [C Hh'].
      apply negb_true_iff in C. rewrite result_type_complex in C. apply orb_false_elim in C.
      destruct C as [C1 C2]. destruct (Hh Hh') as [E A]. split; auto.
      eapply is_adjoint_ext; [ | |apply (ad_scaled _ _ (sval c) _ _ A)]; auto.
      intros; now rewrite (Sc C2).
Qed.

Lemma mul_linop_builds : forall (s : st) a b n k m dt dt' f g, wfst s ->
  GoodD s a k m dt f -> GoodD s b n k dt' g ->
  builds (mul_linop a b) s n m (result_type dt dt') (fun x => f (g x)).
Proof.
  intros s a b n k m dt dt' f g W GA GB.
  pose proof GA as [Ga [Hqa Acya]]. destruct (Dts_dt _ _ _ Hqa) as (oa & Hoa & Hdt).
  pose proof GB as [Gb [Hqb Acyb]]. destruct (Dts_dt _ _ _ Hqb) as (ob & Hob & Hdt').
  destruct (Good_attr _ _ _ _ _ Ga) as (o & Ho & Hn & Hm & _).
  rewrite Ho in Hoa; inversion Hoa; subst oa; clear Hoa.
  destruct (Good_attr _ _ _ _ _ Gb) as (o' & Ho' & Hn' & Hm' & _).
  rewrite Ho' in Hob; inversion Hob; subst ob; clear Hob.
  unfold builds.
  replace (mul_linop a b s) with
    (new_linop n m (CMul WN a b) (Some (CMul WT a b)) (Some (CMul WH a b))
            false false (result_type dt dt') s).
  2:{ unfold mul_linop.
      erewrite bind_ok by (apply getattr_ok; exact Ho).
      erewrite bind_ok by (apply getattr_ok; exact Ho').
      rewrite Hn, Hm', Nat.eqb_refl. cbn [negb].
      erewrite bind_ok by (apply getattr_ok; exact Ho).
      erewrite bind_ok by (apply getattr_ok; exact Ho').
      erewrite bind_ok by (apply getattr_ok; exact Ho').
      erewrite bind_ok by (apply getattr_ok; exact Ho).
      now rewrite Hdt, Hdt', Hn', Hm. }
  destruct (Good_T _ _ _ _ _ Ga) as (t & ga & Wt & Gt & Tr).
  destruct (Good_H _ _ _ _ _ Ga) as (h & ga' & Wh & Gh & Ad).
  destruct (Good_T _ _ _ _ _ Gb) as (t' & gb & Wt' & Gt' & Tr').
  destruct (Good_H _ _ _ _ _ Gb) as (h' & gb' & Wh' & Gh' & Ad').
  assert (L1 := denotes_lin _ _ _ _ _ (Good_den _ _ _ _ _ Ga)).
  assert (L2 := denotes_lin _ _ _ _ _ (Good_den _ _ _ _ _ Gb)).
  assert (L3 := denotes_lin _ _ _ _ _ (Good_den _ _ _ _ _ Gt)).
  assert (L4 := denotes_lin _ _ _ _ _ (Good_den _ _ _ _ _ Gh)).
  assert (L5 := denotes_lin _ _ _ _ _ (Good_den _ _ _ _ _ Gt')).
  assert (L6 := denotes_lin _ _ _ _ _ (Good_den _ _ _ _ _ Gh')).
  eapply new_linop_builds with (fT := fun y => gb (ga y)) (fH := fun y => gb' (ga' y)); auto;
    try (cbn; auto; fail); try (intros ? Ec; injection Ec as <-; cbn; auto; fail).
  { unfold complete. destruct (is_complex _); auto. }
  intros s' X _. constructor; try discriminate.
  + eapply lin_comp; eauto.
  + eapply lin_comp; eauto.
  + eapply lin_comp; eauto.
  + eapply tr_comp; eauto.
  + eapply ad_comp; eauto.
  + intros C x Hx. rewrite result_type_complex in C. apply orb_false_elim in C.
    destruct C as [C1 C2]. rewrite (GoodD_real _ _ _ _ _ _ GB C2) by auto.
    rewrite (GoodD_real _ _ _ _ _ _ GA C1); auto. now apply L2.
  + eapply cden_mulN; eapply denotes_mono; eauto using Good_den.
  + intros ct Ect; injection Ect as <-.
    eapply (cden_mulW s' WT); try congruence; try (eapply wtgt_mono; eauto);
      eapply denotes_mono; eauto using Good_den.
  + intros ct Ect; injection Ect as <-.
    eapply (cden_mulW s' WH); try congruence; try (eapply wtgt_mono; eauto);
      eapply denotes_mono; eauto using Good_den.
Qed.

Lemma addsub_builds : forall (b : bool) (s : st) a a' n m dt dt' f g, wfst s ->
  GoodD s a n m dt f -> GoodD s a' n m dt' g ->
  builds (addsub (if b then CAdd else CSub) a a') s n m (result_type dt dt')
    (fun x => (if b then vadd else vsub) (f x) (g x)).
Proof.
  intros b s a a' n m dt dt' f g W GA GB.
  pose proof GA as [Ga [Hqa Acya]]. destruct (Dts_dt _ _ _ Hqa) as (oa & Hoa & Hdt).
  pose proof GB as [Gb [Hqb Acyb]]. destruct (Dts_dt _ _ _ Hqb) as (ob & Hob & Hdt').
  destruct (Good_attr _ _ _ _ _ Ga) as (o & Ho & Hn & Hm & Hs & Hh).
  rewrite Ho in Hoa; inversion Hoa; subst oa; clear Hoa.
  destruct (Good_attr _ _ _ _ _ Gb) as (o' & Ho' & Hn' & Hm' & Hs' & Hh').
  rewrite Ho' in Hob; inversion Hob; subst ob; clear Hob.
  unfold builds. set (mk := if b then CAdd else CSub).
  replace (addsub mk a a' s) with
    (new_linop n m (mk WN a a') (Some (mk WT a a')) (Some (mk WH a a'))
            (o_sym o && o_sym o') (o_herm o && o_herm o') (result_type dt dt') s).
  2:{ unfold addsub.
      do 2 (erewrite bind_ok by (apply getattr_ok; exact Ho)).
      do 2 (erewrite bind_ok by (apply getattr_ok; exact Ho')).
      rewrite Hn, Hm, Hn', Hm', !Nat.eqb_refl. cbn [negb andb].
      erewrite bind_ok by (apply getattr_ok; exact Ho).
      erewrite bind_ok by (apply getattr_ok; exact Ho').
      erewrite bind_ok by (apply getattr_ok; exact Ho).
      erewrite bind_ok by (apply getattr_ok; exact Ho').
      erewrite bind_ok by (apply getattr_ok; exact Ho).
      erewrite bind_ok by (apply getattr_ok; exact Ho').
      now rewrite Hdt, Hdt'. }
  destruct (Good_T _ _ _ _ _ Ga) as (t & ga & Wt & Gt & Tr).
  destruct (Good_H _ _ _ _ _ Ga) as (h & ga' & Wh & Gh & Ad).
  destruct (Good_T _ _ _ _ _ Gb) as (t' & gb & Wt' & Gt' & Tr').
  destruct (Good_H _ _ _ _ _ Gb) as (h' & gb' & Wh' & Gh' & Ad').
  assert (L1 := denotes_lin _ _ _ _ _ (Good_den _ _ _ _ _ Ga)).
  assert (L2 := denotes_lin _ _ _ _ _ (Good_den _ _ _ _ _ Gb)).
  assert (L3 := denotes_lin _ _ _ _ _ (Good_den _ _ _ _ _ Gt)).
  assert (L4 := denotes_lin _ _ _ _ _ (Good_den _ _ _ _ _ Gh)).
  assert (L5 := denotes_lin _ _ _ _ _ (Good_den _ _ _ _ _ Gt')).
  assert (L6 := denotes_lin _ _ _ _ _ (Good_den _ _ _ _ _ Gh')).
  eapply new_linop_builds with (fT := fun y => (if b then vadd else vsub) (ga y) (gb y))
     (fH := fun y => (if b then vadd else vsub) (ga' y) (gb' y)); auto;
    try (unfold mk; destruct b; cbn; auto; fail);
    try (intros ? Ec; injection Ec as <-; unfold mk; destruct b; cbn; auto; fail).
  { unfold complete. destruct (is_complex _), (o_sym o && o_sym o'), (o_herm o && o_herm o'); auto. }
  intros s' X _. constructor; auto using lin_addsub, tr_addsub, ad_addsub.
  + intros C x Hx. rewrite result_type_complex in C. apply orb_false_elim in C.
    destruct C as [C1 C2]. rewrite (GoodD_real _ _ _ _ _ _ GB C2) by auto.
    rewrite (GoodD_real _ _ _ _ _ _ GA C1) by auto.
    destruct b; [now rewrite (vconj_add FOK) | now rewrite (vconj_sub FOK)].
  + eapply (cden_addsub s' b WN); try reflexivity; eapply denotes_mono; eauto using Good_den.
  + intros ct Ect; injection Ect as <-.
    eapply (cden_addsub s' b WT); try (eapply wtgt_mono; eauto);
      eapply denotes_mono; eauto using Good_den.
  + intros ct Ect; injection Ect as <-.
    eapply (cden_addsub s' b WH); try (eapply wtgt_mono; eauto);
      eapply denotes_mono; eauto using Good_den.
  + intros Es. apply andb_true_iff in Es. destruct Es as [E1 E2].
    destruct (Hs E1) as [-> T1]. destruct (Hs' E2) as [_ T2]. split; auto using tr_addsub.
  + intros Es. apply andb_true_iff in Es. destruct Es as [E1 E2].
    destruct (Hh E1) as [-> T1]. destruct (Hh' E2) as [_ T2]. split; auto using ad_addsub.
Qed.

Lemma identity_builds : forall (s : st) n dt, wfst s ->
  builds (identity_op n dt) s n n dt (fun x => x).
Proof.
  intros. unfold identity_op. eapply new_linop_builds with (fT := fun x => x) (fH := fun x => x); auto;
    try discriminate; try exact I.
  intros s' X _. constructor; auto using lin_id, tr_id, ad_id, cden_ident; try discriminate.
  intros _ x _; auto.
Qed.

(** ** conjugate() on a good operator *)
Lemma conjugate_builds : forall (s : st) a n m dt f, wfst s -> GoodD s a n m dt f ->
  builds (conjugate a) s n m dt (conj_map f).
Proof.
  intros s a n m dt f W GD. pose proof GD as [G [Hdts Hacy]]. destruct (Dts_dt _ _ _ Hdts) as (o & Ho & Hdt).
  unfold conjugate, builds.
  destruct (is_complex dt) eqn:C.
  2:{ (* real: returns self *)
      exists s, a. split.
      - unfold conjugate_. erewrite bind_ok by (apply getattr_ok; exact Ho).
        rewrite Hdt, C. reflexivity.
      - split; [apply ext_refl|]. split; auto. eapply GoodD_ext; [|exact GD].
        intros x Hx. symmetry. eapply (conj_map_real FOK); eauto. eapply GoodD_real; eauto. }
  destruct (Good_T _ _ _ _ _ G) as (t & g & (o1 & Ho1 & Ht) & Gt & Tr).
  destruct (Good_H _ _ _ _ _ G) as (h & g' & (o2 & Ho2 & Hh) & Gh & Ad).
  rewrite Ho in Ho1, Ho2; inversion Ho1; inversion Ho2; subst o1 o2; clear Ho1 Ho2.
  destruct (Good_attr _ _ _ _ _ G) as (o' & Ho' & Hn & Hm & _).
  rewrite Ho in Ho'; inversion Ho'; subst o'; clear Ho'.
  destruct (Good_attr _ _ _ _ _ Gt) as (ot & Hot & _).
  destruct (Good_attr _ _ _ _ _ Gh) as (oh & Hoh & _).
  set (q := nxt s).
  set (oq := @mkobj F n m false false dt 0 (CConj WN a) (Some h) (Some t) PNone).
  assert (Eq : exists s', conjugate_ (init 4) a s = (s', Ok q) /\ ext s s' /\ wfst s' /\
             objs s' q = Some oq).
  { unfold conjugate_. eexists. split.
    { erewrite bind_ok by (apply getattr_ok; exact Ho). rewrite Hdt, C. cbn [negb].
      do 4 (erewrite bind_ok by (apply getattr_ok; exact Ho)). rewrite Hn, Hm, Ht, Hh.
      erewrite bind_ok.
      2:{ erewrite bind_ok by (apply getattr_ok; exact Hoh).
          erewrite bind_ok by (apply getattr_ok; exact Hot). reflexivity. }
      cbn [fst snd]. run. destruct dt; try discriminate. cbn [is_complex negb]. reflexivity. }
    split.
    { repeat (apply ext_set_fresh; [|apply (proj1 W); lia]).
      apply ext_alloc_fresh; [|apply (proj1 W); lia]. apply ext_refl. }
    split. { repeat (apply wf_set; [|cbn; lia]). apply wf_alloc; auto. }
    unfold q, oq. lk. }
  destruct Eq as (s' & Eq & X & W' & Hq). exists s', q. split; [exact Eq|].
  split; auto. split; auto.
  assert (Lf := denotes_lin _ _ _ _ _ (Good_den _ _ _ _ _ G)).
  assert (Dq : denotes s' q n m (conj_map f)).
  { eapply (denotes_mk FOK); [exact Hq|reflexivity|reflexivity| | |].
    - now apply (conj_map_lin FOK).
    - cbn. congruence.
    - cbn. eapply cden_conjN. eapply denotes_mono; [exact X|]. apply Good_den; exact G. }
  split.
  2:{ split.
    { destruct (dt_mono _ _ _ _ X Hdts) as (S & Sa & HS).
      assert (HS' : forall b, S b \/ b = q -> exists o : obj, objs s' b = Some o /\ o_dtype o = dt /\
        (forall t, o_T o = Some t -> S t \/ t = q) /\ (forall t, o_H o = Some t -> S t \/ t = q)).
      { intros b [Hb| ->].
        - destruct (HS b Hb) as (ob & Hob & Hd & H1 & H2). exists ob. repeat split; auto.
        - destruct (HS a Sa) as (ob & Hob & Hd & H1 & H2).
          destruct (ext_obj _ _ X _ _ Ho) as (o2 & Ho2 & Hs2). rewrite Hob in Ho2; inversion Ho2; subst o2.
          exists oq. repeat split; auto; cbn; intros t0 E0; inversion E0; subst t0; left.
          + apply H2. rewrite <- (stable_H _ _ Hs2). auto.
          + apply H1. rewrite <- (stable_T _ _ Hs2). auto. }
      exists (fun b => S b \/ b = q). split; auto. }
      pose proof (Acy_mono _ _ _ X Hacy) as A'.
      assert (HHq : has s' q n m false false dt (CConj WN a) (Some h) (Some t))
        by (exists oq; repeat split; auto).
      exists (fun b => Acy s' b \/ b = q). split; auto. intros b [Hb| ->].
      - destruct (Acy_closed _ b Hb) as (ob & Hob & Aq & Rq & HTq & HHq'). exists ob.
        split; [auto|]. split; [auto|]. split; [eapply refsP_weak; [apply ext_refl| |exact Rq]; auto|].
        split; auto.
      - eapply has_closed; [exact HHq| | | |].
        + eapply conj_acc; [exact HHq|]. cbn. intros ? ->. now apply Acy_acc.
        + cbn. auto.
        + intros t0 E0; injection E0 as <-. left. eapply (Acy_w s' WH); eauto.
          eapply (wtgt_mono s s'); eauto. exists o; auto.
        + intros t0 E0; injection E0 as <-. left. eapply (Acy_w s' WT); eauto.
          eapply (wtgt_mono s s'); eauto. exists o; auto. }
  exists (fun b n' m' u => Good s' b n' m' u \/ (b = q /\ n' = n /\ m' = m /\ u = conj_map f)).
  split; [|right; auto].
  intros b n' m' u [Gb | (-> & -> & -> & ->)].
  - destruct (Good_good1 _ _ _ _ _ Gb) as [H1 H2 H3 H4 H5]. constructor; auto.
    + destruct H4 as (ob & t' & gg & ? & ? & ? & ?). exists ob, t', gg. auto.
    + destruct H5 as (ob & t' & gg & ? & ? & ? & ?). exists ob, t', gg. auto.
  - constructor; auto.
    + intros ob Hob. rewrite Hq in Hob; inversion Hob; subst. discriminate.
    + intros ob Hob. rewrite Hq in Hob; inversion Hob; subst. discriminate.
    + exists oq, h, g'. repeat split; auto. left. eapply Good_mono; eauto.
      now apply (conj_transpose_adjoint FOK).
    + exists oq, t, g. repeat split; auto. left. eapply Good_mono; eauto.
      now apply (conj_adjoint_transpose FOK).
Qed.
End Ops.
