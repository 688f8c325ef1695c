(** * Which operators a product applies, and which counters it may change. *)
From Coq Require Import List ZArith Lia Bool.
From Verif Require Import Base Field Vec LinopModel LinopFrame LinopGood LinopInit.
Import ListNotations.

Section Dep.
Context {F : Fld}.
Notation st := (st F). Notation obj := (obj F). Notation M := (M F). Notation arr := (arr F).

(** operator reached from [a] through [w] *)
Definition wtgt (s : st) (w : which) (a t : addr) : Prop :=
  match w with
  | WN => t = a
  | WT => exists o, objs s a = Some o /\ o_T o = Some t
  | WH => exists o, objs s a = Some o /\ o_H o = Some t
  end.

Lemma wtgt_mono : forall (s s' : st) w a t, ext s s' -> wtgt s w a t -> wtgt s' w a t.
Proof.
  intros s s' w a t E; destruct w; cbn; auto; intros (o & Ho & Ht);
    destruct (ext_obj _ _ E _ _ Ho) as (o' & Ho' & Hs); exists o'; split; auto.
  now rewrite <- (stable_T _ _ Hs). now rewrite <- (stable_H _ _ Hs).
Qed.

(** from [s] to [s'] only counters of objects in [Q] may have changed *)
Definition unch (Q : addr -> Prop) (s s' : st) : Prop :=
  cle s s' /\ forall b, ~ Q b -> objs s' b = objs s b.
Lemma unch_refl : forall Q s, unch Q s s.
Proof. split; auto using cle_refl. Qed.
Lemma unch_trans : forall Q a b c, unch Q a b -> unch Q b c -> unch Q a c.
Proof.
  intros Q a b c [H1 H2] [H3 H4]. split; [eapply cle_trans; eauto|].
  intros. rewrite H4, H2; auto.
Qed.
Lemma unch_weak : forall (Q Q' : addr -> Prop) s s', (forall b, Q b -> Q' b) -> unch Q s s' -> unch Q' s s'.
Proof. intros Q Q' s s' H [H1 H2]. split; auto. Qed.

Definition UM {A} (Q : addr -> Prop) (s0 : st) (m : M A) (P : A -> Prop) : Prop :=
  forall s1 s2 r, cle s0 s1 -> m s1 = (s2, r) ->
    unch Q s1 s2 /\ match r with Ok v => P v | Err _ => True end.

Section UMs.
Variables (Q : addr -> Prop) (s0 : st).
Lemma um_ret : forall A (a : A) (P : A -> Prop), P a -> UM Q s0 (ret a) P.
Proof. intros A a P H s1 s2 r _ E. inversion E; subst. split; auto using unch_refl. Qed.
Lemma um_raise : forall A e (P : A -> Prop), UM Q s0 (raise e) P.
Proof. intros A a P s1 s2 r _ E. inversion E; subst. split; auto using unch_refl. Qed.
Lemma um_lift : forall A (x : res A), UM Q s0 (lift x) (fun _ => True).
Proof. intros A a s1 s2 r _ E. inversion E; subst. split; auto using unch_refl. destruct r; auto. Qed.
Lemma um_bind : forall A B (m : M A) (k : A -> M B) P P',
  UM Q s0 m P -> (forall v, P v -> UM Q s0 (k v) P') -> UM Q s0 (bind m k) P'.
Proof.
  intros A B m k P P' Hm Hk s1 s2 r C E. unfold bind in E.
  destruct (m s1) as [s' [a|e]] eqn:E1.
  - destruct (Hm _ _ _ C E1) as [U Pa]. cbn in Pa.
    destruct (Hk a Pa s' s2 r) as [U2 P2]; auto.
    { eapply cle_trans; [exact C|apply U]. }
    split; auto. eapply unch_trans; eauto.
  - inversion E; subst. destruct (Hm _ _ _ C E1) as [U _]. auto.
Qed.
Lemma um_weak : forall A (m : M A) (P P' : A -> Prop),
  (forall v, P v -> P' v) -> UM Q s0 m P -> UM Q s0 m P'.
Proof.
  intros A m P P' H Hm s1 s2 r C E. destruct (Hm _ _ _ C E). split; auto. destruct r; auto.
Qed.
Lemma um_getattr : forall A (p : obj -> A) a, stable p ->
  UM Q s0 (getattr p a) (fun v => exists o, objs s0 a = Some o /\ v = p o).
Proof.
  intros A p a Sp s1 s2 r C E. unfold getattr in E.
  destruct (objs s1 a) as [o|] eqn:Eo; inversion E; subst; split; auto using unch_refl.
  destruct (ext_obj _ _ (cle_ext_r _ _ C) _ _ Eo) as (o' & Ho' & S). exists o'. split; auto.
Qed.
Lemma um_get_arr : forall l, UM Q s0 (get_arr l) (fun _ => True).
Proof.
  intros l s1 s2 r C E. unfold get_arr in E.
  destruct (arrs s1 l); inversion E; subst; split; auto using unch_refl.
Qed.
Lemma um_get_row : forall l, UM Q s0 (get_row l) (fun v => rows s0 l = Some v).
Proof.
  intros l s1 s2 r C E. unfold get_row in E.
  destruct (rows s1 l) as [w|] eqn:El; inversion E; subst; split; auto using unch_refl.
  apply (ext_row _ _ (cle_ext_r _ _ C) _ _ El).
Qed.
Lemma um_mmap : forall A B (f : A -> M B) (P : A -> B -> Prop) l,
  (forall a, UM Q s0 (f a) (P a)) -> UM Q s0 (mmap f l) (Forall2 P l).
Proof.
  intros A B f P l H. induction l; cbn.
  - apply um_ret. constructor.
  - eapply um_bind; [apply H|]. intros b Hb. eapply um_bind; [apply IHl|]. intros bs Hbs.
    apply um_ret. constructor; auto.
Qed.

Variable ap : addr -> arr -> M arr.
Definition ap_ok (b : addr) : Prop := forall y, UM Q s0 (ap b y) (fun _ => True).

Lemma um_ap_opt : forall o x, (forall b, o = Some b -> ap_ok b) ->
  UM Q s0 (ap_opt ap o x) (fun _ => True).
Proof. intros [b|] x H; cbn; [apply H; auto|apply um_raise]. Qed.
Lemma um_ap_w : forall w a x, (forall b, wtgt s0 w a b -> ap_ok b) ->
  UM Q s0 (ap_w ap w a x) (fun _ => True).
Proof.
  intros w a x H. destruct w; cbn [ap_w].
  - apply H. reflexivity.
  - eapply um_bind; [apply um_getattr, stable_T|]. intros v (o & Ho & ->).
    apply um_ap_opt. intros b Hb. apply H. exists o; auto.
  - eapply um_bind; [apply um_getattr, stable_H|]. intros v (o & Ho & ->).
    apply um_ap_opt. intros b Hb. apply H. exists o; auto.
Qed.
Lemma um_blk_attr : forall A (p : obj -> A) b, stable p -> UM Q s0 (blk_attr p b) (fun _ => True).
Proof.
  intros A p [a|] Sp; cbn; [|apply um_raise]. eapply um_weak; [|apply um_getattr; auto]. auto.
Qed.
Lemma um_blk_row : forall rt xdt ws row x y, (forall b, In (Some b) row -> ap_ok b) ->
  UM Q s0 (blk_row ap rt xdt ws row x y) (fun _ => True).
Proof.
  induction ws; destruct row; intros x y H; cbn; try (apply um_ret; auto); try apply um_raise.
  eapply um_bind; [apply um_ap_opt; intros; subst; apply H; now left|]. intros v _.
  eapply um_bind; [apply um_lift|]. intros z _. apply IHws. intros; apply H; now right.
Qed.
Lemma um_blk_rows : forall rt xdt ws blks hs x,
  (forall row b, In row blks -> In (Some b) row -> ap_ok b) ->
  UM Q s0 (blk_rows ap rt xdt ws hs blks x) (fun _ => True).
Proof.
  induction blks; destruct hs; intros x H; cbn; try (apply um_ret; auto).
  eapply um_bind; [apply um_blk_row; intros; eapply H; eauto; now left|]. intros v _.
  eapply um_bind; [apply IHblks; intros; eapply H; eauto; now right|]. intros z _.
  apply um_ret; auto.
Qed.
Lemma um_bd_loop : forall rt xdt blks ws hs x,
  (forall b, In (Some b) blks -> ap_ok b) ->
  UM Q s0 (bd_loop ap rt xdt ws hs blks x) (fun _ => True).
Proof.
  induction blks; destruct ws, hs; intros x H; cbn; try (apply um_ret; auto); try apply um_raise.
  eapply um_bind; [apply um_ap_opt; intros; subst; apply H; now left|]. intros v _.
  eapply um_bind; [apply um_lift|]. intros z _.
  eapply um_bind; [apply IHblks; intros; apply H; now right|]. intros w _. apply um_ret; auto.
Qed.

(** the operators a closure applies *)
Definition tgts (s : st) (c : clo F) (b : addr) : Prop :=
  match c with
  | CUser _ | CIdent | CDiag _ _ | CZero _ _ _ => False
  | CConj w a | CScale w _ a | CRed w a _ _ => wtgt s w a b
  | CMul w a a' | CAdd w a a' | CSub w a a' => wtgt s w a b \/ wtgt s w a' b
  | CBlk w a =>
      exists o l row, objs s a = Some o /\
        match o_pay o with
        | PBlk b bT bH => In l (match w with WN => b | WT => bT | WH => bH end)
        | _ => False end /\ rows s l = Some row /\ In (Some b) row
  | CBDiag w a =>
      exists o row, objs s a = Some o /\
        match o_pay o with
        | PBDiag _ b bT bH => rows s (match w with WN => b | WT => bT | WH => bH end) = Some row
        | _ => False end /\ In (Some b) row
  end.
Lemma Forall2_In_r : forall A B (P : A -> B -> Prop) l l' b,
  Forall2 P l l' -> In b l' -> exists a, In a l /\ P a b.
Proof.
  intros A B P l l' b H. induction H; cbn; intros []; subst; eauto.
  destruct (IHForall2 H1) as (a & ? & ?). eauto.
Qed.

Lemma um_call : forall c x, (forall b, tgts s0 c b -> ap_ok b) ->
  UM Q s0 (call ap c x) (fun _ => True).
Proof.
  intros c x H. destruct c; cbn [call tgts] in *.
  - apply um_lift.
  - destruct (is_complex (adt x)); (eapply um_bind; [apply um_ap_w; auto|intros; apply um_ret; auto]).
  - eapply um_bind; [apply um_ap_w; auto|intros; apply um_ret; auto].
  - destruct w; (eapply um_bind; [apply um_ap_w; auto|intros; apply um_ap_w; auto]).
  - eapply um_bind; [apply um_ap_w; auto|intros].
    eapply um_bind; [apply um_ap_w; auto|intros; apply um_ret; auto].
  - eapply um_bind; [apply um_ap_w; auto|intros].
    eapply um_bind; [apply um_ap_w; auto|intros; apply um_ret; auto].
  - apply um_ret; auto.
  - eapply um_bind; [apply um_get_arr|intros; apply um_ret; auto].
  - destruct (negb _); [apply um_raise|].
    eapply um_bind; [apply um_getattr, stable_dtype|intros; apply um_ret; auto].
  - unfold red_matvec.
    eapply um_bind; [apply um_getattr, stable_nargout|intros v1 _].
    eapply um_bind; [apply um_getattr, stable_nargin|intros v2 _].
    eapply um_bind; [apply um_lift|intros v3 _].
    eapply um_bind; [apply um_ap_w; auto|intros v4 _].
    eapply um_bind; [apply um_lift|intros v5 _]. apply um_ret; auto.
  - eapply um_bind; [apply um_getattr, stable_pay|]. intros p (o & Ho & ->).
    destruct (o_pay o) as [| | |b bT bH|] eqn:Ep; try apply um_raise.
    eapply um_bind; [apply um_getattr, stable_dtype|intros v1 _].
    eapply um_bind; [apply um_mmap; intros; apply um_get_row|]. intros blks HB.
    unfold blk_matvec.
    eapply um_bind; [apply um_mmap with (P := fun _ _ => True); intros|intros v2 _].
    { eapply um_weak; [|apply um_mmap with (P := fun _ _ => True);
        intros; apply um_blk_attr; apply stable_nargin]. auto. }
    eapply um_bind; [apply um_mmap with (P := fun _ _ => True); intros|intros v3 _].
    { eapply um_weak; [|apply um_mmap with (P := fun _ _ => True);
        intros; apply um_blk_attr; apply stable_nargout]. auto. }
    eapply um_bind; [apply um_lift|intros v4 _].
    eapply um_bind; [apply um_mmap with (P := fun _ _ => True); intros; apply um_lift|intros v5 _].
    destruct (negb _); [apply um_raise|].
    eapply um_bind; [|intros; apply um_ret; auto].
    apply um_blk_rows. intros row c Hr Hc. apply H.
    destruct (Forall2_In_r _ _ _ _ _ _ HB Hr) as (l & Hl & Hrow).
    exists o, l, row. rewrite Ep. auto.
  - eapply um_bind; [apply um_getattr, stable_pay|]. intros p (o & Ho & ->).
    destruct (o_pay o) as [| | | |orig b bT bH] eqn:Ep; try apply um_raise.
    eapply um_bind; [apply um_getattr, stable_dtype|intros v1 _].
    eapply um_bind; [apply um_get_row|intros v2 _].
    eapply um_bind; [apply um_get_row|]. intros blks HB.
    unfold bd_matvec.
    eapply um_bind; [apply um_mmap with (P := fun _ _ => True);
        intros; apply um_blk_attr; apply stable_nargin|intros v3 _].
    eapply um_bind; [apply um_mmap with (P := fun _ _ => True);
        intros; apply um_blk_attr; apply stable_nargout|intros v4 _].
    destruct (negb _); [apply um_raise|].
    eapply um_bind; [|intros; apply um_ret; auto].
    apply um_bd_loop. intros c Hc. apply H. exists o, blks. rewrite Ep. auto.
Qed.
End UMs.


(** ** the call graph *)
(** [dep s b a]: a product with [a] applies [b] *)
Definition dep (s : st) (b a : addr) : Prop := exists o, objs s a = Some o /\ tgts s (o_mv o) b.
Inductive reach (s : st) : addr -> addr -> Prop :=   (* b is applied, directly or not, by a *)
| reach_refl : forall a, reach s a a
| reach_step : forall a b c, dep s b a -> reach s b c -> reach s a c.

Lemma tgts_mono : forall (s s1 : st) c b, ext s s1 -> tgts s c b -> tgts s1 c b.
Proof.
  intros s s1 c b E. destruct c; cbn; auto; try (now apply wtgt_mono);
    try (intros [H|H]; [left|right]; eapply wtgt_mono; eauto).
  - intros (o & l & row & Ho & Hp & Hr & Hb).
    destruct (ext_obj _ _ E _ _ Ho) as (o' & Ho' & S).
    exists o', l, row. rewrite <- (stable_pay _ _ S). repeat split; auto.
    now apply (ext_row _ _ E).
  - intros (o & row & Ho & Hp & Hb).
    destruct (ext_obj _ _ E _ _ Ho) as (o' & Ho' & S).
    exists o', row. rewrite <- (stable_pay _ _ S). repeat split; auto.
    destruct (o_pay o); auto. now apply (ext_row _ _ E).
Qed.
Lemma dep_mono : forall (s s1 : st) b a, ext s s1 -> dep s b a -> dep s1 b a.
Proof.
  intros s s1 b a E (o & Ho & Ht). destruct (ext_obj _ _ E _ _ Ho) as (o' & Ho' & S).
  exists o'. split; auto. rewrite <- (stable_mv _ _ S). eapply tgts_mono; eauto.
Qed.
Lemma reach_mono : forall (s s1 : st) a b, ext s s1 -> reach s a b -> reach s1 a b.
Proof. intros s s1 a b E H. induction H; [apply reach_refl|eapply reach_step; eauto using dep_mono]. Qed.

Lemma apply_unch : forall d s a x s' r, apply d a x s = (s', r) -> unch (reach s a) s s'.
Proof.
  induction d; intros s a x s' r E; [inversion E; apply unch_refl|].
  cbn [apply] in E.
  assert (U : UM (reach s a) s (mul_vector (apply d) a x) (fun _ => True)).
  { unfold mul_vector.
    eapply um_bind with (P := fun _ => True).
    { intros s1 s2 r1 C Eb. split; [|destruct r1; auto]. split.
      - eapply frame_bump; eauto.
      - intros b Nb. unfold bump, modobj in Eb. destruct (objs s1 a); inversion Eb; subst; auto.
        cbn. unfold upd. destruct (Nat.eqb_spec b a); auto. subst. exfalso; apply Nb, reach_refl. }
    intros _ _. eapply um_bind; [apply um_getattr, stable_dtype|intros v1 _].
    eapply um_bind; [apply um_getattr, stable_nargin|intros v2 _].
    eapply um_bind; [apply um_getattr, stable_nargout|intros v3 _].
    destruct (negb _); [apply um_raise|].
    eapply um_bind; [apply um_getattr, stable_mv|]. intros c (o & Ho & ->).
    eapply um_bind; [|intros v4 _; destruct (negb _); [apply um_raise|apply um_ret; auto]].
    apply um_call. intros b Hb y s1 s2 r1 C Eb. split; [|destruct r1; auto].
    eapply unch_weak; [|eapply IHd; exact Eb].
    intros b' Hb'. apply reach_step with (b := b); [exists o; auto|].
    eapply reach_mono; [|exact Hb']. now apply cle_ext_r. }
  destruct (U s s' r (cle_refl _) E). auto.
Qed.

(** ** acyclic call graphs *)
(** every operator mentioned by closure [c] is in [P] *)
Definition refsP (P : addr -> Prop) (s : st) (c : clo F) : Prop :=
  match c with
  | CUser _ | CIdent | CDiag _ _ | CZero _ _ _ => True
  | CConj _ a | CScale _ _ a | CRed _ a _ _ => P a
  | CMul _ a b | CAdd _ a b | CSub _ a b => P a /\ P b
  | CBlk w a => exists o b bT bH, objs s a = Some o /\ o_pay o = PBlk b bT bH /\
      forall l, In l (match w with WN => b | WT => bT | WH => bH end) ->
        exists row, rows s l = Some row /\ forall b, In (Some b) row -> P b
  | CBDiag w a => exists o og b bT bH row, objs s a = Some o /\ o_pay o = PBDiag og b bT bH /\
      rows s (match w with WN => b | WT => bT | WH => bH end) = Some row /\
      forall b, In (Some b) row -> P b
  end.
Definition closedset (s : st) (P : addr -> Prop) : Prop :=
  forall b, P b -> exists o, objs s b = Some o /\ Acc (dep s) b /\ refsP P s (o_mv o) /\
    (forall t, o_T o = Some t -> P t) /\ (forall t, o_H o = Some t -> P t).
(** [a] is the entry of a closed, acyclic operator graph *)
Definition Acy (s : st) (a : addr) : Prop := exists P, P a /\ closedset s P.

Lemma refsP_weak : forall (P P' : addr -> Prop) (s s' : st) c, ext s s' -> (forall b, P b -> P' b) ->
  refsP P s c -> refsP P' s' c.
Proof.
  intros P P' s s' c E H. destruct c; cbn; auto; try (intros [? ?]; solve [auto]).
  - intros (o & b & bT & bH & Ho & Hp & H0).
    destruct (ext_obj _ _ E _ _ Ho) as (o' & Ho' & S).
    exists o', b, bT, bH. rewrite <- (stable_pay _ _ S). repeat split; auto.
    intros l Hl. destruct (H0 l Hl) as (row & Hr & Hb). exists row. split; auto.
    now apply (ext_row _ _ E).
  - intros (o & og & b & bT & bH & row & Ho & Hp & Hr & Hb).
    destruct (ext_obj _ _ E _ _ Ho) as (o' & Ho' & S).
    exists o', og, b, bT, bH, row. rewrite <- (stable_pay _ _ S). repeat split; auto.
    now apply (ext_row _ _ E).
Qed.
(** targets of a closure whose references are in a closed set stay in the set *)
Lemma tgts_closed : forall (P : addr -> Prop) s s' c b,
  ext s s' -> (forall b, P b -> exists o, objs s b = Some o /\
    (forall t, o_T o = Some t -> P t) /\ (forall t, o_H o = Some t -> P t)) ->
  refsP P s c -> tgts s' c b -> P b /\ tgts s c b.
Proof.
  intros P s s' c b E HP.
  assert (WT_ : forall w a, P a -> wtgt s' w a b -> P b /\ wtgt s w a b).
  { intros w a Pa Hw. destruct (HP a Pa) as (o & Ho & HT & HH).
    destruct (ext_obj _ _ E _ _ Ho) as (o' & Ho' & S).
    destruct w; cbn in *; [subst; auto| |]; destruct Hw as (o2 & H2 & Ht);
      rewrite Ho' in H2; injection H2 as <-.
    - rewrite <- (stable_T _ _ S) in Ht. split; eauto.
    - rewrite <- (stable_H _ _ S) in Ht. split; eauto. }
  destruct c; cbn; try tauto; try (intros; apply WT_; auto);
    try (intros [P1 P2] [H|H];
         [destruct (WT_ _ _ P1 H)|destruct (WT_ _ _ P2 H)]; auto).
  - intros (o & b1 & bT & bH & Ho & Hp & H0) (o2 & l & row & Ho2 & Hl & Hr & Hb).
    destruct (ext_obj _ _ E _ _ Ho) as (o' & Ho' & S). rewrite Ho' in Ho2; injection Ho2 as <-.
    rewrite <- (stable_pay _ _ S), Hp in Hl.
    destruct (H0 l Hl) as (row' & Hr' & Hb').
    rewrite (ext_row _ _ E _ _ Hr') in Hr; injection Hr as <-.
    split; auto. exists o, l, row'. rewrite Hp. auto.
  - intros (o & og & b1 & bT & bH & row & Ho & Hp & Hr & H0) (o2 & row2 & Ho2 & Hl & Hb).
    destruct (ext_obj _ _ E _ _ Ho) as (o' & Ho' & S). rewrite Ho' in Ho2; injection Ho2 as <-.
    rewrite <- (stable_pay _ _ S), Hp in Hl.
    rewrite (ext_row _ _ E _ _ Hr) in Hl; injection Hl as <-.
    split; auto. exists o, row. rewrite Hp. auto.
Qed.
Lemma closed_mono : forall s s' P, ext s s' -> closedset s P -> closedset s' P.
Proof.
  intros s s' P E H.
  assert (HA : forall b, Acc (dep s) b -> P b -> Acc (dep s') b).
  { intros b A. induction A as [b _ IH]. intros Pb. constructor. intros c (o' & Ho' & Ht).
    destruct (H b Pb) as (o & Ho & _ & R & _).
    destruct (ext_obj _ _ E _ _ Ho) as (o2 & Ho2 & S). rewrite Ho' in Ho2; injection Ho2 as <-.
    rewrite <- (stable_mv _ _ S) in Ht.
    destruct (tgts_closed P s s' (o_mv o) c E) as [Pc Tc]; auto.
    { intros d Pd. destruct (H d Pd) as (od & ? & _ & _ & ? & ?). eauto. }
    apply IH; auto. exists o; auto. }
  intros b Pb. destruct (H b Pb) as (o & Ho & A & R & HT & HH).
  destruct (ext_obj _ _ E _ _ Ho) as (o' & Ho' & S).
  exists o'. rewrite <- (stable_mv _ _ S), <- (stable_T _ _ S), <- (stable_H _ _ S).
  split; [auto|]. split; [auto|]. split; [|auto]. eapply refsP_weak; eauto.
Qed.
Lemma Acy_mono : forall s s' a, ext s s' -> Acy s a -> Acy s' a.
Proof. intros s s' a E (P & Pa & H). exists P. split; auto. eapply closed_mono; eauto. Qed.
Lemma Acy_closed : forall s, closedset s (Acy s).
Proof.
  intros s b (P & Pb & H). destruct (H b Pb) as (o & Ho & A & R & HT & HH).
  exists o. split; [auto|]. split; [auto|]. split; [|split].
  - eapply refsP_weak; [apply ext_refl| |exact R]. intros c Pc. exists P; auto.
  - intros t Ht. exists P; auto.
  - intros t Ht. exists P; auto.
Qed.
Lemma Acy_w : forall s w a t, Acy s a -> wtgt s w a t -> Acy s t.
Proof.
  intros s w a t A Hw. destruct (Acy_closed s a A) as (o & Ho & _ & _ & HT & HH).
  destruct w; cbn in Hw; subst; auto; destruct Hw as (o' & Ho' & Ht);
    rewrite Ho in Ho'; inversion Ho'; subst; auto.
Qed.
Lemma Acy_acc : forall s a, Acy s a -> Acc (dep s) a.
Proof. intros s a A. destruct (Acy_closed s a A) as (o & _ & A' & _). auto. Qed.

(** ** counting *)
Definition count (s : st) (a : addr) : nat := match objs s a with Some o => o_count o | None => 0 end.

Lemma reach_acc_irrefl : forall s a b, Acc (dep s) a -> dep s b a -> reach s b a -> False.
Proof.
  intros s a b A. revert b. induction A as [a _ IH]. intros b D R.
  inversion R; subst.
  - eapply (IH a D a D). constructor.
  - eapply (IH b D); eauto.
    clear - D H0. revert D. induction H0; intros; [eapply reach_step; eauto; constructor|].
    eapply reach_step; eauto.
Qed.

(** a product adds exactly one to the operator's own counter, whether or not it raises *)
Theorem apply_count : forall d s a o x s' r, Acc (dep s) a -> objs s a = Some o ->
  apply (S d) a x s = (s', r) -> count s' a = S (count s a).
Proof.
  intros d s a o x s' r R Ho E. cbn [apply] in E. unfold mul_vector in E.
  set (o1 := with_count (S (o_count o)) o) in *.
  assert (Ho1 : objs (set_obj a o1 s) a = Some o1) by apply get_set_eq.
  erewrite bind_ok in E by (unfold bump, modobj; rewrite Ho; reflexivity). fold o1 in E.
  assert (C1 : cle s (set_obj a o1 s)).
  { apply (frame_bump a s _ (Ok tt)). unfold bump, modobj. rewrite Ho. reflexivity. }
  assert (U : UM (fun b => exists c, dep s c a /\ reach s c b) (set_obj a o1 s)
     (bind (getattr o_dtype a) (fun dt => bind (getattr o_nargin a) (fun nargin =>
      bind (getattr o_nargout a) (fun nargout =>
      if negb (Nat.eqb (asize x) nargin) then raise ValueError else
      bind (getattr o_mv a) (fun mv => bind (call (apply d) mv x) (fun y =>
       if negb (Nat.eqb (asize y) nargout) then raise ValueError else
       ret (astype (result_type dt (adt x)) y))))))) (fun _ => True)).
  { eapply um_bind; [apply um_getattr, stable_dtype|intros v1 _].
    eapply um_bind; [apply um_getattr, stable_nargin|intros v2 _].
    eapply um_bind; [apply um_getattr, stable_nargout|intros v3 _].
    destruct (negb _); [apply um_raise|].
    eapply um_bind; [apply um_getattr, stable_mv|]. intros c (o' & Ho' & ->).
    eapply um_bind; [|intros v4 _; destruct (negb _); [apply um_raise|apply um_ret; auto]].
    apply um_call. intros b Hb y s1 s2 r1 C Eb. split; [|destruct r1; auto].
    eapply unch_weak; [|eapply apply_unch; exact Eb].
    intros b' Hb'. exists b. split.
    - rewrite Ho1 in Ho'. injection Ho' as <-. exists o. split; auto.
      eapply tgts_mono; [|exact Hb]. now apply cle_ext_r.
    - eapply reach_mono; [|exact Hb']. eapply ext_trans; apply cle_ext_r; eauto. }
  destruct (U _ s' r (cle_refl _) E) as [[_ U2] _].
  unfold count. rewrite U2; [rewrite Ho1, Ho; reflexivity|].
  intros (c & D & Rc). eapply reach_acc_irrefl; eauto.
Qed.
End Dep.
