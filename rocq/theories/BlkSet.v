(** * Assignment to blocks of a non-symmetric block operator (blkop.py:131-144). *)
From Coq Require Import List ZArith Lia Bool.
From Verif Require Import Base Field Vec LinopModel LinopFrame LinopGood LinopInit LinopDep LinopAlg
  LinopOps BlkSpec BlkModel BlkProof.
Import ListNotations.

Definition upd2 {A} (f : nat -> nat -> A) (i j : nat) (v : A) : nat -> nat -> A :=
  fun k l => if Nat.eqb k i && Nat.eqb l j then v else f k l.
Lemma lupd_tab : forall A n (f : nat -> A) i v, i < n ->
  lupd (tab n f) i v = tab n (fun k => if Nat.eqb k i then v else f k).
Proof.
  induction n; intros f i v H; [lia|]. destruct i; cbn [tab lupd].
  - f_equal.
  - f_equal. rewrite IHn by lia. reflexivity.
Qed.
Lemma lupd_cells : forall nr nc A i j b, i < nr -> j < nc ->
  lupd (cells nr nc A) i (lupd (tab nc (fun l => Some (A i l))) j (Some b)) = cells nr nc (upd2 A i j b).
Proof.
  intros nr nc A i j b Hi Hj. unfold cells. rewrite lupd_tab by auto. apply tab_ext. intros k Hk.
  unfold upd2. destruct (Nat.eqb_spec k i); subst; cbn [andb].
  - rewrite lupd_tab by auto. apply tab_ext. intros l Hl. destruct (Nat.eqb l j); auto.
  - reflexivity.
Qed.

Section Set_.
Context {F : Fld} (FOK : FldOK F).
Notation st := (st F). Notation obj := (obj F). Notation M := (M F). Notation arr := (arr F).
Notation map1 := (list F -> list F).

(** the heap without object [K]: what does not depend on [K] *)
Definition drop (K : addr) (s : st) : st :=
  mkst (nxt s) (upd (objs s) K None) (narr s) (arrs s) (nrow s) (rows s).
Lemma objs_drop : forall K (s : st) a o, objs (drop K s) a = Some o -> a <> K /\ objs s a = Some o.
Proof.
  intros K s a o. cbn. unfold upd. destruct (Nat.eqb_spec a K); [discriminate|auto].
Qed.
Lemma drop_objs : forall K (s : st) a, a <> K -> objs (drop K s) a = objs s a.
Proof. intros K s a H. cbn. unfold upd. apply Nat.eqb_neq in H. now rewrite H. Qed.
Lemma ext_drop : forall K (s : st), ext (drop K s) s.
Proof.
  intros K s. constructor; auto. intros a o H. apply objs_drop in H. destruct H. exists o.
  split; auto. apply same_refl.
Qed.
Lemma ext_drops : forall K (s s' : st), ext s s' -> ext (drop K s) (drop K s').
Proof.
  intros K s s' [E1 E2 E3]. constructor; auto. intros a o H. apply objs_drop in H. destruct H as [N H].
  destruct (E1 _ _ H) as (o' & Ho' & S). exists o'. split; auto. now rewrite drop_objs.
Qed.
Lemma ext_drop_set : forall K (s s' : st) o, ext (drop K s) (drop K s') ->
  ext (drop K s) (drop K (set_obj K o s')).
Proof.
  intros K s s' o [E1 E2 E3]. constructor; auto. intros a oa H. destruct (E1 _ _ H) as (o' & Ho' & S).
  exists o'. split; auto. apply objs_drop in Ho'. destruct Ho' as [N Ho']. rewrite drop_objs by auto.
  now apply get_set_ne.
Qed.
Lemma ext_drop_fresh : forall K (s s' : st), ext s s' -> objs s K = None -> ext s (drop K s').
Proof.
  intros K s s' [E1 E2 E3] N. constructor; auto. intros a o H. destruct (E1 _ _ H) as (o' & Ho' & S).
  exists o'. split; auto. rewrite drop_objs; auto. congruence.
Qed.

Lemma wtgt_fun : forall (s : st) w a t t', wtgt s w a t -> wtgt s w a t' -> t = t'.
Proof.
  intros s w a t t'. destruct w; cbn; intros H H'; subst; auto;
    destruct H as (o & Ho & Ht), H' as (o' & Ho' & Ht'); rewrite Ho in Ho'; injection Ho' as <-; congruence.
Qed.
Lemma desc_has : forall (s s' : st) N n m c cT cH sym herm dt,
  (forall a n m sy he dt c T H, has s a n m sy he dt c T H -> has s' a n m sy he dt c T H) ->
  desc s N n m c cT cH sym herm dt -> desc s' N n m c cT cH sym herm dt.
Proof.
  intros s s' N n m c cT cH sym herm dt HH D.
  unfold desc in *. destruct (is_complex dt), sym, herm, cT, cH; cbv beta iota in *;
    repeat match goal with H : exists _, _ |- _ => destruct H end;
    repeat match goal with H : _ /\ _ |- _ => destruct H end;
    repeat match goal with |- exists _, _ => eexists end; repeat split; eauto.
Qed.
Lemma has_mono : forall (s s' : st) a n m sy he dt c T H, ext s s' ->
  has s a n m sy he dt c T H -> has s' a n m sy he dt c T H.
Proof.
  intros s s' a n m sy he dt c T H E (o & Ho & H1 & H2 & H3 & H4 & H5 & H6 & H7 & H8).
  destruct (ext_obj _ _ E _ _ Ho) as (o' & Ho' & S). exists o'.
  rewrite <- (stable_nargin _ _ S), <- (stable_nargout _ _ S), <- (stable_sym _ _ S), <- (stable_herm _ _ S),
    <- (stable_dtype _ _ S), <- (stable_mv _ _ S), <- (stable_T _ _ S), <- (stable_H _ _ S).
  split; [exact Ho'|]. repeat (split; [assumption|]). assumption.
Qed.
Lemma desc_mono : forall (s s' : st) N n m c cT cH sym herm dt, ext s s' ->
  desc s N n m c cT cH sym herm dt -> desc s' N n m c cT cH sym herm dt.
Proof. intros. eapply desc_has; [|eauto]. intros. eapply has_mono; eauto. Qed.
Lemma desc_obj : forall (s : st) N n m c ct ch sym herm dt o o',
  objs s N = Some o -> (exists p k, o' = with_pay p (with_count k o)) ->
  desc s N n m c (Some ct) (Some ch) sym herm dt ->
  desc (set_obj N o' s) N n m c (Some ct) (Some ch) sym herm dt.
Proof.
  intros s N n m c ct ch sym herm dt o o' Ho (p & k & ->) D. eapply desc_has; [|exact D].
  intros a n' m' sy he dt' c' T H (oa & Ha & R).
  destruct (Nat.eq_dec a N) as [->|Ne].
  - rewrite Ho in Ha; inversion Ha; subst oa.
    eexists. split; [apply get_set_eq|]. exact R.
  - exists oa. split; auto. now apply get_set_ne.
Qed.

(** state of a non-symmetric block operator [K] *)
Record blkinv (s : st) (K : addr) (hs ws : list nat) (dt : dtype) (A : nat -> nat -> addr)
  (dts : nat -> nat -> dtype) (G : nat -> nat -> map1) : Prop := mkblkinv {
  bi_nh : hs <> []; bi_nw : ws <> [];
  bi_desc : desc s K (sum_nat ws) (sum_nat hs) (CBlk WN K) (Some (CBlk WT K)) (Some (CBlk WH K))
              false false dt;
  bi_obj : exists o b bT bH AT AH, objs s K = Some o /\ o_pay o = PBlk b bT bH /\
     grid s b (length hs) (length ws) A /\ grid s bT (length ws) (length hs) AT /\
     grid s bH (length ws) (length hs) AH /\
     (forall i j, i < length hs -> j < length ws -> wtgt (drop K s) WT (A i j) (AT j i)) /\
     (forall i j, i < length hs -> j < length ws -> wtgt (drop K s) WH (A i j) (AH j i));
  bi_good : forall i j, i < length hs -> j < length ws ->
     GoodD (drop K s) (A i j) (nth j ws 0) (nth i hs 0) (dts i j) (G i j);
  bi_dt : forall i j, i < length hs -> j < length ws -> is_complex (dts i j) = true -> is_complex dt = true
}.

Theorem blkinv_good : forall (s : st) K hs ws dt A dts G, blkinv s K hs ws dt A dts G ->
  GoodD s K (sum_nat ws) (sum_nat hs) dt (bmap hs ws G).
Proof.
  intros s K hs ws dt A dts G [Nh Nw D (o & b & bT & bH & AT & AH & Ho & Hp & GN & GrT & GrH & TT & TH) HG HC].
  destruct (fam_T _ _ _ _ _ _ HG) as (AT' & GT & TT' & HGT & Tr).
  destruct (fam_H _ _ _ _ _ _ HG) as (AH' & GH & TH' & HGH & Ad).
  assert (ET : forall j i, j < length ws -> i < length hs -> AT j i = AT' j i).
  { intros j i Hj Hi. eapply wtgt_fun; eauto. }
  assert (EH : forall j i, j < length ws -> i < length hs -> AH j i = AH' j i).
  { intros j i Hj Hi. eapply wtgt_fun; eauto. }
  destruct (desc_self _ _ _ _ _ _ _ _ _ _ _ D Ho) as (_ & _ & _ & _ & Hd & _).
  eapply (blk_good FOK s K o b bT bH hs ws false false dt A dts G AT (fun j i => dts i j) GT
            AH (fun j i => dts i j) GH); auto; try discriminate.
  - constructor; auto. intros. eapply GoodD_mono; [apply ext_drop|auto].
  - constructor; auto; intros; [|eapply HC; [| |eassumption]; auto].
    rewrite ET by auto. eapply GoodD_mono; [apply ext_drop|auto].
  - constructor; auto; intros; [|eapply HC; [| |eassumption]; auto].
    rewrite EH by auto. eapply GoodD_mono; [apply ext_drop|auto].
Qed.

Theorem blkinv_ext : forall (s s' : st) K hs ws dt A dts G, ext s s' ->
  blkinv s K hs ws dt A dts G -> blkinv s' K hs ws dt A dts G.
Proof.
  intros s s' K hs ws dt A dts G E [Nh Nw D (o & b & bT & bH & AT & AH & Ho & Hp & GN & GrT & GrH & TT & TH) HG HC].
  pose proof (ext_drops K _ _ E) as ED.
  constructor; auto.
  - eapply desc_mono; eauto.
  - destruct (ext_obj _ _ E _ _ Ho) as (o' & Ho' & S).
    exists o', b, bT, bH, AT, AH. rewrite <- (stable_pay _ _ S).
    split; [exact Ho'|]. split; [exact Hp|].
    split; [eapply grid_mono; eauto|]. split; [eapply grid_mono; eauto|]. split; [eapply grid_mono; eauto|].
    split; intros; (eapply wtgt_mono; [exact ED|auto]).
  - intros. eapply GoodD_mono; [exact ED|auto].
Qed.

Theorem block_op_inv : forall (s : st) rs hs ws A dts G dt, wfst s -> hs <> [] -> ws <> [] ->
  grid s rs (length hs) (length ws) A ->
  (forall i j, i < length hs -> j < length ws ->
     GoodD s (A i j) (nth j ws 0) (nth i hs 0) (dts i j) (G i j)) ->
  result_types (concat (tab (length hs) (fun i => tab (length ws) (dts i)))) = Ok dt ->
  exists s', block_op false false rs s = (s', Ok (nxt s)) /\ ext s s' /\ wfst s' /\ nxt s < nxt s' /\
    blkinv s' (nxt s) hs ws dt A dts G.
Proof.
  intros s rs hs ws A dts G dt W Nh Nw Gr HG Hdt.
  destruct (fam_T _ _ _ _ _ _ HG) as (AT & GT & TT & _).
  destruct (fam_H _ _ _ _ _ _ HG) as (AH & GH & TH & _).
  destruct (block_build_spec s rs hs ws A AT AH dts dt false false) as
    (s' & o & bT & bH & E & X & W' & L & Ho & Hp & Hd & D & GrT & GrH); auto.
  { eapply good_sized; eauto. }
  { intros. apply Dts_dt. now apply HG. }
  exists s'. split; [exact E|]. split; auto. split; auto. split; auto.
  assert (XD : ext s (drop (nxt s) s')).
  { apply ext_drop_fresh; auto. apply (proj1 W). lia. }
  constructor; auto.
  - exists o, rs, bT, bH, AT, AH. split; [exact Ho|]. split; [exact Hp|].
    split; [eapply grid_mono; eauto|]. split; [auto|]. split; [auto|].
    split; intros; (eapply wtgt_mono; [exact XD|auto]).
  - intros. eapply GoodD_mono; [exact XD|auto].
  - intros i j Hi Hj C. eapply result_types_in; [exact Hdt| |exact C]. now apply dtypes_in.
Qed.

Lemma nth_r_ok : forall A (l : list A) i d, i < length l -> nth_r l i = Ok (nth i l d).
Proof. intros A l i d H. unfold nth_r. now rewrite (nth_error_nth' l d H). Qed.
Lemma pyindex_lt : forall n z i, pyindex n z = Ok i -> i < n.
Proof.
  intros n z i H. unfold pyindex in H.
  destruct (Z.leb_spec (- Z.of_nat n) z); [|discriminate].
  destruct (Z.ltb_spec z (Z.of_nat n)); [|discriminate]. cbn in H. injection H as <-.
  destruct (Z.ltb_spec z 0); lia.
Qed.
Lemma pyindex_nat : forall n i, i < n -> pyindex n (Z.of_nat i) = Ok i.
Proof.
  intros n i H. unfold pyindex.
  destruct (Z.leb_spec (- Z.of_nat n) (Z.of_nat i)); [|lia].
  destruct (Z.ltb_spec (Z.of_nat i) (Z.of_nat n)); [|lia]. cbn.
  destruct (Z.ltb_spec (Z.of_nat i) 0); [lia|]. now rewrite Nat2Z.id.
Qed.

Lemma grid_rext : forall (s s' : st) rs nr nc A, (forall l r, rows s l = Some r -> rows s' l = Some r) ->
  grid s rs nr nc A -> grid s' rs nr nc A.
Proof. intros s s' rs nr nc A E [H1 H2]. split; auto. Qed.
(** the assignment proper: fresh rows, payload updated *)
Lemma blk_store_prefix : forall (s : st) K o b bT bH nr nc A',
  wfst s -> K < nxt s -> objs s K = Some o -> o_pay o = PBlk b bT bH ->
  exists s1 b',
    blk_store K (cells nr nc A') s = (if o_sym o || o_herm o then resym (o_sym o) b'
       else bind (mmap get_row b') (fun rows' => bind (attr_cols o_T rows') (fun bT' =>
            bind (set_blocks K b' bT' bH) (fun _ => bind (attr_cols o_H rows') (fun bH' =>
            set_blocks K b' bT' bH'))))) (set_obj K (with_pay (PBlk b' bT bH) o) s1) /\
    ext s s1 /\ wfst s1 /\ objs s1 = objs s /\ nxt s1 = nxt s /\ grid s1 b' nr nc A' /\
    (forall r, In r b' -> rows s r = None) /\ b' = seq (nrow s) nr /\ nrow s1 = nrow s + nr.
Proof.
  intros s K o b bT bH nr nc A' W LK Ho Hp.
  destruct (mmap_new (list (option addr)) nr (fun k => tab nc (fun l => Some (A' k l)))
    (fun k => tab nc (fun l => Some (A' k l))) new_row s W) as (s1 & E1 & X1 & W1 & O1 & N1 & R1).
  { reflexivity. }
  exists s1, (seq (nrow s) nr). split.
  { unfold blk_store, get_blocks.
    erewrite bind_ok.
    2: { erewrite bind_ok by (apply getattr_ok; exact Ho). rewrite Hp. reflexivity. }
    cbv beta iota. unfold cells.
    erewrite bind_ok by exact E1.
    unfold set_blocks at 1. erewrite bind_ok by (unfold modobj; rewrite O1, Ho; reflexivity).
    erewrite bind_ok by (apply getattr_ok; apply get_set_eq).
    erewrite bind_ok by (apply getattr_ok; apply get_set_eq). reflexivity. }
  split; auto. split; auto. split; auto. split; auto.
  split; [now apply seq_grid|]. split.
  { intros r Hr. apply in_seq in Hr. apply (proj2 (proj2 W)). lia. }
  split; auto.
  clear - E1. revert s s1 E1. generalize (fun k => tab nc (fun l => Some (A' k l))).
  induction nr; intros f s s1 E1; cbn in E1; [injection E1 as <-; lia|].
  unfold bind at 1 in E1. cbn in E1. unfold bind in E1.
  destruct (mmap new_row (tab nr (fun i => f (S i))) _) as [s2 [v|e]] eqn:E2; [|discriminate].
  injection E1 as <- E. subst v. cbn [nrow] in *.
  specialize (IHnr (fun i => f (S i)) _ s2 E2). cbn in IHnr. lia.
Qed.
Lemma blk_set_store : forall (s : st) K o b bT bH nr nc A i j iz jz B,
  objs s K = Some o -> o_pay o = PBlk b bT bH -> grid s b nr nc A ->
  pyindex nr iz = Ok i -> pyindex nc jz = Ok j ->
  blk_set K iz jz B s = blk_store K (cells nr nc (upd2 A i j B)) s.
Proof.
  intros s K o b bT bH nr nc A i j iz jz B Ho Hp Gr Pi Pj.
  pose proof (pyindex_lt _ _ _ Pi) as Li. pose proof (pyindex_lt _ _ _ Pj) as Lj.
  unfold blk_set, get_blocks.
  erewrite bind_ok.
  2: { erewrite bind_ok by (apply getattr_ok; exact Ho). rewrite Hp. reflexivity. }
  cbn [fst].
  erewrite bind_ok by (apply grid_rows; exact Gr).
  assert (LC : length (cells nr nc A) = nr) by apply tab_length. rewrite LC.
  rewrite Pi. erewrite bind_ok by reflexivity.
  rewrite (nth_r_ok _ _ i []) by (rewrite LC; auto). unfold cells at 1. rewrite nth_tab by auto.
  erewrite bind_ok by reflexivity. rewrite tab_length, Pj. erewrite bind_ok by reflexivity.
  rewrite lupd_cells by auto. reflexivity.
Qed.

(** any blocks of the right shapes may be stored *)
Theorem blk_store_inv : forall (s : st) K hs ws dt A dts G A' dts' G',
  blkinv s K hs ws dt A dts G -> wfst s -> K < nxt s ->
  (forall k l, k < length hs -> l < length ws ->
     GoodD (drop K s) (A' k l) (nth l ws 0) (nth k hs 0) (dts' k l) (G' k l)) ->
  (forall k l, k < length hs -> l < length ws -> is_complex (dts' k l) = true -> is_complex dt = true) ->
  exists s', blk_store K (cells (length hs) (length ws) A') s = (s', Ok tt) /\ wfst s' /\ nxt s' = nxt s /\
    ext (drop K s) (drop K s') /\ blkinv s' K hs ws dt A' dts' G'.
Proof.
  intros s K hs ws dt A dts G A' dts' G'
    [Nh Nw D (o & b & bT & bH & AT & AH & Ho & Hp & GN & GrT & GrH & TT & TH) HG HC] W LK HG' HC'.
  destruct (desc_self _ _ _ _ _ _ _ _ _ _ _ D Ho) as (_ & _ & Hsy & Hhe & Hd & _).
  destruct (blk_store_prefix s K o b bT bH (length hs) (length ws) A' W LK Ho Hp) as
    (s1 & b' & E & X1 & W1 & O1 & N1 & G1 & Fr & _ & _).
  rewrite E, Hsy, Hhe. cbn [orb].
  set (s2 := set_obj K (with_pay (PBlk b' bT bH) o) s1).
  assert (W2 : wfst s2) by (apply wf_set; auto; lia).
  assert (XD1 : ext (drop K s) (drop K s1)) by now apply ext_drops.
  assert (XD2 : ext (drop K s) (drop K s2)) by now apply ext_drop_set.
  destruct (fam_T _ _ _ _ _ _ HG') as (AT' & GT & TT' & HGT & Tr).
  destruct (fam_H _ _ _ _ _ _ HG') as (AH' & GH & TH' & HGH & Ad).
  assert (Lh : 0 < length hs) by (destruct hs; [congruence|cbn; lia]).
  assert (X02 : ext (drop K s) s2) by (eapply ext_trans; [exact XD2|apply ext_drop]).
  destruct (attr_cols_ok WT s2 (length hs) (length ws) A' AT') as (s3 & bT' & E3 & X3 & W3 & O3 & N3 & G3);
    auto; try discriminate.
  { intros. eapply wtgt_mono; [exact X02|auto]. }
  cbn [attr_of] in E3.
  assert (G2 : grid s2 b' (length hs) (length ws) A') by exact G1.
  erewrite bind_ok by (apply grid_rows; exact G2).
  erewrite bind_ok by exact E3.
  assert (Ho3 : objs s3 K = Some (with_pay (PBlk b' bT bH) o)) by (rewrite O3; apply get_set_eq).
  unfold set_blocks at 1. erewrite bind_ok by (unfold modobj; rewrite Ho3; reflexivity).
  match goal with |- context [set_obj K ?o s3] => set (o4 := o); set (s4 := set_obj K o4 s3) end.
  assert (W4 : wfst s4) by (apply wf_set; auto; cbn in N3; lia).
  assert (XD3 : ext (drop K s) (drop K s3)) by (eapply ext_trans; [exact XD2|now apply ext_drops]).
  assert (XD4 : ext (drop K s) (drop K s4)) by now apply ext_drop_set.
  destruct (attr_cols_ok WH s4 (length hs) (length ws) A' AH') as (s5 & bH' & E5 & X5 & W5 & O5 & N5 & G5);
    auto; try discriminate.
  { intros. eapply wtgt_mono; [eapply ext_trans; [exact XD4|apply ext_drop]|auto]. }
  cbn [attr_of] in E5. erewrite bind_ok by exact E5.
  assert (Ho5 : objs s5 K = Some o4) by (rewrite O5; apply get_set_eq).
  unfold set_blocks, modobj. rewrite Ho5.
  match goal with |- context [set_obj K ?o s5] => set (o6 := o); set (s6 := set_obj K o6 s5) end.
  assert (XD5 : ext (drop K s) (drop K s5)) by (eapply ext_trans; [exact XD4|now apply ext_drops]).
  assert (XD6 : ext (drop K s) (drop K s6)) by now apply ext_drop_set.
  assert (N6 : nxt s6 = nxt s) by (cbn in *; congruence).
  exists s6. split; [reflexivity|]. split; [apply wf_set; auto; cbn in *; lia|]. split; [exact N6|].
  split; [exact XD6|].
  constructor; auto.
  - apply (desc_obj s5 K _ _ _ _ _ _ _ _ o4); [exact Ho5|exists (PBlk b' bT' bH'), (o_count o4); destruct o4; reflexivity|].
    apply (desc_mono s4); auto.
    apply (desc_obj s3 K _ _ _ _ _ _ _ _ (with_pay (PBlk b' bT bH) o));
      [exact Ho3|exists (PBlk b' bT' bH), (o_count o); destruct o; reflexivity|].
    apply (desc_mono s2); auto.
    assert (Ho1 : objs s1 K = Some o) by now rewrite O1.
    apply (desc_obj s1 K _ _ _ _ _ _ _ _ o); [exact Ho1|exists (PBlk b' bT bH), (o_count o); destruct o; reflexivity|].
    apply (desc_mono s); auto.
  - exists o6, b', bT', bH', AT', AH'. split; [apply get_set_eq|]. split; [reflexivity|].
    split.
    { apply (grid_rext s2); [|exact G2]. intros l r Hr. apply (ext_row _ _ X5). apply (ext_row _ _ X3). exact Hr. }
    split; [apply (grid_rext s3); [|exact G3]; intros l r Hr; apply (ext_row _ _ X5); exact Hr|].
    split; [exact G5|].
    split; intros; (eapply wtgt_mono; [exact XD6|auto]).
  - intros. eapply GoodD_mono; [exact XD6|auto].
Qed.
Theorem blk_set_inv : forall (s : st) K hs ws dt A dts G i j iz jz B dB g,
  blkinv s K hs ws dt A dts G -> wfst s -> K < nxt s ->
  pyindex (length hs) iz = Ok i -> pyindex (length ws) jz = Ok j ->
  GoodD (drop K s) B (nth j ws 0) (nth i hs 0) dB g -> (is_complex dB = true -> is_complex dt = true) ->
  exists s', blk_set K iz jz B s = (s', Ok tt) /\ wfst s' /\ nxt s' = nxt s /\ ext (drop K s) (drop K s') /\
    blkinv s' K hs ws dt (upd2 A i j B) (upd2 dts i j dB) (upd2 G i j g).
Proof.
  intros s K hs ws dt A dts G i j iz jz B dB g BI W LK Pi Pj GB CB.
  destruct (bi_obj _ _ _ _ _ _ _ _ BI) as (o & b & bT & bH & AT & AH & Ho & Hp & GN & _).
  rewrite (blk_set_store s K o b bT bH _ _ A i j iz jz B Ho Hp GN Pi Pj).
  apply (blk_store_inv s K hs ws dt A dts G); auto.
  - intros k l Hk Hl. unfold upd2.
    destruct (Nat.eqb_spec k i); subst; cbn [andb]; [|now apply (bi_good _ _ _ _ _ _ _ _ BI)].
    destruct (Nat.eqb_spec l j); subst; auto. now apply (bi_good _ _ _ _ _ _ _ _ BI).
  - intros k l Hk Hl. unfold upd2.
    destruct (Nat.eqb k i && Nat.eqb l j); [exact CB|now apply (bi_dt _ _ _ _ _ _ _ _ BI)].
Qed.
End Set_.
