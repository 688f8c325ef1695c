(** * Symmetric and hermitian block operators (blkop.py:24-42, 135-141). *)
From Coq Require Import List ZArith Lia Bool.
From Verif Require Import Base Field Vec LinopModel LinopFrame LinopGood LinopInit LinopDep LinopAlg
  LinopOps LinopUser BlkSpec BlkModel BlkProof BlkSet.
Import ListNotations.

Section Sym.
Context {F : Fld} (FOK : FldOK F).
Notation st := (st F). Notation obj := (obj F). Notation M := (M F). Notation arr := (arr F).
Notation map1 := (list F -> list F).

(** [s'] differs from [s] only in the contents of the row lists [rs], given by [c] *)
Record rowed (rs : list nat) (s s' : st) (c : nat -> list (option addr)) : Prop := mkrowed {
  rw_nxt : nxt s' = nxt s; rw_objs : objs s' = objs s;
  rw_narr : narr s' = narr s; rw_arrs : arrs s' = arrs s; rw_nrow : nrow s' = nrow s;
  rw_out : forall l, ~ In l rs -> rows s' l = rows s l;
  rw_in : forall k, k < length rs -> rows s' (nth k rs 0) = Some (c k)
}.
Lemma rowed_refl : forall rs (s : st) c, (forall k, k < length rs -> rows s (nth k rs 0) = Some (c k)) ->
  rowed rs s s c.
Proof. constructor; auto. Qed.
Lemma rowed_ext : forall rs (s s' : st) c c', (forall k, k < length rs -> c k = c' k) ->
  rowed rs s s' c -> rowed rs s s' c'.
Proof. intros rs s s' c c' E [H1 H2 H3 H4 H5 H6 H7]. constructor; auto. intros. rewrite H7, E; auto. Qed.
Lemma rowed_set : forall rs (s s' : st) c i r, NoDup rs -> i < length rs -> rowed rs s s' c ->
  exists s2, set_row (nth i rs 0) r s' = (s2, Ok tt) /\
    rowed rs s s2 (fun k => if Nat.eqb k i then r else c k).
Proof.
  intros rs s s' c i r ND Hi [H1 H2 H3 H4 H5 H6 H7]. eexists. split; [reflexivity|].
  constructor; cbn; auto.
  - intros l Hl. unfold upd. destruct (Nat.eqb_spec l (nth i rs 0)) as [->|]; auto.
    exfalso. apply Hl. now apply nth_In.
  - intros k Hk. unfold upd. destruct (Nat.eqb_spec k i) as [->|Ne].
    + now rewrite Nat.eqb_refl.
    + destruct (Nat.eqb_spec (nth k rs 0) (nth i rs 0)) as [E|]; auto.
      exfalso. apply Ne. apply (proj1 (NoDup_nth rs 0) ND); auto.
Qed.
Lemma rowed_wf : forall rs (s s' : st) c, wfst s -> (forall l, In l rs -> l < nrow s) ->
  rowed rs s s' c -> wfst s'.
Proof.
  intros rs s s' c (W1 & W2 & W3) L [H1 H2 H3 H4 H5 H6 H7]. split; [|split].
  - rewrite H1, H2. auto.
  - rewrite H3, H4. auto.
  - intros l Hl. rewrite H5 in Hl. rewrite H6; auto. intros Hi. apply L in Hi. lia.
Qed.
(** heap without the row lists [rs] *)
Definition norows (rs : list nat) (s : st) : st :=
  mkst (nxt s) (objs s) (narr s) (arrs s) (nrow s)
       (fun l => if existsb (Nat.eqb l) rs then None else rows s l).
Lemma norows_in : forall rs (s : st) l r, rows (norows rs s) l = Some r -> ~ In l rs /\ rows s l = Some r.
Proof.
  intros rs s l r. cbn. destruct (existsb (Nat.eqb l) rs) eqn:E; [discriminate|]. intros H. split; auto.
  intros Hi. assert (existsb (Nat.eqb l) rs = true); [|congruence].
  apply existsb_exists. exists l. split; auto. apply Nat.eqb_refl.
Qed.
Lemma norows_ext : forall rs (s : st), ext (norows rs s) s.
Proof.
  intros rs s. constructor.
  - intros a o H. exists o. split; auto. apply same_refl.
  - auto.
  - intros l r H. eapply norows_in; eauto.
Qed.
Lemma rowed_norows : forall rs (s s' : st) c, rowed rs s s' c -> ext (norows rs s) s'.
Proof.
  intros rs s s' c [H1 H2 H3 H4 H5 H6 H7]. constructor.
  - intros a o H. exists o. rewrite H2. split; auto. apply same_refl.
  - rewrite H4. auto.
  - intros l r H. destruct (norows_in rs s l r H). rewrite H6; auto.
Qed.

(** ** Filling in the lower triangle *)
Section Fill.
Variables (sym : bool) (rs : list nat) (s : st).
Let w : which := if sym then WT else WH.
Let n := length rs.
Hypothesis ND : NoDup rs.
Variables (U UT : nat -> nat -> addr).
Hypothesis HUT : forall j i, j < i -> i < n -> wtgt s w (U j i) (UT j i).

Definition full (i : nat) : list (option addr) :=
  tab n (fun c => Some (if i <=? c then U i c else UT c i)).
Definition upper (i : nat) : list (option addr) := tab (n - i) (fun k => Some (U i (i + k))).

Lemma full_0 : full 0 = upper 0.
Proof. unfold full, upper. rewrite Nat.sub_0_r. reflexivity. Qed.
Lemma full_split : forall i, i <= n -> full i = tab i (fun c => Some (UT c i)) ++ upper i.
Proof.
  intros i Hi. unfold full, upper.
  apply nth_ext with (d := None) (d' := None).
  - rewrite app_length, !tab_length. lia.
  - intros c Hc. rewrite tab_length in Hc. rewrite nth_tab by auto.
    destruct (Nat.leb_spec i c).
    + rewrite app_nth2; rewrite tab_length; [|lia]. rewrite nth_tab by lia. do 2 f_equal. lia.
    + rewrite app_nth1; [|rewrite tab_length; lia]. now rewrite nth_tab by lia.
Qed.

Lemma attr_w : forall (s' : st) a t, objs s' = objs s -> wtgt s w a t ->
  blk_attr (if sym then o_T else o_H) (Some a) s' = (s', Ok (Some t)).
Proof.
  intros s' a t E H. unfold w in H. destruct sym; destruct H as (o & Ho & Ht); cbn [blk_attr];
    rewrite <- Ht; apply getattr_ok; now rewrite E.
Qed.
Lemma get_row_in : forall (s' : st) c k, rowed rs s s' c -> k < n ->
  get_row (nth k rs 0) s' = (s', Ok (c k)).
Proof. intros s' c k R H. unfold get_row. now rewrite (rw_in _ _ _ _ R). Qed.
Lemma nth_rs : forall k, k < n -> nth_r rs k = Ok (nth k rs 0).
Proof. intros. now apply nth_r_ok. Qed.

Lemma fill1_ok : forall s1 c i j, rowed rs s s1 c -> j < i -> i < n -> c j = full j ->
  exists s2, fill1 sym rs i j s1 = (s2, Ok tt) /\
    rowed rs s s2 (fun k => if Nat.eqb k i then Some (UT j i) :: c i else c k).
Proof.
  intros s1 c i j R Hj Hi Hc.
  destruct (rowed_set rs s s1 c i (Some (UT j i) :: c i) ND Hi R) as (s2 & E2 & R2).
  exists s2. split; auto. unfold fill1.
  rewrite (nth_rs j) by lia. erewrite bind_ok by reflexivity.
  erewrite bind_ok by (apply get_row_in; [exact R|lia]).
  rewrite Hc. rewrite (nth_r_ok _ (full j) i None) by (unfold full; rewrite tab_length; auto).
  unfold full at 1. rewrite nth_tab by auto. erewrite bind_ok by reflexivity.
  destruct (Nat.leb_spec j i); [|lia].
  erewrite bind_ok by (apply attr_w; [apply (rw_objs _ _ _ _ R)|apply HUT; auto]).
  rewrite (nth_rs i) by auto. erewrite bind_ok by reflexivity.
  erewrite bind_ok by (apply get_row_in; [exact R|auto]). exact E2.
Qed.
Lemma fill_row_ok : forall m s1 c i, m <= i -> i < n -> rowed rs s s1 c -> (forall j, j < i -> c j = full j) ->
  exists s2, mfor (rev (seq 0 m)) (fill1 sym rs i) s1 = (s2, Ok tt) /\
    rowed rs s s2 (fun k => if Nat.eqb k i then tab m (fun j => Some (UT j i)) ++ c i else c k).
Proof.
  induction m; intros s1 c i Hm Hi R Hc.
  - exists s1. split; auto. eapply rowed_ext; [|exact R]. intros k Hk. cbn.
    destruct (Nat.eqb_spec k i); subst; auto.
  - rewrite seq_S, rev_app_distr. cbn [rev app Nat.add mfor].
    destruct (fill1_ok s1 c i m R) as (s2 & E2 & R2); auto.
    erewrite bind_ok by exact E2.
    destruct (IHm s2 _ i ltac:(lia) Hi R2) as (s3 & E3 & R3).
    { intros j Hj. cbn. destruct (Nat.eqb_spec j i); [lia|]. now apply Hc. }
    exists s3. split; auto. eapply rowed_ext; [|exact R3]. intros k Hk. cbn beta.
    rewrite Nat.eqb_refl. destruct (Nat.eqb_spec k i); auto.
    rewrite tab_app1, <- app_assoc. reflexivity.
Qed.
Lemma fill_ok_gen : forall m k s1, k + m = n -> 0 < k ->
  rowed rs s s1 (fun c => if c <? k then full c else upper c) ->
  exists s2, mfor (seq k m) (fill_row sym rs) s1 = (s2, Ok tt) /\ rowed rs s s2 full.
Proof.
  induction m; intros k s1 Hk K0 R.
  - exists s1. split; auto. eapply rowed_ext; [|exact R]. intros c Hc. fold n in Hc. cbn beta.
    destruct (Nat.ltb_spec c k); auto; lia.
  - cbn [seq mfor]. unfold fill_row at 1.
    destruct (fill_row_ok k s1 _ k (le_n _) ltac:(lia) R) as (s2 & E2 & R2).
    { intros j Hj. cbn beta. destruct (Nat.ltb_spec j k); auto; lia. }
    erewrite bind_ok by exact E2. apply (IHm (S k)); [lia|lia|].
    eapply rowed_ext; [|exact R2]. intros c Hc. fold n in Hc. cbn beta.
    destruct (Nat.eqb_spec c k) as [->|Ne].
    + destruct (Nat.ltb_spec k k); [lia|]. destruct (Nat.ltb_spec k (S k)); [|lia].
      symmetry. apply full_split. lia.
    + destruct (Nat.ltb_spec c k), (Nat.ltb_spec c (S k)); auto; lia.
Qed.
Theorem fill_ok : 0 < n -> (forall i, i < n -> rows s (nth i rs 0) = Some (upper i)) ->
  exists s2, fill sym rs s = (s2, Ok tt) /\ rowed rs s s2 full.
Proof.
  intros Hn H. unfold fill. fold n. apply (fill_ok_gen (n - 1) 1); [lia|lia|].
  apply rowed_refl. intros k Hk. fold n in Hk. rewrite H by auto.
  destruct (Nat.ltb_spec k 1); auto. replace k with 0 by lia. now rewrite full_0.
Qed.

(** ** blkop.py:136-141: the same for an existing grid *)
Definition mirror (A : nat -> nat -> addr) (T : nat -> nat -> addr) : nat -> nat -> addr :=
  fun i j => if i <=? j then A i j else T j i.
Definition gridrow (A : nat -> nat -> addr) (i : nat) : list (option addr) := tab n (fun c => Some (A i c)).
Lemma resym1_ok : forall A s1 i j, rowed rs s s1 (gridrow A) -> j < i -> i < n -> A j i = U j i ->
  exists s2, resym1 sym rs i j s1 = (s2, Ok tt) /\ rowed rs s s2 (gridrow (upd2 A i j (UT j i))).
Proof.
  intros A s1 i j R Hj Hi HA.
  destruct (rowed_set rs s s1 (gridrow A) i (lupd (gridrow A i) j (Some (UT j i))) ND Hi R) as (s2 & E2 & R2).
  exists s2. split.
  - unfold resym1.
    rewrite (nth_rs j) by lia. erewrite bind_ok by reflexivity.
    erewrite bind_ok by (apply get_row_in; [exact R|lia]).
    rewrite (nth_r_ok _ (gridrow A j) i None) by (unfold gridrow; rewrite tab_length; auto).
    unfold gridrow at 1. rewrite nth_tab by auto. erewrite bind_ok by reflexivity.
    erewrite bind_ok by (apply attr_w; [apply (rw_objs _ _ _ _ R)|rewrite HA; apply HUT; auto]).
    rewrite (nth_rs i) by auto. erewrite bind_ok by reflexivity.
    erewrite bind_ok by (apply get_row_in; [exact R|auto]).
    rewrite (nth_r_ok _ (gridrow A i) j None) by (unfold gridrow; rewrite tab_length; lia).
    erewrite bind_ok by reflexivity. exact E2.
  - eapply rowed_ext; [|exact R2]. intros k Hk. cbn beta. unfold gridrow, upd2.
    destruct (Nat.eqb_spec k i); subst; cbn [andb]; auto.
    rewrite lupd_tab by lia. apply tab_ext. intros l Hl. destruct (Nat.eqb l j); auto.
Qed.
Lemma resym_row_ok : forall m A s1 i k, k + m = i -> i < n -> rowed rs s s1 (gridrow A) ->
  (forall j, j < i -> A j i = U j i) ->
  exists s2, mfor (seq k m) (resym1 sym rs i) s1 = (s2, Ok tt) /\
    rowed rs s s2 (gridrow (fun a b => if Nat.eqb a i && (k <=? b) && (b <? i) then UT b i else A a b)).
Proof.
  induction m; intros A s1 i k Hk Hi R HA.
  - exists s1. split; auto. eapply rowed_ext; [|exact R]. intros a Ha. unfold gridrow. apply tab_ext.
    intros b Hb. destruct (Nat.eqb_spec a i), (Nat.leb_spec k b), (Nat.ltb_spec b i); cbn; auto; lia.
  - cbn [seq mfor].
    destruct (resym1_ok A s1 i k R) as (s2 & E2 & R2); auto; try lia. { apply HA; lia. }
    erewrite bind_ok by exact E2.
    destruct (IHm _ s2 i (S k) ltac:(lia) Hi R2) as (s3 & E3 & R3).
    { intros j Hj. unfold upd2. destruct (Nat.eqb_spec j i); [lia|]. cbn. now apply HA. }
    exists s3. split; auto. eapply rowed_ext; [|exact R3]. intros a Ha. unfold gridrow. apply tab_ext.
    intros b Hb. unfold upd2.
    destruct (Nat.eqb_spec a i), (Nat.leb_spec (S k) b), (Nat.leb_spec k b), (Nat.ltb_spec b i),
      (Nat.eqb_spec b k); subst; cbn; auto; lia.
Qed.
Lemma resym_ok_gen : forall m k A s1, k + m = n -> rowed rs s s1 (gridrow A) ->
  (forall i j, j < i -> i < n -> A j i = U j i) ->
  exists s2, mfor (seq k m) (fun i => mfor (seq 0 i) (resym1 sym rs i)) s1 = (s2, Ok tt) /\
    rowed rs s s2 (gridrow (fun a b => if (k <=? a) && (b <? a) then UT b a else A a b)).
Proof.
  induction m; intros k A s1 Hk R HA.
  - exists s1. split; auto. eapply rowed_ext; [|exact R]. intros a Ha. fold n in Ha. unfold gridrow.
    apply tab_ext. intros b Hb. destruct (Nat.leb_spec k a); auto; lia.
  - cbn [seq mfor].
    destruct (resym_row_ok k A s1 k 0 eq_refl ltac:(lia) R) as (s2 & E2 & R2). { intros; apply HA; lia. }
    erewrite bind_ok by exact E2.
    destruct (IHm (S k) _ s2 ltac:(lia) R2) as (s3 & E3 & R3).
    { intros i j Hj Hi. cbn beta. destruct (Nat.eqb_spec j k), (Nat.ltb_spec i k); cbn; auto; lia. }
    exists s3. split; auto. eapply rowed_ext; [|exact R3]. intros a Ha. unfold gridrow. apply tab_ext.
    intros b Hb. cbn beta.
    destruct (Nat.eqb_spec a k), (Nat.leb_spec (S k) a), (Nat.leb_spec k a), (Nat.ltb_spec b a),
      (Nat.ltb_spec b k), (Nat.leb_spec 0 b); subst; cbn; auto; lia.
Qed.
Theorem resym_ok : forall A, rowed rs s s (gridrow A) -> (forall i j, j < i -> i < n -> A j i = U j i) ->
  exists s2, resym sym rs s = (s2, Ok tt) /\ rowed rs s s2 (gridrow (mirror A UT)).
Proof.
  intros A R HA. unfold resym. fold n. destruct (Nat.eq_dec n 0) as [En|En].
  - exists s. rewrite En. split; auto. eapply rowed_ext; [|exact R]. intros k Hk. fold n in Hk. lia.
  - destruct (resym_ok_gen (n - 1) 1 A s) as (s2 & E2 & R2); auto; try lia.
    exists s2. split; auto.
    eapply rowed_ext; [|exact R2]. intros a Ha. unfold gridrow. apply tab_ext. intros b Hb. unfold mirror.
    destruct (Nat.leb_spec 1 a), (Nat.ltb_spec b a), (Nat.leb_spec a b); cbn; auto; lia.
Qed.
End Fill.

(** [if sym] transposes [else] adjoints *)
Definition is_dual (sym : bool) (n m : nat) (f g : map1) : Prop :=
  if sym then is_transpose n m f g else is_adjoint n m f g.
Definition dw (sym : bool) : which := if sym then WT else WH.
Definition flag (sym : bool) : obj -> bool := if sym then o_sym else o_herm.
Lemma dual_unique : forall sym n m (f g g' : map1),
  (forall y, length y = m -> length (g y) = n) -> (forall y, length y = m -> length (g' y) = n) ->
  is_dual sym n m f g -> is_dual sym n m f g' -> forall y, length y = m -> g y = g' y.
Proof.
  intros sym n m f g g' L L' H H'. destruct sym; cbn in *.
  - intros y Hy. eapply (transpose_unique FOK); eauto.
  - intros y Hy. eapply (adjoint_unique FOK); eauto.
Qed.
Lemma dual_sym : forall sym n m (f g : map1), is_dual sym n m f g -> is_dual sym m n g f.
Proof. intros [] n m f g H; cbn in *; [now apply (is_transpose_sym FOK)|now apply (is_adjoint_sym FOK)]. Qed.
Lemma Good_dual : forall sym (s : st) a n m dt f, GoodD s a n m dt f ->
  exists t g, wtgt s (dw sym) a t /\ GoodD s t m n dt g /\ is_dual sym n m f g.
Proof.
  intros sym s a n m dt f (G & D & A). destruct sym; cbn.
  - destruct (Good_T _ _ _ _ _ G) as (t & g & W & G' & Tr). exists t, g. split; auto. split; auto.
    split; auto. split; [eapply Dts_w; eauto|eapply Acy_w; eauto].
  - destruct (Good_H _ _ _ _ _ G) as (t & g & W & G' & Tr). exists t, g. split; auto. split; auto.
    split; auto. split; [eapply Dts_w; eauto|eapply Acy_w; eauto].
Qed.
Lemma Good_flag : forall sym (s : st) a n m dt f o, GoodD s a n m dt f -> objs s a = Some o ->
  flag sym o = true -> is_dual sym n n f f.
Proof.
  intros sym s a n m dt f o (G & _) Ho Hf. destruct (Good_attr _ _ _ _ _ G) as (o' & Ho' & _ & _ & H1 & H2).
  rewrite Ho in Ho'; injection Ho' as <-. destruct sym; cbn in *; [now apply H1|now apply H2].
Qed.

Lemma mfor_list : forall A (d : A) (l : list A) (f : A -> M unit) s,
  (forall i, i < length l -> f (nth i l d) s = (s, Ok tt)) -> mfor l f s = (s, Ok tt).
Proof. intros A d l f s H. rewrite <- (tab_nth _ l d) at 1. now apply mfor_tab. Qed.
Lemma check_diag_ok : forall sym (s : st) r row a o, rows s r = Some (Some a :: row) -> objs s a = Some o ->
  flag sym o = true -> check_diag sym (negb sym) r s = (s, Ok tt).
Proof.
  intros sym s r row a o Hr Ho Hf. unfold check_diag.
  erewrite bind_ok by (unfold get_row; rewrite Hr; reflexivity).
  cbn [head_r]. erewrite bind_ok by reflexivity.
  destruct sym; cbn [negb flag] in *.
  - erewrite bind_ok. 2: { erewrite bind_ok by (apply getattr_ok; exact Ho). rewrite Hf. reflexivity. }
    reflexivity.
  - erewrite bind_ok by reflexivity. erewrite bind_ok by (apply getattr_ok; exact Ho).
    rewrite Hf. reflexivity.
Qed.

(** the caller's rows hold the upper triangle [U] *)
Definition upper_rows (s : st) (rs : list nat) (U : nat -> nat -> addr) : Prop :=
  forall i, i < length rs -> rows s (nth i rs 0) = Some (tab (length rs - i) (fun k => Some (U i (i + k)))).
Lemma upper_nodup : forall (s : st) rs U, upper_rows s rs U -> NoDup rs.
Proof.
  intros s rs U H. apply (NoDup_nth rs 0). intros i j Hi Hj E.
  pose proof (H i Hi) as E1. pose proof (H j Hj) as E2. rewrite E, E2 in E1. injection E1 as E1.
  apply (f_equal (@length _)) in E1. rewrite !tab_length in E1. lia.
Qed.
Definition mir {A} (f : nat -> nat -> A) : nat -> nat -> A := fun i j => if i <=? j then f i j else f j i.

(** ** Assignment to a symmetric (hermitian) block operator.
    The product uses [_blocks] (maps [G]); [GO] are the maps of the blocks of the opposite list
    ([_blocksH] if symmetric, [_blocksT] if hermitian), which no assignment touches. *)
Definition oppo (sym : bool) (bT bH : list nat) : list nat := if sym then bH else bT.
Record syminv (s : st) (K : addr) (sym : bool) (hs : list nat) (dt : dtype) (A : nat -> nat -> addr)
  (dts : nat -> nat -> dtype) (G GO : nat -> nat -> map1) : Prop := mksyminv {
  si_nh : hs <> [];
  si_desc : desc s K (sum_nat hs) (sum_nat hs) (CBlk WN K) (Some (CBlk WT K)) (Some (CBlk WH K))
              sym (negb sym) dt;
  si_obj : exists o b bT bH Y dY, objs s K = Some o /\ o_pay o = PBlk b bT bH /\
     grid s b (length hs) (length hs) A /\ grid s (oppo sym bT bH) (length hs) (length hs) Y /\
     (forall i j, i < length hs -> j < length hs ->
        GoodD (drop K s) (Y i j) (nth j hs 0) (nth i hs 0) (dY i j) (GO i j) /\
        (is_complex (dY i j) = true -> is_complex dt = true));
  si_good : forall i j, i < length hs -> j < length hs ->
     GoodD (drop K s) (A i j) (nth j hs 0) (nth i hs 0) (dts i j) (G i j);
  si_dt : forall i j, i < length hs -> j < length hs -> is_complex (dts i j) = true -> is_complex dt = true
}.

Theorem block_op_sym : forall sym (s : st) rs hs U dts g, wfst s -> hs <> [] -> length rs = length hs ->
  upper_rows s rs U ->
  (forall i j, i <= j -> j < length hs ->
     GoodD (norows rs s) (U i j) (nth j hs 0) (nth i hs 0) (dts i j) (g i j)) ->
  (forall i, i < length hs -> exists o, objs s (U i i) = Some o /\ flag sym o = true) ->
  exists dt s' UT G, 
    result_types (concat (tab (length hs) (fun i => tab (length hs) (mir dts i)))) = Ok dt /\
    block_op sym (negb sym) rs s = (s', Ok (nxt s)) /\
    ext (norows rs s) s' /\ wfst s' /\ nxt s < nxt s' /\
    (forall i j, i < j -> j < length hs -> wtgt s (dw sym) (U i j) (UT i j)) /\
    (forall i, i < length hs -> rows s' (nth i rs 0) =
       Some (tab (length hs) (fun c => Some (if i <=? c then U i c else UT c i)))) /\
    (forall i j, i <= j -> G i j = g i j) /\
    (forall i j, i < length hs -> j < length hs -> is_dual sym (nth j hs 0) (nth i hs 0) (G i j) (G j i)) /\
    GoodD s' (nxt s) (sum_nat hs) (sum_nat hs) dt (bmap hs hs G) /\
    exists A dA GO, syminv s' (nxt s) sym hs dt A dA G GO /\
      forall i j, i < length hs -> j < length hs -> is_dual (negb sym) (nth j hs 0) (nth i hs 0) (G i j) (GO j i).
Proof.
  intros sym s rs hs U dts g W Nh Lr HU HG HF.
  set (n := length hs) in *.
  assert (Ln : 0 < n) by (unfold n; destruct hs; [congruence|cbn; lia]).
  pose proof (upper_nodup _ _ _ HU) as ND.
  set (s0 := norows rs s) in *.
  destruct (fin_choice2 (addr * map1) (0, fun x => x) n n (fun i j p => i < j ->
     wtgt s0 (dw sym) (U i j) (fst p) /\ GoodD s0 (fst p) (nth i hs 0) (nth j hs 0) (dts i j) (snd p) /\
     is_dual sym (nth j hs 0) (nth i hs 0) (g i j) (snd p))) as [f Hf].
  { intros i j Hi Hj. destruct (Nat.lt_ge_cases i j) as [L|L].
    - destruct (Good_dual sym _ _ _ _ _ _ (HG i j ltac:(lia) Hj)) as (t & g' & ? & ? & ?).
      exists (t, g'). auto.
    - exists (0, fun x => x). lia. }
  set (UT := fun i j => fst (f i j)).
  set (G := fun i j => if i <=? j then g i j else snd (f j i)).
  set (A := fun i c => if i <=? c then U i c else UT c i).
  assert (HUT : forall i j, i < j -> j < n -> wtgt s (dw sym) (U i j) (UT i j)).
  { intros i j Hi Hj. eapply wtgt_mono; [apply norows_ext|]. apply Hf; auto; lia. }
  destruct (fill_ok sym rs s ND U UT) as (s1 & E1 & R1); [|lia| |].
  { intros j i Hj Hi. apply HUT; lia. }
  { intros i Hi. apply HU; lia. }
  assert (X1 : ext s0 s1) by (eapply rowed_norows; eauto).
  assert (W1 : wfst s1).
  { eapply rowed_wf; [exact W| |exact R1]. intros l Hl. apply (In_nth _ _ 0) in Hl.
    destruct Hl as (i & Hi & <-). destruct (Nat.lt_ge_cases (nth i rs 0) (nrow s)) as [|L]; auto.
    pose proof (HU i Hi) as E. rewrite (proj2 (proj2 W) _ L) in E. discriminate. }
  assert (Gr : grid s1 rs n n A).
  { split; auto. intros i Hi. rewrite (rw_in _ _ _ _ R1) by lia. unfold full. rewrite Lr. reflexivity. }
  assert (HA0 : forall i j, i < n -> j < n ->
     GoodD s0 (A i j) (nth j hs 0) (nth i hs 0) (mir dts i j) (G i j)).
  { intros i j Hi Hj. unfold A, G, mir. destruct (Nat.leb_spec i j); [apply HG; auto|].
    apply (Hf j i Hj Hi); auto. }
  assert (HA : forall i j, i < n -> j < n ->
     GoodD s1 (A i j) (nth j hs 0) (nth i hs 0) (mir dts i j) (G i j)).
  { intros. eapply GoodD_mono; [exact X1|auto]. }
  assert (DU : forall i j, i < n -> j < n -> is_dual sym (nth j hs 0) (nth i hs 0) (G i j) (G j i)).
  { intros i j Hi Hj. unfold G. destruct (Nat.lt_trichotomy i j) as [L|[->|L]].
    - destruct (Nat.leb_spec i j); [|lia]. destruct (Nat.leb_spec j i); [lia|]. apply Hf; auto.
    - rewrite Nat.leb_refl. destruct (HF j Hj) as (o & Ho & Hfl).
      apply (Good_flag sym s (U j j) _ (nth j hs 0) (dts j j) _ o); auto.
      eapply GoodD_mono; [apply norows_ext|]. apply HG; auto.
    - destruct (Nat.leb_spec i j); [lia|]. destruct (Nat.leb_spec j i); [|lia]. apply dual_sym. apply Hf; auto. }
  destruct (dtypes_some n n (mir dts) Ln Ln) as (dt & Hdt).
  destruct (fam_T _ _ _ _ _ _ HA) as (AT & GT & TT & HGT & Tr).
  destruct (fam_H _ _ _ _ _ _ HA) as (AH & GH & TH & HGH & Ad).
  destruct (block_build_spec s1 rs hs hs A AT AH (mir dts) dt sym (negb sym)) as
    (s' & o & bT & bH & E & X & W' & L & Ho & Hp & Hd & D & GrT & GrH); auto.
  { eapply good_sized; eauto. }
  { intros. apply Dts_dt. now apply HA. }
  rewrite (rw_nxt _ _ _ _ R1) in *.
  exists dt, s', UT, G. split; [exact Hdt|].
  split.
  { unfold block_op, sym_layout. replace (sym || negb sym) with true by (destruct sym; auto).
    erewrite bind_ok; [exact E|].
    assert (Hh : head_r rs = Ok (nth 0 rs 0)) by (destruct rs; [cbn in Lr; lia|reflexivity]).
    rewrite Hh. erewrite bind_ok by reflexivity.
    erewrite bind_ok by (unfold get_row; rewrite HU by lia; reflexivity).
    rewrite tab_length, Nat.sub_0_r, Nat.eqb_refl. cbn [negb].
    erewrite bind_ok; [exact E1|]. apply mfor_list with (d := 0). intros i Hi.
    destruct (HF i ltac:(lia)) as (oi & Hoi & Hfl).
    pose proof (HU i Hi) as Hr. destruct (length rs - i) as [|k] eqn:Ek; [lia|].
    cbn [tab] in Hr. rewrite Nat.add_0_r in Hr. eapply check_diag_ok; eauto. }
  split; [eapply ext_trans; [exact X1|exact X]|]. split; auto. split; auto. split; auto.
  split; [intros i Hi; apply (ext_row _ _ X); apply Gr; auto|].
  split; [intros i j Hij; unfold G; destruct (Nat.leb_spec i j); [auto|lia]|].
  split; [exact DU|].
  assert (HC : forall i j, i < n -> j < n -> is_complex (mir dts i j) = true -> is_complex dt = true).
  { intros i j Hi Hj C. eapply result_types_in; [exact Hdt| |exact C]. now apply dtypes_in. }
  assert (LG : famlin hs hs G).
  { intros i j Hi Hj. eapply denotes_lin, Good_den, HA; auto. }
  assert (FT : fam s' dt bT hs hs AT (fun j i => mir dts i j) GT).
  { constructor; auto; intros; [|eapply HC; [| |eassumption]; auto]. eapply GoodD_mono; [exact X|]. now apply HGT. }
  assert (FH : fam s' dt bH hs hs AH (fun j i => mir dts i j) GH).
  { constructor; auto; intros; [|eapply HC; [| |eassumption]; auto]. eapply GoodD_mono; [exact X|]. now apply HGH. }
  assert (Lbm : is_dual sym (sum_nat hs) (sum_nat hs) (bmap hs hs G) (bmap hs hs G)).
  { destruct sym; cbn in *; [apply (bmap_tr FOK)|apply (bmap_ad FOK)]; auto. }
  assert (XD : ext s1 (drop (nxt s) s')).
  { apply ext_drop_fresh; auto. apply (proj1 W1). rewrite (rw_nxt _ _ _ _ R1). lia. }
  destruct sym; cbn [negb self_blocks andb] in *.
  - assert (EG : forall j i y, j < n -> i < n -> length y = nth i hs 0 -> GT j i y = G j i y).
    { intros j i y Hj Hi Hy.
      refine (dual_unique true (nth j hs 0) (nth i hs 0) (G i j) (GT j i) (G j i) _ _ _ _ y Hy).
      { apply (fam_lin _ _ _ _ _ _ _ _ FT j i); auto. }
      { apply (LG j i); auto. }
      { cbn. apply Tr; auto. }
      { apply (DU i j); auto. } }
    split.
    + eapply (blk_good FOK s' (nxt s) o bT bT bH hs hs true false dt AT (fun j i => mir dts i j) G
         AT (fun j i => mir dts i j) GT AH (fun j i => mir dts i j) GH); auto; try discriminate.
      constructor.
      * exact GrT.
      * intros j i Hj Hi. eapply GoodD_ext; [|apply (fam_good _ _ _ _ _ _ _ _ FT); auto]. intros; apply EG; auto.
      * intros j i Hj Hi C. eapply HC; [| |exact C]; auto.
    + exists AT, (fun j i => mir dts i j), GH. split; [|intros; cbn; now apply Ad].
      constructor; auto.
      * exists o, bT, bT, bH, AH, (fun j i => mir dts i j). split; [exact Ho|]. split; [exact Hp|].
        split; [exact GrT|]. split; [exact GrH|]. intros j i Hj Hi. split; [|intros C; eapply HC; [| |exact C]; auto].
        eapply GoodD_mono; [exact XD|]. now apply HGH.
      * intros j i Hj Hi. eapply GoodD_mono; [exact XD|].
        eapply GoodD_ext; [|apply HGT; auto]. intros; apply EG; auto.
      * intros j i Hj Hi C; eapply HC; [| |exact C]; auto.
  - assert (EG : forall j i y, j < n -> i < n -> length y = nth i hs 0 -> GH j i y = G j i y).
    { intros j i y Hj Hi Hy.
      refine (dual_unique false (nth j hs 0) (nth i hs 0) (G i j) (GH j i) (G j i) _ _ _ _ y Hy).
      { apply (fam_lin _ _ _ _ _ _ _ _ FH j i); auto. }
      { apply (LG j i); auto. }
      { cbn. apply Ad; auto. }
      { apply (DU i j); auto. } }
    split.
    + eapply (blk_good FOK s' (nxt s) o bH bT bH hs hs false true dt AH (fun j i => mir dts i j) G
         AT (fun j i => mir dts i j) GT AH (fun j i => mir dts i j) GH); auto; try discriminate.
      constructor.
      * exact GrH.
      * intros j i Hj Hi. eapply GoodD_ext; [|apply (fam_good _ _ _ _ _ _ _ _ FH); auto]. intros; apply EG; auto.
      * intros j i Hj Hi C. eapply HC; [| |exact C]; auto.
    + exists AH, (fun j i => mir dts i j), GT. split; [|intros; cbn; now apply Tr].
      constructor; auto.
      * exists o, bH, bT, bH, AT, (fun j i => mir dts i j). split; [exact Ho|]. split; [exact Hp|].
        split; [exact GrH|]. split; [exact GrT|]. intros j i Hj Hi. split; [|intros C; eapply HC; [| |exact C]; auto].
        eapply GoodD_mono; [exact XD|]. now apply HGT.
      * intros j i Hj Hi. eapply GoodD_mono; [exact XD|].
        eapply GoodD_ext; [|apply HGH; auto]. intros; apply EG; auto.
      * intros j i Hj Hi C; eapply HC; [| |exact C]; auto.
Qed.

Lemma sym_cells : forall (s : st) hs dt A dts (G : nat -> nat -> map1),
  (forall i j, i < length hs -> j < length hs -> GoodD s (A i j) (nth j hs 0) (nth i hs 0) (dts i j) (G i j)) ->
  (forall i j, i < length hs -> j < length hs -> is_complex (dts i j) = true -> is_complex dt = true) ->
  famlin hs hs G /\ (is_complex dt = false -> real_map (sum_nat hs) (bmap hs hs G)) /\
  forall K o b bT bH w, objs s K = Some o -> o_dtype o = dt -> o_pay o = PBlk b bT bH -> hs <> [] ->
    grid s (sel w b bT bH) (length hs) (length hs) A -> cden s (CBlk w K) (sum_nat hs) (bmap hs hs G).
Proof.
  intros s hs dt A dts G HG HC. split; [|split].
  - intros i j Hi Hj. eapply denotes_lin, Good_den, HG; auto.
  - intros C. apply (bmap_real FOK). intros i j Hi Hj. eapply GoodD_real; [apply HG; auto|].
    destruct (is_complex (dts i j)) eqn:E; auto. rewrite (HC i j Hi Hj E) in C. discriminate.
  - intros K o b bT bH w Ho Hd Hp Nh Gr. eapply (cden_blk s K o b bT bH w hs hs A dts G); auto.
    + intros i j Hi Hj. destruct (HG i j Hi Hj) as (G1 & D1 & _). split; [now apply Good_den|now apply Dts_dt].
    + intros i j Hi Hj C. rewrite Hd. apply (HC i j); auto.
Qed.

(** what the products of K, K.T and K.H are *)
Theorem syminv_den : forall (s : st) K sym hs dt A dts G GO, syminv s K sym hs dt A dts G GO ->
  denotes s K (sum_nat hs) (sum_nat hs) (bmap hs hs G) /\ wtgt s (dw sym) K K /\
  exists q, wtgt s (dw (negb sym)) K q /\ q <> K /\
    if is_complex dt then
      denotes s q (sum_nat hs) (sum_nat hs) (conj_map (bmap hs hs G)) /\
      (sym = false -> exists t, wtgt s WH q t /\ denotes s t (sum_nat hs) (sum_nat hs) (bmap hs hs GO))
    else denotes s q (sum_nat hs) (sum_nat hs) (bmap hs hs GO).
Proof.
  intros s K sym hs dt A dts G GO [Nh D (o & b & bT & bH & Y & dY & Ho & Hp & GN & GY & HY) HG HC].
  assert (X : ext (drop K s) s) by apply ext_drop.
  destruct (sym_cells s hs dt A dts G) as (LG & RG & CG); auto.
  { intros. eapply GoodD_mono; [exact X|auto]. }
  destruct (sym_cells s hs dt Y dY GO) as (LO & RO & CO).
  { intros i j Hi Hj. eapply GoodD_mono; [exact X|]. now apply HY. }
  { intros i j Hi Hj. now apply HY. }
  destruct (desc_self _ _ _ _ _ _ _ _ _ _ _ D Ho) as (_ & _ & _ & _ & Hd & _).
  specialize (CG K o b bT bH WN Ho Hd Hp Nh GN).
  assert (LG' := bmap_lin FOK _ _ _ LG). assert (LO' := bmap_lin FOK _ _ _ LO).
  assert (DK : forall T H sy he, has s K (sum_nat hs) (sum_nat hs) sy he dt (CBlk WN K) T H ->
     denotes s K (sum_nat hs) (sum_nat hs) (bmap hs hs G)).
  { intros. eapply (has_denotes FOK); eauto. }
  assert (CO' : cden s (CBlk (dw (negb sym)) K) (sum_nat hs) (bmap hs hs GO)).
  { apply (CO K o b bT bH); auto. destruct sym; exact GY. }
  unfold desc in D. destruct (is_complex dt) eqn:C, sym; cbn [negb dw] in *; cbv beta iota in D.
  - destruct D as (q & D1 & D2 & D3). pose proof (DK _ _ _ _ D1) as DK'. split; auto.
    destruct D1 as (o1 & Ho1 & _ & _ & _ & _ & _ & _ & HT & HH).
    split; [exists o1; auto|]. exists q. split; [exists o1; auto|]. split; auto.
    split; [|discriminate]. eapply (has_denotes FOK); eauto; try congruence.
    { now apply (conj_map_lin FOK). } eapply (cden_conjN); eauto.
  - destruct D as (t & q & D1 & D2 & D3 & D4). pose proof (DK _ _ _ _ D1) as DK'. split; auto.
    destruct D1 as (o1 & Ho1 & _ & _ & _ & _ & _ & _ & HT & HH).
    split; [exists o1; auto|]. exists q. split; [exists o1; auto|]. split; auto.
    split. { eapply (has_denotes FOK); eauto; try congruence.
      { now apply (conj_map_lin FOK). } eapply (cden_conjN); eauto. }
    intros _. exists t. split; [|eapply (has_denotes FOK); eauto; congruence].
    destruct D2 as (o2 & Ho2 & _ & _ & _ & _ & _ & _ & HT2 & HH2). exists o2. auto.
  - destruct D as (h & D1 & D2 & D3). pose proof (DK _ _ _ _ D1) as DK'. split; auto.
    destruct D1 as (o1 & Ho1 & _ & _ & _ & _ & _ & _ & HT & HH).
    split; [exists o1; auto|]. exists h. split; [exists o1; auto|]. split; auto.
    eapply (has_denotes FOK); eauto.
  - destruct D as (t & D1 & D2 & D3). pose proof (DK _ _ _ _ D1) as DK'. split; auto.
    destruct D1 as (o1 & Ho1 & _ & _ & _ & _ & _ & _ & HT & HH).
    split; [exists o1; auto|]. exists t. split; [exists o1; auto|]. split; auto.
    eapply (has_denotes FOK); eauto.
Qed.

Theorem syminv_ext : forall (s s' : st) K sym hs dt A dts G GO, ext s s' ->
  syminv s K sym hs dt A dts G GO -> syminv s' K sym hs dt A dts G GO.
Proof.
  intros s s' K sym hs dt A dts G GO E [Nh D (o & b & bT & bH & Y & dY & Ho & Hp & GN & GY & HY) HG HC].
  pose proof (ext_drops K _ _ E) as ED.
  constructor; auto.
  - eapply desc_mono; eauto.
  - destruct (ext_obj _ _ E _ _ Ho) as (o' & Ho' & S).
    exists o', b, bT, bH, Y, dY. rewrite <- (stable_pay _ _ S).
    split; [exact Ho'|]. split; [exact Hp|].
    split; [eapply grid_mono; eauto|]. split; [eapply grid_mono; eauto|].
    intros i j Hi Hj. destruct (HY i j Hi Hj). split; auto. eapply GoodD_mono; eauto.
  - intros. eapply GoodD_mono; [exact ED|auto].
Qed.

(** only the blocks on and above the diagonal matter *)
Theorem blk_store_sym : forall (s : st) K sym hs dt A dts G GO A1 d1 g1,
  syminv s K sym hs dt A dts G GO -> wfst s -> K < nxt s ->
  (forall k l, k <= l -> l < length hs -> GoodD (drop K s) (A1 k l) (nth l hs 0) (nth k hs 0) (d1 k l) (g1 k l)) ->
  (forall k l, k <= l -> l < length hs -> is_complex (d1 k l) = true -> is_complex dt = true) ->
  exists s' A' dts' G', blk_store K (cells (length hs) (length hs) A1) s = (s', Ok tt) /\ wfst s' /\ nxt s' = nxt s /\
    ext (drop K s) (drop K s') /\
    (forall k l, k <= l -> G' k l = g1 k l) /\
    (forall k l, l < k -> k < length hs -> is_dual sym (nth k hs 0) (nth l hs 0) (G' l k) (G' k l)) /\
    (forall k l, k <= l -> A' k l = A1 k l) /\
    (forall k l, l < k -> k < length hs -> wtgt (drop K s) (dw sym) (A1 l k) (A' k l)) /\
    syminv s' K sym hs dt A' dts' G' GO.
Proof.
  intros s K sym hs dt A dts G GO A1 d1 g1
    [Nh D (o & b & bT & bH & Y & dY & Ho & Hp & GN & GY & HY) HG HC] W LK HG1 Hc.
  destruct (desc_self _ _ _ _ _ _ _ _ _ _ _ D Ho) as (_ & _ & Hsy & Hhe & Hd & _).
  destruct (blk_store_prefix s K o b bT bH (length hs) (length hs) A1 W LK Ho Hp) as
    (s1 & b' & E & X1 & W1 & O1 & N1 & G1 & Fr & Eb & Nr).
  rewrite E, Hsy, Hhe. replace (sym || negb sym) with true by (destruct sym; auto). clear E.
  set (n := length hs) in *.
  set (s2 := set_obj K (with_pay (PBlk b' bT bH) o) s1).
  assert (XD2 : ext (drop K s) (drop K s2)) by (apply ext_drop_set; now apply ext_drops).
  destruct (fin_choice2 (addr * map1) (0, fun x => x) n n (fun k l p => k < l ->
     wtgt (drop K s) (dw sym) (A1 k l) (fst p) /\
     GoodD (drop K s) (fst p) (nth k hs 0) (nth l hs 0) (d1 k l) (snd p) /\
     is_dual sym (nth l hs 0) (nth k hs 0) (g1 k l) (snd p))) as [f Hf].
  { intros k l Hk Hl. destruct (Nat.lt_ge_cases k l) as [L|L].
    - destruct (Good_dual sym _ _ _ _ _ _ (HG1 k l ltac:(lia) Hl)) as (t & g' & ? & ? & ?).
      exists (t, g'). auto.
    - exists (0, fun x => x). lia. }
  set (UT := fun k l => fst (f k l)).
  assert (Lb : length b' = n) by (rewrite Eb, seq_length; auto).
  assert (ND : NoDup b') by (rewrite Eb; apply seq_NoDup).
  destruct (resym_ok sym b' s2 ND A1 UT) with (A := A1) as (s3 & E3 & R3); auto.
  { intros l k Hl Hk. rewrite Lb in Hk. eapply wtgt_mono; [eapply ext_trans; [exact XD2|apply ext_drop]|].
    apply (Hf l k); auto; lia. }
  { apply rowed_refl. intros k Hk. unfold gridrow. rewrite Lb in *. apply G1. auto. }
  assert (X3 : ext (drop K s) (drop K s3)).
  { eapply ext_trans with (b := norows b' (drop K s2)).
    - constructor; [apply (ext_obj _ _ XD2)|apply (ext_arr _ _ XD2)|].
      intros l r Hl. cbn [norows rows drop] in *.
      destruct (existsb (Nat.eqb l) b') eqn:Ex.
      + apply existsb_exists in Ex. destruct Ex as (l' & Hi & El). apply Nat.eqb_eq in El. subst l'.
        rewrite (Fr l Hi) in Hl. discriminate.
      + apply (ext_row _ _ X1). exact Hl.
    - change (norows b' (drop K s2)) with (drop K (norows b' s2)). apply ext_drops.
      eapply rowed_norows; eauto. }
  assert (W2 : wfst s2) by (apply wf_set; auto; lia).
  assert (X3' : ext (drop K s) s3) by (eapply ext_trans; [exact X3|apply ext_drop]).
  set (G' := fun k l => if k <=? l then g1 k l else snd (f l k)).
  set (d' := fun k l => if k <=? l then d1 k l else d1 l k).
  exists s3, (mirror A1 UT), d', G'. split; [exact E3|].
  split. { eapply rowed_wf; [exact W2| |exact R3]. intros l Hl. rewrite Eb in Hl. apply in_seq in Hl.
           cbn. rewrite Nr. lia. }
  split. { rewrite (rw_nxt _ _ _ _ R3). cbn. auto. }
  split; [exact X3|].
  split. { intros k l Hkl. unfold G'. destruct (Nat.leb_spec k l); [auto|lia]. }
  split. { intros k l Hkl Hk. unfold G'. destruct (Nat.leb_spec k l); [lia|].
           destruct (Nat.leb_spec l k); [|lia]. apply (Hf l k); auto; lia. }
  split. { intros k l Hkl. unfold mirror. destruct (Nat.leb_spec k l); [auto|lia]. }
  split. { intros k l Hkl Hk. unfold mirror. destruct (Nat.leb_spec k l); [lia|]. apply (Hf l k); auto; lia. }
  assert (D3 : desc s3 K (sum_nat hs) (sum_nat hs) (CBlk WN K) (Some (CBlk WT K)) (Some (CBlk WH K)) sym (negb sym) dt).
  { eapply desc_has with (s := s2).
    - intros a n' m' sy he dt' c' T H (oa & Ha & R). exists oa. split; auto.
      rewrite (rw_objs _ _ _ _ R3). auto.
    - apply (desc_obj s1 K _ _ _ _ _ _ _ _ o); [congruence| |].
      + exists (PBlk b' bT bH), (o_count o); destruct o; reflexivity.
      + apply (desc_mono s); auto. }
  constructor; auto.
  - exists (with_pay (PBlk b' bT bH) o), b', bT, bH, Y, dY.
    split. { rewrite (rw_objs _ _ _ _ R3). apply get_set_eq. }
    split; [reflexivity|]. split.
    { split; auto. intros k Hk. rewrite (rw_in _ _ _ _ R3) by (rewrite Lb; auto).
      unfold gridrow. rewrite Lb. reflexivity. }
    split. { eapply grid_rext; [|exact GY]. intros l r Hl. apply (ext_row _ _ X3'). exact Hl. }
    intros k l Hk Hl. destruct (HY k l Hk Hl). split; auto. eapply GoodD_mono; [exact X3|auto].
  - intros k l Hk Hl. unfold mirror, d', G'. eapply GoodD_mono; [exact X3|].
    destruct (Nat.leb_spec k l); [apply HG1; auto|]. apply (Hf l k); auto.
  - intros k l Hk Hl. unfold d'. destruct (Nat.leb_spec k l); apply Hc; lia.
Qed.

Theorem blk_set_sym : forall (s : st) K sym hs dt A dts G GO i j iz jz B dB g,
  syminv s K sym hs dt A dts G GO -> wfst s -> K < nxt s ->
  pyindex (length hs) iz = Ok i -> pyindex (length hs) jz = Ok j ->
  (i <= j -> GoodD (drop K s) B (nth j hs 0) (nth i hs 0) dB g) ->
  (i <= j -> is_complex dB = true -> is_complex dt = true) ->
  exists s' A' dts' G', blk_set K iz jz B s = (s', Ok tt) /\ wfst s' /\ nxt s' = nxt s /\
    ext (drop K s) (drop K s') /\
    (forall k l, k <= l -> G' k l = upd2 G i j g k l) /\
    (forall k l, l < k -> k < length hs -> is_dual sym (nth k hs 0) (nth l hs 0) (G' l k) (G' k l)) /\
    syminv s' K sym hs dt A' dts' G' GO.
Proof.
  intros s K sym hs dt A dts G GO i j iz jz B dB g SI W LK Pi Pj HB HCB.
  pose proof (pyindex_lt _ _ _ Pi) as Li. pose proof (pyindex_lt _ _ _ Pj) as Lj.
  destruct (si_obj _ _ _ _ _ _ _ _ _ SI) as (o & b & bT & bH & Y & dY & Ho & Hp & GN & _).
  rewrite (blk_set_store s K o b bT bH _ _ A i j iz jz B Ho Hp GN Pi Pj).
  destruct (blk_store_sym s K sym hs dt A dts G GO (upd2 A i j B) (upd2 dts i j dB) (upd2 G i j g) SI W LK) as
    (s' & A' & dts' & G' & E & W' & N' & X & HU & HD & _ & _ & SI').
  - intros k l Hk Hl. unfold upd2. destruct (Nat.eqb_spec k i), (Nat.eqb_spec l j); cbn [andb];
      try (apply (si_good _ _ _ _ _ _ _ _ _ SI); lia). subst. auto.
  - intros k l Hk Hl. unfold upd2. destruct (Nat.eqb_spec k i), (Nat.eqb_spec l j); cbn [andb];
      try (apply (si_dt _ _ _ _ _ _ _ _ _ SI); lia). subst. auto.
  - exists s', A', dts', G'. auto 8.
Qed.

(** an assignment below the diagonal changes no product *)
Lemma undone : forall sym hs (G G' : nat -> nat -> map1) i j g, j < i ->
  famlin hs hs G -> famlin hs hs G' ->
  (forall k l, l < k -> k < length hs -> is_dual sym (nth k hs 0) (nth l hs 0) (G l k) (G k l)) ->
  (forall k l, k <= l -> G' k l = upd2 G i j g k l) ->
  (forall k l, l < k -> k < length hs -> is_dual sym (nth k hs 0) (nth l hs 0) (G' l k) (G' k l)) ->
  forall x, length x = sum_nat hs -> bmap hs hs G' x = bmap hs hs G x.
Proof.
  intros sym hs G G' i j g Hij LG LG' HD HU HD' x Hx.
  assert (EU : forall k l, k <= l -> G' k l = G k l).
  { intros k l Hkl. rewrite HU by auto. unfold upd2.
    destruct (Nat.eqb_spec k i), (Nat.eqb_spec l j); cbn [andb]; auto; lia. }
  apply bmap_ext; auto. intros k l y Hk Hl Hy. destruct (Nat.le_gt_cases k l).
  - now rewrite EU.
  - refine (dual_unique sym (nth k hs 0) (nth l hs 0) (G l k) (G' k l) (G k l) _ _ _ _ y Hy).
    + apply (LG' k l); auto.
    + apply (LG k l); auto.
    + rewrite <- EU by lia. now apply HD'.
    + now apply HD.
Qed.
End Sym.
