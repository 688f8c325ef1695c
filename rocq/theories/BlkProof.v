(** * Block operators: products, construction and assignment (blkop.py:21-151). *)
From Coq Require Import List ZArith Lia Bool.
From Verif Require Import Base Field Vec LinopModel LinopFrame LinopGood LinopInit LinopDep LinopAlg
  LinopOps BlkSpec BlkModel.
Import ListNotations.

(** ** Generic lemmas *)
Lemma fin_choice : forall B (b0 : B) n (P : nat -> B -> Prop),
  (forall i, i < n -> exists b, P i b) -> exists f, forall i, i < n -> P i (f i).
Proof.
  intros B b0 n. induction n; intros P H.
  - exists (fun _ => b0). intros; lia.
  - destruct (H 0) as [c Hc]; [lia|].
    destruct (IHn (fun i => P (S i))) as [f Hf]. { intros. apply H. lia. }
    exists (fun i => match i with O => c | S i => f i end).
    intros [|i] Hi; auto. apply Hf. lia.
Qed.
Lemma fin_choice2 : forall B (b0 : B) n m (P : nat -> nat -> B -> Prop),
  (forall i j, i < n -> j < m -> exists b, P i j b) ->
  exists f, forall i j, i < n -> j < m -> P i j (f i j).
Proof.
  intros B b0 n m P H.
  destruct (fin_choice (nat -> B) (fun _ => b0) n (fun i f => forall j, j < m -> P i j (f j))) as [f Hf].
  - intros i Hi. apply (fin_choice B b0 m (P i)). auto.
  - exists f. auto.
Qed.
Lemma result_types_complex : forall l dt, result_types l = Ok dt ->
  is_complex dt = existsb is_complex l.
Proof.
  intros [|d l] dt H; [discriminate|]. cbn in H. injection H as <-. revert d.
  induction l; intros d; cbn; [now rewrite orb_false_r|].
  rewrite IHl. cbn. rewrite result_type_complex. now rewrite orb_assoc.
Qed.
Lemma result_types_in : forall l dt d, result_types l = Ok dt -> In d l -> is_complex d = true ->
  is_complex dt = true.
Proof.
  intros l dt d H Hi C. rewrite (result_types_complex _ _ H). apply existsb_exists. eauto.
Qed.

Section BlkP.
Context {F : Fld} (FOK : FldOK F).
Notation st := (st F). Notation obj := (obj F). Notation M := (M F). Notation arr := (arr F).
Notation map1 := (list F -> list F).

Lemma mmap_tab : forall A B (f : A -> M B) n (g : nat -> A) (h : nat -> B) s,
  (forall i, i < n -> f (g i) s = (s, Ok (h i))) -> mmap f (tab n g) s = (s, Ok (tab n h)).
Proof.
  induction n; intros g h s H; auto. cbn [tab mmap].
  erewrite bind_ok by (apply H; lia).
  erewrite bind_ok by (apply (IHn (fun i => g (S i)) (fun i => h (S i))); intros; apply H; lia).
  reflexivity.
Qed.
Lemma mmap_list : forall A B (d : A) (f : A -> M B) l (h : nat -> B) s,
  (forall i, i < length l -> f (nth i l d) s = (s, Ok (h i))) ->
  mmap f l s = (s, Ok (tab (length l) h)).
Proof.
  intros A B d f l h s H. rewrite <- (tab_nth _ l d) at 1. now apply mmap_tab.
Qed.

(** the rows of references [rs] hold the operators [A i j] *)
Definition grid (s : st) (rs : list nat) (nr nc : nat) (A : nat -> nat -> addr) : Prop :=
  length rs = nr /\ forall i, i < nr -> rows s (nth i rs 0) = Some (tab nc (fun j => Some (A i j))).
Definition cells (nr nc : nat) (A : nat -> nat -> addr) : list (list (option addr)) :=
  tab nr (fun i => tab nc (fun j => Some (A i j))).
Lemma grid_mono : forall (s s' : st) rs nr nc A, ext s s' -> grid s rs nr nc A -> grid s' rs nr nc A.
Proof. intros s s' rs nr nc A E [H1 H2]. split; auto. intros i Hi. apply (ext_row _ _ E). auto. Qed.
Lemma grid_rows : forall (s : st) rs nr nc A, grid s rs nr nc A ->
  mmap get_row rs s = (s, Ok (cells nr nc A)).
Proof.
  intros s rs nr nc A [<- H]. unfold cells. apply mmap_list with (d := 0).
  intros i Hi. unfold get_row. now rewrite (H i Hi).
Qed.
(** attributes of the cells *)
Lemma cells_attr : forall B (p : obj -> B) (v : nat -> nat -> B) s nr nc A,
  (forall i j, i < nr -> j < nc -> exists o, objs s (A i j) = Some o /\ p o = v i j) ->
  mmap (mmap (blk_attr p)) (cells nr nc A) s = (s, Ok (tab nr (fun i => tab nc (v i)))).
Proof.
  intros B p v s nr nc A H. unfold cells. apply mmap_tab. intros i Hi.
  apply mmap_tab. intros j Hj. destruct (H i j Hi Hj) as (o & Ho & <-).
  cbn [blk_attr]. now apply getattr_ok.
Qed.

(** ** Applying the blocks *)
Definition apok (d : nat) (s : st) (a : addr) (n m : nat) (dt : dtype) (f : map1) : Prop :=
  linmap n m f /\
  forall d' s' x, d <= d' -> ext s s' -> awf x -> asize x = n ->
    exists s'', apply d' a x s' = (s'', Ok (mkarr (result_type dt (adt x)) (f (adata x)))) /\ ext s s''.
Lemma apok_den : forall (s : st) a n m dt f, denotes s a n m f -> dt_of s a dt -> exists d, apok d s a n m dt f.
Proof.
  intros s a n m dt f (o & d & Ho & Hn & Hm & HL & HR & H) (o' & Ho' & Hd).
  rewrite Ho in Ho'; injection Ho' as <-. subst dt.
  exists d. split; auto. intros d' s' x Hd E Hx Hl.
  destruct (H x Hx Hl) as (s1 & Ha).
  destruct (mono_apply d d' a x Hd _ _ _ _ E Ha eq_refl) as (s2 & H2 & E2).
  exists s2. split; [exact H2|]. eapply ext_trans; [exact E|]. apply cle_ext. eapply frame_apply; eauto.
Qed.
Lemma apok_fuel : forall d d' s a n m dt f, d <= d' -> apok d s a n m dt f -> apok d' s a n m dt f.
Proof. intros d d' s a n m dt f L [H1 H2]. split; auto. intros. apply H2; auto. lia. Qed.
Lemma fam_fuel : forall nr nc (P : nat -> nat -> nat -> Prop),
  (forall i j d d', d <= d' -> P i j d -> P i j d') ->
  (forall i j, i < nr -> j < nc -> exists d, P i j d) ->
  exists d, forall i j, i < nr -> j < nc -> P i j d.
Proof.
  intros nr nc P Mo H.
  assert (Row : forall i, i < nr -> forall nc', nc' <= nc -> exists d, forall j, j < nc' -> P i j d).
  { intros i Hi. induction nc'; intros L; [exists 0; intros; lia|].
    destruct IHnc' as [d1 H1]; [lia|]. destruct (H i nc' Hi) as [d2 H2]; [lia|].
    exists (max d1 d2). intros j Hj. destruct (Nat.eq_dec j nc') as [->|].
    - apply (Mo _ _ d2); auto; lia.
    - apply (Mo _ _ d1); [lia|]. apply H1; lia. }
  assert (All : forall nr', nr' <= nr -> exists d, forall i j, i < nr' -> j < nc -> P i j d).
  { induction nr'; intros L; [exists 0; intros; lia|].
    destruct IHnr' as [d1 H1]; [lia|]. destruct (Row nr' ltac:(lia) nc ltac:(lia)) as [d2 H2].
    exists (max d1 d2). intros i j Hi Hj. destruct (Nat.eq_dec i nr') as [->|].
    - apply (Mo _ _ d2); auto; lia.
    - apply (Mo _ _ d1); [lia|]. apply H1; auto; lia. }
  apply (All nr). lia.
Qed.

Lemma vreal_firstn : forall w (x : list F), vreal x -> vreal (firstn w x).
Proof. intros w x H. unfold vreal in *. rewrite <- firstn_vconj. now rewrite H. Qed.
Lemma vreal_skipn : forall w (x : list F), vreal x -> vreal (skipn w x).
Proof. intros w x H. unfold vreal in *. rewrite <- skipn_vconj. now rewrite H. Qed.

Lemma blk_row_ok : forall ws d d' s s' h (A : nat -> addr) dts f rt xdt x acc,
  (forall j, j < length ws -> apok d s (A j) (nth j ws 0) h (dts j) (f j)) ->
  (is_complex rt = false -> is_complex xdt = false /\ forall j, j < length ws -> is_complex (dts j) = false) ->
  d <= d' -> ext s s' -> length x = sum_nat ws -> (is_complex xdt = false -> vreal x) ->
  length acc = h ->
  exists s'', blk_row (apply d') rt xdt ws (tab (length ws) (fun j => Some (A j))) x acc s'
    = (s'', Ok (rowsum ws f x acc)) /\ ext s s''.
Proof.
  induction ws as [|w ws IH]; intros d d' s s' h A dts f rt xdt x acc Hap HC Hd E Hx Hr Ha.
  - exists s'. split; auto.
  - cbn [length tab blk_row rowsum]. cbn in Hx. fold (sum_nat ws) in Hx.
    destruct (Hap 0) as [L0 H0]; [cbn; lia|]. cbn in L0, H0.
    destruct (H0 d' s' (mkarr xdt (firstn w x)) Hd E) as (s1 & E1 & X1).
    { intro C. cbn. apply vreal_firstn. auto. }
    { unfold asize. cbn. eapply firstn_sum; eauto. }
    cbn [adt adata] in E1.
    assert (Lf : length (f 0 (firstn w x)) = h).
    { apply (lin_len _ _ _ L0). eapply firstn_sum; eauto. }
    assert (EA : add_into rt acc (mkarr (result_type (dts 0) xdt) (f 0 (firstn w x)))
               = Ok (vadd acc (f 0 (firstn w x)))).
    { unfold add_into. cbn [adt adata]. rewrite result_type_complex.
      unfold asize. cbn [adata]. rewrite Lf, Ha, Nat.eqb_refl.
      destruct (is_complex rt) eqn:C; cbn; auto.
      destruct (HC eq_refl) as [C1 C2]. rewrite C1, (C2 0) by (cbn; lia). reflexivity. }
    destruct (IH d d' s s1 h (fun j => A (S j)) (fun j => dts (S j)) (fun j => f (S j)) rt xdt (skipn w x)
                (vadd acc (f 0 (firstn w x)))) as (s2 & E2 & X2); auto.
    + intros j Hj. apply (Hap (S j)). cbn; lia.
    + intros C. destruct (HC C) as [C1 C2]. split; auto. intros j Hj. apply C2. cbn; lia.
    + eapply skipn_sum; eauto.
    + intros C. apply vreal_skipn. auto.
    + rewrite vadd_length; congruence.
    + exists s2. split; auto.
      cbn [ap_opt]. erewrite bind_ok by exact E1. rewrite EA.
      erewrite bind_ok by reflexivity. exact E2.
Qed.

Lemma blk_rows_ok : forall hs ws d d' s s' (A : nat -> nat -> addr) dts G rt xdt x,
  (forall i j, i < length hs -> j < length ws ->
     apok d s (A i j) (nth j ws 0) (nth i hs 0) (dts i j) (G i j)) ->
  (is_complex rt = false -> is_complex xdt = false /\
     forall i j, i < length hs -> j < length ws -> is_complex (dts i j) = false) ->
  d <= d' -> ext s s' -> length x = sum_nat ws -> (is_complex xdt = false -> vreal x) ->
  exists s'', blk_rows (apply d') rt xdt ws hs (cells (length hs) (length ws) A) x s'
    = (s'', Ok (bmap hs ws G x)) /\ ext s s''.
Proof.
  induction hs as [|h hs IH]; intros ws d d' s s' A dts G rt xdt x Hap HC Hd E Hx Hr.
  - exists s'. split; auto.
  - cbn [length cells tab blk_rows bmap].
    destruct (blk_row_ok ws d d' s s' h (A 0) (dts 0) (G 0) rt xdt x (vzero h)) as (s1 & E1 & X1); auto.
    { intros j Hj. apply (Hap 0 j); cbn; auto; lia. }
    { intros C. destruct (HC C) as [C1 C2]. split; auto. intros j Hj. apply C2; cbn; auto; lia. }
    { apply vzero_length. }
    destruct (IH ws d d' s s1 (fun i => A (S i)) (fun i => dts (S i)) (fun i => G (S i)) rt xdt x)
      as (s2 & E2 & X2); auto.
    { intros i j Hi Hj. apply (Hap (S i) j); cbn; auto; lia. }
    { intros C. destruct (HC C) as [C1 C2]. split; auto. intros i j Hi Hj. apply C2; cbn; auto; lia. }
    exists s2. split; auto.
    erewrite bind_ok by exact E1. erewrite bind_ok by exact E2. reflexivity.
Qed.

Lemma tab_heads : forall B hs nc (v : nat -> nat -> B) (s : st), 0 < nc ->
  mmap (fun r => lift (head_r r)) (tab hs (fun i => tab nc (v i))) s = (s, Ok (tab hs (fun i => v i 0))).
Proof. intros B hs nc v s H. apply mmap_tab. intros i Hi. destruct nc; [lia|]. reflexivity. Qed.

(** attributes of a family of blocks *)
Definition sized (s : st) (hs ws : list nat) (A : nat -> nat -> addr) : Prop :=
  forall i j, i < length hs -> j < length ws ->
    exists o, objs s (A i j) = Some o /\ o_nargin o = nth j ws 0 /\ o_nargout o = nth i hs 0.
Lemma sized_mono : forall (s s' : st) hs ws A, ext s s' -> sized s hs ws A -> sized s' hs ws A.
Proof.
  intros s s' hs ws A E H i j Hi Hj. destruct (H i j Hi Hj) as (o & Ho & H1 & H2).
  destruct (ext_obj _ _ E _ _ Ho) as (o' & Ho' & S). exists o'.
  rewrite <- (stable_nargin _ _ S), <- (stable_nargout _ _ S). auto.
Qed.
Lemma sized_nargin : forall (s : st) hs ws A, sized s hs ws A ->
  mmap (mmap (blk_attr o_nargin)) (cells (length hs) (length ws) A) s
  = (s, Ok (tab (length hs) (fun _ => ws))).
Proof.
  intros s hs ws A H. rewrite (cells_attr _ _ (fun _ j => nth j ws 0)).
  - rewrite tab_nth. reflexivity.
  - intros i j Hi Hj. destruct (H i j Hi Hj) as (o & ? & ? & ?). eauto.
Qed.
Lemma sized_nargout : forall (s : st) hs ws A, sized s hs ws A ->
  mmap (mmap (blk_attr o_nargout)) (cells (length hs) (length ws) A) s
  = (s, Ok (tab (length hs) (fun i => tab (length ws) (fun _ => nth i hs 0)))).
Proof.
  intros s hs ws A H. apply (cells_attr _ _ (fun i _ => nth i hs 0)).
  intros i j Hi Hj. destruct (H i j Hi Hj) as (o & ? & ? & ?). eauto.
Qed.

Definition sel (w : which) (b bT bH : list nat) : list nat := match w with WN => b | WT => bT | WH => bH end.
(** a family of blocks stored in the row lists [l] *)
Record fam (s : st) (dt : dtype) (l : list nat) (hs ws : list nat) (A : nat -> nat -> addr)
  (dts : nat -> nat -> dtype) (G : nat -> nat -> map1) : Prop := mkfam {
  fam_grid : grid s l (length hs) (length ws) A;
  fam_good : forall i j, i < length hs -> j < length ws ->
     GoodD s (A i j) (nth j ws 0) (nth i hs 0) (dts i j) (G i j);
  fam_dt : forall i j, i < length hs -> j < length ws -> is_complex (dts i j) = true -> is_complex dt = true
}.
Lemma fam_mono : forall (s s' : st) dt l hs ws A dts G, ext s s' -> fam s dt l hs ws A dts G ->
  fam s' dt l hs ws A dts G.
Proof.
  intros s s' dt l hs ws A dts G E [H1 H2 H3]. constructor; auto.
  - eapply grid_mono; eauto.
  - intros. eapply GoodD_mono; eauto.
Qed.
Lemma good_sized : forall (s : st) hs ws A dts G,
  (forall i j, i < length hs -> j < length ws ->
     GoodD s (A i j) (nth j ws 0) (nth i hs 0) (dts i j) (G i j)) -> sized s hs ws A.
Proof.
  intros s hs ws A dts G H i j Hi Hj. destruct (H i j Hi Hj) as [GG _].
  destruct (Good_attr _ _ _ _ _ GG) as (o & ? & ? & ? & _). eauto.
Qed.
Lemma fam_lin : forall (s : st) dt l hs ws A dts G, fam s dt l hs ws A dts G -> famlin hs ws G.
Proof.
  intros s dt l hs ws A dts G [_ H _] i j Hi Hj. destruct (H i j Hi Hj) as [GG _].
  eapply denotes_lin, Good_den; eauto.
Qed.

Lemma blk_matvec_ok : forall (s : st) hs ws A dts G dt, hs <> [] -> ws <> [] ->
  (forall i j, i < length hs -> j < length ws ->
     denotes s (A i j) (nth j ws 0) (nth i hs 0) (G i j) /\ dt_of s (A i j) (dts i j)) ->
  (forall i j, i < length hs -> j < length ws -> is_complex (dts i j) = true -> is_complex dt = true) ->
  exists d, forall d' s' x, d <= d' -> ext s s' -> awf x -> asize x = sum_nat ws ->
    exists s'', blk_matvec (apply d') dt (cells (length hs) (length ws) A) x s'
      = (s'', Ok (mkarr (result_type dt (adt x)) (bmap hs ws G (adata x)))) /\ ext s s''.
Proof.
  intros s hs ws A dts G dt Nh Nw HD HC.
  destruct (fam_fuel (length hs) (length ws)
     (fun i j d => apok d s (A i j) (nth j ws 0) (nth i hs 0) (dts i j) (G i j))) as [d Hap].
  { intros. eapply apok_fuel; eauto. }
  { intros i j Hi Hj. destruct (HD i j Hi Hj). eapply apok_den; eauto. }
  exists d. intros d' s' x Hd E Hx Hl.
  assert (SZ : sized s' hs ws A).
  { apply (sized_mono s); auto. intros i j Hi Hj. destruct (HD i j Hi Hj) as [(o & ? & ? & ? & ? & _) _]. eauto. }
  destruct (blk_rows_ok hs ws d d' s s' A dts G (result_type dt (adt x)) (adt x) (adata x))
    as (s2 & E2 & X2); auto.
  { rewrite result_type_complex. intros C. apply orb_false_elim in C. destruct C as [C1 C2].
    split; auto. intros i j Hi Hj. destruct (is_complex (dts i j)) eqn:Cd; auto.
    rewrite (HC _ _ Hi Hj Cd) in C1. auto. }
  exists s2. split; auto. unfold blk_matvec.
  erewrite bind_ok by (apply sized_nargin; exact SZ).
  erewrite bind_ok by (apply sized_nargout; exact SZ).
  destruct hs as [|h hs]; [congruence|].
  cbn [length tab head_r]. erewrite bind_ok by reflexivity.
  assert (Ehs : mmap (fun r => lift (head_r r))
     (tab (S (length hs)) (fun i => tab (length ws) (fun _ => nth i (h :: hs) 0))) s' = (s', Ok (h :: hs))).
  { rewrite (tab_heads _ _ (length ws) (fun i _ => nth i (h :: hs) 0)).
    - change (S (length hs)) with (length (h :: hs)). rewrite tab_nth. reflexivity.
    - destruct ws; [congruence|cbn; lia]. }
  cbn [tab] in Ehs. erewrite bind_ok by exact Ehs.
  rewrite Hl, Nat.eqb_refl. cbn [negb].
  cbn [cells length tab] in E2. erewrite bind_ok by exact E2. reflexivity.
Qed.

Lemma cden_blk : forall (s : st) K o b bT bH w hs ws A dts G, objs s K = Some o -> o_pay o = PBlk b bT bH ->
  hs <> [] -> ws <> [] ->
  grid s (sel w b bT bH) (length hs) (length ws) A ->
  (forall i j, i < length hs -> j < length ws ->
     denotes s (A i j) (nth j ws 0) (nth i hs 0) (G i j) /\ dt_of s (A i j) (dts i j)) ->
  (forall i j, i < length hs -> j < length ws -> is_complex (dts i j) = true ->
     is_complex (o_dtype o) = true) ->
  cden s (CBlk w K) (sum_nat ws) (bmap hs ws G).
Proof.
  intros s K o b bT bH w hs ws A dts G Ho Hp Nh Nw Gr HD HC.
  destruct (blk_matvec_ok s hs ws A dts G (o_dtype o) Nh Nw HD HC) as [d H].
  exists d. intros x Hx Hl. destruct (H d s x (le_n _) (ext_refl _) Hx Hl) as (s2 & E2 & _).
  exists s2. eexists. split.
  - cbn [call]. erewrite bind_ok by (apply getattr_ok; exact Ho). rewrite Hp.
    erewrite bind_ok by (apply getattr_ok; exact Ho).
    erewrite bind_ok by (apply grid_rows; exact Gr). exact E2.
  - reflexivity.
Qed.
Lemma fam_cden : forall (s : st) K o b bT bH w hs ws A dts G, objs s K = Some o -> o_pay o = PBlk b bT bH ->
  hs <> [] -> ws <> [] -> fam s (o_dtype o) (sel w b bT bH) hs ws A dts G ->
  cden s (CBlk w K) (sum_nat ws) (bmap hs ws G).
Proof.
  intros s K o b bT bH w hs ws A dts G Ho Hp Nh Nw [Gr GG HC].
  eapply cden_blk; eauto. intros i j Hi Hj. destruct (GG i j Hi Hj) as (G1 & D1 & _).
  split; [now apply Good_den|now apply Dts_dt].
Qed.
Lemma fam_refs : forall (s : st) K o b bT bH w hs ws A dts G dt, objs s K = Some o -> o_pay o = PBlk b bT bH ->
  fam s dt (sel w b bT bH) hs ws A dts G -> refsP (Acy s) s (CBlk w K).
Proof.
  intros s K o b bT bH w hs ws A dts G dt Ho Hp [[Lr Gr] GG _].
  exists o, b, bT, bH. split; auto. split; auto. fold (sel w b bT bH). intros l Hl.
  apply (In_nth _ _ 0) in Hl. destruct Hl as (i & Hi & <-). rewrite Lr in Hi.
  eexists. split; [apply (Gr i Hi)|]. intros c Hc. apply In_tab in Hc. destruct Hc as (j & Hj & Ec).
  injection Ec as <-. apply (GG i j Hi Hj).
Qed.

(** ** A block operator with honest families is good *)
Theorem blk_good : forall (s : st) K o b bT bH hs ws sym herm dt A dts G AT dT GT AH dH GH,
  objs s K = Some o -> o_pay o = PBlk b bT bH -> o_dtype o = dt -> hs <> [] -> ws <> [] ->
  desc s K (sum_nat ws) (sum_nat hs) (CBlk WN K) (Some (CBlk WT K)) (Some (CBlk WH K)) sym herm dt ->
  fam s dt b hs ws A dts G -> fam s dt bT ws hs AT dT GT -> fam s dt bH ws hs AH dH GH ->
  famtr hs ws G GT -> famad hs ws G GH ->
  (sym = true -> sum_nat ws = sum_nat hs /\ is_transpose (sum_nat ws) (sum_nat ws) (bmap hs ws G) (bmap hs ws G)) ->
  (herm = true -> sum_nat ws = sum_nat hs /\ is_adjoint (sum_nat ws) (sum_nat ws) (bmap hs ws G) (bmap hs ws G)) ->
  GoodD s K (sum_nat ws) (sum_nat hs) dt (bmap hs ws G).
Proof.
  intros s K o b bT bH hs ws sym herm dt A dts G AT dT GT AH dH GH Ho Hp Hdt Nh Nw D FN FT FH Tr Ad Hs Hh.
  pose proof (fam_lin _ _ _ _ _ _ _ _ FN) as LN.
  pose proof (fam_lin _ _ _ _ _ _ _ _ FT) as LT.
  pose proof (fam_lin _ _ _ _ _ _ _ _ FH) as LH. subst dt.
  split; [|split].
  - eapply (desc_good FOK) with (fT := bmap ws hs GT) (fH := bmap ws hs GH); eauto.
    { unfold complete. destruct sym, herm, (is_complex (o_dtype o)); auto. }
    constructor; auto.
    + now apply (bmap_lin FOK).
    + now apply (bmap_lin FOK).
    + now apply (bmap_lin FOK).
    + now apply (bmap_tr FOK).
    + now apply (bmap_ad FOK).
    + intros C. apply (bmap_real FOK). intros i j Hi Hj.
      eapply GoodD_real; [apply (fam_good _ _ _ _ _ _ _ _ FN); auto|].
      destruct (is_complex (dts i j)) eqn:Cd; auto.
      rewrite (fam_dt _ _ _ _ _ _ _ _ FN _ _ Hi Hj Cd) in C. auto.
    + eapply (fam_cden s K o b bT bH WN); eauto.
    + intros ct Ec; injection Ec as <-. eapply (fam_cden s K o b bT bH WT); eauto.
    + intros ct Ec; injection Ec as <-. eapply (fam_cden s K o b bT bH WH); eauto.
  - eapply desc_dts; eauto.
  - eapply desc_acy; [exact D| | |].
    + eapply (fam_refs s K o b bT bH WN); eauto.
    + intros ct Ec; injection Ec as <-. eapply (fam_refs s K o b bT bH WT); eauto.
    + intros ct Ec; injection Ec as <-. eapply (fam_refs s K o b bT bH WH); eauto.
Qed.

(** ** Construction *)
Lemma same_all_const : forall n (v : nat), 0 < n -> same_all (tab n (fun _ => v)) = Ok tt.
Proof.
  intros [|n] v H; [lia|]. cbn.
  assert (E : forallb (Nat.eqb v) (tab n (fun _ => v)) = true).
  { clear. induction n; cbn; auto. now rewrite Nat.eqb_refl. }
  now rewrite E.
Qed.
Lemma mfor_tab : forall A n (g : nat -> A) (f : A -> M unit) s,
  (forall i, i < n -> f (g i) s = (s, Ok tt)) -> mfor (tab n g) f s = (s, Ok tt).
Proof.
  induction n; intros g f s H; auto. cbn [tab mfor].
  erewrite bind_ok by (apply H; lia). apply IHn. intros. apply H. lia.
Qed.
Lemma block_shapes_ok : forall (s : st) hs ws A, sized s hs ws A -> hs <> [] -> ws <> [] ->
  block_shapes (cells (length hs) (length ws) A) s = (s, Ok (sum_nat ws, sum_nat hs)).
Proof.
  intros s hs ws A SZ Nh Nw. unfold block_shapes.
  assert (Lh : 0 < length hs) by (destruct hs; [congruence|cbn; lia]).
  assert (Lw : 0 < length ws) by (destruct ws; [congruence|cbn; lia]).
  erewrite bind_ok by (apply sized_nargin; exact SZ).
  erewrite bind_ok.
  2: { apply (mmap_tab _ _ (fun r => lift (head_r r)) (length hs) (fun _ => ws) (fun _ => nth 0 ws 0)).
       intros. destruct ws; [cbn in Lw; lia|]. reflexivity. }
  rewrite same_all_const by auto. erewrite bind_ok by reflexivity.
  erewrite bind_ok by (apply sized_nargout; exact SZ).
  erewrite bind_ok.
  2: { apply mfor_tab. intros i Hi. cbn. now rewrite same_all_const by auto. }
  erewrite bind_ok.
  2: { instantiate (2 := s). instantiate (1 := ws). destruct hs; [cbn in Lh; lia|]. reflexivity. }
  erewrite bind_ok.
  2: { apply (tab_heads _ _ (length ws) (fun i _ => nth i hs 0)). auto. }
  rewrite tab_nth. reflexivity.
Qed.

Lemma mmap_pure : forall A B (f : A -> M B) (s : st) l v,
  Forall2 (fun a b => f a s = (s, Ok b)) l v -> mmap f l s = (s, Ok v).
Proof.
  intros A B f s l v H. induction H; auto. cbn [mmap].
  erewrite bind_ok by exact H. erewrite bind_ok by exact IHForall2. reflexivity.
Qed.
Lemma Forall2_tab : forall A B (P : A -> B -> Prop) n f g,
  (forall i, i < n -> P (f i) (g i)) -> Forall2 P (tab n f) (tab n g).
Proof.
  induction n; intros f g H; cbn; constructor.
  - apply H; lia.
  - apply IHn. intros. apply H. lia.
Qed.
Lemma Forall2_concat : forall A B (P : A -> B -> Prop) l v,
  Forall2 (Forall2 P) l v -> Forall2 P (concat l) (concat v).
Proof. intros A B P l v H. induction H; cbn; auto. now apply Forall2_app. Qed.
Lemma cells_dtypes : forall (s : st) nr nc A dts,
  (forall i j, i < nr -> j < nc -> dt_of s (A i j) (dts i j)) ->
  mmap (blk_attr o_dtype) (concat (cells nr nc A)) s
  = (s, Ok (concat (tab nr (fun i => tab nc (dts i))))).
Proof.
  intros s nr nc A dts H. apply mmap_pure, Forall2_concat. apply Forall2_tab. intros i Hi.
  apply Forall2_tab. intros j Hj. destruct (H i j Hi Hj) as (o & Ho & <-). now apply getattr_ok.
Qed.

(** allocating rows *)
Definition rowst (r : list (option addr)) (s : st) : st :=
  mkst (nxt s) (objs s) (narr s) (arrs s) (S (nrow s)) (upd (rows s) (nrow s) (Some r)).
Lemma ext_rowst : forall r (s : st), wfst s -> ext s (rowst r s).
Proof.
  intros r s W. constructor; cbn; auto.
  - intros a o Ho. exists o. split; auto. apply same_refl.
  - intros l x Hx. unfold upd. destruct (Nat.eqb_spec l (nrow s)) as [->|]; auto.
    destruct W as (_ & _ & W3). rewrite W3 in Hx by lia. discriminate.
Qed.
Lemma wf_rowst : forall r (s : st), wfst s -> wfst (rowst r s).
Proof.
  intros r s (W1 & W2 & W3). split; [|split]; cbn; auto.
  intros l Hl. unfold upd. destruct (Nat.eqb_spec l (nrow s)); [lia|apply W3; lia].
Qed.
Lemma mmap_new : forall A n (g : nat -> A) (r : nat -> list (option addr)) (f : A -> M nat) (s : st), wfst s ->
  (forall i s', i < n -> objs s' = objs s -> f (g i) s' = new_row (r i) s') ->
  exists s', mmap f (tab n g) s = (s', Ok (seq (nrow s) n)) /\ ext s s' /\ wfst s' /\
    objs s' = objs s /\ nxt s' = nxt s /\ forall i, i < n -> rows s' (nrow s + i) = Some (r i).
Proof.
  induction n; intros g r f s W H.
  - exists s. split; [reflexivity|]. split; [apply ext_refl|]. split; [exact W|].
    split; [reflexivity|]. split; [reflexivity|]. intros; lia.
  - destruct (IHn (fun i => g (S i)) (fun i => r (S i)) f (rowst (r 0) s)) as (s' & E & X & W' & O & N & R).
    { now apply wf_rowst. }
    { intros i s' Hi Es. apply H; auto. lia. }
    exists s'. split.
    { cbn [tab mmap]. erewrite bind_ok by (rewrite H; [reflexivity|lia|reflexivity]).
      erewrite bind_ok by exact E. reflexivity. }
    split; [eapply ext_trans; [now apply ext_rowst|exact X]|].
    split; auto. split; auto. split; auto.
    intros [|i] Hi.
    + rewrite Nat.add_0_r. apply (ext_row _ _ X). cbn. unfold upd. now rewrite Nat.eqb_refl.
    + rewrite <- (R i) by lia. cbn [nrow rowst]. now rewrite Nat.add_succ_r.
Qed.
Lemma seq_grid : forall (s : st) k nr nc A,
  (forall i, i < nr -> rows s (k + i) = Some (tab nc (fun j => Some (A i j)))) ->
  grid s (seq k nr) nr nc A.
Proof.
  intros s k nr nc A H. split; [apply seq_length|]. intros i Hi. rewrite seq_nth by auto. auto.
Qed.

Definition attr_of (w : which) : obj -> option addr := match w with WH => o_H | _ => o_T end.
Lemma cells_column : forall nr nc A c, c < nc ->
  column (cells nr nc A) c = tab nr (fun i => Some (A i c)).
Proof.
  intros nr nc A c Hc. unfold column, cells. rewrite map_tab. apply tab_ext. intros i Hi.
  now rewrite nth_tab.
Qed.
Lemma cells_max : forall nr nc A, 0 < nr -> max_len (cells nr nc A) = nc.
Proof.
  intros nr nc A H. unfold max_len, cells. rewrite map_tab. destruct nr; [lia|]. clear H.
  assert (E : forall k n, fold_right max 0 (tab k (fun _ => n)) <= n).
  { induction k; intros; cbn; [lia|]. specialize (IHk n). lia. }
  cbn. rewrite tab_length. rewrite (tab_ext _ _ _ (fun _ => nc)) by (intros; apply tab_length).
  specialize (E nr nc). lia.
Qed.
Lemma attr_cols_ok : forall w (s : st) nr nc A A', w <> WN -> wfst s -> 0 < nr ->
  (forall i j, i < nr -> j < nc -> wtgt s w (A i j) (A' j i)) ->
  exists s' l, attr_cols (attr_of w) (cells nr nc A) s = (s', Ok l) /\ ext s s' /\ wfst s' /\
    objs s' = objs s /\ nxt s' = nxt s /\ grid s' l nc nr A'.
Proof.
  intros w s nr nc A A' Nw W Hr HT. unfold attr_cols. rewrite cells_max by auto.
  rewrite <- (map_id (seq 0 nc)), <- tab_map.
  destruct (mmap_new nat nc (fun i => i) (fun c => tab nr (fun i => Some (A' c i)))
    (fun c => bind (mmap (blk_attr (attr_of w)) (column (cells nr nc A) c)) (fun l => new_row l)) s W)
    as (s' & E & X & W' & O & N & R).
  { intros c s' Hc Es. rewrite cells_column by auto.
    erewrite bind_ok; [reflexivity|]. apply mmap_tab. intros i Hi.
    specialize (HT i c Hi Hc). destruct w; [congruence| |]; destruct HT as (o & Ho & Ht);
      cbn [blk_attr attr_of]; rewrite <- Ht; apply getattr_ok; rewrite Es; exact Ho. }
  exists s', (seq (nrow s) nc). split; [exact E|]. split; auto. split; auto. split; auto. split; auto.
  now apply seq_grid.
Qed.

(** attributes of self after LinearOperator.__init__ *)
Lemma desc_self : forall (s : st) N n m c ct ch sym herm dt o,
  desc s N n m c (Some ct) (Some ch) sym herm dt -> objs s N = Some o ->
  o_nargin o = n /\ o_nargout o = m /\ o_sym o = sym /\ o_herm o = herm /\ o_dtype o = dt /\ o_mv o = c /\
  is_self N (o_T o) = sym /\ is_self N (o_H o) = (herm && negb (sym && is_complex dt)).
Proof.
  intros s N n m c ct ch sym herm dt o D Ho. unfold desc in D.
  destruct (is_complex dt), sym, herm; cbv beta iota in D; cbn [andb negb];
    repeat match goal with H : exists _, _ |- _ => destruct H end;
    repeat match goal with H : _ /\ _ |- _ => destruct H end;
    match goal with H : has s N _ _ _ _ _ _ _ _ |- _ =>
      destruct H as (o' & Ho' & K1 & K2 & K3 & K4 & K5 & K6 & K7 & K8) end;
    rewrite Ho in Ho'; injection Ho' as <-; rewrite K7, K8; cbn [is_self];
    rewrite ?Nat.eqb_refl; repeat (split; [assumption|]); split;
    try reflexivity; apply Nat.eqb_neq; assumption.
Qed.
Lemma desc_pay : forall (s : st) N n m c ct ch sym herm dt p o, objs s N = Some o ->
  desc s N n m c (Some ct) (Some ch) sym herm dt ->
  desc (set_obj N (with_pay p o) s) N n m c (Some ct) (Some ch) sym herm dt.
Proof.
  intros s N n m c ct ch sym herm dt p o Ho D.
  assert (HH : forall a n m sy he dt c T H, has s a n m sy he dt c T H ->
    has (set_obj N (with_pay p o) s) a n m sy he dt c T H).
  { clear - Ho. intros a n m sy he dt c T H (oa & Ha & R).
    destruct (Nat.eq_dec a N) as [->|Ne].
    - rewrite Ho in Ha; inversion Ha; subst oa.
      exists (with_pay p o). split; [apply get_set_eq|]. exact R.
    - exists oa. split; auto. now apply get_set_ne. }
  unfold desc in *. destruct (is_complex dt), sym, herm; cbv beta iota in *;
    repeat match goal with H : exists _, _ |- _ => destruct H end;
    repeat match goal with H : _ /\ _ |- _ => destruct H end;
    repeat match goal with |- exists _, _ => eexists end; repeat split; eauto.
Qed.

(** which list of rows becomes self._blocks *)
Definition self_blocks (sym herm : bool) (dt : dtype) (b bT bH : list nat) : list nat :=
  if herm && negb (sym && is_complex dt) then bH else if sym then bT else b.
Theorem block_build_spec : forall (s : st) rs hs ws A AT AH dts dt sym herm, wfst s -> hs <> [] -> ws <> [] ->
  grid s rs (length hs) (length ws) A -> sized s hs ws A ->
  (forall i j, i < length hs -> j < length ws -> wtgt s WT (A i j) (AT j i)) ->
  (forall i j, i < length hs -> j < length ws -> wtgt s WH (A i j) (AH j i)) ->
  (forall i j, i < length hs -> j < length ws -> dt_of s (A i j) (dts i j)) ->
  result_types (concat (tab (length hs) (fun i => tab (length ws) (dts i)))) = Ok dt ->
  exists s' o bT bH, block_build sym herm rs s = (s', Ok (nxt s)) /\ ext s s' /\ wfst s' /\
    nxt s < nxt s' /\
    objs s' (nxt s) = Some o /\ o_pay o = PBlk (self_blocks sym herm dt rs bT bH) bT bH /\
    o_dtype o = dt /\
    desc s' (nxt s) (sum_nat ws) (sum_nat hs) (CBlk WN (nxt s)) (Some (CBlk WT (nxt s)))
      (Some (CBlk WH (nxt s))) sym herm dt /\
    grid s' bT (length ws) (length hs) AT /\ grid s' bH (length ws) (length hs) AH.
Proof.
  intros s rs hs ws A AT AH dts dt sym herm W Nh Nw Gr SZ TT TH HD Hdt.
  assert (Lh : 0 < length hs) by (destruct hs; [congruence|cbn; lia]).
  unfold block_build.
  erewrite bind_ok by (apply grid_rows; exact Gr).
  erewrite bind_ok by (apply block_shapes_ok; auto). cbn [fst snd].
  destruct (attr_cols_ok WT s (length hs) (length ws) A AT) as (s1 & bT & E1 & X1 & W1 & O1 & N1 & G1);
    auto; try discriminate.
  cbn [attr_of] in E1. erewrite bind_ok by exact E1.
  destruct (attr_cols_ok WH s1 (length hs) (length ws) A AH) as (s2 & bH & E2 & X2 & W2 & O2 & N2 & G2);
    auto; try discriminate.
  { intros. eapply wtgt_mono; eauto. }
  cbn [attr_of] in E2. erewrite bind_ok by exact E2.
  erewrite bind_ok.
  2: { apply cells_dtypes. intros i j Hi Hj. destruct (HD i j Hi Hj) as (o & Ho & Hd).
       exists o. split; [|exact Hd]. now rewrite O2, O1. }
  rewrite Hdt. erewrite bind_ok by reflexivity. erewrite bind_ok by reflexivity.
  assert (NN : nxt s2 = nxt s) by congruence. rewrite NN.
  destruct (new_linop_desc s2 (sum_nat ws) (sum_nat hs) (CBlk WN (nxt s)) (Some (CBlk WT (nxt s)))
     (Some (CBlk WH (nxt s))) sym herm dt W2) as (s3 & E3 & X3 & W3 & L3 & D3 & (o & Ho & Hp & Hc)).
  rewrite NN in *.
  erewrite bind_ok by exact E3.
  erewrite bind_ok by (apply getattr_ok; exact Ho).
  erewrite bind_ok by (apply getattr_ok; exact Ho).
  erewrite bind_ok by (unfold modobj; rewrite Ho; reflexivity).
  destruct (desc_self _ _ _ _ _ _ _ _ _ _ _ D3 Ho) as (_ & _ & _ & _ & Hd & _ & HT & HH).
  rewrite HT, HH.
  set (b := if herm && negb (sym && is_complex dt) then bH else if sym then bT else rs).
  set (s4 := set_obj (nxt s) (with_pay (PBlk b bT bH) o) s3).
  exists s4, (with_pay (PBlk b bT bH) o), bT, bH.
  assert (X4 : ext s2 s4).
  { apply ext_set_fresh; auto. apply (proj1 W2). lia. }
  split; [reflexivity|].
  split; [eapply ext_trans; [exact X1|]; eapply ext_trans; [exact X2|exact X4]|].
  split; [apply wf_set; auto|].
  split; [exact L3|].
  split; [apply get_set_eq|]. split; [reflexivity|]. split; [exact Hd|].
  split; [now apply desc_pay|].
  split; [eapply grid_mono; [|exact G1]; eapply ext_trans; [exact X2|exact X4]|].
  eapply grid_mono; [|exact G2]. exact X4.
Qed.

(** *** families of transposes and adjoints *)
Lemma fam_T : forall (s : st) hs ws A dts G,
  (forall i j, i < length hs -> j < length ws ->
     GoodD s (A i j) (nth j ws 0) (nth i hs 0) (dts i j) (G i j)) ->
  exists AT GT, (forall i j, i < length hs -> j < length ws -> wtgt s WT (A i j) (AT j i)) /\
    (forall j i, j < length ws -> i < length hs ->
       GoodD s (AT j i) (nth i hs 0) (nth j ws 0) (dts i j) (GT j i)) /\ famtr hs ws G GT.
Proof.
  intros s hs ws A dts G H.
  destruct (fin_choice2 (addr * map1) (0, fun x => x) (length ws) (length hs) (fun j i p =>
     wtgt s WT (A i j) (fst p) /\ GoodD s (fst p) (nth i hs 0) (nth j ws 0) (dts i j) (snd p) /\
     is_transpose (nth j ws 0) (nth i hs 0) (G i j) (snd p))) as [f Hf].
  { intros j i Hj Hi. destruct (H i j Hi Hj) as (GG & DD & AA).
    destruct (Good_T _ _ _ _ _ GG) as (t & g & Wt & Gt & Tr). exists (t, g). cbn.
    split; auto. split; auto. split; [auto|]. split; [eapply Dts_w; eauto|eapply Acy_w; eauto]. }
  exists (fun j i => fst (f j i)), (fun j i => snd (f j i)). split; [|split].
  - intros i j Hi Hj. apply Hf; auto.
  - intros j i Hj Hi. apply Hf; auto.
  - intros i j Hi Hj. apply Hf; auto.
Qed.
Lemma fam_H : forall (s : st) hs ws A dts G,
  (forall i j, i < length hs -> j < length ws ->
     GoodD s (A i j) (nth j ws 0) (nth i hs 0) (dts i j) (G i j)) ->
  exists AT GT, (forall i j, i < length hs -> j < length ws -> wtgt s WH (A i j) (AT j i)) /\
    (forall j i, j < length ws -> i < length hs ->
       GoodD s (AT j i) (nth i hs 0) (nth j ws 0) (dts i j) (GT j i)) /\ famad hs ws G GT.
Proof.
  intros s hs ws A dts G H.
  destruct (fin_choice2 (addr * map1) (0, fun x => x) (length ws) (length hs) (fun j i p =>
     wtgt s WH (A i j) (fst p) /\ GoodD s (fst p) (nth i hs 0) (nth j ws 0) (dts i j) (snd p) /\
     is_adjoint (nth j ws 0) (nth i hs 0) (G i j) (snd p))) as [f Hf].
  { intros j i Hj Hi. destruct (H i j Hi Hj) as (GG & DD & AA).
    destruct (Good_H _ _ _ _ _ GG) as (t & g & Wt & Gt & Tr). exists (t, g). cbn.
    split; auto. split; auto. split; [auto|]. split; [eapply Dts_w; eauto|eapply Acy_w; eauto]. }
  exists (fun j i => fst (f j i)), (fun j i => snd (f j i)). split; [|split].
  - intros i j Hi Hj. apply Hf; auto.
  - intros j i Hj Hi. apply Hf; auto.
  - intros i j Hi Hj. apply Hf; auto.
Qed.
Lemma dtypes_in : forall nr nc (dts : nat -> nat -> dtype) i j, i < nr -> j < nc ->
  In (dts i j) (concat (tab nr (fun i => tab nc (dts i)))).
Proof.
  intros nr nc dts i j Hi Hj. apply in_concat. exists (tab nc (dts i)). split.
  - apply In_tab. eauto.
  - apply In_tab. eauto.
Qed.
Lemma dtypes_some : forall nr nc (dts : nat -> nat -> dtype), 0 < nr -> 0 < nc ->
  exists dt, result_types (concat (tab nr (fun i => tab nc (dts i)))) = Ok dt.
Proof. intros [|nr] [|nc] dts H H'; try lia. cbn. eauto. Qed.

(** *** non-symmetric layouts *)
Theorem block_op_builds : forall (s : st) rs hs ws A dts G dt, wfst s -> hs <> [] -> ws <> [] ->
  grid s rs (length hs) (length ws) A ->
  (forall i j, i < length hs -> j < length ws ->
     GoodD s (A i j) (nth j ws 0) (nth i hs 0) (dts i j) (G i j)) ->
  result_types (concat (tab (length hs) (fun i => tab (length ws) (dts i)))) = Ok dt ->
  builds (block_op false false rs) s (sum_nat ws) (sum_nat hs) dt (bmap hs ws G).
Proof.
  intros s rs hs ws A dts G dt W Nh Nw Gr HG Hdt.
  destruct (fam_T _ _ _ _ _ _ HG) as (AT & GT & TT & HGT & Tr).
  destruct (fam_H _ _ _ _ _ _ HG) as (AH & GH & TH & HGH & Ad).
  destruct (block_build_spec s rs hs ws A AT AH dts dt false false) as
    (s' & o & bT & bH & E & X & W' & L & Ho & Hp & Hd & D & GrT & GrH); auto.
  { eapply good_sized; eauto. }
  { intros. apply Dts_dt. now apply HG. }
  exists s', (nxt s). split; [exact E|]. split; auto. split; auto.
  cbn in Hp.
  assert (HC : forall i j, i < length hs -> j < length ws -> is_complex (dts i j) = true -> is_complex dt = true).
  { intros i j Hi Hj C. eapply result_types_in; [exact Hdt| |exact C]. now apply dtypes_in. }
  eapply (blk_good s' (nxt s) o rs bT bH hs ws false false dt A dts G AT (fun j i => dts i j) GT
            AH (fun j i => dts i j) GH); auto; try discriminate.
  - constructor; auto.
    + eapply grid_mono; eauto.
    + intros. eapply GoodD_mono; eauto.
  - constructor; auto; intros; [eapply GoodD_mono; eauto|eapply HC; [| |eassumption]; auto].
  - constructor; auto; intros; [eapply GoodD_mono; eauto|eapply HC; [| |eassumption]; auto].
Qed.
End BlkP.
