(** * Block vectors and block linear maps: the mathematics behind blkop.py. *)
From Coq Require Import List ZArith Lia Bool Ring.
From Verif Require Import Base Field Vec LinopModel LinopOps.
Import ListNotations.

(** [tab n f] = [f 0; ...; f (n-1)] *)
Fixpoint tab {A} (n : nat) (f : nat -> A) : list A :=
  match n with O => [] | S n' => f 0 :: tab n' (fun i => f (S i)) end.
Lemma tab_length : forall A n (f : nat -> A), length (tab n f) = n.
Proof. induction n; cbn; auto. Qed.
Lemma tab_ext : forall A n (f g : nat -> A), (forall i, i < n -> f i = g i) -> tab n f = tab n g.
Proof.
  induction n; cbn; intros f g H; auto. f_equal; [apply H; lia|]. apply IHn. intros; apply H; lia.
Qed.
Lemma tab_map : forall A n (f : nat -> A), tab n f = map f (seq 0 n).
Proof.
  induction n; intros; cbn; auto. f_equal. rewrite IHn, <- seq_shift, map_map. auto.
Qed.
Lemma map_tab : forall A B (h : A -> B) n (f : nat -> A), map h (tab n f) = tab n (fun i => h (f i)).
Proof. induction n; intros; cbn; auto. f_equal. apply IHn. Qed.
Lemma nth_error_tab : forall A n (f : nat -> A) i, i < n -> nth_error (tab n f) i = Some (f i).
Proof.
  induction n; intros f i H; [lia|]. destruct i; cbn; auto. apply (IHn (fun i => f (S i))). lia.
Qed.
Lemma nth_tab : forall A n (f : nat -> A) i d, i < n -> nth i (tab n f) d = f i.
Proof. intros. apply nth_error_nth. now apply nth_error_tab. Qed.
Lemma tab_nth : forall A (l : list A) d, tab (length l) (fun i => nth i l d) = l.
Proof. induction l; intros; cbn; auto. f_equal. apply IHl. Qed.
Lemma In_tab : forall A n (f : nat -> A) a, In a (tab n f) <-> exists i, i < n /\ f i = a.
Proof.
  induction n; intros f a; cbn.
  - split; [tauto|intros (i & H & _); lia].
  - rewrite IHn. split.
    + intros [H|(i & H & E)]; [exists 0|exists (S i)]; split; auto; lia.
    + intros (i & H & E). destruct i; [left; auto|right; exists i; split; auto; lia].
Qed.
Lemma tab_app1 : forall A n (f : nat -> A), tab (S n) f = tab n f ++ [f n].
Proof. induction n; intros; auto. cbn [tab app]. f_equal. apply (IHn (fun i => f (S i))). Qed.

Section Blk.
Context {F : Fld} (FOK : FldOK F).
Add Ring KringB : (fk_ring F FOK).
Notation map1 := (list F -> list F).

(** ** Specification, by explicit indices *)
(** block [j] of a vector partitioned according to the sizes [ws] *)
Definition slice (ws : list nat) (j : nat) (x : list F) : list F :=
  firstn (nth j ws 0) (skipn (sum_nat (firstn j ws)) x).
Definition vsum (n : nat) (l : list (list F)) : list F := fold_left vadd l (vzero n).
(** row i: sum over j of F i j (x_j) *)
Definition blkmap (hs ws : list nat) (G : nat -> nat -> map1) (x : list F) : list F :=
  concat (map (fun i => vsum (nth i hs 0) (map (fun j => G i j (slice ws j x)) (seq 0 (length ws))))
              (seq 0 (length hs))).
Definition diagmap (ws : list nat) (g : nat -> map1) (x : list F) : list F :=
  concat (map (fun i => g i (slice ws i x)) (seq 0 (length ws))).

(** ** Recursive forms *)
Fixpoint rowsum (ws : list nat) (f : nat -> map1) (x acc : list F) : list F :=
  match ws with
  | [] => acc
  | w :: ws' => rowsum ws' (fun j => f (S j)) (skipn w x) (vadd acc (f 0 (firstn w x)))
  end.
Fixpoint bmap (hs ws : list nat) (G : nat -> nat -> map1) (x : list F) : list F :=
  match hs with
  | [] => []
  | h :: hs' => rowsum ws (G 0) x (vzero h) ++ bmap hs' ws (fun i => G (S i)) x
  end.
Fixpoint colmap (n : nat) (g : nat -> map1) (z : list F) : list F :=
  match n with O => [] | S n' => g 0 z ++ colmap n' (fun j => g (S j)) z end.
Fixpoint bdmap (ws : list nat) (g : nat -> map1) (x : list F) : list F :=
  match ws with
  | [] => []
  | w :: ws' => g 0 (firstn w x) ++ bdmap ws' (fun i => g (S i)) (skipn w x)
  end.

Lemma slice_0 : forall w ws x, slice (w :: ws) 0 x = firstn w x.
Proof. reflexivity. Qed.
Lemma skipn_skipn' : forall (x : list F) a b, skipn a (skipn b x) = skipn (b + a) x.
Proof. intros x a b. revert x. induction b; intros x; cbn; auto. destruct x; auto. apply skipn_nil. Qed.
Lemma slice_S : forall w ws j x, slice (w :: ws) (S j) x = slice ws j (skipn w x).
Proof. intros. unfold slice. cbn. now rewrite skipn_skipn'. Qed.

Lemma rowsum_spec : forall ws f x acc,
  rowsum ws f x acc = fold_left vadd (map (fun j => f j (slice ws j x)) (seq 0 (length ws))) acc.
Proof.
  induction ws; intros; auto. cbn [rowsum length seq map fold_left]. rewrite IHws, <- seq_shift, map_map.
  rewrite slice_0. f_equal. apply map_ext. intros j. now rewrite slice_S.
Qed.
Lemma bmap_spec : forall hs ws G x, bmap hs ws G x = blkmap hs ws G x.
Proof.
  unfold blkmap. induction hs; intros; auto. cbn [bmap length seq map concat].
  rewrite IHhs, rowsum_spec, <- seq_shift, map_map. auto.
Qed.
Lemma bdmap_spec : forall ws g x, bdmap ws g x = diagmap ws g x.
Proof.
  unfold diagmap. induction ws; intros; auto. cbn [bdmap length seq map concat].
  rewrite IHws, <- seq_shift, map_map, slice_0. do 2 f_equal. apply map_ext. intros j. now rewrite slice_S.
Qed.

(** ** Lists *)
Lemma vadd_assoc : forall x y z : list F, vadd x (vadd y z) = vadd (vadd x y) z.
Proof. induction x; destruct y, z; cbn; auto. f_equal; [ring|apply IHx]. Qed.
Lemma vadd_zero_l : forall n (x : list F), length x = n -> vadd (vzero n) x = x.
Proof. intros n x <-. induction x; cbn; auto. f_equal; [ring|exact IHx]. Qed.
Lemma vadd_zero_r : forall n (x : list F), length x = n -> vadd x (vzero n) = x.
Proof. intros n x <-. induction x; cbn; auto. f_equal; [ring|exact IHx]. Qed.
Lemma vadd_comm : forall x y : list F, vadd x y = vadd y x.
Proof. induction x; destruct y; cbn; auto. f_equal; [ring|apply IHx]. Qed.
Lemma vadd_app : forall x y x' y' : list F, length x = length y ->
  vadd (x ++ x') (y ++ y') = vadd x y ++ vadd x' y'.
Proof. induction x; destruct y; cbn; intros; auto; try discriminate. f_equal. apply IHx. auto. Qed.
Lemma vscale_app : forall c (x y : list F), vscale c (x ++ y) = vscale c x ++ vscale c y.
Proof. intros. apply map_app. Qed.
Lemma vconj_app : forall x y : list F, vconj (x ++ y) = vconj x ++ vconj y.
Proof. intros. apply map_app. Qed.
Lemma vzero_app : forall a b, @vzero F (a + b) = vzero a ++ vzero b.
Proof. intros. apply repeat_app. Qed.
Lemma dot_app : forall x y x' y' : list F, length x = length y ->
  dot (x ++ x') (y ++ y') = kadd (dot x y) (dot x' y').
Proof. induction x; destruct y; cbn; intros; try discriminate; [ring|]. rewrite IHx by auto. ring. Qed.
Lemma firstn_vadd : forall n (x y : list F), firstn n (vadd x y) = vadd (firstn n x) (firstn n y).
Proof. induction n; destruct x, y; cbn; auto. f_equal. apply IHn. Qed.
Lemma skipn_vadd : forall n (x y : list F), length x = length y ->
  skipn n (vadd x y) = vadd (skipn n x) (skipn n y).
Proof. induction n; destruct x, y; cbn; intros; try discriminate; auto. apply IHn. lia. Qed.
Lemma firstn_vscale : forall n c (x : list F), firstn n (vscale c x) = vscale c (firstn n x).
Proof. intros. apply firstn_map. Qed.
Lemma skipn_vscale : forall n c (x : list F), skipn n (vscale c x) = vscale c (skipn n x).
Proof. intros. apply skipn_map. Qed.
Lemma firstn_vconj : forall n (x : list F), firstn n (vconj x) = vconj (firstn n x).
Proof. intros. apply firstn_map. Qed.
Lemma skipn_vconj : forall n (x : list F), skipn n (vconj x) = vconj (skipn n x).
Proof. intros. apply skipn_map. Qed.
Lemma firstn_sum : forall (x : list F) w r, length x = w + r -> length (firstn w x) = w.
Proof. intros. rewrite firstn_length. lia. Qed.
Lemma skipn_sum : forall (x : list F) w r, length x = w + r -> length (skipn w x) = r.
Proof. intros. rewrite skipn_length. lia. Qed.

(** ** Linearity *)
Definition rowlin (h : nat) (ws : list nat) (f : nat -> map1) : Prop :=
  forall j, j < length ws -> linmap (nth j ws 0) h (f j).
Definition famlin (hs ws : list nat) (G : nat -> nat -> map1) : Prop :=
  forall i j, i < length hs -> j < length ws -> linmap (nth j ws 0) (nth i hs 0) (G i j).
Definition famtr (hs ws : list nat) (G G' : nat -> nat -> map1) : Prop :=
  forall i j, i < length hs -> j < length ws -> is_transpose (nth j ws 0) (nth i hs 0) (G i j) (G' j i).
Definition famad (hs ws : list nat) (G G' : nat -> nat -> map1) : Prop :=
  forall i j, i < length hs -> j < length ws -> is_adjoint (nth j ws 0) (nth i hs 0) (G i j) (G' j i).
Lemma rowlin_0 : forall h w ws f, rowlin h (w :: ws) f -> linmap w h (f 0).
Proof. intros h w ws f H. apply (H 0). cbn; lia. Qed.
Lemma rowlin_S : forall h w ws f, rowlin h (w :: ws) f -> rowlin h ws (fun j => f (S j)).
Proof. intros h w ws f H j Hj. apply (H (S j)). cbn; lia. Qed.
Lemma famlin_0 : forall h hs ws G, famlin (h :: hs) ws G -> rowlin h ws (G 0).
Proof. intros h hs ws G H j Hj. apply (H 0 j); cbn; auto; lia. Qed.
Lemma famlin_S : forall h hs ws G, famlin (h :: hs) ws G -> famlin hs ws (fun i => G (S i)).
Proof. intros h hs ws G H i j Hi Hj. apply (H (S i) j); cbn; auto; lia. Qed.

Lemma rowsum_length : forall ws h f x acc, rowlin h ws f -> length x = sum_nat ws -> length acc = h ->
  length (rowsum ws f x acc) = h.
Proof.
  induction ws; intros h f x acc L Hx Ha; auto. cbn [rowsum]. cbn in Hx.
  apply IHws; [eapply rowlin_S; eauto|eapply skipn_sum; eauto|].
  rewrite vadd_length; auto. rewrite (lin_len _ _ _ (rowlin_0 _ _ _ _ L)); auto. eapply firstn_sum; eauto.
Qed.
Lemma rowsum_acc : forall ws f x a b, rowsum ws f x (vadd a b) = vadd a (rowsum ws f x b).
Proof. induction ws; intros; auto. cbn [rowsum]. rewrite <- vadd_assoc. apply IHws. Qed.
Lemma rowsum_add : forall ws h f x y a b, rowlin h ws f ->
  length x = sum_nat ws -> length y = sum_nat ws -> length a = h -> length b = h ->
  rowsum ws f (vadd x y) (vadd a b) = vadd (rowsum ws f x a) (rowsum ws f y b).
Proof.
  induction ws; intros h f x y a' b' L Hx Hy Ha Hb; auto. cbn [rowsum]. cbn in Hx, Hy.
  pose proof (rowlin_0 _ _ _ _ L) as L0.
  assert (Fx := firstn_sum _ _ _ Hx). assert (Fy := firstn_sum _ _ _ Hy).
  rewrite firstn_vadd, skipn_vadd by congruence. rewrite (lin_add _ _ _ L0) by auto.
  rewrite (vadd_swap FOK). apply IHws with (h := h).
  - eapply rowlin_S; eauto.
  - eapply skipn_sum; eauto.
  - eapply skipn_sum; eauto.
  - rewrite vadd_length; rewrite ?(lin_len _ _ _ L0); auto.
  - rewrite vadd_length; rewrite ?(lin_len _ _ _ L0); auto.
Qed.
Lemma rowsum_scale : forall ws h f c x a, rowlin h ws f -> length x = sum_nat ws ->
  rowsum ws f (vscale c x) (vscale c a) = vscale c (rowsum ws f x a).
Proof.
  induction ws; intros h f c x a' L Hx; auto. cbn [rowsum]. cbn in Hx.
  rewrite firstn_vscale, skipn_vscale. rewrite (lin_scale _ _ _ (rowlin_0 _ _ _ _ L)) by (eapply firstn_sum; eauto).
  rewrite <- (vscale_add FOK). eapply IHws; [eapply rowlin_S; eauto|eapply skipn_sum; eauto].
Qed.
Lemma rowsum_ext : forall ws f g x a,
  (forall j z, j < length ws -> length z = nth j ws 0 -> f j z = g j z) -> length x = sum_nat ws ->
  rowsum ws f x a = rowsum ws g x a.
Proof.
  induction ws; intros f g x a' E Hx; auto. cbn [rowsum]. cbn in Hx.
  rewrite (E 0) by (cbn; try lia; eapply firstn_sum; eauto).
  apply IHws; [intros; apply (E (S j)); cbn; auto; lia|eapply skipn_sum; eauto].
Qed.
Lemma rowsum_conj : forall ws f x a,
  vconj (rowsum ws f x a) = rowsum ws (fun j => conj_map (f j)) (vconj x) (vconj a).
Proof.
  induction ws; intros; auto. cbn [rowsum]. rewrite IHws, (vconj_add FOK), firstn_vconj, skipn_vconj.
  unfold conj_map at 3. now rewrite (vconj_conj FOK).
Qed.

Lemma bmap_length : forall hs ws G x, famlin hs ws G -> length x = sum_nat ws ->
  length (bmap hs ws G x) = sum_nat hs.
Proof.
  induction hs; intros ws G x L Hx; auto. cbn [bmap sum_nat fold_right]. rewrite app_length.
  rewrite (rowsum_length ws a); [|eapply famlin_0; eauto|auto|apply vzero_length].
  rewrite IHhs; auto. eapply famlin_S; eauto.
Qed.
Lemma bmap_lin : forall hs ws G, famlin hs ws G -> linmap (sum_nat ws) (sum_nat hs) (bmap hs ws G).
Proof.
  intros hs ws G L. constructor.
  - intros. now apply bmap_length.
  - revert G L. induction hs; intros G L x y Hx Hy; auto. cbn [bmap].
    pose proof (famlin_0 _ _ _ _ L) as L0. pose proof (famlin_S _ _ _ _ L) as L1.
    rewrite IHhs by auto. rewrite <- (vadd_zero FOK a) at 1.
    rewrite (rowsum_add ws a) by (auto using vzero_length).
    rewrite vadd_app; auto. rewrite !(rowsum_length ws a); auto using vzero_length.
  - revert G L. induction hs; intros G L c x Hx; auto. cbn [bmap].
    pose proof (famlin_0 _ _ _ _ L) as L0. pose proof (famlin_S _ _ _ _ L) as L1.
    rewrite IHhs by auto. rewrite <- (vscale_zero FOK c a) at 1.
    rewrite (rowsum_scale ws a) by auto. now rewrite vscale_app.
Qed.
Lemma bmap_ext : forall hs ws G G' x,
  (forall i j z, i < length hs -> j < length ws -> length z = nth j ws 0 -> G i j z = G' i j z) ->
  length x = sum_nat ws -> bmap hs ws G x = bmap hs ws G' x.
Proof.
  induction hs; intros ws G G' x E Hx; auto. cbn [bmap]. f_equal.
  - apply rowsum_ext; auto. intros. apply E; auto. cbn; lia.
  - apply IHhs; auto. intros. apply E; auto. cbn; lia.
Qed.
Lemma bmap_conj : forall hs ws G x,
  vconj (bmap hs ws G x) = bmap hs ws (fun i j => conj_map (G i j)) (vconj x).
Proof.
  induction hs; intros; auto. cbn [bmap]. now rewrite vconj_app, rowsum_conj, (vconj_zero FOK), IHhs.
Qed.
Lemma bmap_conj_map : forall hs ws G x,
  conj_map (bmap hs ws G) x = bmap hs ws (fun i j => conj_map (G i j)) x.
Proof. intros. unfold conj_map at 1. rewrite bmap_conj. now rewrite (vconj_conj FOK). Qed.
Lemma bmap_real : forall hs ws G,
  (forall i j, i < length hs -> j < length ws -> real_map (nth j ws 0) (G i j)) ->
  real_map (sum_nat ws) (bmap hs ws G).
Proof.
  intros hs ws G R x Hx. rewrite bmap_conj. apply bmap_ext; [|now rewrite vconj_length].
  intros i j z Hi Hj Hz. symmetry. apply (conj_map_real FOK (nth j ws 0)); auto.
Qed.

(** ** Transposes *)
Lemma colmap_length : forall ws h g z, (forall j, j < length ws -> linmap h (nth j ws 0) (g j)) ->
  length z = h -> length (colmap (length ws) g z) = sum_nat ws.
Proof.
  induction ws; intros h g z L Hz; auto. cbn [length colmap sum_nat fold_right]. rewrite app_length.
  rewrite (lin_len _ _ _ (L 0 ltac:(cbn; lia))) by auto. cbn [nth]. f_equal.
  apply (IHws h); auto. intros j Hj. apply (L (S j)). cbn; lia.
Qed.
Lemma row_col : forall ws h f g x z acc, rowlin h ws f ->
  (forall j, j < length ws -> linmap h (nth j ws 0) (g j)) ->
  (forall j, j < length ws -> is_transpose (nth j ws 0) h (f j) (g j)) ->
  length x = sum_nat ws -> length z = h -> length acc = h ->
  dot z (rowsum ws f x acc) = kadd (dot z acc) (dot (colmap (length ws) g z) x).
Proof.
  induction ws; intros h f g x z acc L Lg Tr Hx Hz Ha.
  { cbn. ring. }
  cbn [rowsum length colmap]. cbn in Hx.
  assert (Fx := firstn_sum _ _ _ Hx). assert (Sx := skipn_sum _ _ _ Hx).
  pose proof (rowlin_0 _ _ _ _ L) as L0.
  rewrite (IHws h _ (fun j => g (S j))); auto.
  - rewrite (dot_add_r FOK) by (rewrite (lin_len _ _ _ L0); auto).
    rewrite <- (firstn_skipn a x) at 3. rewrite dot_app.
    + rewrite (Tr 0 ltac:(cbn; lia)) by auto. ring.
    + rewrite Fx. apply (lin_len _ _ _ (Lg 0 ltac:(cbn; lia))). auto.
  - eapply rowlin_S; eauto.
  - intros j Hj. apply (Lg (S j)). cbn; lia.
  - intros j Hj. apply (Tr (S j)). cbn; lia.
  - rewrite vadd_length; auto. now rewrite (lin_len _ _ _ L0).
Qed.
Lemma bmap_col : forall ws h hs G y, famlin ws (h :: hs) G -> length y = h + sum_nat hs ->
  bmap ws (h :: hs) G y =
  vadd (colmap (length ws) (fun j => G j 0) (firstn h y)) (bmap ws hs (fun j i => G j (S i)) (skipn h y)).
Proof.
  induction ws; intros h hs G y L Hy; auto. cbn [bmap length colmap]. cbn [rowsum].
  pose proof (famlin_0 _ _ _ _ L) as L0. pose proof (famlin_S _ _ _ _ L) as L1.
  pose proof (rowlin_0 _ _ _ _ L0) as L00. pose proof (rowlin_S _ _ _ _ L0) as L01.
  assert (Fy := firstn_sum _ _ _ Hy). assert (Sy := skipn_sum _ _ _ Hy).
  rewrite IHws by auto. rewrite vadd_zero_l by (apply (lin_len _ _ _ L00); auto).
  rewrite vadd_app.
  - f_equal. rewrite <- rowsum_acc. f_equal. symmetry. apply vadd_zero_r.
    apply (lin_len _ _ _ L00); auto.
  - rewrite (lin_len _ _ _ L00) by auto. rewrite (rowsum_length hs a); auto using vzero_length.
Qed.
Lemma bmap_nil_r : forall ws G y, bmap ws [] G y = vzero (sum_nat ws).
Proof. induction ws; intros; auto. cbn [bmap rowsum sum_nat fold_right]. rewrite IHws. now rewrite vzero_app. Qed.

Theorem bmap_tr : forall hs ws G G', famlin hs ws G -> famlin ws hs G' -> famtr hs ws G G' ->
  is_transpose (sum_nat ws) (sum_nat hs) (bmap hs ws G) (bmap ws hs G').
Proof.
  induction hs; intros ws G G' L L' Tr x y Hx Hy.
  { rewrite bmap_nil_r, (dot_zero_l FOK). destruct y; [reflexivity|discriminate]. }
  cbn in Hy. rewrite bmap_col by auto. cbn [bmap].
  pose proof (famlin_0 _ _ _ _ L) as L0. pose proof (famlin_S _ _ _ _ L) as L1.
  assert (Fy := firstn_sum _ _ _ Hy). assert (Sy := skipn_sum _ _ _ Hy).
  assert (C0 : forall j, j < length ws -> linmap a (nth j ws 0) (G' j 0)).
  { intros j Hj. apply (L' j 0); cbn; auto; lia. }
  assert (C1 : famlin ws hs (fun j i => G' j (S i))).
  { intros j i Hj Hi. apply (L' j (S i)); cbn; auto; lia. }
  rewrite (dot_add_l FOK).
  2:{ rewrite (colmap_length ws a), bmap_length; auto. }
  rewrite <- (firstn_skipn a y) at 1. rewrite dot_app.
  2:{ rewrite (rowsum_length ws a); auto using vzero_length. }
  rewrite (row_col ws a (G 0) (fun j => G' j 0)); auto using vzero_length.
  2:{ intros j Hj. apply (Tr 0 j); cbn; auto; lia. }
  rewrite (dot_zero_r FOK).
  rewrite (IHhs ws (fun i => G (S i)) (fun j i => G' j (S i))); auto.
  - ring.
  - intros i j Hi Hj. apply (Tr (S i) j); cbn; auto; lia.
Qed.
Theorem bmap_ad : forall hs ws G G', famlin hs ws G -> famlin ws hs G' -> famad hs ws G G' ->
  is_adjoint (sum_nat ws) (sum_nat hs) (bmap hs ws G) (bmap ws hs G').
Proof.
  intros hs ws G G' L L' Ad.
  assert (T := bmap_tr hs ws G (fun j i => conj_map (G' j i))).
  apply (is_adjoint_ext _ _ (bmap hs ws G) (conj_map (bmap ws hs (fun j i => conj_map (G' j i))))); auto.
  - intros y Hy. rewrite bmap_conj_map. apply bmap_ext; auto. intros. apply (conj_map_conj FOK).
  - apply (transpose_conj_adjoint FOK). apply T; auto.
    + intros j i Hj Hi. now apply (conj_map_lin FOK), L'.
    + intros i j Hi Hj. now apply (adjoint_conj_transpose FOK), Ad.
Qed.

(** ** Block diagonal maps *)
Definition dlin (ws hs : list nat) (g : nat -> map1) : Prop :=
  forall i, i < length ws -> linmap (nth i ws 0) (nth i hs 0) (g i).
Lemma dlin_0 : forall w ws h hs g, dlin (w :: ws) (h :: hs) g -> linmap w h (g 0).
Proof. intros w ws h hs g H. apply (H 0). cbn; lia. Qed.
Lemma dlin_S : forall w ws h hs g, dlin (w :: ws) (h :: hs) g -> dlin ws hs (fun i => g (S i)).
Proof. intros w ws h hs g H i Hi. apply (H (S i)). cbn; lia. Qed.
Lemma bdmap_length : forall ws hs g x, length hs = length ws -> dlin ws hs g -> length x = sum_nat ws ->
  length (bdmap ws g x) = sum_nat hs.
Proof.
  induction ws; destruct hs as [|h hs]; intros g x Hl L Hx; try discriminate; auto.
  cbn in Hx. cbn [bdmap sum_nat fold_right]. rewrite app_length.
  rewrite (lin_len _ _ _ (dlin_0 _ _ _ _ _ L)) by (eapply firstn_sum; eauto).
  rewrite (IHws hs); auto; [eapply dlin_S; eauto|eapply skipn_sum; eauto].
Qed.
Lemma bdmap_lin : forall ws hs g, length hs = length ws -> dlin ws hs g ->
  linmap (sum_nat ws) (sum_nat hs) (bdmap ws g).
Proof.
  intros ws hs g Hl L. constructor.
  - intros. now apply bdmap_length.
  - revert hs g Hl L. induction ws; destruct hs as [|h hs]; intros g Hl L x y Hx Hy; try discriminate; auto.
    cbn in Hx, Hy. cbn [bdmap]. pose proof (dlin_0 _ _ _ _ _ L) as L0. pose proof (dlin_S _ _ _ _ _ L) as L1.
    assert (Fx := firstn_sum _ _ _ Hx). assert (Sx := skipn_sum _ _ _ Hx).
    assert (Fy := firstn_sum _ _ _ Hy). assert (Sy := skipn_sum _ _ _ Hy).
    rewrite firstn_vadd, skipn_vadd by congruence.
    rewrite (lin_add _ _ _ L0), (IHws hs) by auto. rewrite vadd_app; auto.
    now rewrite !(lin_len _ _ _ L0).
  - revert hs g Hl L. induction ws; destruct hs as [|h hs]; intros g Hl L c x Hx; try discriminate; auto.
    cbn in Hx. cbn [bdmap]. pose proof (dlin_0 _ _ _ _ _ L) as L0. pose proof (dlin_S _ _ _ _ _ L) as L1.
    assert (Fx := firstn_sum _ _ _ Hx). assert (Sx := skipn_sum _ _ _ Hx).
    rewrite firstn_vscale, skipn_vscale, (lin_scale _ _ _ L0), (IHws hs) by auto. now rewrite vscale_app.
Qed.
Lemma bdmap_ext : forall ws g g' x,
  (forall i z, i < length ws -> length z = nth i ws 0 -> g i z = g' i z) ->
  length x = sum_nat ws -> bdmap ws g x = bdmap ws g' x.
Proof.
  induction ws; intros g g' x E Hx; auto. cbn [bdmap]. cbn in Hx.
  rewrite (E 0) by (cbn; try lia; eapply firstn_sum; eauto). f_equal.
  apply IHws; [intros; apply (E (S i)); cbn; auto; lia|eapply skipn_sum; eauto].
Qed.
Lemma bdmap_conj : forall ws g x, vconj (bdmap ws g x) = bdmap ws (fun i => conj_map (g i)) (vconj x).
Proof.
  induction ws; intros; auto. cbn [bdmap]. rewrite vconj_app, IHws, firstn_vconj, skipn_vconj.
  unfold conj_map at 2. now rewrite (vconj_conj FOK).
Qed.
Lemma bdmap_conj_map : forall ws g x, conj_map (bdmap ws g) x = bdmap ws (fun i => conj_map (g i)) x.
Proof. intros. unfold conj_map at 1. rewrite bdmap_conj. now rewrite (vconj_conj FOK). Qed.
Lemma bdmap_real : forall ws g, (forall i, i < length ws -> real_map (nth i ws 0) (g i)) ->
  real_map (sum_nat ws) (bdmap ws g).
Proof.
  intros ws g R x Hx. rewrite bdmap_conj. apply bdmap_ext; [|now rewrite vconj_length].
  intros i z Hi Hz. symmetry. apply (conj_map_real FOK (nth i ws 0)); auto.
Qed.
Theorem bdmap_tr : forall ws hs g g', length hs = length ws -> dlin ws hs g -> dlin hs ws g' ->
  (forall i, i < length ws -> is_transpose (nth i ws 0) (nth i hs 0) (g i) (g' i)) ->
  is_transpose (sum_nat ws) (sum_nat hs) (bdmap ws g) (bdmap hs g').
Proof.
  induction ws; destruct hs as [|h hs]; intros g g' Hl L L' Tr x y Hx Hy; try discriminate.
  { destruct y; [reflexivity|discriminate]. }
  cbn in Hx, Hy. cbn [bdmap]. pose proof (dlin_0 _ _ _ _ _ L) as L0. pose proof (dlin_S _ _ _ _ _ L) as L1.
  pose proof (dlin_0 _ _ _ _ _ L') as L0'. pose proof (dlin_S _ _ _ _ _ L') as L1'.
  assert (Fx := firstn_sum _ _ _ Hx). assert (Sx := skipn_sum _ _ _ Hx).
  assert (Fy := firstn_sum _ _ _ Hy). assert (Sy := skipn_sum _ _ _ Hy).
  rewrite <- (firstn_skipn h y) at 1. rewrite <- (firstn_skipn a x) at 3.
  rewrite !dot_app by (rewrite ?(lin_len _ _ _ L0), ?(lin_len _ _ _ L0'); auto).
  f_equal.
  - apply (Tr 0); cbn; auto; lia.
  - apply IHws; auto. intros i Hi. apply (Tr (S i)). cbn; lia.
Qed.
Theorem bdmap_ad : forall ws hs g g', length hs = length ws -> dlin ws hs g -> dlin hs ws g' ->
  (forall i, i < length ws -> is_adjoint (nth i ws 0) (nth i hs 0) (g i) (g' i)) ->
  is_adjoint (sum_nat ws) (sum_nat hs) (bdmap ws g) (bdmap hs g').
Proof.
  intros ws hs g g' Hl L L' Ad.
  apply (is_adjoint_ext _ _ (bdmap ws g) (conj_map (bdmap hs (fun i => conj_map (g' i))))); auto.
  - intros y Hy. rewrite bdmap_conj_map. apply bdmap_ext; auto. intros. apply (conj_map_conj FOK).
  - apply (transpose_conj_adjoint FOK). apply bdmap_tr; auto.
    + intros i Hi. now apply (conj_map_lin FOK), L'.
    + intros i Hi. now apply (adjoint_conj_transpose FOK), Ad.
Qed.
End Blk.
