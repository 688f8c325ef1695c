(** * Goodness of diagonal, reduced, coordinate and dense operators. *)
From Coq Require Import List ZArith Lia Bool Ring Permutation.
From Verif Require Import Base Field Vec LinopModel LinopFrame LinopGood LinopInit LinopDep LinopAlg
  LinopOps LinopExtra LinopUser.
Import ListNotations.

Section BaseOps.
Context {F : Fld} (FOK : FldOK F).
Add Ring Kring5 : (fk_ring F FOK).
Notation st := (st F). Notation obj := (obj F). Notation M := (M F). Notation arr := (arr F).
Notation map1 := (list F -> list F).

(** ** setting the class payload after construction *)
Lemma has_pay : forall (s : st) N p o, objs s N = Some o ->
  forall a n m sy he dt c T H, has s a n m sy he dt c T H ->
  has (set_obj N (with_pay p o) s) a n m sy he dt c T H.
Proof.
  intros s N p o Ho a n m sy he dt c T H (oa & Ha & R).
  destruct (Nat.eq_dec a N) as [->|Ne].
  - rewrite Ho in Ha; inversion Ha; subst oa.
    exists (with_pay p o). split; [apply get_set_eq|]. exact R.
  - exists oa. split; auto. now apply get_set_ne.
Qed.
Lemma desc_has_mono : forall (s s2 : st) N n m c cT cH sym herm dt,
  (forall a n m sy he dt c T H, has s a n m sy he dt c T H -> has s2 a n m sy he dt c T H) ->
  desc s N n m c cT cH sym herm dt -> desc s2 N n m c cT cH sym herm dt.
Proof.
  intros s s2 N n m c cT cH sym herm dt HH D. unfold desc in *.
  destruct (is_complex dt), sym, herm, cT, cH;
      repeat match goal with H : exists _, _ |- _ => destruct H end;
      repeat match goal with H : _ /\ _ |- _ => destruct H end;
      repeat match goal with |- exists _, _ => eexists end; repeat split; eauto.
Qed.

Lemma new_pay_builds : forall (s : st) n m c cT cH sym herm dt pay f fT fH,
  wfst s -> complete sym herm dt cT cH = true ->
  (forall s2, ext s s2 -> wfst s2 ->
     (exists o, objs s2 (nxt s) = Some o /\ o_pay o = pay /\ o_dtype o = dt) ->
     honest s2 n m c cT cH sym herm dt f fT fH /\ refsP (Acy s2) s2 c /\
     (forall ct, cT = Some ct -> refsP (Acy s2) s2 ct) /\
     (forall ch, cH = Some ch -> refsP (Acy s2) s2 ch)) ->
  builds (bind (new_linop n m c cT cH sym herm dt)
     (fun a => bind (modobj a (with_pay pay)) (fun _ => ret a))) s n m dt f /\
  (forall s' a, bind (new_linop n m c cT cH sym herm dt)
     (fun a => bind (modobj a (with_pay pay)) (fun _ => ret a)) s = (s', Ok a) ->
     exists o, objs s' a = Some o /\ o_pay o = pay).
Proof.
  intros s n m c cT cH sym herm dt pay f fT fH W CP HO.
  destruct (new_linop_desc s n m c cT cH sym herm dt W) as (s' & E & X & W' & L & D & (o & Ho & _)).
  set (s2 := set_obj (nxt s) (with_pay pay o) s').
  assert (E2 : bind (new_linop n m c cT cH sym herm dt)
     (fun a => bind (modobj a (with_pay pay)) (fun _ => ret a)) s = (s2, Ok (nxt s))).
  { erewrite bind_ok by exact E.
    erewrite bind_ok by (unfold modobj; rewrite Ho; reflexivity). reflexivity. }
  split.
  2:{ intros s3 a E3. rewrite E2 in E3. injection E3 as <- <-. eexists. split; [apply get_set_eq|reflexivity]. }
  exists s2, (nxt s). split; [exact E2|].
  assert (X2 : ext s s2) by (apply ext_set_fresh; auto; now apply (proj1 W)).
  assert (W2 : wfst s2) by (apply wf_set; auto).
  split; auto. split; auto.
  assert (D2 : desc s2 (nxt s) n m c cT cH sym herm dt).
  { eapply desc_has_mono; [|exact D]. now apply has_pay. }
  assert (Hdt : o_dtype o = dt).
  { clear - D Ho. unfold desc in D.
    destruct (is_complex dt), sym, herm, cT, cH;
      repeat match goal with H : exists _, _ |- _ => destruct H end;
      repeat match goal with H : _ /\ _ |- _ => destruct H end;
      repeat match goal with H : has _ (nxt s) _ _ _ _ _ _ _ _ |- _ =>
        destruct H as (oo & Hoo & _ & _ & _ & _ & Hd & _); rewrite Ho in Hoo; injection Hoo as <-; exact Hd end. }
  destruct (HO s2 X2 W2) as (HH & R & RT & RH).
  { eexists. split; [apply get_set_eq|]. split; auto. }
  split; [|split].
  - eapply (desc_good FOK); eauto.
  - eapply desc_dts; eauto.
  - eapply desc_acy; eauto.
Qed.

(** ** DiagonalOperator *)
Lemma tr_vmul : forall d : list F, is_transpose (length d) (length d) (vmul d) (vmul d).
Proof. intros d x y _ _. apply (dot_vmul FOK). Qed.
Lemma ad_vmul : forall d : list F, is_adjoint (length d) (length d) (vmul d) (vmul (vconj d)).
Proof.
  intros d x y _ _. rewrite (dot_vmul FOK). now rewrite (vconj_mul FOK), (vconj_conj FOK).
Qed.
Lemma diag_op_builds : forall (s : st) l d, wfst s -> arrs s l = Some d -> awf d ->
  builds (diag_op l) s (asize d) (asize d) (adt d) (vmul (adata d)) /\
  (forall s' a, diag_op l s = (s', Ok a) -> exists o, objs s' a = Some o /\ o_pay o = PDiag d).
Proof.
  intros s l d W Hd Wd.
  assert (E : forall k : arr -> M addr, bind (get_arr l) k s = k d s).
  { intros k. unfold bind, get_arr. now rewrite Hd. }
  unfold builds, diag_op. rewrite E.
  apply (new_pay_builds s (asize d) (asize d) (CDiag false l) None (Some (CDiag true l))
    true (negb (is_complex (adt d))) (adt d) (PDiag d)
    (vmul (adata d)) (vmul (adata d)) (vmul (vconj (adata d)))); auto.
  intros s2 X2 W2 _. assert (Hd2 := ext_arr _ _ X2 _ _ Hd).
  split; [|split; [exact I|split; [discriminate|intros ? Ec; injection Ec as <-; exact I]]].
  assert (Lc : length (vconj (adata d)) = asize d) by apply vconj_length.
  constructor; auto using lin_vmul.
  - apply lin_vmul; exact FOK.
  - apply lin_vmul; exact FOK.
  - rewrite <- Lc. apply lin_vmul; exact FOK.
  - apply tr_vmul.
  - apply ad_vmul.
  - intros C x Hx. rewrite (vconj_mul FOK). now rewrite (Wd C).
  - apply (cden_diag s2 l d false Hd2).
  - discriminate.
  - intros ch Ec. injection Ec as <-. apply (cden_diag s2 l d true Hd2).
  - intros _. split; auto. apply tr_vmul.
  - intros C. apply negb_true_iff in C. split; auto.
    intros x y Hx Hy. rewrite (dot_vmul FOK). rewrite (vconj_mul FOK). now rewrite (Wd C).
Qed.
Lemma new_arr_ok : forall (s : st) x, wfst s -> exists s',
  new_arr x s = (s', Ok (narr s)) /\ ext s s' /\ wfst s' /\ arrs s' (narr s) = Some x.
Proof.
  intros s x (W1 & W2 & W3). eexists. split; [reflexivity|]. split; [|split].
  - constructor; cbn; auto.
    + intros a o Ho. exists o; split; auto using same_refl.
    + intros l y Hy. unfold upd. destruct (Nat.eqb_spec l (narr s)); auto. subst.
      rewrite W2 in Hy; [discriminate|lia].
  - repeat split; cbn; auto. intros l Hl. unfold upd. destruct (Nat.eqb_spec l (narr s)); [lia|apply W2; lia].
  - cbn. unfold upd. now rewrite Nat.eqb_refl.
Qed.
Lemma diag_op_list_builds : forall (s : st) d, wfst s -> awf d ->
  builds (diag_op_list d) s (asize d) (asize d) (adt d) (vmul (adata d)).
Proof.
  intros s d W Wd. destruct (new_arr_ok s d W) as (s' & E & X & W' & Hd).
  destruct (diag_op_builds s' _ d W' Hd Wd) as [(s2 & a & E2 & X2 & W2 & G) _].
  exists s2, a. split; [unfold diag_op_list; erewrite bind_ok by exact E; exact E2|].
  split; [eapply ext_trans; eauto|]. auto.
Qed.

(** ** scatter / gather *)
(** the entry that an index in range selects *)
Definition wrap (len : nat) (i : Z) : nat :=
  Z.to_nat (if (i <? 0)%Z then i + Z.of_nat len else i)%Z.
Definition inz (len : nat) (i : Z) : Prop := (- Z.of_nat len <= i < Z.of_nat len)%Z.
Lemma npindex_ok : forall len i, inz len i -> npindex len i = Some (wrap len i) /\ wrap len i < len.
Proof.
  intros len i H. unfold inz, npindex, wrap in *.
  destruct (Z.ltb_spec i (- Z.of_nat len)); [lia|]. destruct (Z.ltb_spec i 0); [split; [auto|lia]|].
  destruct (Z.ltb_spec i (Z.of_nat len)); [split; [auto|lia]|lia].
Qed.
Lemma npindex_none : forall len i, ~ inz len i -> npindex len i = None.
Proof.
  intros len i H. unfold inz, npindex in *.
  destruct (Z.ltb_spec i (- Z.of_nat len)); auto. destruct (Z.ltb_spec i 0); [lia|].
  destruct (Z.ltb_spec i (Z.of_nat len)); auto; lia.
Qed.
Lemma wrap_lt : forall len idx, (forall i, In i idx -> inz len i) ->
  forall k, In k (map (wrap len) idx) -> k < len.
Proof. intros len idx H k Hk. apply in_map_iff in Hk as (i & <- & Hi). now apply npindex_ok, H. Qed.

(** writing at entries given by natural numbers *)
Fixpoint nscatter (idx : list nat) (x z : list F) : res (list F) :=
  match idx, x with
  | [], [] => Ok z
  | i :: idx', v :: x' => if i <? length z then nscatter idx' x' (set_nth z i v) else Err IndexError
  | _, _ => Err ValueError
  end.
Definition gath (idx : list nat) (y : list F) : list F := map (fun i => nth i y k0) idx.
Definition scat (len : nat) (idx : list nat) (x : list F) : list F :=
  match nscatter idx x (vzero len) with Ok z => z | Err _ => [] end.

Lemma gather_wrap : forall idx y, (forall i, In i idx -> inz (length y) i) ->
  gather idx y = Ok (gath (map (wrap (length y)) idx) y).
Proof.
  induction idx; intros y H; cbn [gather map gath]; auto.
  rewrite (proj1 (npindex_ok _ _ (H a (or_introl eq_refl)))).
  rewrite IHidx; cbn; auto. intros; apply H; cbn; auto.
Qed.
Lemma gath_length : forall idx y, length (gath idx y) = length idx.
Proof. intros; apply map_length. Qed.
Lemma set_nth_length : forall (l : list F) i v, length (set_nth l i v) = length l.
Proof. induction l; destruct i; cbn; auto. Qed.
Lemma nth_set_nth : forall (l : list F) i j v, i < length l ->
  nth j (set_nth l i v) k0 = if Nat.eqb j i then v else nth j l k0.
Proof.
  induction l; intros i j v H; cbn in *; [lia|].
  destruct i, j; cbn; auto. rewrite IHl by lia. reflexivity.
Qed.
Lemma scatter_wrap : forall idx (x z : list F), (forall i, In i idx -> inz (length z) i) ->
  scatter idx x z = nscatter (map (wrap (length z)) idx) x z.
Proof.
  induction idx; intros [|v x] z H; cbn [scatter nscatter map]; auto.
  destruct (npindex_ok _ _ (H a (or_introl eq_refl))) as [E L]. rewrite E.
  apply Nat.ltb_lt in L. rewrite L.
  rewrite IHidx; rewrite set_nth_length; auto. intros; apply H; cbn; auto.
Qed.
Lemma scatter_ok : forall idx (x z : list F), length x = length idx -> (forall i, In i idx -> i < length z) ->
  exists z', nscatter idx x z = Ok z' /\ length z' = length z.
Proof.
  induction idx; intros [|v x] z Hl H; cbn [nscatter length In] in *; try discriminate; eauto.
  assert (L : a < length z) by (apply H; auto). apply Nat.ltb_lt in L. rewrite L.
  destruct (IHidx x (set_nth z a v)) as (z' & E & L'); auto.
  - intros; rewrite set_nth_length; apply H; auto.
  - rewrite set_nth_length in L'. eauto.
Qed.
Lemma dot_set_nth : forall (y z : list F) i v, length y = length z -> i < length z -> nth i z k0 = k0 ->
  dot y (set_nth z i v) = kadd (dot y z) (kmul (nth i y k0) v).
Proof.
  induction y; intros [|b z] i v Hl Hi Hz; cbn in *; try lia. destruct i; cbn.
  - subst b. ring.
  - rewrite IHy by (auto; lia). ring.
Qed.
Lemma dot_scatter : forall idx (x z z' y : list F), NoDup idx -> length y = length z ->
  (forall i, In i idx -> i < length z /\ nth i z k0 = k0) ->
  nscatter idx x z = Ok z' -> dot y z' = kadd (dot y z) (dot (gath idx y) x).
Proof.
  induction idx; intros [|v x] z z' y ND Ly H E; cbn [nscatter length In gath map dot] in *; try discriminate.
  - injection E as <-. ring.
  - inversion ND; subst. destruct (H a (or_introl eq_refl)) as [La Za].
    assert (L := La). apply Nat.ltb_lt in L. rewrite L in E.
    rewrite (IHidx x (set_nth z a v) z' y); auto.
    + rewrite dot_set_nth by auto. unfold gath; cbn. ring.
    + now rewrite set_nth_length.
    + intros i Hi. rewrite set_nth_length. destruct (H i (or_intror Hi)) as [Li Zi]. split; auto.
      rewrite nth_set_nth by auto. destruct (Nat.eqb_spec i a); [subst; contradiction|auto].
Qed.
Definition idx_ok (len : nat) (idx : list nat) : Prop := NoDup idx /\ forall i, In i idx -> i < len.
Lemma nth_vzero : forall n i, nth i (@vzero F n) k0 = k0.
Proof. induction n; destruct i; cbn; auto. Qed.

Lemma scat_ok : forall len idx x, length x = length idx -> (forall i, In i idx -> i < len) ->
  nscatter idx x (vzero len) = Ok (scat len idx x) /\ length (scat len idx x) = len.
Proof.
  intros len idx x Hx H. unfold scat.
  destruct (scatter_ok idx x (vzero len)) as (z & E & L); auto.
  - intros; rewrite vzero_length; auto.
  - rewrite E. rewrite vzero_length in L. auto.
Qed.
Lemma gath_lin : forall len idx, linmap len (length idx) (gath idx).
Proof.
  intros len idx. constructor; intros.
  - apply gath_length.
  - unfold gath. induction idx; cbn; auto. f_equal; auto.
    clear - H H0 FOK. revert y a len H H0. induction x; destruct y; intros; cbn in *; subst; try discriminate.
    + destruct a; ring.
    + destruct a0; cbn; auto. eapply IHx; eauto.
  - unfold gath. induction idx; cbn; auto. f_equal; auto.
    clear - FOK. revert a. induction x as [|b x IH]; intros [|a]; cbn; auto; ring.
Qed.
Lemma tr_gath_scat : forall len idx, idx_ok len idx -> is_transpose (length idx) len (scat len idx) (gath idx).
Proof.
  intros len idx [ND H] x y Hx Hy.
  destruct (scat_ok len idx x Hx H) as [E L].
  rewrite (dot_scatter idx x (vzero len) _ y); eauto.
  - rewrite (dot_zero_r FOK). ring.
  - now rewrite vzero_length.
  - intros i Hi. rewrite vzero_length, nth_vzero. auto.
Qed.
Lemma scat_lin : forall len idx, idx_ok len idx -> linmap (length idx) len (scat len idx).
Proof.
  intros len idx H. eapply (transpose_linear FOK) with (f := gath idx).
  - intros y Hy. now apply scat_ok; [|apply H].
  - apply is_transpose_sym; auto. now apply tr_gath_scat.
Qed.
Lemma gath_real : forall len idx, real_map len (gath idx).
Proof.
  intros len idx x _. unfold gath, vconj. rewrite map_map. apply map_ext. intros i.
  rewrite <- (map_nth kconj), (conj0 FOK). reflexivity.
Qed.
Lemma ad_gath_scat : forall len idx, idx_ok len idx -> is_adjoint (length idx) len (scat len idx) (gath idx).
Proof.
  intros len idx H. apply is_adjoint_sym; auto.
  apply (real_transpose_adjoint FOK); [apply gath_real|].
  apply is_transpose_sym; auto. now apply tr_gath_scat.
Qed.
Lemma scat_real : forall len idx, idx_ok len idx -> real_map (length idx) (scat len idx).
Proof.
  intros len idx H. eapply (real_transpose_real FOK) with (f := gath idx).
  - intros y Hy. now apply scat_ok; [|apply H].
  - apply gath_real.
  - apply is_transpose_sym; auto. now apply tr_gath_scat.
Qed.

Definition zidx_ok (len : nat) (idx : list Z) : Prop :=
  NoDup (map (wrap len) idx) /\ forall i, In i idx -> inz len i.
Lemma zidx_nat : forall len idx, zidx_ok len idx -> idx_ok len (map (wrap len) idx).
Proof. intros len idx [N R]. split; auto. now apply wrap_lt. Qed.

Lemma cden_red : forall (s : st) w a o t ins outs n m (f : map1),
  objs s a = Some o -> (n, m) = (match w with WN => (o_nargin o, o_nargout o) | _ => (o_nargout o, o_nargin o) end) ->
  wtgt s w a t -> denotes s t n m f -> zidx_ok n ins -> (forall i, In i outs -> inz m i) ->
  cden s (CRed w a ins outs) (length (map (wrap n) ins)) (fun x => gath (map (wrap m) outs) (f (scat n (map (wrap n) ins) x))).
Proof.
  intros s w a o t ins outs n m f Ho Hnm Hw D Hi Ho2.
  destruct (ap_w_den _ _ _ _ _ _ _ Hw D) as [d H].
  exists d. intros x Hx Hl. cbn [call]. unfold red_matvec.
  destruct (scat_ok n (map (wrap n) ins) (adata x) Hl (proj2 (zidx_nat _ _ Hi))) as [E L].
  destruct (H d s (mkarr (adt x) (scat n (map (wrap n) ins) (adata x))) (le_n _) (ext_refl _)) as (s2 & y & Ha & Hy & _ & Ly & _).
  { intro C. unfold vreal. cbn [adata adt] in *. rewrite <- (scat_real n (map (wrap n) ins) (zidx_nat _ _ Hi)) by auto. f_equal. now apply Hx. }
  { exact L. }
  exists s2. eexists. split.
  - do 2 (erewrite bind_ok by (apply getattr_ok; exact Ho)).
    replace (match w with WN => o_nargin o | _ => o_nargout o end) with n by (destruct w; congruence).
    erewrite bind_ok by (unfold lift; rewrite scatter_wrap; rewrite vzero_length; [rewrite E; reflexivity|apply Hi]).
    erewrite bind_ok by exact Ha.
    erewrite bind_ok by (unfold lift; rewrite gather_wrap; unfold asize in Ly; rewrite Ly; [reflexivity|auto]).
    reflexivity.
  - cbn. now rewrite Hy.
Qed.

Lemma red_honest : forall (s : st) a n m dt f ri ci, GoodD s a n m dt f ->
  zidx_ok m ri -> zidx_ok n ci -> forall g,
  (exists t, wtgt s WT a t /\ Good s t m n g) -> is_transpose n m f g ->
  forall g', (exists h, wtgt s WH a h /\ Good s h m n g') -> is_adjoint n m f g' ->
  honest s (length ci) (length ri) (CRed WN a ci ri) (Some (CRed WT a ri ci)) (Some (CRed WH a ri ci))
    false false dt (fun x => gath (map (wrap m) ri) (f (scat n (map (wrap n) ci) x)))
    (fun y => gath (map (wrap n) ci) (g (scat m (map (wrap m) ri) y)))
    (fun y => gath (map (wrap n) ci) (g' (scat m (map (wrap m) ri) y))).
Proof.
  intros s a n m dt f zri zci GD Zr Zc g (t & Wt & Gt) Tr g' (h & Wh & Gh) Ad.
  rewrite <- (map_length (wrap n) zci), <- (map_length (wrap m) zri).
  assert (Hr := zidx_nat _ _ Zr). assert (Hc := zidx_nat _ _ Zc).
  remember (map (wrap m) zri) as ri eqn:Er. remember (map (wrap n) zci) as ci eqn:Ec.
  pose proof GD as [G [Dt _]]. destruct (Good_attr _ _ _ _ _ G) as (o & Ho & Hn & Hm & _).
  assert (L1 := denotes_lin _ _ _ _ _ (Good_den _ _ _ _ _ G)).
  assert (L2 := denotes_lin _ _ _ _ _ (Good_den _ _ _ _ _ Gt)).
  assert (L3 := denotes_lin _ _ _ _ _ (Good_den _ _ _ _ _ Gh)).
  assert (C1 : linmap (length ci) m (fun x => f (scat n ci x))) by (eapply (lin_comp _ n); eauto using scat_lin).
  assert (C2 : linmap (length ri) n (fun x => g (scat m ri x))) by (eapply (lin_comp _ m); eauto using scat_lin).
  assert (C3 : linmap (length ri) n (fun x => g' (scat m ri x))) by (eapply (lin_comp _ m); eauto using scat_lin).
  constructor; try discriminate.
  - apply (lin_comp _ m _ (gath ri) (fun x => f (scat n ci x))); auto using gath_lin.
  - apply (lin_comp _ n _ (gath ci) (fun x => g (scat m ri x))); auto using gath_lin.
  - apply (lin_comp _ n _ (gath ci) (fun x => g' (scat m ri x))); auto using gath_lin.
  - apply (tr_comp (length ci) m (length ri) (gath ri) (scat m ri) (fun x => f (scat n ci x)) (fun y => gath ci (g y))); auto using scat_lin.
    + apply is_transpose_sym; auto. now apply tr_gath_scat.
    + apply (tr_comp (length ci) n m f g (scat n ci) (gath ci)); auto using scat_lin, tr_gath_scat.
  - apply (ad_comp (length ci) m (length ri) (gath ri) (scat m ri) (fun x => f (scat n ci x)) (fun y => gath ci (g' y))); auto using scat_lin.
    + apply is_adjoint_sym; auto. now apply ad_gath_scat.
    + apply (ad_comp (length ci) n m f g' (scat n ci) (gath ci)); auto using scat_lin, ad_gath_scat.
  - intros C x Hx. rewrite (scat_real n ci Hc) by auto.
    rewrite (GoodD_real _ _ _ _ _ _ GD C) by (apply scat_ok; [auto|apply Hc]).
    symmetry. rewrite (gath_real m ri). reflexivity.
    apply L1, scat_ok; [auto|apply Hc].
  - subst ri ci; apply (cden_red s WN a o a zci zri n m f); auto; try congruence.
    { now apply Good_den. } apply Zr.
  - intros ct E; injection E as <-. subst ri ci; apply (cden_red s WT a o t zri zci m n g); auto; try congruence.
    { now apply Good_den. } apply Zc.
  - intros ct E; injection E as <-. subst ri ci; apply (cden_red s WH a o h zri zci m n g'); auto; try congruence.
    { now apply Good_den. } apply Zc.
Qed.

Lemma honest_flags : forall (s : st) n m c cT cH sym herm dt f fT fH,
  honest s n m c cT cH false false dt f fT fH ->
  (sym = true -> n = m /\ is_transpose n n f f) -> (herm = true -> n = m /\ is_adjoint n n f f) ->
  honest s n m c cT cH sym herm dt f fT fH.
Proof. intros s n m c cT cH sym herm dt f fT fH []; constructor; auto. Qed.

Lemma reduced_builds : forall (s : st) a n m dt f ri ci, wfst s -> GoodD s a n m dt f ->
  zidx_ok m ri -> zidx_ok n ci ->
  builds (reduced_op a ri ci) s (length ci) (length ri) dt (fun x => gath (map (wrap m) ri) (f (scat n (map (wrap n) ci) x))).
Proof.
  intros s a n m dt f ri ci W GD Hr Hc. pose proof GD as [G [Dt Ac]].
  destruct (Dts_dt _ _ _ Dt) as (o & Ho & Hd).
  destruct (Good_T _ _ _ _ _ G) as (t & g & Wt & Gt & Tr).
  destruct (Good_H _ _ _ _ _ G) as (h & g' & Wh & Gh & Ad).
  unfold builds, reduced_op. erewrite bind_ok by (apply getattr_ok; exact Ho). rewrite Hd.
  apply (new_linop_builds FOK) with (fT := fun y => gath (map (wrap n) ci) (g (scat m (map (wrap m) ri) y)))
     (fH := fun y => gath (map (wrap n) ci) (g' (scat m (map (wrap m) ri) y))); auto.
  - intros ? E; injection E as <-; exact Ac.
  - intros ? E; injection E as <-; exact Ac.
  - unfold complete. destruct (is_complex dt); auto.
  - intros s' X _. eapply red_honest; eauto using GoodD_mono.
    exists t; eauto using wtgt_mono, Good_mono. exists h; eauto using wtgt_mono, Good_mono.
Qed.
Lemma sym_reduced_builds : forall (s : st) a n dt f ix, wfst s -> GoodD s a n n dt f ->
  zidx_ok n ix ->
  builds (sym_reduced_op a ix) s (length ix) (length ix) dt (fun x => gath (map (wrap n) ix) (f (scat n (map (wrap n) ix) x))).
Proof.
  intros s a n dt f ix W GD Hr. pose proof GD as [G [Dt Ac]].
  destruct (Dts_dt _ _ _ Dt) as (o & Ho & Hd).
  destruct (Good_T _ _ _ _ _ G) as (t & g & Wt & Gt & Tr).
  destruct (Good_H _ _ _ _ _ G) as (h & g' & Wh & Gh & Ad).
  destruct (Good_attr _ _ _ _ _ G) as (o' & Ho' & _ & _ & Hs & Hh).
  rewrite Ho in Ho'; injection Ho' as <-.
  assert (L1 := denotes_lin _ _ _ _ _ (Good_den _ _ _ _ _ G)).
  unfold builds, sym_reduced_op. do 3 (erewrite bind_ok by (apply getattr_ok; exact Ho)). rewrite Hd.
  apply (new_linop_builds FOK) with (fT := fun y => gath (map (wrap n) ix) (g (scat n (map (wrap n) ix) y)))
     (fH := fun y => gath (map (wrap n) ix) (g' (scat n (map (wrap n) ix) y))); auto.
  - intros ? E; injection E as <-; exact Ac.
  - intros ? E; injection E as <-; exact Ac.
  - unfold complete. destruct (is_complex dt), (o_sym o), (o_herm o); auto.
  - intros s' X _. apply honest_flags.
    + eapply red_honest; eauto using GoodD_mono.
      exists t; eauto using wtgt_mono, Good_mono. exists h; eauto using wtgt_mono, Good_mono.
    + intros E. destruct (Hs E) as [_ T]. split; auto.
      rewrite <- (map_length (wrap n) ix). assert (Hy := zidx_nat _ _ Hr). set (iy := map (wrap n) ix) in *.
      apply (tr_comp (length iy) n (length iy) (gath iy) (scat n iy) (fun x => f (scat n iy x)) (fun y => gath iy (f y))); auto using scat_lin.
      * eapply (lin_comp _ n); eauto using scat_lin.
      * apply is_transpose_sym; auto. now apply tr_gath_scat.
      * apply (tr_comp (length iy) n n f f (scat n iy) (gath iy)); auto using scat_lin, tr_gath_scat.
    + intros E. destruct (Hh E) as [_ T]. split; auto.
      rewrite <- (map_length (wrap n) ix). assert (Hy := zidx_nat _ _ Hr). set (iy := map (wrap n) ix) in *.
      apply (ad_comp (length iy) n (length iy) (gath iy) (scat n iy) (fun x => f (scat n iy x)) (fun y => gath iy (f y))); auto using scat_lin.
      * eapply (lin_comp _ n); eauto using scat_lin.
      * apply is_adjoint_sym; auto. now apply ad_gath_scat.
      * apply (ad_comp (length iy) n n f f (scat n iy) (gath iy)); auto using scat_lin, ad_gath_scat.
Qed.
End BaseOps.
