(** * Block diagonal operators: transposes with rectangular blocks, assignment (blkop.py:185-256). *)
From Coq Require Import List ZArith Lia Bool Ring.
From Verif Require Import Base Field Vec LinopModel LinopFrame LinopGood LinopInit LinopDep LinopAlg
  LinopOps LinopUser BlkSpec BlkModel BlkProof BlkSet BlkSym BlkErr BlkSymErr BlkDiag.
Import ListNotations.

Section DiagOps.
Context {F : Fld} (FOK : FldOK F).
Notation st := (st F). Notation obj := (obj F). Notation M := (M F). Notation arr := (arr F).
Notation map1 := (list F -> list F).

(** ** Rectangular blocks *)
Lemma bd_loop_bad : forall ws hs d d' (s s' : st) (A : nat -> addr) v u dts f rt xdt x,
  length hs = length ws ->
  (forall j, j < length ws -> exists o, objs s (A j) = Some o /\ o_nargin o = v j) ->
  (forall j, j < length ws -> apok d s (A j) (v j) (u j) (dts j) (f j)) ->
  (forall j, j < length ws -> v j = nth j ws 0 -> u j = nth j hs 0) ->
  d <= d' -> 0 < d' -> ext s s' -> length x = sum_nat ws -> (is_complex xdt = false -> vreal x) ->
  (exists j, j < length ws /\ v j <> nth j ws 0) ->
  exists s'', bd_loop (apply d') rt xdt ws hs (dcells (length ws) A) x s' = (s'', Err ValueError).
Proof.
  induction ws as [|w ws IH]; intros hs d d' s s' A v u dts f rt xdt x Lh Hob Hap Hu Hd Hd' E Hx Hr (j & Hj & Hv);
    [cbn in Hj; lia|].
  destruct hs as [|h hs]; [discriminate|]. cbn [length dcells tab bd_loop].
  cbn in Hx. fold (sum_nat ws) in Hx.
  destruct (Nat.eq_dec (v 0) w) as [Ev|Nv].
  2: { destruct (Hob 0 ltac:(cbn; lia)) as (o & Ho & Hn).
       destruct (ext_obj _ _ E _ _ Ho) as (o' & Ho' & S). destruct d' as [|d']; [lia|].
       destruct (apply_bad_size d' s' (A 0) o' (mkarr xdt (firstn w x)) Ho') as (s1 & E1).
       { unfold asize. cbn [adata]. rewrite (firstn_sum x w (sum_nat ws)) by auto.
         rewrite <- (stable_nargin _ _ S). congruence. }
       exists s1. cbn [ap_opt]. apply bind_err. exact E1. }
  destruct (Hap 0) as [L0 H0]; [cbn; lia|]. rewrite Ev in L0, H0.
  destruct (H0 d' s' (mkarr xdt (firstn w x)) Hd E) as (s1 & E1 & X1).
  { intro C. cbn. apply vreal_firstn. auto. }
  { unfold asize. cbn. eapply firstn_sum; eauto. }
  cbn [adt adata] in E1.
  assert (Lf : length (f 0 (firstn w x)) = h).
  { rewrite (lin_len _ _ _ L0) by (eapply firstn_sum; eauto). apply (Hu 0); [cbn; lia|exact Ev]. }
  assert (exists y, assign_into rt h (mkarr (result_type (dts 0) xdt) (f 0 (firstn w x))) = Ok y) as [y EA].
  { unfold assign_into, astype. cbn [adata].
    destruct (is_complex rt); [|unfold vre; rewrite map_length]; rewrite Lf, Nat.eqb_refl; eauto. }
  destruct (IH hs d d' s s1 (fun j => A (S j)) (fun j => v (S j)) (fun j => u (S j)) (fun j => dts (S j)) (fun j => f (S j))
     rt xdt (skipn w x)) as (s2 & E2); auto.
  - intros k Hk. apply (Hob (S k)). cbn; lia.
  - intros k Hk. apply (Hap (S k)). cbn; lia.
  - intros k Hk. apply (Hu (S k)). cbn; lia.
  - eapply skipn_sum; eauto.
  - intros C. apply vreal_skipn. auto.
  - destruct j as [|j]; [cbn in Hv; congruence|]. exists j. split; [cbn in Hj; lia|exact Hv].
  - exists s2. cbn [ap_opt]. erewrite bind_ok by exact E1. rewrite EA.
    erewrite bind_ok by reflexivity. apply bind_err. exact E2.
Qed.

Lemma desc_dual : forall (s : st) N n m c ct ch dt w t, desc s N n m c (Some ct) (Some ch) false false dt ->
  w <> WN -> wtgt s w N t ->
  exists o, objs s t = Some o /\ o_nargin o = m /\ o_nargout o = n /\ o_mv o = match w with WT => ct | _ => ch end /\ t <> N.
Proof.
  intros s N n m c ct ch dt w t D Nw Hw. unfold desc in D.
  destruct (is_complex dt).
  - destruct D as (a & h & q & HN & HT & HH & _ & N1 & N2).
    destruct HN as (oN & HoN & _ & _ & _ & _ & _ & _ & ET & EH).
    destruct w; [congruence| |]; destruct Hw as (o & Ho & Et); rewrite HoN in Ho; injection Ho as <-.
    + rewrite ET in Et; injection Et as <-. destruct HT as (ot & ? & ? & ? & _ & _ & _ & ? & _). eauto 8.
    + rewrite EH in Et; injection Et as <-. destruct HH as (ot & ? & ? & ? & _ & _ & _ & ? & _). eauto 8.
  - destruct D as (a & h & HN & HT & HH & N1 & N2).
    destruct HN as (oN & HoN & _ & _ & _ & _ & _ & _ & ET & EH).
    destruct w; [congruence| |]; destruct Hw as (o & Ho & Et); rewrite HoN in Ho; injection Ho as <-.
    + rewrite ET in Et; injection Et as <-. destruct HT as (ot & ? & ? & ? & _ & _ & _ & ? & _). eauto 8.
    + rewrite EH in Et; injection Et as <-. destruct HH as (ot & ? & ? & ? & _ & _ & _ & ? & _). eauto 8.
Qed.

Lemma drow_bad : forall sym (s s1 u : st) r ws hs dts g O dt, length hs = length ws -> drow sym s u r ws hs dts g ->
  dsized u ws hs O -> ext u s1 -> (exists k, k < length ws /\ nth k ws 0 <> nth k hs 0) ->
  exists A, rows s r = Some (dcells (length ws) A) /\
  exists d0, forall d' s1 x, d0 <= d' -> ext u s1 -> awf x -> asize x = sum_nat hs -> exists s2,
    bd_matvec (apply d') dt (dcells (length ws) O) (dcells (length ws) A) x s1
      = (s2, Err (if Nat.eqb (sum_nat hs) (sum_nat ws) then ValueError else ShapeError)).
Proof.
  intros sym s s0 u r ws hs dts g O dt L (A & gT & R & H) SZ _ (k & Hk & Hn).
  exists A. split; auto.
  destruct (fam_fuel (length ws) 1
     (fun i _ d => apok d u (A i) (nth i hs 0) (nth i ws 0) (dts i) (gT i))) as [d Hap].
  { intros. eapply apok_fuel; eauto. }
  { intros i j Hi Hj. destruct (H i Hi) as ((G1 & D1 & _) & _). eapply apok_den; [now apply Good_den|now apply Dts_dt]. }
  exists (S d). intros d' s1 x Hd E Hx Hl.
  unfold bd_matvec.
  destruct (dsized_run s1 ws hs O L (dsized_mono _ _ _ _ _ E SZ)) as [R1 R2].
  erewrite bind_ok by exact R1. erewrite bind_ok by exact R2. rewrite Hl.
  destruct (Nat.eqb_spec (sum_nat hs) (sum_nat ws)) as [Es|Es]; cbn [negb]; [|eexists; reflexivity].
  destruct (bd_loop_bad ws hs d d' u s1 A (fun i => nth i hs 0) (fun i => nth i ws 0) dts gT
     (result_type dt (adt x)) (adt x) (adata x)) as (s2 & E2); auto; try lia.
  - intros j Hj. destruct (H j Hj) as ((G1 & _) & _). destruct (Good_attr _ _ _ _ _ G1) as (o & ? & ? & _). eauto.
  - intros j Hj. apply (Hap j 0); auto.
  - unfold asize in Hl. congruence.
  - exists k. split; auto.
  - exists s2. apply bind_err. exact E2.
Qed.
(** transposed products of a block diagonal operator with a rectangular block always raise *)
Theorem bd_rect : forall (s u : st) D og b bT bH ws hs dt O A dts g w t,
  bdst s u D og b bT bH ws hs false false dt O A dts g ->
  (exists k, k < length ws /\ nth k ws 0 <> nth k hs 0) -> w <> WN -> wtgt s w D t ->
  exists d0, forall d s1 x, d0 <= d -> ext s s1 -> awf x -> asize x = sum_nat hs -> exists s2,
    apply d t x s1 = (s2, Err (if Nat.eqb (sum_nat hs) (sum_nat ws) then ValueError else ShapeError)).
Proof.
  intros s u D og b bT bH ws hs dt O A dts g w t B HK Nw Hw.
  pose proof (bd_ext _ _ _ _ _ _ _ _ _ _ _ _ _ _ _ _ B) as U.
  pose proof (bd_len _ _ _ _ _ _ _ _ _ _ _ _ _ _ _ _ B) as L.
  pose proof (bd_og _ _ _ _ _ _ _ _ _ _ _ _ _ _ _ _ B) as Rg.
  pose proof (bd_sized _ _ _ _ _ _ _ _ _ _ _ _ _ _ _ _ B) as SZ.
  pose proof (bd_desc _ _ _ _ _ _ _ _ _ _ _ _ _ _ _ _ B) as De.
  destruct (bd_parts FOK _ _ _ _ _ _ _ _ _ _ _ _ _ _ _ _ B) as (o & Ho & Hp & Hd & _).
  destruct (desc_dual _ _ _ _ _ _ _ _ _ _ De Nw Hw) as (ot & Hot & Hin & Hout & Hmv & Nt).
  assert (exists AA, rows s (dsel w b bT bH) = Some (dcells (length ws) AA) /\
    exists d0, forall d' s1 x, d0 <= d' -> ext u s1 -> awf x -> asize x = sum_nat hs -> exists s2,
    bd_matvec (apply d') dt (dcells (length ws) O) (dcells (length ws) AA) x s1
      = (s2, Err (if Nat.eqb (sum_nat hs) (sum_nat ws) then ValueError else ShapeError))) as (AA & RA & d0 & H).
  { destruct w; [congruence| |]; cbn [dsel].
    - eapply drow_bad; eauto. now apply (bd_T _ _ _ _ _ _ _ _ _ _ _ _ _ _ _ _ B).
    - eapply drow_bad; eauto. now apply (bd_H _ _ _ _ _ _ _ _ _ _ _ _ _ _ _ _ B). }
  exists (S d0). intros d s1 x Hd0 E1 Hx Hl. destruct d as [|d]; [lia|]. cbn [apply]. unfold mul_vector.
  destruct (ext_obj _ _ E1 _ _ Hot) as (ot1 & Hot1 & St).
  set (o1 := with_count (S (o_count ot1)) ot1). set (s2 := set_obj t o1 s1).
  assert (X2 : ext s1 s2) by (apply ext_bump; exact Hot1).
  assert (X : ext s s2) by (eapply ext_trans; eauto).
  erewrite bind_ok by (unfold bump, modobj; rewrite Hot1; reflexivity). fold o1. fold s2.
  assert (Ho1 : objs s2 t = Some o1) by apply get_set_eq.
  do 3 (erewrite bind_ok by (apply getattr_ok; exact Ho1)).
  change (o_nargin o1) with (o_nargin ot1). rewrite <- (stable_nargin _ _ St), Hin, Hl, Nat.eqb_refl. cbn [negb].
  erewrite bind_ok by (apply getattr_ok; exact Ho1). change (o_mv o1) with (o_mv ot1).
  rewrite <- (stable_mv _ _ St), Hmv.
  destruct (H d s2 x) as (s3 & E3); auto; [lia|eapply ext_trans; eauto|].
  exists s3. apply bind_err.
  destruct (ext_obj _ _ X _ _ Ho) as (oD & HoD & SD).
  replace (match w with WT => CBDiag WT D | _ => CBDiag WH D end) with (CBDiag (F:=F) w D) by (destruct w; congruence).
  cbn [call]. erewrite bind_ok by (apply getattr_ok; exact HoD). rewrite <- (stable_pay _ _ SD), Hp.
  erewrite bind_ok by (apply getattr_ok; exact HoD). rewrite <- (stable_dtype _ _ SD), Hd.
  erewrite bind_ok by (unfold get_row; rewrite (ext_row _ _ X _ _ Rg); reflexivity).
  fold (dsel w b bT bH). erewrite bind_ok by (unfold get_row; rewrite (ext_row _ _ X _ _ RA); reflexivity).
  exact E3.
Qed.
(** a rectangular block carries no flag *)
Lemma rect_noflag : forall (s : st) a n m dt (f : map1) o, GoodD s a n m dt f -> objs s a = Some o -> n <> m ->
  o_sym o = false /\ o_herm o = false.
Proof.
  intros s a n m dt f o (G & _) Ho N. destruct (Good_attr _ _ _ _ _ G) as (o' & Ho' & _ & _ & H1 & H2).
  rewrite Ho in Ho'; injection Ho' as <-.
  destruct (o_sym o), (o_herm o); auto; exfalso; apply N; first [now apply H1|now apply H2].
Qed.

(** ** D[k] = B *)
Definition upd1 {A} (f : nat -> A) (k : nat) (v : A) : nat -> A := fun i => if Nat.eqb i k then v else f i.
(** what depends neither on [D] nor on the two lists of blocks *)
Definition dbase (D : addr) (og b : nat) (s : st) : st := drop D (norows [og; b] s).
Definition bdinv (s : st) D og b bT bH ws hs sym herm dt O A dts g : Prop :=
  bdst s (dbase D og b s) D og b bT bH ws hs sym herm dt O A dts g.
Lemma dbase_ext : forall D og b (s : st), ext (dbase D og b s) s.
Proof. intros. eapply ext_trans; [apply ext_drop|apply norows_ext]. Qed.
Lemma norows_out : forall rs (s : st) l, ~ In l rs -> rows (norows rs s) l = rows s l.
Proof.
  intros rs s l N. cbn. destruct (existsb (Nat.eqb l) rs) eqn:E; auto. apply existsb_exists in E.
  destruct E as (x & Hx & E). apply Nat.eqb_eq in E. subst x. contradiction.
Qed.
Lemma norows_mono : forall rs (s s' : st), ext s s' -> ext (norows rs s) (norows rs s').
Proof.
  intros rs s s' [E1 E2 E3]. constructor; [exact E1|exact E2|]. intros l r H. apply norows_in in H. destruct H as [N H].
  rewrite norows_out by auto. auto.
Qed.
Lemma dbase_mono : forall D og b (s s' : st), ext s s' -> ext (dbase D og b s) (dbase D og b s').
Proof. intros. apply ext_drops. now apply norows_mono. Qed.
Theorem bdinv_ext : forall (s s' : st) D og b bT bH ws hs sym herm dt O A dts g, ext s s' ->
  bdinv s D og b bT bH ws hs sym herm dt O A dts g -> bdinv s' D og b bT bH ws hs sym herm dt O A dts g.
Proof.
  intros s s' D og b bT bH ws hs sym herm dt O A dts g E B. unfold bdinv in *.
  apply (bdst_mono s s' (dbase D og b s)); auto; [now apply dbase_mono|apply dbase_ext].
Qed.
Theorem bdiag_inv : forall (s : st) og ws hs A dts g, wfst s -> ws <> [] -> length hs = length ws ->
  rows s og = Some (dcells (length ws) A) ->
  (forall i, i < length ws -> GoodD (norows [og] s) (A i) (nth i ws 0) (nth i hs 0) (dts i) (g i)) ->
  exists s' ob b bT bH dt A',
    let sym := allf o_sym ob (length ws) A in
    let herm := allf o_herm ob (length ws) A in
    bdiag_op og s = (s', Ok (nxt s)) /\ ext s s' /\ wfst s' /\ nxt s < nxt s' /\
    (forall i, i < length ws -> objs s (A i) = Some (ob (A i))) /\
    bdinv s' (nxt s) og b bT bH ws hs sym herm dt A A' dts g /\
    b = self_bd sym herm dt og bT bH /\ rows s bT = None /\ rows s bH = None.
Proof.
  intros s og ws hs A dts g W N L Rg HG.
  destruct (bdiag_bdst FOK s (norows [og] s) og ws hs A dts g) as
    (s' & ob & b & bT & bH & dt & A' & E & X & W' & L' & Hob & Hdt & B & _ & _ & Eb & FT & FH); auto.
  { apply norows_ext. }
  exists s', ob, b, bT, bH, dt, A'. cbv zeta. split; auto. split; auto. split; auto. split; auto. split; auto.
  split; [|auto]. unfold bdinv. apply (bdst_mono s' s' (norows [og] s)); auto; [apply ext_refl| |apply dbase_ext].
  assert (Hb : b = og \/ rows s b = None).
  { rewrite Eb. unfold self_bd. destruct (_ && _); auto. destruct (allf o_sym ob (length ws) A); auto. }
  unfold dbase. apply ext_drop_fresh; [|apply (proj1 W); lia].
  destruct X as [X1 X2 X3]. constructor; [exact X1|exact X2|]. intros l r H. apply norows_in in H. destruct H as [Nl H].
  rewrite norows_out; [auto|]. intros I.
  destruct I as [<-|[<-|[]]]; [elim Nl; now left|]. destruct Hb as [->|Hb]; [elim Nl; now left|congruence].
Qed.

Lemma lupd_dcells : forall n A k v, k < n -> lupd (dcells n A) k (Some v) = dcells n (upd1 A k v).
Proof.
  intros. unfold dcells. rewrite lupd_tab by auto. apply tab_ext. intros i Hi. unfold upd1. now destruct (Nat.eqb i k).
Qed.
Lemma dcells_inj : forall n A B, dcells n A = dcells n B -> forall i, i < n -> A i = B i.
Proof.
  intros n A B E i Hi. apply (f_equal (fun l => nth_error l i)) in E. unfold dcells in E.
  rewrite !nth_error_tab in E by auto. congruence.
Qed.
(** any blocks may be stored whose sizes add up to those of D and, if D has its own list (it is
    symmetric or hermitian), whose sizes are those of the blocks of the caller's list *)
(** without the condition that the total sizes stay the same *)
Theorem bd_store_gen : forall (s : st) D og b bT bH ws hs sym herm dt O A dts g ws' hs' A' dts' g',
  bdinv s D og b bT bH ws hs sym herm dt O A dts g -> wfst s -> D < nxt s ->
  ws' <> [] -> length hs' = length ws' ->
  (b <> og -> ws' = ws /\ hs' = hs) ->
  (forall i, i < length ws' -> GoodD (dbase D og b s) (A' i) (nth i ws' 0) (nth i hs' 0) (dts' i) (g' i)) ->
  (forall i, i < length ws' -> is_complex (dts' i) = true -> is_complex dt = true) ->
  exists s' bT' bH' O', bd_store D (dcells (length ws') A') s = (s', Ok tt) /\ wfst s' /\ nxt s' = nxt s /\
    ext (dbase D og b s) (dbase D og b s') /\
    rows s' og = Some (if Nat.eqb b og then dcells (length ws') A' else dcells (length ws) O) /\
    desc s' D (sum_nat ws) (sum_nat hs) (CBDiag WN D) (Some (CBDiag WT D)) (Some (CBDiag WH D)) sym herm dt /\
    (exists o, objs s' D = Some o /\ o_pay o = PBDiag og b bT' bH') /\
    rows s' b = Some (dcells (length ws') A') /\
    (forall i, i < length ws' -> GoodD (dbase D og b s') (A' i) (nth i ws' 0) (nth i hs' 0) (dts' i) (g' i)) /\
    (sum_nat ws' = sum_nat ws -> sum_nat hs' = sum_nat hs -> bdinv s' D og b bT' bH' ws' hs' sym herm dt O' A' dts' g').
Proof.
  intros s D og b bT bH ws hs sym herm dt O A dts g ws' hs' A' dts' g' BI W LD N' L' Hog HG' HC'.
  destruct (bd_parts FOK _ _ _ _ _ _ _ _ _ _ _ _ _ _ _ _ BI) as (o & Ho & Hp & Hd & Hsy & Hhe & _).
  destruct BI as [U N L De _ Rg SZ Rb HG HC BT BH].
  set (n := length ws') in *.
  set (u := dbase D og b s) in *.
  destruct (dtargets true _ _ _ _ _ _ HG') as (AT & gT & HT). destruct (dtargets false _ _ _ _ _ _ HG') as (AH & gH & HH).
  set (s1 := mkst (nxt s) (objs s) (narr s) (arrs s) (nrow s) (upd (rows s) b (Some (dcells n A')))).
  assert (Lb : b < nrow s).
  { destruct (Nat.lt_ge_cases b (nrow s)); auto. rewrite (proj2 (proj2 W) b) in Rb by auto. discriminate. }
  assert (Log : og < nrow s).
  { destruct (Nat.lt_ge_cases og (nrow s)); auto. rewrite (proj2 (proj2 W) og) in Rg by auto. discriminate. }
  assert (W1 : wfst s1).
  { destruct W as (Wa & Wb & Wc). split; [exact Wa|split; [exact Wb|]]. intros l Hl. cbn in *. unfold upd.
    destruct (Nat.eqb_spec l b); [lia|auto]. }
  assert (X1 : ext u (dbase D og b s1)).
  { unfold u, dbase. constructor.
    - intros a oa Ha. exists oa. split; [exact Ha|apply same_refl].
    - auto.
    - intros l r Hr. change (rows (norows [og; b] s) l = Some r) in Hr. change (rows (norows [og; b] s1) l = Some r).
      apply norows_in in Hr. destruct Hr as [I Hr]. rewrite norows_out by auto. cbn [s1 rows]. unfold upd. destruct (Nat.eqb_spec l b); [subst; elim I; right; now left|auto]. }
  assert (U1 : ext u s1) by (eapply ext_trans; [exact X1|apply dbase_ext]).
  assert (Ro1 : rows s1 og = Some (if Nat.eqb b og then dcells n A' else dcells (length ws) O)).
  { cbn. unfold upd. rewrite (Nat.eqb_sym og b). destruct (Nat.eqb_spec b og); auto. }
  assert (TG : forall sx w X Y, ext u sx -> w <> WN -> (forall i, i < n -> wtgt u w (X i) (Y i)) ->
     mmap (blk_attr (match w with WT => o_T | _ => o_H end)) (dcells n X) sx = (sx, Ok (dcells n Y))).
  { intros sx w X Y E Nw H. apply (dattr _ _ (fun i => Some (Y i))). intros i Hi.
    pose proof (wtgt_mono _ _ _ _ _ E (H i Hi)) as Hw.
    destruct w; [congruence| |]; destruct Hw as (oo & ? & ?); eauto. }
  set (O' := if Nat.eqb b og then A' else O).
  assert (Sz' : dsized u ws' hs' O').
  { unfold O'. destruct (Nat.eqb_spec b og); [eapply dsized_good; eauto|]. destruct (Hog n0) as [-> ->]. auto. }
  (* the steps *)
  unfold bd_store, get_bdiag.
  erewrite bind_ok by (erewrite bind_ok by (apply getattr_ok; exact Ho); rewrite Hp; reflexivity). cbn beta iota.
  erewrite bind_ok by reflexivity. fold s1.
  assert (Rb1 : rows s1 b = Some (dcells n A')) by (cbn; unfold upd; now rewrite Nat.eqb_refl).
  assert (Ho1 : objs s1 D = Some o) by exact Ho.
  erewrite bind_ok by (apply getattr_ok; exact Ho1). rewrite Hsy.
  (* T *)
  set (s2 := if sym then s1 else rowst (dcells n AT) s1). set (bT' := if sym then bT else nrow s1).
  assert (E2 : (if sym then ret bT else bind (mmap (blk_attr o_T) (dcells n A')) new_row) s1 = (s2, Ok bT')).
  { unfold s2, bT'. destruct sym; auto. erewrite bind_ok by (apply (TG s1 WT A' AT U1); [discriminate|intros; apply HT; auto]).
    reflexivity. }
  erewrite bind_ok by exact E2.
  assert (W2 : wfst s2) by (unfold s2; destruct sym; auto; now apply wf_rowst).
  assert (X2 : ext s1 s2) by (unfold s2; destruct sym; [apply ext_refl|now apply ext_rowst]).
  assert (O2 : objs s2 = objs s1) by (unfold s2; destruct sym; reflexivity).
  assert (N2 : nxt s2 = nxt s) by (unfold s2; destruct sym; reflexivity).
  erewrite bind_ok by (unfold modobj; rewrite O2, Ho1; reflexivity).
  set (o3 := with_pay (PBDiag og b bT' bH) o). set (s3 := set_obj D o3 s2).
  assert (Ho3 : objs s3 D = Some o3) by apply get_set_eq.
  erewrite bind_ok by (apply getattr_ok; exact Ho3). change (o_herm o3) with (o_herm o). rewrite Hhe.
  assert (W3 : wfst s3) by (apply wf_set; auto; lia).
  assert (XB2 : ext u (dbase D og b s2)) by (eapply ext_trans; [exact X1|now apply dbase_mono]).
  assert (DS : forall (x : st) oo, ext u (dbase D og b x) -> ext u (dbase D og b (set_obj D oo x))).
  { intros x oo E. eapply ext_trans; [exact E|]. unfold dbase. constructor.
    - intros a oa Ha. exists oa. split; [|apply same_refl]. cbn in *. unfold upd in *. destruct (Nat.eqb a D); auto.
    - auto.
    - auto. }
  assert (XB3 : ext u (dbase D og b s3)) by now apply DS.
  assert (U3 : ext u s3) by (eapply ext_trans; [exact XB3|apply dbase_ext]).
  set (s4 := if herm then s3 else rowst (dcells n AH) s3). set (bH' := if herm then bH else nrow s3).
  assert (E4 : (if herm then ret bH else bind (mmap (blk_attr o_H) (dcells n A')) new_row) s3 = (s4, Ok bH')).
  { unfold s4, bH'. destruct herm; auto. erewrite bind_ok by (apply (TG s3 WH A' AH U3); [discriminate|intros; apply HH; auto]).
    reflexivity. }
  erewrite bind_ok by exact E4.
  assert (W4 : wfst s4) by (unfold s4; destruct herm; auto; now apply wf_rowst).
  assert (X4 : ext s3 s4) by (unfold s4; destruct herm; [apply ext_refl|now apply ext_rowst]).
  assert (O4 : objs s4 = objs s3) by (unfold s4; destruct herm; reflexivity).
  assert (N4 : nxt s4 = nxt s) by (unfold s4; destruct herm; cbn; auto).
  unfold modobj. rewrite O4, Ho3.
  set (o5 := with_pay (PBDiag og b bT' bH') o3). set (s5 := set_obj D o5 s4).
  assert (XB4 : ext u (dbase D og b s4)) by (eapply ext_trans; [exact XB3|now apply dbase_mono]).
  assert (XB5 : ext u (dbase D og b s5)) by now apply DS.
  assert (R5 : forall l r, rows s1 l = Some r -> rows s5 l = Some r).
  { intros l r Hr. apply (ext_row _ _ X2) in Hr. change (rows s4 l = Some r). apply (ext_row _ _ X4). exact Hr. }
  exists s5, bT', bH', O'.
  split; [reflexivity|]. split; [apply wf_set; auto; lia|]. split; [exact N4|]. split; [exact XB5|].
  split; [now apply R5|].
  assert (De5 : desc s5 D (sum_nat ws) (sum_nat hs) (CBDiag WN D) (Some (CBDiag WT D)) (Some (CBDiag WH D)) sym herm dt).
  { assert (Ho4 : objs s4 D = Some o3) by now rewrite O4.
    apply (desc_obj s4 D _ _ _ _ _ _ _ _ o3); [exact Ho4|exists (PBDiag og b bT' bH'), (o_count o); destruct o; reflexivity|].
    apply (desc_mono s3); auto.
    assert (Ho2 : objs s2 D = Some o) by now rewrite O2.
    apply (desc_obj s2 D _ _ _ _ _ _ _ _ o); [exact Ho2|exists (PBDiag og b bT' bH), (o_count o); destruct o; reflexivity|].
    apply (desc_mono s1); auto. }
  assert (Py5 : exists o, objs s5 D = Some o /\ o_pay o = PBDiag og b bT' bH') by (exists o5; split; [apply get_set_eq|reflexivity]).
  split; auto. split; auto. split; [now apply R5|]. split; [intros i Hi; apply (GoodD_mono u); auto|].
  intros Ew Eh. constructor; auto.
  - apply dbase_ext.
  - now rewrite Ew, Eh.
  - apply R5. rewrite Ro1. unfold O'. destruct (Nat.eqb_spec b og) as [|Nb]; auto. unfold n. now destruct (Hog Nb) as [-> _].
  - apply (dsized_mono u); auto.
  - intros i Hi. apply (GoodD_mono u); auto.
  - intros C. exists AT, gT. split.
    + unfold bT'. rewrite C. change (rows s4 (nrow s1) = Some (dcells n AT)). apply (ext_row _ _ X4).
      change (rows s2 (nrow s1) = Some (dcells n AT)). unfold s2. rewrite C. cbn. unfold upd. now rewrite Nat.eqb_refl.
    + intros i Hi. destruct (HT i Hi) as (_ & G1 & Du). split; [apply (GoodD_mono u); auto|exact Du].
  - intros C. exists AH, gH. split.
    + unfold bH'. rewrite C. change (rows s4 (nrow s3) = Some (dcells n AH)). unfold s4. rewrite C. cbn. unfold upd. now rewrite Nat.eqb_refl.
    + intros i Hi. destruct (HH i Hi) as (_ & G1 & Du). split; [apply (GoodD_mono u); auto|exact Du].
Qed.
Theorem bd_store_inv : forall (s : st) D og b bT bH ws hs sym herm dt O A dts g ws' hs' A' dts' g',
  bdinv s D og b bT bH ws hs sym herm dt O A dts g -> wfst s -> D < nxt s ->
  ws' <> [] -> length hs' = length ws' -> sum_nat ws' = sum_nat ws -> sum_nat hs' = sum_nat hs ->
  (b <> og -> ws' = ws /\ hs' = hs) ->
  (forall i, i < length ws' -> GoodD (dbase D og b s) (A' i) (nth i ws' 0) (nth i hs' 0) (dts' i) (g' i)) ->
  (forall i, i < length ws' -> is_complex (dts' i) = true -> is_complex dt = true) ->
  exists s' bT' bH' O', bd_store D (dcells (length ws') A') s = (s', Ok tt) /\ wfst s' /\ nxt s' = nxt s /\
    ext (dbase D og b s) (dbase D og b s') /\
    rows s' og = Some (if Nat.eqb b og then dcells (length ws') A' else dcells (length ws) O) /\
    bdinv s' D og b bT' bH' ws' hs' sym herm dt O' A' dts' g'.
Proof.
  intros s D og b bT bH ws hs sym herm dt O A dts g ws' hs' A' dts' g' BI W LD N' L' Ew Eh Hog HG' HC'.
  destruct (bd_store_gen s D og b bT bH ws hs sym herm dt O A dts g ws' hs' A' dts' g' BI W LD N' L' Hog HG' HC')
    as (s' & bT' & bH' & O' & E & W' & Nx & X & R & _ & _ & _ & _ & B). exists s', bT', bH', O'. auto 8.
Qed.

Theorem bd_set_inv : forall (s : st) D og b bT bH ws hs sym herm dt O A dts g k kz B dB f,
  bdinv s D og b bT bH ws hs sym herm dt O A dts g -> wfst s -> D < nxt s ->
  pyindex (length ws) kz = Ok k ->
  GoodD (dbase D og b s) B (nth k ws 0) (nth k hs 0) dB f -> (is_complex dB = true -> is_complex dt = true) ->
  exists s' bT' bH' O', bd_set D kz B s = (s', Ok tt) /\ wfst s' /\ nxt s' = nxt s /\
    ext (dbase D og b s) (dbase D og b s') /\
    rows s' og = Some (dcells (length ws) (if Nat.eqb b og then upd1 A k B else O)) /\
    bdinv s' D og b bT' bH' ws hs sym herm dt O' (upd1 A k B) (upd1 dts k dB) (upd1 g k f).
Proof.
  intros s D og b bT bH ws hs sym herm dt O A dts g k kz B dB f BI W LD Pk GB CB.
  pose proof (pyindex_lt _ _ _ Pk) as Lk.
  destruct (bd_parts FOK _ _ _ _ _ _ _ _ _ _ _ _ _ _ _ _ BI) as (o & Ho & Hp & _).
  destruct (bd_store_inv s D og b bT bH ws hs sym herm dt O A dts g ws hs (upd1 A k B) (upd1 dts k dB) (upd1 g k f) BI W LD)
    as (s' & bT' & bH' & O' & E & W' & N' & X & R & BI'); auto; try apply BI.
  - intros i Hi. unfold upd1. destruct (Nat.eqb_spec i k); subst; auto. now apply (bd_good _ _ _ _ _ _ _ _ _ _ _ _ _ _ _ _ BI).
  - intros i Hi. unfold upd1. destruct (Nat.eqb i k); [exact CB|now apply (bd_dt _ _ _ _ _ _ _ _ _ _ _ _ _ _ _ _ BI)].
  - exists s', bT', bH', O'. split; [|split; auto; split; auto; split; auto; split; [|exact BI']].
    + unfold bd_set, get_bdiag.
      erewrite bind_ok by (erewrite bind_ok by (apply getattr_ok; exact Ho); rewrite Hp; reflexivity). cbn beta iota.
      erewrite bind_ok by (unfold get_row; rewrite (bd_b _ _ _ _ _ _ _ _ _ _ _ _ _ _ _ _ BI); reflexivity).
      unfold dcells at 1. rewrite tab_length, Pk. erewrite bind_ok by reflexivity.
      rewrite lupd_dcells by auto. exact E.
    + rewrite R. now destruct (Nat.eqb b og).
Qed.

(** a block diagonal map is symmetric only if its blocks are *)
Lemma bdmap_tr_inv : forall ws (g : nat -> map1), dlin ws ws g ->
  is_transpose (sum_nat ws) (sum_nat ws) (bdmap ws g) (bdmap ws g) ->
  forall i, i < length ws -> is_transpose (nth i ws 0) (nth i ws 0) (g i) (g i).
Proof.
  induction ws as [|w ws IH]; intros g DL T i Hi; [cbn in Hi; lia|].
  pose proof (dlin_0 _ _ _ _ _ DL) as L0. pose proof (dlin_S _ _ _ _ _ DL) as L1.
  pose proof (bdmap_lin ws ws _ eq_refl L1) as LB.
  change (sum_nat (w :: ws)) with (w + sum_nat ws) in T.
  assert (FS : forall (a b : list F), length a = w -> firstn w (a ++ b) = a /\ skipn w (a ++ b) = b).
  { intros a b <-. split; [rewrite firstn_app, Nat.sub_diag, firstn_all; cbn; now rewrite app_nil_r|].
    rewrite skipn_app, Nat.sub_diag, skipn_all. reflexivity. }
  assert (Z0 : forall a : F, kadd k0 a = a) by (intro; apply (Radd_0_l (fk_ring _ FOK))).
  assert (Z1 : forall a : F, kadd a k0 = a) by (intro a; rewrite (Radd_comm (fk_ring _ FOK)); auto).
  destruct i as [|i].
  - intros x y Hx Hy. cbn [nth] in *.
    specialize (T (x ++ vzero (sum_nat ws)) (y ++ vzero (sum_nat ws))).
    rewrite !app_length, !vzero_length, Hx, Hy in T. specialize (T eq_refl eq_refl).
    cbn [bdmap] in T. destruct (FS x (vzero (sum_nat ws)) Hx) as [E1 E2]. destruct (FS y (vzero (sum_nat ws)) Hy) as [E3 E4].
    rewrite E1, E2, E3, E4 in T.
    rewrite !(dot_app FOK) in T by (rewrite ?(lin_len _ _ _ L0), ?vzero_length; congruence).
    rewrite !(dot_zero_l FOK), !(dot_zero_r FOK) in T. rewrite !Z1 in T. exact T.
  - cbn [nth]. apply (IH (fun i => g (S i)) L1); [|cbn in Hi; lia].
    intros x y Hx Hy.
    specialize (T (vzero w ++ x) (vzero w ++ y)).
    rewrite !app_length, !vzero_length, Hx, Hy in T. specialize (T eq_refl eq_refl).
    cbn [bdmap] in T. destruct (FS (vzero w) x (vzero_length w)) as [E1 E2]. destruct (FS (vzero w) y (vzero_length w)) as [E3 E4].
    rewrite E1, E2, E3, E4 in T.
    rewrite !(dot_app FOK) in T by (rewrite ?(lin_len _ _ _ L0), ?vzero_length; auto using vzero_length).
    rewrite !(dot_zero_l FOK), !(dot_zero_r FOK) in T. rewrite !Z0 in T. exact T.
Qed.
End DiagOps.
