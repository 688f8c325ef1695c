(** * Block diagonal operators (blkop.py:154-256). *)
From Coq Require Import List ZArith Lia Bool.
From Verif Require Import Base Field Vec LinopModel LinopFrame LinopGood LinopInit LinopDep LinopAlg
  LinopOps LinopUser BlkSpec BlkModel BlkProof BlkSet BlkSym BlkErr BlkSymErr.
Import ListNotations.

Section Diag.
Context {F : Fld} (FOK : FldOK F).
Notation st := (st F). Notation obj := (obj F). Notation M := (M F). Notation arr := (arr F).
Notation map1 := (list F -> list F).

Definition allf (p : obj -> bool) (ob : addr -> obj) (n : nat) (A : nat -> addr) : bool :=
  forallb (fun i => p (ob (A i))) (seq 0 n).
Lemma forallb_tab : forall B (p : B -> bool) n f, forallb p (tab n f) = forallb (fun i => p (f i)) (seq 0 n).
Proof.
  intros B p n f. rewrite tab_map. induction (seq 0 n); cbn; auto. now rewrite IHl.
Qed.
Definition dcells (n : nat) (A : nat -> addr) : list (option addr) := tab n (fun i => Some (A i)).

(** ** The product *)
Lemma bd_loop_ok : forall ws hs d d' (s s' : st) (A : nat -> addr) dts g rt xdt x,
  length hs = length ws ->
  (forall i, i < length ws -> apok d s (A i) (nth i ws 0) (nth i hs 0) (dts i) (g i) /\
     (is_complex (dts i) = false -> real_map (nth i ws 0) (g i))) ->
  (is_complex rt = false -> is_complex xdt = false /\ forall i, i < length ws -> is_complex (dts i) = false) ->
  d <= d' -> ext s s' -> length x = sum_nat ws -> (is_complex xdt = false -> vreal x) ->
  exists s'', bd_loop (apply d') rt xdt ws hs (dcells (length ws) A) x s' = (s'', Ok (bdmap ws g x)) /\ ext s s''.
Proof.
  induction ws as [|w ws IH]; intros hs d d' s s' A dts g rt xdt x Lh Hap HC Hd E Hx Hr.
  - destruct hs; [|discriminate]. exists s'. split; auto.
  - destruct hs as [|h hs]; [discriminate|]. cbn [length dcells tab bd_loop bdmap].
    cbn in Hx. fold (sum_nat ws) in Hx.
    destruct (Hap 0) as [[L0 H0] R0]; [cbn; lia|]. cbn in L0, H0, R0.
    destruct (H0 d' s' (mkarr xdt (firstn w x)) Hd E) as (s1 & E1 & X1).
    { intro C. cbn. apply vreal_firstn. auto. }
    { unfold asize. cbn. eapply firstn_sum; eauto. }
    cbn [adt adata] in E1.
    assert (Lx : length (firstn w x) = w) by (eapply firstn_sum; eauto).
    assert (Lf : length (g 0 (firstn w x)) = h) by (apply (lin_len _ _ _ L0); auto).
    assert (EA : assign_into rt h (mkarr (result_type (dts 0) xdt) (g 0 (firstn w x))) = Ok (g 0 (firstn w x))).
    { unfold assign_into, astype. cbn [adata].
      assert (Er : (if is_complex rt then g 0 (firstn w x) else vre (g 0 (firstn w x))) = g 0 (firstn w x)).
      { destruct (is_complex rt) eqn:C; auto. destruct (HC eq_refl) as [C1 C2].
        apply (vre_real FOK). unfold vreal. rewrite <- R0; auto.
        - f_equal. apply vreal_firstn. auto.
        - apply C2. cbn; lia. }
      rewrite Er, Lf, Nat.eqb_refl. reflexivity. }
    destruct (IH hs d d' s s1 (fun j => A (S j)) (fun j => dts (S j)) (fun j => g (S j)) rt xdt (skipn w x))
      as (s2 & E2 & X2); auto.
    + intros j Hj. apply (Hap (S j)). cbn; lia.
    + intros C. destruct (HC C) as [C1 C2]. split; auto. intros j Hj. apply C2. cbn; lia.
    + eapply skipn_sum; eauto.
    + intros C. apply vreal_skipn. auto.
    + exists s2. split; auto.
      cbn [ap_opt]. erewrite bind_ok by exact E1. rewrite EA.
      erewrite bind_ok by reflexivity. erewrite bind_ok by exact E2. reflexivity.
Qed.

Definition dsized (s : st) (ws hs : list nat) (A : nat -> addr) : Prop :=
  forall i, i < length ws -> exists o, objs s (A i) = Some o /\ o_nargin o = nth i ws 0 /\ o_nargout o = nth i hs 0.
Lemma dsized_mono : forall (s s' : st) ws hs A, ext s s' -> dsized s ws hs A -> dsized s' ws hs A.
Proof.
  intros s s' ws hs A E H i Hi. destruct (H i Hi) as (o & Ho & H1 & H2).
  destruct (ext_obj _ _ E _ _ Ho) as (o' & Ho' & S). exists o'.
  rewrite <- (stable_nargin _ _ S), <- (stable_nargout _ _ S). auto.
Qed.
Lemma dattr : forall B (p : obj -> B) (v : nat -> B) (s : st) n A,
  (forall i, i < n -> exists o, objs s (A i) = Some o /\ p o = v i) ->
  mmap (blk_attr p) (dcells n A) s = (s, Ok (tab n v)).
Proof.
  intros B p v s n A H. apply mmap_tab. intros i Hi. destruct (H i Hi) as (o & Ho & <-).
  cbn [blk_attr]. now apply getattr_ok.
Qed.
Lemma dsized_run : forall (s : st) ws hs A, length hs = length ws -> dsized s ws hs A ->
  mmap (blk_attr o_nargin) (dcells (length ws) A) s = (s, Ok ws) /\
  mmap (blk_attr o_nargout) (dcells (length ws) A) s = (s, Ok hs).
Proof.
  intros s ws hs A L H. split.
  - rewrite (dattr _ _ (fun i => nth i ws 0)); [now rewrite tab_nth|]. intros i Hi.
    destruct (H i Hi) as (o & ? & ? & ?). eauto.
  - rewrite (dattr _ _ (fun i => nth i hs 0)); [now rewrite <- L, tab_nth|]. intros i Hi.
    destruct (H i Hi) as (o & ? & ? & ?). eauto.
Qed.

Definition dfam (s : st) (dt : dtype) (ws hs : list nat) (A : nat -> addr) (dts : nat -> dtype) (g : nat -> map1) : Prop :=
  forall i, i < length ws -> denotes s (A i) (nth i ws 0) (nth i hs 0) (g i) /\ dt_of s (A i) (dts i) /\
    (is_complex (dts i) = true -> is_complex dt = true).
Lemma dfam_real : forall (s : st) dt ws hs A dts g, dfam s dt ws hs A dts g ->
  forall i, i < length ws -> is_complex (dts i) = false -> real_map (nth i ws 0) (g i).
Proof.
  intros s dt ws hs A dts g H i Hi C. destruct (H i Hi) as ((o & d & Ho & _ & _ & _ & R & _) & (o' & Ho' & Hd) & _).
  rewrite Ho in Ho'. injection Ho' as <-. apply R. congruence.
Qed.
Lemma dfam_lin : forall (s : st) dt ws hs A dts g, dfam s dt ws hs A dts g -> dlin ws hs g.
Proof. intros s dt ws hs A dts g H i Hi. eapply denotes_lin, H; auto. Qed.
Lemma dfam_mono : forall (s s' : st) dt ws hs A dts g, ext s s' -> dfam s dt ws hs A dts g -> dfam s' dt ws hs A dts g.
Proof.
  intros s s' dt ws hs A dts g E H i Hi. destruct (H i Hi) as (H1 & (o & Ho & Hd) & H3).
  split; [eapply denotes_mono; eauto|]. split; auto.
  destruct (ext_obj _ _ E _ _ Ho) as (o' & Ho' & S). exists o'. split; auto. rewrite <- (stable_dtype _ _ S). auto.
Qed.

Lemma bd_matvec_ok : forall (s : st) ws hs O A dts g dt, length hs = length ws -> dsized s ws hs O ->
  dfam s dt ws hs A dts g ->
  exists d, forall d' s' x, d <= d' -> ext s s' -> awf x -> asize x = sum_nat ws ->
    exists s'', bd_matvec (apply d') dt (dcells (length ws) O) (dcells (length ws) A) x s'
      = (s'', Ok (mkarr (result_type dt (adt x)) (bdmap ws g (adata x)))) /\ ext s s''.
Proof.
  intros s ws hs O A dts g dt L SZ HD.
  destruct (fam_fuel (length ws) 1
     (fun i _ d => apok d s (A i) (nth i ws 0) (nth i hs 0) (dts i) (g i))) as [d Hap].
  { intros. eapply apok_fuel; eauto. }
  { intros i j Hi Hj. destruct (HD i Hi) as (? & ? & ?). eapply apok_den; eauto. }
  exists d. intros d' s' x Hd E Hx Hl.
  destruct (bd_loop_ok ws hs d d' s s' A dts g (result_type dt (adt x)) (adt x) (adata x)) as (s2 & E2 & X2); auto.
  { intros i Hi. split; [apply (Hap i 0); auto; lia|]. eapply dfam_real; eauto. }
  { rewrite result_type_complex. intros C. apply orb_false_elim in C. destruct C as [C1 C2].
    split; auto. intros i Hi. destruct (is_complex (dts i)) eqn:Cd; auto.
    destruct (HD i Hi) as (_ & _ & H3). rewrite (H3 Cd) in C1. auto. }
  exists s2. split; auto. unfold bd_matvec.
  destruct (dsized_run s' ws hs O L (dsized_mono _ _ _ _ _ E SZ)) as [R1 R2].
  erewrite bind_ok by exact R1. erewrite bind_ok by exact R2.
  rewrite Hl, Nat.eqb_refl. cbn [negb]. erewrite bind_ok by exact E2. reflexivity.
Qed.
Definition dsel (w : which) (b bT bH : nat) : nat := match w with WN => b | WT => bT | WH => bH end.
Lemma cden_bd : forall (s : st) D o og b bT bH w ws hs O A dts g, objs s D = Some o -> o_pay o = PBDiag og b bT bH ->
  length hs = length ws -> rows s og = Some (dcells (length ws) O) -> dsized s ws hs O ->
  rows s (dsel w b bT bH) = Some (dcells (length ws) A) -> dfam s (o_dtype o) ws hs A dts g ->
  cden s (CBDiag w D) (sum_nat ws) (bdmap ws g).
Proof.
  intros s D o og b bT bH w ws hs O A dts g Ho Hp L Rg SZ Rb HD.
  destruct (bd_matvec_ok s ws hs O A dts g (o_dtype o) L SZ HD) as [d H].
  exists d. intros x Hx Hl. destruct (H d s x (le_n _) (ext_refl _) Hx Hl) as (s2 & E2 & _).
  exists s2. eexists. split.
  - cbn [call]. erewrite bind_ok by (apply getattr_ok; exact Ho). rewrite Hp.
    erewrite bind_ok by (apply getattr_ok; exact Ho).
    erewrite bind_ok by (unfold get_row; rewrite Rg; reflexivity).
    fold (dsel w b bT bH). erewrite bind_ok by (unfold get_row; rewrite Rb; reflexivity). exact E2.
  - reflexivity.
Qed.
Lemma bd_refs : forall (s : st) D o og b bT bH w n A, objs s D = Some o -> o_pay o = PBDiag og b bT bH ->
  rows s (dsel w b bT bH) = Some (dcells n A) -> (forall i, i < n -> Acy s (A i)) -> refsP (Acy s) s (CBDiag w D).
Proof.
  intros s D o og b bT bH w n A Ho Hp Hr HA. exists o, og, b, bT, bH, (dcells n A).
  split; auto. split; auto. split; [exact Hr|]. intros a Ha. apply In_tab in Ha. destruct Ha as (i & Hi & Ea).
  injection Ea as <-. auto.
Qed.

(** ** Construction *)
Lemma reduce_and_spec : forall l : list bool, l <> [] -> reduce_and l = Ok (forallb (fun b => b) l).
Proof.
  intros [|a l] N; [congruence|]. cbn. f_equal. clear N. revert a. induction l as [|b l IH]; intros a; cbn.
  - now rewrite andb_true_r.
  - rewrite IH. destruct a, b; reflexivity.
Qed.
Definition self_bd (sym herm : bool) (dt : dtype) (b bT bH : nat) : nat :=
  if herm && negb (sym && is_complex dt) then bH else if sym then bT else b.
Theorem bdiag_build : forall (s : st) og R ob, wfst s -> rows s og = Some (map Some R) ->
  (forall a, In a R -> objs s a = Some (ob a)) ->
  (R = [] -> bdiag_op og s = (s, Err TypeError)) /\
  (R <> [] -> exists s' o bT bH dt, 
     let sym := forallb (fun a => o_sym (ob a)) R in
     let herm := forallb (fun a => o_herm (ob a)) R in
     bdiag_op og s = (s', Ok (nxt s)) /\ ext s s' /\ wfst s' /\ nxt s < nxt s' /\
     objs s' (nxt s) = Some o /\ o_pay o = PBDiag og (self_bd sym herm dt og bT bH) bT bH /\
     o_sym o = sym /\ o_herm o = herm /\ o_dtype o = dt /\
     result_types (map (fun a => o_dtype (ob a)) R) = Ok dt /\
     rows s bT = None /\ rows s bH = None /\ bT <> bH /\
     rows s' bT = Some (map (fun a => o_T (ob a)) R) /\ rows s' bH = Some (map (fun a => o_H (ob a)) R) /\
     desc s' (nxt s) (sum_nat (map (wd ob) R)) (sum_nat (map (ht ob) R))
       (CBDiag WN (nxt s)) (Some (CBDiag WT (nxt s))) (Some (CBDiag WH (nxt s))) sym herm dt).
Proof.
  intros s og R ob W HR HA.
  assert (AT : forall B (p : obj -> B) s1, objs s1 = objs s ->
     mmap (blk_attr p) (map Some R) s1 = (s1, Ok (map (fun a => p (ob a)) R))).
  { intros B p s1 E. apply (attr_list _ p ob). intros a Ha. rewrite E. auto. }
  split.
  - intros ->. unfold bdiag_op. erewrite bind_ok by (unfold get_row; rewrite HR; reflexivity). reflexivity.
  - intros N. unfold bdiag_op. 
    assert (Nm : forall B (f : addr -> B), map f R <> []) by (intros; destruct R; [congruence|discriminate]).
    erewrite bind_ok by (unfold get_row; rewrite HR; reflexivity).
    erewrite bind_ok by (apply AT; reflexivity).
    rewrite reduce_and_spec by auto. erewrite bind_ok by reflexivity.
    erewrite bind_ok by (apply AT; reflexivity).
    rewrite reduce_and_spec by auto. erewrite bind_ok by reflexivity.
    erewrite bind_ok by (apply AT; reflexivity). erewrite bind_ok by (apply AT; reflexivity).
    erewrite bind_ok by (apply AT; reflexivity).
    erewrite bind_ok by reflexivity. fold (rowst (map (fun a => o_T (ob a)) R) s).
    set (s1 := rowst _ s). erewrite bind_ok by (apply AT; reflexivity).
    erewrite bind_ok by reflexivity. fold (rowst (map (fun a => o_H (ob a)) R) s1).
    set (s2 := rowst _ s1). erewrite bind_ok by (apply AT; reflexivity).
    assert (exists dt, result_types (map (fun a => o_dtype (ob a)) R) = Ok dt) as [dt Hdt].
    { destruct R as [|a r]; [congruence|]. cbn. eauto. }
    rewrite Hdt. erewrite bind_ok by reflexivity. erewrite bind_ok by reflexivity.
    assert (EF : forall p : obj -> bool, forallb (fun b => b) (map (fun a => p (ob a)) R) = forallb (fun a => p (ob a)) R).
    { intros p. clear. induction R; cbn; auto. now rewrite IHR. }
    rewrite !EF. set (sym := forallb (fun a => o_sym (ob a)) R). set (herm := forallb (fun a => o_herm (ob a)) R).
    change (nxt s2) with (nxt s).
    assert (W1 : wfst s1) by now apply wf_rowst. assert (W2 : wfst s2) by now apply wf_rowst.
    destruct (new_linop_desc s2 (sum_nat (map (wd ob) R)) (sum_nat (map (ht ob) R)) (CBDiag WN (nxt s))
       (Some (CBDiag WT (nxt s))) (Some (CBDiag WH (nxt s))) sym herm dt W2)
       as (s3 & E3 & X3 & W3 & L3 & D3 & (o & Ho & Hp & Hc)).
    change (nxt s2) with (nxt s) in *.
    erewrite bind_ok by exact E3.
    erewrite bind_ok by (apply getattr_ok; exact Ho).
    erewrite bind_ok by (apply getattr_ok; exact Ho).
    erewrite bind_ok by (unfold modobj; rewrite Ho; reflexivity).
    destruct (desc_self _ _ _ _ _ _ _ _ _ _ _ D3 Ho) as (_ & _ & Hsy & Hhe & Hd & _ & HT & HH).
    rewrite HT, HH. change (nrow s1) with (S (nrow s)).
    set (b := if herm && negb (sym && is_complex dt) then S (nrow s) else if sym then nrow s else og).
    set (s4 := set_obj (nxt s) (with_pay (PBDiag og b (nrow s) (S (nrow s))) o) s3).
    exists s4, (with_pay (PBDiag og b (nrow s) (S (nrow s))) o), (nrow s), (S (nrow s)), dt.
    assert (X4 : ext s2 s4).
    { apply ext_set_fresh; auto. apply (proj1 W2). cbn. lia. }
    cbv zeta.
    split; [reflexivity|].
    split. { apply (ext_trans s s1 s4); [now apply ext_rowst|]. apply (ext_trans s1 s2 s4); [now apply ext_rowst|exact X4]. }
    split; [apply wf_set; auto|]. split; [exact L3|].
    split; [apply get_set_eq|]. split; [reflexivity|]. split; [exact Hsy|]. split; [exact Hhe|].
    split; [exact Hd|]. split; [auto|].
    split; [apply (proj2 (proj2 W)); lia|]. split; [apply (proj2 (proj2 W)); lia|]. split; [lia|].
    split; [|split].
    + apply (ext_row _ _ X4). unfold s2, rowst. cbn. unfold upd.
      rewrite Nat.eqb_refl. destruct (Nat.eqb_spec (nrow s) (S (nrow s))); [lia|reflexivity].
    + apply (ext_row _ _ X4). unfold s2, rowst. cbn. unfold upd. now rewrite Nat.eqb_refl.
    + now apply desc_pay.
Qed.

(** targets of the blocks *)
Lemma dtargets : forall sym (s : st) ws hs A dts (g : nat -> map1),
  (forall i, i < length ws -> GoodD s (A i) (nth i ws 0) (nth i hs 0) (dts i) (g i)) ->
  exists AT gT, forall i, i < length ws -> wtgt s (dw sym) (A i) (AT i) /\
    GoodD s (AT i) (nth i hs 0) (nth i ws 0) (dts i) (gT i) /\ is_dual sym (nth i ws 0) (nth i hs 0) (g i) (gT i).
Proof.
  intros sym s ws hs A dts g H.
  destruct (fin_choice (addr * map1) (0, fun x => x) (length ws) (fun i p =>
     wtgt s (dw sym) (A i) (fst p) /\ GoodD s (fst p) (nth i hs 0) (nth i ws 0) (dts i) (snd p) /\
     is_dual sym (nth i ws 0) (nth i hs 0) (g i) (snd p))) as [f Hf].
  { intros i Hi. destruct (Good_dual sym _ _ _ _ _ _ (H i Hi)) as (t & g' & ? & ? & ?). exists (t, g'). auto. }
  exists (fun i => fst (f i)), (fun i => snd (f i)). intros i Hi. apply Hf; auto.
Qed.
(** if all blocks carry the flag, the targets denote the maps of the blocks *)
Lemma dtarget_self : forall sym (s : st) a n m dt (f : map1) o t gT, GoodD s a n m dt f -> objs s a = Some o ->
  flag sym o = true -> GoodD s t m n dt gT -> is_dual sym n m f gT -> n = m /\ GoodD s t n m dt f.
Proof.
  intros sym s a n m dt f o t gT G Ho Hf Gt Du.
  assert (n = m) as ->.
  { destruct G as (G & _). destruct (Good_attr _ _ _ _ _ G) as (o' & Ho' & _ & _ & H1 & H2).
    rewrite Ho in Ho'; injection Ho' as <-. destruct sym; cbn in Hf; [now apply H1|now apply H2]. }
  split; auto. eapply GoodD_ext; [|exact Gt]. intros y Hy.
  refine (dual_unique FOK sym m m f gT f _ _ Du _ y Hy).
  - destruct Gt as (Gt & _). apply (denotes_lin _ _ _ _ _ (Good_den _ _ _ _ _ Gt)).
  - destruct G as (G & _). apply (denotes_lin _ _ _ _ _ (Good_den _ _ _ _ _ G)).
  - eapply Good_flag; eauto.
Qed.

Lemma dsized_good : forall (s : st) ws hs A dts (g : nat -> map1),
  (forall i, i < length ws -> GoodD s (A i) (nth i ws 0) (nth i hs 0) (dts i) (g i)) -> dsized s ws hs A.
Proof.
  intros s ws hs A dts g H i Hi. destruct (H i Hi) as [GG _].
  destruct (Good_attr _ _ _ _ _ GG) as (o & ? & ? & ? & _). eauto.
Qed.
Lemma dfam_good : forall (s : st) dt ws hs A dts (g : nat -> map1),
  (forall i, i < length ws -> GoodD s (A i) (nth i ws 0) (nth i hs 0) (dts i) (g i)) ->
  (forall i, i < length ws -> is_complex (dts i) = true -> is_complex dt = true) -> dfam s dt ws hs A dts g.
Proof.
  intros s dt ws hs A dts g H HC i Hi. destruct (H i Hi) as (G1 & D1 & _).
  split; [now apply Good_den|]. split; [now apply Dts_dt|exact (HC i Hi)].
Qed.

(** ** What a block diagonal operator is *)
(** the list [r] holds duals (transposes or adjoints) of operators with maps [g] *)
Definition drow (sym : bool) (s u : st) (r : nat) (ws hs : list nat) (dts : nat -> dtype) (g : nat -> map1) : Prop :=
  exists AT gT, rows s r = Some (dcells (length ws) AT) /\
    forall i, i < length ws -> GoodD u (AT i) (nth i hs 0) (nth i ws 0) (dts i) (gT i) /\
      is_dual sym (nth i ws 0) (nth i hs 0) (g i) (gT i).
(** state of a block diagonal operator [D]: [og] caller's list, [b], [bT], [bH] as in the class;
    the blocks are good in [u], a part of the heap *)
Record bdst (s u : st) (D : addr) (og b bT bH : nat) (ws hs : list nat) (sym herm : bool) (dt : dtype)
  (O A : nat -> addr) (dts : nat -> dtype) (g : nat -> map1) : Prop := mkbdst {
  bd_ext : ext u s;
  bd_n : ws <> []; bd_len : length hs = length ws;
  bd_desc : desc s D (sum_nat ws) (sum_nat hs) (CBDiag WN D) (Some (CBDiag WT D)) (Some (CBDiag WH D)) sym herm dt;
  bd_pay : exists o, objs s D = Some o /\ o_pay o = PBDiag og b bT bH;
  bd_og : rows s og = Some (dcells (length ws) O);
  bd_sized : dsized u ws hs O;
  bd_b : rows s b = Some (dcells (length ws) A);
  bd_good : forall i, i < length ws -> GoodD u (A i) (nth i ws 0) (nth i hs 0) (dts i) (g i);
  bd_dt : forall i, i < length ws -> is_complex (dts i) = true -> is_complex dt = true;
  bd_T : sym = false -> drow true s u bT ws hs dts g;
  bd_H : herm = false -> drow false s u bH ws hs dts g
}.
Lemma bd_parts : forall (s u : st) D og b bT bH ws hs sym herm dt O A dts g,
  bdst s u D og b bT bH ws hs sym herm dt O A dts g ->
  exists o, objs s D = Some o /\ o_pay o = PBDiag og b bT bH /\ o_dtype o = dt /\ o_sym o = sym /\ o_herm o = herm /\
    o_nargin o = sum_nat ws /\ o_nargout o = sum_nat hs /\ o_mv o = CBDiag WN D /\
    is_self D (o_T o) = sym /\ dlin ws hs g /\
    (is_complex dt = false -> real_map (sum_nat ws) (bdmap ws g)) /\ dfam s dt ws hs A dts g /\
    cden s (CBDiag WN D) (sum_nat ws) (bdmap ws g).
Proof.
  intros s u D og b bT bH ws hs sym herm dt O A dts g [E N L De (o & Ho & Hp) Rg SZ Rb HG HC _ _].
  destruct (desc_self _ _ _ _ _ _ _ _ _ _ _ De Ho) as (K1 & K2 & K3 & K4 & K5 & K6 & K7 & _).
  pose proof (dfam_mono _ _ _ _ _ _ _ _ E (dfam_good u dt ws hs A dts g HG HC)) as DF.
  exists o. split; auto. split; auto. split; auto. split; auto. split; auto. split; auto. split; auto. split; auto.
  split; auto. split; [eapply dfam_lin; eauto|]. split; [|split; auto].
  - intros C. apply (bdmap_real FOK). intros i Hi. eapply dfam_real; [exact DF|exact Hi|].
    destruct (is_complex (dts i)) eqn:Ed; auto. rewrite (HC i Hi Ed) in C. discriminate.
  - apply (cden_bd s D o og b bT bH WN ws hs O A dts g); auto; [eapply dsized_mono; eauto|]. rewrite K5. exact DF.
Qed.
Theorem bd_denotes : forall (s u : st) D og b bT bH ws hs sym herm dt O A dts g,
  bdst s u D og b bT bH ws hs sym herm dt O A dts g -> denotes s D (sum_nat ws) (sum_nat hs) (bdmap ws g).
Proof.
  intros s u D og b bT bH ws hs sym herm dt O A dts g B.
  destruct (bd_parts _ _ _ _ _ _ _ _ _ _ _ _ _ _ _ _ B) as (o & Ho & _ & Hd & _ & _ & K1 & K2 & K3 & _ & DL & RL & _ & CD).
  eapply (denotes_mk FOK); eauto.
  - eapply bdmap_lin; [apply B|exact DL].
  - rewrite Hd. exact RL.
  - rewrite K3. exact CD.
Qed.

(** all blocks square: transposes and adjoints are right *)
Theorem bd_square : forall (s u : st) D og b bT bH ws sym herm dt O A dts g,
  bdst s u D og b bT bH ws ws sym herm dt O A dts g ->
  (sym = true -> forall i, i < length ws -> is_transpose (nth i ws 0) (nth i ws 0) (g i) (g i)) ->
  (herm = true -> forall i, i < length ws -> is_adjoint (nth i ws 0) (nth i ws 0) (g i) (g i)) ->
  drow true s u bT ws ws dts g -> drow false s u bH ws ws dts g ->
  GoodD s D (sum_nat ws) (sum_nat ws) dt (bdmap ws g).
Proof.
  intros s u D og b bT bH ws sym herm dt O A dts g B Sy He (AT & gT & RT & HT) (AH & gH & RH & HH).
  destruct (bd_parts _ _ _ _ _ _ _ _ _ _ _ _ _ _ _ _ B) as (o & Ho & Hp & Hd & _ & _ & K1 & K2 & K3 & _ & DL & RL & DF & CD).
  pose proof (bd_good _ _ _ _ _ _ _ _ _ _ _ _ _ _ _ _ B) as HG0. pose proof (bd_dt _ _ _ _ _ _ _ _ _ _ _ _ _ _ _ _ B) as HC.
  pose proof (bd_ext _ _ _ _ _ _ _ _ _ _ _ _ _ _ _ _ B) as E.
  assert (HG : forall i, i < length ws -> GoodD s (A i) (nth i ws 0) (nth i ws 0) (dts i) (g i))
    by (intros i Hi; eapply GoodD_mono; [exact E|auto]).
  pose proof (bd_og _ _ _ _ _ _ _ _ _ _ _ _ _ _ _ _ B) as Rg. pose proof (bd_b _ _ _ _ _ _ _ _ _ _ _ _ _ _ _ _ B) as Rb.
  assert (SZ : dsized s ws ws O) by (eapply dsized_mono; [exact E|apply B]).
  cbn [is_dual] in HT, HH.
  assert (GT : forall i, i < length ws -> GoodD s (AT i) (nth i ws 0) (nth i ws 0) (dts i) (gT i)).
  { intros i Hi. destruct (HT i Hi) as (G1 & _). eapply GoodD_mono; eauto. }
  assert (GH : forall i, i < length ws -> GoodD s (AH i) (nth i ws 0) (nth i ws 0) (dts i) (gH i)).
  { intros i Hi. destruct (HH i Hi) as (G1 & _). eapply GoodD_mono; eauto. }
  pose proof (dfam_good s dt ws ws AT dts gT GT HC) as FT. pose proof (dfam_good s dt ws ws AH dts gH GH HC) as FH.
  pose proof (dfam_lin _ _ _ _ _ _ _ FT) as LT. pose proof (dfam_lin _ _ _ _ _ _ _ FH) as LH.
  pose proof (bd_desc _ _ _ _ _ _ _ _ _ _ _ _ _ _ _ _ B) as De.
  split; [|split].
  - eapply (desc_good FOK) with (fT := bdmap ws gT) (fH := bdmap ws gH); eauto.
    { unfold complete. destruct sym, herm, (is_complex dt); auto. }
    constructor; auto.
    + now apply bdmap_lin.
    + now apply bdmap_lin.
    + now apply bdmap_lin.
    + apply (bdmap_tr FOK); auto. intros i Hi. apply HT; auto.
    + apply (bdmap_ad FOK); auto. intros i Hi. apply HH; auto.
    + intros ct Ec; injection Ec as <-. apply (cden_bd s D o og b bT bH WT ws ws O AT dts gT); auto.
      rewrite Hd. exact FT.
    + intros ct Ec; injection Ec as <-. apply (cden_bd s D o og b bT bH WH ws ws O AH dts gH); auto.
      rewrite Hd. exact FH.
    + intros C. split; auto. apply (bdmap_tr FOK); auto.
    + intros C. split; auto. apply (bdmap_ad FOK); auto.
  - eapply desc_dts; eauto.
  - eapply desc_acy; [exact De| | |].
    + eapply (bd_refs s D o og b bT bH WN); eauto. intros i Hi. apply (HG i Hi).
    + intros ct Ec; injection Ec as <-. eapply (bd_refs s D o og b bT bH WT); eauto. intros i Hi. apply (GT i Hi).
    + intros ct Ec; injection Ec as <-. eapply (bd_refs s D o og b bT bH WH); eauto. intros i Hi. apply (GH i Hi).
Qed.

Lemma drow_mono : forall sym (s s' u u' : st) r ws hs dts g, (forall l x, rows s l = Some x -> rows s' l = Some x) ->
  ext u u' -> drow sym s u r ws hs dts g -> drow sym s' u' r ws hs dts g.
Proof.
  intros sym s s' u u' r ws hs dts g E U (AT & gT & R & H). exists AT, gT. split; auto.
  intros i Hi. destruct (H i Hi). split; auto. eapply GoodD_mono; eauto.
Qed.
Lemma bdst_mono : forall (s s' u u' : st) D og b bT bH ws hs sym herm dt O A dts g, ext s s' -> ext u u' -> ext u' s' ->
  bdst s u D og b bT bH ws hs sym herm dt O A dts g -> bdst s' u' D og b bT bH ws hs sym herm dt O A dts g.
Proof.
  intros s s' u u' D og b bT bH ws hs sym herm dt O A dts g E U U' [E0 N L De (o & Ho & Hp) Rg SZ Rb HG HC BT BH].
  constructor; auto.
  - apply (desc_mono s); auto.
  - destruct (ext_obj _ _ E _ _ Ho) as (o' & Ho' & S). exists o'. split; auto. now rewrite <- (stable_pay _ _ S).
  - now apply (ext_row _ _ E).
  - apply (dsized_mono u); auto.
  - now apply (ext_row _ _ E).
  - intros i Hi. apply (GoodD_mono u); auto.
  - intros C. apply (drow_mono _ s s' u u'); auto. apply (ext_row _ _ E).
  - intros C. apply (drow_mono _ s s' u u'); auto. apply (ext_row _ _ E).
Qed.
Theorem bdiag_bdst : forall (s u : st) og ws hs A dts g, wfst s -> ext u s -> ws <> [] -> length hs = length ws ->
  rows s og = Some (dcells (length ws) A) ->
  (forall i, i < length ws -> GoodD u (A i) (nth i ws 0) (nth i hs 0) (dts i) (g i)) ->
  exists s' ob b bT bH dt A',
    let sym := allf o_sym ob (length ws) A in
    let herm := allf o_herm ob (length ws) A in
    bdiag_op og s = (s', Ok (nxt s)) /\ ext s s' /\ wfst s' /\ nxt s < nxt s' /\
    (forall i, i < length ws -> objs s (A i) = Some (ob (A i))) /\
    result_types (tab (length ws) dts) = Ok dt /\
    bdst s' u (nxt s) og b bT bH ws hs sym herm dt A A' dts g /\
    drow true s' u bT ws hs dts g /\ drow false s' u bH ws hs dts g /\
    b = self_bd sym herm dt og bT bH /\ rows s bT = None /\ rows s bH = None.
Proof.
  intros s u og ws hs A dts g W U N L Rg HG. set (n := length ws) in *.
  assert (exists ob : addr -> obj, forall i, i < n -> objs s (A i) = Some (ob (A i)) /\ o_nargin (ob (A i)) = nth i ws 0 /\
     o_nargout (ob (A i)) = nth i hs 0 /\ o_dtype (ob (A i)) = dts i) as [ob Hob].
  { assert (0 < n) as L0 by (unfold n; destruct ws; [congruence|cbn; lia]).
    destruct (GoodD_mono _ _ _ _ _ _ _ U (HG 0 L0)) as (G0 & _). destruct (Good_attr _ _ _ _ _ G0) as (o0 & _).
    exists (fun a => match objs s a with Some o => o | None => o0 end). intros i Hi.
    destruct (GoodD_mono _ _ _ _ _ _ _ U (HG i Hi)) as (Gi & Di & _). destruct (Good_attr _ _ _ _ _ Gi) as (o & Ho & Hn & Hm & _).
    destruct (Dts_dt _ _ _ Di) as (o' & Ho' & Hd). rewrite Ho in Ho'. injection Ho' as <-. rewrite Ho. auto. }
  set (R := tab n A).
  destruct (bdiag_build s og R ob W) as [_ HB].
  { unfold R. rewrite map_tab. exact Rg. }
  { intros a Ha. apply In_tab in Ha. destruct Ha as (i & Hi & Ea). subst a; apply Hob; auto. }
  destruct HB as (s' & o & bT & bH & dt & E & X & W' & L' & Ho & Hp & _ & _ & Hd & Hdt & FT & FH & NE & RT & RH & De).
  { unfold R, n. destruct ws; [congruence|discriminate]. }
  assert (Efs : forall p : obj -> bool, forallb (fun a => p (ob a)) R = allf p ob n A)
    by (intro p; unfold R; apply (forallb_tab _ (fun a => p (ob a)))).
  rewrite !Efs in *. set (sym := allf o_sym ob n A) in *. set (herm := allf o_herm ob n A) in *.
  destruct (dtargets true _ _ _ _ _ _ HG) as (AT & gT & HT). destruct (dtargets false _ _ _ _ _ _ HG) as (AH & gH & HH).
  assert (TE : forall w a i t, i < n -> wtgt u w (A i) t -> a = A i ->
     match w with WN => True | WT => o_T (ob a) = Some t | WH => o_H (ob a) = Some t end).
  { intros w a i t Hi Hw ->. apply (wtgt_mono _ _ _ _ _ U) in Hw. destruct w; auto;
      destruct Hw as (o' & Ho' & Ht); rewrite (proj1 (Hob i Hi)) in Ho'; injection Ho' as <-; exact Ht. }
  assert (RT' : rows s' bT = Some (dcells n AT)).
  { rewrite RT. f_equal. unfold R. rewrite map_tab. apply tab_ext. intros i Hi.
    apply (TE WT (A i) i (AT i)); auto. apply HT; auto. }
  assert (RH' : rows s' bH = Some (dcells n AH)).
  { rewrite RH. f_equal. unfold R. rewrite map_tab. apply tab_ext. intros i Hi.
    apply (TE WH (A i) i (AH i)); auto. apply HH; auto. }
  assert (HC : forall i, i < n -> is_complex (dts i) = true -> is_complex dt = true).
  { intros i Hi C. eapply result_types_in; [exact Hdt| |exact C].
    unfold R. rewrite map_tab. apply In_tab. exists i. split; auto. destruct (Hob i Hi) as (_ & _ & _ & Eq); auto. }
  assert (U' : ext u s') by (eapply ext_trans; eauto).
  assert (Fl : forall p i, allf p ob n A = true -> i < n -> p (ob (A i)) = true).
  { intros p i Hf Hi. unfold allf in Hf. rewrite forallb_forall in Hf. apply Hf. apply in_seq. lia. }
  assert (Ou : forall i, i < n -> exists oi, objs u (A i) = Some oi /\ o_sym oi = o_sym (ob (A i)) /\ o_herm oi = o_herm (ob (A i))).
  { intros i Hi. destruct (HG i Hi) as (Gi & _). destruct (Good_attr _ _ _ _ _ Gi) as (oi & Hoi & _).
    exists oi. split; auto. destruct (ext_obj _ _ U _ _ Hoi) as (oj & Hoj & S).
    rewrite (proj1 (Hob i Hi)) in Hoj. injection Hoj as <-. split; [apply (stable_sym _ _ S)|apply (stable_herm _ _ S)]. }
  assert (Hs : sym = true -> forall i, i < n -> GoodD u (AT i) (nth i ws 0) (nth i hs 0) (dts i) (g i)).
  { intros C i Hi. destruct (HT i Hi) as (_ & G1 & Du). destruct (Ou i Hi) as (oi & Hoi & O1 & _).
    eapply (dtarget_self true); [apply (HG i Hi)|exact Hoi| |exact G1|exact Du].
    cbn. rewrite O1. apply (Fl o_sym); auto. }
  assert (Hh : herm = true -> forall i, i < n -> GoodD u (AH i) (nth i ws 0) (nth i hs 0) (dts i) (g i)).
  { intros C i Hi. destruct (HH i Hi) as (_ & G1 & Du). destruct (Ou i Hi) as (oi & Hoi & _ & O1).
    eapply (dtarget_self false); [apply (HG i Hi)|exact Hoi| |exact G1|exact Du].
    cbn. rewrite O1. apply (Fl o_herm); auto. }
  assert (DT : drow true s' u bT ws hs dts g).
  { exists AT, gT. split; [exact RT'|]. intros i Hi. destruct (HT i Hi) as (_ & ? & ?). auto. }
  assert (DH : drow false s' u bH ws hs dts g).
  { exists AH, gH. split; [exact RH'|]. intros i Hi. destruct (HH i Hi) as (_ & ? & ?). auto. }
  assert (exists A', rows s' (self_bd sym herm dt og bT bH) = Some (dcells n A') /\
     forall i, i < n -> GoodD u (A' i) (nth i ws 0) (nth i hs 0) (dts i) (g i)) as (A' & RA & GA).
  { unfold self_bd. destruct herm; cbn [andb].
    - destruct (sym && is_complex dt) eqn:C; cbn [negb].
      + apply andb_prop in C. destruct C as [C _]. rewrite C. exists AT. auto.
      + exists AH. auto.
    - destruct sym; [exists AT; auto|]. exists A. split; auto. apply (ext_row _ _ X). exact Rg. }
  exists s', ob, (self_bd sym herm dt og bT bH), bT, bH, dt, A'. cbv zeta.
  split; auto. split; auto. split; auto. split; auto. split; [apply Hob|].
  split. { rewrite <- Hdt. f_equal. unfold R. rewrite map_tab. apply tab_ext. intros i Hi. symmetry. apply Hob; auto. }
  split; [|auto].
  assert (Ew : map (wd ob) R = ws).
  { unfold R. rewrite map_tab. transitivity (tab n (fun i => nth i ws 0)); [|apply tab_nth].
    apply tab_ext. intros i Hi. unfold wd. apply Hob; auto. }
  assert (Eh : map (ht ob) R = hs).
  { unfold R. rewrite map_tab. transitivity (tab n (fun i => nth i hs 0)); [|rewrite <- L; apply tab_nth].
    apply tab_ext. intros i Hi. unfold ht. apply Hob; auto. }
  rewrite Ew, Eh in De.
  constructor; auto.
  - exists o. auto.
  - apply (ext_row _ _ X). exact Rg.
  - eapply dsized_good; eauto.
Qed.
End Diag.
