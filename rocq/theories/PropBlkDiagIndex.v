(** * Property C84: indexing, slicing and slice assignment of block diagonal operators
    (pykrylov/linop/blkop.py).  Vocabulary as in PropBlk.v. *)
From Coq Require Import List ZArith Lia Bool.
From Verif Require Import Base Field Vec LinopModel LinopFrame LinopGood LinopInit LinopDep LinopAlg
  LinopOps LinopPtr LinopExtra LinopUser LinopBase LinopMat Cplx PropLinop
  BlkSpec BlkModel BlkIndexModel BlkProof BlkSet BlkSym BlkErr BlkSymErr BlkDiag BlkDiagOps PropBlk PropBlkIndex.
Import ListNotations.

Lemma lupd_map : forall A B (f : A -> B) l i v, lupd (map f l) i (f v) = map f (lupd l i v).
Proof. induction l as [|a l IH]; intros [|i] v; cbn; auto. now rewrite IH. Qed.
Lemma lupds_map : forall A B (f : A -> B) is l v, lupds (map f l) is (map f v) = map f (lupds l is v).
Proof. induction is as [|i is IH]; intros l [|x v]; cbn; auto. now rewrite lupd_map, IH. Qed.
Lemma setslice_map : forall A B (f : A -> B) l a b c v, list_setslice (map f l) a b c (map f v) =
  match list_setslice l a b c v with Ok r => Ok (map f r) | Err e => Err e end.
Proof.
  intros A B f l a b c v. unfold list_setslice. rewrite !map_length.
  destruct (slice_step c =? 1)%Z.
  - now rewrite !map_app, firstn_map, skipn_map.
  - destruct (slice_list (length l) a b c) as [is|e]; auto. destruct (Nat.eqb _ _); auto. now rewrite lupds_map.
Qed.
Lemma lupd_in : forall A (l : list A) i v x, In x (lupd l i v) -> x = v \/ In x l.
Proof.
  induction l as [|a l IH]; intros [|i] v x H; cbn in *; auto.
  - destruct H; auto.
  - destruct H as [H|H]; auto. apply IH in H. tauto.
Qed.
Lemma lupds_in : forall A is (l : list A) v x, In x (lupds l is v) -> In x v \/ In x l.
Proof.
  induction is as [|i is IH]; intros l [|y v] x H; cbn in *; auto.
  apply IH in H. destruct H as [H|H]; auto. apply lupd_in in H. destruct H; auto.
Qed.
Lemma setslice_in : forall A (l : list A) a b c v r x, list_setslice l a b c v = Ok r -> In x r -> In x v \/ In x l.
Proof.
  intros A l a b c v r x H Hx. unfold list_setslice in H. destruct (slice_step c =? 1)%Z.
  - injection H as <-. apply in_app_or in Hx. destruct Hx as [Hx|Hx]; [right|apply in_app_or in Hx; destruct Hx as [Hx|Hx]; [now left|right]].
    + rewrite <- (firstn_skipn (Z.to_nat (slice_start (length l) false a)) l). apply in_or_app. now left.
    + match type of Hx with In _ (skipn ?k _) => rewrite <- (firstn_skipn k l) end. apply in_or_app. now right.
  - destruct (slice_list (length l) a b c) as [is|e]; [|discriminate]. destruct (Nat.eqb _ _); [|discriminate].
    injection H as <-. now apply lupds_in in Hx.
Qed.
(** l[a:b] = v, for 0 <= a <= b <= n: what was before, v, what was after *)
Theorem C84_setslice_plain : forall A (l : list A) a b v, a <= b -> b <= length l ->
  list_setslice l (Some (Z.of_nat a)) (Some (Z.of_nat b)) None v = Ok (firstn a l ++ v ++ skipn b l).
Proof.
  intros A l a b v Hab Hb. unfold list_setslice. cbn [slice_step]. change (1 =? 1)%Z with true. cbv iota.
  cbn [slice_start slice_stop]. unfold slice_bound.
  destruct (Z.ltb_spec (Z.of_nat a) 0); [lia|]. destruct (Z.ltb_spec (Z.of_nat a) 0); [lia|].
  destruct (Z.ltb_spec (Z.of_nat b) 0); [lia|]. destruct (Z.ltb_spec (Z.of_nat b) 0); [lia|].
  assert (EA : Z.to_nat (if (Z.of_nat (length l) <=? Z.of_nat a)%Z then Z.of_nat (length l) else Z.of_nat a) = a)
    by (destruct (Z.leb_spec (Z.of_nat (length l)) (Z.of_nat a)); lia).
  assert (EB : Z.to_nat (if (Z.of_nat (length l) <=? Z.of_nat b)%Z then Z.of_nat (length l) else Z.of_nat b) = b)
    by (destruct (Z.leb_spec (Z.of_nat (length l)) (Z.of_nat b)); lia).
  rewrite EA, EB. now replace (Nat.max a b) with b by lia.
Qed.

Section P.
Context {F : Fld} (FOK : FldOK F).
Notation st := (st F). Notation obj := (obj F). Notation M := (M F). Notation arr := (arr F).
Notation map1 := (list F -> list F).

(** a block with its sizes, its dtype and the map it computes *)
Record blk := mkblk { k_op : addr; k_in : nat; k_out : nat; k_dt : dtype; k_map : map1 }.
Definition k_none : blk := mkblk 0 0 0 DInt (fun x => x).
Definition good_blk (s : st) (k : blk) : Prop := GoodD s (k_op k) (k_in k) (k_out k) (k_dt k) (k_map k).
Definition ins (R : list blk) : list nat := map k_in R.
Definition outs (R : list blk) : list nat := map k_out R.
Definition ops (R : list blk) : list addr := map k_op R.
(** block diagonal product: piece i of x goes through block i *)
Definition kmap (R : list blk) : map1 := diagmap (ins R) (fun i => k_map (nth i R k_none)).

Lemma nth_ins : forall R i, i < length R -> nth i (ins R) 0 = k_in (nth i R k_none).
Proof. intros. unfold ins. change 0 with (k_in k_none) at 1. apply map_nth. Qed.
Lemma nth_outs : forall R i, i < length R -> nth i (outs R) 0 = k_out (nth i R k_none).
Proof. intros. unfold outs. change 0 with (k_out k_none) at 1. apply map_nth. Qed.
Lemma ops_tab : forall R, map Some (ops R) = dcells (length (ins R)) (fun i => k_op (nth i R k_none)).
Proof.
  intros R. unfold dcells, ops, ins. rewrite map_map, map_length. induction R as [|k R IH]; cbn; auto. now rewrite IH.
Qed.
(** the state of a block diagonal operator that is neither symmetric nor hermitian *)
Definition dstate (s : st) (D : addr) (og : nat) (dt : dtype) (R : list blk) : Prop :=
  exists bT bH O, bdinv s D og og bT bH (ins R) (outs R) false false dt O (fun i => k_op (nth i R k_none))
    (fun i => k_dt (nth i R k_none)) (fun i => k_map (nth i R k_none)).
Lemma dstate_row : forall (s : st) D og dt R, dstate s D og dt R -> rows s og = Some (map Some (ops R)) /\ R <> [] /\
  bd_blocks D s = (s, Ok (map Some (ops R))).
Proof.
  intros s D og dt R (bT & bH & O & BI). pose proof (bd_b _ _ _ _ _ _ _ _ _ _ _ _ _ _ _ _ BI) as Rb.
  destruct (bd_parts FOK _ _ _ _ _ _ _ _ _ _ _ _ _ _ _ _ BI) as (o & Ho & Hp & _).
  rewrite <- ops_tab in Rb. split; auto. split.
  - pose proof (bd_n _ _ _ _ _ _ _ _ _ _ _ _ _ _ _ _ BI) as N. intros ->. now apply N.
  - unfold bd_blocks, get_bdiag.
    erewrite bind_ok by (erewrite bind_ok by (apply getattr_ok; exact Ho); rewrite Hp; reflexivity). cbn beta iota.
    unfold get_row. now rewrite Rb.
Qed.
Lemma dstate_good : forall (s : st) D og dt R k, dstate s D og dt R -> In k R ->
  good_blk (dbase D og og s) k /\ (is_complex (k_dt k) = true -> is_complex dt = true).
Proof.
  intros s D og dt R k (bT & bH & O & BI) Hk. apply (In_nth _ _ k_none) in Hk. destruct Hk as (i & Hi & <-).
  assert (Hi' : i < length (ins R)) by (unfold ins; now rewrite map_length).
  pose proof (bd_good _ _ _ _ _ _ _ _ _ _ _ _ _ _ _ _ BI i Hi') as G.
  pose proof (bd_dt _ _ _ _ _ _ _ _ _ _ _ _ _ _ _ _ BI i Hi') as C. cbn beta in *.
  rewrite nth_ins, nth_outs in G by auto. split; [exact G|exact C].
Qed.
Lemma dstate_ext : forall (s s' : st) D og dt R, ext s s' -> dstate s D og dt R -> dstate s' D og dt R.
Proof. intros s s' D og dt R X (bT & bH & O & BI). exists bT, bH, O. eapply bdinv_ext; eauto. Qed.
Lemma dstate_store : forall (s : st) D og dt R R', dstate s D og dt R -> wfst s -> D < nxt s -> R' <> [] ->
  sum_nat (ins R') = sum_nat (ins R) -> sum_nat (outs R') = sum_nat (outs R) ->
  (forall k, In k R' -> good_blk (dbase D og og s) k /\ (is_complex (k_dt k) = true -> is_complex dt = true)) ->
  exists s', bd_store D (map Some (ops R')) s = (s', Ok tt) /\ wfst s' /\ nxt s' = nxt s /\
    ext (dbase D og og s) (dbase D og og s') /\ dstate s' D og dt R'.
Proof.
  intros s D og dt R R' (bT & bH & O & BI) W LD N Ei Eo HG.
  assert (Hn : forall i, i < length (ins R') -> In (nth i R' k_none) R').
  { intros i Hi. apply nth_In. unfold ins in Hi. now rewrite map_length in Hi. }
  destruct (bd_store_inv FOK s D og og bT bH _ _ false false dt O _ _ _ (ins R') (outs R') (fun i => k_op (nth i R' k_none))
    (fun i => k_dt (nth i R' k_none)) (fun i => k_map (nth i R' k_none)) BI W LD) as (s' & bT' & bH' & O' & E & W' & N' & X & _ & BI'); auto.
  - destruct R'; [congruence|discriminate].
  - unfold ins, outs. now rewrite !map_length.
  - intros C. now contradiction C.
  - intros i Hi. destruct (HG _ (Hn i Hi)) as [G _]. unfold ins in Hi. rewrite map_length in Hi. now rewrite nth_ins, nth_outs.
  - intros i Hi. now destruct (HG _ (Hn i Hi)).
  - exists s'. rewrite ops_tab. split; auto. split; auto. split; auto. split; auto. exists bT', bH', O'. exact BI'.
Qed.
Lemma dstate_yields : forall (s : st) D og dt R, dstate s D og dt R ->
  yields s D (sum_nat (ins R)) (sum_nat (outs R)) dt (kmap R).
Proof.
  intros s D og dt R (bT & bH & O & BI). pose proof (bd_denotes FOK _ _ _ _ _ _ _ _ _ _ _ _ _ _ _ _ BI) as DD.
  pose proof (desc_dts _ _ _ _ _ _ _ _ _ _ (bd_desc _ _ _ _ _ _ _ _ _ _ _ _ _ _ _ _ BI)) as DT.
  eapply yields_ext; [|apply yields_den; [exact DD|now apply Dts_dt]]. intros; apply bdmap_spec.
Qed.
Lemma dstate_duals : forall (s : st) D og dt R, dstate s D og dt R -> (forall k, In k R -> k_in k = k_out k) ->
  duals s D (sum_nat (ins R)) (sum_nat (ins R)) dt (kmap R).
Proof.
  intros s D og dt R (bT & bH & O & BI) Sq.
  assert (E : outs R = ins R).
  { unfold outs, ins. clear - Sq. induction R as [|k R IH]; cbn; auto. rewrite (Sq k) by now left. f_equal. apply IH. intros. apply Sq. now right. }
  rewrite E in BI.
  assert (GD : GoodD s D (sum_nat (ins R)) (sum_nat (ins R)) dt (bdmap (ins R) (fun i => k_map (nth i R k_none)))).
  { eapply (bd_square FOK); [exact BI|discriminate|discriminate| |].
    - now apply (bd_T _ _ _ _ _ _ _ _ _ _ _ _ _ _ _ _ BI).
    - now apply (bd_H _ _ _ _ _ _ _ _ _ _ _ _ _ _ _ _ BI). }
  eapply duals_ext; [|apply duals_good; exact GD]. intros; apply bdmap_spec.
Qed.

(** ** Histories D[i] = B, D[a:b:c] = [B1, ..., Bk] *)
Inductive dputs (D : addr) (og : nat) (dt : dtype) : st -> list blk -> st -> list blk -> Prop :=
| dp_nil : forall (s : st) R, dputs D og dt s R s R
| dp_other : forall (s s1 s2 : st) R R2, ext s s1 -> wfst s1 -> nxt s <= nxt s1 ->
    dputs D og dt s1 R s2 R2 -> dputs D og dt s R s2 R2
| dp_set : forall (s s1 s2 : st) R R2 i iz k, pyindex (length R) iz = Ok i ->
    good_blk (drop D (norows [og; og] s)) k -> (is_complex (k_dt k) = true -> is_complex dt = true) ->
    k_in k = k_in (nth i R k_none) -> k_out k = k_out (nth i R k_none) ->
    bd_set D iz (k_op k) s = (s1, Ok tt) ->
    dputs D og dt s1 (lupd R i k) s2 R2 -> dputs D og dt s R s2 R2
(* the number of blocks may change, the sizes of D do not *)
| dp_slice : forall (s s1 s2 : st) R R1 R2 a b c v, list_setslice R a b c v = Ok R1 ->
    (forall k, In k v -> good_blk (drop D (norows [og; og] s)) k /\ (is_complex (k_dt k) = true -> is_complex dt = true)) ->
    sum_nat (ins R1) = sum_nat (ins R) -> sum_nat (outs R1) = sum_nat (outs R) -> R1 <> [] ->
    bd_setslice D a b c (ops v) s = (s1, Ok tt) ->
    dputs D og dt s1 R1 s2 R2 -> dputs D og dt s R s2 R2.
Lemma sum_lupd : forall f R i k, i < length R -> f k = f (nth i R k_none) -> sum_nat (map f (lupd R i k)) = sum_nat (map (f : blk -> nat) R).
Proof.
  induction R as [|x R IH]; intros [|i] k Hi E; cbn in *; try lia; auto.
  unfold sum_nat in *. cbn. rewrite IH; auto. lia.
Qed.
Lemma slice_run : forall (s : st) D og dt R a b c v, dstate s D og dt R ->
  bd_setslice D a b c (ops v) s = match list_setslice R a b c v with
    | Ok R1 => bd_store D (map Some (ops R1)) s | Err e => (s, Err e) end.
Proof.
  intros s D og dt R a b c v H. destruct (dstate_row _ _ _ _ _ H) as (_ & _ & RB). unfold bd_setslice.
  erewrite bind_ok by exact RB. unfold ops. rewrite !map_map, setslice_map.
  destruct (list_setslice R a b c v); [|reflexivity]. erewrite bind_ok by reflexivity. now rewrite map_map.
Qed.
Lemma set_run : forall (s : st) D og dt R iz i k, dstate s D og dt R -> pyindex (length R) iz = Ok i ->
  bd_set D iz (k_op k) s = bd_store D (map Some (ops (lupd R i k))) s.
Proof.
  intros s D og dt R iz i k H Pi. destruct (dstate_row _ _ _ _ _ H) as (Rb & _ & _). 
  destruct H as (bT & bH & O & BI). destruct (bd_parts FOK _ _ _ _ _ _ _ _ _ _ _ _ _ _ _ _ BI) as (o & Ho & Hp & _).
  unfold bd_set, get_bdiag.
  erewrite bind_ok by (erewrite bind_ok by (apply getattr_ok; exact Ho); rewrite Hp; reflexivity). cbn beta iota.
  erewrite bind_ok by (unfold get_row; rewrite Rb; reflexivity).
  unfold ops at 1. rewrite !map_length, Pi. erewrite bind_ok by reflexivity.
  unfold ops. rewrite !map_map. f_equal. apply (lupd_map _ _ (fun x => Some (k_op x))).
Qed.
Lemma dputs_inv : forall D og dt (s : st) R s2 R2, dputs D og dt s R s2 R2 -> wfst s -> D < nxt s -> dstate s D og dt R ->
  wfst s2 /\ D < nxt s2 /\ dstate s2 D og dt R2 /\ sum_nat (ins R2) = sum_nat (ins R) /\ sum_nat (outs R2) = sum_nat (outs R) /\
  ext (dbase D og og s) (dbase D og og s2).
Proof.
  intros D og dt s R s2 R2 H.
  induction H as [s R|s s1 s2 R R2 X W1 Ln H IH|s s1 s2 R R2 i iz k Pi GB CB Ein Eout E H IH
    |s s1 s2 R R1 R2 a b c v El HV Si So N1 E H IH]; intros W LD DS.
  - split; auto. split; auto. split; auto. split; auto. split; auto. apply ext_refl.
  - destruct IH as (W2 & L2 & DS2 & Q1 & Q2 & X2); auto; [lia|eapply dstate_ext; eauto|].
    split; auto. split; auto. split; auto. split; auto. split; auto. eapply ext_trans; [|exact X2]. now apply dbase_mono.
  - pose proof (pyindex_lt _ _ _ Pi) as Li.
    rewrite (set_run s D og dt R iz i k DS Pi) in E.
    pose proof (sum_lupd k_in R i k Li Ein) as S1. pose proof (sum_lupd k_out R i k Li Eout) as S2.
    destruct (dstate_store s D og dt R (lupd R i k) DS W LD) as (s' & E' & W' & N' & XD & DS'); auto.
    { destruct R; [cbn in Li; lia|]. destruct i; discriminate. }
    { intros x Hx. apply lupd_in in Hx. destruct Hx as [->|Hx]; [split; auto|]. eapply dstate_good; eauto. }
    rewrite E in E'. injection E' as <-. destruct IH as (W2 & L2 & DS2 & Q1 & Q2 & X2); auto; [lia|].
    split; auto. split; auto. split; auto. unfold ins, outs in *. split; [lia|split; [lia|eapply ext_trans; eauto]].
  - rewrite (slice_run s D og dt R a b c v DS), El in E.
    destruct (dstate_store s D og dt R R1 DS W LD) as (s' & E' & W' & N' & XD & DS'); auto.
    { intros x Hx. destruct (setslice_in _ _ _ _ _ _ _ x El Hx); auto. eapply dstate_good; eauto. }
    rewrite E in E'. injection E' as <-. destruct IH as (W2 & L2 & DS2 & Q1 & Q2 & X2); auto; [lia|].
    split; auto. split; auto. split; auto. split; [lia|split; [lia|eapply ext_trans; eauto]].
Qed.

(** ** Construction *)
Lemma dstate_new : forall (s : st) og R, wfst s -> R <> [] -> rows s og = Some (map Some (ops R)) ->
  (forall k, In k R -> good_blk (norows [og] s) k) ->
  (exists k o, In k R /\ objs s (k_op k) = Some o /\ o_sym o = false) ->
  (exists k o, In k R /\ objs s (k_op k) = Some o /\ o_herm o = false) ->
  exists s1 dt, bdiag_op og s = (s1, Ok (nxt s)) /\ ext s s1 /\ wfst s1 /\ nxt s < nxt s1 /\ dstate s1 (nxt s) og dt R.
Proof.
  intros s og R W N Rg HG (k1 & o1 & Hk1 & Ho1 & Hs1) (k2 & o2 & Hk2 & Ho2 & Hs2).
  rewrite ops_tab in Rg.
  destruct (bdiag_inv FOK s og (ins R) (outs R) (fun i => k_op (nth i R k_none)) (fun i => k_dt (nth i R k_none))
    (fun i => k_map (nth i R k_none)) W) as (s1 & ob & b & bT & bH & dt & A' & E & X & W1 & L1 & Hob & BI & Eb & _); auto.
  { destruct R; [congruence|discriminate]. }
  { unfold ins, outs. now rewrite !map_length. }
  { intros i Hi. unfold ins in Hi. rewrite map_length in Hi. rewrite nth_ins, nth_outs by auto. apply HG. now apply nth_In. }
  cbv zeta in BI, Eb.
  assert (NF : forall (p : obj -> bool) k o, In k R -> objs s (k_op k) = Some o -> p o = false ->
    allf p ob (length (ins R)) (fun i => k_op (nth i R k_none)) = false).
  { intros p k o Hk Ho Hp. destruct (allf p ob (length (ins R)) _) eqn:C; auto. unfold allf in C. rewrite forallb_forall in C.
    apply (In_nth _ _ k_none) in Hk. destruct Hk as (i & Hi & <-).
    assert (Hi' : i < length (ins R)) by (unfold ins; now rewrite map_length).
    rewrite <- Hp. specialize (Hob i Hi'). cbn beta in Hob. rewrite Hob in Ho. injection Ho as <-. symmetry. apply C. apply in_seq. lia. }
  rewrite (NF o_sym k1 o1), (NF o_herm k2 o2) in BI, Eb by auto. unfold self_bd in Eb. cbn in Eb. subst b.
  exists s1, dt. split; auto. split; auto. split; auto. split; auto. exists bT, bH, (fun i => k_op (nth i R k_none)).
  assert (EA : forall i, i < length (ins R) -> A' i = k_op (nth i R k_none)).
  { pose proof (bd_b _ _ _ _ _ _ _ _ _ _ _ _ _ _ _ _ BI) as Rb. pose proof (ext_row _ _ X _ _ Rg) as Rg'.
    rewrite Rg' in Rb. injection Rb as Rb. symmetry. revert i H. now apply dcells_inj. }
  destruct BI as [U N' L De Py Rg' SZ Rb HG' HC BT BH]. constructor; auto.
  intros i Hi. rewrite <- EA by auto. auto.
Qed.

(** D[z] is the very operator stored, counted from the end if z is negative *)
Theorem C84_index : forall (s : st) og R, wfst s -> R <> [] -> rows s og = Some (map Some (ops R)) ->
  (forall k, In k R -> good_blk (norows [og] s) k) ->
  (exists k o, In k R /\ objs s (k_op k) = Some o /\ o_sym o = false) ->
  (exists k o, In k R /\ objs s (k_op k) = Some o /\ o_herm o = false) ->
  exists s1 D dt, bdiag_op og s = (s1, Ok D) /\
    forall s2 R2, dputs D og dt s1 R s2 R2 ->
      yields s2 D (sum_nat (ins R)) (sum_nat (outs R)) dt (kmap R2) /\
      ((forall k, In k R2 -> k_in k = k_out k) -> duals s2 D (sum_nat (ins R)) (sum_nat (ins R)) dt (kmap R2)) /\
      (* the caller's list is the list of the operator *)
      rows s2 og = Some (map Some (ops R2)) /\ bd_blocks D s2 = (s2, Ok (map Some (ops R2))) /\
      (forall z, bd_getitem D (IxInt z) s2 = (s2, match pyindex (length R2) z with
         | Ok i => Ok (Some (k_op (nth i R2 k_none))) | Err _ => Err IndexError end)) /\
      (* further assignments succeed or raise what the list assignment raises *)
      (forall a b c v, match list_setslice R2 a b c v with
         | Err e => bd_setslice D a b c (ops v) s2 = (s2, Err e)
         | Ok R1 => R1 <> [] -> sum_nat (ins R1) = sum_nat (ins R2) -> sum_nat (outs R1) = sum_nat (outs R2) ->
             (forall k, In k v -> good_blk (drop D (norows [og; og] s2)) k /\ (is_complex (k_dt k) = true -> is_complex dt = true)) ->
             exists s3, bd_setslice D a b c (ops v) s2 = (s3, Ok tt) end).
Proof.
  intros s og R W N Rg HG HS HH. destruct (dstate_new s og R W N Rg HG HS HH) as (s1 & dt & E & X & W1 & L1 & DS).
  exists s1, (nxt s), dt. split; auto. intros s2 R2 HP.
  destruct (dputs_inv _ _ _ _ _ _ _ HP W1 L1 DS) as (W2 & L2 & DS2 & S1 & S2 & _).
  destruct (dstate_row _ _ _ _ _ DS2) as (Rb & N2 & RB).
  split. { rewrite <- S1, <- S2. now apply (dstate_yields s2 (nxt s) og). }
  split. { rewrite <- S1. now apply (dstate_duals s2 (nxt s) og). }
  split; auto. split; auto. split.
  - intros z. cbn [bd_getitem]. unfold bd_get. erewrite bind_ok by exact RB.
    unfold ops at 1. rewrite !map_length. pose proof (C24_pyindex (length R2) z) as P1.
    destruct (pyindex (length R2) z) as [i|e] eqn:Pi.
    + erewrite bind_ok by reflexivity. pose proof (pyindex_lt _ _ _ Pi) as Li. unfold lift, nth_r, ops. rewrite map_map.
      rewrite (map_nth_error (fun x => Some (k_op x)) i R2 (d := nth i R2 k_none)); auto. now apply nth_error_nth'.
    + unfold bind, lift. f_equal. f_equal. tauto.
  - intros a b c v. rewrite (slice_run s2 (nxt s) og dt R2 a b c v DS2).
    destruct (list_setslice R2 a b c v) as [R1|e] eqn:El; auto. intros N1 Si So HV.
    destruct (dstate_store s2 (nxt s) og dt R2 R1 DS2 W2 L2) as (s' & E' & _); eauto.
    intros x Hx. destruct (setslice_in _ _ _ _ _ _ _ x El Hx); auto. eapply dstate_good; eauto.
Qed.

(** ** Slices *)
Lemma pick_row : forall n (A : nat -> addr) is (s : st), (forall i, In i is -> i < n) ->
  mmap (fun i => lift (nth_r (dcells n A) i)) is s = (s, Ok (dcells (length is) (fun k => A (nth k is 0)))).
Proof.
  intros n A is s. induction is as [|i is IH]; intros H; [reflexivity|].
  cbn [mmap length]. erewrite bind_ok by (unfold lift, nth_r, dcells; rewrite nth_error_tab by (apply H; now left); reflexivity).
  erewrite bind_ok by (apply IH; intros; apply H; now right). reflexivity.
Qed.
Lemma slice_lt : forall n a b c is i, slice_list n a b c = Ok is -> In i is -> i < n.
Proof. intros n a b c is i H Hi. now apply (ix_list_lt n (IxSlice a b c) is i). Qed.
Lemma dsub : forall (s : st) D og b bT bH ws hs sym herm dt O A dts g x y z is,
  bdinv s D og b bT bH ws hs sym herm dt O A dts g -> wfst s -> slice_list (length ws) x y z = Ok is -> is <> [] ->
  exists s3 og' b' bT' bH' sym' herm' dt' O' A',
    bd_sub D x y z s = (s3, Ok (nxt s)) /\ ext s s3 /\ wfst s3 /\ nxt s < nxt s3 /\
    rows s og' = None /\ rows s b' = None /\ rows s bT' = None /\ rows s bH' = None /\
    bdst s3 (dbase D og b s) (nxt s) og' b' bT' bH' (pick ws is) (pick hs is) sym' herm' dt' O' A'
      (fun k => dts (nth k is 0)) (fun k => g (nth k is 0)) /\
    (sym' = false -> b' = og' \/ herm' = true) /\
    (sym' = true -> forall k, k < length is -> is_transpose (nth k (pick ws is) 0) (nth k (pick ws is) 0) (g (nth k is 0)) (g (nth k is 0))) /\
    (herm' = true -> forall k, k < length is -> is_adjoint (nth k (pick ws is) 0) (nth k (pick ws is) 0) (g (nth k is 0)) (g (nth k is 0))) /\
    drow true s3 (dbase D og b s) bT' (pick ws is) (pick hs is) (fun k => dts (nth k is 0)) (fun k => g (nth k is 0)) /\
    drow false s3 (dbase D og b s) bH' (pick ws is) (pick hs is) (fun k => dts (nth k is 0)) (fun k => g (nth k is 0)).
Proof.
  intros s D og b bT bH ws hs sym herm dt O A dts g x y z is BI W Hs Ni.
  destruct (bd_parts FOK _ _ _ _ _ _ _ _ _ _ _ _ _ _ _ _ BI) as (o & Ho & Hp & _).
  pose proof (bd_b _ _ _ _ _ _ _ _ _ _ _ _ _ _ _ _ BI) as Rb.
  pose proof (bd_good _ _ _ _ _ _ _ _ _ _ _ _ _ _ _ _ BI) as HG.
  unfold bd_sub, bd_blocks, get_bdiag.
  erewrite bind_ok.
  2: { erewrite bind_ok by (erewrite bind_ok by (apply getattr_ok; exact Ho); rewrite Hp; reflexivity). cbn beta iota.
       unfold get_row. rewrite Rb. reflexivity. }
  unfold dcells at 1. rewrite tab_length, Hs. erewrite bind_ok by reflexivity.
  erewrite bind_ok by (apply pick_row; intros i; now apply (slice_lt _ _ _ _ _ _ Hs)).
  set (A0 := fun k => A (nth k is 0)).
  erewrite bind_ok by reflexivity.
  set (s1 := rowst (dcells (length is) A0) s). 
  assert (X1 : ext s s1) by now apply ext_rowst. assert (W1 : wfst s1) by now apply wf_rowst.
  assert (Fr : forall l, rows s1 l = None -> rows s l = None).
  { intros l H. destruct (rows s l) as [r|] eqn:E; auto. rewrite (ext_row _ _ X1 _ _ E) in H. discriminate. }
  assert (Fog : rows s (nrow s) = None) by (apply (proj2 (proj2 W)); lia).
  destruct (bdiag_bdst FOK s1 (dbase D og b s) (nrow s) (pick ws is) (pick hs is) A0 (fun k => dts (nth k is 0))
     (fun k => g (nth k is 0)) W1) as (s3 & ob & b' & bT' & bH' & dt' & A' & E & X & W3 & L3 & Hob & Hdt & B & DT & DH & Eb & FT & FH).
  { eapply ext_trans; [apply dbase_ext|exact X1]. }
  { destruct is; [congruence|discriminate]. }
  { now rewrite !pick_length. }
  { rewrite pick_length. cbn. unfold upd. now rewrite Nat.eqb_refl. }
  { intros i Hi. rewrite pick_length in Hi. rewrite !nth_pick by auto. apply HG.
    eapply slice_lt; [exact Hs|now apply nth_In]. }
  cbv zeta in *.
  exists s3, (nrow s), b', bT', bH', (allf o_sym ob (length (pick ws is)) A0), (allf o_herm ob (length (pick ws is)) A0), dt', A0, A'.
  assert (Fl : forall (sy : bool) (p : obj -> bool), (forall o, p o = if sy then o_sym o else o_herm o) ->
     allf p ob (length (pick ws is)) A0 = true -> forall k, k < length is ->
     is_dual sy (nth k (pick ws is) 0) (nth k (pick ws is) 0) (g (nth k is 0)) (g (nth k is 0))).
  { intros sy p Hpp C k Hk. unfold allf in C. rewrite forallb_forall in C.
    rewrite pick_length in *.
    assert (Hk' : nth k is 0 < length ws) by (eapply slice_lt; [exact Hs|now apply nth_In]).
    assert (HD : GoodD s1 (A0 k) (nth k (pick ws is) 0) (nth k (pick hs is) 0) (dts (nth k is 0)) (g (nth k is 0))).
    { rewrite !nth_pick by auto. eapply GoodD_mono; [eapply ext_trans; [apply dbase_ext|exact X1]|]. now apply HG. }
    assert (Sq : nth k (pick hs is) 0 = nth k (pick ws is) 0).
    { destruct (Nat.eq_dec (nth k (pick ws is) 0) (nth k (pick hs is) 0)) as [e|e]; auto.
      destruct (rect_noflag s1 (A0 k) _ _ _ _ (ob (A0 k)) HD (Hob k Hk) e) as [Q1 Q2].
      specialize (C k ltac:(apply in_seq; lia)). rewrite Hpp in C. destruct sy; congruence. }
    rewrite Sq in HD.
    specialize (C k ltac:(apply in_seq; lia)). rewrite Hpp in C.
    apply (Good_flag sy s1 (A0 k) _ _ _ _ (ob (A0 k)) HD (Hob k Hk)). destruct sy; exact C. }
  split; [exact E|]. split; [eapply ext_trans; eauto|]. split; auto. split; auto. split; auto.
  split. { rewrite Eb. unfold self_bd. destruct (_ && _); auto. destruct (allf o_sym ob _ A0); auto. }
  split; auto. split; auto. split; auto.
  split. { intros C. rewrite Eb, C. unfold self_bd. destruct (allf o_herm ob _ A0); auto. }
  split; [|split; [|split; auto]].
  - intros C. now apply (Fl true o_sym).
  - intros C. now apply (Fl false o_herm).
Qed.

Lemma desc_apart_d : forall (s : st) D o og D' n m sym herm dt, objs s D = Some o -> o_mv o = CBDiag WN D -> D' <> D ->
  desc s D' n m (CBDiag WN D') (Some (CBDiag WT D')) (Some (CBDiag WH D')) sym herm dt ->
  desc (dbase D og og s) D' n m (CBDiag WN D') (Some (CBDiag WT D')) (Some (CBDiag WH D')) sym herm dt.
Proof.
  intros s D o og D' n m sym herm dt Ho Hm Ne De.
  assert (HH : forall a n m sy he dt c T H, c <> CBDiag WN D -> has s a n m sy he dt c T H -> has (dbase D og og s) a n m sy he dt c T H).
  { intros a n0 m0 sy he dt0 c T H Nc (oa & Ha & R). exists oa. split; auto. unfold dbase. rewrite drop_objs; auto.
    intros ->. rewrite Ho in Ha. injection Ha as <-. apply Nc. rewrite <- Hm. symmetry. apply R. }
  assert (N1 : CBDiag WN D' <> CBDiag (F:=F) WN D) by congruence.
  assert (N2 : CBDiag WT D' <> CBDiag (F:=F) WN D) by congruence.
  assert (N3 : CBDiag WH D' <> CBDiag (F:=F) WN D) by congruence.
  assert (N4 : forall w a, CConj w a <> CBDiag (F:=F) WN D) by congruence.
  unfold desc in *. destruct (is_complex dt), sym, herm; cbv beta iota in *;
    repeat match goal with H : exists _, _ |- _ => destruct H end;
    repeat match goal with H : _ /\ _ |- _ => destruct H end;
    repeat match goal with |- exists _, _ => eexists end; repeat split; eauto.
Qed.
Lemma bdst_apart : forall (s u : st) D o og D' og' b' bT' bH' ws hs sym herm dt O A dts g,
  objs s D = Some o -> o_mv o = CBDiag WN D -> D' <> D -> og' <> og -> b' <> og -> bT' <> og -> bH' <> og ->
  ext u (dbase D og og s) ->
  bdst s u D' og' b' bT' bH' ws hs sym herm dt O A dts g ->
  bdst (dbase D og og s) u D' og' b' bT' bH' ws hs sym herm dt O A dts g.
Proof.
  intros s u D o og D' og' b' bT' bH' ws hs sym herm dt O A dts g Ho Hm Ne N1 N2 N3 N4 X [U N L De (o' & Ho' & Hp) Rg SZ Rb HG HC BT BH].
  assert (RR : forall l r, l <> og -> rows s l = Some r -> rows (dbase D og og s) l = Some r).
  { intros l r Nl Hr. change (rows (norows [og; og] s) l = Some r). rewrite norows_out; auto. intros [I|[I|[]]]; auto. }
  constructor; auto.
  - eapply desc_apart_d; eauto.
  - exists o'. split; auto. unfold dbase. rewrite drop_objs; auto.
  - intros C. destruct (BT C) as (AT & gT & H1 & H2). exists AT, gT. split; auto.
  - intros C. destruct (BH C) as (AT & gT & H1 & H2). exists AT, gT. split; auto.
Qed.
Lemma bdst_yields : forall (s u : st) D og b bT bH ws hs sym herm dt O A dts g,
  bdst s u D og b bT bH ws hs sym herm dt O A dts g -> yields s D (sum_nat ws) (sum_nat hs) dt (diagmap ws g).
Proof.
  intros s u D og b bT bH ws hs sym herm dt O A dts g BI. pose proof (bd_denotes FOK _ _ _ _ _ _ _ _ _ _ _ _ _ _ _ _ BI) as DD.
  pose proof (desc_dts _ _ _ _ _ _ _ _ _ _ (bd_desc _ _ _ _ _ _ _ _ _ _ _ _ _ _ _ _ BI)) as DT.
  eapply yields_ext; [|apply yields_den; [exact DD|now apply Dts_dt]]. intros; apply bdmap_spec.
Qed.
Lemma dedits_ext : forall D og b ws hs sym herm dt (s : st) g s2 g2, dedits D og b ws hs dt s g s2 g2 ->
  wfst s -> D < nxt s -> (exists bT bH O A dts, bdinv s D og b bT bH ws hs sym herm dt O A dts g) ->
  ext (dbase D og b s) (dbase D og b s2).
Proof.
  intros D og b ws hs sym herm dt s g s2 g2 H.
  induction H as [s g|s s1 s2 g g2 X W1 Ln H IH|s s1 s2 g g2 k kz B dB f Pk GB CB E H IH];
    intros W LD (bT & bH & O & A & dts & BI).
  - apply ext_refl.
  - eapply ext_trans; [apply dbase_mono; exact X|]. apply IH; auto; [lia|]. exists bT, bH, O, A, dts. eapply bdinv_ext; eauto.
  - destruct (bd_set_inv FOK s D og b bT bH ws hs sym herm dt O A dts g k kz B dB f BI W LD Pk GB CB) as
      (s' & bT' & bH' & O' & E' & W' & N' & X & _ & BI').
    rewrite E in E'. injection E' as <-. eapply ext_trans; [exact X|]. apply IH; auto; [lia|]. eauto 7.
Qed.
(** the blocks at the positions [is] *)
Definition sel (R : list blk) (is : list nat) : list blk := map (fun i => nth i R k_none) is.
Lemma sel_pick : forall R is, (forall i, In i is -> i < length R) -> pick (ins R) is = ins (sel R is) /\ pick (outs R) is = outs (sel R is).
Proof.
  intros R is H. unfold pick, sel. unfold ins at 2, outs at 2. rewrite !map_map.
  split; apply map_ext_in; intros i Hi; [apply nth_ins|apply nth_outs]; auto.
Qed.
Lemma nth_sel : forall R is k, k < length is -> nth k (sel R is) k_none = nth (nth k is 0) R k_none.
Proof.
  intros R is k H. unfold sel. rewrite (nth_indep _ k_none (nth 0 R k_none)) by now rewrite map_length.
  exact (map_nth (fun i => nth i R k_none) is 0 k).
Qed.
Lemma diagmap_eq : forall ws (g h : nat -> map1) x, (forall i, i < length ws -> g i = h i) -> diagmap ws g x = diagmap ws h x.
Proof.
  intros ws g h x H. unfold diagmap. f_equal. apply map_ext_in. intros i Hi. apply in_seq in Hi. now rewrite H by lia.
Qed.
Lemma kmap_sel : forall R is x, (forall i, In i is -> i < length R) ->
  diagmap (pick (ins R) is) (fun k => k_map (nth (nth k is 0) R k_none)) x = kmap (sel R is) x.
Proof.
  intros R is x H. unfold kmap. rewrite <- (proj1 (sel_pick R is H)). apply diagmap_eq. intros i Hi.
  rewrite pick_length in Hi. now rewrite nth_sel.
Qed.
Lemma bdst_eqg : forall (s u : st) D og b bT bH ws hs sym herm dt O A dts g g', (forall i, i < length ws -> g i = g' i) ->
  bdst s u D og b bT bH ws hs sym herm dt O A dts g -> bdst s u D og b bT bH ws hs sym herm dt O A dts g'.
Proof.
  intros s u D og b bT bH ws hs sym herm dt O A dts g g' Hg [U N L De Py Rg SZ Rb HG HC BT BH].
  constructor; auto.
  - intros i Hi. rewrite <- Hg by auto. auto.
  - intros C. destruct (BT C) as (AT & gT & H1 & H2). exists AT, gT. split; auto. intros i Hi. rewrite <- Hg by auto. auto.
  - intros C. destruct (BH C) as (AT & gT & H1 & H2). exists AT, gT. split; auto. intros i Hi. rewrite <- Hg by auto. auto.
Qed.
(** D[a:b:c] is the block diagonal operator of the selected blocks, on a list of its own *)
Theorem C84_slice : forall (s : st) og R, wfst s -> R <> [] -> rows s og = Some (map Some (ops R)) ->
  (forall k, In k R -> good_blk (norows [og] s) k) ->
  (exists k o, In k R /\ objs s (k_op k) = Some o /\ o_sym o = false) ->
  (exists k o, In k R /\ objs s (k_op k) = Some o /\ o_herm o = false) ->
  exists s1 D dt, bdiag_op og s = (s1, Ok D) /\
    forall s2 R2, dputs D og dt s1 R s2 R2 -> forall a b c,
      match slice_list (length R2) a b c with
      | Err e => bd_getitem D (IxSlice a b c) s2 = (s2, Err e)
      | Ok [] => exists s3, bd_getitem D (IxSlice a b c) s2 = (s3, Err TypeError)
      | Ok is => let R' := sel R2 is in exists s3 D' dt' og' b',
          bd_getitem D (IxSlice a b c) s2 = (s3, Ok (Some D')) /\
          yields s3 D' (sum_nat (ins R')) (sum_nat (outs R')) dt' (kmap R') /\
          ((forall k, In k R' -> k_in k = k_out k) -> duals s3 D' (sum_nat (ins R')) (sum_nat (ins R')) dt' (kmap R')) /\
          (* assignments to D do not reach the slice *)
          (forall s4 R4, dputs D og dt s3 R2 s4 R4 ->
             yields s4 D (sum_nat (ins R)) (sum_nat (outs R)) dt (kmap R4) /\
             yields s4 D' (sum_nat (ins R')) (sum_nat (outs R')) dt' (kmap R')) /\
          (* nor do assignments to the slice reach D *)
          (forall s4 g4, dedits D' og' b' (ins R') (outs R') dt' s3 (fun i => k_map (nth i R' k_none)) s4 g4 ->
             yields s4 D' (sum_nat (ins R')) (sum_nat (outs R')) dt' (diagmap (ins R') g4) /\
             yields s4 D (sum_nat (ins R)) (sum_nat (outs R)) dt (kmap R2))
      end.
Proof.
  intros s og R W N Rg HG HS HH. destruct (dstate_new s og R W N Rg HG HS HH) as (s1 & dt & E & X & W1 & L1 & DS).
  exists s1, (nxt s), dt. split; auto. intros s2 R2 HP a b c. set (D := nxt s) in *.
  destruct (dputs_inv _ _ _ _ _ _ _ HP W1 L1 DS) as (W2 & L2 & DS2 & S1 & S2 & _).
  destruct (dstate_row _ _ _ _ _ DS2) as (Rb & N2 & RB).
  assert (Ln : length (map Some (ops R2)) = length R2) by (unfold ops; now rewrite !map_length).
  cbn [bd_getitem]. destruct (slice_list (length R2) a b c) as [is|e] eqn:Hs.
  2: { unfold bd_sub. erewrite bind_err; [reflexivity|]. erewrite bind_ok by exact RB. now rewrite Ln, Hs. }
  destruct is as [|i0 is0].
  { unfold bd_sub. 
    assert (EE : exists s3, bd_sub D a b c s2 = (s3, Err TypeError)).
    { unfold bd_sub. erewrite bind_ok by exact RB. rewrite Ln, Hs. erewrite bind_ok by reflexivity.
      cbn [mmap]. erewrite bind_ok by reflexivity. erewrite bind_ok by reflexivity. eexists.
      apply C25_empty.
      - exact (wf_rowst [] s2 W2).
      - cbn. unfold upd. now rewrite Nat.eqb_refl. }
    destruct EE as (s3 & E3). exists s3. apply bind_err. exact E3. }
  set (is := i0 :: is0) in *. cbv zeta.
  assert (Lt : forall i, In i is -> i < length R2) by (intros i; now apply (slice_lt _ _ _ _ _ _ Hs)).
  destruct (sel_pick R2 is Lt) as [P1 P2].
  pose proof DS2 as (bT & bH & O & BI).
  assert (Hs' : slice_list (length (ins R2)) a b c = Ok is) by (unfold ins; now rewrite map_length).
  destruct (dsub s2 D og og bT bH _ _ false false dt O _ _ _ a b c is BI W2 Hs') as
    (s3 & og' & b' & bT' & bH' & sym' & herm' & dt' & O' & A' & E3 & X3 & W3 & L3 & F1 & F2 & F3 & F4 & B & _ & Sy & He & DT & DH);
    [discriminate|].
  exists s3, (nxt s2), dt', og', b'.
  split. { erewrite bind_ok by exact E3. reflexivity. }
  rewrite <- P1, <- P2.
  split. { eapply yields_ext; [|eapply bdst_yields; exact B]. intros x _. now apply kmap_sel. }
  split.
  { intros Sq. assert (EQ : pick (outs R2) is = pick (ins R2) is).
    { rewrite P1, P2. unfold outs, ins. apply map_ext_in. intros k Hk. symmetry. now apply Sq. }
    rewrite EQ in B, DT, DH.
    eapply duals_ext; [|apply duals_good; eapply (bd_square FOK); [exact B| | |exact DT|exact DH]].
    - intros x _. rewrite <- kmap_sel by auto. apply bdmap_spec.
    - intros C k Hk. rewrite pick_length in Hk. now apply Sy.
    - intros C k Hk. rewrite pick_length in Hk. now apply He. }
  assert (DS3 : dstate s3 D og dt R2) by (eapply dstate_ext; eauto).
  assert (Ne : nxt s2 <> D) by lia.
  split.
  - intros s4 R4 H4.
    destruct (dputs_inv _ _ _ _ _ _ _ H4 W3) as (W4 & L4 & DS4 & Q1 & Q2 & X4); [lia|auto|].
    split. { rewrite <- S1, <- S2, <- Q1, <- Q2. now apply (dstate_yields s4 D og). }
    destruct DS3 as (bT3 & bH3 & O3 & BI3).
    destruct (bd_parts FOK _ _ _ _ _ _ _ _ _ _ _ _ _ _ _ _ BI3) as (oD & HoD & _ & _ & _ & _ & _ & _ & Hm & _).
    assert (FN : forall l, rows s2 l = None -> l <> og) by (intros l Hl ->; congruence).
    assert (BA : bdst (dbase D og og s3) (dbase D og og s2) (nxt s2) og' b' bT' bH' (pick (ins R2) is) (pick (outs R2) is) sym' herm' dt' O' A'
      (fun k => k_dt (nth (nth k is 0) R2 k_none)) (fun k => k_map (nth (nth k is 0) R2 k_none))).
    { eapply bdst_apart; eauto. now apply dbase_mono. }
    eapply yields_ext; [intros x _; now apply kmap_sel|].
    eapply bdst_yields. eapply bdst_mono; [| |apply dbase_ext|exact BA].
    + eapply ext_trans; [exact X4|apply dbase_ext].
    + eapply ext_trans; [apply dbase_mono; exact X3|exact X4].
  - intros s4 g4 H4.
    assert (XF : ext s2 (dbase (nxt s2) og' b' s3)).
    { unfold dbase. apply ext_drop_fresh; [|apply (proj1 W2); lia].
      destruct X3 as [X3a X3b X3c]. constructor; [exact X3a|exact X3b|]. intros l r Hr.
      rewrite norows_out; auto. intros [<-|[<-|[]]]; congruence. }
    assert (BI' : exists bT bH O A dts, bdinv s3 (nxt s2) og' b' bT bH (pick (ins R2) is) (pick (outs R2) is) sym' herm' dt' O A dts
       (fun k => k_map (nth k (sel R2 is) k_none))).
    { apply (bdst_eqg _ _ _ _ _ _ _ _ _ _ _ _ _ _ _ _ (fun k => k_map (nth k (sel R2 is) k_none))) in B.
      2: { intros i Hi. rewrite pick_length in Hi. now rewrite nth_sel. }
      exists bT', bH', O', A', (fun k => k_dt (nth (nth k is 0) R2 k_none)).
      eapply bdst_mono; [apply ext_refl| |apply dbase_ext|exact B]. eapply ext_trans; [apply dbase_ext|exact XF]. }
    destruct (dedits_inv FOK _ _ _ _ _ _ _ _ _ _ _ _ H4 W3 L3 BI') as (W4 & L4 & bT4 & bH4 & O4 & A4 & dts4 & BI4).
    split; [eapply bdst_yields; exact BI4|].
    rewrite <- S1, <- S2. apply (dstate_yields s4 D og). eapply dstate_ext; [|exact DS2].
    eapply ext_trans; [exact XF|]. eapply ext_trans; [eapply dedits_ext; eauto|apply dbase_ext].
Qed.

(** ** Any flags: D[z] and D[a:b:c] after assignments D[i] = B *)
Theorem C84_any_flags : forall (s : st) og ws hs A dts g, wfst s -> ws <> [] -> length hs = length ws ->
  rows s og = Some (tab (length ws) (fun i => Some (A i))) ->
  (forall i, i < length ws -> GoodD (norows [og] s) (A i) (nth i ws 0) (nth i hs 0) (dts i) (g i)) ->
  exists s1 D b dt, bdiag_op og s = (s1, Ok D) /\
    forall s2 g2, dedits D og b ws hs dt s1 g s2 g2 ->
      yields s2 D (sum_nat ws) (sum_nat hs) dt (diagmap ws g2) /\
      (forall z, match pyindex (length ws) z with
         | Ok i => exists B dB, bd_getitem D (IxInt z) s2 = (s2, Ok (Some B)) /\ yields s2 B (nth i ws 0) (nth i hs 0) dB (g2 i)
         | Err _ => bd_getitem D (IxInt z) s2 = (s2, Err IndexError) end) /\
      (forall x y z is, slice_list (length ws) x y z = Ok is -> is <> [] ->
         exists s3 D' dt', bd_getitem D (IxSlice x y z) s2 = (s3, Ok (Some D')) /\ ext s2 s3 /\
           yields s3 D' (sum_nat (pick ws is)) (sum_nat (pick hs is)) dt' (diagmap (pick ws is) (fun k => g2 (nth k is 0)))).
Proof.
  intros s og ws hs A dts g W N L R HG.
  destruct (bdiag_inv FOK s og ws hs A dts g W N L R HG) as (s1 & ob & b & bT & bH & dt & A' & E & X & W1 & L1 & Hob & BI & _).
  cbv zeta in BI. exists s1, (nxt s), b, dt. split; auto. intros s2 g2 HE.
  destruct (dedits_inv FOK _ _ _ _ _ (allf o_sym ob (length ws) A) (allf o_herm ob (length ws) A) _ _ _ _ _ HE W1 L1) as (W2 & L2 & bT2 & bH2 & O2 & A2 & dts2 & BI2); [eauto 7|].
  split; [eapply bdst_yields; exact BI2|]. split.
  - intros z. destruct (bd_parts FOK _ _ _ _ _ _ _ _ _ _ _ _ _ _ _ _ BI2) as (o & Ho & Hp & _).
    pose proof (bd_b _ _ _ _ _ _ _ _ _ _ _ _ _ _ _ _ BI2) as Rb.
    assert (RB : bd_blocks (nxt s) s2 = (s2, Ok (dcells (length ws) A2))).
    { unfold bd_blocks, get_bdiag.
      erewrite bind_ok by (erewrite bind_ok by (apply getattr_ok; exact Ho); rewrite Hp; reflexivity). cbn beta iota.
      unfold get_row. now rewrite Rb. }
    pose proof (C24_pyindex (length ws) z) as P1.
    cbn [bd_getitem]. unfold bd_get. destruct (pyindex (length ws) z) as [i|e] eqn:Pi.
    + exists (A2 i), (dts2 i). split.
      * erewrite bind_ok by exact RB. unfold dcells at 1. rewrite tab_length, Pi. erewrite bind_ok by reflexivity.
        unfold lift, nth_r, dcells. now rewrite nth_error_tab.
      * apply yields_good. eapply GoodD_mono; [apply dbase_ext|]. now apply (bd_good _ _ _ _ _ _ _ _ _ _ _ _ _ _ _ _ BI2).
    + erewrite bind_ok by exact RB. unfold dcells at 1. rewrite tab_length, Pi. unfold bind, lift. f_equal. f_equal. tauto.
  - intros x y z is Hs Ni.
    destruct (dsub s2 (nxt s) og b bT2 bH2 _ _ _ _ dt O2 _ _ _ x y z is BI2 W2 Hs Ni) as
      (s3 & og' & b' & bT' & bH' & sym' & herm' & dt' & O' & A3 & E3 & X3 & W3 & L3 & _ & _ & _ & _ & B & _).
    exists s3, (nxt s2), dt'. split; [cbn [bd_getitem]; erewrite bind_ok by exact E3; reflexivity|]. split; auto.
    eapply bdst_yields; exact B.
Qed.

(** ** D[a:b:c] = [B1, ..., Bk] is not checked: if the total sizes change, every product with D fails *)
Theorem C84_sizes_unchecked : forall (s : st) og R, wfst s -> R <> [] -> rows s og = Some (map Some (ops R)) ->
  (forall k, In k R -> good_blk (norows [og] s) k) ->
  (exists k o, In k R /\ objs s (k_op k) = Some o /\ o_sym o = false) ->
  (exists k o, In k R /\ objs s (k_op k) = Some o /\ o_herm o = false) ->
  exists s1 D dt, bdiag_op og s = (s1, Ok D) /\
    forall s2 R2, dputs D og dt s1 R s2 R2 -> forall a b c v R1, list_setslice R2 a b c v = Ok R1 -> R1 <> [] ->
      (forall k, In k v -> good_blk (drop D (norows [og; og] s2)) k /\ (is_complex (k_dt k) = true -> is_complex dt = true)) ->
      exists s3, bd_setslice D a b c (ops v) s2 = (s3, Ok tt) /\
        (sum_nat (ins R1) <> sum_nat (ins R) -> exists d0, forall d s4 x, d0 <= d -> ext s3 s4 -> awf x -> asize x = sum_nat (ins R) ->
           exists s5, apply d D x s4 = (s5, Err ShapeError)) /\
        (sum_nat (ins R1) = sum_nat (ins R) -> sum_nat (outs R1) <> sum_nat (outs R) ->
           exists d0, forall d s4 x, d0 <= d -> ext s3 s4 -> awf x -> asize x = sum_nat (ins R) ->
           exists s5, apply d D x s4 = (s5, Err ValueError)) /\
        (* D.shape is not updated *)
        (forall d s4 x, ext s3 s4 -> asize x <> sum_nat (ins R) -> exists s5, apply (S d) D x s4 = (s5, Err ValueError)).
Proof.
  intros s og R W N Rg HG HS HH. destruct (dstate_new s og R W N Rg HG HS HH) as (s1 & dt & E & X & W1 & L1 & DS).
  exists s1, (nxt s), dt. split; auto. intros s2 R2 HP a b c v R1 El N1 HV. set (D := nxt s) in *.
  destruct (dputs_inv _ _ _ _ _ _ _ HP W1 L1 DS) as (W2 & L2 & DS2 & S1 & S2 & _).
  pose proof DS2 as (bT & bH & O & BI).
  assert (HN : forall i, i < length (ins R1) -> good_blk (dbase D og og s2) (nth i R1 k_none) /\
     (is_complex (k_dt (nth i R1 k_none)) = true -> is_complex dt = true)).
  { intros i Hi. unfold ins in Hi. rewrite map_length in Hi. pose proof (nth_In R1 k_none Hi) as HI.
    destruct (setslice_in _ _ _ _ _ _ _ _ El HI); auto. eapply dstate_good; eauto. }
  destruct (bd_store_gen FOK s2 D og og bT bH _ _ false false dt O _ _ _ (ins R1) (outs R1) (fun i => k_op (nth i R1 k_none))
    (fun i => k_dt (nth i R1 k_none)) (fun i => k_map (nth i R1 k_none)) BI W2 L2)
    as (s3 & bT3 & bH3 & O3 & E3 & W3 & N3 & X3 & Ro3 & De3 & (o3 & Ho3 & Hp3) & Rb3 & HG3 & _).
  { destruct R1; [congruence|discriminate]. }
  { unfold ins, outs. now rewrite !map_length. }
  { intros C. now contradiction C. }
  { intros i Hi. destruct (HN i Hi) as [G _]. unfold ins in Hi. rewrite map_length in Hi. now rewrite nth_ins, nth_outs. }
  { intros i Hi. now destruct (HN i Hi). }
  rewrite Nat.eqb_refl in Ro3. rewrite S1, S2 in De3.
  destruct (desc_self _ _ _ _ _ _ _ _ _ _ _ De3 Ho3) as (K1 & K2 & _ & _ & K5 & K6 & _).
  assert (Len : length (outs R1) = length (ins R1)) by (unfold ins, outs; now rewrite !map_length).
  assert (SZ : dsized s3 (ins R1) (outs R1) (fun i => k_op (nth i R1 k_none))).
  { intros i Hi. destruct (GoodD_mono _ _ _ _ _ _ _ (dbase_ext _ _ _ _) (HG3 i Hi)) as (G & _).
    destruct (Good_attr _ _ _ _ _ G) as (oo & Hoo & ? & ? & _). eauto. }
  assert (DF : dfam s3 dt (ins R1) (outs R1) (fun i => k_op (nth i R1 k_none)) (fun i => k_dt (nth i R1 k_none)) (fun i => k_map (nth i R1 k_none))).
  { eapply dfam_mono; [apply (dbase_ext D og og)|]. apply dfam_good; auto. intros i Hi. now destruct (HN i Hi). }
  exists s3. split. { rewrite (slice_run s2 D og dt R2 a b c v DS2), El, ops_tab. exact E3. }
  assert (ST : forall d s4 x, ext s3 s4 -> exists s5, ext s3 s5 /\
     apply (S d) D x s4 = (if negb (Nat.eqb (asize x) (sum_nat (ins R))) then (s5, Err ValueError) else
       bind (bd_matvec (apply d) dt (dcells (length (ins R1)) (fun i => k_op (nth i R1 k_none))) (dcells (length (ins R1)) (fun i => k_op (nth i R1 k_none))) x)
         (fun y => if negb (Nat.eqb (asize y) (sum_nat (outs R))) then raise ValueError else ret (astype (result_type dt (adt x)) y)) s5)).
  { intros d s4 x X4. destruct (ext_obj _ _ X4 _ _ Ho3) as (o4 & Ho4 & St).
    set (o5 := with_count (S (o_count o4)) o4). set (s5 := set_obj D o5 s4).
    assert (X5 : ext s4 s5) by (apply ext_bump; exact Ho4).
    assert (X35 : ext s3 s5) by (eapply ext_trans; eauto).
    exists s5. split; auto. cbn [apply]. unfold mul_vector.
    erewrite bind_ok by (unfold bump, modobj; rewrite Ho4; reflexivity). fold o5. fold s5.
    assert (Ho5 : objs s5 D = Some o5) by apply get_set_eq.
    do 3 (erewrite bind_ok by (apply getattr_ok; exact Ho5)).
    change (o_nargin o5) with (o_nargin o4). change (o_nargout o5) with (o_nargout o4). change (o_dtype o5) with (o_dtype o4).
    rewrite <- (stable_nargin _ _ St), <- (stable_nargout _ _ St), <- (stable_dtype _ _ St), K1, K2, K5.
    destruct (Nat.eqb (asize x) (sum_nat (ins R))); cbn [negb]; [|reflexivity].
    erewrite bind_ok by (apply getattr_ok; exact Ho5). change (o_mv o5) with (o_mv o4). rewrite <- (stable_mv _ _ St), K6.
    unfold bind at 1. cbn [call]. 
    erewrite bind_ok by (apply getattr_ok; exact Ho5). change (o_pay o5) with (o_pay o4). rewrite <- (stable_pay _ _ St), Hp3.
    erewrite bind_ok by (apply getattr_ok; exact Ho5). change (o_dtype o5) with (o_dtype o4). rewrite <- (stable_dtype _ _ St), K5.
    erewrite bind_ok by (unfold get_row; rewrite (ext_row _ _ X35 _ _ Ro3); reflexivity).
    erewrite bind_ok by (unfold get_row; rewrite (ext_row _ _ X35 _ _ Rb3); reflexivity). reflexivity. }
  split; [|split].
  - intros Ni. exists 1. intros d s4 x Hd X4 Hx Hl. destruct d as [|d]; [lia|].
    destruct (ST d s4 x X4) as (s5 & X5 & ->). rewrite Hl, Nat.eqb_refl. cbn [negb].
    destruct (dsized_run s5 (ins R1) (outs R1) _ Len (dsized_mono _ _ _ _ _ X5 SZ)) as [Q1 Q2].
    eexists. apply bind_err. unfold bd_matvec. erewrite bind_ok by exact Q1. erewrite bind_ok by exact Q2.
    rewrite Hl. replace (Nat.eqb (sum_nat (ins R)) (sum_nat (ins R1))) with false by (symmetry; apply Nat.eqb_neq; auto). reflexivity.
  - intros Ei No. destruct (bd_matvec_ok FOK s3 (ins R1) (outs R1) _ _ _ _ dt Len SZ DF) as [d0 HM].
    exists (S d0). intros d s4 x Hd X4 Hx Hl. destruct d as [|d]; [lia|].
    destruct (ST d s4 x X4) as (s5 & X5 & ->). rewrite Hl, Nat.eqb_refl. cbn [negb].
    destruct (HM d s5 x) as (s6 & E6 & X6); auto; [lia|congruence|].
    exists s6. erewrite bind_ok by exact E6.
    assert (LB : length (bdmap (ins R1) (fun i => k_map (nth i R1 k_none)) (adata x)) = sum_nat (outs R1)).
    { apply (lin_len _ _ _ (bdmap_lin (ins R1) (outs R1) _ Len (dfam_lin _ _ _ _ _ _ _ DF))). unfold asize in Hl. congruence. }
    unfold asize at 1. cbn [adata]. rewrite LB.
    replace (Nat.eqb (sum_nat (outs R1)) (sum_nat (outs R))) with false by (symmetry; now apply Nat.eqb_neq). reflexivity.
  - intros d s4 x X4 Nx. destruct (ST d s4 x X4) as (s5 & X5 & ->). exists s5.
    replace (Nat.eqb (asize x) (sum_nat (ins R))) with false by (symmetry; now apply Nat.eqb_neq). reflexivity.
Qed.
End P.

(** ** Instances *)
Section Ex.
Local Opaque sD aA aB aC aD aE obD.
Definition kA : blk (F:=FQI) := mkblk aA 2 2 DComplex (mat_vec m1).
Definition kB : blk (F:=FQI) := mkblk aB 2 2 DFloat (mat_vec msym).
Definition kC : blk (F:=FQI) := mkblk aC 2 1 DFloat (mat_vec mrow).
Definition kD : blk (F:=FQI) := mkblk aD 1 1 DFloat (mat_vec mone).
Definition R0 : list blk := [kA; kB].
(** diag(A, B), then D[1:2] = [D, D], which gives three blocks *)
Lemma ex_hyp : wfst (dg [aA; aB]) /\ R0 <> [] /\ rows (dg [aA; aB]) 0 = Some (map Some (ops R0)) /\
  (forall k, In k R0 -> good_blk (norows [0] (dg [aA; aB])) k) /\
  (exists k o, In k R0 /\ objs (dg [aA; aB]) (k_op k) = Some o /\ o_sym o = false) /\
  (exists k o, In k R0 /\ objs (dg [aA; aB]) (k_op k) = Some o /\ o_herm o = false).
Proof.
  destruct heap as (_ & HA & HB & _). split; [apply wf_wr|]. split; [discriminate|]. split; [reflexivity|].
  split. { intros k [<-|[<-|[]]]; (eapply GoodD_mono; [apply ext_wr|]); assumption. }
  split; exists kA, (obD aA); (split; [now left|]); (split; [apply ob_ok; cbn; auto|vm_compute; reflexivity]).
Qed.
Lemma ex_good : forall s1 k og, ext (dg [aA; aB]) s1 -> In k [kA; kB; kC; kD] -> good_blk (drop (nxt (dg [aA; aB])) (norows og s1)) k.
Proof.
  intros s1 k og X Hk. destruct heap as ((Hf & _) & HA & HB & HC & HD & _).
  assert (XD : ext sD (drop (nxt (dg [aA; aB])) (norows og s1))).
  { apply ext_drop_fresh; [|apply Hf; cbn; lia].
    destruct (ext_trans _ _ _ (ext_wr0 [map Some [aA; aB]]) X) as [X1 X2 X3]. constructor; [exact X1|exact X2|].
    intros l r Hr. rewrite rows_D in Hr. discriminate Hr. }
  destruct Hk as [<-|[<-|[<-|[<-|[]]]]]; (eapply GoodD_mono; [exact XD|]); assumption.
Qed.
Example ex_C84 : exists s1 D dt s2, bdiag_op 0 (dg [aA; aB]) = (s1, Ok D) /\
  dputs D 0 dt s1 R0 s2 [kA; kD; kD] /\
  kmap [kA; kD; kD] [qi 0 0; qi 0 0; qi 1 0; qi 2 0] = [qi 0 0; qi 0 0; qi 7 0; qi 14 0] /\
  slice_list 3 (Some (-2)%Z) None None = Ok [1; 2] /\ slice_list 3 None None (Some (-2)%Z) = Ok [2; 0] /\
  slice_list 3 (Some 2%Z) (Some 1%Z) None = Ok [] /\ slice_list 3 None None (Some 0%Z) = Err ValueError.
Proof.
  destruct ex_hyp as (W & N & Rg & HG & HS & HH).
  destruct (dstate_new FQI_OK _ 0 R0 W N Rg HG HS HH) as (s1 & dt & E & X & W1 & L1 & DS).
  assert (HV : forall k, In k [kD; kD] -> good_blk (drop (nxt (dg [aA; aB])) (norows [0; 0] s1)) k /\ (is_complex (k_dt k) = true -> is_complex dt = true)).
  { intros k Hk. split; [|destruct Hk as [<-|[<-|[]]]; discriminate].
    apply ex_good; auto. destruct Hk as [<-|[<-|[]]]; cbn; auto. }
  destruct (C84_index FQI_OK _ 0 R0 W N Rg HG HS HH) as (s1' & D & dt' & E' & H).
  assert (ES : s1' = s1) by congruence. assert (ED : D = nxt (dg [aA; aB])) by congruence. subst s1' D.
  destruct (H s1 R0 (dp_nil _ _ _ _ _)) as (_ & _ & _ & _ & _ & HA).
  assert (DD : forall k, In k [kD; kD] -> good_blk (drop (nxt (dg [aA; aB])) (norows [0; 0] s1)) k /\ (is_complex (k_dt k) = true -> is_complex dt' = true)).
  { intros k Hk. split; [apply (HV k Hk)|destruct Hk as [<-|[<-|[]]]; discriminate]. }
  specialize (HA (Some 1%Z) (Some 2%Z) None [kD; kD]). change (list_setslice R0 (Some 1%Z) (Some 2%Z) None [kD; kD]) with (Ok [kA; kD; kD]) in HA.
  cbv iota in HA. destruct (HA ltac:(discriminate) eq_refl eq_refl DD) as (s2 & E2).
  exists s1, (nxt (dg [aA; aB])), dt', s2. split; auto.
  split. { refine (dp_slice _ 0 dt' s1 s2 s2 R0 [kA; kD; kD] _ (Some 1%Z) (Some 2%Z) None [kD; kD] eq_refl DD eq_refl eq_refl _ E2 (dp_nil _ _ _ _ _)).
           discriminate. }
  repeat split.
Qed.
(** the model run: D[1:2] = [D, D]; then D[-2:] * (1, 2) *)
Example ex_C84_run : let r := bdiag_op 0 (dg [aA; aB]) in let D := okv 99 r in
  let r2 := bd_setslice D (Some 1%Z) (Some 2%Z) None [aD; aD] (fst r) in
  let r3 := bd_getitem D (IxSlice (Some (-2)%Z) None None) (fst r2) in
  match snd r3 with
  | Ok (Some K') => is_ok (apply 9 K' (@mkarr FQI DFloat [qi 1 0; qi 2 0]) (fst r3)) (@mkarr FQI DFloat [qi 7 0; qi 14 0])
  | _ => false end = true.
Proof. vm_compute. reflexivity. Qed.
(** D[0:1] = [C] changes the height, D[0:1] = [D] the width *)
Example ex_C84_sizes : list_setslice R0 (Some 0%Z) (Some 1%Z) None [kC] = Ok [kC; kB] /\
  sum_nat (ins [kC; kB]) = sum_nat (ins R0) /\ sum_nat (outs [kC; kB]) <> sum_nat (outs R0) /\
  list_setslice R0 (Some 0%Z) (Some 1%Z) None [kD] = Ok [kD; kB] /\ sum_nat (ins [kD; kB]) <> sum_nat (ins R0) /\
  forall s1 k, ext (dg [aA; aB]) s1 -> In k [kC; kD] -> good_blk (drop (nxt (dg [aA; aB])) (norows [0; 0] s1)) k /\ is_complex (k_dt k) = false.
Proof.
  split; [reflexivity|]. split; [reflexivity|]. split; [discriminate|]. split; [reflexivity|]. split; [discriminate|].
  intros s1 k X Hk. split; [apply ex_good; auto; destruct Hk as [<-|[<-|[]]]; cbn; auto|destruct Hk as [<-|[<-|[]]]; reflexivity].
Qed.
End Ex.

Print Assumptions C84_setslice_plain.
Print Assumptions C84_index.
Print Assumptions C84_slice.
Print Assumptions C84_any_flags.
Print Assumptions C84_sizes_unchecked.
