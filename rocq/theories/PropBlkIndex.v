(** * Property C83: indexing, slicing and slice assignment of block operators
    (pykrylov/linop/blkop.py).  Vocabulary as in PropBlk.v. *)
From Coq Require Import List ZArith Lia Bool.
From Verif Require Import Base Field Vec LinopModel LinopFrame LinopGood LinopInit LinopDep LinopAlg
  LinopOps LinopPtr LinopExtra LinopUser LinopBase LinopMat Cplx PropLinop
  BlkSpec BlkModel BlkIndexModel BlkProof BlkSet BlkSym BlkErr BlkSymErr BlkDiag BlkDiagOps PropBlk.
Import ListNotations.

(** ** The indices a slice selects *)
Definition pick (l is : list nat) : list nat := map (fun i => nth i l 0) is.
Lemma pick_length : forall l is, length (pick l is) = length is.
Proof. intros. apply map_length. Qed.
Lemma nth_pick : forall l is k, k < length is -> nth k (pick l is) 0 = nth (nth k is 0) l 0.
Proof.
  intros l is k H. unfold pick. rewrite (nth_indep _ 0 (nth 0 l 0)) by now rewrite map_length.
  exact (map_nth (fun i => nth i l 0) is 0 k).
Qed.

Lemma slice_bound_range : forall n (neg : bool) z,
  ((if neg then -1 else 0) <= slice_bound n neg z <= (if neg then Z.of_nat n - 1 else Z.of_nat n))%Z.
Proof.
  intros n neg z. unfold slice_bound.
  destruct (Z.ltb_spec z 0); [destruct (Z.ltb_spec (z + Z.of_nat n) 0); [|destruct (Z.leb_spec (Z.of_nat n) (z + Z.of_nat n))]
    |destruct (Z.ltb_spec z 0); [|destruct (Z.leb_spec (Z.of_nat n) z)]]; destruct neg; lia.
Qed.
Lemma slice_start_range : forall n (neg : bool) z,
  ((if neg then -1 else 0) <= slice_start n neg z <= (if neg then Z.of_nat n - 1 else Z.of_nat n))%Z.
Proof. intros n neg [z|]; cbn; [apply slice_bound_range|destruct neg; lia]. Qed.
Lemma slice_stop_range : forall n (neg : bool) z,
  ((if neg then -1 else 0) <= slice_stop n neg z <= (if neg then Z.of_nat n - 1 else Z.of_nat n))%Z.
Proof. intros n neg [z|]; cbn; [apply slice_bound_range|destruct neg; lia]. Qed.

(** start, start+step, ..., as long as the stop is not reached; every index is in range; step 0 is a
    ValueError *)
Theorem C83_slice_indices : forall n a b c, let st := slice_step c in
  let neg := (st <? 0)%Z in let lo := slice_start n neg a in let hi := slice_stop n neg b in
  (st = 0%Z -> slice_list n a b c = Err ValueError) /\
  (st <> 0%Z -> exists l, slice_list n a b c = Ok l /\
     (forall k, k < length l -> Z.of_nat (nth k l 0) = (lo + Z.of_nat k * st)%Z) /\
     (forall i, In i l -> i < n) /\
     (forall i, In i l <-> exists k : nat, (Z.of_nat i = lo + Z.of_nat k * st /\
        if neg then hi < Z.of_nat i else Z.of_nat i < hi)%Z)).
Proof.
  intros n a b c st neg lo hi. unfold slice_list. fold st. split.
  - intros ->. reflexivity.
  - intros N. apply Z.eqb_neq in N as N'. rewrite N'. clear N'. fold neg. fold lo. fold hi.
    set (len := if neg then (if (lo <=? hi)%Z then 0 else (hi - lo + 1) / st + 1)%Z
                else (if (hi <=? lo)%Z then 0 else (hi - lo - 1) / st + 1)%Z).
    pose proof (slice_start_range n neg a) as Rl. fold lo in Rl.
    pose proof (slice_stop_range n neg b) as Rh. fold hi in Rh.
    assert (L0 : (0 <= len)%Z).
    { unfold len. subst neg. destruct (Z.ltb_spec st 0).
      - destruct (Z.leb_spec lo hi); [lia|]. assert (0 <= (hi - lo + 1) / st)%Z; [|lia].
        rewrite <- (Z.div_opp_opp (hi - lo + 1) st) by lia. apply Z.div_pos; lia.
      - destruct (Z.leb_spec hi lo); [lia|]. assert (0 <= (hi - lo - 1) / st)%Z; [|lia]. apply Z.div_pos; lia. }
    assert (Lk : forall k : nat, (Z.of_nat k < len)%Z <-> (if neg then hi < lo + Z.of_nat k * st else lo + Z.of_nat k * st < hi)%Z).
    { intros k. unfold len. subst neg. destruct (Z.ltb_spec st 0).
      - destruct (Z.leb_spec lo hi); [split; nia|].
        rewrite <- (Z.div_opp_opp (hi - lo + 1) st) by lia.
        pose proof (Z.div_mod (- (hi - lo + 1)) (- st) ltac:(lia)) as E.
        pose proof (Z.mod_pos_bound (- (hi - lo + 1)) (- st) ltac:(lia)) as B.
        set (q := (- (hi - lo + 1) / - st)%Z) in *. set (r := (- (hi - lo + 1) mod - st)%Z) in *. clearbody q r.
        split; intros; nia.
      - destruct (Z.leb_spec hi lo); [split; nia|].
        pose proof (Z.div_mod (hi - lo - 1) st ltac:(lia)) as E.
        pose proof (Z.mod_pos_bound (hi - lo - 1) st ltac:(lia)) as B.
        set (q := ((hi - lo - 1) / st)%Z) in *. set (r := ((hi - lo - 1) mod st)%Z) in *. clearbody q r.
        split; intros; nia. }
    assert (Pos : forall k : nat, (Z.of_nat k < len)%Z -> (0 <= lo + Z.of_nat k * st < Z.of_nat n)%Z).
    { intros k Hk. apply Lk in Hk. subst neg. destruct (Z.ltb_spec st 0); split; try lia; nia. }
    assert (Nth : forall k, k < length (map (fun k => Z.to_nat (lo + Z.of_nat k * st)%Z) (seq 0 (Z.to_nat len))) ->
      (Z.of_nat (nth k (map (fun k => Z.to_nat (lo + Z.of_nat k * st)%Z) (seq 0 (Z.to_nat len))) 0%nat) = lo + Z.of_nat k * st)%Z).
    { intros k Hk. rewrite map_length, seq_length in Hk.
      rewrite (nth_indep _ 0%nat (Z.to_nat (lo + Z.of_nat 0 * st)%Z)) by now rewrite map_length, seq_length.
      rewrite (map_nth (fun k => Z.to_nat (lo + Z.of_nat k * st)%Z) (seq 0 (Z.to_nat len)) 0 k), seq_nth by auto.
      cbn [Nat.add]. rewrite Z2Nat.id; auto. apply Pos. lia. }
    eexists. split; [reflexivity|]. split; [exact Nth|]. split.
    + intros i Hi. apply in_map_iff in Hi. destruct Hi as (k & <- & Hk). apply in_seq in Hk.
      pose proof (Pos k ltac:(lia)). lia.
    + intros i. rewrite in_map_iff. split.
      * intros (k & <- & Hk). apply in_seq in Hk. pose proof (Pos k ltac:(lia)). exists k.
        assert (Hk' : (Z.of_nat k < len)%Z) by lia. apply Lk in Hk'. rewrite Z2Nat.id by lia. auto.
      * intros (k & Ei & Hc). exists k. split; [lia|]. apply in_seq.
        assert (Z.of_nat k < len)%Z; [|lia]. apply Lk. rewrite <- Ei. exact Hc.
Qed.
(** a:b with 0 <= a, b <= n, and [:], and [::-1] *)
Lemma map_to_nat : forall k a, map (fun i => Z.to_nat (Z.of_nat a + Z.of_nat i * 1)%Z) (seq 0 k) = seq a k.
Proof.
  intros k a. replace (seq a k) with (map (fun i => a + i) (seq 0 k)).
  - apply map_ext. intros i. lia.
  - assert (E : forall c, map (fun i => a + i) (seq c k) = seq (a + c) k).
    { induction k; intros c; cbn; auto. now rewrite IHk, Nat.add_succ_r. }
    now rewrite E, Nat.add_0_r.
Qed.
Theorem C83_slice_plain : forall n a b, b <= n ->
  slice_list n (Some (Z.of_nat a)) (Some (Z.of_nat b)) None = Ok (seq a (b - a)).
Proof.
  intros n a b Hb. unfold slice_list, slice_step. cbn [Z.eqb Z.ltb].
  change (1 =? 0)%Z with false. change (1 <? 0)%Z with false. cbv iota. cbn [slice_start slice_stop]. unfold slice_bound.
  destruct (Z.ltb_spec (Z.of_nat a) 0); [lia|]. destruct (Z.ltb_spec (Z.of_nat a) 0); [lia|].
  destruct (Z.ltb_spec (Z.of_nat b) 0); [lia|]. destruct (Z.ltb_spec (Z.of_nat b) 0); [lia|].
  assert (EB : (if (Z.of_nat n <=? Z.of_nat b)%Z then Z.of_nat n else Z.of_nat b) = Z.of_nat b)
    by (destruct (Z.leb_spec (Z.of_nat n) (Z.of_nat b)); lia).
  rewrite EB. f_equal. destruct (Z.leb_spec (Z.of_nat n) (Z.of_nat a)).
  - destruct (Z.leb_spec (Z.of_nat b) (Z.of_nat n)); [|lia]. replace (b - a) with 0 by lia. reflexivity.
  - destruct (Z.leb_spec (Z.of_nat b) (Z.of_nat a)).
    + replace (b - a) with 0 by lia. reflexivity.
    + rewrite Z.div_1_r. replace (Z.to_nat (Z.of_nat b - Z.of_nat a - 1 + 1)) with (b - a) by lia. apply map_to_nat.
Qed.
Theorem C83_slice_all : forall n, slice_list n None None None = Ok (seq 0 n).
Proof.
  intros n. unfold slice_list, slice_step. change (1 =? 0)%Z with false. change (1 <? 0)%Z with false. cbv iota.
  cbn [slice_start slice_stop]. f_equal. destruct (Z.leb_spec (Z.of_nat n) 0).
  - replace n with 0 by lia. reflexivity.
  - rewrite Z.div_1_r. replace (Z.to_nat (Z.of_nat n - 0 - 1 + 1)) with n by lia. apply (map_to_nat n 0).
Qed.
Lemma ix_list_lt : forall n ix l i, ix_list n ix = Ok l -> In i l -> i < n.
Proof.
  intros n [z|a b c] l i H Hi; cbn in H.
  - destruct (pyindex n z) as [k|] eqn:E; [|discriminate]. injection H as <-. destruct Hi as [<-|[]].
    now apply pyindex_lt in E.
  - destruct (C83_slice_indices n a b c) as [H0 H1]. destruct (Z.eq_dec (slice_step c) 0) as [E|E].
    + rewrite (H0 E) in H. discriminate.
    + destruct (H1 E) as (l' & E' & _ & L & _). rewrite E' in H. injection H as <-. auto.
Qed.
Lemma mem_in : forall i l, mem i l = true <-> In i l.
Proof.
  intros i l. unfold mem. rewrite existsb_exists. split.
  - intros (x & Hx & E). apply Nat.eqb_eq in E. now subst.
  - intros H. exists i. split; auto. apply Nat.eqb_refl.
Qed.
Lemma mapi_tab : forall A B (f : nat -> A -> B) n (g : nat -> A), mapi f (tab n g) = tab n (fun i => f i (g i)).
Proof.
  intros A B f n g. unfold mapi. rewrite tab_length.
  assert (H : forall c m (h : nat -> A), map (fun p => f (fst p) (snd p)) (combine (seq c m) (tab m h)) = tab m (fun i => f (c + i) (h i))).
  { intros c m. revert c. induction m; intros c h; cbn [seq tab combine map fst snd]; auto.
    rewrite IHm, Nat.add_0_r. f_equal. clear IHm. revert h. generalize m. intros k h.
    assert (TE : forall k (u v : nat -> B), (forall i, u i = v i) -> tab k u = tab k v).
    { clear. induction k; intros u v E; cbn; auto. rewrite E. f_equal. now apply IHk. }
    apply TE. intros i. now rewrite Nat.add_succ_r. }
  apply (H 0 n g).
Qed.
(** stored at every place of is x js *)
Definition updm {A} (f : nat -> nat -> A) (is js : list nat) (v : A) : nat -> nat -> A :=
  fun k l => if mem k is && mem l js then v else f k l.

Section P.
Context {F : Fld} (FOK : FldOK F).
Notation st := (st F). Notation obj := (obj F). Notation M := (M F). Notation arr := (arr F).
Notation map1 := (list F -> list F).

(** what a block operator holds *)
Definition holds (s : st) (K : addr) (nr nc : nat) (A : nat -> nat -> addr) : Prop :=
  exists o b bT bH, objs s K = Some o /\ o_pay o = PBlk b bT bH /\ grid s b nr nc A.
Lemma holds_blocks : forall (s : st) K nr nc A, holds s K nr nc A -> blk_blocks K s = (s, Ok (cells nr nc A)).
Proof.
  intros s K nr nc A (o & b & bT & bH & Ho & Hp & Gr). unfold blk_blocks, get_blocks.
  erewrite bind_ok. 2: { erewrite bind_ok by (apply getattr_ok; exact Ho). rewrite Hp. reflexivity. }
  cbn [fst]. now apply grid_rows.
Qed.
Lemma holds_get : forall (s : st) K nr nc A iz jz, holds s K nr nc A ->
  blk_get K iz jz s = (s, match pyindex nr iz with Err e => Err e | Ok i =>
                          match pyindex nc jz with Err e => Err e | Ok j => Ok (Some (A i j)) end end).
Proof.
  intros s K nr nc A iz jz H. unfold blk_get. erewrite bind_ok by (apply holds_blocks; exact H).
  unfold cells. rewrite tab_length. destruct (pyindex nr iz) as [i|e] eqn:Ei; [|reflexivity].
  pose proof (pyindex_lt _ _ _ Ei) as Li. erewrite bind_ok by reflexivity.
  rewrite (nth_r_ok _ _ i []) by now rewrite tab_length. rewrite nth_tab by auto. erewrite bind_ok by reflexivity.
  rewrite tab_length. destruct (pyindex nc jz) as [j|e] eqn:Ej; [|reflexivity].
  pose proof (pyindex_lt _ _ _ Ej) as Lj. erewrite bind_ok by reflexivity.
  rewrite (nth_r_ok _ _ j None) by now rewrite tab_length. now rewrite nth_tab.
Qed.
Lemma holds_contains : forall (s : st) K nr nc A a, holds s K nr nc A ->
  exists r, blk_contains K a s = (s, Ok r) /\ (r = true <-> exists i j, i < nr /\ j < nc /\ A i j = a).
Proof.
  intros s K nr nc A a H. unfold blk_contains. erewrite bind_ok by (apply holds_blocks; exact H).
  eexists. split; [reflexivity|]. rewrite existsb_exists. split.
  - intros (e & He & E). apply in_concat in He. destruct He as (row & Hr & He).
    unfold cells in Hr. apply (In_nth _ _ []) in Hr. destruct Hr as (i & Hi & <-). rewrite tab_length in Hi.
    rewrite nth_tab in He by auto. apply (In_nth _ _ None) in He. destruct He as (j & Hj & <-). rewrite tab_length in Hj.
    rewrite nth_tab in E by auto. cbn in E. apply Nat.eqb_eq in E. eauto.
  - intros (i & j & Hi & Hj & E). exists (Some (A i j)). split.
    + apply in_concat. exists (tab nc (fun j => Some (A i j))). split.
      * unfold cells. rewrite <- (nth_tab _ nr (fun i => tab nc (fun j => Some (A i j))) i []) by auto. apply nth_In. now rewrite tab_length.
      * rewrite <- (nth_tab _ nc (fun j => Some (A i j)) j None) by auto. apply nth_In. now rewrite tab_length.
    + cbn. subst. apply Nat.eqb_refl.
Qed.
(** the list of lists built for a slice *)
Lemma holds_sub : forall (s : st) K nr nc A ri ci is js, holds s K nr nc A -> wfst s -> 0 < nr ->
  ix_list nr ri = Ok is -> ix_list nc ci = Ok js ->
  exists s1 rs, blk_sub K ri ci s = block_op false false rs s1 /\ ext s s1 /\ wfst s1 /\ objs s1 = objs s /\ nxt s1 = nxt s /\
    grid s1 rs (length is) (length js) (fun a b => A (nth a is 0) (nth b js 0)).
Proof.
  intros s K nr nc A ri ci is js H W L0 Hi Hj.
  unfold blk_sub. 
  set (A' := fun a b => A (nth a is 0) (nth b js 0)).
  destruct (mmap_new (list (option addr)) (length is) (fun k => tab (length js) (fun l => Some (A' k l)))
    (fun k => tab (length js) (fun l => Some (A' k l))) new_row s W) as (s1 & E1 & X1 & W1 & O1 & N1 & R1); [reflexivity|].
  exists s1, (seq (nrow s) (length is)). split.
  - erewrite bind_ok by (apply holds_blocks; exact H).
    unfold cells at 1. rewrite tab_length, Hi. erewrite bind_ok by reflexivity.
    assert (LR : length (hd [] (cells nr nc A)) = nc).
    { unfold cells. destruct nr; [lia|]. cbn. apply tab_length. }
    rewrite LR, Hj. erewrite bind_ok by reflexivity.
    erewrite bind_ok.
    2: { apply (mmap_list _ _ 0) with (h := fun k => tab (length js) (fun l => Some (A' k l))). intros k Hk.
         assert (Lk : nth k is 0 < nr) by (eapply ix_list_lt; [exact Hi|now apply nth_In]).
         rewrite (nth_r_ok _ _ (nth k is 0) []) by (unfold cells; now rewrite tab_length).
         unfold cells. rewrite nth_tab by auto. erewrite bind_ok by reflexivity.
         apply (mmap_list _ _ 0). intros l Hl.
         assert (Ll : nth l js 0 < nc) by (eapply ix_list_lt; [exact Hj|now apply nth_In]).
         unfold lift. rewrite (nth_r_ok _ _ (nth l js 0) None) by now rewrite tab_length. now rewrite nth_tab. }
    erewrite bind_ok by exact E1. reflexivity.
  - split; auto. split; auto. split; auto. split; auto. now apply seq_grid.
Qed.
Lemma holds_setitem : forall (s : st) K nr nc A ri ci is js B, holds s K nr nc A -> 0 < nr ->
  ix_list nr ri = Ok is -> ix_list nc ci = Ok js ->
  blk_setitem K ri ci B s = blk_store K (cells nr nc (updm A is js B)) s.
Proof.
  intros s K nr nc A ri ci is js B H L0 Hi Hj. unfold blk_setitem.
  erewrite bind_ok by (apply holds_blocks; exact H).
  unfold cells at 1. rewrite tab_length, Hi. erewrite bind_ok by reflexivity.
  assert (LR : length (hd [] (cells nr nc A)) = nc) by (unfold cells; destruct nr; [lia|]; apply tab_length).
  rewrite LR, Hj. erewrite bind_ok by reflexivity. f_equal. unfold cells.
  rewrite mapi_tab.
  assert (TE : forall k (u v : nat -> list (option addr)), (forall i, u i = v i) -> tab k u = tab k v).
  { clear. induction k; intros u v E; cbn; auto. rewrite E. f_equal. now apply IHk. }
  apply TE. intros k. rewrite mapi_tab.
  assert (TE' : forall k (u v : nat -> option addr), (forall i, u i = v i) -> tab k u = tab k v).
  { clear. induction k; intros u v E; cbn; auto. rewrite E. f_equal. now apply IHk. }
  apply TE'. intros l. unfold updm. now destruct (mem k is && mem l js).
Qed.
(** with two integers, the assignment is the one of C24 *)
Theorem C83_set_int : forall (s : st) K nr nc A iz jz B i j, holds s K nr nc A ->
  pyindex nr iz = Ok i -> pyindex nc jz = Ok j -> blk_setitem K (IxInt iz) (IxInt jz) B s = blk_set K iz jz B s.
Proof.
  intros s K nr nc A iz jz B i j H Pi Pj. pose proof (pyindex_lt _ _ _ Pi) as Li.
  rewrite (holds_setitem s K nr nc A (IxInt iz) (IxInt jz) [i] [j] B H); [|lia|cbn; now rewrite Pi|cbn; now rewrite Pj].
  destruct H as (o & b & bT & bH & Ho & Hp & Gr).
  rewrite (blk_set_store s K o b bT bH nr nc A i j iz jz B Ho Hp Gr Pi Pj).
  f_equal. unfold updm, upd2, mem, existsb. unfold cells.
  assert (TE : forall X k (u v : nat -> X), (forall i, u i = v i) -> tab k u = tab k v).
  { clear. induction k; intros u v E; cbn; auto. rewrite E. f_equal. now apply IHk. }
  apply TE. intros k. apply TE. intros l. now rewrite !orb_false_r.
Qed.

(** ** Histories of assignments K[ri,ci] = B, interleaved with anything that only adds objects or counts
    products; [A]: the operators the blocks are, [G]: the maps they compute *)
Inductive puts (K : addr) (hs ws : list nat) (dt : dtype) :
  st -> (nat -> nat -> addr) -> (nat -> nat -> map1) -> st -> (nat -> nat -> addr) -> (nat -> nat -> map1) -> Prop :=
| pt_nil : forall (s : st) A G, puts K hs ws dt s A G s A G
| pt_other : forall (s s1 s2 : st) A G A2 G2, ext s s1 -> wfst s1 -> nxt s <= nxt s1 ->
    puts K hs ws dt s1 A G s2 A2 G2 -> puts K hs ws dt s A G s2 A2 G2
| pt_set : forall (s s1 s2 : st) A G A2 G2 ri ci is js B dB g,
    ix_list (length hs) ri = Ok is -> ix_list (length ws) ci = Ok js ->
    (forall i j, In i is -> In j js -> GoodD (drop K s) B (nth j ws 0) (nth i hs 0) dB g) ->
    (is_complex dB = true -> is_complex dt = true) ->
    blk_setitem K ri ci B s = (s1, Ok tt) ->
    puts K hs ws dt s1 (updm A is js B) (updm G is js g) s2 A2 G2 -> puts K hs ws dt s A G s2 A2 G2.

Lemma blkinv_holds : forall (s : st) K hs ws dt A dts G, blkinv s K hs ws dt A dts G ->
  holds s K (length hs) (length ws) A /\ 0 < length hs.
Proof.
  intros s K hs ws dt A dts G BI. destruct (bi_obj _ _ _ _ _ _ _ _ BI) as (o & b & bT & bH & AT & AH & Ho & Hp & Gr & _).
  split; [exists o, b, bT, bH; auto|]. pose proof (bi_nh _ _ _ _ _ _ _ _ BI). destruct hs; [congruence|cbn; lia].
Qed.
Lemma setitem_inv : forall (s : st) K hs ws dt A dts G ri ci is js B dB g,
  blkinv s K hs ws dt A dts G -> wfst s -> K < nxt s ->
  ix_list (length hs) ri = Ok is -> ix_list (length ws) ci = Ok js ->
  (forall i j, In i is -> In j js -> GoodD (drop K s) B (nth j ws 0) (nth i hs 0) dB g) ->
  (is_complex dB = true -> is_complex dt = true) ->
  exists s', blk_setitem K ri ci B s = (s', Ok tt) /\ wfst s' /\ nxt s' = nxt s /\ ext (drop K s) (drop K s') /\
    blkinv s' K hs ws dt (updm A is js B) (updm dts is js dB) (updm G is js g).
Proof.
  intros s K hs ws dt A dts G ri ci is js B dB g BI W LK Hi Hj GB CB.
  destruct (blkinv_holds _ _ _ _ _ _ _ _ BI) as [HH L0].
  rewrite (holds_setitem s K _ _ A ri ci is js B HH L0 Hi Hj).
  apply (blk_store_inv s K hs ws dt A dts G); auto.
  - intros k l Hk Hl. unfold updm. destruct (mem k is) eqn:Ek; cbn [andb]; [|now apply (bi_good _ _ _ _ _ _ _ _ BI)].
    destruct (mem l js) eqn:El; [|now apply (bi_good _ _ _ _ _ _ _ _ BI)]. apply mem_in in Ek, El. auto.
  - intros k l Hk Hl. unfold updm. destruct (mem k is && mem l js); [exact CB|now apply (bi_dt _ _ _ _ _ _ _ _ BI)].
Qed.
Lemma puts_inv : forall K hs ws dt (s : st) A G s2 A2 G2, puts K hs ws dt s A G s2 A2 G2 -> wfst s -> K < nxt s ->
  (exists dts, blkinv s K hs ws dt A dts G) ->
  wfst s2 /\ K < nxt s2 /\ nxt s <= nxt s2 /\ ext (drop K s) (drop K s2) /\ exists dts, blkinv s2 K hs ws dt A2 dts G2.
Proof.
  intros K hs ws dt s A G s2 A2 G2 H.
  induction H as [s A G|s s1 s2 A G A2 G2 X W1 Ln H IH|s s1 s2 A G A2 G2 ri ci is js B dB g Hi Hj GB CB E H IH];
    intros W LK (dts & BI).
  - split; auto. split; auto. split; auto. split; [apply ext_refl|]. eauto.
  - destruct IH as (W2 & L2 & Ln2 & X2 & BI2); auto; [lia|exists dts; eapply blkinv_ext; eauto|].
    split; auto. split; auto. split; [lia|]. split; auto. eapply ext_trans; [apply ext_drops; exact X|exact X2].
  - destruct (setitem_inv s K hs ws dt A dts G ri ci is js B dB g BI W LK Hi Hj GB CB) as (s' & E' & W' & N' & X' & BI').
    rewrite E in E'. injection E' as <-. destruct IH as (W2 & L2 & Ln2 & X2 & BI2); auto; [lia|eauto|].
    split; auto. split; auto. split; [lia|]. split; auto. eapply ext_trans; [exact X'|exact X2].
Qed.

(** an operator kept apart from K: nothing in it depends on K *)
Lemma desc_apart : forall (s : st) K o K' n m dt, objs s K = Some o -> o_mv o = CBlk WN K -> K' <> K ->
  desc s K' n m (CBlk WN K') (Some (CBlk WT K')) (Some (CBlk WH K')) false false dt ->
  desc (drop K s) K' n m (CBlk WN K') (Some (CBlk WT K')) (Some (CBlk WH K')) false false dt.
Proof.
  intros s K o K' n m dt Ho Hm Ne D.
  assert (HH : forall a n m sy he dt c T H, c <> CBlk WN K -> has s a n m sy he dt c T H -> has (drop K s) a n m sy he dt c T H).
  { intros a n0 m0 sy he dt0 c T H Nc (oa & Ha & R). exists oa. split; auto. rewrite drop_objs; auto.
    intros ->. rewrite Ho in Ha. injection Ha as <-. apply Nc. rewrite <- Hm. symmetry. apply R. }
  unfold desc in *. destruct (is_complex dt).
  - destruct D as (t & h & q & H1 & H2 & H3 & H4 & H5). exists t, h, q.
    split; [apply HH; [congruence|exact H1]|]. split; [apply HH; [congruence|exact H2]|].
    split; [apply HH; [congruence|exact H3]|]. split; [apply HH; [congruence|exact H4]|exact H5].
  - destruct D as (t & h & H1 & H2 & H3 & H5). exists t, h.
    split; [apply HH; [congruence|exact H1]|]. split; [apply HH; [congruence|exact H2]|].
    split; [apply HH; [congruence|exact H3]|exact H5].
Qed.
Lemma blkinv_apart : forall (s0 s : st) K o K' hs ws dt A dts G, objs s K = Some o -> o_mv o = CBlk WN K -> K' <> K ->
  ext (drop K s0) (drop K' (drop K s)) ->
  (forall i j, i < length hs -> j < length ws -> GoodD (drop K s0) (A i j) (nth j ws 0) (nth i hs 0) (dts i j) (G i j)) ->
  blkinv s K' hs ws dt A dts G -> blkinv (drop K s) K' hs ws dt A dts G.
Proof.
  intros s0 s K o K' hs ws dt A dts G Ho Hm Ne X HG
    [Nh Nw D (o' & b & bT & bH & AT & AH & Ho' & Hp & GN & GrT & GrH & TT & TH) HG' HC].
  assert (Xs : ext (drop K' (drop K s)) (drop K' s)) by (apply ext_drops, ext_drop).
  destruct (fam_T _ _ _ _ _ _ HG) as (AT' & GT & TT' & _).
  destruct (fam_H _ _ _ _ _ _ HG) as (AH' & GH & TH' & _).
  constructor; auto.
  - eapply desc_apart; eauto.
  - exists o', b, bT, bH, AT, AH. split; [rewrite drop_objs; auto|]. split; auto. split; auto. split; auto. split; auto.
    split; intros i j Hi Hj.
    + replace (AT j i) with (AT' j i).
      * eapply wtgt_mono; [exact X|auto].
      * eapply wtgt_fun; [eapply wtgt_mono; [eapply ext_trans; [exact X|exact Xs]|apply TT'; auto]|auto].
    + replace (AH j i) with (AH' j i).
      * eapply wtgt_mono; [exact X|auto].
      * eapply wtgt_fun; [eapply wtgt_mono; [eapply ext_trans; [exact X|exact Xs]|apply TH'; auto]|auto].
  - intros. eapply GoodD_mono; [exact X|auto].
Qed.

Definition submap (G : nat -> nat -> map1) (is js : list nat) : nat -> nat -> map1 := fun a b => G (nth a is 0) (nth b js 0).
Lemma blkinv_yields : forall (s : st) K hs ws dt A dts G, blkinv s K hs ws dt A dts G ->
  yields s K (sum_nat ws) (sum_nat hs) dt (blkmap hs ws G) /\ duals s K (sum_nat ws) (sum_nat hs) dt (blkmap hs ws G).
Proof.
  intros s K hs ws dt A dts G BI. pose proof (blkinv_good FOK _ _ _ _ _ _ _ _ BI) as GK.
  split; [eapply yields_ext; [|apply yields_good; exact GK]; intros; apply bmap_spec|].
  eapply duals_ext; [|apply duals_good; exact GK]; intros; apply bmap_spec.
Qed.
(** the sub-operator, from blocks that do not depend on K *)
Lemma sub_inv : forall (s : st) K hs ws A dts (G : nat -> nat -> map1) ri ci is js, holds s K (length hs) (length ws) A -> wfst s ->
  (forall i j, i < length hs -> j < length ws -> GoodD (drop K s) (A i j) (nth j ws 0) (nth i hs 0) (dts i j) (G i j)) ->
  ix_list (length hs) ri = Ok is -> ix_list (length ws) ci = Ok js -> is <> [] -> js <> [] ->
  exists s' K' dt', blk_sub K ri ci s = (s', Ok K') /\ ext s s' /\ wfst s' /\ K' = nxt s /\ K' < nxt s' /\
    blkinv s' K' (pick hs is) (pick ws js) dt' (fun a b => A (nth a is 0) (nth b js 0)) (fun a b => dts (nth a is 0) (nth b js 0)) (submap G is js).
Proof.
  intros s K hs ws A dts G ri ci is js HH W HG Hi Hj Ni Nj.
  assert (L0 : 0 < length hs).
  { destruct is as [|i is]; [congruence|]. pose proof (ix_list_lt _ _ _ i Hi ltac:(now left)). lia. }
  destruct (holds_sub s K _ _ A ri ci is js HH W L0 Hi Hj) as (s1 & rs & E & X1 & W1 & O1 & N1 & Gr).
  set (A' := fun a b => A (nth a is 0) (nth b js 0)) in *. set (dts' := fun a b => dts (nth a is 0) (nth b js 0)).
  assert (HG' : forall a b, a < length (pick hs is) -> b < length (pick ws js) ->
    GoodD s1 (A' a b) (nth b (pick ws js) 0) (nth a (pick hs is) 0) (dts' a b) (submap G is js a b)).
  { intros a b Ha Hb. rewrite pick_length in Ha, Hb. rewrite !nth_pick by auto.
    eapply GoodD_mono; [eapply ext_trans; [apply ext_drop|exact X1]|].
    apply HG; [eapply ix_list_lt; [exact Hi|now apply nth_In]|eapply ix_list_lt; [exact Hj|now apply nth_In]]. }
  assert (Np : forall l is, is <> [] -> pick l is <> []) by (intros l [|i l'] N; [congruence|discriminate]).
  destruct (dtypes_some (length (pick hs is)) (length (pick ws js)) dts') as [dt Hdt].
  { rewrite pick_length. destruct is; [congruence|cbn; lia]. }
  { rewrite pick_length. destruct js; [congruence|cbn; lia]. }
  destruct (block_op_inv s1 rs (pick hs is) (pick ws js) A' dts' (submap G is js) dt W1) as (s' & E' & X' & W' & L' & BI); auto.
  { now rewrite !pick_length. }
  exists s', (nxt s), dt. rewrite E, E', N1. rewrite N1 in BI, L'.
  split; [reflexivity|]. split; [eapply ext_trans; eauto|]. auto.
Qed.

(** ** K[i,j], [in], iteration, after any history *)
Theorem C83_index : forall (s : st) rs hs ws A dts G, wfst s -> hs <> [] -> ws <> [] ->
  grid s rs (length hs) (length ws) A ->
  (forall i j, i < length hs -> j < length ws -> GoodD s (A i j) (nth j ws 0) (nth i hs 0) (dts i j) (G i j)) ->
  exists s1 K dt, block_op false false rs s = (s1, Ok K) /\
    forall s2 A2 G2, puts K hs ws dt s1 A G s2 A2 G2 ->
      yields s2 K (sum_nat ws) (sum_nat hs) dt (blkmap hs ws G2) /\
      duals s2 K (sum_nat ws) (sum_nat hs) dt (blkmap hs ws G2) /\
      (* the very object stored, or IndexError *)
      (forall iz jz, blk_getitem K (IxInt iz) (IxInt jz) s2 =
         (s2, match pyindex (length hs) iz, pyindex (length ws) jz with
              | Ok i, Ok j => Ok (Some (A2 i j)) | _, _ => Err IndexError end)) /\
      (forall a, exists r, blk_contains K a s2 = (s2, Ok r) /\
         (r = true <-> exists i j, i < length hs /\ j < length ws /\ A2 i j = a)) /\
      blk_blocks K s2 = (s2, Ok (tab (length hs) (fun i => tab (length ws) (fun j => Some (A2 i j))))) /\
      (* and the next assignment succeeds *)
      (forall ri ci is js B dB g, ix_list (length hs) ri = Ok is -> ix_list (length ws) ci = Ok js ->
         (forall i j, In i is -> In j js -> GoodD (drop K s2) B (nth j ws 0) (nth i hs 0) dB g) ->
         (is_complex dB = true -> is_complex dt = true) ->
         exists s3, blk_setitem K ri ci B s2 = (s3, Ok tt)).
Proof.
  intros s rs hs ws A dts G W Nh Nw Gr HG.
  destruct (dtypes_some (length hs) (length ws) dts) as [dt Hdt]; [destruct hs; [congruence|cbn; lia]|destruct ws; [congruence|cbn; lia]|].
  destruct (block_op_inv s rs hs ws A dts G dt W Nh Nw Gr HG Hdt) as (s1 & E & X & W1 & L1 & BI).
  exists s1, (nxt s), dt. split; auto. intros s2 A2 G2 H.
  destruct (puts_inv _ _ _ _ _ _ _ _ _ _ H W1 L1) as (W2 & L2 & _ & _ & dts2 & BI2); [eauto|].
  destruct (blkinv_holds _ _ _ _ _ _ _ _ BI2) as [HH L0]. destruct (blkinv_yields _ _ _ _ _ _ _ _ BI2) as [Y1 Y2].
  split; auto. split; auto. split.
  { intros iz jz. cbn [blk_getitem]. rewrite (holds_get _ _ _ _ _ iz jz HH).
    pose proof (C24_pyindex (length hs) iz) as P1. pose proof (C24_pyindex (length ws) jz) as P2.
    destruct (pyindex (length hs) iz); [destruct (pyindex (length ws) jz); [reflexivity|]|]; f_equal; f_equal; tauto. }
  split; [intros a; now apply holds_contains|]. split; [now apply holds_blocks|].
  intros ri ci is js B dB g Hi Hj GB CB.
  destruct (setitem_inv s2 (nxt s) hs ws dt A2 dts2 G2 ri ci is js B dB g BI2 W2 L2 Hi Hj GB CB) as (s3 & E3 & _). eauto.
Qed.

(** ** K[i:j,k:l]: a new operator on the selected blocks, independent of K ever after *)
Definition sliced (ri ci : pyix) : Prop := forall i j, ~ (ri = IxInt i /\ ci = IxInt j).
Lemma getitem_sub : forall K ri ci (s : st), sliced ri ci ->
  blk_getitem K ri ci s = (let (s1, r) := blk_sub K ri ci s in (s1, match r with Ok a => Ok (Some a) | Err e => Err e end)).
Proof.
  intros K [i|a b c] [j|a' b' c'] s N; cbn [blk_getitem]; unfold bind;
    try (exfalso; eapply N; split; reflexivity); destruct (blk_sub _ _ _ s) as [s1 [v|e]]; reflexivity.
Qed.
Theorem C83_slice : forall (s : st) rs hs ws A dts G, wfst s -> hs <> [] -> ws <> [] ->
  grid s rs (length hs) (length ws) A ->
  (forall i j, i < length hs -> j < length ws -> GoodD s (A i j) (nth j ws 0) (nth i hs 0) (dts i j) (G i j)) ->
  exists s1 K dt, block_op false false rs s = (s1, Ok K) /\
    forall s2 A2 G2, puts K hs ws dt s1 A G s2 A2 G2 ->
    forall ri ci is js, sliced ri ci -> ix_list (length hs) ri = Ok is -> ix_list (length ws) ci = Ok js ->
      is <> [] -> js <> [] ->
      exists s3 K' dt', blk_getitem K ri ci s2 = (s3, Ok (Some K')) /\
        let A' := fun a b => A2 (nth a is 0) (nth b js 0) in
        let G' := fun a b => G2 (nth a is 0) (nth b js 0) in
        yields s3 K' (sum_nat (pick ws js)) (sum_nat (pick hs is)) dt' (blkmap (pick hs is) (pick ws js) G') /\
        duals s3 K' (sum_nat (pick ws js)) (sum_nat (pick hs is)) dt' (blkmap (pick hs is) (pick ws js) G') /\
        blk_blocks K' s3 = (s3, Ok (tab (length is) (fun a => tab (length js) (fun b => Some (A' a b))))) /\
        (* assignments to K do not reach the slice *)
        (forall s4 A4 G4, puts K hs ws dt s3 A2 G2 s4 A4 G4 ->
           yields s4 K (sum_nat ws) (sum_nat hs) dt (blkmap hs ws G4) /\
           yields s4 K' (sum_nat (pick ws js)) (sum_nat (pick hs is)) dt' (blkmap (pick hs is) (pick ws js) G')) /\
        (* nor do assignments to the slice reach K *)
        (forall s4 A4 G4, puts K' (pick hs is) (pick ws js) dt' s3 A' G' s4 A4 G4 ->
           yields s4 K' (sum_nat (pick ws js)) (sum_nat (pick hs is)) dt' (blkmap (pick hs is) (pick ws js) G4) /\
           yields s4 K (sum_nat ws) (sum_nat hs) dt (blkmap hs ws G2)).
Proof.
  intros s rs hs ws A dts G W Nh Nw Gr HG.
  destruct (dtypes_some (length hs) (length ws) dts) as [dt Hdt]; [destruct hs; [congruence|cbn; lia]|destruct ws; [congruence|cbn; lia]|].
  destruct (block_op_inv s rs hs ws A dts G dt W Nh Nw Gr HG Hdt) as (s1 & E & X & W1 & L1 & BI).
  exists s1, (nxt s), dt. split; auto. intros s2 A2 G2 H ri ci is js Sl Hi Hj Ni Nj.
  set (K := nxt s) in *.
  destruct (puts_inv _ _ _ _ _ _ _ _ _ _ H W1 L1) as (W2 & L2 & _ & _ & dts2 & BI2); [eauto|].
  destruct (blkinv_holds _ _ _ _ _ _ _ _ BI2) as [HH L0].
  destruct (sub_inv s2 K hs ws A2 dts2 G2 ri ci is js HH W2 (bi_good _ _ _ _ _ _ _ _ BI2) Hi Hj Ni Nj) as
    (s3 & K' & dt' & E3 & X3 & W3 & EK & L3 & BI').
  assert (Ne : K' <> K) by lia.
  exists s3, K', dt'. split; [rewrite getitem_sub by auto; now rewrite E3|]. cbv zeta.
  destruct (blkinv_yields _ _ _ _ _ _ _ _ BI') as [Y1 Y2]. split; auto. split; auto.
  split. { destruct (blkinv_holds _ _ _ _ _ _ _ _ BI') as [HH' _]. rewrite (holds_blocks _ _ _ _ _ HH'). now rewrite !pick_length. }
  assert (BI3 : blkinv s3 K hs ws dt A2 dts2 G2) by (eapply blkinv_ext; eauto).
  assert (F2 : objs s2 K' = None) by (apply (proj1 W2); lia).
  split.
  - intros s4 A4 G4 H4.
    destruct (puts_inv _ _ _ _ _ _ _ _ _ _ H4 W3) as (W4 & L4 & _ & X4 & dts4 & BI4); [lia|eauto|].
    split; [apply (blkinv_yields _ _ _ _ _ _ _ _ BI4)|].
    destruct (bi_obj _ _ _ _ _ _ _ _ BI3) as (o & _ & _ & _ & _ & _ & Ho & _).
    destruct (desc_self _ _ _ _ _ _ _ _ _ _ _ (bi_desc _ _ _ _ _ _ _ _ BI3) Ho) as (_ & _ & _ & _ & _ & Hm & _).
    assert (BA : blkinv (drop K s3) K' (pick hs is) (pick ws js) dt' (fun a b => A2 (nth a is 0) (nth b js 0))
              (fun a b => dts2 (nth a is 0) (nth b js 0)) (submap G2 is js)).
    { eapply (blkinv_apart s2); eauto.
      - apply ext_drop_fresh; [now apply ext_drops|]. rewrite drop_objs; auto.
      - intros a b Ha Hb. rewrite pick_length in Ha, Hb. rewrite !nth_pick by auto.
        apply (bi_good _ _ _ _ _ _ _ _ BI2); [eapply ix_list_lt; [exact Hi|now apply nth_In]|eapply ix_list_lt; [exact Hj|now apply nth_In]]. }
    eapply blkinv_yields. eapply blkinv_ext; [|exact BA]. eapply ext_trans; [exact X4|apply ext_drop].
  - intros s4 A4 G4 H4.
    destruct (puts_inv _ _ _ _ _ _ _ _ _ _ H4 W3) as (W4 & L4 & _ & X4 & dts4 & BI4); [lia|eauto|].
    split; [apply (blkinv_yields _ _ _ _ _ _ _ _ BI4)|].
    eapply blkinv_yields. eapply blkinv_ext; [|eapply blkinv_ext; [|exact BI2]].
    + eapply ext_trans; [exact X4|apply ext_drop].
    + now apply ext_drop_fresh.
Qed.
Lemma sub_errors : forall (s : st) K hs ws dt A dts G, blkinv s K hs ws dt A dts G -> wfst s ->
  forall ri ci, sliced ri ci ->
  match ix_list (length hs) ri, ix_list (length ws) ci with
  | Err e, _ => blk_getitem K ri ci s = (s, Err e)
  | Ok _, Err e => blk_getitem K ri ci s = (s, Err e)
  | Ok [], Ok _ => exists s', blk_getitem K ri ci s = (s', Err ValueError)
  | Ok (_ :: _), Ok [] => exists s', blk_getitem K ri ci s = (s', Err IndexError)
  | _, _ => True
  end.
Proof.
  intros s K hs ws dt A dts G BI W ri ci Sl. destruct (blkinv_holds _ _ _ _ _ _ _ _ BI) as [HH L0].
  rewrite getitem_sub by auto.
  assert (LR : length (hd [] (cells (length hs) (length ws) A)) = length ws).
  { unfold cells. destruct (length hs); [lia|]. cbn. apply tab_length. }
  destruct (ix_list (length hs) ri) as [is|e] eqn:Hi.
  2: { unfold blk_sub. erewrite bind_ok by (apply holds_blocks; exact HH). unfold cells at 1. rewrite tab_length, Hi. reflexivity. }
  destruct (ix_list (length ws) ci) as [js|e] eqn:Hj.
  2: { assert (E : blk_sub K ri ci s = (s, Err e)).
       { unfold blk_sub. erewrite bind_ok by (apply holds_blocks; exact HH). unfold cells at 1. rewrite tab_length, Hi.
         erewrite bind_ok by reflexivity. rewrite LR, Hj. reflexivity. }
       rewrite E. destruct is; reflexivity. }
  destruct (holds_sub s K _ _ A ri ci is js HH W L0 Hi Hj) as (s1 & rs & E & X1 & W1 & O1 & N1 & Gr). rewrite E.
  assert (ob : addr -> obj) by (intros _; exact (mkobj 0 0 false false DInt 0 (CUser (fun x => Ok x)) None None PNone)).
  destruct Gr as [Lr Hr]. destruct is as [|i is].
  - cbn in Lr. destruct rs; [|discriminate].
    destruct (C22_empty s1 [] [] ob) as [HE _]; [constructor|intros row a []|].
    destruct (HE eq_refl) as (s' & E'). exists s'. now rewrite E'.
  - destruct js as [|j js]; [|exact I].
    destruct (C22_empty s1 rs (map (fun _ => []) rs) ob) as [_ HE].
    + unfold layout. assert (HH' : forall l, (forall k, k < length l -> rows s1 (nth k l 0) = Some []) ->
        Forall2 (fun r row => rows s1 r = Some (map Some row)) l (map (fun _ => []) l)).
      { induction l as [|r l IH]; intros Hl; cbn; constructor.
        - apply (Hl 0). cbn. lia.
        - apply IH. intros k Hk. apply (Hl (S k)). cbn. lia. }
      apply HH'. intros k Hk. rewrite Lr in Hk. exact (Hr k Hk).
    + intros row a H1 H2. apply in_map_iff in H1. destruct H1 as (x & <- & _). destruct H2.
    + destruct rs as [|r rs]; [discriminate|]. destruct HE as (s' & E'); [now left|]. exists s'. now rewrite E'.
Qed.
(** an index out of range, a step 0 and an empty slice raise *)
Theorem C83_slice_errors : forall (s : st) rs hs ws A dts G, wfst s -> hs <> [] -> ws <> [] ->
  grid s rs (length hs) (length ws) A ->
  (forall i j, i < length hs -> j < length ws -> GoodD s (A i j) (nth j ws 0) (nth i hs 0) (dts i j) (G i j)) ->
  exists s1 K dt, block_op false false rs s = (s1, Ok K) /\
    forall s2 A2 G2, puts K hs ws dt s1 A G s2 A2 G2 ->
    forall ri ci, sliced ri ci ->
    match ix_list (length hs) ri, ix_list (length ws) ci with
    | Err e, _ => blk_getitem K ri ci s2 = (s2, Err e)
    | Ok _, Err e => blk_getitem K ri ci s2 = (s2, Err e)
    | Ok [], Ok _ => exists s3, blk_getitem K ri ci s2 = (s3, Err ValueError)
    | Ok (_ :: _), Ok [] => exists s3, blk_getitem K ri ci s2 = (s3, Err IndexError)
    | _, _ => True
    end.
Proof.
  intros s rs hs ws A dts G W Nh Nw Gr HG.
  destruct (dtypes_some (length hs) (length ws) dts) as [dt Hdt]; [destruct hs; [congruence|cbn; lia]|destruct ws; [congruence|cbn; lia]|].
  destruct (block_op_inv s rs hs ws A dts G dt W Nh Nw Gr HG Hdt) as (s1 & E & X & W1 & L1 & BI).
  exists s1, (nxt s), dt. split; auto. intros s2 A2 G2 H ri ci Sl.
  destruct (puts_inv _ _ _ _ _ _ _ _ _ _ H W1 L1) as (W2 & L2 & _ & _ & dts2 & BI2); [eauto|].
  now apply (sub_errors _ _ _ _ _ _ _ _ BI2 W2).
Qed.

(** ** Symmetric and hermitian operators *)
Inductive sputs (K : addr) (hs : list nat) (dt : dtype) : st -> (nat -> nat -> map1) -> st -> (nat -> nat -> map1) -> Prop :=
| sp_nil : forall (s : st) U, sputs K hs dt s U s U
| sp_other : forall (s s1 s2 : st) U U2, ext s s1 -> wfst s1 -> nxt s <= nxt s1 ->
    sputs K hs dt s1 U s2 U2 -> sputs K hs dt s U s2 U2
(* what falls below the diagonal does not matter *)
| sp_set : forall (s s1 s2 : st) U U2 ri ci is js B dB g,
    ix_list (length hs) ri = Ok is -> ix_list (length hs) ci = Ok js ->
    (forall i j, In i is -> In j js -> i <= j -> GoodD (drop K s) B (nth j hs 0) (nth i hs 0) dB g /\
       (is_complex dB = true -> is_complex dt = true)) ->
    blk_setitem K ri ci B s = (s1, Ok tt) ->
    sputs K hs dt s1 (updm U is js g) s2 U2 -> sputs K hs dt s U s2 U2.
Lemma syminv_holds : forall (s : st) K sym hs dt A dts G GO, syminv s K sym hs dt A dts G GO ->
  holds s K (length hs) (length hs) A /\ 0 < length hs.
Proof.
  intros s K sym hs dt A dts G GO SI. destruct (si_obj _ _ _ _ _ _ _ _ _ SI) as (o & b & bT & bH & Y & dY & Ho & Hp & Gr & _).
  split; [exists o, b, bT, bH; auto|]. pose proof (si_nh _ _ _ _ _ _ _ _ _ SI). destruct hs; [congruence|cbn; lia].
Qed.
Lemma setitem_sym : forall (s : st) K sym hs dt A dts G GO ri ci is js B dB g,
  syminv s K sym hs dt A dts G GO -> wfst s -> K < nxt s ->
  ix_list (length hs) ri = Ok is -> ix_list (length hs) ci = Ok js ->
  (forall i j, In i is -> In j js -> i <= j -> GoodD (drop K s) B (nth j hs 0) (nth i hs 0) dB g /\
     (is_complex dB = true -> is_complex dt = true)) ->
  exists s' A' dts' G', blk_setitem K ri ci B s = (s', Ok tt) /\ wfst s' /\ nxt s' = nxt s /\
    ext (drop K s) (drop K s') /\
    (forall k l, k <= l -> G' k l = updm G is js g k l) /\
    (forall k l, l < k -> k < length hs -> is_dual sym (nth k hs 0) (nth l hs 0) (G' l k) (G' k l)) /\
    (forall k l, k <= l -> A' k l = updm A is js B k l) /\
    (forall k l, l < k -> k < length hs -> wtgt (drop K s) (dw sym) (updm A is js B l k) (A' k l)) /\
    syminv s' K sym hs dt A' dts' G' GO.
Proof.
  intros s K sym hs dt A dts G GO ri ci is js B dB g SI W LK Hi Hj HB.
  destruct (syminv_holds _ _ _ _ _ _ _ _ _ SI) as [HH L0].
  rewrite (holds_setitem s K _ _ A ri ci is js B HH L0 Hi Hj).
  apply (blk_store_sym s K sym hs dt A dts G GO (updm A is js B) (updm dts is js dB) (updm G is js g)); auto;
    intros k l Hk Hl; unfold updm; (destruct (mem k is) eqn:Ek; cbn [andb];
      [destruct (mem l js) eqn:El; [apply mem_in in Ek, El; destruct (HB k l Ek El Hk); auto|]|]);
    try (apply (si_good _ _ _ _ _ _ _ _ _ SI); lia); apply (si_dt _ _ _ _ _ _ _ _ _ SI); lia.
Qed.
Lemma sputs_inv : forall sym K hs dt GO (s : st) U s2 U2, sputs K hs dt s U s2 U2 -> wfst s -> K < nxt s ->
  (exists A dts G, syminv s K sym hs dt A dts G GO /\ mirrored sym hs U G) ->
  wfst s2 /\ K < nxt s2 /\ exists A dts G, syminv s2 K sym hs dt A dts G GO /\ mirrored sym hs U2 G.
Proof.
  intros sym K hs dt GO s U s2 U2 H.
  induction H as [s U|s s1 s2 U U2 X W1 Ln H IH|s s1 s2 U U2 ri ci is js B dB g Hi Hj HB E H IH];
    intros W LK (A & dts & G & SI & M1 & M2).
  - split; auto. split; auto. exists A, dts, G. split; auto. split; auto.
  - apply IH; auto; [lia|]. exists A, dts, G. split; [eapply syminv_ext; eauto|split; auto].
  - destruct (setitem_sym s K sym hs dt A dts G GO ri ci is js B dB g SI W LK Hi Hj HB) as
      (s' & A' & dts' & G' & E' & W' & N' & _ & Up & Lo & _ & _ & SI').
    rewrite E in E'. injection E' as <-. apply IH; auto; [lia|]. exists A', dts', G'. split; auto. split.
    + intros k l Hkl Hl x Hx. rewrite Up by auto. unfold updm. destruct (_ && _); auto.
    + intros k l Hkl Hl. apply Lo; auto.
Qed.
Theorem C83_symmetric : forall sym (s : st) rs hs U dts g, wfst s -> hs <> [] -> length rs = length hs ->
  upper_rows s rs U ->
  (forall i j, i <= j -> j < length hs -> GoodD (norows rs s) (U i j) (nth j hs 0) (nth i hs 0) (dts i j) (g i j)) ->
  (forall i, i < length hs -> exists o, objs s (U i i) = Some o /\ flag sym o = true) ->
  exists s1 K dt, block_op sym (negb sym) rs s = (s1, Ok K) /\
    forall s2 g2, sputs K hs dt s1 g s2 g2 ->
      exists A2 G2, mirrored sym hs g2 G2 /\ attrD sym s2 K = Some K /\
        yields s2 K (sum_nat hs) (sum_nat hs) dt (blkmap hs hs G2) /\
        (* K[i,j] *)
        (forall iz jz, blk_getitem K (IxInt iz) (IxInt jz) s2 =
           (s2, match pyindex (length hs) iz, pyindex (length hs) jz with
                | Ok i, Ok j => Ok (Some (A2 i j)) | _, _ => Err IndexError end)) /\
        (forall i j, i < length hs -> j < length hs -> exists dtij, yields s2 (A2 i j) (nth j hs 0) (nth i hs 0) dtij (G2 i j)) /\
        (* slices: plain block operators *)
        (forall ri ci is js, sliced ri ci -> ix_list (length hs) ri = Ok is -> ix_list (length hs) ci = Ok js ->
           is <> [] -> js <> [] ->
           exists s3 K' dt', blk_getitem K ri ci s2 = (s3, Ok (Some K')) /\
             yields s3 K' (sum_nat (pick hs js)) (sum_nat (pick hs is)) dt'
               (blkmap (pick hs is) (pick hs js) (fun a b => G2 (nth a is 0) (nth b js 0))) /\
             duals s3 K' (sum_nat (pick hs js)) (sum_nat (pick hs is)) dt'
               (blkmap (pick hs is) (pick hs js) (fun a b => G2 (nth a is 0) (nth b js 0)))) /\
        (* the next assignment succeeds; on and above the diagonal K holds the object assigned, below it
           the transpose (adjoint) of the one above *)
        (forall ri ci is js B dB f, ix_list (length hs) ri = Ok is -> ix_list (length hs) ci = Ok js ->
           (forall i j, In i is -> In j js -> i <= j -> GoodD (drop K s2) B (nth j hs 0) (nth i hs 0) dB f /\
              (is_complex dB = true -> is_complex dt = true)) ->
           exists s3 A3, blk_setitem K ri ci B s2 = (s3, Ok tt) /\
             blk_blocks K s3 = (s3, Ok (tab (length hs) (fun i => tab (length hs) (fun j => Some (A3 i j))))) /\
             (forall i j, i <= j -> In i is -> In j js -> A3 i j = B) /\
             (forall i j, i <= j -> ~ (In i is /\ In j js) -> A3 i j = A2 i j) /\
             (forall i j, i < j -> j < length hs -> attrD sym s3 (A3 i j) = Some (A3 j i))).
Proof.
  intros sym s rs hs U dts g W N L UR HG FL.
  destruct (block_op_sym FOK sym s rs hs U dts g W N L UR HG FL) as
    (dt & s1 & UT & G & Hdt & E & X & W1 & L1 & HT & HR & H1 & H2 & GK & A & dA & GO & SI & HO).
  exists s1, (nxt s), dt. split; auto. intros s2 g2 HE. set (K := nxt s) in *.
  destruct (sputs_inv sym _ _ _ GO _ _ _ _ HE W1 L1) as (W2 & L2 & A2 & dts2 & G2 & SI2 & M2).
  { exists A, dA, G. split; auto. split; [intros i j Hij Hj x Hx; now rewrite H1|intros i j Hij Hj; apply H2; lia]. }
  destruct (syminv_holds _ _ _ _ _ _ _ _ _ SI2) as [HH L0].
  destruct (syminv_den FOK _ _ _ _ _ _ _ _ _ SI2) as (D2 & Hw & _).
  pose proof (desc_dts _ _ _ _ _ _ _ _ _ _ (si_desc _ _ _ _ _ _ _ _ _ SI2)) as DT.
  exists A2, G2. split; auto. split; [destruct sym; cbn [dw] in Hw; apply (att _ _ _ _ Hw)|].
  split; [eapply yields_ext; [|apply yields_den; [exact D2|now apply Dts_dt]]; intros; apply bmap_spec|].
  split.
  { intros iz jz. cbn [blk_getitem]. rewrite (holds_get _ _ _ _ _ iz jz HH).
    pose proof (C24_pyindex (length hs) iz) as P1. pose proof (C24_pyindex (length hs) jz) as P2.
    destruct (pyindex (length hs) iz); [destruct (pyindex (length hs) jz); [reflexivity|]|]; f_equal; f_equal; tauto. }
  split.
  { intros i j Hi Hj. exists (dts2 i j). apply yields_good. eapply GoodD_mono; [apply ext_drop|].
    now apply (si_good _ _ _ _ _ _ _ _ _ SI2). }
  split.
  { intros ri ci is js Sl Hi Hj Ni Nj.
    destruct (sub_inv s2 K hs hs A2 dts2 G2 ri ci is js HH W2 (si_good _ _ _ _ _ _ _ _ _ SI2) Hi Hj Ni Nj) as
      (s3 & K' & dt' & E3 & X3 & W3 & EK & L3 & BI').
    exists s3, K', dt'. split; [rewrite getitem_sub by auto; now rewrite E3|]. exact (blkinv_yields _ _ _ _ _ _ _ _ BI'). }
  intros ri ci is js B dB f Hi Hj HB.
  destruct (setitem_sym s2 K sym hs dt A2 dts2 G2 GO ri ci is js B dB f SI2 W2 L2 Hi Hj HB) as
    (s3 & A3 & dts3 & G3 & E3 & W3 & N3 & X3 & _ & _ & Up & Lo & SI3).
  exists s3, A3. split; auto. destruct (syminv_holds _ _ _ _ _ _ _ _ _ SI3) as [HH3 _].
  split; [now apply holds_blocks|].
  split. { intros i j Hij Ii Ij. rewrite Up by auto. unfold updm. apply mem_in in Ii, Ij. now rewrite Ii, Ij. }
  split. { intros i j Hij Nn. rewrite Up by auto. unfold updm. destruct (mem i is) eqn:Ei, (mem j js) eqn:Ej; cbn [andb]; auto.
           apply mem_in in Ei, Ej. tauto. }
  intros i j Hij Hj'. rewrite (Up i j) by lia.
  assert (Hw3 : wtgt s3 (dw sym) (updm A2 is js B i j) (A3 j i)).
  { eapply wtgt_mono; [|apply Lo; lia]. eapply ext_trans; [exact X3|apply ext_drop]. }
  destruct sym; cbn [dw] in Hw3; apply (att _ _ _ _ Hw3).
Qed.
End P.

(** ** Instances *)
Section Ex.
Local Opaque sD aA aB aC aD aE obD.
(** C83: [[A, B], [C, C]], then K[0,:] = B *)
Definition all_of : pyix := IxSlice None None None.
Example ex_C83 : exists s1 K s2 A2 (G2 : nat -> nat -> list FQI -> list FQI),
  grid sG [0; 1] 2 2 R2 /\
  (forall i j, i < 2 -> j < 2 -> GoodD sG (R2 i j) (nth j [2; 2] 0) (nth i [2; 1] 0) (dt2 i j) (G2x i j)) /\
  block_op false false [0; 1] sG = (s1, Ok K) /\ puts K [2; 1] [2; 2] DComplex s1 R2 G2x s2 A2 G2 /\
  A2 0 0 = aB /\ A2 0 1 = aB /\ A2 1 0 = aC /\ sliced all_of (IxInt (-1)) /\
  ix_list 2 all_of = Ok [0; 1] /\ ix_list 2 (IxInt (-1)) = Ok [1] /\
  ix_list 2 (IxSlice (Some 1%Z) (Some 1%Z) None) = Ok [] /\ ix_list 2 (IxSlice None None (Some (-1)%Z)) = Ok [1; 0] /\
  ix_list 2 (IxSlice None None (Some 0%Z)) = Err ValueError.
Proof.
  assert (Gr : grid sG [0; 1] 2 2 R2) by (split; [reflexivity|]; intros [|[|i]] Hi; cbn in Hi; try lia; reflexivity).
  destruct heap as (_ & HA & HB & HC & _).
  assert (GG : forall i j, i < 2 -> j < 2 -> GoodD sG (R2 i j) (nth j [2; 2] 0) (nth i [2; 1] 0) (dt2 i j) (G2x i j)).
  { intros [|[|i]] [|[|j]] Hi Hj; cbn in Hi, Hj; try lia; (eapply GoodD_mono; [apply ext_wr0|]); assumption. }
  assert (N1 : [2; 1] <> []) by discriminate. assert (N2 : [2; 2] <> []) by discriminate.
  destruct (block_op_inv sG [0; 1] [2; 1] [2; 2] R2 dt2 G2x DComplex (wf_wr _) N1 N2 Gr GG eq_refl) as (s1 & E & X & W & L & BI).
  assert (GB : GoodD (drop (nxt sG) s1) aB 2 2 DFloat (mat_vec msym)).
  { eapply GoodD_mono; [|exact HB]. apply ext_wr_drop. exact X. }
  assert (GB' : forall i j, In i [0] -> In j [0; 1] -> GoodD (drop (nxt sG) s1) aB (nth j [2; 2] 0) (nth i [2; 1] 0) DFloat (mat_vec msym)).
  { intros i j [<-|[]] [<-|[<-|[]]]; exact GB. }
  destruct (setitem_inv s1 (nxt sG) [2; 1] [2; 2] DComplex _ _ _ (IxInt 0) all_of [0] [0; 1] aB DFloat _ BI W L eq_refl eq_refl GB')
    as (s2 & E2 & _); [discriminate|].
  exists s1, (nxt sG), s2, (updm R2 [0] [0; 1] aB), (updm G2x [0] [0; 1] (mat_vec msym)).
  split; auto. split; auto. split; [exact E|].
  split. { exact (pt_set _ [2; 1] [2; 2] DComplex s1 s2 s2 R2 G2x _ _ (IxInt 0) all_of [0] [0; 1] aB DFloat (mat_vec msym)
             eq_refl eq_refl GB' (fun _ => eq_refl) E2 (pt_nil _ _ _ _ s2 _ _)). }
  split; [reflexivity|]. split; [reflexivity|]. split; [reflexivity|]. split; [intros i j [C _]; discriminate C|].
  repeat split.
Qed.
(** the model run: K[0,:] = B, then K[::-1, -1:] * (1, i) is (C; B) * (1, i) *)
Example ex_C83_run : let r := block_op false false [0; 1] sG in let K := okv 99 r in
  let r2 := blk_setitem K (IxInt 0) all_of aB (fst r) in
  let r3 := blk_getitem K (IxSlice None None (Some (-1)%Z)) (IxSlice (Some (-1)%Z) None None) (fst r2) in
  match snd r3 with
  | Ok (Some K') => is_ok (apply 9 K' (@mkarr FQI DComplex [qi 1 0; qi 0 1]) (fst r3)) (@mkarr FQI DComplex [qi 4 5; qi 1 2; qi 2 3])
  | _ => false end = true.
Proof. vm_compute. reflexivity. Qed.
(** symmetric: [[B, A], [A.T, B]], then K[:,1] = B *)
Example ex_C83_sym : exists s1 K s2 (g2 : nat -> nat -> list FQI -> list FQI),
  block_op true false [0; 1] sU = (s1, Ok K) /\
  sputs K [2; 2] DComplex s1 (fun i j => if Nat.eqb i j then mat_vec msym else mat_vec m1) s2 g2 /\
  keqb (nth 0 (g2 0 1 [qi 0 0; qi 1 0]) k0) (qi 2 0) = true.
Proof.
  destruct (ex_sym true) as (W0 & UR & GU & FL). assert (N : [2; 2] <> []) by discriminate.
  destruct (block_op_sym FQI_OK true sU [0; 1] [2; 2] U2x _ _ W0 N eq_refl UR GU FL) as
    (dt & s1 & UT & G & Hdt & E & X & W & L & _ & _ & H1 & H2 & _ & A & dA & GO & SI & _).
  vm_compute in Hdt. injection Hdt as <-. destruct heap as (_ & HA & HB & HC & _).
  assert (GB : GoodD (drop (nxt sU) s1) aB 2 2 DFloat (mat_vec msym)).
  { eapply GoodD_mono; [|exact HB]. eapply ext_trans; [|apply ext_drops; exact X].
    apply ext_drop_fresh; [apply ext_wr|]. destruct heap as ((H & _) & _). apply H. cbn. lia. }
  assert (GB' : forall i j, In i [0; 1] -> In j [1] -> i <= j -> GoodD (drop (nxt sU) s1) aB (nth j [2; 2] 0) (nth i [2; 2] 0) DFloat (mat_vec msym) /\
    (is_complex DFloat = true -> is_complex DComplex = true)).
  { intros i j [<-|[<-|[]]] [<-|[]] _; (split; [exact GB|discriminate]). }
  destruct (setitem_sym s1 (nxt sU) true [2; 2] DComplex A dA G GO all_of (IxInt 1) [0; 1] [1] aB DFloat (mat_vec msym) SI W L eq_refl eq_refl GB') as
    (s2 & A2 & dA2 & G2 & E2 & _).
  exists s1, (nxt sU), s2, (updm (fun i j => if Nat.eqb i j then mat_vec msym else mat_vec m1) [0; 1] [1] (mat_vec msym)).
  split; [exact E|].
  split. { exact (sp_set _ [2; 2] DComplex s1 s2 s2 _ _ all_of (IxInt 1) [0; 1] [1] aB DFloat (mat_vec msym)
             eq_refl eq_refl GB' E2 (sp_nil _ _ _ s2 _)). }
  vm_compute. reflexivity.
Qed.
End Ex.

Print Assumptions C83_slice_indices.
Print Assumptions C83_index.
Print Assumptions C83_slice.
Print Assumptions C83_slice_errors.
Print Assumptions C83_symmetric.
