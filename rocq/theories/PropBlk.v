(** * Properties C20-C27: block operators (pykrylov/linop/blkop.py).

    Vocabulary (besides that of PropLinop.v):
    - [slice ws j x]: the j-th piece of x when it is cut into pieces of sizes ws;
    - [blkmap hs ws G x], [diagmap ws g x] (BlkSpec.v): concatenation over i of the sums over j of
      G i j (slice ws j x), resp. of the g i (slice ws i x);
    - [grid s rs nr nc A]: the lists rs of the heap hold the nr x nc blocks A i j;
    - [upper_rows s rs U]: list i holds U i i, ..., U i (n-1);
    - [layout s rs R], [alive s R ob]: the lists rs hold the operators R, whose attributes are ob;
    - [drop K s], [norows rs s]: the heap s without the object K, without the lists rs. A block good in
      such a heap depends neither on K nor on these lists. *)
From Coq Require Import List ZArith Lia Bool.
From Verif Require Import Base Field Vec LinopModel LinopFrame LinopGood LinopInit LinopDep LinopAlg
  LinopOps LinopPtr LinopExtra LinopUser LinopBase LinopMat Cplx PropLinop
  BlkSpec BlkModel BlkProof BlkSet BlkSym BlkErr BlkSymErr BlkDiag BlkDiagOps.
Import ListNotations.

Section P.
Context {F : Fld} (FOK : FldOK F).
Notation st := (st F). Notation obj := (obj F). Notation M := (M F). Notation arr := (arr F).
Notation map1 := (list F -> list F).

Lemma yields_ext : forall (s : st) a n m dt (f g : map1), (forall x, length x = n -> f x = g x) ->
  yields s a n m dt f -> yields s a n m dt g.
Proof.
  intros s a n m dt f g E (H1 & H2 & d & H3). split; auto. split; [intros; rewrite <- E; auto|].
  exists d. intros d' s2 x Hd X Hx Hs. destruct (H3 d' s2 x Hd X Hx Hs) as (s3 & H). exists s3. now rewrite <- E.
Qed.
Lemma att : forall w (s : st) a t, wtgt s w a t -> match w with WN => True | WT => attrT s a = Some t | WH => attrH s a = Some t end.
Proof. intros w s a t H. destruct w; auto; destruct H as (o & Ho & Ht); unfold attrT, attrH; now rewrite Ho. Qed.
Lemma famlin_good : forall (s : st) hs ws A dts (G : nat -> nat -> map1),
  (forall i j, i < length hs -> j < length ws -> GoodD s (A i j) (nth j ws 0) (nth i hs 0) (dts i j) (G i j)) -> famlin hs ws G.
Proof.
  intros s hs ws A dts G H i j Hi Hj. destruct (H i j Hi Hj) as (G1 & _).
  apply (denotes_lin _ _ _ _ _ (Good_den _ _ _ _ _ G1)).
Qed.
(** the two duals of an operator all of whose pointers are right *)
Definition duals (s : st) (K : addr) (n m : nat) (dt : dtype) (f : map1) : Prop :=
  exists t h fT fH, attrT s K = Some t /\ attrH s K = Some h /\ yields s t m n dt fT /\ yields s h m n dt fH /\
    (forall x y, length x = n -> length y = m -> dot y (f x) = dot (fT y) x) /\
    (forall x y, length x = n -> length y = m -> dot (vconj y) (f x) = dot (vconj (fH y)) x).
Lemma duals_good : forall (s : st) a n m dt f, GoodD s a n m dt f -> duals s a n m dt f.
Proof.
  intros s a n m dt f (G & D & Ac).
  destruct (Good_T _ _ _ _ _ G) as (t & fT & Wt & Gt & Tr). destruct (Good_H _ _ _ _ _ G) as (h & fH & Wh & Gh & Ad).
  exists t, h, fT, fH. split; [apply (att WT _ _ _ Wt)|]. split; [apply (att WH _ _ _ Wh)|].
  split; [apply yields_den; [now apply Good_den|eapply Dts_dt, Dts_w; eauto]|].
  split; [apply yields_den; [now apply Good_den|eapply Dts_dt, Dts_w; eauto]|]. auto.
Qed.
Lemma duals_ext : forall (s : st) a n m dt (f g : map1), (forall x, length x = n -> f x = g x) ->
  duals s a n m dt f -> duals s a n m dt g.
Proof.
  intros s a n m dt f g E (t & h & fT & fH & H1 & H2 & H3 & H4 & H5 & H6). exists t, h, fT, fH.
  split; auto. split; auto. split; auto. split; auto. split; intros x y Hx Hy; rewrite <- E by auto; auto.
Qed.
(** ** C20, C21 *)
Theorem C20_product : forall (s : st) rs hs ws A dts G, wfst s -> hs <> [] -> ws <> [] ->
  grid s rs (length hs) (length ws) A ->
  (forall i j, i < length hs -> j < length ws -> GoodD s (A i j) (nth j ws 0) (nth i hs 0) (dts i j) (G i j)) ->
  exists s' K dt, block_op false false rs s = (s', Ok K) /\ wfst s' /\
    result_types (concat (tab (length hs) (fun i => tab (length ws) (dts i)))) = Ok dt /\
    yields s' K (sum_nat ws) (sum_nat hs) dt (blkmap hs ws G).
Proof.
  intros s rs hs ws A dts G W Nh Nw Gr HG.
  destruct (dtypes_some (length hs) (length ws) dts) as [dt Hdt]; [destruct hs; [congruence|cbn; lia]|destruct ws; [congruence|cbn; lia]|].
  destruct (block_op_builds FOK s rs hs ws A dts G dt W Nh Nw Gr HG Hdt) as (s' & K & E & X & W' & GK).
  exists s', K, dt. split; auto. split; auto. split; auto.
  eapply yields_ext; [|apply yields_good; exact GK]. intros x Hx. apply bmap_spec.
Qed.
Theorem C21_duals : forall (s : st) rs hs ws A dts G, wfst s -> hs <> [] -> ws <> [] ->
  grid s rs (length hs) (length ws) A ->
  (forall i j, i < length hs -> j < length ws -> GoodD s (A i j) (nth j ws 0) (nth i hs 0) (dts i j) (G i j)) ->
  exists s' K dt, block_op false false rs s = (s', Ok K) /\ duals s' K (sum_nat ws) (sum_nat hs) dt (blkmap hs ws G).
Proof.
  intros s rs hs ws A dts G W Nh Nw Gr HG.
  destruct (dtypes_some (length hs) (length ws) dts) as [dt Hdt]; [destruct hs; [congruence|cbn; lia]|destruct ws; [congruence|cbn; lia]|].
  destruct (block_op_builds FOK s rs hs ws A dts G dt W Nh Nw Gr HG Hdt) as (s' & K & E & X & W' & GK).
  exists s', K, dt. split; auto. eapply duals_ext; [|apply duals_good; exact GK]. intros x Hx. apply bmap_spec.
Qed.
(** the transposed operator is the block operator of the transposed blocks *)
Theorem C21_blocks : forall (s : st) rs hs ws A dts G, wfst s -> hs <> [] -> ws <> [] ->
  grid s rs (length hs) (length ws) A ->
  (forall i j, i < length hs -> j < length ws -> GoodD s (A i j) (nth j ws 0) (nth i hs 0) (dts i j) (G i j)) ->
  exists s' K dt t h, block_op false false rs s = (s', Ok K) /\ attrT s' K = Some t /\ attrH s' K = Some h /\
    (forall GT, famlin ws hs GT -> famtr hs ws G GT -> yields s' t (sum_nat hs) (sum_nat ws) dt (blkmap ws hs GT)) /\
    (forall GH, famlin ws hs GH -> famad hs ws G GH -> yields s' h (sum_nat hs) (sum_nat ws) dt (blkmap ws hs GH)).
Proof.
  intros s rs hs ws A dts G W Nh Nw Gr HG.
  destruct (dtypes_some (length hs) (length ws) dts) as [dt Hdt]; [destruct hs; [congruence|cbn; lia]|destruct ws; [congruence|cbn; lia]|].
  destruct (block_op_builds FOK s rs hs ws A dts G dt W Nh Nw Gr HG Hdt) as (s' & K & E & X & W' & GK).
  pose proof (famlin_good _ _ _ _ _ _ HG) as FL.
  destruct (duals_good _ _ _ _ _ _ GK) as (t & h & fT & fH & H1 & H2 & H3 & H4 & H5 & H6).
  exists s', K, dt, t, h. split; auto. split; auto. split; auto. split.
  - intros GT LT TT. eapply yields_ext; [|exact H3]. intros y Hy. rewrite <- bmap_spec.
    eapply (transpose_unique FOK _ _ (bmap hs ws G)); [apply H3| |exact H5| |exact Hy].
    + intros z Hz. now apply bmap_length.
    + now apply (bmap_tr FOK).
  - intros GH LH TH. eapply yields_ext; [|exact H4]. intros y Hy. rewrite <- bmap_spec.
    eapply (adjoint_unique FOK _ _ (bmap hs ws G)); [apply H4| |exact H6| |exact Hy].
    + intros z Hz. now apply bmap_length.
    + now apply (bmap_ad FOK).
Qed.

(** ** C22 *)
(** construction succeeds, or raises, exactly as follows *)
Theorem C22_success : forall (s : st) rs R ob, wfst s -> layout s rs R -> alive s R ob -> R <> [] -> ~ In [] R ->
  ~ col0_differ ob R -> ~ row_differ ob R -> ~ ragged R ->
  exists s' K, block_op false false rs s = (s', Ok K).
Proof.
  intros s rs R ob W HL HA N1 N2 H1 H2 H3.
  destruct (build_ok false false s rs R ob W HL HA N1 N2 H1 H2 H3) as (s' & o & bT & bH & dt & E & _). eauto.
Qed.
Theorem C22_ragged : forall (s : st) rs R ob, layout s rs R -> alive s R ob -> R <> [] -> ~ In [] R ->
  ~ col0_differ ob R -> ~ row_differ ob R -> ragged R ->
  exists s', block_op false false rs s = (s', Err AttributeError).
Proof.
  intros s rs R ob HL HA N1 N2 H1 H2 H3. destruct (build_err false false s rs R ob HL HA) as (_ & _ & H).
  destruct (H N1 N2) as [_ H']. apply H'; auto.
Qed.
Theorem C22_empty : forall (s : st) rs R ob, layout s rs R -> alive s R ob ->
  (R = [] -> exists s', block_op false false rs s = (s', Err ValueError)) /\
  (In [] R -> exists s', block_op false false rs s = (s', Err IndexError)).
Proof.
  intros s rs R ob HL HA. destruct (build_err false false s rs R ob HL HA) as (H1 & H2 & _). auto.
Qed.
Lemma in_dec_differ : forall (B : Type) (v : B -> nat) (l : list B),
  (exists a b, In a l /\ In b l /\ v a <> v b) \/ (forall a b, In a l -> In b l -> v a = v b).
Proof.
  intros B v l. destruct l as [|x l]; [right; intros a b []|].
  assert ((exists a, In a l /\ v a <> v x) \/ (forall a, In a l -> v a = v x)) as [(a & Ha & Hn)|H].
  { induction l as [|y l IH]; [right; intros a []|]. destruct (Nat.eq_dec (v y) (v x)) as [E|E].
    - destruct IH as [(a & Ha & Hn)|H]; [left; exists a; split; [now right|auto]|].
      right. intros a [<-|Ha]; auto.
    - left. exists y. split; [now left|auto]. }
  - left. exists a, x. split; [now right|]. split; [now left|auto].
  - right. intros a b [<-|Ha] [<-|Hb]; auto; rewrite ?(H _ Ha), ?(H _ Hb); auto.
Qed.
Lemma col0_dec : forall (ob : addr -> obj) R, col0_differ ob R \/ ~ col0_differ ob R.
Proof.
  intros ob R. destruct (in_dec_differ _ (fun r => wd ob (@hd addr 0 r)) (filter (fun r => negb (Nat.eqb (length r) 0)) R))
    as [(a & b & Ha & Hb & Hn)|H].
  - left. apply filter_In in Ha, Hb. destruct Ha as [Ha La], Hb as [Hb Lb].
    destruct a as [|a ra]; [discriminate|]. destruct b as [|b rb]; [discriminate|]. exists ra, rb, a, b. auto.
  - right. intros (r1 & r2 & a & b & Ha & Hb & Hn). apply Hn.
    apply (H (a :: r1) (b :: r2)); apply filter_In; auto.
Qed.
Lemma row_dec : forall (ob : addr -> obj) R, row_differ ob R \/ ~ row_differ ob R.
Proof.
  intros ob R. induction R as [|r R IH].
  - right. intros (r & a & b & [] & _).
  - destruct (in_dec_differ _ (ht ob) r) as [(a & b & Ha & Hb & Hn)|H].
    + left. exists r, a, b. split; [now left|auto].
    + destruct IH as [(r' & a & b & Hr & H')|IH]; [left; exists r', a, b; split; [now right|auto]|].
      right. intros (r' & a & b & [<-|Hr] & Ha & Hb & Hn); [apply Hn; auto|apply IH; exists r', a, b; auto].
Qed.
Theorem C22_shape_error : forall (s : st) rs R ob, wfst s -> layout s rs R -> alive s R ob -> R <> [] -> ~ In [] R ->
  (exists s', block_op false false rs s = (s', Err ShapeError)) <->
  (col0_differ ob R \/ row_differ ob R).
Proof.
  intros s rs R ob W HL HA N1 N2. destruct (build_err false false s rs R ob HL HA) as (_ & _ & H).
  destruct (H N1 N2) as [H' _]. split; [|exact H'].
  intros (s' & E). destruct (col0_dec ob R) as [|C]; auto. destruct (row_dec ob R) as [|D]; auto. exfalso.
  destruct (in_dec_differ _ (@length addr) R) as [(a & b & Ha & Hb & Hn)|Q].
  - destruct (C22_ragged s rs R ob HL HA N1 N2 C D) as (s2 & E2); [exists a, b; auto|congruence].
  - destruct (C22_success s rs R ob W HL HA N1 N2 C D) as (s2 & K & E2); [|congruence].
    intros (a & b & Ha & Hb & Hn). apply Hn; auto.
Qed.
(** not checked: widths of the later columns *)
Theorem C22_unchecked : forall (s : st) rs hs nc A v dts G, wfst s -> hs <> [] -> 0 < nc ->
  grid s rs (length hs) nc A ->
  (forall i j, i < length hs -> j < nc -> denotes s (A i j) (v i j) (nth i hs 0) (G i j) /\ dt_of s (A i j) (dts i j)) ->
  (forall i, i < length hs -> v i 0 = v 0 0) ->
  (exists i j, i < length hs /\ j < nc /\ v i j <> v 0 j) ->
  exists s' K o d0, block_op false false rs s = (s', Ok K) /\
    objs s' K = Some o /\ o_nargin o = sum_nat (tab nc (v 0)) /\ o_nargout o = sum_nat hs /\
    forall d x, d0 <= d -> awf x -> asize x = o_nargin o ->
      exists s1, apply d K x s' = (s1, Err ValueError).
Proof.
  intros s rs hs nc A v dts G W N L Gr HD H0 HV.
  destruct (widths_unchecked s rs hs nc A v dts G W N L Gr HD H0 HV) as (s' & o & d0 & E & _ & _ & Ho & H1 & H2 & H3).
  exists s', (nxt s), o, d0. auto 6.
Qed.

(** ** C23 *)
Definition attrD (sym : bool) (s : st) (a : addr) : option addr := if sym then attrT s a else attrH s a.
(** [sym] true: symmetric=True, hermitian=False; [sym] false: symmetric=False, hermitian=True *)
Theorem C23_symmetric : forall sym (s : st) rs hs U dts g, wfst s -> hs <> [] -> length rs = length hs ->
  upper_rows s rs U ->
  (forall i j, i <= j -> j < length hs -> GoodD (norows rs s) (U i j) (nth j hs 0) (nth i hs 0) (dts i j) (g i j)) ->
  (forall i, i < length hs -> exists o, objs s (U i i) = Some o /\ flag sym o = true) ->
  exists s' K dt UT G, block_op sym (negb sym) rs s = (s', Ok K) /\
    (* the blocks below the diagonal are the duals of those above *)
    (forall i j, i < j -> j < length hs -> attrD sym s (U i j) = Some (UT i j)) /\
    (* and were inserted in the caller's lists *)
    (forall i, i < length hs -> rows s' (nth i rs 0) =
       Some (tab (length hs) (fun j => Some (if Nat.leb i j then U i j else UT j i)))) /\
    (forall i j, i <= j -> G i j = g i j) /\
    (forall i j, i < length hs -> j < length hs -> is_dual sym (nth j hs 0) (nth i hs 0) (G i j) (G j i)) /\
    yields s' K (sum_nat hs) (sum_nat hs) dt (blkmap hs hs G) /\
    duals s' K (sum_nat hs) (sum_nat hs) dt (blkmap hs hs G) /\
    attrD sym s' K = Some K.
Proof.
  intros sym s rs hs U dts g W N L UR HG FL.
  destruct (block_op_sym FOK sym s rs hs U dts g W N L UR HG FL) as
    (dt & s' & UT & G & Hdt & E & X & W' & L' & HT & HR & H1 & H2 & GK & A & dA & GO & SI & _).
  exists s', (nxt s), dt, UT, G. split; auto.
  split. { intros i j Hi Hj. specialize (HT i j Hi Hj). destruct sym; cbn [dw] in HT; apply (att _ _ _ _ HT). }
  split; auto. split; auto. split; auto.
  split. { eapply yields_ext; [|apply yields_good; exact GK]. intros x Hx. apply bmap_spec. }
  split. { eapply duals_ext; [|apply duals_good; exact GK]. intros x Hx. apply bmap_spec. }
  destruct (syminv_den FOK _ _ _ _ _ _ _ _ _ SI) as (_ & Hw & _). destruct sym; cbn [dw] in Hw; apply (att _ _ _ _ Hw).
Qed.
Theorem C23_diagonal : forall sym herm (s : st) rs, sym || herm = true -> rs <> [] ->
  (forall r, In r rs -> exists a row o, rows s r = Some (Some a :: row) /\ objs s a = Some o) ->
  (exists row0, rows s (hd 0 rs) = Some row0 /\ length row0 = length rs) ->
  (exists r a row o, In r rs /\ rows s r = Some (Some a :: row) /\ objs s a = Some o /\
     (sym = true /\ o_sym o = false \/ herm = true /\ o_herm o = false)) ->
  block_op sym herm rs s = (s, Err ValueError).
Proof.
  intros sym herm s rs Hs N H1 H2 H3. destruct rs as [|r0 rest]; [congruence|].
  eapply diag_unflagged; eauto.
Qed.
Theorem C23_not_square : forall sym herm (s : st) r0 rest row0, sym || herm = true ->
  rows s r0 = Some row0 -> length row0 <> S (length rest) ->
  block_op sym herm (r0 :: rest) s = (s, Err ShapeError).
Proof. intros. eapply sym_not_square; eauto. Qed.
Theorem C23_second : forall sym (s : st) rs hs U dts g s1 K, wfst s -> 2 <= length hs -> length rs = length hs ->
  upper_rows s rs U ->
  (forall i j, i <= j -> j < length hs -> GoodD (norows rs s) (U i j) (nth j hs 0) (nth i hs 0) (dts i j) (g i j)) ->
  (forall i, i < length hs -> exists o, objs s (U i i) = Some o /\ flag sym o = true) ->
  block_op sym (negb sym) rs s = (s1, Ok K) ->
  forall sym' herm', sym' || herm' = true -> exists s2 e, block_op sym' herm' rs s1 = (s2, Err e).
Proof.
  intros sym s rs hs U dts g s1 K W N L UR HG FL E1 sym' herm' Hs.
  assert (Nh : hs <> []) by (destruct hs; [cbn in N; lia|discriminate]).
  destruct (C23_symmetric sym s rs hs U dts g W Nh L UR HG FL) as (s' & K' & dt & UT & G & E & _ & HR & _).
  rewrite E in E1. injection E1 as <- <-.
  pose proof (upper_nodup _ _ _ UR) as ND.
  pose proof (HR 0 ltac:(lia)) as R0. pose proof (HR 1 ltac:(lia)) as R1.
  destruct rs as [|r0 [|r1 rest]]; cbn [length] in L; try lia. cbn [nth] in R0, R1.
  eapply second_raises; [exact Hs|exact ND|exact R0|exact R1|]. now rewrite !tab_length.
Qed.
Theorem C23_second_one_row : forall sym (s : st) r h a dta (f : map1) o s1 K, wfst s ->
  rows s r = Some [Some a] -> GoodD (norows [r] s) a h h dta f -> objs s a = Some o -> flag sym o = true ->
  block_op sym (negb sym) [r] s = (s1, Ok K) ->
  exists s2 K2, block_op sym (negb sym) [r] s1 = (s2, Ok K2) /\ rows s2 r = Some [Some a].
Proof.
  intros sym s r h a dta f o s1 K W Hr G Ho Hf E.
  assert (FIRST : forall s0 : st, wfst s0 -> rows s0 r = Some [Some a] -> GoodD (norows [r] s0) a h h dta f ->
    (exists o, objs s0 a = Some o /\ flag sym o = true) ->
    exists s' K', block_op sym (negb sym) [r] s0 = (s', Ok K') /\ rows s' r = Some [Some a] /\ ext (norows [r] s0) s' /\ wfst s').
  { intros s0 W0 R0 G0 F0.
    destruct (block_op_sym FOK sym s0 [r] [h] (fun _ _ => a) (fun _ _ => dta) (fun _ _ => f) W0) as
      (dt & s' & UT & G1 & _ & E1 & X & W' & _ & _ & HR & _); auto; try discriminate.
    - intros [|i] Hi; [cbn; rewrite R0; reflexivity|cbn in Hi; lia].
    - intros [|i] [|j] Hi Hj; cbn in Hj; try lia. exact G0.
    - exists s', (nxt s0). split; auto. split; auto. specialize (HR 0 ltac:(cbn; lia)). exact HR. }
  destruct (FIRST s W Hr G) as (s' & K' & E1 & R1 & X & W1); [eauto|].
  rewrite E in E1. injection E1 as <- <-.
  destruct (FIRST s1 W1 R1) as (s2 & K2 & E2 & R2 & _).
  - eapply GoodD_mono; [apply ext_norows; exact X|exact G].
  - destruct (ext_obj _ _ X a o) as (o' & Ho' & S); [exact Ho|]. exists o'. split; auto.
    destruct sym; cbn [flag] in *; rewrite <- Hf; symmetry; [apply (stable_sym _ _ S)|apply (stable_herm _ _ S)].
  - eauto.
Qed.

(** ** C24: histories of assignments K[i,j] = B, interleaved with anything that only adds objects or
    counts products *)
Inductive edits (K : addr) (hs ws : list nat) (dt : dtype) : st -> (nat -> nat -> map1) -> st -> (nat -> nat -> map1) -> Prop :=
| ed_nil : forall (s : st) G, edits K hs ws dt s G s G
| ed_other : forall (s s1 s2 : st) G G2, ext s s1 -> wfst s1 -> nxt s <= nxt s1 ->
    edits K hs ws dt s1 G s2 G2 -> edits K hs ws dt s G s2 G2
| ed_set : forall (s s1 s2 : st) G G2 i j iz jz B dB g,
    pyindex (length hs) iz = Ok i -> pyindex (length ws) jz = Ok j ->
    GoodD (drop K s) B (nth j ws 0) (nth i hs 0) dB g -> (is_complex dB = true -> is_complex dt = true) ->
    blk_set K iz jz B s = (s1, Ok tt) ->
    edits K hs ws dt s1 (upd2 G i j g) s2 G2 -> edits K hs ws dt s G s2 G2.
Lemma edits_inv : forall K hs ws dt (s : st) G s2 G2, edits K hs ws dt s G s2 G2 -> wfst s -> K < nxt s ->
  (exists A dts, blkinv s K hs ws dt A dts G) ->
  wfst s2 /\ K < nxt s2 /\ exists A dts, blkinv s2 K hs ws dt A dts G2.
Proof.
  intros K hs ws dt s G s2 G2 H. induction H as [s G|s s1 s2 G G2 X W1 Ln H IH|s s1 s2 G G2 i j iz jz B dB g Pi Pj GB CB E H IH];
    intros W LK (A & dts & BI).
  - eauto.
  - apply IH; auto; [lia|]. exists A, dts. eapply blkinv_ext; eauto.
  - destruct (blk_set_inv s K hs ws dt A dts G i j iz jz B dB g BI W LK Pi Pj GB CB) as (s' & E' & W' & N' & _ & BI').
    rewrite E in E'. injection E' as <-. apply IH; auto; [lia|eauto].
Qed.
Theorem C24_assign : forall (s : st) rs hs ws A dts G, wfst s -> hs <> [] -> ws <> [] ->
  grid s rs (length hs) (length ws) A ->
  (forall i j, i < length hs -> j < length ws -> GoodD s (A i j) (nth j ws 0) (nth i hs 0) (dts i j) (G i j)) ->
  exists s1 K dt, block_op false false rs s = (s1, Ok K) /\
    forall s2 G2, edits K hs ws dt s1 G s2 G2 ->
      yields s2 K (sum_nat ws) (sum_nat hs) dt (blkmap hs ws G2) /\
      duals s2 K (sum_nat ws) (sum_nat hs) dt (blkmap hs ws G2) /\
      (* and the next assignment succeeds *)
      (forall i j iz jz B dB g, pyindex (length hs) iz = Ok i -> pyindex (length ws) jz = Ok j ->
         GoodD (drop K s2) B (nth j ws 0) (nth i hs 0) dB g -> (is_complex dB = true -> is_complex dt = true) ->
         exists s3, blk_set K iz jz B s2 = (s3, Ok tt)).
Proof.
  intros s rs hs ws A dts G W Nh Nw Gr HG.
  destruct (dtypes_some (length hs) (length ws) dts) as [dt Hdt]; [destruct hs; [congruence|cbn; lia]|destruct ws; [congruence|cbn; lia]|].
  destruct (block_op_inv s rs hs ws A dts G dt W Nh Nw Gr HG Hdt) as (s1 & E & X & W1 & L1 & BI).
  exists s1, (nxt s), dt. split; auto. intros s2 G2 H.
  destruct (edits_inv _ _ _ _ _ _ _ _ H W1 L1) as (W2 & L2 & A2 & dts2 & BI2); [eauto|].
  pose proof (blkinv_good FOK _ _ _ _ _ _ _ _ BI2) as GK.
  split; [eapply yields_ext; [|apply yields_good; exact GK]; intros; apply bmap_spec|].
  split; [eapply duals_ext; [|apply duals_good; exact GK]; intros; apply bmap_spec|].
  intros i j iz jz B dB g Pi Pj GB CB.
  destruct (blk_set_inv s2 (nxt s) hs ws dt A2 dts2 G2 i j iz jz B dB g BI2 W2 L2 Pi Pj GB CB) as (s3 & E3 & _). eauto.
Qed.

(** Python indices *)
Theorem C24_pyindex : forall n (i : Z), match pyindex n i with
  | Ok k => k < n /\ (Z.of_nat k = i \/ Z.of_nat k = i + Z.of_nat n)%Z
  | Err e => e = IndexError /\ ~ (- Z.of_nat n <= i < Z.of_nat n)%Z end.
Proof.
  intros n i. unfold pyindex. destruct (Z.leb_spec (- Z.of_nat n) i), (Z.ltb_spec i (Z.of_nat n)); cbn [andb];
    try (split; [reflexivity|lia]). destruct (Z.ltb_spec i 0); lia.
Qed.
(** symmetric (or hermitian) operators: only the maps [U i j], i <= j, on and above the diagonal matter *)
Inductive sedits (K : addr) (hs : list nat) (dt : dtype) : st -> (nat -> nat -> map1) -> st -> (nat -> nat -> map1) -> Prop :=
| sd_nil : forall (s : st) U, sedits K hs dt s U s U
| sd_other : forall (s s1 s2 : st) U U2, ext s s1 -> wfst s1 -> nxt s <= nxt s1 ->
    sedits K hs dt s1 U s2 U2 -> sedits K hs dt s U s2 U2
| sd_upper : forall (s s1 s2 : st) U U2 i j iz jz B dB g,
    pyindex (length hs) iz = Ok i -> pyindex (length hs) jz = Ok j -> i <= j ->
    GoodD (drop K s) B (nth j hs 0) (nth i hs 0) dB g -> (is_complex dB = true -> is_complex dt = true) ->
    blk_set K iz jz B s = (s1, Ok tt) ->
    sedits K hs dt s1 (upd2 U i j g) s2 U2 -> sedits K hs dt s U s2 U2
(* below the diagonal: any value, and nothing changes *)
| sd_lower : forall (s s1 s2 : st) U U2 i j iz jz B,
    pyindex (length hs) iz = Ok i -> pyindex (length hs) jz = Ok j -> j < i ->
    blk_set K iz jz B s = (s1, Ok tt) ->
    sedits K hs dt s1 U s2 U2 -> sedits K hs dt s U s2 U2.
Definition mirrored (sym : bool) (hs : list nat) (U G : nat -> nat -> map1) : Prop :=
  (forall i j, i <= j -> j < length hs -> forall x, length x = nth j hs 0 -> G i j x = U i j x) /\
  (forall i j, i < j -> j < length hs -> is_dual sym (nth j hs 0) (nth i hs 0) (G i j) (G j i)).
Lemma sedits_inv : forall sym K hs dt GO (s : st) U s2 U2, sedits K hs dt s U s2 U2 -> wfst s -> K < nxt s ->
  (exists A dts G, syminv s K sym hs dt A dts G GO /\ mirrored sym hs U G) ->
  wfst s2 /\ K < nxt s2 /\ exists A dts G, syminv s2 K sym hs dt A dts G GO /\ mirrored sym hs U2 G.
Proof.
  intros sym K hs dt GO s U s2 U2 H.
  induction H as [s U|s s1 s2 U U2 X W1 Ln H IH|s s1 s2 U U2 i j iz jz B dB g Pi Pj Lij GB CB E H IH
    |s s1 s2 U U2 i j iz jz B Pi Pj Lji E H IH];
    intros W LK (A & dts & G & SI & M1 & M2).
  - split; auto. split; auto. exists A, dts, G. split; auto. split; auto.
  - apply IH; auto; [lia|]. exists A, dts, G. split; [eapply syminv_ext; eauto|split; auto].
  - destruct (blk_set_sym s K sym hs dt A dts G GO i j iz jz B dB g SI W LK Pi Pj) as
      (s' & A' & dts' & G' & E' & W' & N' & _ & Up & Lo & SI'); auto.
    rewrite E in E'. injection E' as <-. apply IH; auto; [lia|]. exists A', dts', G'. split; auto. split.
    + intros k l Hkl Hl x Hx. rewrite Up by auto. unfold upd2. destruct (_ && _); auto.
    + intros k l Hkl Hl. apply Lo; auto.
  - destruct (blk_set_sym s K sym hs dt A dts G GO i j iz jz B DInt (fun x => x) SI W LK Pi Pj) as
      (s' & A' & dts' & G' & E' & W' & N' & _ & Up & Lo & SI'); try lia.
    rewrite E in E'. injection E' as <-. apply IH; auto; [lia|]. exists A', dts', G'. split; auto. split.
    + intros k l Hkl Hl x Hx. rewrite Up by auto. unfold upd2.
      destruct (Nat.eqb_spec k i), (Nat.eqb_spec l j); cbn [andb]; auto. lia.
    + intros k l Hkl Hl. apply Lo; auto.
Qed.
(** [fO] is the opposite dual (K.H if symmetric, K.T if hermitian) of the operator as first built; for a
    real operator the products with that dual never change afterwards *)
Theorem C24_symmetric : forall sym (s : st) rs hs U dts g, wfst s -> hs <> [] -> length rs = length hs ->
  upper_rows s rs U ->
  (forall i j, i <= j -> j < length hs -> GoodD (norows rs s) (U i j) (nth j hs 0) (nth i hs 0) (dts i j) (g i j)) ->
  (forall i, i < length hs -> exists o, objs s (U i i) = Some o /\ flag sym o = true) ->
  exists s1 K dt G1 fO, block_op sym (negb sym) rs s = (s1, Ok K) /\ mirrored sym hs g G1 /\
    is_dual (negb sym) (sum_nat hs) (sum_nat hs) (blkmap hs hs G1) fO /\
    forall s2 g2, sedits K hs dt s1 g s2 g2 ->
      attrD sym s2 K = Some K /\
      (exists G2, mirrored sym hs g2 G2 /\ yields s2 K (sum_nat hs) (sum_nat hs) dt (blkmap hs hs G2) /\
         exists q, attrD (negb sym) s2 K = Some q /\
           yields s2 q (sum_nat hs) (sum_nat hs) dt
             (if is_complex dt then fun x => vconj (blkmap hs hs G2 (vconj x)) else fO)) /\
      (forall i j iz jz B, pyindex (length hs) iz = Ok i -> pyindex (length hs) jz = Ok j ->
         (i <= j -> exists dB f, GoodD (drop K s2) B (nth j hs 0) (nth i hs 0) dB f /\ (is_complex dB = true -> is_complex dt = true)) ->
         exists s3, blk_set K iz jz B s2 = (s3, Ok tt)).
Proof.
  intros sym s rs hs U dts g W N L UR HG FL.
  destruct (block_op_sym FOK sym s rs hs U dts g W N L UR HG FL) as
    (dt & s1 & UT & G & Hdt & E & X & W1 & L1 & HT & HR & H1 & H2 & GK & A & dA & GO & SI & HO).
  assert (LG : famlin hs hs G) by (eapply famlin_good; apply (si_good _ _ _ _ _ _ _ _ _ SI)).
  assert (LO : famlin hs hs GO).
  { destruct (si_obj _ _ _ _ _ _ _ _ _ SI) as (o & b & bT & bH & Y & dY & _ & _ & _ & _ & HY).
    intros i j Hi Hj. destruct (HY i j Hi Hj) as ((GY & _) & _). apply (denotes_lin _ _ _ _ _ (Good_den _ _ _ _ _ GY)). }
  assert (DO : is_dual (negb sym) (sum_nat hs) (sum_nat hs) (bmap hs hs G) (bmap hs hs GO)).
  { destruct sym; cbn [negb is_dual] in *; [apply (bmap_ad FOK)|apply (bmap_tr FOK)]; auto; intros i j Hi Hj; apply HO; auto. }
  exists s1, (nxt s), dt, G, (bmap hs hs GO). split; auto.
  split. { split; [intros i j Hij Hj x Hx; now rewrite H1|intros i j Hij Hj; apply H2; lia]. }
  split. { destruct sym; cbn [negb is_dual] in *; intros x y Hx Hy; rewrite <- bmap_spec; auto. }
  intros s2 g2 HE.
  destruct (sedits_inv sym _ _ _ GO _ _ _ _ HE W1 L1) as (W2 & L2 & A2 & dts2 & G2 & SI2 & M2).
  { exists A, dA, G. split; auto. split; [intros i j Hij Hj x Hx; now rewrite H1|intros i j Hij Hj; apply H2; lia]. }
  destruct (syminv_den FOK _ _ _ _ _ _ _ _ _ SI2) as (D2 & Hw & q & Hq & Nq & Dq).
  pose proof (desc_dts _ _ _ _ _ _ _ _ _ _ (si_desc _ _ _ _ _ _ _ _ _ SI2)) as DT.
  split. { destruct sym; cbn [dw] in Hw; apply (att _ _ _ _ Hw). }
  split.
  - exists G2. split; auto. split.
    + eapply yields_ext; [|apply yields_den; [exact D2|now apply Dts_dt]]. intros; apply bmap_spec.
    + exists q. split; [destruct sym; cbn [negb dw] in Hq; apply (att _ _ _ _ Hq)|].
      assert (Dtq : dt_of s2 q dt) by (eapply Dts_dt, Dts_w; eauto).
      destruct (is_complex dt).
      * destruct Dq as [Dq _]. eapply yields_ext; [|apply yields_den; [exact Dq|exact Dtq]].
        intros x Hx. unfold conj_map. now rewrite bmap_spec.
      * now apply yields_den.
  - intros i j iz jz B Pi Pj HB. destruct (le_lt_dec i j) as [Hij|Hij].
    + destruct (HB Hij) as (dB & f & GB & CB).
      destruct (blk_set_sym s2 (nxt s) sym hs dt A2 dts2 G2 GO i j iz jz B dB f SI2 W2 L2 Pi Pj) as (s3 & _ & _ & _ & E3 & _); auto. eauto.
    + destruct (blk_set_sym s2 (nxt s) sym hs dt A2 dts2 G2 GO i j iz jz B DInt (fun x => x) SI2 W2 L2 Pi Pj) as (s3 & _ & _ & _ & E3 & _); try lia. eauto.
Qed.

(** ** C25, C26 *)
Theorem C25_product : forall (s : st) og ws hs A dts g, wfst s -> ws <> [] -> length hs = length ws ->
  rows s og = Some (tab (length ws) (fun i => Some (A i))) ->
  (forall i, i < length ws -> GoodD s (A i) (nth i ws 0) (nth i hs 0) (dts i) (g i)) ->
  exists s' D dt o, bdiag_op og s = (s', Ok D) /\ wfst s' /\ result_types (tab (length ws) dts) = Ok dt /\
    yields s' D (sum_nat ws) (sum_nat hs) dt (diagmap ws g) /\ objs s' D = Some o /\
    (o_sym o = true <-> forall i, i < length ws -> exists oi, objs s (A i) = Some oi /\ o_sym oi = true) /\
    (o_herm o = true <-> forall i, i < length ws -> exists oi, objs s (A i) = Some oi /\ o_herm oi = true).
Proof.
  intros s og ws hs A dts g W N L R HG.
  destruct (bdiag_bdst FOK s s og ws hs A dts g W (ext_refl s) N L R HG) as
    (s' & ob & b & bT & bH & dt & A' & E & X & W' & L' & Hob & Hdt & B & _).
  pose proof (bd_denotes FOK _ _ _ _ _ _ _ _ _ _ _ _ _ _ _ _ B) as DD.
  pose proof (desc_dts _ _ _ _ _ _ _ _ _ _ (bd_desc _ _ _ _ _ _ _ _ _ _ _ _ _ _ _ _ B)) as DT.
  destruct (bd_parts FOK _ _ _ _ _ _ _ _ _ _ _ _ _ _ _ _ B) as (o & Ho & _ & _ & Sy & He & _).
  exists s', (nxt s), dt, o. split; auto. split; auto. split; auto.
  split. { eapply yields_ext; [|apply yields_den; [exact DD|now apply Dts_dt]]. intros; apply bdmap_spec. }
  split; auto. rewrite Sy, He. unfold allf. rewrite !forallb_forall.
  split; (split; [intros H i Hi; exists (ob (A i)); split; [auto|apply H; apply in_seq; lia]
                 |intros H i Hi; apply in_seq in Hi; destruct (H i ltac:(lia)) as (oi & Ho1 & Hf); rewrite Hob in Ho1 by lia;
                  injection Ho1 as <-; exact Hf]).
Qed.
Theorem C25_empty : forall (s : st) og, wfst s -> rows s og = Some [] -> bdiag_op og s = (s, Err TypeError).
Proof.
  intros s og W R. assert (ob : addr -> obj) by (intros _; exact (mkobj 0 0 false false DInt 0 (CUser (fun x => Ok x)) None None PNone)).
  destruct (bdiag_build s og [] ob W R) as [H _]; [intros a []|auto].
Qed.
Theorem C26_square : forall (s : st) og ws A dts g, wfst s -> ws <> [] ->
  rows s og = Some (tab (length ws) (fun i => Some (A i))) ->
  (forall i, i < length ws -> GoodD s (A i) (nth i ws 0) (nth i ws 0) (dts i) (g i)) ->
  exists s' D dt t h, bdiag_op og s = (s', Ok D) /\ duals s' D (sum_nat ws) (sum_nat ws) dt (diagmap ws g) /\
    attrT s' D = Some t /\ attrH s' D = Some h /\
    (forall gT, dlin ws ws gT -> (forall i, i < length ws -> is_transpose (nth i ws 0) (nth i ws 0) (g i) (gT i)) ->
       yields s' t (sum_nat ws) (sum_nat ws) dt (diagmap ws gT)) /\
    (forall gH, dlin ws ws gH -> (forall i, i < length ws -> is_adjoint (nth i ws 0) (nth i ws 0) (g i) (gH i)) ->
       yields s' h (sum_nat ws) (sum_nat ws) dt (diagmap ws gH)).
Proof.
  intros s og ws A dts g W N R HG.
  destruct (bdiag_bdst FOK s s og ws ws A dts g W (ext_refl s) N eq_refl R HG) as
    (s' & ob & b & bT & bH & dt & A' & E & X & W' & L' & Hob & Hdt & B & DT & DH & _).
  assert (DL : dlin ws ws g).
  { intros i Hi. destruct (HG i Hi) as (G1 & _). apply (denotes_lin _ _ _ _ _ (Good_den _ _ _ _ _ G1)). }
  assert (GD : GoodD s' (nxt s) (sum_nat ws) (sum_nat ws) dt (bdmap ws g)).
  { eapply (bd_square FOK); eauto.
    - intros C i Hi. unfold allf in C. rewrite forallb_forall in C.
      apply (Good_flag true s (A i) _ _ _ _ (ob (A i)) (HG i Hi) (Hob i Hi)). cbn. apply C. apply in_seq. lia.
    - intros C i Hi. unfold allf in C. rewrite forallb_forall in C.
      apply (Good_flag false s (A i) _ _ _ _ (ob (A i)) (HG i Hi) (Hob i Hi)). cbn. apply C. apply in_seq. lia. }
  destruct (duals_good _ _ _ _ _ _ GD) as (t & h & fT & fH & H1 & H2 & H3 & H4 & H5 & H6).
  exists s', (nxt s), dt, t, h. split; auto.
  split. { eapply duals_ext; [|apply duals_good; exact GD]. intros; apply bdmap_spec. }
  split; auto. split; auto. split.
  - intros gT LT TT. eapply yields_ext; [|exact H3]. intros y Hy. rewrite <- bdmap_spec.
    eapply (transpose_unique FOK _ _ (bdmap ws g)); [apply H3| |exact H5| |exact Hy].
    + apply (bdmap_lin ws ws gT eq_refl LT).
    + now apply (bdmap_tr FOK).
  - intros gH LH TH. eapply yields_ext; [|exact H4]. intros y Hy. rewrite <- bdmap_spec.
    eapply (adjoint_unique FOK _ _ (bdmap ws g)); [apply H4| |exact H6| |exact Hy].
    + apply (bdmap_lin ws ws gH eq_refl LH).
    + now apply (bdmap_ad FOK).
Qed.
Theorem C26_rectangular : forall (s : st) og ws hs A dts g, wfst s -> ws <> [] -> length hs = length ws ->
  rows s og = Some (tab (length ws) (fun i => Some (A i))) ->
  (forall i, i < length ws -> GoodD s (A i) (nth i ws 0) (nth i hs 0) (dts i) (g i)) ->
  (exists k, k < length ws /\ nth k ws 0 <> nth k hs 0) ->
  exists s' D t h, bdiag_op og s = (s', Ok D) /\ attrT s' D = Some t /\ attrH s' D = Some h /\
    forall a, a = t \/ a = h ->
      (exists o, objs s' a = Some o /\ o_nargin o = sum_nat hs /\ o_nargout o = sum_nat ws) /\
      exists d0, forall d s1 x, d0 <= d -> ext s' s1 -> awf x -> asize x = sum_nat hs ->
        exists s2, apply d a x s1 = (s2, Err (if Nat.eqb (sum_nat hs) (sum_nat ws) then ValueError else ShapeError)).
Proof.
  intros s og ws hs A dts g W N L R HG (k & Hk & Hn).
  destruct (bdiag_bdst FOK s s og ws hs A dts g W (ext_refl s) N L R HG) as
    (s' & ob & b & bT & bH & dt & A' & E & X & W' & L' & Hob & Hdt & B & _).
  destruct (rect_noflag s (A k) _ _ _ _ (ob (A k)) (HG k Hk) (Hob k Hk) Hn) as [F1 F2].
  assert (NF : forall p : obj -> bool, p (ob (A k)) = false -> allf p ob (length ws) A = false).
  { intros p Hp. destruct (allf p ob (length ws) A) eqn:C; auto. unfold allf in C. rewrite forallb_forall in C.
    rewrite <- Hp. symmetry. apply C. apply in_seq. lia. }
  rewrite (NF o_sym F1), (NF o_herm F2) in B.
  pose proof (bd_desc _ _ _ _ _ _ _ _ _ _ _ _ _ _ _ _ B) as De.
  assert (exists t h, wtgt s' WT (nxt s) t /\ wtgt s' WH (nxt s) h) as (t & h & Ht & Hh).
  { unfold desc in De. destruct (is_complex dt).
    - destruct De as (t & h & q & (o & Ho & _ & _ & _ & _ & _ & _ & ET & EH) & _). exists t, h. split; exists o; auto.
    - destruct De as (t & h & (o & Ho & _ & _ & _ & _ & _ & _ & ET & EH) & _). exists t, h. split; exists o; auto. }
  exists s', (nxt s), t, h. split; auto. split; [apply (att WT _ _ _ Ht)|]. split; [apply (att WH _ _ _ Hh)|].
  intros a Ha. assert (exists w, w <> WN /\ wtgt s' w (nxt s) a) as (w & Nw & Hw).
  { destruct Ha as [->| ->]; [exists WT|exists WH]; split; auto; discriminate. }
  split.
  - destruct (desc_dual _ _ _ _ _ _ _ _ _ _ De Nw Hw) as (o & ? & ? & ? & _). eauto.
  - eapply (bd_rect FOK); eauto.
Qed.

(** ** C27 *)
Inductive dedits (D : addr) (og b : nat) (ws hs : list nat) (dt : dtype) : st -> (nat -> map1) -> st -> (nat -> map1) -> Prop :=
| dd_nil : forall (s : st) g, dedits D og b ws hs dt s g s g
| dd_other : forall (s s1 s2 : st) g g2, ext s s1 -> wfst s1 -> nxt s <= nxt s1 ->
    dedits D og b ws hs dt s1 g s2 g2 -> dedits D og b ws hs dt s g s2 g2
| dd_set : forall (s s1 s2 : st) g g2 k kz B dB f,
    pyindex (length ws) kz = Ok k ->
    GoodD (drop D (norows [og; b] s)) B (nth k ws 0) (nth k hs 0) dB f -> (is_complex dB = true -> is_complex dt = true) ->
    bd_set D kz B s = (s1, Ok tt) ->
    dedits D og b ws hs dt s1 (upd1 g k f) s2 g2 -> dedits D og b ws hs dt s g s2 g2.
Lemma dedits_inv : forall D og b ws hs sym herm dt (s : st) g s2 g2, dedits D og b ws hs dt s g s2 g2 ->
  wfst s -> D < nxt s ->
  (exists bT bH O A dts, bdinv s D og b bT bH ws hs sym herm dt O A dts g) ->
  wfst s2 /\ D < nxt s2 /\ exists bT bH O A dts, bdinv s2 D og b bT bH ws hs sym herm dt O A dts g2.
Proof.
  intros D og b ws hs sym herm dt s g s2 g2 H.
  induction H as [s g|s s1 s2 g g2 X W1 Ln H IH|s s1 s2 g g2 k kz B dB f Pk GB CB E H IH];
    intros W LD (bT & bH & O & A & dts & BI).
  - split; auto. split; auto. exists bT, bH, O, A, dts. exact BI.
  - apply IH; auto; [lia|]. exists bT, bH, O, A, dts. eapply bdinv_ext; eauto.
  - destruct (bd_set_inv FOK s D og b bT bH ws hs sym herm dt O A dts g k kz B dB f BI W LD Pk GB CB) as
      (s' & bT' & bH' & O' & E' & W' & N' & _ & _ & BI').
    rewrite E in E'. injection E' as <-. apply IH; auto; [lia|]. eauto 7.
Qed.
(** neither symmetric nor hermitian *)
Theorem C27_assign : forall (s : st) og ws A dts g, wfst s -> ws <> [] ->
  rows s og = Some (tab (length ws) (fun i => Some (A i))) ->
  (forall i, i < length ws -> GoodD (norows [og] s) (A i) (nth i ws 0) (nth i ws 0) (dts i) (g i)) ->
  (exists i o, i < length ws /\ objs s (A i) = Some o /\ o_sym o = false) ->
  (exists i o, i < length ws /\ objs s (A i) = Some o /\ o_herm o = false) ->
  exists s1 D dt, bdiag_op og s = (s1, Ok D) /\
    forall s2 g2, dedits D og og ws ws dt s1 g s2 g2 ->
      yields s2 D (sum_nat ws) (sum_nat ws) dt (diagmap ws g2) /\
      duals s2 D (sum_nat ws) (sum_nat ws) dt (diagmap ws g2) /\
      (forall k kz B dB f, pyindex (length ws) kz = Ok k ->
         GoodD (drop D (norows [og; og] s2)) B (nth k ws 0) (nth k ws 0) dB f -> (is_complex dB = true -> is_complex dt = true) ->
         (* the assignment succeeds and is visible in the caller's list *)
         exists s3 A2, rows s2 og = Some (tab (length ws) (fun i => Some (A2 i))) /\ bd_set D kz B s2 = (s3, Ok tt) /\
           rows s3 og = Some (tab (length ws) (fun i => Some (if Nat.eqb i k then B else A2 i)))).
Proof.
  intros s og ws A dts g W N R HG (i1 & o1 & Hi1 & Ho1 & Hs1) (i2 & o2 & Hi2 & Ho2 & Hs2).
  destruct (bdiag_inv FOK s og ws ws A dts g W N eq_refl R HG) as
    (s1 & ob & b & bT & bH & dt & A' & E & X & W1 & L1 & Hob & BI & Eb & _).
  assert (NF : forall (p : obj -> bool) i o, i < length ws -> objs s (A i) = Some o -> p o = false -> allf p ob (length ws) A = false).
  { intros p i o Hi Ho Hp. destruct (allf p ob (length ws) A) eqn:C; auto. unfold allf in C. rewrite forallb_forall in C.
    rewrite <- Hp. rewrite Hob in Ho by auto. injection Ho as <-. symmetry. apply C. apply in_seq. lia. }
  rewrite (NF o_sym i1 o1), (NF o_herm i2 o2) in BI, Eb by auto. unfold self_bd in Eb. cbn in Eb. subst b.
  exists s1, (nxt s), dt. split; auto. intros s2 g2 HE.
  destruct (dedits_inv _ _ _ _ _ false false _ _ _ _ _ HE W1 L1) as (W2 & L2 & bT2 & bH2 & O2 & A2 & dts2 & BI2).
  { exists bT, bH, A, A', dts. exact BI. }
  assert (GD : GoodD s2 (nxt s) (sum_nat ws) (sum_nat ws) dt (bdmap ws g2)).
  { eapply (bd_square FOK); [exact BI2|discriminate|discriminate| |].
    - now apply (bd_T _ _ _ _ _ _ _ _ _ _ _ _ _ _ _ _ BI2).
    - now apply (bd_H _ _ _ _ _ _ _ _ _ _ _ _ _ _ _ _ BI2). }
  split; [eapply yields_ext; [|apply yields_good; exact GD]; intros; apply bdmap_spec|].
  split; [eapply duals_ext; [|apply duals_good; exact GD]; intros; apply bdmap_spec|].
  intros k kz B dB f Pk GB CB.
  destruct (bd_set_inv FOK s2 (nxt s) og og bT2 bH2 ws ws false false dt O2 A2 dts2 g2 k kz B dB f BI2 W2 L2 Pk GB CB) as
      (s3 & bT' & bH' & O' & E' & W' & N' & _ & R' & BI').
  exists s3, A2. split; [apply (bd_b _ _ _ _ _ _ _ _ _ _ _ _ _ _ _ _ BI2)|]. split; auto.
  rewrite R', Nat.eqb_refl. reflexivity.
Qed.
(** all blocks symmetric *)
Theorem C27_symmetric : forall (s : st) og ws A dts g, wfst s -> ws <> [] ->
  rows s og = Some (tab (length ws) (fun i => Some (A i))) ->
  (forall i, i < length ws -> GoodD (norows [og] s) (A i) (nth i ws 0) (nth i ws 0) (dts i) (g i)) ->
  (forall i, i < length ws -> exists o, objs s (A i) = Some o /\ o_sym o = true) ->
  exists s1 D b dt, bdiag_op og s = (s1, Ok D) /\ b <> og /\
    forall s2 g2, dedits D og b ws ws dt s1 g s2 g2 ->
      attrT s2 D = Some D /\ yields s2 D (sum_nat ws) (sum_nat ws) dt (diagmap ws g2) /\
      (* the caller's list stays as it was *)
      rows s2 og = rows s og /\
      (* D.T is wrong as soon as some block is not symmetric *)
      ((forall x y, length x = sum_nat ws -> length y = sum_nat ws ->
          dot y (diagmap ws g2 x) = dot (diagmap ws g2 y) x) <->
       (forall i, i < length ws -> is_transpose (nth i ws 0) (nth i ws 0) (g2 i) (g2 i))) /\
      (* and any further assignment succeeds *)
      (forall k kz B dB f, pyindex (length ws) kz = Ok k ->
         GoodD (drop D (norows [og; b] s2)) B (nth k ws 0) (nth k ws 0) dB f -> (is_complex dB = true -> is_complex dt = true) ->
         exists s3, bd_set D kz B s2 = (s3, Ok tt)).
Proof.
  intros s og ws A dts g W N R HG Sy.
  destruct (bdiag_inv FOK s og ws ws A dts g W N eq_refl R HG) as
    (s1 & ob & b & bT & bH & dt & A' & E & X & W1 & L1 & Hob & BI & Eb & FT & FH).
  assert (S1 : allf o_sym ob (length ws) A = true).
  { unfold allf. apply forallb_forall. intros i Hi. apply in_seq in Hi. destruct (Sy i ltac:(lia)) as (o & Ho & Hs).
    rewrite Hob in Ho by lia. injection Ho as <-. exact Hs. }
  rewrite S1 in BI, Eb. set (herm := allf o_herm ob (length ws) A) in *.
  assert (Nb : b <> og).
  { rewrite Eb. unfold self_bd. destruct (_ && _); congruence. }
  exists s1, (nxt s), b, dt. split; auto. split; auto. intros s2 g2 HE.
  assert (RO : rows s2 og = rows s og /\ wfst s2 /\ nxt s < nxt s2 /\
     exists bT bH O A dts, bdinv s2 (nxt s) og b bT bH ws ws true herm dt O A dts g2).
  { assert (R1 : rows s1 og = rows s og) by (rewrite R; apply (ext_row _ _ X); exact R).
    assert (BIe : exists bT bH O A dts, bdinv s1 (nxt s) og b bT bH ws ws true herm dt O A dts g) by eauto 7.
    revert R1 BIe W1 L1. clear - HE Nb FOK R. revert HE. generalize (nxt s) as D. intros D HE.
    induction HE as [sx gx|sx s1x s2x gx g2x Xx W1x Lnx Hx IH|sx s1x s2x gx g2x k kz B dB f Pk GB CB Ex Hx IH];
      intros R1 (bT & bH & O & A1 & dts1 & BI) W1 L1.
    - split; auto. split; auto. split; auto. exists bT, bH, O, A1, dts1. exact BI.
    - apply IH; auto; [|exists bT, bH, O, A1, dts1; eapply bdinv_ext; eauto|lia].
      rewrite R. apply (ext_row _ _ Xx). congruence.
    - destruct (bd_set_inv FOK sx D og b bT bH ws ws true herm dt O A1 dts1 gx k kz B dB f BI W1 L1 Pk GB CB) as
        (s' & bT' & bH' & O' & E' & W' & N' & _ & R' & BI').
      rewrite Ex in E'. injection E' as <-. apply IH; auto; [|eauto 7|lia].
      rewrite R'. apply Nat.eqb_neq in Nb. rewrite Nb. rewrite <- R1. symmetry.
      apply (bd_og _ _ _ _ _ _ _ _ _ _ _ _ _ _ _ _ BI). }
  destruct RO as (RO & W2 & L2 & bT2 & bH2 & O2 & A2 & dts2 & BI2).
  pose proof (bd_denotes FOK _ _ _ _ _ _ _ _ _ _ _ _ _ _ _ _ BI2) as DD.
  pose proof (desc_dts _ _ _ _ _ _ _ _ _ _ (bd_desc _ _ _ _ _ _ _ _ _ _ _ _ _ _ _ _ BI2)) as DT.
  destruct (bd_parts FOK _ _ _ _ _ _ _ _ _ _ _ _ _ _ _ _ BI2) as (o & Ho & _ & _ & _ & _ & _ & _ & _ & Ts & DL & _).
  split. { unfold attrT. rewrite Ho. unfold is_self in Ts. destruct (o_T o) as [t|]; [|discriminate].
           apply Nat.eqb_eq in Ts. now subst. }
  split. { eapply yields_ext; [|apply yields_den; [exact DD|now apply Dts_dt]]. intros; apply bdmap_spec. }
  split; auto. split; [split|].
  - intros H. apply (bdmap_tr_inv FOK); auto. intros x y Hx Hy. rewrite !bdmap_spec. auto.
  - intros H x y Hx Hy. rewrite <- !bdmap_spec. apply (bdmap_tr FOK ws ws g2 g2); auto.
  - intros k kz B dB f Pk GB CB.
    destruct (bd_set_inv FOK _ _ _ _ _ _ _ _ _ _ _ _ _ _ _ k kz B dB f BI2 W2 L2 Pk GB CB) as (s3 & _ & _ & _ & E3 & _). eauto.
Qed.
End P.

(** * Examples: heaps meeting the hypotheses *)
Section Ex.
Definition msym : list (list FQI) := [[qi 1 0; qi 2 0]; [qi 2 0; qi 3 0]].
Definition mrow : list (list FQI) := [[qi 4 0; qi 5 0]].
Definition mone : list (list FQI) := [[qi 7 0]].
Definition mns : list (list FQI) := [[qi 0 0; qi 1 0]; [qi 0 0; qi 0 0]].
(** operators A (2x2 complex), B (2x2 symmetric), C (1x2), D (1x1 symmetric), E (2x2 real, not symmetric) *)
Definition rA := ndarray_op DComplex 2 2 m1 false None s0.
Definition rB := ndarray_op DFloat 2 2 msym true None (fst rA).
Definition rC := ndarray_op DFloat 1 2 mrow false None (fst rB).
Definition rD := ndarray_op DFloat 1 1 mone true None (fst rC).
Definition rE := ndarray_op DFloat 2 2 mns false None (fst rD).
Lemma eE : rE = ndarray_op DFloat 2 2 mns false None (fst rD). Proof. unfold rE. reflexivity. Qed.
Lemma eA : rA = ndarray_op DComplex 2 2 m1 false None s0. Proof. unfold rA. reflexivity. Qed.
Lemma eB : rB = ndarray_op DFloat 2 2 msym true None (fst rA). Proof. unfold rB. reflexivity. Qed.
Lemma eC : rC = ndarray_op DFloat 1 2 mrow false None (fst rB). Proof. unfold rC. reflexivity. Qed.
Lemma eD : rD = ndarray_op DFloat 1 1 mone true None (fst rC). Proof. unfold rD. reflexivity. Qed.
Definition aA := okv 99 rA. Definition aB := okv 99 rB. Definition aC := okv 99 rC. Definition aD := okv 99 rD.
Definition aE := okv 99 rE.
Definition sD : st FQI := fst rE.
Lemma tr_of : forall nc rows, matok nc nc rows -> mat_T nc rows = rows -> map vconj rows = rows ->
  is_transpose nc nc (mat_vec rows) (@mat_vec FQI rows) /\ is_adjoint nc nc (mat_vec rows) (@mat_vec FQI rows).
Proof.
  intros nc rows OK E1 E2. split; intros x y Hx Hy.
  - pose proof (tr_mat FQI_OK nc nc rows OK x y Hx Hy) as H. now rewrite E1 in H.
  - pose proof (ad_mat FQI_OK nc nc rows OK x y Hx Hy) as H. now rewrite E2, E1 in H.
Qed.
Lemma okm : forall nr nc (rows : list (list FQI)), length rows = nr -> forallb (fun r => Nat.eqb (length r) nc) rows = true -> matok nr nc rows.
Proof. intros nr nc rows L H. split; auto. intros r Hr. rewrite forallb_forall in H. now apply Nat.eqb_eq, H. Qed.
Lemma realm : forall (rows : list (list FQI)), map vconj rows = rows -> entries_real rows.
Proof.
  intros rows H r Hr. unfold vreal. apply (In_nth _ _ []) in Hr. destruct Hr as (i & Hi & <-).
  rewrite <- H at 2. change (@nil FQI) with (vconj (@nil FQI)) at 2. now rewrite map_nth.
Qed.
Lemma step : forall (s : st FQI) mdt nr nc rows sym r, r = ndarray_op mdt nr nc rows sym None s -> wfst s -> matok nr nc rows ->
  (is_complex mdt = false -> map vconj rows = rows) -> (sym = true -> nc = nr /\ mat_T nc rows = rows /\ map vconj rows = rows) ->
  okb r = true /\ ext s (fst r) /\ wfst (fst r) /\
    GoodD (fst r) (okv 99 r) nc nr mdt (mat_vec rows).
Proof.
  intros s mdt nr nc rows sym r Er W OK R Sy.
  destruct (ndarray_builds FQI_OK s mdt nr nc rows sym None W OK) as (s' & b & E & X & W' & G).
  - intros H. apply realm. auto.
  - intros H. destruct (Sy H) as (<- & H1 & H2). split; auto. now apply tr_of.
  - intros H. destruct (Sy H) as (<- & H1 & H2). split; auto. now apply tr_of.
  - auto.
  - rewrite Er, E. auto.
Qed.
Lemma heap : wfst sD /\ GoodD sD aA 2 2 DComplex (mat_vec m1) /\ GoodD sD aB 2 2 DFloat (mat_vec msym) /\
  GoodD sD aC 2 1 DFloat (mat_vec mrow) /\ GoodD sD aD 1 1 DFloat (mat_vec mone) /\ GoodD sD aE 2 2 DFloat (mat_vec mns).
Proof.
  destruct (step s0 DComplex 2 2 m1 false rA eA wf0) as (_ & X1 & W1 & G1); [now apply okm|discriminate|discriminate|].
  destruct (step (fst rA) DFloat 2 2 msym true rB eB W1) as (_ & X2 & W2 & G2); [now apply okm|vm_compute; reflexivity|vm_compute; auto|].
  destruct (step (fst rB) DFloat 1 2 mrow false rC eC W2) as (_ & X3 & W3 & G3); [now apply okm|vm_compute; reflexivity|discriminate|].
  destruct (step (fst rC) DFloat 1 1 mone true rD eD W3) as (_ & X4 & W4 & G4); [now apply okm|vm_compute; reflexivity|vm_compute; auto|].
  destruct (step (fst rD) DFloat 2 2 mns false rE eE W4) as (_ & X5 & W5 & G5); [now apply okm|vm_compute; reflexivity|discriminate|].
  assert (X4' : ext (fst rC) (fst rE)) by exact (ext_trans _ _ _ X4 X5).
  assert (X3' : ext (fst rB) (fst rE)) by exact (ext_trans _ _ _ X3 X4').
  assert (X2' : ext (fst rA) (fst rE)) by exact (ext_trans _ _ _ X2 X3').
  unfold sD, aA, aB, aC, aD, aE. split; [exact W5|]. split; [exact (GoodD_mono _ _ _ _ _ _ _ X2' G1)|].
  split; [exact (GoodD_mono _ _ _ _ _ _ _ X3' G2)|]. split; [exact (GoodD_mono _ _ _ _ _ _ _ X4' G3)|].
  split; [exact (GoodD_mono _ _ _ _ _ _ _ X5 G4)|exact G5].
Qed.
(** the same heap with lists of operators *)
Definition wr (l : list (list (option addr))) : st FQI :=
  mkst (nxt sD) (objs sD) (narr sD) (arrs sD) (length l) (nth_error l).
Lemma wf_wr : forall l, wfst (wr l).
Proof.
  intros l. destruct heap as ((H1 & H2 & _) & _). split; [exact H1|]. split; [exact H2|].
  intros i Hi. now apply nth_error_None.
Qed.
Lemma rows_D : forall i, rows sD i = None.
Proof. intros i. vm_compute. reflexivity. Qed.
Lemma ext_wr : forall rs l, ext sD (norows rs (wr l)).
Proof.
  intros rs l. constructor; auto.
  - intros a o H. exists o. split; auto. apply same_refl.
  - intros i r H. rewrite rows_D in H. discriminate H.
Qed.
Lemma ext_wr0 : forall l, ext sD (wr l).
Proof. intros l. eapply ext_trans; [apply (ext_wr [])|apply norows_ext]. Qed.
Definition obD (a : addr) : obj FQI := match objs sD a with Some o => o | None =>
  mkobj 0 0 false false DInt 0 (CUser (fun x => Ok x)) None None PNone end.
Lemma ob_ok : forall a, In a [aA; aB; aC; aD; aE] -> objs sD a = Some (obD a).
Proof.
  intros a H. assert (E : match objs sD a with Some _ => true | None => false end = true).
  { repeat (destruct H as [<-|H]; [vm_compute; reflexivity|]). destruct H. }
  unfold obD. destruct (objs sD a); [reflexivity|discriminate].
Qed.
Local Opaque sD aA aB aC aD aE obD.
Definition R2 (i j : nat) : addr := nth j (nth i [[aA; aB]; [aC; aC]] []) 0.
Definition G2x (i j : nat) : list FQI -> list FQI := nth j (nth i [[mat_vec m1; mat_vec msym]; [mat_vec mrow; mat_vec mrow]] []) (fun x => x).
Definition dt2 (i j : nat) : dtype := nth j (nth i [[DComplex; DFloat]; [DFloat; DFloat]] []) DInt.
Definition sG : st FQI := wr [[Some aA; Some aB]; [Some aC; Some aC]].
(** C20, C21, C24: blocks [[A, B], [C, C]], of sizes 2+1 by 2+2 *)
Example ex_C20 : exists (s : st FQI) rs hs ws A dts G, wfst s /\ hs <> [] /\ ws <> [] /\
  grid s rs (length hs) (length ws) A /\
  (forall i j, i < length hs -> j < length ws -> GoodD s (A i j) (nth j ws 0) (nth i hs 0) (dts i j) (G i j)) /\
  sum_nat hs = 3 /\ sum_nat ws = 4.
Proof.
  exists sG, [0; 1], [2; 1], [2; 2], R2, dt2, G2x. split; [apply wf_wr|]. split; [discriminate|]. split; [discriminate|].
  split. { split; [reflexivity|]. intros [|[|i]] Hi; cbn in Hi; try lia; reflexivity. }
  split; [|split; reflexivity]. destruct heap as (_ & HA & HB & HC & _).
  intros [|[|i]] [|[|j]] Hi Hj; cbn in Hi, Hj; try lia; (eapply GoodD_mono; [apply ext_wr0|]); assumption.
Qed.
(** the model run: K*(1, i, 1, 1) *)
Example ex_C20_run : let r := block_op false false [0; 1] sG in
  is_ok (apply 9 (okv 99 r) (@mkarr FQI DComplex [qi 1 0; qi 0 1; qi 1 0; qi 1 0]) (fst r))
        (@mkarr FQI DComplex [qi 3 0; qi 8 1; qi 13 5]) = true.
Proof. vm_compute. reflexivity. Qed.
(** C22: heights 2 and 1 in one row; a ragged list; two different widths in the second column *)
Lemma layout_wr : forall R : list (list addr), layout (wr (map (map Some) R)) (seq 0 (length R)) R.
Proof.
  intros R. unfold layout. assert (H : forall k Q, (forall i row, nth_error Q i = Some row -> rows (wr (map (map Some) R)) (k + i) = Some (map Some row)) ->
    Forall2 (fun r row => rows (wr (map (map Some) R)) r = Some (map Some row)) (seq k (length Q)) Q).
  { intros k Q. revert k. induction Q as [|q Q IH]; intros k H; cbn; constructor.
    - specialize (H 0 q eq_refl). now rewrite Nat.add_0_r in H.
    - apply IH. intros i row Hi. specialize (H (S i) row Hi). now rewrite Nat.add_succ_r in H. }
  apply H. intros i row Hi. cbn. now apply map_nth_error.
Qed.
Lemma alive_wr : forall R, (forall row a, In row R -> In a row -> In a [aA; aB; aC; aD; aE]) -> alive (wr (map (map Some) R)) R obD.
Proof.
  intros R H row a H1 H2. specialize (H row a H1 H2). unfold wr. cbn [objs].
  now apply ob_ok.
Qed.
Example ex_C22 : exists (s : st FQI) rs R ob, wfst s /\ layout s rs R /\ alive s R ob /\ R <> [] /\ ~ In [] R /\ row_differ ob R.
Proof.
  exists (wr (map (map Some) [[aA; aC]])), [0], [[aA; aC]], obD.
  split; [apply wf_wr|]. split; [apply layout_wr|]. split; [apply alive_wr; cbn; intuition (subst; cbn in *; intuition)|].
  split; [discriminate|]. split; [cbn; intuition discriminate|].
  exists [aA; aC], aA, aC. cbn. split; auto. split; auto. split; auto. vm_compute. discriminate.
Qed.
Example ex_C22_ragged : exists (s : st FQI) rs R ob, wfst s /\ layout s rs R /\ alive s R ob /\ R <> [] /\ ~ In [] R /\
  ~ col0_differ ob R /\ ~ row_differ ob R /\ ragged R.
Proof.
  exists (wr (map (map Some) [[aA; aB]; [aA]])), [0; 1], [[aA; aB]; [aA]], obD.
  split; [apply wf_wr|]. split; [apply layout_wr|]. split; [apply alive_wr; cbn; intuition (subst; cbn in *; intuition)|].
  split; [discriminate|]. split; [cbn; intuition discriminate|].
  split. { intros (r1 & r2 & a & b & Ha & Hb & Hn). apply Hn.
    destruct Ha as [E|[E|[]]]; injection E as <- _; destruct Hb as [E|[E|[]]]; injection E as <- _; reflexivity. }
  split. { intros (r & a & b & Hr & Ha & Hb & Hn). apply Hn.
    destruct Hr as [<-|[<-|[]]]; cbn in Ha, Hb; intuition (subst; reflexivity). }
  exists [aA; aB], [aA]. cbn. repeat split; auto; discriminate.
Qed.
Example ex_C22_unchecked : exists (s : st FQI) rs hs nc A v dts G, wfst s /\ hs <> [] /\ 0 < nc /\
  grid s rs (length hs) nc A /\
  (forall i j, i < length hs -> j < nc -> denotes s (A i j) (v i j) (nth i hs 0) (G i j) /\ dt_of s (A i j) (dts i j)) /\
  (forall i, i < length hs -> v i 0 = v 0 0) /\
  (exists i j, i < length hs /\ j < nc /\ v i j <> v 0 j).
Proof.
  exists (wr [[Some aA; Some aB]; [Some aC; Some aD]]), [0; 1], [2; 1], 2,
    (fun i j => nth j (nth i [[aA; aB]; [aC; aD]] []) 0), (fun i j => nth j (nth i [[2; 2]; [2; 1]] []) 0), dt2,
    (fun i j => nth j (nth i [[mat_vec m1; mat_vec msym]; [mat_vec mrow; mat_vec mone]] []) (fun x => x)).
  split; [apply wf_wr|]. split; [discriminate|]. split; [lia|].
  split. { split; [reflexivity|]. intros [|[|i]] Hi; cbn in Hi; try lia; reflexivity. }
  split. { assert (H : forall a n m dt (f : list FQI -> list FQI) l, GoodD sD a n m dt f -> denotes (wr l) a n m f /\ dt_of (wr l) a dt).
    { intros a n m dt f l H. apply (GoodD_mono _ _ _ _ _ _ _ (ext_wr0 l)) in H. destruct H as (H1 & H2 & _).
      split; [now apply Good_den|now apply Dts_dt]. }
    destruct heap as (_ & HA & HB & HC & HD & _).
    intros [|[|i]] [|[|j]] Hi Hj; cbn in Hi, Hj; try lia; apply H; assumption. }
  split. { intros [|[|i]] Hi; cbn in Hi; try lia; reflexivity. }
  exists 1, 1. cbn. repeat split; try lia.
Qed.
(** C23, C24: blocks [[B, A], [A.T, B]] given as [[B, A], [B]] *)
Definition U2x (i j : nat) : addr := if Nat.eqb i j then aB else aA.
Definition sU : st FQI := wr [[Some aB; Some aA]; [Some aB]].
Lemma ex_sym : forall sym, wfst sU /\ upper_rows sU [0; 1] U2x /\
  (forall i j, i <= j -> j < 2 -> GoodD (norows [0; 1] sU) (U2x i j) (nth j [2; 2] 0) (nth i [2; 2] 0)
     (if Nat.eqb i j then DFloat else DComplex) (if Nat.eqb i j then mat_vec msym else mat_vec m1)) /\
  (forall i, i < 2 -> exists o, objs sU (U2x i i) = Some o /\ flag sym o = true).
Proof.
  intros sym. split; [apply wf_wr|].
  split. { intros [|[|i]] Hi; cbn in Hi; try lia; reflexivity. }
  destruct heap as (_ & HA & HB & _).
  split. { intros [|[|i]] [|[|j]] Hi Hj; cbn in Hi, Hj; try lia; (eapply GoodD_mono; [apply ext_wr|]); assumption. }
  intros i Hi. exists (obD aB). unfold U2x. rewrite Nat.eqb_refl. split; [apply ob_ok; cbn; auto|]. destruct sym; vm_compute; reflexivity.
Qed.
Example ex_C23 : forall sym, exists (s : st FQI) rs hs U dts g, wfst s /\ 2 <= length hs /\ length rs = length hs /\
  upper_rows s rs U /\
  (forall i j, i <= j -> j < length hs -> GoodD (norows rs s) (U i j) (nth j hs 0) (nth i hs 0) (dts i j) (g i j)) /\
  (forall i, i < length hs -> exists o, objs s (U i i) = Some o /\ flag sym o = true).
Proof.
  intros sym. destruct (ex_sym sym) as (H1 & H2 & H3 & H4).
  exists sU, [0; 1], [2; 2], U2x, (fun i j => if Nat.eqb i j then DFloat else DComplex), (fun i j => if Nat.eqb i j then mat_vec msym else mat_vec m1).
  split; auto.
Qed.
(** symmetric=True: K*(1,0,0,0) has the first row of A in its second half *)
Example ex_C23_run : let r := block_op true false [0; 1] sU in
  is_ok (apply 9 (okv 99 r) (@mkarr FQI DComplex [qi 1 0; qi 0 0; qi 0 0; qi 0 0]) (fst r))
        (@mkarr FQI DComplex [qi 1 0; qi 2 0; qi 1 0; qi 0 1]) = true.
Proof. vm_compute. reflexivity. Qed.
Example ex_C23_diagonal : exists (s : st FQI) rs, rs <> [] /\
  (forall r, In r rs -> exists a row o, rows s r = Some (Some a :: row) /\ objs s a = Some o) /\
  (exists row0, rows s (hd 0 rs) = Some row0 /\ length row0 = length rs) /\
  (exists r a row o, In r rs /\ rows s r = Some (Some a :: row) /\ objs s a = Some o /\ o_sym o = false).
Proof.
  exists (wr [[Some aB; Some aA]; [Some aA]]), [0; 1]. split; [discriminate|].
  split. { intros r [<-|[<-|[]]]; [exists aB, [Some aA], (obD aB)|exists aA, [], (obD aA)]; (split; [reflexivity|apply ob_ok; cbn; auto]). }
  split. { eexists. split; reflexivity. }
  exists 1, aA, [], (obD aA). split; [cbn; auto|]. split; [reflexivity|]. split; [apply ob_ok; cbn; auto|vm_compute; reflexivity].
Qed.
Example ex_C23_one : exists (s : st FQI) r h a dta f o, wfst s /\ rows s r = Some [Some a] /\
  GoodD (norows [r] s) a h h dta f /\ objs s a = Some o /\ flag true o = true /\ okb (block_op true false [r] s) = true.
Proof.
  exists (wr [[Some aB]]), 0, 2, aB, DFloat, (mat_vec msym), (obD aB).
  split; [apply wf_wr|]. split; [reflexivity|]. destruct heap as (_ & _ & HB & _).
  split; [eapply GoodD_mono; [apply ext_wr|exact HB]|]. split; [apply ob_ok; cbn; auto|]. split; vm_compute; reflexivity.
Qed.
(** C24: K[0,1] = A in place of B, with a negative index *)
Lemma ext_wr_drop : forall l (s : st FQI), ext (wr l) s -> ext sD (drop (nxt (wr l)) s).
Proof.
  intros l s X. apply ext_drop_fresh; [eapply ext_trans; [apply ext_wr0|exact X]|].
  destruct heap as ((H & _) & _). apply H. cbn. lia.
Qed.
Example ex_C24 : exists s1 K s2 (g2 : nat -> nat -> list FQI -> list FQI),
  block_op false false [0; 1] sG = (s1, Ok K) /\ edits K [2; 1] [2; 2] DComplex s1 G2x s2 g2 /\
  keqb (nth 0 (g2 0 1 [qi 0 0; qi 1 0]) k0) (nth 0 (G2x 0 1 [qi 0 0; qi 1 0]) k0) = false.
Proof.
  assert (Gr : grid sG [0; 1] 2 2 R2) by (split; [reflexivity|]; intros [|[|i]] Hi; cbn in Hi; try lia; reflexivity).
  destruct heap as (_ & HA & HB & HC & _).
  assert (GG : forall i j, i < 2 -> j < 2 -> GoodD sG (R2 i j) (nth j [2; 2] 0) (nth i [2; 1] 0) (dt2 i j) (G2x i j)).
  { intros [|[|i]] [|[|j]] Hi Hj; cbn in Hi, Hj; try lia; (eapply GoodD_mono; [apply ext_wr0|]); assumption. }
  assert (N1 : [2; 1] <> []) by discriminate. assert (N2 : [2; 2] <> []) by discriminate.
  destruct (block_op_inv sG [0; 1] [2; 1] [2; 2] R2 dt2 G2x DComplex (wf_wr _) N1 N2 Gr GG eq_refl) as (s1 & E & X & W & L & BI).
  assert (GB : GoodD (drop (nxt sG) s1) aA 2 2 DComplex (mat_vec m1)).
  { eapply GoodD_mono; [|exact HA]. apply ext_wr_drop. exact X. }
  destruct (blk_set_inv s1 (nxt sG) [2; 1] [2; 2] DComplex _ _ _ 0 1 0%Z (-1)%Z aA DComplex _ BI W L eq_refl eq_refl GB) as (s2 & E2 & _); [auto|].
  exists s1, (nxt sG), s2, (upd2 G2x 0 1 (mat_vec m1)). split; [exact E|].
  split. { apply (ed_set _ _ _ _ s1 s2 s2 G2x _ 0 1 0%Z (-1)%Z aA DComplex (mat_vec m1)); auto. apply ed_nil. }
  vm_compute. reflexivity.
Qed.
(** symmetric: K[0,1] = B, then K[1,0] = C (ignored, whatever its shape) *)
Example ex_C24_sym : exists s1 K s2 s3 (g2 : nat -> nat -> list FQI -> list FQI),
  block_op true false [0; 1] sU = (s1, Ok K) /\
  sedits K [2; 2] DComplex s1 (fun i j => if Nat.eqb i j then mat_vec msym else mat_vec m1) s2 g2 /\
  sedits K [2; 2] DComplex s2 g2 s3 g2 /\ blk_set K 1 0 aC s2 = (s3, Ok tt) /\
  keqb (nth 0 (g2 0 1 [qi 0 0; qi 1 0]) k0) (qi 2 0) = true.
Proof.
  destruct (ex_sym true) as (W0 & UR & GU & FL). assert (N : [2; 2] <> []) by discriminate.
  destruct (block_op_sym FQI_OK true sU [0; 1] [2; 2] U2x _ _ W0 N eq_refl UR GU FL) as
    (dt & s1 & UT & G & Hdt & E & X & W & L & _ & _ & H1 & H2 & _ & A & dA & GO & SI & _).
  vm_compute in Hdt. injection Hdt as <-. destruct heap as (_ & HA & HB & HC & _).
  assert (GB : GoodD (drop (nxt sU) s1) aB 2 2 DFloat (mat_vec msym)).
  { eapply GoodD_mono; [|exact HB]. eapply ext_trans; [|apply ext_drops; exact X].
    apply ext_drop_fresh; [apply ext_wr|]. destruct heap as ((H & _) & _). apply H. cbn. lia. }
  destruct (blk_set_sym s1 (nxt sU) true [2; 2] DComplex A dA G GO 0 1 0%Z 1%Z aB DFloat (mat_vec msym) SI W L eq_refl eq_refl) as
    (s2 & A2 & dA2 & G2 & E2 & W2 & Nx & _ & _ & _ & SI2); [auto|discriminate|].
  assert (L2 : nxt sU < nxt s2) by lia.
  destruct (blk_set_sym s2 (nxt sU) true [2; 2] DComplex A2 dA2 G2 GO 1 0 1%Z 0%Z aC DFloat (mat_vec msym) SI2 W2 L2 eq_refl eq_refl) as
    (s3 & _ & _ & _ & E3 & _); [lia|lia|].
  exists s1, (nxt sU), s2, s3, (upd2 (fun i j => if Nat.eqb i j then mat_vec msym else mat_vec m1) 0 1 (mat_vec msym)).
  split; [exact E|].
  split. { apply (sd_upper _ _ _ s1 s2 s2 _ _ 0 1 0%Z 1%Z aB DFloat (mat_vec msym)); auto. apply sd_nil. }
  split. { apply (sd_lower _ _ _ s2 s3 s3 _ _ 1 0 1%Z 0%Z aC); auto. apply sd_nil. }
  split; [exact E3|]. vm_compute. reflexivity.
Qed.
(** C25, C26: diag(A, C), diag(A, B) *)
Definition dg (l : list addr) : st FQI := wr [map Some l].
Example ex_C25 : exists (s : st FQI) og ws hs A dts g, wfst s /\ ws <> [] /\ length hs = length ws /\
  rows s og = Some (tab (length ws) (fun i => Some (A i))) /\
  (forall i, i < length ws -> GoodD s (A i) (nth i ws 0) (nth i hs 0) (dts i) (g i)) /\
  (exists k, k < length ws /\ nth k ws 0 <> nth k hs 0) /\ sum_nat ws = 4 /\ sum_nat hs = 3.
Proof.
  exists (dg [aA; aC]), 0, [2; 2], [2; 1], (fun i => nth i [aA; aC] 0), (fun i => nth i [DComplex; DFloat] DInt),
    (fun i => nth i [mat_vec m1; mat_vec mrow] (fun x => x)).
  split; [apply wf_wr|]. split; [discriminate|]. split; [reflexivity|]. split; [reflexivity|].
  destruct heap as (_ & HA & HB & HC & _).
  split. { intros [|[|i]] Hi; cbn in Hi; try lia; (eapply GoodD_mono; [apply ext_wr0|]); assumption. }
  split; [exists 1; cbn; lia|split; reflexivity].
Qed.
Example ex_C26_run : let r := bdiag_op 0 (dg [aA; aB]) in let s := fst r in
  is_ok (match attrH s (okv 99 r) with Some h => apply 9 h (@mkarr FQI DComplex [qi 1 0; qi 1 0; qi 0 0; qi 1 0]) s
         | None => (s, Err AttributeError) end)
        (@mkarr FQI DComplex [qi 3 0; qi 1 0; qi 2 0; qi 3 0]) = true.
Proof. vm_compute. reflexivity. Qed.
(** C27: diag(A, B) (not symmetric), then D[-1] = A *)
Lemma ex_diag : forall a b m2 m3 d2 d3, GoodD sD a 2 2 d2 (mat_vec m2) -> GoodD sD b 2 2 d3 (mat_vec m3) ->
  let g := fun i => nth i [mat_vec m2; mat_vec m3] (fun x => x) in
  forall i, i < 2 -> GoodD (norows [0] (dg [a; b])) (nth i [a; b] 0) (nth i [2; 2] 0) (nth i [2; 2] 0) (nth i [d2; d3] DInt) (g i).
Proof.
  intros a b m2 m3 d2 d3 Ha Hb g [|[|i]] Hi; try lia; (eapply GoodD_mono; [apply ext_wr|]); assumption.
Qed.
Example ex_C27 : exists (s1 s2 : st FQI) D dt g g2,
  (exists i o, i < 2 /\ objs (dg [aA; aB]) (nth i [aA; aB] 0) = Some o /\ o_sym o = false) /\
  bdiag_op 0 (dg [aA; aB]) = (s1, Ok D) /\
  dedits D 0 0 [2; 2] [2; 2] dt s1 g s2 g2 /\
  keqb (nth 0 (g 1 [qi 0 0; qi 1 0]) k0) (nth 0 (g2 1 [qi 0 0; qi 1 0]) k0) = false.
Proof.
  destruct heap as (_ & HA & HB & _).
  assert (N : [2; 2] <> []) by discriminate.
  pose proof (ex_diag aA aB m1 msym DComplex DFloat HA HB) as GG. cbn zeta in GG.
  assert (FS : forall p : obj FQI -> bool, p (obD aA) = false -> exists i o, i < 2 /\ objs (dg [aA; aB]) (nth i [aA; aB] 0) = Some o /\ p o = false).
  { intros p Hp. exists 0, (obD aA). split; [lia|]. split; [apply ob_ok; cbn; auto|exact Hp]. }
  destruct (C27_assign FQI_OK (dg [aA; aB]) 0 [2; 2] (fun i => nth i [aA; aB] 0) (fun i => nth i [DComplex; DFloat] DInt)
    (fun i => nth i [mat_vec m1; mat_vec msym] (fun x => x)) (wf_wr _) N eq_refl GG) as (s1 & D & dt & E & H).
  { apply (FS o_sym). vm_compute. reflexivity. }
  { apply (FS o_herm). vm_compute. reflexivity. }
  destruct (bdiag_inv FQI_OK (dg [aA; aB]) 0 [2; 2] [2; 2] (fun i => nth i [aA; aB] 0) (fun i => nth i [DComplex; DFloat] DInt)
    (fun i => nth i [mat_vec m1; mat_vec msym] (fun x => x)) (wf_wr _) N eq_refl eq_refl GG) as (s1' & ob & b & bT & bH & dt' & A' & E' & X & _).
  assert (ES : s1' = s1) by congruence. assert (ED : D = nxt (dg [aA; aB])) by congruence. subst s1'. destruct (H s1 _ (dd_nil _ _ _ _ _ _ s1 _)) as (Y & _ & H3).
  assert (GB : GoodD (drop D (norows [0; 0] s1)) aA 2 2 DComplex (mat_vec m1)).
  { eapply GoodD_mono; [|exact HA]. rewrite ED. eapply ext_trans; [|apply ext_drops, norows_mono; exact X].
    apply ext_drop_fresh; [apply ext_wr|]. destruct heap as ((Hf & _) & _). apply Hf. cbn. lia. }
  assert (CD : is_complex dt = true).
  { destruct Y as (Y & _). clear - E Y. 
    assert (Q : match objs (fst (bdiag_op 0 (dg [aA; aB]))) (okv 99 (bdiag_op 0 (dg [aA; aB]))) with Some o => is_complex (o_dtype o) | None => false end = true)
      by (vm_compute; reflexivity).
    rewrite E in Q. unfold fst, okv, snd in Q. destruct Y as (o & Ho & _ & _ & Hd). rewrite Ho in Q. congruence. }
  destruct (H3 1 (-1)%Z aA DComplex (mat_vec m1) eq_refl GB (fun _ => CD)) as (s2 & A2 & _ & E2 & _).
  exists s1, s2, D, dt, (fun i => nth i [mat_vec m1; mat_vec msym] (fun x => x)). eexists.
  split; [apply (FS o_sym); vm_compute; reflexivity|]. split; [exact E|].
  split. { apply (dd_set _ _ _ _ _ _ s1 s2 s2 _ _ 1 (-1)%Z aA DComplex (mat_vec m1)); auto. apply dd_nil. }
  vm_compute. reflexivity.
Qed.
(** symmetric: diag(B, B), then D[1] = E, which is not symmetric *)
Example ex_C27_sym : exists (s1 s2 : st FQI) D b dt g g2,
  (forall i, i < 2 -> exists o, objs (dg [aB; aB]) (nth i [aB; aB] 0) = Some o /\ o_sym o = true) /\
  bdiag_op 0 (dg [aB; aB]) = (s1, Ok D) /\ b <> 0 /\
  dedits D 0 b [2; 2] [2; 2] dt s1 g s2 g2 /\
  ~ is_transpose 2 2 (g2 1) (g2 1).
Proof.
  destruct heap as (_ & _ & HB & _ & _ & HE).
  assert (N : [2; 2] <> []) by discriminate.
  pose proof (ex_diag aB aB msym msym DFloat DFloat HB HB) as GG. cbn zeta in GG.
  assert (FS : forall i, i < 2 -> exists o, objs (dg [aB; aB]) (nth i [aB; aB] 0) = Some o /\ o_sym o = true).
  { intros i Hi. exists (obD aB). replace (nth i [aB; aB] 0) with aB by (destruct i as [|[|i]]; [reflexivity|reflexivity|lia]).
    split; [apply ob_ok; cbn; auto|vm_compute; reflexivity]. }
  destruct (C27_symmetric FQI_OK (dg [aB; aB]) 0 [2; 2] (fun i => nth i [aB; aB] 0) (fun i => nth i [DFloat; DFloat] DInt)
    (fun i => nth i [mat_vec msym; mat_vec msym] (fun x => x)) (wf_wr _) N eq_refl GG FS) as (s1 & D & b & dt & E & Nb & H).
  destruct (H s1 _ (dd_nil _ _ _ _ _ _ s1 _)) as (_ & _ & _ & _ & H3).
  destruct (bdiag_inv FQI_OK (dg [aB; aB]) 0 [2; 2] [2; 2] (fun i => nth i [aB; aB] 0) (fun i => nth i [DFloat; DFloat] DInt)
    (fun i => nth i [mat_vec msym; mat_vec msym] (fun x => x)) (wf_wr _) N eq_refl eq_refl GG) as (s1' & ob & b' & bT & bH & dt' & A' & E' & X & _).
  assert (ES : s1' = s1) by congruence. assert (ED : D = nxt (dg [aB; aB])) by congruence. subst s1'.
  assert (GB : GoodD (drop D (norows [0; b] s1)) aE 2 2 DFloat (mat_vec mns)).
  { eapply GoodD_mono; [|exact HE]. rewrite ED. apply ext_drop_fresh.
    - destruct (ext_trans _ _ _ (ext_wr0 [map Some [aB; aB]]) X) as [X1 X2 X3]. constructor; [exact X1|exact X2|].
      intros l r Hr. rewrite rows_D in Hr. discriminate Hr.
    - destruct heap as ((Hf & _) & _). apply Hf. cbn. lia. }
  destruct (H3 1 1%Z aE DFloat (mat_vec mns) eq_refl GB) as (s2 & E2); [discriminate|].
  exists s1, s2, D, b, dt, (fun i => nth i [mat_vec msym; mat_vec msym] (fun x => x)).
  exists (upd1 (fun i => nth i [mat_vec msym; mat_vec msym] (fun x => x)) 1 (mat_vec mns)).
  split; [exact FS|]. split; [exact E|]. split; [exact Nb|].
  split. { apply (dd_set _ _ _ _ _ _ s1 s2 s2 _ _ 1 1%Z aE DFloat (mat_vec mns)); auto; [discriminate|apply dd_nil]. }
  intros C. specialize (C [qi 1 0; qi 0 0] [qi 0 0; qi 1 0] eq_refl eq_refl). vm_compute in C. discriminate C.
Qed.
End Ex.

Print Assumptions C20_product.
Print Assumptions C21_duals.
Print Assumptions C21_blocks.
Print Assumptions C22_shape_error.
Print Assumptions C22_unchecked.
Print Assumptions C23_symmetric.
Print Assumptions C23_second.
Print Assumptions C24_assign.
Print Assumptions C24_symmetric.
Print Assumptions C25_product.
Print Assumptions C26_square.
Print Assumptions C26_rectangular.
Print Assumptions C27_assign.
Print Assumptions C27_symmetric.
