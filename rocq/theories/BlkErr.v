(** * What block construction checks (blkop.py:47-115), for arbitrary operators as blocks. *)
From Coq Require Import List ZArith Lia Bool.
From Verif Require Import Base Field Vec LinopModel LinopFrame LinopGood LinopInit LinopDep LinopAlg
  LinopOps BlkSpec BlkModel BlkProof BlkSet.
Import ListNotations.

Lemma same_all_spec : forall l : list nat, l <> [] ->
  (same_all l = Ok tt /\ forall a b, In a l -> In b l -> a = b) \/
  (same_all l = Err ShapeError /\ exists a b, In a l /\ In b l /\ a <> b).
Proof.
  intros [|a l] N; [congruence|]. cbn. destruct (forallb (Nat.eqb a) l) eqn:E.
  - left. split; auto. rewrite forallb_forall in E.
    assert (H : forall b, a = b \/ In b l -> b = a).
    { intros b [->|Hb]; auto. apply E, Nat.eqb_eq in Hb. auto. }
    intros x y Hx Hy. rewrite (H x Hx), (H y Hy). auto.
  - right. split; auto. exists a.
    assert (H : exists b, In b l /\ a <> b).
    { clear N. induction l as [|c l IH]; [discriminate|]. cbn in E. destruct (Nat.eqb_spec a c) as [<-|Ne].
      - destruct (IH E) as (b & Hb & Nb). exists b. cbn; auto.
      - exists c. cbn; auto. }
    destruct H as (b & Hb & Nb). exists b. auto.
Qed.

Lemma oaddr_dec : forall x y : option addr, {x = y} + {x <> y}.
Proof. decide equality. apply Nat.eq_dec. Qed.

Section Err.
Context {F : Fld} (FOK : FldOK F).
Notation st := (st F). Notation obj := (obj F). Notation M := (M F). Notation arr := (arr F).
Notation map1 := (list F -> list F).

Lemma bind_err : forall A B (m : M A) (k : A -> M B) s s1 e,
  m s = (s1, Err e) -> bind m k s = (s1, Err e).
Proof. intros A B m k s s1 e H. unfold bind. now rewrite H. Qed.

(** the row lists [rs] hold the operators [R]; [ob a] is the object at [a] *)
Definition layout (s : st) (rs : list nat) (R : list (list addr)) : Prop :=
  Forall2 (fun r row => rows s r = Some (map Some row)) rs R.
Definition alive (s : st) (R : list (list addr)) (ob : addr -> obj) : Prop :=
  forall row a, In row R -> In a row -> objs s a = Some (ob a).
Definition wd (ob : addr -> obj) (a : addr) : nat := o_nargin (ob a).
Definition ht (ob : addr -> obj) (a : addr) : nat := o_nargout (ob a).

Lemma layout_rows : forall (s : st) rs R, layout s rs R -> mmap get_row rs s = (s, Ok (map (map Some) R)).
Proof.
  intros s rs R H. apply mmap_pure. induction H; cbn; constructor; auto. unfold get_row. now rewrite H.
Qed.
Lemma attr_list : forall B (p : obj -> B) ob (s : st) l, (forall a, In a l -> objs s a = Some (ob a)) ->
  mmap (blk_attr p) (map Some l) s = (s, Ok (map (fun a => p (ob a)) l)).
Proof.
  intros B p ob s l H. apply mmap_pure. induction l; cbn; constructor.
  - apply getattr_ok. apply H. now left.
  - apply IHl. intros. apply H. now right.
Qed.
Lemma attr_rows : forall B (p : obj -> B) ob (s : st) R, alive s R ob ->
  mmap (mmap (blk_attr p)) (map (map Some) R) s = (s, Ok (map (map (fun a => p (ob a))) R)).
Proof.
  intros B p ob s R H. apply mmap_pure. induction R as [|row R IH]; cbn; constructor.
  - apply attr_list. intros a Ha. apply (H row); [now left|auto].
  - apply IH. intros r a Hr Ha. apply (H r); [now right|auto].
Qed.

(** the two conditions that are checked *)
Definition col0_differ (ob : addr -> obj) (R : list (list addr)) : Prop :=
  exists r1 r2 a b, In (a :: r1) R /\ In (b :: r2) R /\ wd ob a <> wd ob b.
Definition row_differ (ob : addr -> obj) (R : list (list addr)) : Prop :=
  exists r a b, In r R /\ In a r /\ In b r /\ ht ob a <> ht ob b.
Definition ragged (R : list (list addr)) : Prop :=
  exists r1 r2, In r1 R /\ In r2 R /\ length r1 <> length r2.

Lemma heads_ok : forall B (p : addr -> B) (s : st) R d, ~ In [] R ->
  mmap (fun r => lift (head_r r)) (map (map p) R) s = (s, Ok (map (fun r => p (hd d r)) R)).
Proof.
  intros B p s R d H. apply mmap_pure. induction R as [|row R IH]; cbn; constructor.
  - destruct row; [exfalso; apply H; now left|reflexivity].
  - apply IH. intros Hi. apply H. now right.
Qed.
Lemma heads_err : forall B (p : addr -> B) (s : st) R, In [] R ->
  mmap (fun r => lift (head_r r)) (map (map p) R) s = (s, Err IndexError).
Proof.
  intros B p s R. induction R as [|row R IH]; [intros []|]. intros [->|H]; [reflexivity|].
  cbn [map mmap]. destruct row as [|a row]; [reflexivity|].
  erewrite bind_ok by reflexivity. erewrite bind_err by (apply IH; exact H). reflexivity.
Qed.
Lemma rows_same : forall ob (s : st) R, ~ In [] R ->
  (mfor (map (map (fun a => o_nargout (ob a))) R) (fun r => lift (same_all r)) s = (s, Ok tt) /\ ~ row_differ ob R) \/
  (mfor (map (map (fun a => o_nargout (ob a))) R) (fun r => lift (same_all r)) s = (s, Err ShapeError) /\ row_differ ob R).
Proof.
  intros ob s R. induction R as [|row R IH]; intros N.
  - left. split; auto. intros (r & a & b & [] & _).
  - assert (Nr : map (fun a => o_nargout (ob a)) row <> []).
    { destruct row; [exfalso; apply N; now left|discriminate]. }
    cbn [map mfor]. destruct (same_all_spec _ Nr) as [[E H]|[E (x & y & Hx & Hy & Ne)]]; rewrite E.
    + erewrite bind_ok by reflexivity. destruct IH as [[E2 H2]|[E2 H2]].
      { intros Hi. apply N. now right. }
      * left. split; auto. intros (r & a & b & [->|Hr] & Ha & Hb & Ne).
        -- apply Ne. apply H; apply (in_map (fun a => o_nargout (ob a))); auto.
        -- apply H2. exists r, a, b. auto.
      * right. split; auto. destruct H2 as (r & a & b & ? & ?). exists r, a, b. split; [now right|auto].
    + right. split; [reflexivity|]. apply in_map_iff in Hx, Hy. destruct Hx as (a & <- & Ha), Hy as (b & <- & Hb).
      exists row, a, b. split; [now left|auto].
Qed.

Lemma max_len_ge : forall R (row : list addr), In row R -> length row <= max_len (map (map Some) R).
Proof.
  intros R row. unfold max_len. induction R as [|r R IH]; [intros []|]. intros [->|H]; cbn.
  - rewrite map_length. lia.
  - specialize (IH H). lia.
Qed.
Lemma max_len_eq : forall R n, R <> [] -> (forall row : list addr, In row R -> length row = n) ->
  max_len (map (map Some) R) = n.
Proof.
  intros R n N H. apply Nat.le_antisymm.
  - clear N. unfold max_len. induction R as [|r R IH]; cbn; [lia|].
    rewrite map_length, (H r) by now left. assert (forall row, In row R -> length row = n) by (intros; apply H; now right).
    specialize (IH H0). lia.
  - destruct R as [|r R]; [congruence|]. rewrite <- (H r) by now left. apply max_len_ge. now left.
Qed.
Lemma ragged_none : forall R, ragged R -> exists c, c < max_len (map (map Some) R) /\ In None (column (map (map Some) R) c).
Proof.
  assert (W : forall R (r1 r2 : list addr), In r1 R -> In r2 R -> length r1 < length r2 ->
    exists c, c < max_len (map (map Some) R) /\ In None (column (map (map Some) R) c)).
  { intros R r1 r2 H1 H2 L. exists (length r1). split.
    - pose proof (max_len_ge R r2 H2). lia.
    - unfold column. apply in_map_iff. exists (map Some r1). split.
      + apply nth_overflow. rewrite map_length. lia.
      + now apply in_map. }
  intros R (r1 & r2 & H1 & H2 & N). destruct (Nat.lt_total (length r1) (length r2)) as [L|[L|L]]; eauto. congruence.
Qed.
Lemma column_some : forall R n c, (forall row : list addr, In row R -> length row = n) -> c < n ->
  column (map (map Some) R) c = map Some (map (fun row => nth c row 0) R).
Proof.
  intros R n c H Hc. unfold column. rewrite !map_map. apply map_ext_in. intros row Hr.
  rewrite (nth_indep _ None (Some 0)) by (rewrite map_length, (H row Hr); auto).
  now rewrite map_nth.
Qed.

Lemma attr_none : forall B (p : obj -> B) ob (s : st) l, (forall a, In (Some a) l -> objs s a = Some (ob a)) ->
  In None l -> mmap (blk_attr p) l s = (s, Err AttributeError).
Proof.
  intros B p ob s l H. induction l as [|x l IH]; [intros []|]. intros [->|Hi]; [reflexivity|].
  cbn [mmap]. destruct x as [a|]; [|reflexivity]. cbn [blk_attr].
  erewrite bind_ok by (apply getattr_ok, H; now left).
  erewrite bind_err by (apply IH; [intros; apply H; now right|exact Hi]). reflexivity.
Qed.
Lemma attr_cols_err : forall (p : obj -> option addr) ob (s : st) R, alive s R ob -> ragged R ->
  exists s', attr_cols p (map (map Some) R) s = (s', Err AttributeError).
Proof.
  intros p ob s R HA Hr. destruct (ragged_none R Hr) as (c & Hc & Hn).
  set (rows := map (map Some) R) in *.
  assert (Hal : forall c a, In (Some a) (column rows c) -> objs s a = Some (ob a)).
  { intros k a Ha. unfold column, rows in Ha. rewrite map_map in Ha. apply in_map_iff in Ha.
    destruct Ha as (row & E & Hi). destruct (Nat.lt_ge_cases k (length row)) as [L|L].
    - rewrite (nth_indep _ None (Some 0)) in E by (now rewrite map_length). rewrite map_nth in E. injection E as <-.
      apply (HA row); auto. now apply nth_In.
    - rewrite nth_overflow in E by (now rewrite map_length). discriminate. }
  unfold attr_cols.
  assert (Hi : In c (seq 0 (max_len rows))) by (apply in_seq; lia).
  revert Hi. generalize (seq 0 (max_len rows)). intros l.
  assert (G : forall s1, objs s1 = objs s -> In c l -> exists s', mmap (fun c0 => bind (mmap (blk_attr p) (column rows c0)) (fun l0 => new_row l0)) l s1
    = (s', Err AttributeError)).
  { induction l as [|k l IH]; [intros s1 _ []|]. intros s1 Es Hi. cbn [mmap].
    assert (Hal1 : forall a, In (Some a) (column rows k) -> objs s1 a = Some (ob a)) by (rewrite Es; apply Hal).
    destruct (in_dec oaddr_dec None (column rows k)) as [Hk|Hk].
    - exists s1. erewrite bind_err; [reflexivity|]. apply bind_err. apply (attr_none _ _ ob); auto.
    - destruct Hi as [->|Hi]; [contradiction|].
      assert (exists l0, column rows k = map Some l0) as [l0 El].
      { clear - Hk. induction (column rows k) as [|x t IHt]; [exists []; auto|].
        destruct IHt as [l0 ->]; [intros H; apply Hk; now right|]. destruct x as [a|]; [|exfalso; apply Hk; now left].
        exists (a :: l0). reflexivity. }
      destruct (IH (rowst (map (fun a => p (ob a)) l0) s1) Es Hi) as (s' & E').
      exists s'. erewrite bind_ok.
      2: { erewrite bind_ok; [reflexivity|]. rewrite El in *. apply (attr_list _ p ob). intros a Ha. apply Hal1.
           apply in_map_iff. eauto. }
      apply bind_err. exact E'. }
  apply G. reflexivity.
Qed.
Lemma attr_cols_all : forall (p : obj -> option addr) ob (s : st) R n, wfst s -> alive s R ob -> R <> [] ->
  (forall row, In row R -> length row = n) ->
  exists s' l, attr_cols p (map (map Some) R) s = (s', Ok l) /\ ext s s' /\ wfst s' /\
    objs s' = objs s /\ nxt s' = nxt s.
Proof.
  intros p ob s R n W HA N HR. unfold attr_cols. rewrite (max_len_eq R n N HR).
  rewrite <- (map_id (seq 0 n)), <- tab_map.
  destruct (mmap_new nat n (fun i => i) (fun c => map (fun a => p (ob a)) (map (fun row => nth c row 0) R))
    (fun c => bind (mmap (blk_attr p) (column (map (map Some) R) c)) (fun l => new_row l)) s W)
    as (s' & E & X & W' & O & Nx & _).
  { intros c s' Hc Es. rewrite (column_some R n c HR Hc).
    erewrite bind_ok; [reflexivity|]. apply (attr_list _ p ob). intros a Ha. apply in_map_iff in Ha.
    destruct Ha as (row & <- & Hr). rewrite Es. apply (HA row); auto. apply nth_In. rewrite <- (HR row Hr) in Hc. exact Hc. }
  exists s', (seq (nrow s) n). split; [exact E|]. auto.
Qed.

Lemma shapes_ok : forall (s : st) R ob, alive s R ob -> R <> [] -> ~ In [] R ->
  ~ col0_differ ob R -> ~ row_differ ob R ->
  block_shapes (map (map Some) R) s
  = (s, Ok (sum_nat (map (wd ob) (hd [] R)), sum_nat (map (fun r => ht ob (@hd addr 0 r)) R))).
Proof.
  intros s R ob HA N NI H1 H2. unfold block_shapes.
  erewrite bind_ok by (apply (attr_rows _ _ ob); exact HA).
  erewrite bind_ok by (apply (heads_ok _ _ _ _ 0); exact NI). cbv beta.
  set (f1 := map (fun r : list addr => o_nargin (ob (@hd addr 0 r))) R).
  assert (Nf : f1 <> []) by (unfold f1; destruct R; [congruence|discriminate]).
  destruct (same_all_spec f1 Nf) as [[E H]|[E (x & y & Hx & Hy & Ne)]].
  2: { exfalso. apply H1. apply in_map_iff in Hx, Hy. destruct Hx as (r1 & <- & Hx), Hy as (r2 & <- & Hy).
       destruct r1 as [|a r1]; [contradiction|]. destruct r2 as [|b r2]; [contradiction|].
       exists r1, r2, a, b. auto. }
  rewrite E. erewrite bind_ok by reflexivity.
  erewrite bind_ok by (apply (attr_rows _ _ ob); exact HA).
  destruct (rows_same ob s R NI) as [[E2 _]|[_ HX]]; [|contradiction].
  erewrite bind_ok by exact E2.
  assert (Eh : lift (head_r (map (map (fun a => o_nargin (ob a))) R)) s = (s, Ok (map (wd ob) (hd [] R)))).
  { destruct R as [|r R]; [congruence|]. reflexivity. }
  erewrite bind_ok by exact Eh.
  erewrite bind_ok by (apply (heads_ok _ _ _ _ 0); exact NI). reflexivity.
Qed.

(** ** Classification of the construction *)
Theorem build_err : forall sym herm (s : st) rs R ob, layout s rs R -> alive s R ob ->
  (R = [] -> exists s', block_build sym herm rs s = (s', Err ValueError)) /\
  (In [] R -> exists s', block_build sym herm rs s = (s', Err IndexError)) /\
  (R <> [] -> ~ In [] R ->
     (col0_differ ob R \/ row_differ ob R -> exists s', block_build sym herm rs s = (s', Err ShapeError)) /\
     (~ col0_differ ob R -> ~ row_differ ob R -> ragged R ->
        exists s', block_build sym herm rs s = (s', Err AttributeError))).
Proof.
  intros sym herm s rs R ob HL HA.
  unfold block_build. erewrite bind_ok by (apply layout_rows; exact HL).
  split; [|split].
  - intros ->. exists s. reflexivity.
  - intros Hi. exists s. apply bind_err. unfold block_shapes.
    erewrite bind_ok by (apply (attr_rows _ _ ob); exact HA).
    apply bind_err. now apply heads_err.
  - intros N NI.
    set (f1 := map (fun r : list addr => o_nargin (ob (@hd addr 0 r))) R).
    assert (Nf : f1 <> []) by (unfold f1; destruct R; [congruence|discriminate]).
    assert (HS : (col0_differ ob R /\ same_all f1 = Err ShapeError) \/ (~ col0_differ ob R /\ same_all f1 = Ok tt)).
    { destruct (same_all_spec f1 Nf) as [[E H]|[E (x & y & Hx & Hy & Ne)]].
      - right. split; auto. intros (r1 & r2 & a & b & H1 & H2 & Hn). apply Hn. apply H.
        + apply (in_map (fun r : list addr => o_nargin (ob (@hd addr 0 r)))) in H1. exact H1.
        + apply (in_map (fun r : list addr => o_nargin (ob (@hd addr 0 r)))) in H2. exact H2.
      - left. split; auto. apply in_map_iff in Hx, Hy. destruct Hx as (r1 & <- & H1), Hy as (r2 & <- & H2).
        destruct r1 as [|a r1]; [contradiction|]. destruct r2 as [|b r2]; [contradiction|].
        exists r1, r2, a, b. auto. }
    assert (HP : forall e s', (same_all f1 = Err e /\ s' = s) \/ (same_all f1 = Ok tt /\
        mfor (map (map (fun a => o_nargout (ob a))) R) (fun r => lift (same_all r)) s = (s', Err e)) ->
      block_shapes (map (map Some) R) s = (s', Err e)).
    { intros e s' HH. unfold block_shapes.
      erewrite bind_ok by (apply (attr_rows _ _ ob); exact HA).
      erewrite bind_ok by (apply (heads_ok _ _ _ _ 0); exact NI). cbv beta. fold f1.
      destruct HH as [[E ->]|[E E']]; rewrite E; [apply bind_err; reflexivity|].
      erewrite bind_ok by reflexivity.
      erewrite bind_ok by (apply (attr_rows _ _ ob); exact HA).
      apply bind_err. exact E'. }
    destruct (rows_same ob s R NI) as [[E2 H2]|[E2 H2]].
    + split.
      * intros [H|H]; [|contradiction]. destruct HS as [[_ E]|[H' _]]; [|contradiction].
        exists s. apply bind_err. apply HP. auto.
      * intros H1 _ Hr. destruct HS as [[H' _]|[_ E]]; [contradiction|].
        destruct (attr_cols_err o_T ob s R HA Hr) as (s' & E').
        pose proof (shapes_ok s R ob HA N NI H1 H2) as Ev.
        exists s'. erewrite bind_ok by exact Ev. apply bind_err. exact E'.
    + split.
      * intros _. exists s. apply bind_err. apply HP. destruct HS as [[_ E]|[_ E]]; auto.
      * intros _ H. contradiction.
Qed.

Theorem build_ok : forall sym herm (s : st) rs R ob, wfst s -> layout s rs R -> alive s R ob -> R <> [] -> ~ In [] R ->
  ~ col0_differ ob R -> ~ row_differ ob R -> ~ ragged R ->
  exists s' o bT bH dt, block_build sym herm rs s = (s', Ok (nxt s)) /\ ext s s' /\ wfst s' /\
    nxt s < nxt s' /\ objs s' (nxt s) = Some o /\
    o_pay o = PBlk (self_blocks sym herm dt rs bT bH) bT bH /\ o_dtype o = dt /\
    result_types (map (fun a => o_dtype (ob a)) (concat R)) = Ok dt /\
    desc s' (nxt s) (sum_nat (map (wd ob) (hd [] R))) (sum_nat (map (fun r => ht ob (@hd addr 0 r)) R))
      (CBlk WN (nxt s)) (Some (CBlk WT (nxt s))) (Some (CBlk WH (nxt s))) sym herm dt.
Proof.
  intros sym herm s rs R ob W HL HA N NI H1 H2 Hr.
  assert (HR : forall row, In row R -> length row = length (hd [] R)).
  { intros row Hi. destruct (Nat.eq_dec (length row) (length (hd [] R))); auto.
    exfalso. apply Hr. exists row, (hd [] R). split; auto. split; auto. destruct R; [congruence|now left]. }
  unfold block_build. erewrite bind_ok by (apply layout_rows; exact HL).
  erewrite bind_ok by (apply (shapes_ok _ _ ob); auto). cbn [fst snd].
  destruct (attr_cols_all o_T ob s R _ W HA N HR) as (s1 & bT & E1 & X1 & W1 & O1 & N1).
  erewrite bind_ok by exact E1.
  assert (HA1 : alive s1 R ob) by (unfold alive; rewrite O1; exact HA).
  destruct (attr_cols_all o_H ob s1 R _ W1 HA1 N HR) as (s2 & bH & E2 & X2 & W2 & O2 & N2).
  erewrite bind_ok by exact E2.
  assert (HA2 : alive s2 R ob) by (unfold alive; rewrite O2; exact HA1).
  rewrite <- concat_map. erewrite bind_ok.
  2: { apply (attr_list _ _ ob). intros a Ha. apply in_concat in Ha. destruct Ha as (row & Hr1 & Ha). eapply HA2; eauto. }
  assert (exists dt, result_types (map (fun a => o_dtype (ob a)) (concat R)) = Ok dt) as [dt Hdt].
  { destruct R as [|[|a r] R]; [congruence|exfalso; apply NI; now left|]. cbn. eauto. }
  rewrite Hdt. erewrite bind_ok by reflexivity. erewrite bind_ok by reflexivity.
  assert (NN : nxt s2 = nxt s) by congruence. rewrite NN.
  set (nin := sum_nat (map (wd ob) (hd [] R))). set (nout := sum_nat _).
  destruct (new_linop_desc s2 nin nout (CBlk WN (nxt s)) (Some (CBlk WT (nxt s)))
     (Some (CBlk WH (nxt s))) sym herm dt W2) as (s3 & E3 & X3 & W3 & L3 & D3 & (o & Ho & Hp & Hc)).
  rewrite NN in *.
  erewrite bind_ok by exact E3.
  erewrite bind_ok by (apply getattr_ok; exact Ho).
  erewrite bind_ok by (apply getattr_ok; exact Ho).
  erewrite bind_ok by (unfold modobj; rewrite Ho; reflexivity).
  destruct (desc_self _ _ _ _ _ _ _ _ _ _ _ D3 Ho) as (_ & _ & _ & _ & Hd & _ & HT & HH).
  rewrite HT, HH.
  set (b := if herm && negb (sym && is_complex dt) then bH else if sym then bT else rs).
  set (s4 := set_obj (nxt s) (with_pay (PBlk b bT bH) o) s3).
  exists s4, (with_pay (PBlk b bT bH) o), bT, bH, dt.
  assert (X4 : ext s2 s4).
  { apply ext_set_fresh; auto. apply (proj1 W2). lia. }
  split; [reflexivity|].
  split; [eapply ext_trans; [exact X1|]; eapply ext_trans; [exact X2|exact X4]|].
  split; [apply wf_set; auto|].
  split; [exact L3|].
  split; [apply get_set_eq|]. split; [reflexivity|]. split; [exact Hd|]. split; [auto|].
  now apply desc_pay.
Qed.

(** ** Unchecked widths: the product always raises *)
Lemma apply_bad_size : forall d (s : st) a o x, objs s a = Some o -> asize x <> o_nargin o ->
  exists s', apply (S d) a x s = (s', Err ValueError).
Proof.
  intros d s a o x Ho Hx. cbn [apply]. unfold mul_vector.
  erewrite bind_ok by (unfold bump, modobj; rewrite Ho; reflexivity).
  do 3 (erewrite bind_ok by (apply getattr_ok; apply get_set_eq)). cbn [o_nargin with_count].
  apply Nat.eqb_neq in Hx. rewrite Hx. cbn. eexists. reflexivity.
Qed.
(** the block denotes some linear map *)
Lemma blk_row_bad : forall ws d d' (s s' : st) h (A : nat -> addr) ob dts v f rt xdt (x acc : list F),
  (forall j, j < length ws -> objs s (A j) = Some (ob (A j)) /\ o_nargin (ob (A j)) = v j) ->
  (forall j, j < length ws -> apok d s (A j) (v j) h (dts j) (f j)) ->
  (is_complex rt = false -> is_complex xdt = false /\ forall j, j < length ws -> is_complex (dts j) = false) ->
  d <= d' -> 0 < d' -> ext s s' -> length x = sum_nat ws -> (is_complex xdt = false -> vreal x) ->
  length acc = h ->
  (exists j, j < length ws /\ v j <> nth j ws 0) ->
  exists s'', blk_row (apply d') rt xdt ws (tab (length ws) (fun j => Some (A j))) x acc s'
    = (s'', Err ValueError).
Proof.
  induction ws as [|w ws IH]; intros d d' s s' h A ob dts v f rt xdt x acc Hob Hap HC Hd Hd' E Hx Hr Ha (j & Hj & Hv);
    [cbn in Hj; lia|].
  cbn [length tab blk_row]. cbn in Hx. fold (sum_nat ws) in Hx.
  destruct (Nat.eq_dec (v 0) w) as [Ev|Nv].
  2: { destruct (Hob 0 ltac:(cbn; lia)) as [Ho Hn].
       destruct (ext_obj _ _ E _ _ Ho) as (o' & Ho' & S). destruct d' as [|d']; [lia|].
       destruct (apply_bad_size d' s' (A 0) o' (mkarr xdt (firstn w x)) Ho') as (s1 & E1).
       { unfold asize. cbn [adata]. rewrite (firstn_sum x w (sum_nat ws)) by auto.
         rewrite <- (stable_nargin _ _ S). congruence. }
       exists s1. cbn [ap_opt]. apply bind_err. exact E1. }
  destruct (Hap 0) as [L0 H0]; [cbn; lia|]. rewrite Ev in L0, H0.
  destruct (H0 d' s' (mkarr xdt (firstn w x)) Hd E) as (s1 & E1 & X1).
  { intro C. cbn. apply vreal_firstn. auto. }
  { unfold asize. cbn. eapply firstn_sum; eauto. }
  cbn [adt adata] in E1.
  assert (Lf : length (f 0 (firstn w x)) = h).
  { apply (lin_len _ _ _ L0). eapply firstn_sum; eauto. }
  assert (EA : add_into rt acc (mkarr (result_type (dts 0) xdt) (f 0 (firstn w x)))
             = Ok (vadd acc (f 0 (firstn w x)))).
  { unfold add_into. cbn [adt adata]. rewrite result_type_complex.
    unfold asize. cbn [adata]. rewrite Lf, Ha, Nat.eqb_refl.
    destruct (is_complex rt) eqn:C; cbn; auto.
    destruct (HC eq_refl) as [C1 C2]. rewrite C1, (C2 0) by (cbn; lia). reflexivity. }
  destruct (IH d d' s s1 h (fun j => A (S j)) ob (fun j => dts (S j)) (fun j => v (S j)) (fun j => f (S j)) rt xdt
     (skipn w x) (vadd acc (f 0 (firstn w x)))) as (s2 & E2); auto.
  - intros k Hk. apply (Hob (S k)). cbn; lia.
  - intros k Hk. apply (Hap (S k)). cbn; lia.
  - intros C. destruct (HC C) as [C1 C2]. split; auto. intros k Hk. apply C2. cbn; lia.
  - eapply skipn_sum; eauto.
  - intros C. apply vreal_skipn. auto.
  - rewrite vadd_length; congruence.
  - destruct j as [|j]; [cbn in Hv; congruence|]. exists j. split; [cbn in Hj; lia|exact Hv].
  - exists s2. cbn [ap_opt]. erewrite bind_ok by exact E1. rewrite EA.
    erewrite bind_ok by reflexivity. exact E2.
Qed.

Lemma differ_dec : forall n (f g : nat -> nat),
  (exists j, j < n /\ f j <> g j) \/ (forall j, j < n -> f j = g j).
Proof.
  induction n; intros f g; [right; intros; lia|].
  destruct (IHn f g) as [(j & Hj & Hn)|H].
  - left. exists j. split; [lia|auto].
  - destruct (Nat.eq_dec (f n) (g n)) as [E|E].
    + right. intros j Hj. destruct (Nat.eq_dec j n) as [->|]; auto. apply H. lia.
    + left. exists n. split; [lia|auto].
Qed.
Lemma blk_rows_bad : forall hs ws d d' (s s' : st) (A : nat -> nat -> addr) ob dts v G rt xdt x,
  (forall i j, i < length hs -> j < length ws ->
     objs s (A i j) = Some (ob (A i j)) /\ o_nargin (ob (A i j)) = v i j) ->
  (forall i j, i < length hs -> j < length ws -> apok d s (A i j) (v i j) (nth i hs 0) (dts i j) (G i j)) ->
  (is_complex rt = false -> is_complex xdt = false /\
     forall i j, i < length hs -> j < length ws -> is_complex (dts i j) = false) ->
  d <= d' -> 0 < d' -> ext s s' -> length x = sum_nat ws -> (is_complex xdt = false -> vreal x) ->
  (exists i j, i < length hs /\ j < length ws /\ v i j <> nth j ws 0) ->
  exists s'', blk_rows (apply d') rt xdt ws hs (cells (length hs) (length ws) A) x s' = (s'', Err ValueError).
Proof.
  induction hs as [|h hs IH]; intros ws d d' s s' A ob dts v G rt xdt x Hob Hap HC Hd Hd' E Hx Hr (i & j & Hi & Hj & Hv);
    [cbn in Hi; lia|].
  cbn [length cells tab blk_rows].
  assert (HC0 : is_complex rt = false -> is_complex xdt = false /\ forall j, j < length ws -> is_complex (dts 0 j) = false).
  { intros C. destruct (HC C) as [C1 C2]. split; auto. intros k Hk. apply C2; cbn; auto; lia. }
  destruct (differ_dec (length ws) (v 0) (fun j => nth j ws 0)) as [B|B].
  - destruct (blk_row_bad ws d d' s s' h (A 0) ob (dts 0) (v 0) (G 0) rt xdt x (vzero h)) as (s1 & E1); auto.
    { intros k Hk. apply (Hob 0 k); cbn; auto; lia. }
    { intros k Hk. apply (Hap 0 k); cbn; auto; lia. }
    { apply vzero_length. }
    exists s1. apply bind_err. exact E1.
  - destruct (blk_row_ok ws d d' s s' h (A 0) (dts 0) (G 0) rt xdt x (vzero h)) as (s1 & E1 & X1); auto.
    { intros k Hk. rewrite <- B by auto. apply (Hap 0 k); cbn; auto; lia. }
    { apply vzero_length. }
    destruct i as [|i]; [rewrite B in Hv by auto; congruence|].
    destruct (IH ws d d' s s1 (fun i => A (S i)) ob (fun i => dts (S i)) (fun i => v (S i)) (fun i => G (S i)) rt xdt x)
      as (s2 & E2); auto.
    { intros k l Hk Hl. apply (Hob (S k) l); cbn; auto; lia. }
    { intros k l Hk Hl. apply (Hap (S k) l); cbn; auto; lia. }
    { intros C. destruct (HC C) as [C1 C2]. split; auto. intros k l Hk Hl. apply C2; cbn; auto; lia. }
    { exists i, j. cbn in Hi. split; [lia|auto]. }
    exists s2. erewrite bind_ok by exact E1. apply bind_err. exact E2.
Qed.

Lemma grid_layout : forall (s : st) rs nr nc A, grid s rs nr nc A ->
  layout s rs (tab nr (fun i => tab nc (A i))).
Proof.
  intros s rs nr nc A [<- H]. unfold layout. rewrite <- (tab_nth _ rs 0) at 1.
  apply Forall2_tab. intros i Hi. rewrite (H i Hi), map_tab. reflexivity.
Qed.

Theorem widths_unchecked : forall (s : st) rs hs nc A v dts G, wfst s -> hs <> [] -> 0 < nc ->
  grid s rs (length hs) nc A ->
  (forall i j, i < length hs -> j < nc -> denotes s (A i j) (v i j) (nth i hs 0) (G i j) /\ dt_of s (A i j) (dts i j)) ->
  (forall i, i < length hs -> v i 0 = v 0 0) ->
  (exists i j, i < length hs /\ j < nc /\ v i j <> v 0 j) ->
  exists s' o d0, block_op false false rs s = (s', Ok (nxt s)) /\ ext s s' /\ wfst s' /\
    objs s' (nxt s) = Some o /\ o_nargin o = sum_nat (tab nc (v 0)) /\ o_nargout o = sum_nat hs /\
    forall d x, d0 <= d -> awf x -> asize x = o_nargin o ->
      exists s1, apply d (nxt s) x s' = (s1, Err ValueError).
Proof.
  intros s rs hs nc A v dts G W Nh Lc Gr HD H0 HV.
  assert (Lh : 0 < length hs) by (destruct hs; [congruence|cbn; lia]).
  set (R := tab (length hs) (fun i => tab nc (A i))).
  assert (exists ob : addr -> obj, forall i j, i < length hs -> j < nc -> objs s (A i j) = Some (ob (A i j))) as [ob Hob].
  { destruct (HD 0 0 Lh Lc) as [(o0 & _) _].
    exists (fun a => match objs s a with Some o => o | None => o0 end). intros i j Hi Hj.
    destruct (HD i j Hi Hj) as [(o & d & Ho & _) _]. now rewrite Ho. }
  assert (Hat : forall i j, i < length hs -> j < nc ->
     o_nargin (ob (A i j)) = v i j /\ o_nargout (ob (A i j)) = nth i hs 0 /\ o_dtype (ob (A i j)) = dts i j).
  { intros i j Hi Hj. destruct (HD i j Hi Hj) as [(o & d & Ho & Hn & Hm & _) (o' & Ho' & Hd)].
    rewrite Hob in Ho, Ho' by auto. injection Ho as <-. injection Ho' as <-. auto. }
  assert (HR : forall row, In row R -> exists i, i < length hs /\ row = tab nc (A i)).
  { intros row Hr. apply In_tab in Hr. destruct Hr as (i & Hi & E). eauto. }
  assert (HRa : forall i a, i < length hs -> In a (tab nc (A i)) -> exists j, j < nc /\ a = A i j).
  { intros i a Hi Ha. apply In_tab in Ha. destruct Ha as (j & Hj & E). eauto. }
  destruct (build_ok false false s rs R ob) as (s' & o & bT & bH & dt & E & X & W' & L & Ho & Hp & Hd & Hdt & D); auto.
  { now apply grid_layout. }
  { intros row a Hr Ha. destruct (HR row Hr) as (i & Hi & ->). destruct (HRa i a Hi Ha) as (j & Hj & ->). auto. }
  { unfold R. destruct (length hs); [lia|discriminate]. }
  { intros Hi. destruct (HR [] Hi) as (i & _ & Ei). destruct nc; [lia|discriminate]. }
  { intros (r1 & r2 & a & b & H1 & H2 & Hn). destruct (HR _ H1) as (i & Hi & Ei), (HR _ H2) as (k & Hk & Ek).
    destruct nc as [|nc']; [lia|]. cbn [tab] in Ei, Ek. injection Ei as -> _. injection Ek as -> _.
    apply Hn. unfold wd. rewrite (proj1 (Hat i 0 Hi ltac:(lia))), (proj1 (Hat k 0 Hk ltac:(lia))). rewrite (H0 i Hi), (H0 k Hk). reflexivity. }
  { intros (r & a & b & Hr & Ha & Hb & Hn). destruct (HR r Hr) as (i & Hi & ->).
    destruct (HRa i a Hi Ha) as (j & Hj & ->), (HRa i b Hi Hb) as (k & Hk & ->).
    apply Hn. unfold ht. rewrite (proj1 (proj2 (Hat i j Hi Hj))), (proj1 (proj2 (Hat i k Hi Hk))). auto. }
  { intros (r1 & r2 & H1 & H2 & Hn). destruct (HR r1 H1) as (i & Hi & ->), (HR r2 H2) as (k & Hk & ->).
    apply Hn. now rewrite !tab_length. }
  destruct (desc_self _ _ _ _ _ _ _ _ _ _ _ D Ho) as (Hin & Hout & _ & _ & _ & Hmv & _).
  assert (E1 : map (wd ob) (hd [] R) = tab nc (v 0)).
  { unfold R. destruct (length hs); [lia|]. cbn [tab hd]. rewrite map_tab. apply tab_ext. intros j Hj.
    apply (Hat 0 j); lia. }
  assert (E2 : map (fun r => ht ob (@hd addr 0 r)) R = hs).
  { unfold R. rewrite map_tab. rewrite <- (tab_nth _ hs 0) at 2. apply tab_ext. intros i Hi.
    destruct nc; [lia|]. cbn [tab hd]. apply (Hat i 0); auto; lia. }
  rewrite E1 in Hin. rewrite E2 in Hout. set (ws := tab nc (v 0)) in *.
  assert (Lw : length ws = nc) by apply tab_length.
  assert (Nw : forall j, j < nc -> nth j ws 0 = v 0 j) by (intros; now apply nth_tab).
  destruct (fam_fuel (length hs) nc
     (fun i j d => apok d s (A i j) (v i j) (nth i hs 0) (dts i j) (G i j))) as [d Hap].
  { intros. eapply apok_fuel; eauto. }
  { intros i j Hi Hj. destruct (HD i j Hi Hj). eapply apok_den; eauto. }
  exists s', o, (S (S d)).
  split; [exact E|]. split; [exact X|]. split; auto. split; auto. split; auto. split; auto.
  intros d' x Hd' Hx Hl. destruct d' as [|d']; [lia|]. cbn [apply]. unfold mul_vector.
  set (o1 := with_count (S (o_count o)) o). set (s1 := set_obj (nxt s) o1 s').
  assert (X1 : ext s s1).
  { eapply ext_trans; [exact X|]. apply ext_bump. exact Ho. }
  erewrite bind_ok by (unfold bump, modobj; rewrite Ho; reflexivity). fold o1. fold s1.
  assert (Ho1 : objs s1 (nxt s) = Some o1) by apply get_set_eq.
  do 3 (erewrite bind_ok by (apply getattr_ok; exact Ho1)).
  change (o_nargin o1) with (o_nargin o). rewrite Hl, Nat.eqb_refl. cbn [negb].
  erewrite bind_ok by (apply getattr_ok; exact Ho1). change (o_mv o1) with (o_mv o). rewrite Hmv.
  assert (SZ : forall i j, i < length hs -> j < nc -> exists oo, objs s1 (A i j) = Some oo /\
     o_nargin oo = v i j /\ o_nargout oo = nth i hs 0).
  { intros i j Hi Hj. destruct (ext_obj _ _ X1 _ _ (Hob i j Hi Hj)) as (oo & Hoo & S).
    exists oo. rewrite <- (stable_nargin _ _ S), <- (stable_nargout _ _ S). split; auto. split; apply Hat; auto. }
  assert (CC : is_complex (result_type dt (adt x)) = false -> is_complex (adt x) = false /\
      forall i j, i < length hs -> j < nc -> is_complex (dts i j) = false).
  { rewrite result_type_complex. intros C. apply orb_false_elim in C. destruct C as [C1 C2]. split; auto.
    intros i j Hi Hj. destruct (is_complex (dts i j)) eqn:Cd; auto.
    rewrite <- C1. symmetry. eapply result_types_in; [exact Hdt| |exact Cd].
    rewrite <- (proj2 (proj2 (Hat i j Hi Hj))). apply (in_map (fun a => o_dtype (ob a))). apply in_concat.
    exists (tab nc (A i)). split; apply In_tab; eauto. }
  destruct (blk_rows_bad hs ws d d' s s1 A ob dts v G (result_type dt (adt x)) (adt x) (adata x)) as (s2 & Eb).
  { rewrite Lw. intros i j Hi Hj. split; [auto|]. apply Hat; auto. }
  { rewrite Lw. auto. }
  { rewrite Lw. exact CC. }
  { lia. } { lia. } { exact X1. } { unfold asize in Hl. congruence. } { exact Hx. }
  { destruct HV as (i & j & Hi & Hj & Hn). exists i, j. rewrite Lw, Nw by auto. auto. }
  exists s2. apply bind_err.
  cbn [call]. erewrite bind_ok by (apply getattr_ok; exact Ho1). change (o_pay o1) with (o_pay o). rewrite Hp.
  erewrite bind_ok by (apply getattr_ok; exact Ho1). change (o_dtype o1) with (o_dtype o). rewrite Hd.
  cbn [self_blocks andb].
  erewrite bind_ok by (apply grid_rows; eapply grid_mono; [exact X1|exact Gr]).
  unfold blk_matvec.
  erewrite bind_ok by (apply (cells_attr _ _ v); intros i j Hi Hj; destruct (SZ i j Hi Hj) as (oo & ? & ? & ?); eauto).
  erewrite bind_ok by (apply (cells_attr _ _ (fun i _ => nth i hs 0)); intros i j Hi Hj; destruct (SZ i j Hi Hj) as (oo & ? & ? & ?); eauto).
  assert (Eh : lift (head_r (tab (length hs) (fun i => tab nc (v i)))) s1 = (s1, Ok ws)).
  { destruct (length hs); [lia|]. reflexivity. }
  erewrite bind_ok by exact Eh.
  assert (Eg : mmap (fun r => lift (head_r r)) (tab (length hs) (fun i => tab nc (fun _ => nth i hs 0))) s1 = (s1, Ok hs)).
  { rewrite (tab_heads _ _ nc (fun i _ => nth i hs 0)) by auto. now rewrite tab_nth. }
  erewrite bind_ok by exact Eg.
  rewrite Hl, Hin, Nat.eqb_refl. cbn [negb]. rewrite Lw in Eb. apply bind_err. exact Eb.
Qed.
End Err.
