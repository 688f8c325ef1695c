(** * Symmetric layouts that are rejected (blkop.py:24-42, 60-67). *)
From Coq Require Import List ZArith Lia Bool.
From Verif Require Import Base Field Vec LinopModel LinopFrame LinopGood LinopInit LinopDep LinopAlg
  LinopOps BlkSpec BlkModel BlkProof BlkSet BlkSym BlkErr.
Import ListNotations.

Section SymErr.
Context {F : Fld} (FOK : FldOK F).
Notation st := (st F). Notation obj := (obj F). Notation M := (M F). Notation arr := (arr F).

(** ** The diagonal blocks must carry the flags *)
Definition flagged (sym herm : bool) (o : obj) : bool :=
  (negb sym || o_sym o) && (negb herm || o_herm o).
Lemma check_diag_run : forall sym herm (s : st) r a row o, rows s r = Some (Some a :: row) ->
  objs s a = Some o ->
  check_diag sym herm r s = (s, if flagged sym herm o then Ok tt else Err ValueError).
Proof.
  intros sym herm s r a row o Hr Ho. unfold check_diag, flagged.
  erewrite bind_ok by (unfold get_row; rewrite Hr; reflexivity).
  cbn [head_r]. erewrite bind_ok by reflexivity. cbn [blk_attr].
  destruct sym; cbn [negb orb andb].
  - destruct (o_sym o) eqn:E.
    + erewrite bind_ok.
      2: { erewrite bind_ok by (apply getattr_ok; exact Ho). rewrite E. reflexivity. }
      destruct herm; cbn; [|reflexivity].
      erewrite bind_ok by (apply getattr_ok; exact Ho). destruct (o_herm o); reflexivity.
    + apply bind_err. erewrite bind_ok by (apply getattr_ok; exact Ho). rewrite E. reflexivity.
  - erewrite bind_ok by reflexivity. destruct herm; cbn; [|reflexivity].
    erewrite bind_ok by (apply getattr_ok; exact Ho). destruct (o_herm o); reflexivity.
Qed.
Theorem diag_unflagged : forall sym herm (s : st) rs r0 rest, sym || herm = true ->
  rs = r0 :: rest ->
  (forall r, In r rs -> exists a row o, rows s r = Some (Some a :: row) /\ objs s a = Some o) ->
  (exists row0, rows s r0 = Some row0 /\ length row0 = length rs) ->
  (exists r a row o, In r rs /\ rows s r = Some (Some a :: row) /\ objs s a = Some o /\
     ((sym = true /\ o_sym o = false) \/ (herm = true /\ o_herm o = false))) ->
  block_op sym herm rs s = (s, Err ValueError).
Proof.
  intros sym herm s rs r0 rest SH Ers HA (row0 & Hr0 & L0) (r & a & row & o & Hi & Hr & Ho & Hf).
  unfold block_op. rewrite SH. apply bind_err. unfold sym_layout.
  assert (Hh : lift (head_r rs) s = (s, Ok r0)) by (subst rs; reflexivity).
  erewrite bind_ok by exact Hh.
  erewrite bind_ok by (unfold get_row; rewrite Hr0; reflexivity).
  rewrite L0, Nat.eqb_refl. cbn [negb]. apply bind_err.
  clear Hh Ers L0. revert HA Hi. induction rs as [|r1 rs IH]; [intros _ []|]. intros HA Hi.
  destruct (HA r1 ltac:(now left)) as (a1 & row1 & o1 & Hr1 & Ho1). cbn [mfor].
  destruct (flagged sym herm o1) eqn:Fl.
  - erewrite bind_ok by (rewrite (check_diag_run _ _ _ _ _ _ _ Hr1 Ho1), Fl; reflexivity).
    destruct Hi as [->|Hi].
    + rewrite Hr in Hr1. injection Hr1 as <- <-. rewrite Ho in Ho1. injection Ho1 as <-.
      unfold flagged in Fl. destruct Hf as [[-> E]|[-> E]]; rewrite E in Fl; cbn in Fl; try discriminate.
      destruct (negb sym || o_sym o); discriminate.
    + apply IH; auto. intros; apply HA; now right.
  - apply bind_err. rewrite (check_diag_run _ _ _ _ _ _ _ Hr1 Ho1), Fl. reflexivity.
Qed.
Theorem sym_not_square : forall sym herm (s : st) rs r0 rest row0, sym || herm = true ->
  rs = r0 :: rest -> rows s r0 = Some row0 -> length row0 <> length rs ->
  block_op sym herm rs s = (s, Err ShapeError).
Proof.
  intros sym herm s rs r0 rest row0 SH -> Hr0 L0. unfold block_op. rewrite SH. apply bind_err.
  unfold sym_layout. erewrite bind_ok by reflexivity.
  erewrite bind_ok by (unfold get_row; rewrite Hr0; reflexivity).
  destruct (Nat.eqb_spec (length (r0 :: rest)) (length row0)); [congruence|]. reflexivity.
Qed.

(** ** A second construction with the same lists *)
Lemma bind_inv : forall A B (m : M A) (k : A -> M B) s s' v, bind m k s = (s', Ok v) ->
  exists s1 a, m s = (s1, Ok a) /\ k a s1 = (s', Ok v).
Proof. intros A B m k s s' v H. unfold bind in H. destruct (m s) as [s1 [a|e]]; [eauto|discriminate]. Qed.
Lemma mmap_inv : forall A B (f : A -> M B) l s s' v, mmap f l s = (s', Ok v) ->
  forall a, In a l -> exists s1 s2 w, f a s1 = (s2, Ok w).
Proof.
  induction l as [|x l IH]; intros s s' v H a; [intros []|]. cbn [mmap] in H.
  apply bind_inv in H. destruct H as (s1 & w & E1 & H).
  apply bind_inv in H. destruct H as (s2 & ws & E2 & H).
  intros [->|Hi]; eauto.
Qed.
(** rows of different lengths never build *)
Lemma ragged_raises : forall sym herm (s : st) rs, 
  (exists i j r1 r2, In i rs /\ In j rs /\ rows s i = Some r1 /\ rows s j = Some r2 /\ length r1 < length r2) ->
  exists s' e, block_build sym herm rs s = (s', Err e).
Proof.
  intros sym herm s rs (i & j & r1 & r2 & Hi & Hj & R1 & R2 & L).
  destruct (block_build sym herm rs s) as [s' [v|e]] eqn:E; [|eauto]. exfalso.
  unfold block_build in E. apply bind_inv in E. destruct E as (s1 & rws & E1 & E).
  assert (HR : s1 = s /\ forall k r, In k rs -> rows s k = Some r -> In r rws).
  { clear E Hi Hj. revert rws E1. induction rs as [|k rs IH]; intros rws E1.
    - cbn in E1. injection E1 as <- <-. split; [reflexivity|intros k r []].
    - cbn [mmap] in E1. apply bind_inv in E1. destruct E1 as (sa & r & Ea & E1).
      apply bind_inv in E1. destruct E1 as (sb & rs' & Eb & E1). injection E1 as -> <-.
      unfold get_row in Ea. destruct (rows s k) as [rk|] eqn:Ek; [|discriminate]. injection Ea as <- <-.
      destruct (IH _ Eb) as [-> H]. split; auto. intros k' r' [<-|Hk] Hr.
      + rewrite Ek in Hr. injection Hr as <-. now left.
      + right. eauto. }
  destruct HR as [-> HR].
  apply bind_inv in E. destruct E as (s2 & sh & E2 & E).
  apply bind_inv in E. destruct E as (s3 & bT & E3 & _).
  unfold attr_cols in E3.
  assert (M1 : forall r, In r rws -> length r <= max_len rws).
  { clear. unfold max_len. induction rws as [|x l IH]; [intros r []|]. intros r [->|Hr]; cbn; [lia|].
    specialize (IH r Hr). lia. }
  pose proof (M1 r2 (HR _ _ Hj R2)) as M2.
  destruct (mmap_inv _ _ _ _ _ _ _ E3 (length r1)) as (sa & sb & w & Ew). { apply in_seq. lia. }
  apply bind_inv in Ew. destruct Ew as (sc & l & El & _).
  destruct (mmap_inv _ _ _ _ _ _ _ El None) as (sd & se & t & Et).
  { unfold column. apply in_map_iff. exists r1. split; [now apply nth_overflow|eauto]. }
  discriminate.
Qed.
Lemma fill1_run : forall sym rs i j (s s' : st), fill1 sym rs i j s = (s', Ok tt) ->
  exists ri row t, nth_error rs i = Some ri /\ rows s ri = Some row /\
    rows s' ri = Some (t :: row) /\ (forall l, l <> ri -> rows s' l = rows s l).
Proof.
  intros sym rs i j s s' H. unfold fill1 in H.
  assert (HL : forall A (r : res A) sa sb v, lift (F:=F) r sa = (sb, Ok v) -> sb = sa /\ r = Ok v).
  { intros A r sa sb v E. unfold lift in E. destruct r; injection E as <- E; [subst; auto|discriminate]. }
  assert (HG : forall r sa sb v, get_row (F:=F) r sa = (sb, Ok v) -> sb = sa /\ rows sa r = Some v).
  { intros r sa sb v E. unfold get_row in E. destruct (rows sa r); [injection E as <- <-; auto|discriminate]. }
  assert (HB : forall A (p : obj -> A) b sa sb v, blk_attr p b sa = (sb, Ok v) -> sb = sa).
  { intros A p b sa sb v E. destruct b as [a|]; [|discriminate]. unfold blk_attr, getattr in E.
    destruct (objs sa a); [injection E as <- _; auto|discriminate]. }
  apply bind_inv in H. destruct H as (s1 & rj & E1 & H). apply HL in E1. destruct E1 as [-> E1].
  apply bind_inv in H. destruct H as (s2 & row & E2 & H). apply HG in E2. destruct E2 as [-> E2].
  apply bind_inv in H. destruct H as (s3 & b & E3 & H). apply HL in E3. destruct E3 as [-> E3].
  apply bind_inv in H. destruct H as (s4 & t & E4 & H). apply HB in E4. subst s4.
  apply bind_inv in H. destruct H as (s5 & ri & E5 & H). apply HL in E5. destruct E5 as [-> E5].
  apply bind_inv in H. destruct H as (s6 & row' & E6 & H). apply HG in E6. destruct E6 as [-> E6].
  unfold nth_r in E5. destruct (nth_error rs i) as [ri'|] eqn:En; [|discriminate]. injection E5 as ->.
  unfold set_row in H. injection H as <-.
  exists ri, row', t. split; auto. split; auto. cbn. unfold upd. rewrite Nat.eqb_refl. split; auto.
  intros l Hl. apply Nat.eqb_neq in Hl. now rewrite Hl.
Qed.
Lemma fill_row_other : forall sym rs i l js (s s' : st), mfor js (fill1 sym rs i) s = (s', Ok tt) ->
  nth_error rs i <> Some l -> rows s' l = rows s l.
Proof.
  induction js as [|j js IH]; intros s s' H N.
  - injection H as <-. reflexivity.
  - cbn [mfor] in H. apply bind_inv in H. destruct H as (s1 & [] & E1 & H).
    rewrite (IH _ _ H N). destruct (fill1_run _ _ _ _ _ _ E1) as (ri & row & t & En & _ & _ & Ho).
    apply Ho. congruence.
Qed.
Lemma fill_rows_other : forall sym rs l is (s s' : st), mfor is (fill_row sym rs) s = (s', Ok tt) ->
  (forall i, In i is -> nth_error rs i <> Some l) -> rows s' l = rows s l.
Proof.
  induction is as [|i is IH]; intros s s' H N.
  - injection H as <-. reflexivity.
  - cbn [mfor] in H. apply bind_inv in H. destruct H as (s1 & [] & E1 & H).
    rewrite (IH _ _ H) by (intros; apply N; now right). unfold fill_row in E1.
    eapply fill_row_other; [exact E1|]. apply N. now left.
Qed.
Theorem second_raises : forall sym herm (s : st) r0 r1 rest row0 row1, sym || herm = true ->
  NoDup (r0 :: r1 :: rest) -> rows s r0 = Some row0 -> rows s r1 = Some row1 ->
  length row0 = length row1 ->
  exists s' e, block_op sym herm (r0 :: r1 :: rest) s = (s', Err e).
Proof.
  intros sym herm s r0 r1 rest row0 row1 SH ND H0 H1 L. set (rs := r0 :: r1 :: rest) in *.
  destruct (block_op sym herm rs s) as [s' [v|e]] eqn:E; [|eauto]. exfalso.
  unfold block_op in E. rewrite SH in E. apply bind_inv in E. destruct E as (s1 & [] & E1 & E2).
  enough (exists s2 e, block_build sym herm rs s1 = (s2, Err e)) as (s2 & e & E') by congruence.
  apply ragged_raises.
  unfold sym_layout in E1. apply bind_inv in E1. destruct E1 as (sa & x & Ea & E1). injection Ea as <- <-.
  apply bind_inv in E1. destruct E1 as (sb & y & Eb & E1).
  unfold get_row in Eb. rewrite H0 in Eb. injection Eb as <- <-.
  destruct (negb _); [discriminate|].
  apply bind_inv in E1. destruct E1 as (sc & [] & Ec & E1).
  assert (HC : forall l (sx sy : st), mfor l (check_diag sym herm) sx = (sy, Ok tt) -> sy = sx).
  { induction l as [|r l IH]; intros sx sy H; [injection H; auto|]. cbn [mfor] in H.
    apply bind_inv in H. destruct H as (sz & [] & Ez & H). rewrite (IH _ _ H). clear - Ez.
    unfold check_diag in Ez.
    apply bind_inv in Ez. destruct Ez as (s1 & row & E1 & Ez). unfold get_row in E1.
    destruct (rows sx r) as [rr|]; [|discriminate]. injection E1 as <- <-.
    apply bind_inv in Ez. destruct Ez as (s2 & b & E2 & Ez). unfold lift in E2.
    destruct (head_r rr) as [bb|]; [|discriminate]. injection E2 as <- <-.
    assert (HF : forall (p : obj -> bool) (sA sB : st), bind (blk_attr p bb) (fun f => if f then ret tt else raise ValueError) sA
       = (sB, Ok tt) -> sB = sA).
    { intros p sA sB H. apply bind_inv in H. destruct H as (s3 & f & E3 & H). destruct bb as [a|]; [|discriminate].
      unfold blk_attr, getattr in E3. destruct (objs sA a) as [o|]; [|discriminate]. injection E3 as <- <-.
      destruct (p o); [injection H; auto|discriminate]. }
    apply bind_inv in Ez. destruct Ez as (s3 & [] & E3 & Ez).
    assert (s3 = sx) as -> by (destruct sym; [eapply HF; eauto|injection E3; auto]).
    destruct herm; [eapply HF; eauto|injection Ez; auto]. }
  apply HC in Ec. subst sc.
  unfold fill in E1. cbn [length rs] in E1. replace (S (S (length rest)) - 1) with (S (length rest)) in E1 by lia.
  cbn [seq mfor] in E1. apply bind_inv in E1. destruct E1 as (sd & [] & Ed & E1).
  assert (Ro : rows s1 r1 = rows sd r1).
  { eapply fill_rows_other; [exact E1|]. intros i Hi En. apply in_seq in Hi.
    assert (i = 1); [|lia]. apply (proj1 (NoDup_nth_error rs) ND).
    - apply nth_error_Some. congruence.
    - rewrite En. reflexivity. }
  assert (R0 : rows s1 r0 = Some row0).
  { rewrite (fill_rows_other _ _ r0 _ _ _ E1), (fill_row_other _ _ _ r0 _ _ _ Ed); auto.
    - cbn. intros En. injection En as En. apply (proj1 (NoDup_cons_iff _ _) ND). left. auto.
    - intros i Hi En. apply in_seq in Hi. assert (i = 0); [|lia]. apply (proj1 (NoDup_nth_error rs) ND).
      + apply nth_error_Some. congruence.
      + rewrite En. reflexivity. }
  unfold fill_row in Ed. cbn [seq rev app mfor] in Ed.
  apply bind_inv in Ed. destruct Ed as (se & [] & Ed & E'). injection E' as <-.
  destruct (fill1_run _ _ _ _ _ _ Ed) as (ri & row & t & En & Hr & Hr' & _).
  cbn in En. injection En as <-. rewrite H1 in Hr. injection Hr as <-.
  exists r0, r1, row0, (t :: row1). split; [now left|]. split; [right; now left|].
  split; auto. split; [congruence|]. cbn. lia.
Qed.

Lemma ext_norows : forall rs (s s' : st), ext (norows rs s) s' -> ext (norows rs s) (norows rs s').
Proof.
  intros rs s s' [E1 E2 E3]. constructor; auto. intros l r H. cbn [norows rows].
  destruct (norows_in rs s l r H) as [N _]. destruct (existsb (Nat.eqb l) rs) eqn:Ex.
  - exfalso. apply N. apply existsb_exists in Ex. destruct Ex as (x & Hx & Ex). apply Nat.eqb_eq in Ex. now subst.
  - apply E3. exact H.
Qed.
End SymErr.
