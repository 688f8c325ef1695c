(** * C92: negative, repeated and out-of-range indices in reduced and coordinate operators
    (pykrylov/linop/linop.py:560-685).

    Vocabulary: [wrap n i] is the entry that index i selects in an array of n entries (negative
    indices count from the end); [gath], [scat] (LinopBase.v): y[idx], and z = zeros(n); z[idx] = x. *)
From Coq Require Import List ZArith Lia Bool Ring.
From Verif Require Import Base Field Vec LinopModel LinopFrame LinopGood LinopInit LinopDep LinopAlg
  LinopOps LinopExpr LinopPtr LinopExtra LinopUser LinopBase LinopMat LinopMisc LinopAlias Cplx
  BlkErr PropLinop.
Import ListNotations.

(** ** Model: coordinate operators with signed indices *)
Section Model.
Context {F : Fld}.
Notation arr := (@arr F).
Notation M := (@M F).
(** x[i] *)
Definition zget (x : list F) (i : Z) : res F :=
  match npindex (length x) i with Some k => Ok (nth k x k0) | None => Err IndexError end.
(** y[i] += v *)
Definition zadd_at (y : list F) (i : Z) (v : F) : res (list F) :=
  match npindex (length y) i with
  | Some k => Ok (set_nth y k (kadd (nth k y k0) v))
  | None => Err IndexError
  end.
(** the loop of CoordLinearOperator's matvec, linop.py:657-663; the test [row != col] compares the
    indices as they were given *)
Fixpoint zcoord_loop (sym : bool) (ts : list (F * Z * Z)) (x y : list F) : res (list F) :=
  match ts with
  | [] => Ok y
  | (v, r, c) :: ts' =>
      rbind (zget x c) (fun xc =>
      rbind (zadd_at y r (kmul v xc)) (fun y1 =>
      if sym && negb (Z.eqb r c) then
        rbind (zget x r) (fun xr =>
        rbind (zadd_at y1 c (kmul v xr)) (fun y2 => zcoord_loop sym ts' x y2))
      else zcoord_loop sym ts' x y1))
  end.
(** linop.py:649-664 *)
Definition zcoord_matvec (nin nout : nat) (sym : bool) (vdt : dtype) (ts : list (F * Z * Z))
  (x : arr) : res arr :=
  if negb (Nat.eqb (asize x) nin) then Err ShapeError
  else rbind (zcoord_loop sym ts (adata x) (vzero nout))
             (fun y => Ok (mkarr (result_type (adt x) vdt) y)).
Definition zswap (t : F * Z * Z) : F * Z * Z := let '(v, r, c) := t in (v, c, r).
(** linop.py:666-681: the same loop on swapped triples *)
Definition zcoord_matvec_t (nin nout : nat) (sym : bool) (vdt : dtype) (ts : list (F * Z * Z))
  (y : arr) : res arr := zcoord_matvec nout nin sym vdt (map zswap ts) y.
(** linop.py:638-685 with [nargin] and [nargout] given *)
Definition zcoord_op (vdt : dtype) (ts : list (F * Z * Z)) (nin nout : nat) (sym : bool) : M addr :=
  new_linop nin nout (CUser (zcoord_matvec nin nout sym vdt ts))
            (Some (CUser (zcoord_matvec_t nin nout sym vdt ts))) None sym false vdt.
End Model.

Section Index.
Context {F : Fld} (FOK : FldOK F).
Add Ring fring : (fk_ring F FOK).
Notation arr := (@arr F).
Notation st := (@st F).
Notation map1 := (list F -> list F).

(** ** z[idx] = x : the last of repeated indices wins *)
Fixpoint lastpos (c : list nat) (j : nat) : option nat :=
  match c with
  | [] => None
  | i :: c' => match lastpos c' j with
               | Some p => Some (S p)
               | None => if Nat.eqb i j then Some 0 else None
               end
  end.
Lemma nscatter_nth : forall c (x z z' : list F), nscatter c x z = Ok z' ->
  length z' = length z /\ length x = length c /\
  forall j, nth j z' k0 = match lastpos c j with Some p => nth p x k0 | None => nth j z k0 end.
Proof.
  induction c as [|i c IH]; intros [|v x] z z' E; cbn [nscatter] in E; try discriminate.
  - injection E as <-. auto.
  - destruct (Nat.ltb_spec i (length z)) as [L|L]; [|discriminate].
    destruct (IH _ _ _ E) as (L1 & L2 & H). rewrite set_nth_length in L1. cbn [length].
    split; auto. split; auto. intros j. rewrite H. cbn [lastpos].
    destruct (lastpos c j); auto. rewrite (nth_set_nth z i j v L), Nat.eqb_sym.
    destruct (Nat.eqb i j); auto.
Qed.
Lemma lastpos_none : forall c j, lastpos c j = None <-> ~ In j c.
Proof.
  induction c as [|i c IH]; intros j; cbn; [intuition|].
  destruct (lastpos c j) eqn:E.
  - split; [discriminate|]. intros H. exfalso. apply H. right.
    destruct (in_dec Nat.eq_dec j c) as [I|I]; auto. apply IH in I. congruence.
  - apply IH in E. destruct (Nat.eqb_spec i j); split; intros H; auto; try discriminate; try tauto.
Qed.
Lemma lastpos_some : forall c j p, lastpos c j = Some p ->
  p < length c /\ nth p c 0 = j /\ forall q, p < q -> q < length c -> nth q c 0 <> j.
Proof.
  induction c as [|i c IH]; intros j p E; cbn in E; [discriminate|].
  destruct (lastpos c j) eqn:El.
  - injection E as <-. destruct (IH j n El) as (A & B & C). cbn. split; [lia|]. split; auto.
    intros [|q] H1 H2; [lia|]. apply C; lia.
  - apply lastpos_none in El. destruct (Nat.eqb_spec i j); [|discriminate]. injection E as <-.
    cbn. split; [lia|]. split; auto. intros [|q] H1 H2 H3; [lia|]. apply El. rewrite <- H3.
    apply nth_In. lia.
Qed.
Definition rng (len : nat) (c : list nat) : Prop := forall i, In i c -> i < len.
Lemma scat_nth : forall len c (x : list F), length x = length c -> rng len c ->
  length (scat len c x) = len /\
  forall j, nth j (scat len c x) k0 = match lastpos c j with Some p => nth p x k0 | None => k0 end.
Proof.
  intros len c x Hx H. destruct (scat_ok len c x Hx H) as [E L].
  destruct (nscatter_nth _ _ _ _ E) as (_ & _ & N). split; auto.
  intros j. rewrite N, nth_vzero. auto.
Qed.
Lemma nth_vadd : forall (x y : list F) j, length x = length y ->
  nth j (vadd x y) k0 = kadd (nth j x k0) (nth j y k0).
Proof.
  induction x as [|a x IH]; intros [|b y] [|j] L; cbn in *; try discriminate; try ring; apply IH; lia.
Qed.
Lemma nth_vscale : forall k (x : list F) j, nth j (vscale k x) k0 = kmul k (nth j x k0).
Proof. induction x as [|a x IH]; intros [|j]; cbn; try ring; auto. Qed.
Lemma nth_vconj : forall (x : list F) j, nth j (vconj x) k0 = kconj (nth j x k0).
Proof. intros x j. unfold vconj. rewrite <- (map_nth kconj), (conj0 FOK). auto. Qed.
Lemma vadd_len : forall (x y : list F), length x = length y -> length (vadd x y) = length x.
Proof. induction x as [|a x IH]; intros [|b y] L; cbn in *; try discriminate; auto; f_equal; apply IH; lia. Qed.
Lemma scat_lin' : forall len c, rng len c -> linmap (length c) len (@scat F len c).
Proof.
  intros len c H. constructor.
  - intros x Hx. now apply scat_nth.
  - intros x y Hx Hy. assert (Ha : length (vadd x y) = length c) by (rewrite vadd_len; congruence).
    destruct (scat_nth len c _ Hx H) as [L1 N1]. destruct (scat_nth len c _ Hy H) as [L2 N2].
    destruct (scat_nth len c _ Ha H) as [L3 N3].
    apply nth_ext with k0 k0; [rewrite vadd_len; congruence|]. intros j _.
    rewrite nth_vadd by congruence. rewrite N1, N2, N3. destruct (lastpos c j).
    + apply nth_vadd; congruence. + ring.
  - intros k x Hx. assert (Ha : length (vscale k x) = length c) by (unfold vscale; now rewrite map_length).
    destruct (scat_nth len c _ Hx H) as [L1 N1]. destruct (scat_nth len c _ Ha H) as [L3 N3].
    apply nth_ext with k0 k0; [rewrite vscale_length; congruence|]. intros j _.
    rewrite nth_vscale, N1, N3. destruct (lastpos c j); [apply nth_vscale|ring].
Qed.
Lemma scat_real' : forall len c, rng len c -> real_map (length c) (@scat F len c).
Proof.
  intros len c H x Hx. assert (Ha : length (vconj x) = length c) by (unfold vconj; now rewrite map_length).
  destruct (scat_nth len c _ Hx H) as [L1 N1]. destruct (scat_nth len c _ Ha H) as [L3 N3].
  apply nth_ext with k0 k0; [rewrite vconj_length; congruence|]. intros j _.
  rewrite nth_vconj, N1, N3. destruct (lastpos c j); [apply nth_vconj|symmetry; apply (conj0 FOK)].
Qed.

Lemma wrng : forall len idx, (forall i, In i idx -> inz len i) -> rng len (map (wrap len) idx).
Proof. exact wrap_lt. Qed.

Lemma red_cden : forall (s : st) w a o t ins outs n m (f : map1),
  objs s a = Some o -> (n, m) = (match w with WN => (o_nargin o, o_nargout o) | _ => (o_nargout o, o_nargin o) end) ->
  wtgt s w a t -> denotes s t n m f -> (forall i, In i ins -> inz n i) -> (forall i, In i outs -> inz m i) ->
  cden s (CRed w a ins outs) (length (map (wrap n) ins))
    (fun x => gath (map (wrap m) outs) (f (scat n (map (wrap n) ins) x))).
Proof.
  intros s w a o t ins outs n m f Ho Hnm Hw D Hi Ho2.
  destruct (ap_w_den _ _ _ _ _ _ _ Hw D) as [d H].
  exists d. intros x Hx Hl. cbn [call]. unfold red_matvec.
  destruct (scat_ok n (map (wrap n) ins) (adata x) Hl (wrng _ _ Hi)) as [E L].
  destruct (H d s (mkarr (adt x) (scat n (map (wrap n) ins) (adata x))) (le_n _) (ext_refl _)) as (s2 & y & Ha & Hy & _ & Ly & _).
  { intro C. unfold vreal. cbn [adata adt] in *. rewrite <- (scat_real' n (map (wrap n) ins) (wrng _ _ Hi)) by auto. f_equal. now apply Hx. }
  { exact L. }
  exists s2. eexists. split.
  - do 2 (erewrite bind_ok by (apply getattr_ok; exact Ho)).
    replace (match w with WN => o_nargin o | _ => o_nargout o end) with n by (destruct w; congruence).
    erewrite bind_ok by (unfold lift; rewrite scatter_wrap; rewrite vzero_length; [rewrite E; reflexivity|apply Hi]).
    erewrite bind_ok by exact Ha.
    erewrite bind_ok by (unfold lift; rewrite gather_wrap; unfold asize in Ly; rewrite Ly; [reflexivity|auto]).
    reflexivity.
  - cbn. now rewrite Hy.
Qed.
Lemma red_lin : forall n m (f : map1) c r, linmap n m f -> rng n c ->
  linmap (length c) (length r) (fun x => gath r (f (scat n c x))).
Proof.
  intros n m f c r L H. apply (lin_comp _ m _ (gath r) (fun x => f (scat n c x))); [apply gath_lin; auto|].
  apply (lin_comp _ n _ f (scat n c)); auto using scat_lin'.
Qed.
Lemma red_real : forall n m (f : map1) c r, linmap n m f -> rng n c -> real_map n f ->
  real_map (length c) (fun x => gath r (f (scat n c x))).
Proof.
  intros n m f c r L H R x Hx. rewrite (scat_real' n c H) by auto.
  rewrite R by (now apply scat_nth). apply (gath_real FOK m r). apply (lin_len _ _ _ L). now apply scat_nth.
Qed.
Lemma red_denotes : forall (s : st) w a o t b ins outs n m (f : map1) dt sy he T H,
  has s b (length ins) (length outs) sy he dt (CRed w a ins outs) T H ->
  objs s a = Some o -> (n, m) = (match w with WN => (o_nargin o, o_nargout o) | _ => (o_nargout o, o_nargin o) end) ->
  wtgt s w a t -> denotes s t n m f -> dt_of s t dt ->
  (forall i, In i ins -> inz n i) -> (forall i, In i outs -> inz m i) ->
  denotes s b (length ins) (length outs) (fun x => gath (map (wrap m) outs) (f (scat n (map (wrap n) ins) x))).
Proof.
  intros s w a o t b ins outs n m f dt sy he T H Hb Ho Hnm Hw D Dt Hi Ho2.
  assert (L := denotes_lin _ _ _ _ _ D).
  rewrite <- (map_length (wrap n) ins), <- (map_length (wrap m) outs) in *.
  eapply (has_denotes FOK); [exact Hb|apply red_lin with m; auto using wrng| |eapply red_cden; eauto].
  intros C. apply red_real with m; auto using wrng.
  destruct D as (o1 & d & Ho1 & _ & _ & _ & R & _). apply R. destruct Dt as (o2 & Ho3 & <-).
  rewrite Ho1 in Ho3; injection Ho3 as <-. auto.
Qed.

(** ** Reduced operators: the three objects *)
Lemma reduced_objs : forall (s : st) a n m dt f ri ci, wfst s -> GoodD s a n m dt f ->
  exists s' b t h Tt Ht Th Hh sy he, reduced_op a ri ci s = (s', Ok b) /\ ext s s' /\ wfst s' /\
    has s' b (length ci) (length ri) false false dt (CRed WN a ci ri) (Some t) (Some h) /\
    has s' t (length ri) (length ci) sy he dt (CRed WT a ri ci) Tt Ht /\
    has s' h (length ri) (length ci) sy he dt (CRed WH a ri ci) Th Hh.
Proof.
  intros s a n m dt f ri ci W G. pose proof G as [_ [Dt _]].
  destruct (Dts_dt _ _ _ Dt) as (o & Ho & Hd).
  destruct (new_linop_desc s (length ci) (length ri) (CRed WN a ci ri) (Some (CRed WT a ri ci))
     (Some (CRed WH a ri ci)) false false dt W) as (s' & E & X & W' & L & D & _).
  unfold desc in D. destruct (is_complex dt).
  - destruct D as (t & h & q & H1 & H2 & H3 & _). exists s', (nxt s), t, h. do 6 eexists.
    split; [unfold reduced_op; erewrite bind_ok by (apply getattr_ok; exact Ho); rewrite Hd; exact E|]. eauto.
  - destruct D as (t & h & H1 & H2 & H3 & _). exists s', (nxt s), t, h. do 6 eexists.
    split; [unfold reduced_op; erewrite bind_ok by (apply getattr_ok; exact Ho); rewrite Hd; exact E|]. eauto.
Qed.
Lemma has_attrT : forall (s : st) b n m sy he dt c t h,
  has s b n m sy he dt c (Some t) (Some h) -> attrT s b = Some t /\ attrH s b = Some h.
Proof.
  intros s b n m sy he dt c t h (o & Ho & _ & _ & _ & _ & _ & _ & Ht & Hh). unfold attrT, attrH.
  rewrite Ho. auto.
Qed.
Lemma has_dt : forall (s : st) b n m sy he dt c T H, has s b n m sy he dt c T H -> dt_of s b dt.
Proof. intros s b n m sy he dt c T H (o & Ho & _ & _ & _ & _ & Hd & _). exists o; auto. Qed.

(** All indices in range, repetitions allowed: the three products are these maps. *)
Theorem C92_in_range : forall (s : st) a n m dt f ri ci, wfst s -> GoodD s a n m dt f ->
  (forall i, In i ri -> - Z.of_nat m <= i < Z.of_nat m)%Z ->
  (forall j, In j ci -> - Z.of_nat n <= j < Z.of_nat n)%Z ->
  let R := map (wrap m) ri in let C := map (wrap n) ci in
  exists s' b t h g gH, reduced_op a ri ci s = (s', Ok b) /\ attrT s' b = Some t /\ attrH s' b = Some h /\
    is_transpose n m f g /\ is_adjoint n m f gH /\
    yields s' b (length ci) (length ri) dt (fun x => gath R (f (scat n C x))) /\
    yields s' t (length ri) (length ci) dt (fun y => gath C (g (scat m R y))) /\
    yields s' h (length ri) (length ci) dt (fun y => gath C (gH (scat m R y))).
Proof.
  intros s a n m dt f ri ci W G Hr Hc R C.
  destruct (reduced_objs s a n m dt f ri ci W G) as (s' & b & t & h & Tt & Ht & Th & Hh & sy & he & E & X & W' & H1 & H2 & H3).
  apply (GoodD_mono _ _ _ _ _ _ _ X) in G. pose proof G as [Gd [Dt Ac]].
  destruct (Good_attr _ _ _ _ _ Gd) as (o & Ho & Hn & Hm & _).
  destruct (Good_T _ _ _ _ _ Gd) as (t0 & g & Wt & Gt & Tr).
  destruct (Good_H _ _ _ _ _ Gd) as (h0 & gH & Wh & Gh & Ad).
  destruct (has_attrT _ _ _ _ _ _ _ _ _ _ H1) as [A1 A2].
  exists s', b, t, h, g, gH. do 5 (split; [assumption|]).
  split; [|split]; (apply yields_den; [|eapply has_dt; eauto]).
  - apply (red_denotes s' WN a o a b ci ri n m f dt false false (Some t) (Some h)); auto;
      [congruence|now apply Good_den|now apply Dts_dt].
  - apply (red_denotes s' WT a o t0 t ri ci m n g dt sy he Tt Ht); auto; try congruence;
      [now apply Good_den|]. apply Dts_dt. eapply Dts_w; eauto.
  - apply (red_denotes s' WH a o h0 h ri ci m n gH dt sy he Th Hh); auto; try congruence;
      [now apply Good_den|]. apply Dts_dt. eapply Dts_w; eauto.
Qed.

(** z = zeros(n); z[idx] = x: entry j is the entry of x at the last position where idx is j *)
Theorem C92_last_wins : forall len c (x : list F) j, length x = length c -> (forall i, In i c -> i < len) ->
  (~ In j c -> nth j (scat len c x) k0 = k0) /\
  (forall p, p < length c -> nth p c 0 = j -> (forall q, p < q -> q < length c -> nth q c 0 <> j) ->
     nth j (scat len c x) k0 = nth p x k0).
Proof.
  intros len c x j Hx H. destruct (scat_nth len c x Hx H) as [_ N]. rewrite N. split.
  - intros Hj. apply lastpos_none in Hj. now rewrite Hj.
  - intros p Hp Ej Hq. destruct (lastpos c j) eqn:E.
    + destruct (lastpos_some _ _ _ E) as (A & B & D). destruct (Nat.lt_trichotomy p n) as [L|[L|L]].
      * exfalso. eapply Hq; eauto. * now subst. * exfalso. eapply D; eauto.
    + apply lastpos_none in E. exfalso. apply E. rewrite <- Ej. now apply nth_In.
Qed.

(** ** Repeated columns *)
Definition later (c : list nat) (p : nat) : Prop := exists q, p < q /\ q < length c /\ nth q c 0 = nth p c 0.
Lemma dot_nscatter : forall c (x z z' w : list F), length w = length z -> length x = length c ->
  (forall i, In i c -> nth i z k0 = k0 \/ nth i w k0 = k0) -> nscatter c x z = Ok z' ->
  (forall p, later c p -> nth (nth p c 0) w k0 = k0) ->
  dot w z' = kadd (dot w z) (dot (gath c w) x).
Proof.
  induction c as [|i c IH]; intros [|v x] z z' w Lw Lx Hz E Hp; cbn [nscatter length] in *; try discriminate.
  - injection E as <-. cbn. ring.
  - destruct (Nat.ltb_spec i (length z)) as [L|L]; [|discriminate].
    assert (D : dot w (set_nth z i v) = kadd (dot w z) (kmul (nth i w k0) v)).
    { destruct (Hz i (or_introl eq_refl)) as [Z|Z]; [apply (dot_set_nth FOK); auto|].
      rewrite Z. clear - L Lw Z FOK. revert z i L Lw Z. induction w as [|a w IHw]; intros [|b z] i L Lw Z; cbn in *; try lia.
      destruct i; cbn in *; [subst a; ring|]. rewrite (IHw z i) by (auto; lia). ring. }
    rewrite (IH x (set_nth z i v) z' w); auto.
    + rewrite D. unfold gath. cbn. ring.
    + now rewrite set_nth_length.
    + intros k Hk. rewrite nth_set_nth by auto. destruct (Nat.eqb_spec k i) as [->|Ne].
      * right. apply In_nth with (d := 0) in Hk. destruct Hk as (q & Hq & Eq).
        apply (Hp 0). exists (S q). cbn. split; [lia|]. split; [lia|auto].
      * apply Hz. cbn; auto.
    + intros p (q & H1 & H2 & H3). apply (Hp (S p)). exists (S q). cbn. split; [lia|]. split; [lia|auto].
Qed.

(** With distinct rows, the .T of the reduced operator is its transpose exactly when the columns
    selected more than once vanish on the selected rows. *)
Theorem C92_repeated_columns : forall n m (f g : map1) R C, linmap n m f -> linmap m n g -> is_transpose n m f g ->
  NoDup R -> (forall i, In i R -> i < m) -> (forall j, In j C -> j < n) ->
  (is_transpose (length C) (length R) (fun x => gath R (f (scat n C x))) (fun y => gath C (g (scat m R y))) <->
   forall p, (exists q, p < q /\ q < length C /\ nth q C 0 = nth p C 0) ->
     forall r, r < length R -> nth (nth r R 0) (f (unitv n (nth p C 0))) k0 = k0).
Proof.
  intros n m f g R C Lf Lg Tr ND HR HC.
  assert (LR : forall y, length y = length R -> length (scat m R y) = m) by (intros; now apply scat_nth).
  assert (LC : forall x, length x = length C -> length (scat n C x) = n) by (intros; now apply scat_nth).
  assert (Ent : forall y p, length y = length R -> nth p C 0 < n ->
    nth (nth p C 0) (g (scat m R y)) k0 = dot y (gath R (f (unitv n (nth p C 0))))).
  { intros y p Hy Hp. rewrite (nth_unitv FOK n) by (auto; apply Lg; auto).
    rewrite <- (Tr (unitv n (nth p C 0)) (scat m R y)) by auto using unitv_length.
    rewrite (dot_comm FOK), (tr_gath_scat FOK m R (conj ND HR)); [apply (dot_comm FOK)|auto|].
    apply Lf, unitv_length. }
  split.
  - intros T p (q & Hpq & Hq & Eq) r Hr.
    assert (Hp : p < length C) by lia. assert (Rp : nth p C 0 < n) by (apply HC, nth_In; auto).
    assert (Z : scat n C (@unitv F (length C) p) = vzero n).
    { destruct (scat_nth n C (@unitv F (length C) p) (unitv_length _ _) HC) as [L N].
      apply nth_ext with k0 k0; [rewrite vzero_length; auto|]. intros j _. rewrite N, nth_vzero.
      destruct (lastpos C j) eqn:El; auto. destruct (lastpos_some _ _ _ El) as (A & B & D).
      unfold unitv. rewrite (nth_indep _ k0 (if Nat.eqb p 0 then k1 else k0)) by (rewrite map_length, seq_length; auto).
      rewrite (map_nth (fun j => if Nat.eqb p j then k1 else k0)), seq_nth by auto. cbn.
      destruct (Nat.eqb_spec p n0) as [->|]; auto. exfalso. apply (D q); auto. congruence. }
    specialize (T (unitv (length C) p) (unitv (length R) r) (unitv_length _ _) (unitv_length _ _)). cbn beta in T.
    rewrite <- (nth_unitv FOK (length C)) in T by (auto using gath_length).
    rewrite Z in T.
    assert (Zf : f (vzero n) = vzero m).
    { assert (Lz := lin_len _ _ _ Lf (vzero n) (vzero_length n)).
      assert (Ez : f (vscale k0 (vzero n)) = vscale k0 (f (vzero n))) by (apply (lin_scale _ _ _ Lf), vzero_length).
      assert (Es : forall k (x : list F), length x = k -> vscale k0 x = vzero k).
      { clear - FOK. intros k x <-. induction x as [|a x IH]; cbn; auto. f_equal; [ring|]. exact IH. }
      rewrite (Es n), (Es m) in Ez by (auto using vzero_length). exact Ez. }
    rewrite Zf in T. assert (Zg : gath R (@vzero F m) = vzero (length R)).
    { apply nth_ext with k0 k0; [now rewrite gath_length, vzero_length|]. intros j _. rewrite nth_vzero.
      unfold gath. destruct (Nat.lt_ge_cases j (length R)).
      - rewrite (nth_indep _ k0 (nth 0 (@vzero F m) k0)) by (rewrite map_length; auto).
        rewrite (map_nth (fun i => nth i (@vzero F m) k0)). apply nth_vzero.
      - apply nth_overflow. rewrite map_length. lia. }
    rewrite Zg, (dot_zero_r FOK) in T.
    assert (T2 : nth p (gath C (g (scat m R (unitv (length R) r)))) k0 = nth (nth p C 0) (g (scat m R (unitv (length R) r))) k0).
    { unfold gath. rewrite (nth_indep _ k0 (nth 0 (g (scat m R (unitv (length R) r))) k0)) by (rewrite map_length; auto).
      apply (map_nth (fun i => nth i (g (scat m R (unitv (length R) r))) k0)). }
    rewrite T2, Ent in T by auto using unitv_length.
    rewrite (dot_comm FOK), <- (nth_unitv FOK (length R)) in T by auto using gath_length.
    rewrite <- (map_nth (fun i => nth i (f (unitv n (nth p C 0))) k0) R 0 r).
    rewrite (nth_indep _ _ k0) by (rewrite map_length; auto). symmetry. exact T.
  - intros H x y Hx Hy.
    destruct (scat_ok n C x Hx HC) as [E L].
    assert (K : dot (g (scat m R y)) (scat n C x) = dot (gath C (g (scat m R y))) x).
    { rewrite (dot_nscatter C x (vzero n) _ (g (scat m R y))); eauto.
      - rewrite (dot_zero_r FOK). ring.
      - rewrite vzero_length. apply Lg; auto.
      - intros; left; apply nth_vzero.
      - intros p Hp. assert (Rp : nth p C 0 < n) by (destruct Hp as (q & ? & ? & <-); apply HC, nth_In; auto).
        rewrite Ent by auto. replace (gath R (f (unitv n (nth p C 0)))) with (@vzero F (length R)).
        + apply (dot_zero_r FOK).
        + apply nth_ext with k0 k0; [now rewrite gath_length, vzero_length|]. intros j Hj.
          rewrite vzero_length in Hj. rewrite nth_vzero. unfold gath.
          rewrite (nth_indep _ k0 (nth 0 (f (unitv n (nth p C 0))) k0)) by (rewrite map_length; auto).
          rewrite (map_nth (fun i => nth i (f (unitv n (nth p C 0))) k0)). symmetry. apply (H p Hp j Hj). }
    rewrite <- K, <- (Tr (scat n C x) (scat m R y)) by auto.
    rewrite (dot_comm FOK y), (dot_comm FOK (scat m R y)). symmetry. apply (tr_gath_scat FOK m R (conj ND HR)); auto.
    apply Lf; auto.
Qed.

(** ** Indices out of range *)
(** every product with u raises e, changes counters only and counts itself *)
Definition raises (s : st) (u : addr) (k : nat) (e : exn) : Prop :=
  exists d, forall d' s2 (x : arr), d <= d' -> ext s s2 -> awf x -> asize x = k ->
    exists s3 o o3, apply d' u x s2 = (s3, Err e) /\ cle s2 s3 /\
      objs s2 u = Some o /\ objs s3 u = Some o3 /\ o_count o < o_count o3.

Lemma scatter_oob : forall idx (x z : list F), length x = length idx ->
  (exists i, In i idx /\ ~ inz (length z) i) -> scatter idx x z = Err IndexError.
Proof.
  induction idx as [|j idx IH]; intros [|v x] z L (i & Hi & Ho); cbn [scatter length In] in *; try discriminate; try tauto.
  destruct (npindex (length z) j) eqn:E; auto. apply IH; [lia|]. exists i. rewrite set_nth_length. split; auto.
  destruct Hi as [->|Hi]; auto. rewrite npindex_none in E by auto. discriminate.
Qed.
Lemma gather_oob : forall idx (y : list F), (exists i, In i idx /\ ~ inz (length y) i) -> gather idx y = Err IndexError.
Proof.
  induction idx as [|j idx IH]; intros y (i & Hi & Ho); cbn [gather In] in *; try tauto.
  destruct (npindex (length y) j) eqn:E; auto. destruct Hi as [->|Hi].
  - rewrite npindex_none in E by auto. discriminate.
  - rewrite IH by eauto. reflexivity.
Qed.
Lemma inz_dec : forall len idx, {forall i, In i idx -> inz len i} + {exists i, In i idx /\ ~ inz len i}.
Proof.
  intros len. induction idx as [|j idx IH]; [left; intros ? []|].
  assert (D : {inz len j} + {~ inz len j}).
  { unfold inz. destruct (Z_le_dec (- Z.of_nat len) j), (Z_lt_dec j (Z.of_nat len)); [left|right|right|right]; lia. }
  destruct D as [D|D]; [|right; exists j; cbn; auto].
  destruct IH as [IH|IH]; [left; intros i [<-|Hi]; auto|right]. destruct IH as (i & Hi & Ho). exists i; cbn; auto.
Qed.
Lemma red_raises : forall (s : st) w a o t b ins outs n m (f : map1) dt sy he T H,
  has s b (length ins) (length outs) sy he dt (CRed w a ins outs) T H ->
  objs s a = Some o -> (n, m) = (match w with WN => (o_nargin o, o_nargout o) | _ => (o_nargout o, o_nargin o) end) ->
  wtgt s w a t -> denotes s t n m f ->
  (exists i, In i ins /\ ~ inz n i) \/ (exists i, In i outs /\ ~ inz m i) ->
  raises s b (length ins) IndexError.
Proof.
  intros s w a o t b ins outs n m f dt sy he T H Hb Ho Hnm Hw D Bad.
  destruct (ap_w_den _ _ _ _ _ _ _ Hw D) as [d Hd].
  exists (S d). intros [|d'] s2 x Ld X Hx Hl; [lia|].
  destruct Hb as (ob & Hob & Hn & Hm & _ & _ & _ & Hmv & _).
  destruct (ext_obj _ _ X _ _ Hob) as (o2 & Ho2 & S2).
  destruct (apply (S d') b x s2) as [s3 r] eqn:Ea.
  assert (C := frame_apply _ _ _ _ _ _ Ea).
  set (o3 := with_count (S (o_count o2)) o2).
  set (s2' := set_obj b o3 s2).
  assert (Ho3 : objs s2' b = Some o3) by apply get_set_eq.
  assert (X2 : ext s s2').
  { eapply ext_trans; [exact X|]. apply cle_ext. apply (frame_bump b s2 s2' (Ok tt)). unfold bump, modobj. rewrite Ho2. reflexivity. }
  destruct (ext_obj _ _ X2 _ _ Ho) as (oa & Hoa & Sa).
  assert (G : exists s4, call (apply d') (CRed w a ins outs) x s2' = (s4, Err IndexError)).
  { cbn [call]. unfold red_matvec.
    do 2 (erewrite bind_ok by (apply getattr_ok; exact Hoa)).
    replace (match w with WN => o_nargin oa | _ => o_nargout oa end) with n
      by (rewrite <- (stable_nargin _ _ Sa), <- (stable_nargout _ _ Sa); destruct w; congruence).
    destruct (inz_dec n ins) as [Hi|Hi].
    - destruct Bad as [(i & I1 & I2)|Bad]; [exfalso; apply I2; auto|].
      destruct (scat_ok n (map (wrap n) ins) (adata x)) as [E L]; [now rewrite map_length|apply wrng; auto|].
      destruct (Hd d' s2' (mkarr (adt x) (scat n (map (wrap n) ins) (adata x)))) as (s5 & y & Hay & Hy & _ & Ly & _); auto; [lia| |].
      { intro Cx. unfold vreal. cbn [adata adt] in *. rewrite <- (scat_real' n (map (wrap n) ins)) by (auto using wrng; now rewrite map_length).
        f_equal. now apply Hx. }
      erewrite bind_ok by (unfold lift; rewrite scatter_wrap; rewrite vzero_length; [rewrite E; reflexivity|apply Hi]).
      erewrite bind_ok by exact Hay. unfold asize in Ly.
      erewrite bind_err by (unfold lift; rewrite gather_oob; [reflexivity|rewrite Ly; exact Bad]).
      eauto.
    - erewrite bind_err by (unfold lift; rewrite scatter_oob; [reflexivity|exact Hl|rewrite vzero_length; exact Hi]).
      eauto. }
  destruct G as (s4 & G).
  assert (E4 : apply (S d') b x s2 = (s4, Err IndexError)).
  { cbn [apply]. unfold mul_vector.
    erewrite bind_ok by (unfold bump, modobj; rewrite Ho2; reflexivity). fold o3. fold s2'.
    do 3 (erewrite bind_ok by (apply getattr_ok; exact Ho3)).
    change (o_nargin o3) with (o_nargin o2). rewrite <- (stable_nargin _ _ S2), Hn, Hl, Nat.eqb_refl. cbn [negb].
    erewrite bind_ok by (apply getattr_ok; exact Ho3).
    change (o_mv o3) with (o_mv o2). rewrite <- (stable_mv _ _ S2), Hmv.
    now erewrite bind_err by exact G. }
  rewrite Ea in E4. injection E4 as -> ->.
  assert (C2 := frame_call (apply d') (fun a x => frame_apply d' a x) _ _ _ _ _ G).
  assert (K := cle_obj _ _ C2 b). rewrite Ho3 in K. destruct (objs s4 b) as [o4|] eqn:E5; [|tauto].
  exists s4, o2, o4. split; auto. split; auto. split; auto. split; auto.
  destruct K as [_ K]. unfold o3 in K. cbn [o_count with_count] in K. lia.
Qed.
Theorem C92_out_of_range : forall (s : st) a n m dt f ri ci, wfst s -> GoodD s a n m dt f ->
  (exists i, In i ri /\ ~ (- Z.of_nat m <= i < Z.of_nat m)%Z) \/
  (exists j, In j ci /\ ~ (- Z.of_nat n <= j < Z.of_nat n)%Z) ->
  exists s' b t h, reduced_op a ri ci s = (s', Ok b) /\ attrT s' b = Some t /\ attrH s' b = Some h /\
    raises s' b (length ci) IndexError /\ raises s' t (length ri) IndexError /\
    raises s' h (length ri) IndexError.
Proof.
  intros s a n m dt f ri ci W G Bad.
  destruct (reduced_objs s a n m dt f ri ci W G) as (s' & b & t & h & Tt & Ht & Th & Hh & sy & he & E & X & W' & H1 & H2 & H3).
  apply (GoodD_mono _ _ _ _ _ _ _ X) in G. pose proof G as [Gd [Dt Ac]].
  destruct (Good_attr _ _ _ _ _ Gd) as (o & Ho & Hn & Hm & _).
  destruct (Good_T _ _ _ _ _ Gd) as (t0 & g & Wt & Gt & Tr).
  destruct (Good_H _ _ _ _ _ Gd) as (h0 & gH & Wh & Gh & Ad).
  destruct (has_attrT _ _ _ _ _ _ _ _ _ _ H1) as [A1 A2].
  exists s', b, t, h. do 3 (split; [assumption|]). split; [|split].
  - apply (red_raises s' WN a o a b ci ri n m f dt false false (Some t) (Some h)); auto; try congruence;
      [now apply Good_den|tauto].
  - apply (red_raises s' WT a o t0 t ri ci m n g dt sy he Tt Ht); auto; try congruence; now apply Good_den.
  - apply (red_raises s' WH a o h0 h ri ci m n gH dt sy he Th Hh); auto; try congruence; now apply Good_den.
Qed.
Theorem C92_sym_out_of_range : forall (s : st) a n dt f ix, wfst s -> GoodD s a n n dt f ->
  (exists i, In i ix /\ ~ (- Z.of_nat n <= i < Z.of_nat n)%Z) ->
  exists s' b, sym_reduced_op a ix s = (s', Ok b) /\ raises s' b (length ix) IndexError.
Proof.
  intros s a n dt f ix W G Bad. pose proof G as [_ [Dt _]].
  destruct (Dts_dt _ _ _ Dt) as (o & Ho & Hd).
  destruct (new_linop_desc s (length ix) (length ix) (CRed WN a ix ix) (Some (CRed WT a ix ix))
     (Some (CRed WH a ix ix)) (o_sym o) (o_herm o) dt W) as (s' & E & X & W' & L & D & _).
  exists s', (nxt s). split.
  - unfold sym_reduced_op. do 3 (erewrite bind_ok by (apply getattr_ok; exact Ho)). rewrite Hd. exact E.
  - assert (Hb : exists T H, has s' (nxt s) (length ix) (length ix) (o_sym o) (o_herm o) dt (CRed WN a ix ix) T H).
    { clear - D. unfold desc in D. destruct (is_complex dt), (o_sym o), (o_herm o);
        repeat match goal with H : exists _, _ |- _ => destruct H end;
        repeat match goal with H : _ /\ _ |- _ => destruct H end; eauto. }
    destruct Hb as (T & H & Hb).
    apply (GoodD_mono _ _ _ _ _ _ _ X) in G. pose proof G as [Gd _].
    destruct (Good_attr _ _ _ _ _ Gd) as (o' & Ho' & Hn & Hm & _).
    apply (red_raises s' WN a o' a (nxt s) ix ix n n f dt (o_sym o) (o_herm o) T H); auto; try congruence;
      now apply Good_den.
Qed.

(** ** Coordinate operators *)
Notation ztriple := (F * Z * Z)%type.
Definition wrapt (nr nc : nat) (t : ztriple) : F * nat * nat :=
  let '(v, r, c) := t in (v, wrap nr r, wrap nc c).
Definition zin (nr nc : nat) (ts : list ztriple) : Prop :=
  forall v r c, In (v, r, c) ts -> (- Z.of_nat nr <= r < Z.of_nat nr /\ - Z.of_nat nc <= c < Z.of_nat nc)%Z.
(** the triples added up when symmetric=True: those whose two indices are different as numbers *)
Definition zoff (t : ztriple) : bool := let '(v, r, c) := t in negb (Z.eqb r c).
Definition zmirror (sym : bool) (ts : list ztriple) : list ztriple :=
  flat_map (fun t => if sym && zoff t then [t; zswap t] else [t]) ts.

Lemma zcoord_mirror : forall sym ts (x y : list F),
  zcoord_loop sym ts x y = zcoord_loop false (zmirror sym ts) x y.
Proof.
  induction ts as [|[[v r] c] ts IH]; intros x y; cbn; auto.
  destruct (sym && negb (Z.eqb r c)); cbn;
    destruct (zget x c); cbn; auto; destruct (zadd_at y r _); cbn; auto.
  destruct (zget x r); cbn; auto. destruct (zadd_at a0 c _); cbn; auto.
Qed.
Lemma zget_wrap : forall (x : list F) i, inz (length x) i -> zget x i = get_at x (wrap (length x) i).
Proof.
  intros x i H. destruct (npindex_ok _ _ H) as [E L]. unfold zget, get_at. rewrite E.
  now rewrite (nth_error_nth' x k0 L).
Qed.
Lemma zadd_wrap : forall (y : list F) i v, inz (length y) i ->
  zadd_at y i v = add_at y (wrap (length y) i) v.
Proof.
  intros x i v H. destruct (npindex_ok _ _ H) as [E L]. unfold zadd_at, add_at. rewrite E.
  now rewrite (nth_error_nth' x k0 L).
Qed.
Lemma zadd_len : forall (y y' : list F) i v, zadd_at y i v = Ok y' -> length y' = length y.
Proof.
  intros y y' i v E. unfold zadd_at in E. destruct (npindex _ _); [|discriminate]. injection E as <-.
  apply set_nth_length.
Qed.
Lemma zcoord_wrap : forall ts (x y : list F), zin (length y) (length x) ts ->
  zcoord_loop false ts x y = coord_loop false (map (wrapt (length y) (length x)) ts) x y.
Proof.
  induction ts as [|[[v r] c] ts IH]; intros x y H; cbn [zcoord_loop coord_loop map wrapt andb]; auto.
  destruct (H v r c (or_introl eq_refl)) as [Hr Hc].
  rewrite zget_wrap by exact Hc. destruct (get_at x _); cbn [rbind]; auto.
  rewrite <- zadd_wrap by exact Hr. destruct (zadd_at y r _) eqn:E; cbn [rbind]; auto.
  apply zadd_len in E. rewrite IH; rewrite E; auto. intros v' r' c' H'. apply (H v' r' c'). cbn; auto.
Qed.
Lemma zin_mirror : forall nr nc sym ts, zin nr nc ts -> (sym = true -> nr = nc) -> zin nr nc (zmirror sym ts).
Proof.
  intros nr nc sym ts H E v r c Hi. unfold zmirror in Hi. apply in_flat_map in Hi.
  destruct Hi as ([[v' r'] c'] & Hi & Hm). apply H in Hi.
  destruct sym; cbn [andb] in Hm; [destruct (zoff (v', r', c'))|]; cbn in Hm;
    repeat (destruct Hm as [Hm|Hm]; [injection Hm as <- <- <-|]); try contradiction; auto;
    rewrite (E eq_refl) in *; tauto.
Qed.
Lemma zin_range : forall nr nc ts, zin nr nc ts -> in_range nr nc (map (wrapt nr nc) ts).
Proof.
  intros nr nc ts H v r c Hi. apply in_map_iff in Hi. destruct Hi as ([[v' r'] c'] & Ht & Hi).
  cbn in Ht. injection Ht as <- <- <-. apply H in Hi. destruct Hi as [H1 H2].
  split; now apply npindex_ok.
Qed.
Lemma zmirror_swap : forall sym ts, zmirror sym (map zswap ts) = map zswap (zmirror sym ts).
Proof.
  induction ts as [|[[v r] c] ts IH]; auto. cbn [map zmirror flat_map zswap].
  fold (zmirror sym (map zswap ts)) (zmirror sym ts). rewrite IH. unfold zoff at 1 2.
  rewrite (Z.eqb_sym c r). destruct (sym && negb (Z.eqb r c)); reflexivity.
Qed.
Lemma wrapt_swap : forall nr nc ts, map (wrapt nc nr) (map zswap ts) = map swap_t (map (wrapt nr nc) ts).
Proof. intros. rewrite !map_map. apply map_ext. intros [[v r] c]. reflexivity. Qed.
Definition zdense (nr nc : nat) (sym : bool) (ts : list ztriple) : list (list F) :=
  dense nr nc (map (wrapt nr nc) (zmirror sym ts)).
Lemma zcoord_ufun : forall nr nc sym vdt ts, zin nr nc ts -> (sym = true -> nr = nc) ->
  ufun (zcoord_matvec nc nr sym vdt ts) nc (mat_vec (zdense nr nc sym ts)).
Proof.
  intros nr nc sym vdt ts H E x Hx Hl. unfold zcoord_matvec. rewrite Hl, Nat.eqb_refl. cbn [negb].
  assert (Lx : length (adata x) = nc) by exact Hl.
  rewrite zcoord_mirror, zcoord_wrap by (rewrite vzero_length, Lx; now apply zin_mirror).
  rewrite vzero_length, Lx.
  rewrite (coord_loop_spec FOK _ nr nc); auto using vzero_length, zin_range, zin_mirror.
  cbn [rbind]. eexists. split; [reflexivity|]. cbn. apply (vadd_vzero_l FOK).
  apply (lin_len _ _ _ (mat_lin FOK _ _ _ (dense_ok nr nc _))). auto.
Qed.
Lemma zdense_swap : forall nr nc sym ts, zdense nc nr sym (map zswap ts) = mat_T nc (zdense nr nc sym ts).
Proof. intros. unfold zdense. rewrite zmirror_swap, wrapt_swap. apply dense_swap. Qed.
Lemma zcoord_ufunT : forall nr nc sym vdt ts, zin nr nc ts -> (sym = true -> nr = nc) ->
  ufun (zcoord_matvec_t nc nr sym vdt ts) nr (mat_vec (mat_T nc (zdense nr nc sym ts))).
Proof.
  intros nr nc sym vdt ts H E. unfold zcoord_matvec_t. rewrite <- zdense_swap.
  apply zcoord_ufun; [|intros; symmetry; auto].
  intros v r c Hi. apply in_map_iff in Hi. destruct Hi as ([[v' r'] c'] & Hs & Hi).
  cbn in Hs. injection Hs as <- <- <-. apply H in Hi. tauto.
Qed.
Lemma zentry_sym : forall n ts i j,
  entry (map (wrapt n n) (zmirror true ts)) i j = entry (map (wrapt n n) (zmirror true ts)) j i.
Proof.
  intros n. induction ts as [|[[v r] c] ts IH]; intros; auto. cbn [zmirror flat_map andb].
  change (flat_map _ ts) with (zmirror true ts). unfold zoff.
  destruct (Z.eqb_spec r c); cbn [negb app map wrapt zswap]; rewrite !entry_cons, (IH i j).
  - subst. now rewrite andb_comm.
  - rewrite (andb_comm (Nat.eqb (wrap n c) i)), (andb_comm (Nat.eqb (wrap n c) j)).
    destruct (Nat.eqb_spec (wrap n r) i), (Nat.eqb_spec (wrap n c) j),
      (Nat.eqb_spec (wrap n r) j), (Nat.eqb_spec (wrap n c) i); cbn [andb]; auto; try ring; congruence.
Qed.
Lemma zdense_T : forall n ts, mat_T n (zdense n n true ts) = zdense n n true ts.
Proof.
  intros. unfold zdense. rewrite <- dense_swap. unfold dense. apply map_ext. intros i. apply map_ext. intros j.
  now rewrite entry_swap, zentry_sym.
Qed.
Lemma zmirror_real : forall nr nc sym ts, (forall v r c, In (v, r, c) ts -> kconj v = v) ->
  forall v r c, In (v, r, c) (map (wrapt nr nc) (zmirror sym ts)) -> kconj v = v.
Proof.
  intros nr nc sym ts H v r c Hi. apply in_map_iff in Hi. destruct Hi as ([[v1 r1] c1] & Ht & Hi).
  cbn in Ht. injection Ht as <- <- <-. unfold zmirror in Hi. apply in_flat_map in Hi.
  destruct Hi as ([[v' r'] c'] & Hi & Hm). apply H in Hi.
  destruct (sym && _); cbn in Hm;
    repeat (destruct Hm as [Hm|Hm]; [injection Hm as <- <- <-|]); try contradiction; auto.
Qed.
Lemma zcoord_honest : forall nr nc vdt ts sym, zin nr nc ts -> (sym = true -> nr = nc) ->
  (is_complex vdt = false -> forall v r c, In (v, r, c) ts -> kconj v = v) ->
  uhonest nc nr (zcoord_matvec nc nr sym vdt ts) (Some (zcoord_matvec_t nc nr sym vdt ts)) None sym false vdt
    (mat_vec (zdense nr nc sym ts)) (mat_vec (mat_T nc (zdense nr nc sym ts)))
    (mat_vec (mat_T nc (map vconj (zdense nr nc sym ts)))).
Proof.
  intros nr nc vdt ts sym H E R.
  assert (OK : matok nr nc (zdense nr nc sym ts)) by apply dense_ok.
  constructor; auto using tr_mat, ad_mat, zcoord_ufun; try discriminate.
  - now apply (mat_lin FOK).
  - apply (mat_lin FOK), mat_T_ok, OK.
  - apply (mat_lin FOK), mat_T_ok. rewrite map_length. apply OK.
  - intros C. apply (mat_real FOK). apply (dense_real FOK). intros v r c Hi. eapply zmirror_real; eauto.
  - intros h Eh; injection Eh as <-. now apply zcoord_ufunT.
  - intros ->. specialize (E eq_refl). subst nr. split; auto.
    rewrite <- (zdense_T nc ts) at 2. now apply (tr_mat FOK).
Qed.
Theorem C92_coord : forall (s : st) vdt ts nin nout, wfst s -> zin nout nin ts ->
  (is_complex vdt = false -> forall v r c, In (v, r, c) ts -> kconj v = v) ->
  let A := dense nout nin (map (wrapt nout nin) ts) in
  exists s' a t h, zcoord_op vdt ts nin nout false s = (s', Ok a) /\ attrT s' a = Some t /\ attrH s' a = Some h /\
    denotes s' a nin nout (mat_vec A) /\
    denotes s' t nout nin (mat_vec (mat_T nin A)) /\
    denotes s' h nout nin (mat_vec (mat_T nin (map vconj A))).
Proof.
  intros s vdt ts nin nout W H R A.
  assert (Em : zmirror false ts = ts).
  { clear - FOK. induction ts as [|t ts IH]; cbn; auto. f_equal. exact IH. }
  assert (U := zcoord_honest nout nin vdt ts false H (fun e => False_ind _ (diff_false_true e)) R).
  unfold zdense in U. rewrite Em in U. fold A in U.
  destruct (sided FOK s _ _ _ _ _ _ _ _ _ W U) as (s' & a & t & h & E & (o & Ho & Ht) & (o' & Ho' & Hh) & D).
  { left; discriminate. }
  exists s', a, t, h. unfold attrT, attrH. rewrite Ho. rewrite Ho in Ho'; injection Ho' as <-. auto.
Qed.
(** symmetric=True: a symmetric matrix, whose diagonal counts the triples (r, c) with r and c
    different numbers for the same entry twice *)
Theorem C92_coord_sym : forall (s : st) vdt ts n, wfst s -> zin n n ts ->
  (is_complex vdt = false -> forall v r c, In (v, r, c) ts -> kconj v = v) ->
  exists s' a, zcoord_op vdt ts n n true s = (s', Ok a) /\ attrT s' a = Some a /\
    yields s' a n n vdt (mat_vec (dense n n (map (wrapt n n) (zmirror true ts)))) /\
    forall i, entry (map (wrapt n n) (zmirror true ts)) i i =
      kadd (entry (map (wrapt n n) ts) i i) (entry (map (wrapt n n) (filter zoff ts)) i i).
Proof.
  intros s vdt ts n W H R.
  assert (U := zcoord_honest n n vdt ts true H (fun _ => eq_refl) R).
  destruct (user_builds FOK s _ _ _ _ _ _ _ _ _ _ _ W U) as (s' & a & E & X & W' & G).
  { unfold complete. cbn. destruct (is_complex vdt); auto. }
  exists s', a. split; [exact E|]. split; [|split; [now apply yields_good|]].
  - unfold user_op in E.
    match type of E with new_linop ?n ?m ?cc ?cT ?cH ?sy ?he ?dt s = _ =>
      destruct (ptr_flags s n m cc cT cH sy he dt W) as (s2 & b & E2 & T & _) end.
    rewrite E in E2. injection E2 as <- <-. auto.
  - clear - FOK. intros i. induction ts as [|[[v r] c] ts IH]; cbn [zmirror flat_map andb]; [cbn; ring|].
    change (flat_map _ ts) with (zmirror true ts). cbn [filter].
    destruct (zoff (v, r, c)); cbn [app map wrapt zswap]; rewrite !entry_cons, IH.
    2: destruct (_ && _); ring.
    + rewrite (andb_comm (Nat.eqb (wrap n c) i)). destruct (_ && _); ring.
Qed.
Theorem C92_coord_out_of_range : forall (s : st) vdt (ts : list ztriple) nin nout sym, wfst s ->
  (exists v r c, In (v, r, c) ts /\
     ~ (- Z.of_nat nout <= r < Z.of_nat nout /\ - Z.of_nat nin <= c < Z.of_nat nin)%Z) ->
  exists s' a, zcoord_op vdt ts nin nout sym s = (s', Ok a) /\ raises s' a nin IndexError.
Proof.
  intros s vdt ts nin nout sym W Bad.
  destruct (new_linop_desc s nin nout (CUser (zcoord_matvec nin nout sym vdt ts))
     (Some (CUser (zcoord_matvec_t nin nout sym vdt ts))) None sym false vdt W) as (s' & E & X & W' & L & D & _).
  assert (Ho : exists o, objs s' (nxt s) = Some o /\ o_nargin o = nin /\ o_nargout o = nout /\
    o_mv o = CUser (zcoord_matvec nin nout sym vdt ts)).
  { clear - D. unfold desc in D. destruct (is_complex vdt), sym;
      repeat match goal with H : exists _, _ |- _ => destruct H end;
      repeat match goal with H : _ /\ _ |- _ => destruct H end;
      match goal with H : has s' (nxt s) _ _ _ _ _ _ _ _ |- _ =>
        destruct H as (o & ? & ? & ? & ? & ? & ? & ? & ?); exists o; auto end. }
  destruct Ho as (o & Ho & Hn & Hm & Hc). exists s', (nxt s). split; [exact E|].
  exists 1. intros [|d'] s2 x Ld X2 Hx Hl; [lia|].
  destruct (ext_obj _ _ X2 _ _ Ho) as (o2 & Ho2 & S2).
  set (o3 := with_count (S (o_count o2)) o2). set (s3 := set_obj (nxt s) o3 s2).
  assert (Ho3 : objs s3 (nxt s) = Some o3) by apply get_set_eq.
  exists s3, o2, o3. split.
  - cbn [apply]. unfold mul_vector.
    erewrite bind_ok by (unfold bump, modobj; rewrite Ho2; reflexivity). fold o3. fold s3.
    do 3 (erewrite bind_ok by (apply getattr_ok; exact Ho3)).
    change (o_nargin o3) with (o_nargin o2). rewrite <- (stable_nargin _ _ S2), Hn, Hl, Nat.eqb_refl. cbn [negb].
    erewrite bind_ok by (apply getattr_ok; exact Ho3).
    change (o_mv o3) with (o_mv o2). rewrite <- (stable_mv _ _ S2), Hc. cbn [call].
    assert (EE : zcoord_matvec nin nout sym vdt ts x = Err IndexError).
    { unfold zcoord_matvec. rewrite Hl, Nat.eqb_refl. cbn [negb].
      assert (G : forall (y : list F), length y = nout -> zcoord_loop sym ts (adata x) y = Err IndexError).
      { unfold asize in Hl. clear - Bad Hl FOK. destruct Bad as (v & r & c & Hi & Ho).
        induction ts as [|[[v' r'] c'] ts IH]; intros y Hy; [contradiction|]. cbn [zcoord_loop].
        unfold zget at 1. rewrite Hl. destruct (npindex nin c') eqn:E1; [|reflexivity]. cbn [rbind].
        destruct (zadd_at y r' _) as [y1|] eqn:E2; cbn [rbind].
        2:{ unfold zadd_at in E2. destruct (npindex (length y) r'); congruence. }
        assert (L1 := zadd_len _ _ _ _ E2).
        destruct Hi as [Hi|Hi].
        - exfalso. injection Hi as -> -> ->. apply Ho. unfold zadd_at in E2. rewrite Hy in E2.
          destruct (npindex nout r) eqn:E3; [|discriminate]. split.
          + destruct (inz_dec nout [r]) as [I|(i & [<-|[]] & I)]; [apply I; cbn; auto|].
            rewrite npindex_none in E3 by auto. discriminate.
          + destruct (inz_dec nin [c]) as [I|(i & [<-|[]] & I)]; [apply I; cbn; auto|].
            rewrite npindex_none in E1 by auto. discriminate.
        - destruct (sym && negb (Z.eqb r' c')); [|apply IH; auto; congruence].
          unfold zget. destruct (npindex _ r'); [|reflexivity]. cbn [rbind].
          destruct (zadd_at y1 c' _) as [y2|] eqn:E4; cbn [rbind].
          2:{ unfold zadd_at in E4. destruct (npindex (length y1) c'); congruence. }
          apply zadd_len in E4. apply IH; auto. congruence. }
      rewrite G by apply vzero_length. reflexivity. }
    unfold bind, lift. rewrite EE. reflexivity.
  - split; [|split; [auto|split; [auto|cbn; lia]]].
    apply (frame_bump (nxt s) s2 s3 (Ok tt)). unfold bump, modobj. rewrite Ho2. reflexivity.
Qed.
(** nonnegative indices: the loop of LinopExtra *)
Lemma npindex_nat : forall len i, npindex len (Z.of_nat i) = if Nat.ltb i len then Some i else None.
Proof.
  intros len i. unfold npindex. destruct (Z.ltb_spec (Z.of_nat i) (- Z.of_nat len)); [lia|].
  destruct (Z.ltb_spec (Z.of_nat i) 0); [lia|]. rewrite Nat2Z.id.
  destruct (Z.ltb_spec (Z.of_nat i) (Z.of_nat len)), (Nat.ltb_spec i len); auto; lia.
Qed.
Theorem C92_coord_nonnegative : forall nin nout sym vdt (ts : list (F * nat * nat)) x,
  zcoord_matvec nin nout sym vdt (map (fun t => (fst (fst t), Z.of_nat (snd (fst t)), Z.of_nat (snd t))) ts) x =
  coord_matvec nin nout sym vdt ts x.
Proof.
  intros nin nout sym vdt ts x. unfold zcoord_matvec, coord_matvec. destruct (negb _); auto. f_equal.
  assert (Gx : forall (x : list F) i, zget x (Z.of_nat i) = get_at x i).
  { intros z i. unfold zget, get_at. rewrite npindex_nat. destruct (Nat.ltb_spec i (length z)) as [L|L].
    - now rewrite (nth_error_nth' z k0 L). - apply nth_error_None in L. now rewrite L. }
  assert (Ga : forall (x : list F) i v, zadd_at x (Z.of_nat i) v = add_at x i v).
  { intros z i v. unfold zadd_at, add_at. rewrite npindex_nat. destruct (Nat.ltb_spec i (length z)) as [L|L].
    - now rewrite (nth_error_nth' z k0 L). - apply nth_error_None in L. now rewrite L. }
  generalize (@vzero F nout). induction ts as [|[[v r] c] ts IH]; intros y; cbn [map zcoord_loop coord_loop fst snd]; auto.
  rewrite Gx. destruct (get_at _ c); cbn [rbind]; auto. rewrite Ga. destruct (add_at y r _); cbn [rbind]; auto.
  replace (Z.eqb (Z.of_nat r) (Z.of_nat c)) with (Nat.eqb r c)
    by (destruct (Nat.eqb_spec r c), (Z.eqb_spec (Z.of_nat r) (Z.of_nat c)); auto; lia).
  destruct (sym && _); auto. rewrite Gx. destruct (get_at _ r); cbn [rbind]; auto. rewrite Ga.
  destruct (add_at _ c _); cbn [rbind]; auto.
Qed.
End Index.

(** ** Examples and refutation *)
(** rows [-1], columns [0; -2; 1] of a 2 x 2 operator: in range, with a repeated column *)
Example ex_C92_in_range : exists s a n m dt f, wfst s /\ @GoodD FQI s a n m dt f /\
  (forall i, In i [-1]%Z -> - Z.of_nat m <= i < Z.of_nat m)%Z /\
  (forall j, In j [0; -2; 1]%Z -> - Z.of_nat n <= j < Z.of_nat n)%Z /\
  map (wrap m) [-1]%Z = [1] /\ map (wrap n) [0; -2; 1]%Z = [0; 0; 1].
Proof.
  destruct ex_build as (s' & a & _ & _ & W & G). exists s', a, 2, 2, DComplex, (mat_vec m1).
  split; auto. split; auto. split; [cbn; intuition lia|]. split; [cbn; intuition lia|]. split; reflexivity.
Qed.
(** and one with column 2 out of range *)
Example ex_C92_out_of_range : exists s a n m dt f, wfst s /\ @GoodD FQI s a n m dt f /\
  exists j, In j [0; 2]%Z /\ ~ (- Z.of_nat n <= j < Z.of_nat n)%Z.
Proof.
  destruct ex_build as (s' & a & _ & _ & W & G). exists s', a, 2, 2, DComplex, (mat_vec m1).
  split; auto. split; auto. exists 2%Z. split; [cbn; auto|lia].
Qed.
(** one triple (5, -1, 1) of a 2 x 2 symmetric matrix: the diagonal entry 5 is counted twice *)
Definition ex_ts : list (FQI * Z * Z) := [(qi 5 0, (-1)%Z, 1%Z)].
Theorem C92_coord_sym_refuted : exists ts : list (FQI * Z * Z),
  zin 2 2 ts /\ (forall v r c, In (v, r, c) ts -> kconj v = v) /\
  keqb (entry (map (wrapt 2 2) (zmirror true ts)) 1 1)
       (entry (mirror true (map (wrapt 2 2) ts)) 1 1) = false /\
  exists s' a y s2, zcoord_op DFloat ts 2 2 true s0 = (s', Ok a) /\
    apply 5 a (@mkarr FQI DFloat [qi 0 0; qi 1 0]) s' = (s2, Ok y) /\ keqb (nth 1 (adata y) k0) (qi 10 0) = true.
Proof.
  exists ex_ts. split; [|split; [|split]].
  - intros v r c [H|[]]. injection H as <- <- <-. cbn. lia.
  - intros v r c [H|[]]. injection H as <- <- <-. vm_compute. reflexivity.
  - vm_compute. reflexivity.
  - set (r := zcoord_op DFloat ex_ts 2 2 true s0).
    set (q := apply 5 (okv 0 r) (@mkarr FQI DFloat [qi 0 0; qi 1 0]) (fst r)).
    exists (fst r), (okv 0 r), (okv (mkarr DInt []) q), (fst q).
    split; [apply ok_run; vm_compute; reflexivity|]. split; [apply ok_run; vm_compute; reflexivity|].
    vm_compute. reflexivity.
Qed.
Example ex_C92_coord : zin 2 2 ex_ts /\ zmirror true ex_ts = [(qi 5 0, (-1)%Z, 1%Z); (qi 5 0, 1%Z, (-1)%Z)] /\
  exists v r c, In (v, r, c) [(qi 5 0, 0%Z, (-3)%Z)] /\
    ~ (- Z.of_nat 2 <= r < Z.of_nat 2 /\ - Z.of_nat 2 <= c < Z.of_nat 2)%Z.
Proof.
  split; [intros v r c [H|[]]; injection H as <- <- <-; cbn; lia|]. split; [reflexivity|].
  exists (qi 5 0), 0%Z, (-3)%Z. split; [cbn; auto|lia].
Qed.
(** a repeated zero column: the .T of the reduced operator is its transpose although 0 is repeated *)
Example ex_C92_repeated : exists (f g : list FQI -> list FQI) R C, linmap 2 2 f /\ linmap 2 2 g /\
  is_transpose 2 2 f g /\ NoDup R /\ (forall i, In i R -> i < 2) /\ (forall j, In j C -> j < 2) /\
  C = [0; 0; 1] /\ R = [1].
Proof.
  exists (fun x => x), (fun x => x), [1], [0; 0; 1].
  split; [constructor; auto|]. split; [constructor; auto|]. split; [intros x y _ _; reflexivity|].
  split; [repeat constructor; cbn; auto|]. split; [cbn; intuition lia|]. split; [cbn; intuition lia|]. auto.
Qed.

Print Assumptions C92_in_range.
Print Assumptions C92_last_wins.
Print Assumptions C92_repeated_columns.
Print Assumptions C92_out_of_range.
Print Assumptions C92_sym_out_of_range.
Print Assumptions C92_coord.
Print Assumptions C92_coord_sym.
Print Assumptions C92_coord_out_of_range.
Print Assumptions C92_coord_nonnegative.
Print Assumptions C92_coord_sym_refuted.
