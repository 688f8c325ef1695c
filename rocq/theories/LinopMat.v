(** * Dense and coordinate-format operators, and to_array. *)
From Coq Require Import List ZArith Lia Bool Ring Permutation.
From Verif Require Import Base Field Vec LinopModel LinopFrame LinopGood LinopInit LinopDep LinopAlg
  LinopOps LinopExpr LinopExtra LinopUser LinopBase.
Import ListNotations.

Section Mat.
Context {F : Fld} (FOK : FldOK F).
Add Ring Kring6 : (fk_ring F FOK).
Notation st := (st F). Notation obj := (obj F). Notation M := (M F). Notation arr := (arr F).
Notation map1 := (list F -> list F).

(** [rows] is an nr x nc matrix *)
Definition matok (nr nc : nat) (rows : list (list F)) : Prop :=
  length rows = nr /\ forall r, In r rows -> length r = nc.

Lemma map_nth_seq : forall (r : list F) k n, length r = n ->
  map (fun j => nth (j - k) r k0) (seq k n) = r.
Proof.
  induction r; intros k n H; cbn in H; subst; cbn; auto.
  rewrite Nat.sub_diag. f_equal. etransitivity; [|apply (IHr (S k) (length r) eq_refl)].
  apply map_ext_in. intros j Hj. apply in_seq in Hj.
  replace (j - k) with (S (j - S k)) by lia. reflexivity.
Qed.
Lemma map_nth_seq0 : forall (r : list F) n, length r = n -> map (fun j => nth j r k0) (seq 0 n) = r.
Proof.
  intros r n H. etransitivity; [|apply (map_nth_seq r 0 n H)]. apply map_ext. intros; now rewrite Nat.sub_0_r.
Qed.
Lemma map_vadd : forall A (f g : A -> F) l, map (fun j => kadd (f j) (g j)) l = vadd (map f l) (map g l).
Proof. induction l; cbn; auto. f_equal; auto. Qed.
Lemma map_vscale : forall A c (f : A -> F) l, map (fun j => kmul c (f j)) l = vscale c (map f l).
Proof. induction l; cbn; auto. f_equal; auto. Qed.

Lemma mat_lin : forall nr nc rows, matok nr nc rows -> linmap nc nr (mat_vec rows).
Proof.
  intros nr nc rows [L _]. constructor; intros; unfold mat_vec.
  - now rewrite map_length.
  - rewrite <- map_vadd. apply map_ext. intros r. apply (dot_add_r FOK). congruence.
  - rewrite <- map_vscale. apply map_ext. intros r. apply (dot_scale_r FOK).
Qed.
Lemma mat_T_ok : forall nr nc (rows : list (list F)), length rows = nr -> matok nc nr (mat_T nc rows).
Proof.
  intros nr nc rows L. split.
  - unfold mat_T. now rewrite map_length, seq_length.
  - intros r Hr. unfold mat_T in Hr. apply in_map_iff in Hr. destruct Hr as (j & <- & _).
    unfold mat_col. now rewrite map_length.
Qed.
Lemma tr_mat : forall nr nc rows, matok nr nc rows ->
  is_transpose nc nr (mat_vec rows) (mat_vec (mat_T nc rows)).
Proof.
  intros nr nc rows [L H] x y Hx Hy. subst nr. revert y Hy.
  induction rows as [|r rows IH]; intros [|b y] Hy; cbn in Hy; try discriminate.
  - cbn. unfold mat_vec, mat_T. rewrite map_map. cbn. clear - FOK.
    generalize (seq 0 nc) x. induction l; intros [|x0 x1]; cbn; auto. rewrite <- IHl. ring.
  - cbn [mat_vec map dot]. fold (mat_vec rows x).
    assert (E : mat_vec (mat_T nc (r :: rows)) (b :: y) = vadd (vscale b r) (mat_vec (mat_T nc rows) y)).
    { unfold mat_vec, mat_T. rewrite !map_map. cbn [mat_col map dot].
      replace (vscale b r) with (vscale b (map (fun j => nth j r k0) (seq 0 nc)))
        by (f_equal; apply map_nth_seq0; apply H; cbn; auto).
      rewrite <- map_vscale, <- map_vadd. apply map_ext. intros j. unfold mat_col. ring. }
    rewrite E, (dot_add_l FOK), (dot_scale_l FOK), IH.
    + ring.
    + intros; apply H; cbn; auto.
    + now injection Hy.
    + rewrite vscale_length. unfold mat_vec, mat_T. rewrite !map_length, seq_length.
      apply H; cbn; auto.
Qed.
Lemma conj_mat : forall (rows : list (list F)) x, conj_map (mat_vec rows) x = mat_vec (map vconj rows) x.
Proof.
  intros rows x. unfold conj_map, mat_vec, vconj at 1. rewrite !map_map. apply map_ext.
  intros r. now rewrite (dot_conj FOK), (vconj_conj FOK).
Qed.
Lemma mat_T_conj : forall nc (rows : list (list F)), map vconj (mat_T nc rows) = mat_T nc (map vconj rows).
Proof.
  intros. unfold mat_T. rewrite map_map. apply map_ext. intros j. unfold mat_col, vconj.
  rewrite !map_map. apply map_ext. intros r.
  rewrite <- (conj0 FOK) at 2. now rewrite map_nth.
Qed.
Lemma ad_mat : forall nr nc rows, matok nr nc rows ->
  is_adjoint nc nr (mat_vec rows) (mat_vec (mat_T nc (map vconj rows))).
Proof.
  intros nr nc rows H. eapply is_adjoint_ext.
  3: apply (transpose_conj_adjoint FOK), tr_mat; exact H.
  - reflexivity.
  - intros y Hy. rewrite conj_mat, mat_T_conj. reflexivity.
Qed.
Lemma mat_real : forall nc (rows : list (list F)), (forall r, In r rows -> vreal r) -> real_map nc (mat_vec rows).
Proof.
  intros nc rows H x Hx. unfold mat_vec. unfold vconj at 2. rewrite map_map. apply map_ext_in.
  intros r Hr. rewrite (dot_conj FOK). now rewrite (H r Hr).
Qed.

(** ** linop_from_ndarray *)
Lemma np_dot_ufun : forall mdt nr nc rows, matok nr nc rows ->
  ufun (np_dot mdt nc rows) nc (mat_vec rows).
Proof.
  intros mdt nr nc rows H x Hx Hl. unfold np_dot. rewrite Hl, Nat.eqb_refl. cbn.
  eexists. split; reflexivity.
Qed.
Definition entries_real (rows : list (list F)) : Prop := forall r, In r rows -> vreal r.
Lemma ndarray_builds : forall (s : st) mdt nr nc rows sym hk, wfst s -> matok nr nc rows ->
  (is_complex mdt = false -> entries_real rows) ->
  let herm := match hk with Some h => h | None => sym end in
  (sym = true -> nc = nr /\ is_transpose nc nc (mat_vec rows) (mat_vec rows)) ->
  (herm = true -> nc = nr /\ is_adjoint nc nc (mat_vec rows) (mat_vec rows)) ->
  (is_complex mdt = false -> sym = herm) ->
  builds (ndarray_op mdt nr nc rows sym hk) s nc nr mdt (mat_vec rows).
Proof.
  intros s mdt nr nc rows sym hk W OK R herm Hs Hh Hx.
  assert (LT := mat_lin _ _ _ (mat_T_ok nr nc rows (proj1 OK))).
  assert (OKc : matok nc nr (mat_T nc (map vconj rows))).
  { apply mat_T_ok. rewrite map_length. apply OK. }
  unfold ndarray_op, builds. fold herm. destruct (is_complex mdt) eqn:C.
  - apply (user_builds FOK s nc nr (np_dot mdt nc rows) (Some (np_dot mdt nr (mat_T nc rows)))
      (Some (np_dot mdt nr (mat_T nc (map vconj rows)))) sym herm mdt _ (mat_vec (mat_T nc rows))
      (mat_vec (mat_T nc (map vconj rows))) W).
    + constructor; auto using mat_lin, tr_mat, ad_mat; try congruence.
      * eapply np_dot_ufun; eauto.
      * intros h E; injection E as <-. eapply np_dot_ufun. apply mat_T_ok, OK.
      * intros h E; injection E as <-. eapply np_dot_ufun; eauto.
    + unfold complete. rewrite C. cbn. destruct sym, herm; auto.
  - specialize (Hx eq_refl). rewrite <- Hx in *. rewrite xorb_nilpotent, orb_diag.
    apply (user_builds FOK s nc nr (np_dot mdt nc rows) (Some (np_dot mdt nr (mat_T nc rows)))
      None sym sym mdt _ (mat_vec (mat_T nc rows))
      (mat_vec (mat_T nc (map vconj rows))) W).
    + constructor; auto using mat_lin, tr_mat, ad_mat; try discriminate.
      * intros _. apply mat_real. exact (R eq_refl).
      * eapply np_dot_ufun; eauto.
      * intros h E; injection E as <-. eapply np_dot_ufun. apply mat_T_ok, OK.
    + unfold complete. rewrite C. cbn. destruct sym; auto.
Qed.
Lemma ndarray_xor : forall (s : st) mdt nr nc rows sym hk, is_complex mdt = false ->
  xorb sym (match hk with Some h => h | None => sym end) = true ->
  ndarray_op mdt nr nc rows sym hk s = (s, Err ValueError).
Proof. intros s mdt nr nc rows sym hk C X. unfold ndarray_op. now rewrite C, X. Qed.

(** ** CoordLinearOperator *)
Notation triple := (F * nat * nat)%type.
(** the matrix obtained by adding up all triples *)
Definition entry (ts : list triple) (i j : nat) : F :=
  fold_right (fun t acc => let '(v, r, c) := t in
    if Nat.eqb r i && Nat.eqb c j then kadd v acc else acc) k0 ts.
Definition dense (nr nc : nat) (ts : list triple) : list (list F) :=
  map (fun i => map (entry ts i) (seq 0 nc)) (seq 0 nr).
(** the triples represented when symmetric=True: off-diagonal ones are mirrored *)
Definition mirror (sym : bool) (ts : list triple) : list triple :=
  flat_map (fun t => let '(v, r, c) := t in
     if sym && negb (Nat.eqb r c) then [(v, r, c); (v, c, r)] else [(v, r, c)]) ts.
Definition in_range (nr nc : nat) (ts : list triple) : Prop :=
  forall v r c, In (v, r, c) ts -> r < nr /\ c < nc.

Lemma dense_ok : forall nr nc ts, matok nr nc (dense nr nc ts).
Proof.
  intros. unfold dense. split.
  - now rewrite map_length, seq_length.
  - intros r H. apply in_map_iff in H. destruct H as (i & <- & _). now rewrite map_length, seq_length.
Qed.
Lemma coord_mirror : forall sym ts (x y : list F),
  coord_loop sym ts x y = coord_loop false (mirror sym ts) x y.
Proof.
  induction ts as [|[[v r] c] ts IH]; intros x y; cbn; auto.
  destruct (sym && negb (Nat.eqb r c)); cbn;
    destruct (get_at x c); cbn; auto; destruct (add_at y r _); cbn; auto.
  destruct (get_at x r); cbn; auto. destruct (add_at a0 c _); cbn; auto.
Qed.
(** one triple contributes v * x_c to entry r *)
Definition tvec (nr : nat) (t : triple) (x : list F) : list F :=
  let '(v, r, c) := t in map (fun i => if Nat.eqb r i then kmul v (nth c x k0) else k0) (seq 0 nr).
Lemma set_nth_map : forall (y : list F) r v,
  r < length y ->
  set_nth y r (kadd (nth r y k0) v) = vadd y (map (fun i => if Nat.eqb r i then v else k0) (seq 0 (length y))).
Proof.
  assert (Z : forall (y : list F) k r v, r < k ->
    vadd y (map (fun i => if Nat.eqb r i then v else k0) (seq k (length y))) = y).
  { induction y; intros k r v H; cbn; auto.
    destruct (Nat.eqb_spec r k); [lia|]. f_equal; [ring|]. apply IHy. lia. }
  assert (G : forall (y : list F) k r v, k <= r -> r < k + length y ->
    set_nth y (r - k) (kadd (nth (r - k) y k0) v) =
    vadd y (map (fun i => if Nat.eqb r i then v else k0) (seq k (length y)))).
  { induction y; intros k r v H1 H2; cbn in *; [lia|].
    destruct (Nat.eqb_spec r k).
    - subst. rewrite Nat.sub_diag. cbn. f_equal. symmetry; apply Z. lia.
    - replace (r - k) with (S (r - S k)) by lia. cbn. f_equal; [ring|]. apply IHy; lia. }
  intros y r v H. specialize (G y 0 r v). rewrite Nat.sub_0_r in G. apply G; cbn; lia.
Qed.
Lemma dot_entry : forall nc t ts i (x : list F), length x = nc -> snd t < nc ->
  dot (map (entry (t :: ts) i) (seq 0 nc)) x =
  kadd (let '(v, r, c) := t in if Nat.eqb r i then kmul v (nth c x k0) else k0)
       (dot (map (entry ts i) (seq 0 nc)) x).
Proof.
  intros nc [[v r] c] ts i x Hx Hc. cbn [snd] in Hc.
  assert (E : map (entry ((v, r, c) :: ts) i) (seq 0 nc) =
    vadd (map (fun j => if Nat.eqb r i && Nat.eqb c j then v else k0) (seq 0 nc)) (map (entry ts i) (seq 0 nc))).
  { rewrite <- map_vadd. apply map_ext. intros j. cbn.
    fold (entry ts i j); destruct (Nat.eqb r i && Nat.eqb c j); ring. }
  rewrite E, (dot_add_l FOK) by (rewrite !map_length; auto). f_equal.
  destruct (Nat.eqb r i); cbn [andb].
  - assert (G : forall (x : list F) k, k <= c -> c < k + length x ->
      dot (map (fun j => if Nat.eqb c j then v else k0) (seq k (length x))) x = kmul v (nth (c - k) x k0)).
    { assert (Z : forall (x : list F) k, c < k ->
        dot (map (fun j => if Nat.eqb c j then v else k0) (seq k (length x))) x = k0).
      { induction x0; intros k H; cbn; auto. destruct (Nat.eqb_spec c k); [lia|].
        rewrite IHx0 by lia. ring. }
      induction x0; intros k H1 H2; cbn in *; [lia|].
      destruct (Nat.eqb_spec c k).
      - subst. rewrite Z by lia. rewrite Nat.sub_diag. ring.
      - rewrite IHx0 by lia. replace (c - k) with (S (c - S k)) by lia. ring. }
    subst nc. rewrite (G x 0); [|lia|cbn; lia]. now rewrite Nat.sub_0_r.
  - clear - FOK. generalize (seq 0 nc). intros l; revert x. induction l; destruct x; cbn; auto.
    rewrite IHl. ring.
Qed.
Lemma coord_loop_spec : forall ts nr nc (x y : list F), length x = nc -> length y = nr ->
  in_range nr nc ts ->
  coord_loop false ts x y = Ok (vadd y (mat_vec (dense nr nc ts) x)).
Proof.
  induction ts as [|[[v r] c] ts IH]; intros nr nc x y Hx Hy H.
  - cbn. f_equal. subst nr. unfold mat_vec, dense. rewrite map_map.
    assert (Z : forall (l : list nat) (x : list F), dot (map (entry [] 0) l) x = k0).
    { induction l; destruct x0; cbn; auto. rewrite IHl. ring. }
    replace (map _ (seq 0 (length y))) with (@vzero F (length y)).
    + clear - FOK. induction y; cbn; auto. f_equal; [ring|]. apply IHy.
    + rewrite (map_ext _ (fun _ => k0)) by (intros; apply Z).
      generalize 0. clear. induction y; intros k; cbn; auto. f_equal. apply IHy.
  - destruct (H v r c) as [Hr Hc]; [cbn; auto|].
    cbn [coord_loop]. unfold get_at. rewrite (nth_error_nth' x k0) by lia. cbn [rbind].
    unfold add_at. rewrite (nth_error_nth' y k0) by lia. cbn [rbind andb].
    rewrite set_nth_map by lia.
    rewrite (IH nr nc); auto.
    + f_equal. unfold mat_vec, dense. rewrite !map_map.
      rewrite (map_ext (fun i => dot (map (entry ((v, r, c) :: ts) i) (seq 0 nc)) x)
        (fun i => kadd (if Nat.eqb r i then kmul v (nth c x k0) else k0) (dot (map (entry ts i) (seq 0 nc)) x))).
      2:{ intros i. now rewrite dot_entry. }
      rewrite map_vadd. rewrite Hy.
      generalize (map (fun i => if Nat.eqb r i then kmul v (nth c x k0) else k0) (seq 0 nr)).
      generalize (map (fun i => dot (map (entry ts i) (seq 0 nc)) x) (seq 0 nr)).
      clear - FOK. intros p q. revert p q. induction y; destruct p, q; cbn; auto.
      f_equal; [ring|]. apply IHy.
    + rewrite vadd_length; [auto|]. now rewrite map_length, seq_length.
    + intros v' r' c' H'. apply (H v' r' c'). cbn; auto.
Qed.

Lemma in_range_mirror : forall nr nc sym ts, in_range nr nc ts ->
  (sym = true -> nr = nc) -> in_range nr nc (mirror sym ts).
Proof.
  intros nr nc sym ts H E v r c Hi. unfold mirror in Hi. apply in_flat_map in Hi.
  destruct Hi as ([[v' r'] c'] & Hi & Hm). apply H in Hi.
  destruct sym, (Nat.eqb r' c'); cbn in Hm; 
    repeat (destruct Hm as [Hm|Hm]; [injection Hm as <- <- <-|]); try contradiction; auto;
    rewrite (E eq_refl) in *; tauto.
Qed.
Lemma vadd_vzero_l : forall n (x : list F), length x = n -> vadd (vzero n) x = x.
Proof. intros n x <-. induction x; cbn; auto. f_equal; [ring|apply IHx]. Qed.
Lemma coord_ufun : forall nr nc sym vdt ts, in_range nr nc ts -> (sym = true -> nr = nc) ->
  ufun (coord_matvec nc nr sym vdt ts) nc (mat_vec (dense nr nc (mirror sym ts))).
Proof.
  intros nr nc sym vdt ts H E x Hx Hl. unfold coord_matvec. rewrite Hl, Nat.eqb_refl. cbn [negb].
  rewrite coord_mirror, (coord_loop_spec _ nr nc); auto using vzero_length, in_range_mirror.
  cbn [rbind]. eexists. split; [reflexivity|]. cbn. apply vadd_vzero_l.
  apply (lin_len _ _ _ (mat_lin _ _ _ (dense_ok nr nc (mirror sym ts)))). auto.
Qed.
Lemma entry_swap : forall ts i j, entry (map swap_t ts) i j = entry ts j i.
Proof.
  induction ts as [|[[v r] c] ts IH]; intros; cbn; auto. fold (entry (map swap_t ts) i j) (entry ts j i). rewrite IH, (andb_comm (Nat.eqb c i)). auto.
Qed.
Lemma dense_swap : forall nr nc ts, dense nc nr (map swap_t ts) = mat_T nc (dense nr nc ts).
Proof.
  intros. unfold dense, mat_T, mat_col. apply map_ext_in. intros j Hj. apply in_seq in Hj.
  rewrite map_map. apply map_ext_in. intros i Hi. rewrite entry_swap.
  assert (G : forall n k j, k <= j -> j < k + n -> nth (j - k) (map (entry ts i) (seq k n)) k0 = entry ts i j).
  { clear - FOK. induction n; intros k j H1 H2; [lia|]. cbn [seq map].
    destruct (Nat.eq_dec j k). { subst. now rewrite Nat.sub_diag. }
    replace (j - k) with (S (j - S k)) by lia. cbn [nth]. apply IHn; lia. }
  specialize (G nc 0 j). rewrite Nat.sub_0_r in G. symmetry. apply G; lia.
Qed.
Lemma mirror_swap : forall sym ts, mirror sym (map swap_t ts) = map swap_t (mirror sym ts).
Proof.
  induction ts as [|[[v r] c] ts IH]; cbn; auto. fold (mirror sym (map swap_t ts)) (mirror sym ts). rewrite IH, (Nat.eqb_sym c r).
  destruct (sym && negb (Nat.eqb r c)); reflexivity.
Qed.
Lemma coord_ufunT : forall nr nc sym vdt ts, in_range nr nc ts -> (sym = true -> nr = nc) ->
  ufun (coord_matvec_t nc nr sym vdt ts) nr (mat_vec (mat_T nc (dense nr nc (mirror sym ts)))).
Proof.
  intros nr nc sym vdt ts H E. unfold coord_matvec_t.
  rewrite <- dense_swap, <- mirror_swap. apply coord_ufun; [|intros; symmetry; auto].
  intros v r c Hi. apply in_map_iff in Hi. destruct Hi as ([[v' r'] c'] & Hs & Hi).
  cbn in Hs. injection Hs as <- <- <-. apply H in Hi. tauto.
Qed.
Lemma entry_cons : forall v r c ts i j, entry ((v, r, c) :: ts) i j =
  if Nat.eqb r i && Nat.eqb c j then kadd v (entry ts i j) else entry ts i j.
Proof. reflexivity. Qed.
Lemma entry_mirror : forall ts i j, entry (mirror true ts) i j = entry (mirror true ts) j i.
Proof.
  induction ts as [|[[v r] c] ts IH]; intros; auto. cbn [mirror flat_map andb].
  change (flat_map _ ts) with (mirror true ts).
  destruct (Nat.eqb_spec r c); cbn [negb app]; rewrite !entry_cons, (IH i j).
  - subst. now rewrite andb_comm.
  - rewrite (andb_comm (Nat.eqb c i)), (andb_comm (Nat.eqb c j)).
    destruct (Nat.eqb_spec r i), (Nat.eqb_spec c j), (Nat.eqb_spec r j), (Nat.eqb_spec c i); cbn [andb]; auto; try ring; congruence.
Qed.
Lemma dense_mirror_T : forall n ts, mat_T n (dense n n (mirror true ts)) = dense n n (mirror true ts).
Proof.
  intros. rewrite <- dense_swap. unfold dense. apply map_ext. intros i. apply map_ext. intros j.
  now rewrite entry_swap, entry_mirror.
Qed.
Lemma dense_real : forall nr nc ts, (forall v r c, In (v, r, c) ts -> kconj v = v) ->
  entries_real (dense nr nc ts).
Proof.
  intros nr nc ts H r Hr. unfold dense in Hr. apply in_map_iff in Hr. destruct Hr as (i & <- & _).
  unfold vreal, vconj. rewrite map_map. apply map_ext. intros j. clear nr nc.
  induction ts as [|[[v r] c] ts IH]; cbn; [apply (conj0 FOK)|].
  assert (Ht : kconj (entry ts i j) = entry ts i j).
  { apply IH. intros v' r' c' H'. apply (H v' r' c'). cbn; auto. }
  destruct (_ && _); auto. rewrite (fk_conj_add F FOK), (H v r c); cbn; auto. f_equal. exact Ht.
Qed.
Lemma mirror_real : forall sym ts, (forall v r c, In (v, r, c) ts -> kconj v = v) ->
  forall v r c, In (v, r, c) (mirror sym ts) -> kconj v = v.
Proof.
  intros sym ts H v r c Hi. unfold mirror in Hi. apply in_flat_map in Hi.
  destruct Hi as ([[v' r'] c'] & Hi & Hm). apply H in Hi.
  destruct (sym && _); cbn in Hm; 
    repeat (destruct Hm as [Hm|Hm]; [injection Hm as <- <- <-|]); try contradiction; auto.
Qed.
(** honest arguments with explicit sizes *)
Lemma coord_honest : forall nr nc vdt ts sym, in_range nr nc ts ->
  (sym = true -> nr = nc) ->
  (is_complex vdt = false -> forall v r c, In (v, r, c) ts -> kconj v = v) ->
  uhonest nc nr (coord_matvec nc nr sym vdt ts) (Some (coord_matvec_t nc nr sym vdt ts)) None sym false vdt
    (mat_vec (dense nr nc (mirror sym ts))) (mat_vec (mat_T nc (dense nr nc (mirror sym ts))))
    (mat_vec (mat_T nc (map vconj (dense nr nc (mirror sym ts))))).
Proof.
  intros nr nc vdt ts sym H E R.
  assert (OK := dense_ok nr nc (mirror sym ts)).
  constructor; auto using tr_mat, ad_mat, coord_ufun; try discriminate.
  - now apply mat_lin.
  - apply mat_lin, mat_T_ok, OK.
  - apply mat_lin, mat_T_ok. rewrite map_length. apply OK.
  - intros C. apply mat_real. apply dense_real. intros v r c Hi. eapply mirror_real; eauto.
  - intros h Eh; injection Eh as <-. now apply coord_ufunT.
  - intros ->. specialize (E eq_refl). subst nr. split; auto.
    rewrite <- (dense_mirror_T nc ts) at 2. now apply tr_mat.
Qed.
Lemma coord_op_eq : forall vdt ts nin nout sym (s : st), nin <> 0 -> nout <> 0 ->
  coord_op vdt ts nin nout sym s =
  user_op nin nout (coord_matvec nin nout sym vdt ts) (Some (coord_matvec_t nin nout sym vdt ts)) None sym false vdt s.
Proof.
  intros vdt ts nin nout sym s H1 H2. unfold coord_op, user_op. cbn [option_map].
  apply Nat.eqb_neq in H1, H2. now rewrite H1, H2.
Qed.
(** real, or flagged symmetric: a fully good operator *)
Lemma coord_builds : forall (s : st) vdt ts nin nout sym, wfst s -> nin <> 0 -> nout <> 0 ->
  in_range nout nin ts -> (sym = true -> nout = nin) ->
  (is_complex vdt = false -> forall v r c, In (v, r, c) ts -> kconj v = v) ->
  is_complex vdt = false \/ sym = true ->
  builds (coord_op vdt ts nin nout sym) s nin nout vdt (mat_vec (dense nout nin (mirror sym ts))).
Proof.
  intros s vdt ts nin nout sym W N1 N2 H E R C. unfold builds. rewrite coord_op_eq by auto.
  eapply (user_builds FOK); auto.
  - eapply coord_honest; eauto.
  - unfold complete. cbn. destruct C as [-> | ->]; auto. now rewrite orb_true_r.
Qed.
(** not flagged symmetric: T and H denote transpose and adjoint *)
Lemma coord_sided : forall (s : st) vdt ts nin nout, wfst s -> nin <> 0 -> nout <> 0 ->
  in_range nout nin ts ->
  (is_complex vdt = false -> forall v r c, In (v, r, c) ts -> kconj v = v) ->
  exists s' a t h, coord_op vdt ts nin nout false s = (s', Ok a) /\
    wtgt s' WT a t /\ wtgt s' WH a h /\
    denotes s' a nin nout (mat_vec (dense nout nin ts)) /\
    denotes s' t nout nin (mat_vec (mat_T nin (dense nout nin ts))) /\
    denotes s' h nout nin (mat_vec (mat_T nin (map vconj (dense nout nin ts)))).
Proof.
  intros s vdt ts nin nout W N1 N2 H R.
  assert (Em : mirror false ts = ts).
  { clear - FOK. induction ts as [|[[v r] c] ts IH]; cbn; auto. f_equal. exact IH. }
  assert (U := coord_honest nout nin vdt ts false H (fun e => False_ind _ (diff_false_true e)) R).
  rewrite Em in U.
  rewrite coord_op_eq by auto.
  apply (sided FOK); auto. left; discriminate.
Qed.

(** an index outside the vectors makes the loop raise IndexError *)
Lemma coord_loop_oob : forall ts (x y : list F) v r c,
  In (v, r, c) ts -> length x <= c \/ length y <= r -> coord_loop false ts x y = Err IndexError.
Proof.
  induction ts as [|[[v r] c] ts IH]; intros x y v' r' c' Hi Hc; [contradiction|].
  cbn [coord_loop]. unfold get_at. destruct (nth_error x c) eqn:E; [|reflexivity]. cbn [rbind].
  unfold add_at. destruct (nth_error y r) eqn:E2; [|reflexivity]. cbn [rbind andb].
  destruct Hi as [Hi|Hi].
  - injection Hi as -> -> ->. destruct Hc as [Hc|Hc]; apply nth_error_None in Hc; congruence.
  - eapply IH; eauto. now rewrite set_nth_length.
Qed.
Lemma in_mirror : forall sym ts t, In t ts -> In t (mirror sym ts).
Proof.
  intros sym ts [[v r] c] H. unfold mirror. apply in_flat_map. exists (v, r, c). split; auto.
  destruct (sym && _); cbn; auto.
Qed.
Lemma max_list_in : forall l, l <> [] -> In (max_list l) l.
Proof.
  induction l as [|a l IH]; intros N; [congruence|]. destruct l as [|b l].
  - cbn. rewrite Nat.max_0_r. auto.
  - change (max_list (a :: b :: l)) with (Nat.max a (max_list (b :: l))). destruct (Nat.max_spec a (max_list (b :: l))) as [[_ ->]|[_ ->]]; [right; apply IH; discriminate|left; reflexivity].
Qed.

(** sizes inferred from the indices (nargin=0 or nargout=0 or both omitted) *)
Lemma coord_inferred : forall (s : st) vdt ts nargin nargout sym, wfst s -> ts <> [] ->
  nargin = 0 \/ nargout = 0 ->
  exists s' a o, coord_op vdt ts nargin nargout sym s = (s', Ok a) /\ objs s' a = Some o /\
    (nargin = 0 -> o_nargin o = max_list (map snd ts)) /\
    (nargout = 0 -> o_nargout o = max_list (map (fun t => snd (fst t)) ts)) /\
    forall s2 x d, ext s' s2 -> asize x = o_nargin o ->
      exists s3, apply (S d) a x s2 = (s3, Err IndexError).
Proof.
  intros s vdt ts nargin nargout sym W NE Z. unfold coord_op.
  replace ((Nat.eqb nargin 0 || Nat.eqb nargout 0) && match ts with [] => true | _ => false end)
    with false by (destruct ts; [congruence|now rewrite andb_false_r]).
  set (nin := if Nat.eqb nargin 0 then _ else _). set (nout := if Nat.eqb nargout 0 then _ else _).
  destruct (new_linop_desc s nin nout (CUser (coord_matvec nin nout sym vdt ts))
     (Some (CUser (coord_matvec_t nin nout sym vdt ts))) None sym false vdt W) as (s' & E & X & W' & L & D & _).
  assert (Ho : exists o, objs s' (nxt s) = Some o /\ o_nargin o = nin /\ o_nargout o = nout /\
    o_mv o = CUser (coord_matvec nin nout sym vdt ts)).
  { clear - D. unfold desc in D. destruct (is_complex vdt), sym;
      repeat match goal with H : exists _, _ |- _ => destruct H end;
      repeat match goal with H : _ /\ _ |- _ => destruct H end;
      match goal with H : has s' (nxt s) _ _ _ _ _ _ _ _ |- _ =>
        destruct H as (o & ? & ? & ? & ? & ? & ? & ? & ?); exists o; auto end. }
  destruct Ho as (o & Ho & Hn & Hm & Hc). exists s', (nxt s), o.
  split; [exact E|]. split; auto. split; [|split].
  - intros ->. rewrite Hn. reflexivity.
  - intros ->. rewrite Hm. reflexivity.
  - intros s2 x d X2 Hx. destruct (ext_obj _ _ X2 _ _ Ho) as (o2 & Ho2 & S2).
    cbn [apply]. unfold mul_vector.
    set (o3 := with_count (S (o_count o2)) o2).
    assert (Ho3 : objs (set_obj (nxt s) o3 s2) (nxt s) = Some o3) by apply get_set_eq.
    erewrite bind_ok by (unfold bump, modobj; rewrite Ho2; reflexivity). fold o3.
    do 3 (erewrite bind_ok by (apply getattr_ok; exact Ho3)).
    change (o_nargin o3) with (o_nargin o2). rewrite <- (stable_nargin _ _ S2), Hx, Nat.eqb_refl. cbn [negb].
    erewrite bind_ok by (apply getattr_ok; exact Ho3).
    change (o_mv o3) with (o_mv o2). rewrite <- (stable_mv _ _ S2), Hc. cbn [call].
    assert (EE : coord_matvec nin nout sym vdt ts x = Err IndexError).
    { unfold coord_matvec. rewrite Hx, Hn, Nat.eqb_refl. cbn [negb]. rewrite coord_mirror.
      destruct Z as [Z|Z].
      - assert (In (max_list (map snd ts)) (map snd ts)) as Hi.
        { apply max_list_in. now destruct ts. }
        apply in_map_iff in Hi. destruct Hi as ([[v r] c] & Hc1 & Hi).
        rewrite (coord_loop_oob _ _ _ v r c); [reflexivity|now apply in_mirror|].
        left. unfold asize in Hx. rewrite Hx, Hn. unfold nin. rewrite Z. cbn in *. now rewrite Hc1.
      - assert (In (max_list (map (fun t => snd (fst t)) ts)) (map (fun t => snd (fst t)) ts)) as Hi.
        { apply max_list_in. now destruct ts. }
        apply in_map_iff in Hi. destruct Hi as ([[v r] c] & Hc1 & Hi).
        rewrite (coord_loop_oob _ _ _ v r c); [reflexivity|now apply in_mirror|].
        right. rewrite vzero_length. unfold nout. rewrite Z. cbn in *. now rewrite Hc1. }
    unfold bind, lift. rewrite EE. eexists; reflexivity.
Qed.

(** ** to_array (linop.py:256-265) *)
Lemma unitv_eq : forall n i, @unitv F n i = map (fun j => if Nat.eqb i j then k1 else k0) (seq 0 n).
Proof. reflexivity. Qed.
Lemma unitv_real : forall n i, vreal (@unitv F n i).
Proof.
  intros. unfold vreal, vconj, unitv. rewrite map_map. apply map_ext. intros j.
  destruct (Nat.eqb i j); [apply (conj1 FOK)|apply (conj0 FOK)].
Qed.
(** linear combination of a list of columns *)
Fixpoint comb (m : nat) (cols : list (list F)) (x : list F) : list F :=
  match cols, x with
  | c :: cols', b :: x' => vadd (vscale b c) (comb m cols' x')
  | _, _ => vzero m
  end.
Lemma to_cols_spec : forall (s0 : st) a n m f, denotes s0 a n m f ->
  exists d0 o, objs s0 a = Some o /\ forall d js s, d0 <= d -> ext s0 s ->
   exists s', to_cols d a n js (o_dtype o) s =
     (s', Ok (map (fun j => mkarr (o_dtype o) (f (unitv n j))) js)) /\ ext s0 s'.
Proof.
  intros s0 a n m f D. pose proof D as (o & d & Ho & Hn & Hm & HL & HR & H).
  exists d, o. split; auto. intros d' js. induction js as [|j js IH]; intros s Hd X.
  - exists s. split; auto.
  - destruct (H (mkarr (o_dtype o) (unitv n j))) as (s1 & E1).
    { intros _. apply unitv_real. }
    { apply unitv_length. }
    destruct (mono_apply d d' a _ Hd _ _ _ _ X E1 eq_refl) as (s2 & E2 & _).
    assert (X2 : ext s0 s2). { eapply ext_trans; [exact X|]. apply cle_ext. eapply frame_apply; eauto. }
    destruct (IH s2 Hd X2) as (s3 & E3 & X3). exists s3. split; auto.
    cbn [to_cols map]. erewrite bind_ok by exact E2. erewrite bind_ok by exact E3.
    unfold ret. cbn [adt adata]. now rewrite result_type_idem.
Qed.
Lemma to_array_spec : forall (s : st) a n m f, denotes s a n m f ->
  exists d0 o, objs s a = Some o /\ forall d, d0 <= d ->
   exists s', to_array d a s = (s', Ok (map (fun j => mkarr (o_dtype o) (f (unitv n j))) (seq 0 n))).
Proof.
  intros s a n m f D. destruct (to_cols_spec _ _ _ _ _ D) as (d0 & o & Ho & H).
  exists d0, o. split; auto. intros d Hd.
  destruct (H d (seq 0 n) s Hd (ext_refl _)) as (s' & E & _). exists s'.
  pose proof D as (o' & d' & Ho' & Hn & _). rewrite Ho in Ho'; injection Ho' as <-.
  unfold to_array. do 2 (erewrite bind_ok by (apply getattr_ok; exact Ho)). now rewrite Hn.
Qed.

(** the columns f(e_0), ..., f(e_{n-1}) represent f *)
Lemma comb_length : forall m cols x, (forall c, In c cols -> length c = m) -> length (comb m cols x) = m.
Proof.
  induction cols as [|c cols IH]; intros [|b x] H; cbn; auto using vzero_length.
  assert (Hc : length c = m) by (apply H; cbn; auto).
  rewrite vadd_length; rewrite vscale_length; auto. rewrite IH; auto. intros; apply H; cbn; auto.
Qed.
Lemma lin_comb : forall n m f, linmap n m f -> forall cols x, (forall c, In c cols -> length c = n) ->
  f (comb n cols x) = comb m (map f cols) x.
Proof.
  intros n m f L. assert (Z : f (vzero n) = vzero m).
  { replace (@vzero F n) with (vscale k0 (@vzero F n)) by (apply (vscale_zero FOK)).
    rewrite (lin_scale _ _ _ L) by apply vzero_length.
    rewrite (vscale_0 FOK), (lin_len _ _ _ L); auto. apply vzero_length. }
  induction cols as [|c cols IH]; intros [|b x] H; cbn; auto.
  assert (Hc : length c = n) by (apply H; cbn; auto).
  assert (Hd : forall c, In c cols -> length c = n) by (intros; apply H; cbn; auto).
  rewrite (lin_add _ _ _ L), (lin_scale _ _ _ L), IH; auto.
  now rewrite vscale_length. now apply comb_length.
Qed.
Lemma dot_comb : forall n cols x w, (forall c, In c cols -> length c = n) ->
  dot w (comb n cols x) = dot (map (dot w) cols) x.
Proof.
  induction cols as [|c cols IH]; intros [|b x] w H; cbn; try apply (dot_zero_r FOK).
  assert (Hc : length c = n) by (apply H; cbn; auto).
  assert (Hd : forall c, In c cols -> length c = n) by (intros; apply H; cbn; auto).
  rewrite (dot_add_r FOK), (dot_scale_r FOK), IH; auto. ring.
  rewrite vscale_length, comb_length; auto.
Qed.
Lemma nth_unitv : forall n i (x : list F), length x = n -> i < n -> nth i x k0 = dot x (unitv n i).
Proof.
  intros n i x Hx Hi. assert (E := dot_unitv FOK n i x Hx Hi).
  erewrite nth_error_nth by exact E. reflexivity.
Qed.
Lemma comb_unit : forall n m f, linmap n m f -> forall x, length x = n ->
  comb m (map (fun j => f (unitv n j)) (seq 0 n)) x = f x.
Proof.
  intros n m f L x Hx.
  assert (U : forall c, In c (map (@unitv F n) (seq 0 n)) -> length c = n).
  { intros c Hc. apply in_map_iff in Hc. destruct Hc as (j & <- & _). apply unitv_length. }
  rewrite <- (map_map (unitv n) f), <- (lin_comb n m f L) by exact U. f_equal.
  apply (dot_ext FOK n); auto.
  - now apply comb_length.
  - intros w Hw. rewrite dot_comb by exact U. f_equal. rewrite map_map.
    etransitivity; [|apply (map_nth_seq0 w n Hw)]. apply map_ext_in. intros j Hj. apply in_seq in Hj.
    symmetry. apply nth_unitv; lia.
Qed.
Lemma nth_unit_T : forall n m (f g : map1), linmap n m f -> linmap m n g -> is_transpose n m f g ->
  forall i j, i < m -> j < n -> nth i (f (unitv n j)) k0 = nth j (g (unitv m i)) k0.
Proof.
  intros n m f g L Lg T i j Hi Hj.
  assert (E := T (unitv n j) (unitv m i) (unitv_length _ _) (unitv_length _ _)).
  rewrite (dot_comm FOK) in E.
  rewrite (nth_unitv m i), (nth_unitv n j); auto.
  - rewrite (lin_len _ _ _ Lg); auto. apply unitv_length.
  - rewrite (lin_len _ _ _ L); auto. apply unitv_length.
Qed.
Lemma dep_cle : forall (s s1 : st) b a, cle s s1 -> dep s1 b a -> dep s b a.
Proof.
  intros s s1 b a C (o & Ho & T). assert (X := cle_ext_r _ _ C).
  destruct (ext_obj _ _ X _ _ Ho) as (o' & Ho' & S). exists o'. split; auto.
  rewrite <- (stable_mv _ _ S). eapply tgts_mono; eauto.
Qed.
Lemma acc_cle : forall (s s1 : st) a, cle s s1 -> Acc (dep s) a -> Acc (dep s1) a.
Proof.
  intros s s1 a C A. induction A as [a _ IH]. constructor. intros b Hb. apply IH. eapply dep_cle; eauto.
Qed.
Lemma to_cols_count : forall a n dt d js (s s' : st) r, Acc (dep s) a -> (exists o, objs s a = Some o) ->
  to_cols (S d) a n js dt s = (s', Ok r) -> count s' a = count s a + length js.
Proof.
  induction js as [|j js IH]; intros s s' r A (o & Ho) E.
  - cbn in E. injection E as <- <-. cbn. lia.
  - cbn [to_cols] in E. unfold bind at 1 in E.
    destruct (apply (S d) a (mkarr dt (unitv n j)) s) as [s1 [y|e]] eqn:E1; [|discriminate].
    assert (C := apply_count d s a o _ _ _ A Ho E1).
    assert (Cl := frame_apply _ _ _ _ _ _ E1).
    destruct (ext_obj _ _ (cle_ext _ _ Cl) _ _ Ho) as (o1 & Ho1 & _).
    unfold bind in E. destruct (to_cols (S d) a n js dt s1) as [s2 [ys|e]] eqn:E2; [|discriminate].
    injection E as <- <-.
    rewrite (IH s1 s2 ys); eauto using acc_cle. rewrite C. cbn. lia.
Qed.
End Mat.
