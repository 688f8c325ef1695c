(** * The ring buffer of pykrylov/linop/lbfgs.py holds the last accepted pairs.

    Nothing is assumed about the arithmetic in this file. *)
From Coq Require Import List ZArith QArith Bool Arith Lia.
From Verif Require Import Base Num LbfgsModel.
Import ListNotations.

Definition lastn {A : Type} (n : nat) (l : list A) : list A := skipn (length l - n) l.

Section Ring.
Context {K : Scal} {W : Vs K}.
Notation S := (sc K).
Notation V := (vc W).

(** What a history leaves to be remembered: the accepted pairs since the last restart. *)
Definition accept (l : list (V * V)) (e : event W) : list (V * V) :=
  match e with
  | EStore s y => if sleb (vdot s y) threshold then l else l ++ [(s, y)]
  | ERestart _ => []
  | EMul _ => l
  end.
Definition accepted (es : list (event W)) : list (V * V) := fold_left accept es [].

(** The pairs that a product uses, oldest first. *)
Definition memory (st : lb W) : list (V * V) :=
  flat_map (fun i => let k := up st i in
              match l_ys st k with Some _ => [(l_s st k, l_y st k)] | None => [] end)
           (seq 0 (l_np st)).

(** Slot [k] holds the pair [p]. *)
Definition holds (st : lb W) (k : nat) (p : V * V) : Prop :=
  l_s st k = fst p /\ l_y st k = snd p /\ l_ys st k = Some (vdot (fst p) (snd p)).

Record ring (st : lb W) (ps : list (V * V)) : Prop := mkring {
  rg_len : (length ps <= l_np st)%nat;
  rg_ins : (l_insert st < l_np st)%nat;
  rg_none : forall j, (j < l_np st - length ps)%nat -> l_ys st (up st j) = None;
  rg_some : forall j p, nth_error ps j = Some p -> holds st (up st (l_np st - length ps + j)) p }.

Lemma mod_inj : forall n i a b, (a < n)%nat -> (b < n)%nat ->
  ((i + a) mod n = (i + b) mod n)%nat -> a = b.
Proof.
  intros n i a b A B H.
  assert (N : n <> 0%nat) by lia.
  pose proof (Nat.div_mod (i + a) n N) as X. pose proof (Nat.div_mod (i + b) n N) as Y.
  rewrite H in X.
  remember ((i + a) / n)%nat as qa. remember ((i + b) / n)%nat as qb.
  assert (D : (qa = qb \/ qa < qb \/ qb < qa)%nat) by lia.
  destruct D as [->|[D|D]]; [lia| |]; exfalso; nia.
Qed.

Lemma up_lt : forall (st : lb W) i, (l_insert st < l_np st)%nat -> (up st i < l_np st)%nat.
Proof. intros st i H. apply Nat.mod_upper_bound. lia. Qed.

Lemma up_inj : forall (st : lb W) a b, (a < l_np st)%nat -> (b < l_np st)%nat ->
  up st a = up st b -> a = b.
Proof. intros st a b A B. apply mod_inj; assumption. Qed.

(** [(insert - 1 - i) % npairs] walks the slots backwards. *)
Lemma down_up : forall (st : lb W) i, (l_insert st < l_np st)%nat -> (i < l_np st)%nat ->
  down st i = up st (l_np st - 1 - i).
Proof.
  intros st i H I. unfold down, up, submod.
  apply Nat2Z.inj. rewrite Z2Nat.id.
  2:{ apply Z.mod_pos_bound. lia. }
  rewrite Nat2Z.inj_mod.
  replace (Z.of_nat (l_insert st + (l_np st - 1 - i)))%Z
    with (Z.of_nat (l_insert st) - Z.of_nat (1 + i) + 1 * Z.of_nat (l_np st))%Z by lia.
  rewrite Z.mod_add by lia. reflexivity.
Qed.

Lemma last_down : forall (st : lb W), submod (l_insert st) 1 (l_np st) = down st 0.
Proof. reflexivity. Qed.

Lemma out_up : forall (st : lb W) pc i, (l_insert st < l_np st)%nat -> (pc <= l_np st)%nat ->
  Z.to_nat ((Z.of_nat (l_insert st) - Z.of_nat pc + Z.of_nat i) mod Z.of_nat (l_np st)) =
  up st (l_np st - pc + i).
Proof.
  intros st pc i H P. unfold up. apply Nat2Z.inj. rewrite Z2Nat.id.
  2:{ apply Z.mod_pos_bound. lia. }
  rewrite Nat2Z.inj_mod.
  replace (Z.of_nat (l_insert st + (l_np st - pc + i)))%Z
    with (Z.of_nat (l_insert st) - Z.of_nat pc + Z.of_nat i + 1 * Z.of_nat (l_np st))%Z by lia.
  rewrite Z.mod_add by lia. reflexivity.
Qed.

(** ** Lists. *)
Lemma lastn_small : forall (A : Type) n (l : list A), (length l <= n)%nat -> lastn n l = l.
Proof. intros. unfold lastn. replace (length l - n)%nat with 0%nat by lia. reflexivity. Qed.

Lemma lastn_len : forall (A : Type) n (l : list A), length (lastn n l) = Nat.min n (length l).
Proof. intros. unfold lastn. rewrite skipn_length. lia. Qed.

Lemma skip2 : forall (A : Type) a b (l : list A), skipn a (skipn b l) = skipn (b + a) l.
Proof.
  intros A a b. induction b as [|b IH]; intro l; [reflexivity|].
  destruct l as [|x l]; [destruct a; reflexivity|]. cbn. apply IH.
Qed.

Lemma lastn_snoc : forall (A : Type) n (l : list A) x,
  lastn n (lastn n l ++ [x]) = lastn n (l ++ [x]).
Proof.
  intros A n l x. unfold lastn. rewrite !app_length, skipn_length. cbn [length].
  rewrite !skipn_app, skipn_length, skip2.
  f_equal; f_equal; lia.
Qed.

(** ** The invariant. *)
Lemma ring_init : forall np sc g, (0 < np)%nat -> ring (lb_init np sc g) [].
Proof.
  intros np sc g H. split; cbn; [lia|exact H|reflexivity|].
  intros j p N. destruct j; discriminate.
Qed.

Lemma ring_restart : forall st ps g, ring st ps -> ring (lb_restart st g) [].
Proof.
  intros st ps g [A B C D]. split; cbn; [lia|lia|reflexivity|].
  intros j p N. destruct j; discriminate.
Qed.

Lemma ring_ag : forall st ps al ga, ring st ps -> ring (set_ag st al ga) ps.
Proof.
  intros st ps al ga [A B C D]. split; [exact A|exact B|exact C|exact D].
Qed.

(** Writing a pair into the slot [insert]. *)
Definition lb_put (st : lb W) (s y : V) : lb W :=
  let i := l_insert st in
  mklb (l_np st) (l_scal st) ((i + 1) mod l_np st)
       (upd (l_s st) i s) (upd (l_y st) i y) (l_alpha st)
       (upd (l_ys st) i (Some (vdot s y))) (l_gamma st).

Lemma ring_put : forall st ps s y, ring st ps -> ring (lb_put st s y) (lastn (l_np st) (ps ++ [(s, y)])).
Proof.
  intros st ps s y [A B C D].
  assert (Z : l_np st <> 0%nat) by lia. unfold lb_put. cbv zeta.
  set (np := l_np st) in *. set (i := l_insert st) in *.
  match goal with |- ring ?x _ => set (st' := x) end.
  assert (U1 : forall j, up st' j = up st (j + 1)).
  { intro j. unfold up, st'. cbn [l_insert l_np]. fold np i.
    rewrite Nat.add_mod_idemp_l by exact Z. f_equal. lia. }
  assert (U2 : up st' (np - 1) = i).
  { rewrite U1. unfold up. fold np i. replace (i + (np - 1 + 1))%nat with (i + 1 * np)%nat by lia.
    rewrite Nat.mod_add by exact Z. apply Nat.mod_small. exact B. }
  assert (U0 : up st 0 = i).
  { unfold up. fold np i. rewrite Nat.add_0_r. apply Nat.mod_small. exact B. }
  assert (NI : forall j, (j + 1 < np)%nat -> up st' j <> i).
  { intros j J E. rewrite U1, <- U0 in E. apply up_inj in E; fold np; lia. }
  assert (OLD : forall j q, (j + 1 < np)%nat -> holds st (up st (j + 1)) q -> holds st' (up st' j) q).
  { intros j q J (X & Y & Z'). specialize (NI j J). unfold holds.
    change (l_s st') with (upd (l_s st) i s). change (l_y st') with (upd (l_y st) i y).
    change (l_ys st') with (upd (l_ys st) i (Some (vdot s y))). unfold upd.
    destruct (Nat.eqb_spec (up st' j) i) as [E|E]; [contradiction|].
    rewrite U1. repeat split; assumption. }
  assert (NEW : holds st' (up st' (np - 1)) (s, y)).
  { rewrite U2. unfold holds.
    change (l_s st') with (upd (l_s st) i s). change (l_y st') with (upd (l_y st) i y).
    change (l_ys st') with (upd (l_ys st) i (Some (vdot s y))). unfold upd. cbn [fst snd]. rewrite Nat.eqb_refl.
    repeat split. }
  assert (LEN : length (lastn np (ps ++ [(s, y)])) = Nat.min np (length ps + 1)).
  { rewrite lastn_len, app_length. reflexivity. }
  split.
  - rewrite LEN. unfold st'. cbn [l_np]. fold np. lia.
  - unfold st'. cbn [l_np l_insert]. apply Nat.mod_upper_bound. exact Z.
  - intros j J. rewrite LEN in J. change (l_np st') with np in J.
    specialize (NI j ltac:(lia)). change (l_ys st') with (upd (l_ys st) i (Some (vdot s y))). unfold upd.
    destruct (Nat.eqb_spec (up st' j) i) as [E|E]; [contradiction|].
    rewrite U1. apply C. lia.
  - intros j p N. rewrite LEN. change (l_np st') with np.
    unfold lastn in N. rewrite app_length in N. cbn [length] in N.
    assert (N2 : nth_error (ps ++ [(s, y)]) (length ps + 1 - np + j) = Some p).
    { rewrite <- N. clear. generalize (ps ++ [(s, y)]) as l. generalize (length ps + 1 - np)%nat as m.
      induction m as [|m IH]; intro l; [reflexivity|].
      destruct l as [|x l]; cbn; [symmetry; apply nth_error_None; cbn; lia|]. apply IH. }
    assert (LT : (length ps + 1 - np + j < length (ps ++ [(s, y)]))%nat).
    { apply nth_error_Some. rewrite N2. discriminate. }
    rewrite app_length in LT. cbn [length] in LT.
    destruct (lt_dec (length ps + 1 - np + j) (length ps)) as [O|O].
    + rewrite nth_error_app1 in N2 by exact O.
      specialize (D _ _ N2). apply OLD; [lia|].
      replace (np - Nat.min np (length ps + 1) + j + 1)%nat
        with (np - length ps + (length ps + 1 - np + j))%nat by lia. exact D.
    + rewrite nth_error_app2 in N2 by lia.
      replace (length ps + 1 - np + j - length ps)%nat with 0%nat in N2 by lia.
      cbn in N2. injection N2 as <-.
      replace (np - Nat.min np (length ps + 1) + j)%nat with (np - 1)%nat by lia. exact NEW.
Qed.

Lemma ring_store : forall st ps s y, ring st ps ->
  exists st', lb_store st s y = Ok st' /\ l_np st' = l_np st /\ l_scal st' = l_scal st /\
    l_gamma st' = l_gamma st /\
    (sleb (vdot s y) threshold = true -> st' = st) /\
    (sleb (vdot s y) threshold = false -> ring st' (lastn (l_np st) (ps ++ [(s, y)]))).
Proof.
  intros st ps s y R. pose proof (rg_ins _ _ R) as B. unfold lb_store.
  destruct (sleb (vdot s y) threshold) eqn:T.
  { exists st. do 4 (split; [reflexivity|]). split; [reflexivity|discriminate]. }
  destruct (Nat.eqb_spec (l_np st) 0) as [Z|Z]; [lia|].
  exists (lb_put st s y). do 4 (split; [reflexivity|]). split; [discriminate|].
  intros _. apply ring_put, R.
Qed.

(** ** Loops over the slots are loops over the remembered pairs. *)
Lemma nop_fold : forall (A : Type) (f : A -> nat -> A) n a,
  (forall a i, (i < n)%nat -> f a i = a) -> fold_left f (seq 0 n) a = a.
Proof.
  intros A f n. induction n as [|n IH]; intros a H; [reflexivity|].
  rewrite seq_S, fold_left_app. cbn [fold_left]. rewrite IH; [|intros; apply H; lia].
  apply H. cbn. lia.
Qed.

Lemma fold_map_seq : forall (A : Type) (f : A -> nat -> A) z n a,
  fold_left f (seq z n) a = fold_left (fun a j => f a (z + j)%nat) (seq 0 n) a.
Proof.
  intros A f z n. revert z. induction n as [|n IH]; intros z a; [reflexivity|].
  rewrite seq_S, fold_left_app, IH. rewrite (seq_S n 0), fold_left_app. reflexivity.
Qed.

(** A loop over [range(npairs)], or over [range(z + m)], that ignores empty slots. *)
Lemma skip_fold : forall (A : Type) (f : A -> nat -> A) st ps m a, ring st ps ->
  (forall a i, l_ys st (up st i) = None -> f a i = a) ->
  fold_left f (seq 0 (l_np st - length ps + m)) a =
  fold_left (fun a j => f a (l_np st - length ps + j)%nat) (seq 0 m) a.
Proof.
  intros A f st ps m a R N.
  rewrite seq_app, fold_left_app, nop_fold.
  - rewrite Nat.add_0_l, fold_map_seq. reflexivity.
  - intros b i I. apply N, (rg_none _ _ R), I.
Qed.

Lemma flat_seq : forall (A : Type) (ps : list A) (f : nat -> list A),
  (forall j p, nth_error ps j = Some p -> f j = [p]) -> flat_map f (seq 0 (length ps)) = ps.
Proof.
  intros A ps. induction ps as [|p ps IH]; intros f H; [reflexivity|].
  cbn [length seq flat_map]. rewrite (H 0%nat p eq_refl). cbn [app]. f_equal.
  rewrite <- seq_shift, flat_map_concat_map, map_map, <- flat_map_concat_map.
  apply IH. intros j q Hq. apply H. exact Hq.
Qed.

Lemma flat_nil : forall (A : Type) (f : nat -> list A) n,
  (forall i, (i < n)%nat -> f i = []) -> flat_map f (seq 0 n) = [].
Proof.
  intros A f n. induction n as [|n IH]; intro H; [reflexivity|].
  rewrite seq_S, flat_map_app, IH; [|intros; apply H; lia]. cbn. rewrite H; [reflexivity|lia].
Qed.

Theorem ring_memory : forall st ps, ring st ps -> memory st = ps.
Proof.
  intros st ps R. unfold memory.
  replace (seq 0 (l_np st)) with (seq 0 (l_np st - length ps + length ps))
    by (f_equal; pose proof (rg_len _ _ R); lia).
  rewrite seq_app, flat_map_app, flat_nil.
  2:{ intros i I. rewrite (rg_none _ _ R i I). reflexivity. }
  cbn [app plus].
  assert (SH : forall (f : nat -> list (V * V)) z n, flat_map f (seq z n) = flat_map (fun j => f (z + j)%nat) (seq 0 n)).
  { intros f z n. induction n as [|n IH]; [reflexivity|].
    rewrite seq_S, flat_map_app, IH, (seq_S n 0), flat_map_app. reflexivity. }
  rewrite SH. apply flat_seq. intros j p H.
  destruct (rg_some _ _ R j p H) as (A & B & C). rewrite A, B, C. destruct p; reflexivity.
Qed.

(** ** Histories. *)
(** A product changes nothing but [alpha] and [gamma]. *)
Definition quiet (mv : lb W -> V -> res (V * lb W)) : Prop :=
  forall st v r st', mv st v = Ok (r, st') ->
  exists al ga, st' = set_ag st al ga /\ (l_scal st = false -> ga = l_gamma st).

Lemma or_off : forall (st : lb W) o, scal_gamma st = Ok o -> l_scal st = false -> or_gamma o st = l_gamma st.
Proof. intros st o H F. unfold scal_gamma in H. rewrite F in H. injection H as <-. reflexivity. Qed.

Lemma inv_quiet : quiet inv_matvec.
Proof.
  intros st v r st' H. unfold inv_matvec in H.
  destruct (fold_left (inv_down st) _ _) as [q al]. destruct (scal_gamma st) as [o|e] eqn:G; [|discriminate].
  cbn in H. injection H as _ <-. do 2 eexists. split; [reflexivity|]. apply or_off, G.
Qed.
Lemma fwd_quiet : quiet fwd_matvec.
Proof.
  intros st v r st' H. unfold fwd_matvec in H. injection H as _ <-.
  exists (l_alpha st), (l_gamma st). split; [destruct st|]; reflexivity.
Qed.
Lemma cmp_quiet : forall so, quiet (cmp_matvec so).
Proof.
  intros so st v r st' H. unfold cmp_matvec in H.
  destruct (scal_gamma st) as [o|e] eqn:G; [|discriminate]. cbn in H.
  destruct (fold_left (cmp_rhs st _ (l_s st) 0) _ _) as [a pc].
  destruct (fold_left (cmp_rhs st v (l_y st) pc) _ _) as [a2 j].
  destruct (fold_left (cmp_mat st _ pc) _ _) as [m k].
  destruct (if (0 <? pc)%nat then _ else _) as [b|e]; [|discriminate].
  cbn in H. injection H as _ <-. do 2 eexists. split; [reflexivity|]. apply or_off, G.
Qed.

Lemma matvec_quiet : forall so k, quiet (matvec so k).
Proof. intros so [| |]; [apply inv_quiet|apply fwd_quiet|apply cmp_quiet]. Qed.

Lemma run_snoc : forall mv st (es : list (event W)) e,
  run mv st (es ++ [e]) = rbind (run mv st es) (fun st => step mv st e).
Proof.
  intros mv st es e. revert st. induction es as [|x es IH]; intro st; cbn.
  - destruct (step mv st e); reflexivity.
  - destruct (step mv st x); cbn; [apply IH|reflexivity].
Qed.

Lemma run_ring : forall mv np sc g es st, quiet mv -> (0 < np)%nat ->
  run mv (lb_init np sc g) es = Ok st ->
  l_np st = np /\ l_scal st = sc /\ ring st (lastn np (accepted es)) /\ (sc = false -> l_gamma st = s1).
Proof.
  intros mv np sc g es st Q N. revert st. induction es as [|e es IH] using rev_ind; intros st H.
  - injection H as <-. split; [reflexivity|]. split; [reflexivity|].
    split; [apply ring_init, N|reflexivity].
  - rewrite run_snoc in H. destruct (run mv _ es) as [st1|] eqn:E; [|discriminate].
    destruct (IH _ eq_refl) as (A & B & R & GM). cbn in H.
    unfold accepted. rewrite fold_left_app. cbn [fold_left]. fold (accepted es).
    destruct e as [s y|g'|v]; cbn [step accept] in *.
    + destruct (ring_store st1 _ s y R) as (st' & X & P1 & P2 & PG & P3 & P4).
      rewrite X in H. injection H as <-. rewrite P1, P2, PG.
      split; [exact A|]. split; [exact B|]. split; [|exact GM].
      destruct (sleb (vdot s y) threshold).
      * rewrite P3 by reflexivity. exact R.
      * rewrite A in P4. rewrite <- lastn_snoc. apply P4. reflexivity.
    + injection H as <-. split; [exact A|]. split; [exact B|].
      split; [apply (ring_restart st1 _ g' R)|exact GM].
    + destruct (mv st1 v) as [[r st2]|] eqn:M; [|discriminate]. cbn in H. injection H as <-.
      destruct (Q _ _ _ _ M) as (al & ga & -> & GG).
      split; [exact A|]. split; [exact B|]. split; [apply ring_ag, R|].
      intro SC. cbn. rewrite GG by congruence. apply GM, SC.
Qed.

(** Every store and every restart succeeds. *)
Lemma run_total : forall mv np sc g es, quiet mv -> (0 < np)%nat ->
  (forall st v, ring st (memory st) -> exists r, mv st v = Ok r) ->
  exists st, run mv (lb_init np sc g) es = Ok st.
Proof.
  intros mv np sc g es Q N T. induction es as [|e es IH] using rev_ind; [eexists; reflexivity|].
  destruct IH as [st1 E]. rewrite run_snoc, E. cbn.
  destruct (run_ring mv np sc g es st1 Q N E) as (_ & _ & R & _).
  destruct e as [s y|g'|v]; cbn [step].
  - destruct (ring_store st1 _ s y R) as (st' & X & _). eauto.
  - eauto.
  - rewrite <- (ring_memory _ _ R) in R. destruct (T st1 v R) as [[r st2] X].
    rewrite X. cbn. eauto.
Qed.
End Ring.
