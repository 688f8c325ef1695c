(** * Property C28, continued: which slot of the ring buffer holds which pair. *)
From Coq Require Import List Lia Arith QArith Qreals Reals Lra.
From Verif Require Import Base Num LbfgsModel LbfgsRing PropLbfgs.
Import ListNotations.
Local Open Scope nat_scope.

(** Two numbers less than [n] apart with equal remainders are equal. *)
Lemma mod_close : forall n i j, 0 < n -> i < j -> j < i + n -> i mod n <> j mod n.
Proof.
  intros n i j N H1 H2 E. pose proof (Nat.div_mod i n ltac:(lia)) as A. pose proof (Nat.div_mod j n ltac:(lia)) as B.
  assert (C : i / n < j / n \/ j / n <= i / n) by lia. destruct C; nia.
Qed.

(** The attribute [insert] (lbfgs.py:48, 86-87, 94) counts the pairs accepted since the last restart,
    modulo [npairs]; pair number [i] is in slot [i mod npairs] until it is overwritten, and a slot
    that was not reached since the last restart is empty.  Products move nothing. *)
Theorem C28_slots : forall (K : Scal) (W : Vs K) (so : lsolve K) (k : kind) np sc (g : junk W) es st,
  0 < np -> run (matvec so k) (lb_init np sc g) es = Ok st ->
  let l := List.length (accepted es) in
  l_insert st = l mod np /\
  (forall i s y, nth_error (accepted es) i = Some (s, y) -> l <= i + np ->
     l_s st (i mod np) = s /\ l_y st (i mod np) = y /\ l_ys st (i mod np) = Some (vdot s y)) /\
  (forall j, l <= j -> j < np -> l_ys st j = None).
Proof.
  intros K W so k np sc g es st N. revert st. induction es as [|e es IH] using rev_ind; intros st H.
  - injection H as <-. cbn. split; [symmetry; apply Nat.mod_0_l; lia|]. split; [|reflexivity].
    intros i s y Hi. destruct i; discriminate.
  - rewrite run_snoc in H. destruct (run (matvec so k) _ es) as [st1|] eqn:E; [|discriminate].
    destruct (IH _ eq_refl) as (A & B & C). cbn in H.
    destruct (run_ring _ _ _ _ _ _ (matvec_quiet so k) N E) as (NP & _).
    unfold accepted. rewrite fold_left_app. cbn [fold_left]. fold (accepted es).
    destruct e as [s y|g'|v]; cbn [step accept] in *.
    + unfold lb_store in H. destruct (sleb (vdot s y) threshold) eqn:T.
      * injection H as <-. auto.
      * rewrite NP, (proj2 (Nat.eqb_neq np 0)) in H by lia.
        injection H as <-. cbn [l_insert l_s l_y l_ys]. rewrite app_length. cbn [List.length].
        set (l := List.length (accepted es)) in *. rewrite A.
        split; [|split].
        -- rewrite Nat.add_mod_idemp_l by lia. reflexivity.
        -- intros i s' y' Hi Hl. unfold upd. destruct (Nat.eq_dec i l) as [->|D].
           ++ rewrite nth_error_app2 in Hi by (unfold l; lia). fold l in Hi. rewrite Nat.sub_diag in Hi.
              injection Hi as <- <-. rewrite Nat.eqb_refl. auto.
           ++ assert (Hlt : i < l + 1).
              { assert (X : nth_error (accepted es ++ [(s, y)]) i <> None) by congruence. apply nth_error_Some in X.
                rewrite app_length in X. exact X. }
              rewrite nth_error_app1 in Hi by (fold l; lia).
              assert (X : i mod np <> l mod np) by (apply mod_close; lia).
              apply Nat.eqb_neq in X. rewrite X. apply B; [exact Hi|lia].
        -- intros j H1 H2. unfold upd. rewrite (Nat.mod_small l) by lia.
           replace (j =? l) with false by (symmetry; apply Nat.eqb_neq; lia). apply C; lia.
    + injection H as <-. cbn. split; [symmetry; apply Nat.mod_0_l; lia|]. split; [|reflexivity].
      intros i s y Hi. destruct i; discriminate.
    + destruct (matvec so k st1 v) as [[r st2]|] eqn:M; [|discriminate]. cbn in H. injection H as <-.
      destruct (matvec_quiet so k _ _ _ _ M) as (al & ga & -> & _). cbn. auto.
Qed.

(** The history of [ex_C28]: three pairs accepted since the restart, the third one is in slot 0. *)
Example ex_C28_slots : forall k sc, exists st,
  run (matvec so2 k) (lb_init 2 sc g2) es_ex = Ok st /\ l_insert st = 1 /\ l_s st 0 = vec 0 1 /\ l_s st 1 = vec 1 1.
Proof.
  intros k sc.
  destruct (C28_total Rdiv sqrt (Rn 2) DV2 SQ2 so2 SO2 k 2 sc g2 es_ex ltac:(lia)) as (st & H).
  exists st. split; [exact H|].
  assert (A : accepted es_ex = [ (vec 1 0, vec 2 1); (vec 1 1, vec 2 0); (vec 0 1, vec 1 3) ]).
  { unfold es_ex, accepted. cbn [fold_left accept].
    rewrite !accept2 by (cbn; lra).
    assert (RJ : @sleb (exactK Rdiv sqrt) (@vdot _ (exactV Rdiv sqrt (Rn 2)) (vec 1 0) (vec (-1) 0)) threshold = true).
    { apply Rleb_true. apply Rle_trans with 0%R; [cbn; lra|]. apply Rlt_le, thr_pos. }
    rewrite RJ. rewrite !accept2 by (cbn; lra). reflexivity. }
  destruct (C28_slots _ _ so2 k 2 sc g2 _ st ltac:(lia) H) as (I & P & _). rewrite A in I, P.
  split; [exact I|]. split.
  - apply (P 2 (vec 0 1) (vec 1 3) eq_refl). cbn. lia.
  - apply (P 1 (vec 1 1) (vec 2 0) eq_refl). cbn. lia.
Qed.
Print Assumptions C28_slots.
