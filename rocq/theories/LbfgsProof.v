(** * The products of pykrylov/linop/lbfgs.py are the BFGS matrices, in exact arithmetic. *)
From Coq Require Import List ZArith QArith Qreals Reals Lra Lia Bool Arith.
From Verif Require Import Base Num LbfgsModel LbfgsRing LbfgsMath.
Import ListNotations.
Local Open Scope R_scope.

Lemma rev_map_seq : forall (A : Type) (f : nat -> A) c,
  rev (map f (seq 0 c)) = map (fun i => f (c - 1 - i)%nat) (seq 0 c).
Proof.
  intros A f c. revert f. induction c as [|c IH]; intro f; [reflexivity|].
  rewrite seq_S at 1. rewrite map_app, rev_app_distr. cbn [map rev app plus].
  rewrite IH. cbn [seq map]. rewrite <- seq_shift, map_map. f_equal.
  - f_equal. lia.
  - apply map_ext. intro i. f_equal. lia.
Qed.

Section Exact.
Variables (dv : R -> R -> R) (sq : R -> R) (E : IPS).
Hypothesis (DV : dv_ok dv) (SQ : sq_ok sq).
Notation WW := (exactV dv sq E).
Notation V := (iv E).
Implicit Types (st : lb WW).

Lemma rgl : forall st (ps : list (V * V)), ring st ps -> (length ps <= l_np st)%nat.
Proof. intros st ps R. exact (rg_len _ _ R). Qed.
Lemma rgn : forall st (ps : list (V * V)), ring st ps ->
  forall j, (j < l_np st - length ps)%nat -> l_ys st (up st j) = None.
Proof. intros st ps R. exact (rg_none _ _ R). Qed.
Lemma rgs : forall st (ps : list (V * V)), ring st ps ->
  forall j (p : V * V), nth_error ps j = Some p -> holds st (up st (l_np st - length ps + j)) p.
Proof. intros st ps R. exact (rg_some _ _ R). Qed.
Lemma skipf : forall (A : Type) (f : A -> nat -> A) st (ps : list (V * V)) m a, ring st ps ->
  (forall a i, l_ys st (up st i) = None -> f a i = a) ->
  fold_left f (seq 0 (l_np st - length ps + m)) a =
  fold_left (fun a j => f a (l_np st - length ps + j)%nat) (seq 0 m) a.
Proof. intros A f st ps m a R N. exact (skip_fold A f st ps m a R N). Qed.

(** The scaling factor: [s'y / y'y] of the newest pair if scaling is on and there is one. *)
Definition gam (scaling : bool) (ps : list (V * V)) : R :=
  match scaling, rev ps with
  | true, (s, y) :: _ => ip s y / ip y y
  | _, _ => 1
  end.

Lemma gam_pos : forall sc ps, Forall curved ps -> 0 < gam sc ps.
Proof.
  intros sc ps F. unfold gam. destruct sc; [|lra].
  destruct (rev ps) as [|[s y] l] eqn:R; [lra|].
  assert (I : In (s, y) ps) by (apply in_rev; rewrite R; left; reflexivity).
  rewrite Forall_forall in F. specialize (F _ I). unfold curved in F. cbn in F.
  destruct (curved_nz _ _ F) as [_ N].
  apply Rdiv_lt_0_compat; [exact F|].
  destruct (Req_dec (ip y y) 0) as [Z|Z]; [exfalso; apply N, ip_def, Z|].
  pose proof (ip_pos y). lra.
Qed.

(** ** The two-loop recursion. *)
Definition dstep st (a : V * (nat -> R)) (k : nat) : V * (nat -> R) :=
  match l_ys st k with
  | None => a
  | Some d =>
      let '(q, alpha) := a in
      let alpha := upd alpha k (dv (ip (l_s st k) q) d) in
      (isub q (iscale (alpha k) (l_y st k)), alpha)
  end.
Definition ustep st (alpha : nat -> R) (r : V) (k : nat) : V :=
  match l_ys st k with
  | None => r
  | Some d => iadd r (iscale (alpha k - dv (ip (l_y st k) r) d) (l_s st k))
  end.

Lemma upd_eq : forall (A : Type) (f : nat -> A) k x, upd f k x k = x.
Proof. intros. unfold upd. rewrite Nat.eqb_refl. reflexivity. Qed.
Lemma upd_ne : forall (A : Type) (f : nat -> A) k x j, j <> k -> upd f k x j = f j.
Proof. intros. unfold upd. destruct (Nat.eqb_spec j k); congruence. Qed.

Lemma two_loop : forall st (g : R) ks qs, Forall2 (holds st) ks qs -> NoDup ks -> Forall curved qs ->
  forall q alpha q' alpha', fold_left (dstep st) ks (q, alpha) = (q', alpha') ->
  fold_left (ustep st alpha') (rev ks) (iscale g q') = Hof g (rev qs) q /\
  (forall k, ~ In k ks -> alpha' k = alpha k).
Proof.
  intros st g ks qs F. induction F as [|k [s y] ks qs (HS & HY & HD) F IH]; intros ND CU q alpha q' alpha' R.
  - cbn in R. injection R as <- <-. split; [reflexivity|intros; reflexivity].
  - inversion ND as [|? ? NI ND']; subst. inversion CU as [|? ? C CU']; subst.
    unfold curved in C. cbn [fst snd] in *.
    cbn [fold_left] in R. unfold dstep at 2 in R. rewrite HD in R. cbn zeta in R.
    rewrite upd_eq in R.
    destruct (IH ND' CU' _ _ _ _ R) as [A B]. split.
    + pose proof (f_equal (fun h => h q) (@of_snoc_H E g (rev qs) (s, y))) as X. cbn beta in X.
      etransitivity; [|symmetry; exact X]. clear X.
      cbn [rev]. rewrite fold_left_app. cbn [fold_left]. rewrite A.
      unfold ustep. rewrite HD. rewrite (B k NI), upd_eq. rewrite HS, HY.
      change (vdot s y) with (ip s y).
      rewrite !DV by lra. unfold Hupd.
      replace (ip s q / ip s y) with (/ ip s y * ip s q) by (field; lra).
      set (w := Hof g (rev qs) _). veq. unfold Rdiv. ring.
    + intros j J. rewrite B by (intro; apply J; right; assumption).
      apply upd_ne. intro; subst; apply J; left; reflexivity.
Qed.

(** The live slots, oldest first. *)
Definition slots st (c : nat) : list nat := map (fun j => up st (l_np st - c + j)%nat) (seq 0 c).

Lemma slots_hold : forall st (ps : list (V * V)), ring st ps -> Forall2 (holds st) (slots st (length ps)) ps.
Proof.
  intros st ps R. pose proof (rgs _ _ R) as H. unfold slots.
  change (forall j p, nth_error ps j = Some p ->
            holds st ((fun j => up st (l_np st - length ps + j)%nat) j) p) in H.
  revert H. generalize (fun j => up st (l_np st - length ps + j)%nat). clear. induction ps as [|p ps IH]; intros f H; [constructor|].
  cbn [length seq map]. constructor; [apply H; reflexivity|].
  rewrite <- seq_shift, map_map. apply IH. intros j q J. apply H. exact J.
Qed.

Lemma slots_nodup : forall st (ps : list (V * V)), ring st ps -> NoDup (slots st (length ps)).
Proof.
  intros st ps R. unfold slots. assert (LN : (length ps <= l_np st)%nat) by exact (rgl _ _ R).
  assert (G : forall l, (forall j, In j l -> (j < length ps)%nat) -> NoDup l ->
     NoDup (map (fun j => up st (l_np st - length ps + j)%nat) l)).
  { induction l as [|a l IH]; intros B N; cbn; constructor.
    - intro I. apply in_map_iff in I. destruct I as (b & Eb & Ib).
      pose proof (B b (or_intror Ib)). pose proof (B a (or_introl eq_refl)). apply up_inj in Eb; [|lia|lia].
      assert (a = b) by lia. subst b. inversion N; contradiction.
    - apply IH; [intros; apply B; right; assumption|]. inversion N; assumption. }
  apply G; [|apply seq_NoDup]. intros j J. apply in_seq in J. lia.
Qed.

Lemma fold_ext : forall (A B : Type) (f g : A -> B -> A) l a,
  (forall a b, In b l -> f a b = g a b) -> fold_left f l a = fold_left g l a.
Proof.
  intros A B f g l. induction l as [|b l IH]; intros a H; [reflexivity|]. cbn.
  rewrite H by (left; reflexivity). apply IH. intros. apply H. right. assumption.
Qed.

Lemma fold_map : forall (A B C : Type) (f : A -> B -> A) (h : C -> B) l a,
  fold_left f (map h l) a = fold_left (fun a c => f a (h c)) l a.
Proof. intros A B C f h l. induction l as [|b l IH]; intro a; [reflexivity|]. cbn. apply IH. Qed.

Lemma down_fold : forall st (ps : list (V * V)) a, ring st ps ->
  fold_left (inv_down st) (seq 0 (l_np st)) a = fold_left (dstep st) (rev (slots st (length ps))) a.
Proof.
  intros st ps a R. pose proof (rgl _ _ R) as L. pose proof (rg_ins _ _ R) as I.
  set (c := length ps) in *.
  replace (l_np st) with (c + (l_np st - c))%nat at 1 by lia.
  rewrite seq_app, fold_left_app. rewrite fold_map_seq, nop_fold.
  2:{ intros b i Hi. unfold inv_down. rewrite down_up by lia.
      rewrite (rgn _ _ R) by (fold c; lia). reflexivity. }
  unfold slots. rewrite rev_map_seq, fold_map. apply fold_ext. intros b i Hi. apply in_seq in Hi.
  unfold inv_down. rewrite down_up by lia.
  replace (l_np st - 1 - i)%nat with (l_np st - c + (c - 1 - i))%nat by lia. reflexivity.
Qed.

Lemma up_fold : forall st (ps : list (V * V)) alpha a, ring st ps ->
  fold_left (inv_up st alpha) (seq 0 (l_np st)) a =
  fold_left (ustep st alpha) (slots st (length ps)) a.
Proof.
  intros st ps alpha a R. pose proof (rgl _ _ R) as L.
  replace (l_np st) with (l_np st - length ps + length ps)%nat at 1 by lia.
  rewrite (skipf _ _ st ps) by (assumption || (intros b i N; unfold inv_up; rewrite N; reflexivity)).
  unfold slots. rewrite fold_map. reflexivity.
Qed.

Lemma last_slot : forall st (ps : list (V * V)) p l, ring st ps -> rev ps = p :: l ->
  holds st (submod (l_insert st) 1 (l_np st)) p.
Proof.
  intros st ps p l R E'. pose proof (rg_ins _ _ R) as I. pose proof (rgl _ _ R) as L.
  change (holds st (down st 0) p). rewrite down_up by lia.
  assert (P : ps = rev l ++ [p]) by (rewrite <- (rev_involutive ps), E'; reflexivity).
  pose proof (rgs _ _ R (length l) p) as X.
  rewrite P in X at 1. rewrite nth_error_app2 in X by (rewrite rev_length; lia).
  rewrite rev_length, Nat.sub_diag in X. specialize (X eq_refl).
  assert (LL : length ps = S (length l)) by (rewrite P, app_length, rev_length; cbn; lia).
  replace (l_np st - 1 - 0)%nat with (l_np st - length ps + length l)%nat by lia. exact X.
Qed.

Lemma scal_ok : forall st (ps : list (V * V)), ring st ps -> Forall curved ps ->
  (l_scal st = true -> ps <> [] -> scal_gamma st = Ok (Some (gam true ps))) /\
  (l_scal st = false \/ ps = [] -> scal_gamma st = Ok None).
Proof.
  intros st ps R F. pose proof (rg_ins _ _ R) as I. unfold scal_gamma.
  destruct (l_scal st); [|split; [discriminate|reflexivity]].
  destruct (Nat.eqb_spec (l_np st) 0); [lia|]. split.
  - intros _ NE. unfold gam. destruct (rev ps) as [|[s y] l] eqn:RV.
    { exfalso. apply NE. rewrite <- (rev_involutive ps), RV. reflexivity. }
    destruct (last_slot _ _ _ _ R RV) as (A & B & C). rewrite C, B. cbn [fst snd].
    do 2 f_equal. apply DV.
    assert (IN : In (s, y) ps) by (apply in_rev; rewrite RV; left; reflexivity).
    rewrite Forall_forall in F. specialize (F _ IN). unfold curved in F. cbn in F.
    destruct (curved_nz _ _ F) as [_ N]. intro Z. apply N, ip_def, Z.
  - intros [X|X]; [discriminate|]. subst ps.
    rewrite last_down, down_up by lia. rewrite (rgn _ _ R) by (cbn; lia). reflexivity.
Qed.

Theorem inv_ok : forall st (ps : list (V * V)) (v : V), ring st ps -> Forall curved ps ->
  exists st', inv_matvec st v = Ok (Hof (gam (l_scal st) ps) ps v, st').
Proof.
  intros st ps v R F. unfold inv_matvec. rewrite (down_fold st ps) by exact R.
  destruct (fold_left (dstep st) _ _) as [q alpha] eqn:D.
  assert (FR : Forall2 (holds st) (rev (slots st (length ps))) (rev ps)).
  { pose proof (slots_hold st ps R) as H. clear -H. induction H; [constructor|].
    cbn. apply Forall2_app; [assumption|]. constructor; [assumption|constructor]. }
  assert (NR : NoDup (rev (slots st (length ps)))) by (apply NoDup_rev, slots_nodup, R).
  assert (CR : Forall curved (rev ps)) by (apply Forall_rev, F).
  destruct (two_loop st (gam (l_scal st) ps) _ _ FR NR CR _ _ _ _ D) as [T _].
  rewrite !rev_involutive in T.
  destruct (scal_ok st ps R F) as [S1 S2].
  assert (ID : forall u : V, iscale 1 u = u) by (intro; veq).
  destruct (l_scal st) eqn:SC.
  - destruct ps as [|p ps'] eqn:PS.
    + rewrite S2 by (right; reflexivity). cbn [rbind]. rewrite (up_fold st []) by exact R.
      eexists. rewrite <- T. do 3 f_equal. cbn [gam rev]. rewrite ID. reflexivity.
    + rewrite S1 by (reflexivity || discriminate). cbn [rbind]. rewrite (up_fold st (p :: ps')) by exact R.
      eexists. rewrite <- T. reflexivity.
  - rewrite S2 by (left; reflexivity). cbn [rbind]. rewrite (up_fold st ps) by exact R.
    eexists. rewrite <- T. do 3 f_equal. cbn [gam]. rewrite ID. reflexivity.
Qed.
End Exact.
