(** * What is asked of [np.linalg.solve], and that it can be had.

    [np.linalg.solve] is not modelled; the theorems about the compact L-BFGS operator assume
    that it solves nonsingular systems ([solver_ok]).  Gaussian elimination with row exchanges
    is such a solver, so the assumption is satisfiable. *)
From Coq Require Import List Reals Lra Lia Bool Arith.
From Verif Require Import Base Num LbfgsModel LbfgsMath.
Import ListNotations.
Local Open Scope R_scope.

Definition solves (n : nat) (M : nat -> nat -> R) (a x : nat -> R) : Prop :=
  forall p, (p < n)%nat -> rsum n (fun q => M p q * x q) = a p.
Definition nonsingular (n : nat) (M : nat -> nat -> R) : Prop :=
  forall x, solves n M (fun _ => 0) x -> forall q, (q < n)%nat -> x q = 0.

(** A linear solver: on a nonsingular matrix it returns a solution. *)
Definition solver_ok (dv : R -> R -> R) (sq : R -> R) (so : lsolve (exactK dv sq)) : Prop :=
  forall n (M : nat -> nat -> R) (a : nat -> R), nonsingular n M ->
    exists x, so n M a = Ok x /\ solves n M a x.

Definition others (n p i : nat) : nat := if Nat.eqb i p then n else i.

Fixpoint gauss (n : nat) (M : nat -> nat -> R) (a : nat -> R) : option (nat -> R) :=
  match n with
  | O => Some (fun _ => 0)
  | S m =>
      match find (fun p => negb (Reqb (M p m) 0)) (seq 0 n) with
      | None => None
      | Some p =>
          let row i := others m p i in
          let f i := M (row i) m / M p m in
          match gauss m (fun i j => M (row i) j - f i * M p j) (fun i => a (row i) - f i * a p) with
          | None => None
          | Some x =>
              Some (upd x m ((a p - rsum m (fun j => M p j * x j)) / M p m))
          end
      end
  end.

Definition gauss_solve (dv : R -> R -> R) (sq : R -> R) : lsolve (exactK dv sq) :=
  fun n M a => match gauss n M a with Some x => Ok x | None => Err ValueError end.

Lemma rsum_upd : forall m (f x : nat -> R) t,
  rsum m (fun j => f j * upd x m t j) = rsum m (fun j => f j * x j).
Proof.
  intros. apply rsum_ext. intros i I. unfold upd. destruct (Nat.eqb_spec i m); [lia|reflexivity].
Qed.

Lemma rsum_minus : forall m (f g x : nat -> R) c,
  rsum m (fun j => (f j - c * g j) * x j) = rsum m (fun j => f j * x j) - c * rsum m (fun j => g j * x j).
Proof. intros m f g x c. induction m as [|m IH]; cbn; [ring|]. rewrite IH. ring. Qed.

(** The eliminated system with back substitution solves the whole system. *)
Lemma gauss_back : forall m (M : nat -> nat -> R) a p x, (p <= m)%nat -> M p m <> 0 ->
  solves m (fun i j => M (others m p i) j - M (others m p i) m / M p m * M p j)
           (fun i => a (others m p i) - M (others m p i) m / M p m * a p) x ->
  solves (S m) M a (upd x m ((a p - rsum m (fun j => M p j * x j)) / M p m)).
Proof.
  intros m M a p x P Z H i I. cbn [rsum]. rewrite rsum_upd.
  assert (UM : forall t, upd x m t m = t) by (intro; unfold upd; rewrite Nat.eqb_refl; reflexivity).
  rewrite UM. destruct (Nat.eq_dec i p) as [->|N].
  - field. exact Z.
  - assert (EX : exists j, (j < m)%nat /\ others m p j = i).
    { destruct (Nat.eq_dec i m) as [->|N2].
      - exists p. split; [lia|]. unfold others. rewrite Nat.eqb_refl. reflexivity.
      - exists i. split; [lia|]. unfold others. destruct (Nat.eqb_spec i p); [lia|reflexivity]. }
    destruct EX as (j & J & O). specialize (H j J). cbn beta in H. rewrite O, rsum_minus in H.
    replace (rsum m (fun q => M i q * x q)) with
      (a i - M i m / M p m * a p + M i m / M p m * rsum m (fun q => M p q * x q)) by lra.
    field. exact Z.
Qed.

Theorem gauss_ok : forall n M a, nonsingular n M ->
  exists x, gauss n M a = Some x /\ solves n M a x.
Proof.
  induction n as [|m IH]; intros M a NS; [exists (fun _ => 0); split; [reflexivity|intros p P; lia]|].
  cbn [gauss]. destruct (find _ (seq 0 (S m))) as [p|] eqn:F.
  - apply find_some in F. destruct F as [I Z]. apply in_seq in I.
    apply negb_true_iff, Reqb_false in Z.
    destruct (IH (fun i j => M (others m p i) j - M (others m p i) m / M p m * M p j)
                 (fun i => a (others m p i) - M (others m p i) m / M p m * a p)) as (x & G & S).
    + intros x H q Q.
      assert (K : solves (S m) M (fun _ => 0)
                    (upd x m (((fun _ => 0) p - rsum m (fun j => M p j * x j)) / M p m))).
      { apply (gauss_back m M (fun _ => 0) p x); [lia|exact Z|].
        intros i J. rewrite (H i J). ring. }
      specialize (NS _ K q ltac:(lia)). unfold upd in NS. destruct (Nat.eqb_spec q m); [lia|exact NS].
    + rewrite G. eexists. split; [reflexivity|]. apply gauss_back; [lia|exact Z|exact S].
  - exfalso.
    assert (C0 : forall p, (p <= m)%nat -> M p m = 0).
    { intros p P. pose proof (find_none _ _ F p ltac:(apply in_seq; lia)) as X.
      apply negb_false_iff, Reqb_true in X. exact X. }
    assert (K : solves (S m) M (fun _ => 0) (upd (fun _ => 0) m 1)).
    { intros p P. cbn [rsum]. rewrite rsum_upd, C0 by lia.
      rewrite rsum_zero by (intros; ring). ring. }
    specialize (NS _ K m ltac:(lia)). unfold upd in NS. rewrite Nat.eqb_refl in NS. lra.
Qed.

Theorem gauss_solver_ok : forall dv sq, solver_ok dv sq (gauss_solve dv sq).
Proof.
  intros dv sq n M a NS. destruct (gauss_ok n M a NS) as (x & G & S).
  exists x. unfold gauss_solve. rewrite G. split; [reflexivity|exact S].
Qed.
