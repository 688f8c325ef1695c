(** * Scalars: a field with an involution (conjugation) and a real-part map.
    Python scalars and array entries are modelled as exact elements of such a field. *)
From Coq Require Import List ZArith Lia Bool Ring Field QArith Qcanon.
Import ListNotations.

Record Fld := mkFld {
  K :> Type;
  k0 : K; k1 : K;
  kadd : K -> K -> K;
  kmul : K -> K -> K;
  ksub : K -> K -> K;
  kopp : K -> K;
  kinv : K -> K;
  kconj : K -> K;      (* complex conjugate *)
  kre : K -> K;        (* real part, what ndarray.astype(real dtype) keeps *)
  keqb : K -> K -> bool;
  kofZ : Z -> K
}.

Arguments k0 {_}. Arguments k1 {_}. Arguments kadd {_}. Arguments kmul {_}.
Arguments ksub {_}. Arguments kopp {_}. Arguments kinv {_}. Arguments kconj {_}.
Arguments kre {_}. Arguments keqb {_}. Arguments kofZ {_}.

Record FldOK (F : Fld) : Prop := mkFldOK {
  fk_ring : ring_theory (@k0 F) k1 kadd kmul ksub kopp eq;
  fk_inv : forall x : F, x <> k0 -> kmul x (kinv x) = k1;
  fk_conj_add : forall x y : F, kconj (kadd x y) = kadd (kconj x) (kconj y);
  fk_conj_mul : forall x y : F, kconj (kmul x y) = kmul (kconj x) (kconj y);
  fk_conj_conj : forall x : F, kconj (kconj x) = x;
  fk_re_real : forall x : F, kconj x = x -> kre x = x;
  fk_re_is_real : forall x : F, kconj (kre x) = kre x;
  fk_eqb : forall x y : F, keqb x y = true <-> x = y;
  fk_neq : (@k1 F) <> k0;
  fk_ofZ_0 : kofZ 0 = (@k0 F);
  fk_ofZ_1 : kofZ 1 = (@k1 F);
  fk_ofZ_opp : forall z, kofZ (- z) = kopp (@kofZ F z);
  fk_ofZ_real : forall z, kconj (@kofZ F z) = kofZ z;
  fk_ofZ_inj : forall z w, @kofZ F z = kofZ w -> z = w
}.

(** ** Gaussian rationals: a computable instance used in the examples. *)
Definition QI : Type := (Qc * Qc)%type.
Local Open Scope Qc_scope.
Definition qi (a b : Z) : QI := (Q2Qc (inject_Z a), Q2Qc (inject_Z b)).
Definition FQI : Fld := {|
  K := QI;
  k0 := (0, 0);
  k1 := (1, 0);
  kadd := fun x y => (fst x + fst y, snd x + snd y);
  kmul := fun x y => (fst x * fst y - snd x * snd y, fst x * snd y + snd x * fst y);
  ksub := fun x y => (fst x - fst y, snd x - snd y);
  kopp := fun x => (- fst x, - snd x);
  kinv := fun x => let d := (fst x * fst x + snd x * snd x) in (fst x / d, - snd x / d);
  kconj := fun x => (fst x, - snd x);
  kre := fun x => (fst x, 0);
  keqb := fun x y => Qeq_bool (fst x) (fst y) && Qeq_bool (snd x) (snd y);
  kofZ := fun z => (Q2Qc (inject_Z z), 0)
|}.

Lemma Qc_sq_nonneg : forall a : Qc, (0 <= a * a)%Qc.
Proof.
  intros a. unfold Qcle.
  assert (E : Qeq (this (a * a)%Qc) (a * a)%Q) by (cbn [Qcmult Q2Qc this]; apply Qred_correct).
  rewrite E. unfold Qle; cbn. destruct a as [[n d] H]; cbn. nia.
Qed.

Lemma Qc_sq_zero : forall a : Qc, a * a = 0 -> a = 0.
Proof.
  intros a H. destruct (Qcmult_integral a a H); auto.
Qed.

Lemma Qc_sum_sq_zero : forall a b : Qc, a * a + b * b = 0 -> a = 0 /\ b = 0.
Proof.
  intros a b H.
  assert (Ha : a * a = 0).
  { apply Qcle_antisym; [|apply Qc_sq_nonneg].
    rewrite <- H. rewrite <- (Qcplus_0_r (a*a)) at 1.
    apply Qcplus_le_compat; [apply Qcle_refl|apply Qc_sq_nonneg]. }
  split; [now apply Qc_sq_zero|].
  apply Qc_sq_zero. rewrite Ha, Qcplus_0_l in H. exact H.
Qed.

Lemma Qeq_bool_Qc : forall a b : Qc, Qeq_bool a b = true <-> a = b.
Proof.
  intros; split; intro H.
  - apply Qc_is_canon. now apply Qeq_bool_iff.
  - subst. apply Qeq_bool_iff. reflexivity.
Qed.

Lemma FQI_OK : FldOK FQI.
Proof.
  constructor; cbn [K k0 k1 kadd kmul ksub kopp kinv kconj kre keqb kofZ FQI].
  - constructor; intros; cbn [fst snd];
      repeat match goal with x : QI |- _ => destruct x end; cbn [fst snd];
      apply f_equal2; ring.
  - intros [a b] H; cbn [fst snd].
    assert (Hd : a * a + b * b <> 0).
    { intro E. apply Qc_sum_sq_zero in E. destruct E; subst. now apply H. }
    apply f_equal2; field; exact Hd.
  - intros [a b] [c d]; cbn; apply f_equal2; ring.
  - intros [a b] [c d]; cbn; apply f_equal2; ring.
  - intros [a b]; cbn; apply f_equal2; ring.
  - intros [a b] H; cbn in *. inversion H as [H1].
    apply f_equal2; auto.
    assert (E : (1 + 1) * b = 0).
    { replace ((1+1)*b) with (b + b) by ring. rewrite <- H1 at 2. ring. }
    apply Qcmult_integral in E. destruct E as [E|E]; [discriminate E|].
    rewrite E; ring.
  - intros [a b]; cbn; apply f_equal2; ring.
  - intros [a b] [c d]; cbn [fst snd]. rewrite andb_true_iff, !Qeq_bool_Qc.
    split; [intros []; subst; auto | intro E; inversion E; auto].
  - intro E; inversion E as [E1].
  - reflexivity.
  - reflexivity.
  - intros z; cbn [fst snd]. apply f_equal2; [|ring].
    apply Qc_is_canon. cbn [Qcopp Q2Qc this]. rewrite !Qred_correct.
    unfold Qeq, inject_Z; cbn. lia.
  - intros z; cbn [fst snd]. apply f_equal2; [auto|ring].
  - intros z w H. apply (f_equal fst) in H. cbn [fst] in H. apply (f_equal this) in H.
    assert (E : Qeq (Q2Qc (inject_Z z)) (Q2Qc (inject_Z w))) by (rewrite H; reflexivity).
    cbn [Q2Qc this] in E. rewrite !Qred_correct in E. unfold Qeq, inject_Z in E; cbn in E. lia.
Qed.
