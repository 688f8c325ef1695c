(** * The complex numbers (pairs of stdlib reals) as a scalar field, with absolute value and
    principal square root: shows the hypotheses used for abs and sqrt are satisfiable. *)
From Coq Require Import List ZArith Lia Bool Reals Lra Psatz.
From Verif Require Import Base Field.
Local Open Scope R_scope.

Definition CR : Type := (R * R)%type.
Definition reqb (a b : R) : bool := if Req_EM_T a b then true else false.
Definition FCR : Fld := {|
  K := CR;
  k0 := (0, 0);
  k1 := (1, 0);
  kadd := fun x y => (fst x + fst y, snd x + snd y);
  kmul := fun x y => (fst x * fst y - snd x * snd y, fst x * snd y + snd x * fst y);
  ksub := fun x y => (fst x - fst y, snd x - snd y);
  kopp := fun x => (- fst x, - snd x);
  kinv := fun x => let d := (fst x * fst x + snd x * snd x) in (fst x / d, - snd x / d);
  kconj := fun x => (fst x, - snd x);
  kre := fun x => (fst x, 0);
  keqb := fun x y => reqb (fst x) (fst y) && reqb (snd x) (snd y);
  kofZ := fun z => (IZR z, 0)
|}.
Lemma reqb_eq : forall a b, reqb a b = true <-> a = b.
Proof. intros. unfold reqb. destruct (Req_EM_T a b); split; intros; auto; discriminate. Qed.

Lemma FCR_OK : FldOK FCR.
Proof.
  constructor; cbn [K k0 k1 kadd kmul ksub kopp kinv kconj kre keqb kofZ FCR].
  - constructor; intros; cbn [fst snd];
      repeat match goal with x : CR |- _ => destruct x end; cbn [fst snd]; apply f_equal2; ring.
  - intros [a b] H; cbn [fst snd].
    assert (Hd : a * a + b * b <> 0).
    { intro E. apply H. assert (a = 0) by nra. assert (b = 0) by nra. subst; auto. }
    apply f_equal2; field; exact Hd.
  - intros [a b] [c d]; cbn; apply f_equal2; ring.
  - intros [a b] [c d]; cbn; apply f_equal2; ring.
  - intros [a b]; cbn; apply f_equal2; ring.
  - intros [a b] H; cbn in *. inversion H as [H1]. apply f_equal2; auto. lra.
  - intros [a b]; cbn; apply f_equal2; ring.
  - intros [a b] [c d]; cbn [fst snd]. rewrite andb_true_iff, !reqb_eq.
    split; [intros []; subst; auto | intro E; inversion E; auto].
  - intro E; inversion E; lra.
  - reflexivity.
  - reflexivity.
  - intros z; cbn [fst snd]. apply f_equal2; [apply opp_IZR|ring].
  - intros z; cbn [fst snd]. apply f_equal2; [auto|ring].
  - intros z w H. inversion H. now apply eq_IZR.
Qed.

(** np.abs *)
Definition cabs (z : FCR) : FCR := (sqrt (fst z * fst z + snd z * snd z), 0).
(** the principal square root; for real z >= 0 it is the real root *)
Definition cmod (z : CR) : R := sqrt (fst z * fst z + snd z * snd z).
Definition csqrt (z : FCR) : FCR :=
  (sqrt ((cmod z + fst z) / 2),
   if Rlt_dec (snd z) 0 then - sqrt ((cmod z - fst z) / 2) else sqrt ((cmod z - fst z) / 2)).
(** entry < 0, used on real arrays only *)
Definition cneg (z : FCR) : bool := if Rlt_dec (fst z) 0 then true else false.

Lemma cabs_real : forall z : FCR, kconj (cabs z) = cabs z.
Proof. intros [a b]. cbn. apply f_equal2; auto; ring. Qed.
Lemma cmod_bounds : forall a b, - cmod (a, b) <= a <= cmod (a, b) /\ 0 <= cmod (a, b) /\
  cmod (a, b) * cmod (a, b) = a * a + b * b.
Proof.
  intros a b. unfold cmod. cbn [fst snd].
  assert (P : 0 <= a * a + b * b) by nra. assert (Q := sqrt_pos (a * a + b * b)).
  assert (E := sqrt_sqrt _ P). repeat split; auto; nra.
Qed.
Lemma csqrt_sq : forall z : FCR, kmul (csqrt z) (csqrt z) = z.
Proof.
  intros [a b]. destruct (cmod_bounds a b) as (B & P & E). unfold csqrt. cbn [fst snd kmul FCR].
  set (r := cmod (a, b)) in *.
  assert (Pu : 0 <= (r + a) / 2) by lra. assert (Pv : 0 <= (r - a) / 2) by lra.
  assert (Eu := sqrt_sqrt _ Pu). assert (Ev := sqrt_sqrt _ Pv).
  assert (Qu := sqrt_pos ((r + a) / 2)). assert (Qv := sqrt_pos ((r - a) / 2)).
  set (u := sqrt ((r + a) / 2)) in *. set (v := sqrt ((r - a) / 2)) in *.
  assert (UV : (2 * (u * v)) * (2 * (u * v)) = b * b).
  { replace ((2 * (u * v)) * (2 * (u * v))) with (4 * ((u * u) * (v * v))) by ring. rewrite Eu, Ev. nra. }
  assert (UVp : 0 <= u * v) by nra.
  destruct (Rlt_dec b 0); apply f_equal2; try lra; nra.
Qed.
Lemma csqrt_real : forall z : FCR, kconj z = z -> cneg z = false -> kconj (csqrt z) = csqrt z.
Proof.
  intros [a b] H N. cbn in H. injection H as H. assert (b = 0) by lra. subst b.
  unfold cneg in N. cbn [fst] in N. destruct (Rlt_dec a 0); [discriminate|].
  destruct (cmod_bounds a 0) as (B & P & E). assert (cmod (a, 0) = a) by nra.
  unfold csqrt. cbn [fst snd kconj FCR]. destruct (Rlt_dec 0 0); [lra|].
  rewrite H0. replace ((a - a) / 2) with 0 by lra. rewrite sqrt_0. apply f_equal2; auto; ring.
Qed.
