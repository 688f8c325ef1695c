(** * Property C49, continued: what [solve] of SYMMLQ does before the attribute it lacks.

    In a subclass that supplies [matvec], the statements up to symmlq.py:162 hand on the first Lanczos
    vector, its norm and whether the run is already over. *)
From Coq Require Import List String Bool Reals Lra QArith Qreals.
From Verif Require Import Base Num ToolsModel CgModel Symmlq.
Import ListNotations.
Local Open Scope R_scope.

Section Check.
Variables (dv : R -> R -> R) (sq : R -> R) (E : IPS).
Notation WW := (exactV dv sq E).
Definition eps : R := Q2R (1 # 4503599627370496).

Lemma attr_in : forall attrs, In "matvec"%string attrs -> getattr attrs "matvec" = Ok tt.
Proof.
  intros attrs H. unfold getattr. replace (existsb (String.eqb "matvec") attrs) with true; [reflexivity|].
  symmetry. apply existsb_exists. exists "matvec"%string. split; [exact H|apply String.eqb_refl].
Qed.

(** symmlq.py:130-162: with a preconditioner the run is over exactly when the check is asked for and
    <y, y> and <r1, P y> differ by more than the tolerance of the code. *)
Theorem C49_check : forall (X : Type) (rest : iv E -> R -> bool -> res X) (q : kprob WW) attrs (b : iv E) check P,
  In "matvec"%string attrs -> q_P q = Some P ->
  let y : iv E := P b in
  (1 <= ilen y)%nat -> 0 < ip b y ->
  exists over, sl_solve (W := WW) attrs rest q b check = rest (iscale (dv 1 (sq (ip b y))) y) (sq (ip b y)) over /\
    (over = true <-> check = true /\ (ip y y + eps) * q_cbrt q eps < Rabs (ip y y - ip b (P y))).
Proof.
  intros X rest q attrs b check P A HP y L B. unfold sl_solve. rewrite HP. cbn [vlen exactV]. fold y.
  replace (ilen y =? 0)%nat with false by (destruct (ilen y); [inversion L|reflexivity]).
  unfold sgtb. cbn -[Rltb Reqb machine_eps]. fold y.
  assert (B1 : Rltb 0 (ip b y) = true) by (apply Rltb_true; exact B).
  assert (B2 : Rltb (ip b y) 0 = false).
  { destruct (Rltb (ip b y) 0) eqn:Z; [apply Rltb_true in Z; lra|reflexivity]. }
  assert (B3 : Reqb (ip b y) 0 = false).
  { unfold Reqb. destruct (Req_EM_T (ip b y) 0); [lra|reflexivity]. }
  rewrite B1, B2, B3, (attr_in _ A). cbn [rbind orb].
  eexists. split; [reflexivity|]. rewrite !orb_false_r. destruct check.
  - rewrite Rltb_true. change (@machine_eps (exactK dv sq)) with eps. tauto.
  - split; [discriminate|intros [H _]; discriminate].
Qed.

(** So a self-adjoint preconditioner always passes; without one there is nothing to check. *)
Theorem C49_passes : forall (X : Type) (rest : iv E -> R -> bool -> res X) (q : kprob WW) attrs (b : iv E) check,
  In "matvec"%string attrs ->
  (forall P, q_P q = Some P -> forall u v, ip (P u) v = ip u (P v)) -> 0 <= q_cbrt q eps ->
  let y : iv E := match q_P q with Some P => P b | None => b end in
  (1 <= ilen y)%nat -> 0 < ip b y ->
  sl_solve (W := WW) attrs rest q b check = rest (iscale (dv 1 (sq (ip b y))) y) (sq (ip b y)) false.
Proof.
  intros X rest q attrs b check A S C y L B. destruct (q_P q) as [P|] eqn:HP.
  - destruct (C49_check X rest q attrs b check P A HP L B) as (over & -> & H). destruct over; [|reflexivity].
    exfalso. destruct (proj1 H eq_refl) as [_ H1]. rewrite (S P eq_refl b (P b)) in H1.
    replace (ip b (P (P b)) - ip b (P (P b))) with 0 in H1 by lra. rewrite Rabs_R0 in H1.
    assert (0 <= ip b (P (P b))) by (rewrite <- (S P eq_refl b (P b)); apply ip_pos).
    assert (0 < eps) by (unfold eps, Q2R; cbn; lra).
    pose proof (Rmult_le_pos (ip b (P (P b)) + eps) (q_cbrt q eps)). lra.
  - unfold sl_solve. rewrite HP. cbn [vlen exactV].
    replace (ilen b =? 0)%nat with false by (unfold y in L; destruct (ilen b); [inversion L|reflexivity]).
    unfold sgtb, y in *. cbn -[Rltb Reqb machine_eps].
    replace (Rltb 0 (ip b b)) with true by (symmetry; apply Rltb_true; exact B).
    replace (Rltb (ip b b) 0) with false.
    2:{ destruct (Rltb (ip b b) 0) eqn:Z; [apply Rltb_true in Z; lra|reflexivity]. }
    replace (Reqb (ip b b) 0) with false by (unfold Reqb; destruct (Req_EM_T (ip b b) 0); [lra|reflexivity]).
    rewrite (attr_in _ A). reflexivity.
Qed.
End Check.

(** P = [[1, 1], [0, 1]] is found not to be symmetric on b = (1, 1); P = 2 I passes. *)
Definition sh (u : rv 2) : rv 2 := (fst u + fst (snd u), (fst (snd u), tt)).
Definition tw (u : rv 2) : rv 2 := (2 * fst u, (2 * fst (snd u), tt)).
Definition pq (P : rv 2 -> rv 2) : kprob (exactV Rdiv sqrt (Rn 2)) :=
  mkprob (W := exactV Rdiv sqrt (Rn 2)) 2 2 (fun u : rv 2 => u) (Some P) 0 0 (fun _ => 1 / 100000) [].
Definition b11 : rv 2 := (1, (1, tt)).
Example ex_C49_check : forall check,
  exists v n, sl_solve (W := exactV Rdiv sqrt (Rn 2)) ("matvec"%string :: symmlq_attrs) (fun _ _ o => Ok o) (pq sh) b11 check = Ok check /\
  sl_solve (W := exactV Rdiv sqrt (Rn 2)) ("matvec"%string :: symmlq_attrs) (fun v n o => Ok (v, n, o)) (pq tw) b11 check = Ok (v, n, false).
Proof.
  intro check. assert (EP : 0 < eps < 1) by (unfold eps, Q2R; cbn; lra).
  eexists. eexists. split.
  - destruct (C49_check Rdiv sqrt (Rn 2) bool (fun _ _ o => Ok o) (pq sh) ("matvec"%string :: symmlq_attrs) b11 check sh)
      as (over & X & H); [left; reflexivity|reflexivity|cbn; auto|cbn; lra|].
    etransitivity; [exact X|]. f_equal. apply Bool.eq_iff_eq_true. rewrite H. cbn. split; [intros [-> _]; reflexivity|intros ->].
    split; [reflexivity|]. rewrite Rabs_pos_eq; lra.
  - apply (C49_passes Rdiv sqrt (Rn 2) _ (fun v n o => Ok (v, n, o)) (pq tw)); [left; reflexivity| |cbn; lra|cbn; auto|cbn; lra].
    intros P HP. injection HP as <-. intros [u1 [u2 []]] [v1 [v2 []]]. cbn. ring.
Qed.
Print Assumptions C49_check.
Print Assumptions C49_passes.
