(** * Lists orthonormal in the inner product of a preconditioner. *)
From Coq Require Import List Bool Reals Lra.
From Verif Require Import Base Num KrylovPoly SpanMath.
Import ListNotations.
Local Open Scope R_scope.

(** [V] is orthonormal in the inner product [<u, P v>]. *)
Definition p_orthonormal {E : IPS} (P : iv E -> iv E) (V : list (iv E)) : Prop :=
  ForallOrdPairs (fun u v : iv E => ip u (P v) = 0) V /\ forall v, In v V -> ip v (P v) = 1.

Lemma FOP_map : forall (A B : Type) (f : A -> B) (Q : B -> B -> Prop) l,
  ForallOrdPairs (fun u v => Q (f u) (f v)) l -> ForallOrdPairs Q (map f l).
Proof.
  intros A B f Q l H. induction H as [|a l Ha Hl IH]; [constructor|]. cbn. constructor; [|exact IH].
  apply Forall_forall. intros y Hy. apply in_map_iff in Hy as (x & <- & Hx).
  rewrite Forall_forall in Ha. apply Ha. exact Hx.
Qed.
Lemma FOP_impl : forall (A : Type) (Q Q' : A -> A -> Prop) l, (forall u v, Q u v -> Q' u v) ->
  ForallOrdPairs Q l -> ForallOrdPairs Q' l.
Proof.
  intros A Q Q' l I H. induction H as [|a l Ha Hl IH]; [constructor|]. constructor; [|exact IH].
  eapply Forall_impl; [|exact Ha]. intros y. apply I.
Qed.

(** With [P = C Ct], the [P]-orthonormal lists are the lists [V] such that [Ct V] is orthonormal, and the
    [P]-norm of [A P v] is the norm of [Ct A C] applied to [Ct v]. *)
Section Factor.
Context (E E1 : IPS) (P At : iv E -> iv E) (C : iv E1 -> iv E) (Ct : iv E -> iv E1).
Hypothesis AD : adjoint C Ct.
Hypothesis PC : forall z, P z = C (Ct z).
Lemma factor_ip : forall u v, ip u (P v) = ip (Ct u) (Ct v).
Proof. intros u v. rewrite PC. apply AD. Qed.
Lemma factor_on : forall V, p_orthonormal P V -> orthog (map Ct V) /\ forall w, In w (map Ct V) -> ip w w = 1.
Proof.
  intros V [O N]. split.
  - apply FOP_map. eapply FOP_impl; [|exact O]. intros u v H. rewrite <- factor_ip. exact H.
  - intros w Hw. apply in_map_iff in Hw as (v & <- & Hv). rewrite <- factor_ip. apply N. exact Hv.
Qed.
Lemma factor_sum : forall V, rsum (map (fun v => ip (At (P v)) (P (At (P v)))) V) =
  rsum (map (fun w => ip (Ct (At (C w))) (Ct (At (C w)))) (map Ct V)).
Proof.
  intro V. rewrite map_map. f_equal. apply map_ext. intro v. rewrite factor_ip, PC. reflexivity.
Qed.
End Factor.

