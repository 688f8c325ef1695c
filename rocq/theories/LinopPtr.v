(** * Object identity of transposes and adjoints (C04-C06), from any heap. *)
From Coq Require Import List ZArith Lia Bool.
From Verif Require Import Base Field Vec LinopModel LinopFrame LinopGood LinopInit.
Import ListNotations.

Section Ptr.
Context {F : Fld}.
Notation st := (st F). Notation obj := (obj F). Notation M := (M F). Notation arr := (arr F).

Definition isSome {A} (o : option A) : bool := match o with Some _ => true | None => false end.
(** attribute chains:  a.T , a.H  as Python values *)
Definition attrT (s : st) (a : addr) : option addr :=
  match objs s a with Some o => o_T o | None => None end.
Definition attrH (s : st) (a : addr) : option addr :=
  match objs s a with Some o => o_H o | None => None end.

Lemma has_T : forall (s : st) a n m sy he dt c T H, has s a n m sy he dt c T H -> attrT s a = T.
Proof. intros s a n m sy he dt c T H (o & Ho & R). unfold attrT. rewrite Ho. tauto. Qed.
Lemma has_H : forall (s : st) a n m sy he dt c T H, has s a n m sy he dt c T H -> attrH s a = H.
Proof. intros s a n m sy he dt c T H (o & Ho & R). unfold attrH. rewrite Ho. tauto. Qed.

Ltac ptr := 
  repeat match goal with
  | H : exists _, _ |- _ => destruct H
  | H : _ /\ _ |- _ => destruct H
  | H : has _ ?a _ _ _ _ _ _ _ _ |- _ =>
      let H1 := fresh in let H2 := fresh in
      pose proof (has_T _ _ _ _ _ _ _ _ _ _ H) as H1; pose proof (has_H _ _ _ _ _ _ _ _ _ _ H) as H2;
      clear H
  end;
  repeat match goal with
  | H : attrT ?s ?a = _ |- context[attrT ?s ?a] => rewrite H
  | H : attrH ?s ?a = _ |- context[attrH ?s ?a] => rewrite H
  end; cbn; repeat split; auto; try congruence; try discriminate.

Theorem ptr_TT : forall (s : st) n m c cT cH sym herm dt, wfst s ->
  exists s' a, new_linop n m c cT cH sym herm dt s = (s', Ok a) /\
    match attrT s' a with
    | None => sym = false /\ herm = false /\ cT = None /\ cH = None
    | Some t => attrT s' t =
        if is_complex dt && negb sym && negb herm && negb (isSome cT) && isSome cH
        then None else Some a
    end.
Proof.
  intros s n m c cT cH sym herm dt W.
  destruct (new_linop_desc s n m c cT cH sym herm dt W) as (s' & E & X & W' & L & D & _).
  exists s', (nxt s). split; [exact E|]. clear E X W' L W. unfold desc in D.
  destruct (is_complex dt), sym, herm, cT, cH; ptr.
Qed.
Theorem ptr_HH : forall (s : st) n m c cT cH sym herm dt, wfst s ->
  exists s' a, new_linop n m c cT cH sym herm dt s = (s', Ok a) /\
    match attrH s' a with
    | None => sym = false /\ herm = false /\ cT = None /\ cH = None
    | Some h => attrH s' h =
        if is_complex dt && negb sym && negb herm && isSome cT && negb (isSome cH)
        then None else Some a
    end.
Proof.
  intros s n m c cT cH sym herm dt W.
  destruct (new_linop_desc s n m c cT cH sym herm dt W) as (s' & E & X & W' & L & D & _).
  exists s', (nxt s). split; [exact E|]. clear E X W' L W. unfold desc in D.
  destruct (is_complex dt), sym, herm, cT, cH; ptr.
Qed.
Theorem ptr_flags : forall (s : st) n m c cT cH sym herm dt, wfst s ->
  exists s' a, new_linop n m c cT cH sym herm dt s = (s', Ok a) /\
    (sym = true -> attrT s' a = Some a) /\
    (herm = true -> is_complex dt && sym = false -> attrH s' a = Some a) /\
    (herm = true -> is_complex dt && sym = true ->
       exists h, attrH s' a = Some h /\ h <> a).
Proof.
  intros s n m c cT cH sym herm dt W.
  destruct (new_linop_desc s n m c cT cH sym herm dt W) as (s' & E & X & W' & L & D & _).
  exists s', (nxt s). split; [exact E|]. clear E X W' L W. unfold desc in D.
  destruct (is_complex dt), sym, herm, cT, cH; ptr; eauto.
Qed.
(** real operators: the T/H graph is closed: T.T, H.H, and T.H/H.T exist whenever T does *)
Theorem ptr_hermitian_transp : forall (s : st) n m c dt cH, wfst s -> is_complex dt = true ->
  exists s' a t h, new_linop n m c None cH false true dt s = (s', Ok a) /\
    attrT s' a = Some t /\ attrH s' t = Some h /\ attrT s' h = None.
Proof.
  intros s n m c dt cH W C.
  destruct (new_linop_desc s n m c None cH false true dt W) as (s' & E & X & W' & L & D & _).
  unfold desc in D. rewrite C in D. destruct D as (h & q & H1 & H2 & H3 & H4).
  exists s', (nxt s), q, h. split; [exact E|].
  rewrite (has_T _ _ _ _ _ _ _ _ _ _ H1), (has_H _ _ _ _ _ _ _ _ _ _ H2), (has_T _ _ _ _ _ _ _ _ _ _ H3).
  auto.
Qed.
End Ptr.
