(** * Property C99, continued: at which statement the TypeError is raised.

    A name that is not bound when the exception leaves [solve] belongs to a statement that was not
    reached; since the attributes are assigned last, a failed [solve] never assigns [self.x]. *)
From Coq Require Import List Bool Arith Lia.
From Verif Require Import LinopModel DtModel DtReach PropDtype.
Import ListNotations.
Local Open Scope nat_scope.

Definition raised (p : dprog) (rhs : dtype) (e : denv) : Prop := exec (whole p) [(rhs_, rhs)] CastError e.
Definition unbound (e : denv) (x : var) : Prop := get e x = None.
Definition unboundb (e : denv) (x : var) : bool := match get e x with None => true | Some _ => false end.
Lemma unbound_iff : forall e x, unboundb e x = true <-> unbound e x.
Proof. intros e x. unfold unboundb, unbound. destruct (get e x); split; congruence. Qed.

Lemma raised_all : forall p rhs (Kb : denv -> bool) e,
  match coll 99 (whole p) [(rhs_, rhs)] with
  | Some c => forallb (fun q => negb (oc_beq (fst q) CastError) || Kb (snd q)) c
  | None => false end = true ->
  raised p rhs e -> Kb e = true.
Proof.
  intros p rhs Kb e H X. destruct (coll 99 (whole p) _) as [c|] eqn:C; [|discriminate].
  apply (coll_spec _ _ _ _ C) in X. rewrite forallb_forall in H. specialize (H _ X). exact H.
Qed.
Lemma both : forall e s x b (Q : Prop), (b = true <-> Q) ->
  unboundb e s && Bool.eqb (unboundb e x) b = true -> unbound e s /\ (unbound e x <-> Q).
Proof.
  intros e s x b Q HQ H. apply andb_prop in H. destruct H as [H1 H2]. apply Bool.eqb_prop in H2.
  split; [apply unbound_iff; auto|]. rewrite <- unbound_iff, H2. exact HQ.
Qed.

(** CGS (cgs.py:94, 96): at the update of [x] exactly when the preconditioner exceeds the join of
    operator and right-hand side; otherwise later, when [Az] is known. *)
Theorem C99_where_cgs : forall op P (guess : bool) rhs e, raised (cgs_dt op P guess) rhs e ->
  unbound e self_x_ /\ (unbound e Az_ <-> ~ upto P (join op rhs)).
Proof.
  intros op P guess rhs e X. apply (both e self_x_ Az_ (negb (uptob P (join op rhs)))).
  - rewrite <- upto_iff. destruct (uptob P (join op rhs)); simpl; split; congruence.
  - revert X. apply (raised_all _ _ (fun e => unboundb e self_x_ && Bool.eqb (unboundb e Az_) (negb (uptob P (join op rhs))))).
    destruct op, P as [[]|], guess, rhs; vm_compute; reflexivity.
Qed.

(** TFQMR (tfqmr.py:92-94): in the first three updates of the first half-step, before [c] is computed. *)
Theorem C99_where_tfqmr : forall op P (guess : bool) rhs e, raised (tfqmr_dt op P guess) rhs e ->
  unbound e self_x_ /\ unbound e c_ /\ get e theta_ = Some DFloat.
Proof.
  intros op P guess rhs e X.
  assert (K : unboundb e self_x_ && (unboundb e c_ && match get e theta_ with Some DFloat => true | _ => false end) = true).
  { revert X. apply (raised_all _ _ (fun e => unboundb e self_x_ && (unboundb e c_ && match get e theta_ with Some DFloat => true | _ => false end))).
    destruct op, P as [[]|], guess, rhs; vm_compute; reflexivity. }
  rewrite !andb_true_iff, !unbound_iff in K. destruct K as (K1 & K2 & K3). repeat split; auto.
  destruct (get e theta_) as [[]|]; congruence.
Qed.

(** MINRES (minres.py:240, 297): at the shift exactly when its dtype exceeds those of everything else;
    otherwise at the update of [x], with [w1] known. *)
Theorem C99_where_minres : forall op P shift rhs e, raised (minres_dt op P shift) rhs e ->
  let other := Nat.max 1 (ojoin (join op rhs) P) in
  (unbound e self_x_ /\ (unbound e alfa_ <-> other < rank shift)) /\ (unbound e w1_ <-> other < rank shift).
Proof.
  intros op P shift rhs e X other.
  set (b := other <? rank shift).
  assert (K : (unboundb e self_x_ && Bool.eqb (unboundb e alfa_) b) && (unboundb e self_x_ && Bool.eqb (unboundb e w1_) b) = true).
  { revert X. apply (raised_all _ _ (fun e => (unboundb e self_x_ && Bool.eqb (unboundb e alfa_) b) && (unboundb e self_x_ && Bool.eqb (unboundb e w1_) b))).
    unfold b, other. destruct op, P as [[]|], shift, rhs; vm_compute; reflexivity. }
  apply andb_prop in K. destruct K as [K1 K2].
  split; [apply (both e self_x_ alfa_ b) | apply (both e self_x_ w1_ b)]; auto; apply Nat.ltb_lt.
Qed.

(** CG (cg.py:130-131) and BiCGSTAB (bicgstab.py:91-93, 135-137). *)
Theorem C99_where_cg : forall op P (guess : bool) rhs e, raised (cg_dt op P guess) rhs e ->
  unbound e self_x_.
Proof.
  intros op P guess rhs e X. apply unbound_iff. revert X. apply (raised_all _ _ (fun e => unboundb e self_x_)).
  destruct op, P as [[]|], guess, rhs; vm_compute; reflexivity.
Qed.
Theorem C99_where_bicgstab : forall op P (guess : bool) rhs e, raised (bicgstab_dt op P guess) rhs e ->
  unbound e self_x_ /\ (unbound e q_ <-> join op rhs = 0).
Proof.
  intros op P guess rhs e X. apply (both e self_x_ q_ (join op rhs =? 0)); [apply Nat.eqb_eq|].
  revert X. apply (raised_all _ _ (fun e => unboundb e self_x_ && Bool.eqb (unboundb e q_) (join op rhs =? 0))).
  destruct op, P as [[]|], guess, rhs; vm_compute; reflexivity.
Qed.

(** Least-squares solvers: an integer right-hand side fails at the first normalisation of [u], before
    the operator is applied (lsqr.py:189-209 and the like); other failures come after. *)
Theorem C99_where_ls : forall op M N a rhs e,
  raised (lsqr_dt op M N) rhs e \/ raised (lsmr_dt op M N) rhs e \/
  raised (craig_dt op M N a) rhs e \/ raised (craigmr_dt op M N a) rhs e ->
  unbound e self_x_ /\ (unbound e Nv_ <-> rank rhs = 0).
Proof.
  intros op M N a rhs e X. apply (both e self_x_ Nv_ (rank rhs =? 0)); [apply Nat.eqb_eq|].
  destruct X as [X|[X|[X|X]]]; revert X;
    apply (raised_all _ _ (fun e => unboundb e self_x_ && Bool.eqb (unboundb e Nv_) (rank rhs =? 0)));
    destruct op, M as [[]|], N as [[]|], a, rhs; vm_compute; reflexivity.
Qed.

(** Each place is reached. *)
Lemma raised_some : forall p rhs (Kb : denv -> bool),
  match coll 99 (whole p) [(rhs_, rhs)] with
  | Some c => existsb (fun q => oc_beq (fst q) CastError && Kb (snd q)) c
  | None => false end = true ->
  exists e, raised p rhs e /\ Kb e = true.
Proof.
  intros p rhs Kb H. destruct (coll 99 (whole p) _) as [c|] eqn:C; [|discriminate].
  apply existsb_exists in H. destruct H as ([o e] & I & K). apply andb_prop in K. destruct K as [K1 K2].
  apply oc_beq_eq in K1. simpl in K1. subst o. exists e. split; [apply (coll_spec _ _ _ _ C); exact I | exact K2].
Qed.
Example ex_C99_where :
  (exists e, raised (cgs_dt DInt (Some DFloat) false) DInt e /\ unboundb e Az_ = true) /\
  (exists e, raised (cgs_dt DFloat None false) DInt e /\ negb (unboundb e Az_) = true) /\
  (exists e, raised (tfqmr_dt DInt None false) DInt e /\ unboundb e c_ = true) /\
  (exists e, raised (minres_dt DFloat None DComplex) DFloat e /\ unboundb e alfa_ = true) /\
  (exists e, raised (minres_dt DInt None DInt) DInt e /\ negb (unboundb e w1_) = true) /\
  (exists e, raised (cg_dt DFloat None false) DInt e /\ unboundb e self_x_ = true) /\
  (exists e, raised (bicgstab_dt DInt None false) DInt e /\ unboundb e q_ = true) /\
  (exists e, raised (bicgstab_dt DInt (Some DComplex) false) DFloat e /\ negb (unboundb e q_) = true) /\
  (exists e, raised (lsqr_dt DFloat None None) DInt e /\ unboundb e Nv_ = true) /\
  (exists e, raised (craig_dt DComplex None None true) DFloat e /\ negb (unboundb e Nv_) = true).
Proof.
  repeat split;
  match goal with |- exists e, raised ?p ?r e /\ (@?B e) = true => apply (raised_some p r B); vm_compute; reflexivity end.
Qed.
Print Assumptions C99_where_cgs.
Print Assumptions C99_where_tfqmr.
Print Assumptions C99_where_minres.
Print Assumptions C99_where_cg.
Print Assumptions C99_where_bicgstab.
Print Assumptions C99_where_ls.
