(** * C65: the constructor of pykrylov/generic/generic.py and its keywords. *)
From Coq Require Import List String QArith Bool Arith.
From Verif Require Import Base PyCall.
Import ListNotations.
Local Open Scope string_scope.

Section C65.
Variables (val : Type) (flt : Q -> val) (none null_log : val).
Notation km_call := (km_call val flt none null_log).

(** The value found under a keyword, or the default. *)
Definition read (kw : dict val) (k : string) (d v : val) : Prop :=
  (forall x, In (k, x) kw -> NoDup (map fst kw) -> v = x) /\ (~ In k (map fst kw) -> v = d).

Lemma lookup_in : forall k (kw : dict val) v, lookup val k kw = Some v -> In (k, v) kw.
Proof.
  intros k kw v. induction kw as [|[k' v'] kw IH]; cbn; [discriminate|].
  destruct (String.eqb_spec k k') as [->|N]; [intro H; injection H as ->; left; reflexivity|].
  intro H. right. apply IH, H.
Qed.
Lemma lookup_none : forall k (kw : dict val), lookup val k kw = None <-> ~ In k (map fst kw).
Proof.
  intros k kw. induction kw as [|[k' v'] kw IH]; cbn; [tauto|].
  destruct (String.eqb_spec k k') as [->|N].
  - split; [discriminate|]. intro H. exfalso. apply H. left. reflexivity.
  - rewrite IH. split; intros H; [intros [E|E]; [congruence|tauto]|tauto].
Qed.
Lemma get_read : forall kw k d, read kw k d (get val kw k d).
Proof.
  intros kw k d. unfold get. split.
  - intros x I ND. destruct (lookup val k kw) as [v|] eqn:L.
    + apply lookup_in in L. clear -L I ND. induction kw as [|[k' v'] kw IH]; cbn in *; [tauto|].
      inversion ND as [|? ? NI ND']; subst.
      destruct L as [L|L], I as [I|I].
      * congruence.
      * injection L as -> ->. exfalso. apply NI. apply in_map_iff. exists (k, x). auto.
      * injection I as -> ->. exfalso. apply NI. apply in_map_iff. exists (k, v). auto.
      * apply IH; assumption.
    + apply lookup_none in L. exfalso. apply L. apply in_map_iff. exists (k, x). auto.
  - intro N. apply lookup_none in N. rewrite N. reflexivity.
Qed.

Definition reserved (k : string) : bool := String.eqb k "self" || String.eqb k "op".

Lemma filter_lookup : forall k (kw : dict val) (f : string * val -> bool),
  (forall x, f (k, x) = true) -> lookup val k (filter f kw) = lookup val k kw.
Proof.
  intros k kw f H. induction kw as [|[k' v'] kw IH]; [reflexivity|]. cbn.
  destruct (String.eqb_spec k k') as [<-|N].
  - rewrite H. cbn. rewrite String.eqb_refl. reflexivity.
  - destruct (f (k', v')); cbn; [|exact IH]. destruct (String.eqb_spec k k'); [contradiction|exact IH].
Qed.

Definition ctor (op : val) (kw : dict val) : kattrs val := km_init val flt none null_log op kw.

Lemma call_ok : forall self op kw, ~ In "self" (map fst kw) -> ~ In "op" (map fst kw) ->
  km_call self [op] kw = Ok (ctor op (filter (fun p => negb (reserved (fst p))) kw)).
Proof.
  intros self op kw S O. apply lookup_none in S. apply lookup_none in O.
  unfold km_call, PyCall.km_call, call. cbn [fill rmap rbind fst snd existsb]. rewrite S, O. cbn [is_some orb named rbind].
  unfold ctor. do 2 f_equal.
  apply filter_ext. intro p. unfold reserved. cbn. rewrite orb_false_r. reflexivity.
Qed.

Lemma ctor_filter : forall op kw, ctor op (filter (fun p => negb (reserved (fst p))) kw) = ctor op kw.
Proof.
  intros op kw. unfold ctor, km_init, get. rewrite !filter_lookup by (intro; reflexivity). reflexivity.
Qed.

(** Calls with one positional argument and any keywords (other than [self] and [op], which
    Python rejects) succeed.  The tolerances are those passed as [abstol] and [reltol], and
    1e-8 and 1e-6 by default. *)
Theorem C65_tolerances : forall self op kw, ~ In "self" (map fst kw) -> ~ In "op" (map fst kw) ->
  exists a, km_call self [op] kw = Ok a /\ a_op _ a = op /\
    read kw "abstol" (flt (1 # 100000000)) (a_abstol _ a) /\
    read kw "reltol" (flt (1 # 1000000)) (a_reltol _ a) /\
    read kw "precon" none (a_precon _ a) /\ read kw "logger" null_log (a_logger _ a) /\
    a_nMatvec _ a = 0%nat /\ a_converged _ a = false /\ a_x _ a = none.
Proof.
  intros self op kw S O. rewrite (call_ok self op kw S O), ctor_filter.
  eexists. split; [reflexivity|]. split; [reflexivity|].
  repeat split; try reflexivity; try apply get_read.
Qed.

(** Any other keyword, in particular the documented [atol] and [rtol], has no effect. *)
Theorem C65_ignored : forall self op kw1 k v kw2,
  ~ In k ["self"; "op"; "abstol"; "reltol"; "precon"; "logger"] ->
  km_call self [op] (kw1 ++ (k, v) :: kw2)%list = km_call self [op] (kw1 ++ kw2)%list.
Proof.
  intros self op kw1 k v kw2 N.
  assert (L : forall k', In k' ["self"; "op"; "abstol"; "reltol"; "precon"; "logger"] ->
     forall f, lookup val k' (filter f (kw1 ++ (k, v) :: kw2)%list) = lookup val k' (filter f (kw1 ++ kw2)%list)).
  { intros k' I f. rewrite !filter_app. induction (filter f kw1) as [|[a b] l IH].
    - cbn. destruct (f (k, v)); [|reflexivity]. cbn. destruct (String.eqb_spec k' k) as [->|]; [contradiction|reflexivity].
    - cbn [app lookup]. rewrite IH. reflexivity. }
  assert (L0 : forall k', In k' ["self"; "op"; "abstol"; "reltol"; "precon"; "logger"] ->
     lookup val k' (kw1 ++ (k, v) :: kw2)%list = lookup val k' (kw1 ++ kw2)%list).
  { intros k' I. specialize (L k' I (fun _ => true)).
    rewrite !(filter_lookup k' _ (fun _ => true)) in L by reflexivity. exact L. }
  unfold km_call, PyCall.km_call, call. cbn [fill rmap rbind fst snd existsb].
  rewrite !L0 by (cbn; auto). destruct (_ || _); [reflexivity|]. cbn [rbind named].
  f_equal. unfold km_init, get. rewrite !L by (cbn; auto 8). reflexivity.
Qed.

Theorem C65_atol_rtol : forall self op kw v w,
  km_call self [op] (("atol", v) :: ("rtol", w) :: kw) = km_call self [op] kw.
Proof.
  intros self op kw v w.
  assert (A : ~ In "atol" ["self"; "op"; "abstol"; "reltol"; "precon"; "logger"])
    by (cbn; intuition discriminate).
  assert (B : ~ In "rtol" ["self"; "op"; "abstol"; "reltol"; "precon"; "logger"])
    by (cbn; intuition discriminate).
  etransitivity; [exact (C65_ignored self op [] "atol" v (("rtol", w) :: kw) A)|].
  exact (C65_ignored self op [] "rtol" w kw B).
Qed.

(** Reserved names are refused. *)
Theorem C65_reserved : forall self op kw k, In k ["self"; "op"] -> In k (map fst kw) ->
  km_call self [op] kw = Err TypeError.
Proof.
  intros self op kw k I J.
  unfold km_call, PyCall.km_call, call. cbn [fill rmap rbind fst snd existsb].
  assert (L : is_some (lookup val k kw) = true).
  { destruct (lookup val k kw) eqn:L; [reflexivity|]. apply lookup_none in L. contradiction. }
  destruct I as [<-|[<-|[]]]; rewrite L; [reflexivity|]. rewrite orb_true_r. reflexivity.
Qed.
End C65.

(** The documentation says that [atol] is the absolute stopping tolerance. *)
Theorem C65_documentation_refuted : exists (kw : dict Q) (a : kattrs Q),
  In ("atol", 1 # 2) kw /\ In ("rtol", 1 # 3) kw /\
  km_call Q (fun q => q) 0 0 0 [0] kw = Ok a /\ ~ a_abstol Q a == 1 # 2 /\ ~ a_reltol Q a == 1 # 3.
Proof.
  exists [("atol", 1 # 2); ("rtol", 1 # 3)]. eexists. split; [left; reflexivity|]. split; [right; left; reflexivity|].
  split; [reflexivity|]. split; intro H; discriminate H.
Qed.

Example ex_C65 : ~ In "self" (map fst [("abstol", 1 # 2); ("atol", 1 # 4)]) /\
  km_call Q (fun q => q) 0 0 0 [7] [("abstol", 1 # 2); ("atol", 1 # 4)] =
  Ok (mkattrs Q 7 (1 # 2) (1 # 1000000) 0 0 0 0 [] 0 0 false 0 0).
Proof. split; [cbn; intuition discriminate|reflexivity]. Qed.

Print Assumptions C65_tolerances.
Print Assumptions C65_ignored.
Print Assumptions C65_atol_rtol.
Print Assumptions C65_reserved.
Print Assumptions C65_documentation_refuted.
