(** C18, continued: CoordLinearOperator without entries, linop.py:638-685. *)
From Coq Require Import List ZArith Lia Bool Ring.
From Verif Require Import Base Field Vec LinopModel LinopFrame LinopGood LinopInit LinopAlg LinopOps LinopExtra LinopMat Cplx PropLinop.
Import ListNotations.

Section P.
Context {F : Fld} (FOK : FldOK F).

(** A size that has to be inferred from no indices raises ValueError and creates nothing; with both sizes given the operator is zero. *)
Theorem C18_empty : forall (s : st F) vdt nargin nargout sym, wfst s ->
  (nargin = 0 \/ nargout = 0 -> coord_op vdt [] nargin nargout sym s = (s, Err ValueError)) /\
  (nargin <> 0 -> nargout <> 0 -> sym = false ->
     exists s' a, coord_op vdt [] nargin nargout sym s = (s', Ok a) /\ denotes s' a nargin nargout (fun _ => repeat k0 nargout)).
Proof.
  intros s vdt nargin nargout sym W. split.
  - intros H. unfold coord_op.
    replace (Nat.eqb nargin 0 || Nat.eqb nargout 0) with true; [reflexivity|].
    symmetry. apply orb_true_iff. rewrite !Nat.eqb_eq. exact H.
  - intros N1 N2 ->.
    destruct (C18_coord FOK s vdt [] nargin nargout W N1 N2) as (s' & a & t & h & E & _ & _ & D & _).
    + intros v r c [].
    + intros _ v r c [].
    + exists s', a. split; [exact E|]. eapply denotes_ext; [|exact D]. intros x Hx. unfold mat_vec.
      assert (MC : forall {A : Type} (z : F) (l : list A), map (fun _ => z) l = repeat z (length l)) by (intros A z l; induction l; cbn; [|f_equal]; auto).
      unfold dense. rewrite map_map. transitivity (map (fun _ : nat => (k0 : F)) (seq 0 nargout)).
      * apply map_ext. intro i. change (entry (@nil (F * nat * nat)) i) with (fun _ : nat => (k0 : F)). rewrite MC, seq_length. exact (dot_zero_l FOK nargin x).
      * rewrite MC, seq_length. reflexivity.
Qed.
End P.

(** Both cases: the empty heap, over the complex rationals. *)
Example ex_C18_empty : wfst s0 /\
  coord_op DFloat [] 0 3 false s0 =
    (s0, Err ValueError).
Proof. split; [repeat split; intros; reflexivity|]. apply C18_empty; [exact FQI_OK|repeat split; intros; reflexivity|now left]. Qed.

Print Assumptions C18_empty.
