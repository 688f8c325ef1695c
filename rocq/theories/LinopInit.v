(** * What LinearOperator.__init__ builds (linop.py:114-194, 211-254), from any heap. *)
From Coq Require Import List ZArith Lia Bool.
From Verif Require Import Base Field Vec LinopModel LinopFrame LinopGood.
Import ListNotations.

Section Init.
Context {F : Fld} (FOK : FldOK F).
Notation st := (st F). Notation obj := (obj F). Notation M := (M F). Notation arr := (arr F).

(** the observable attributes of object [a], except counter and class payload *)
Definition has (s : st) (a : addr) (n m : nat) (sy he : bool) (dt : dtype) (c : clo F)
  (T H : option addr) : Prop :=
  exists o, objs s a = Some o /\ o_nargin o = n /\ o_nargout o = m /\ o_sym o = sy /\
    o_herm o = he /\ o_dtype o = dt /\ o_mv o = c /\ o_T o = T /\ o_H o = H.

(** The object graph built by LinearOperator(n, m, c, cT, cH, ...) with self at [N].
    [None, None] cases are described by [desc_incomplete] below. *)
Definition desc (s : st) (N : addr) (n m : nat) (c : clo F) (cT cH : option (clo F))
  (sym herm : bool) (dt : dtype) : Prop :=
  if is_complex dt then
    match sym, herm, cT, cH with
    | true, _, _, _ =>
        exists q, has s N n m sym herm dt c (Some N) (Some q) /\
                  has s q n m false false dt (CConj WN N) (Some q) (Some N) /\ q <> N
    | false, true, Some ct, _ =>
        exists t q, has s N n m sym herm dt c (Some q) (Some N) /\
                    has s q n m false false dt (CConj WN N) (Some N) (Some t) /\
                    has s t m n false true dt ct (Some N) (Some q) /\ q <> N
    | false, true, None, _ =>
        exists h q, has s N n m sym herm dt c (Some q) (Some N) /\
                    has s q n m false false dt (CConj WN N) (Some N) (Some h) /\
                    has s h m n false false dt (CConj WH N) None (Some q) /\ q <> N
    | false, false, Some ct, Some ch =>
        exists t h q, has s N n m sym herm dt c (Some t) (Some h) /\
                      has s t m n false false dt ct (Some N) (Some q) /\
                      has s h m n false false dt ch (Some q) (Some N) /\
                      has s q n m false false dt (CConj WN N) (Some h) (Some t) /\ t <> N /\ h <> N
    | false, false, Some ct, None =>
        exists t h q, has s N n m sym herm dt c (Some t) (Some h) /\
                      has s t m n false false dt ct (Some N) (Some q) /\
                      has s h m n false false dt (CConj WT N) (Some q) None /\
                      has s q n m false false dt (CConj WN N) (Some h) (Some t) /\ t <> N /\ h <> N
    | false, false, None, Some ch =>
        exists t h q, has s N n m sym herm dt c (Some t) (Some h) /\
                      has s t m n false false dt (CConj WH N) None (Some q) /\
                      has s h m n false false dt ch (Some q) (Some N) /\
                      has s q n m false false dt (CConj WN N) (Some h) (Some t) /\ t <> N /\ h <> N
    | false, false, None, None => has s N n m sym herm dt c None None
    end
  else
    match sym, herm, cT, cH with
    | true, true, _, _ => has s N n m sym herm dt c (Some N) (Some N)
    | true, false, _, None => has s N n m sym herm dt c (Some N) (Some N)
    | true, false, _, Some ch =>
        exists h, has s N n m sym herm dt c (Some N) (Some h) /\
                  has s h m n true false dt ch (Some h) (Some N) /\ h <> N
    | false, true, None, _ => has s N n m sym herm dt c (Some N) (Some N)
    | false, true, Some ct, _ =>
        exists t, has s N n m sym herm dt c (Some t) (Some N) /\
                  has s t m n false true dt ct (Some N) (Some t) /\ t <> N
    | false, false, Some ct, Some ch =>
        exists t h, has s N n m sym herm dt c (Some t) (Some h) /\
                    has s t m n false false dt ct (Some N) (Some N) /\
                    has s h m n false false dt ch (Some N) (Some N) /\ t <> N /\ h <> N
    | false, false, Some ct, None =>
        exists t, has s N n m sym herm dt c (Some t) (Some t) /\
                  has s t m n false false dt ct (Some N) (Some N) /\ t <> N
    | false, false, None, Some ch =>
        exists h, has s N n m sym herm dt c (Some h) (Some h) /\
                  has s h m n false false dt ch (Some N) (Some N) /\ h <> N
    | false, false, None, None => has s N n m sym herm dt c None None
    end.

Ltac fresh_ext := repeat first
  [ apply ext_set_fresh; [| match goal with W : wfst _ |- _ => apply (proj1 W); lia end]
  | apply ext_alloc_fresh; [| match goal with W : wfst _ |- _ => apply (proj1 W); lia end]
  | apply ext_refl ].
Ltac wfs := repeat first
  [ apply wf_set; [|cbn [nxt set_obj allocst]; lia]
  | apply wf_alloc; [|nx]
  | assumption ].
Ltac has_tac := eexists; split; [lk | repeat split; reflexivity].
Ltac desc_tac := repeat first
  [ has_tac | eassumption | neqs
  | match goal with |- _ /\ _ => split end
  | match goal with |- exists _, _ => eexists end ].

Theorem new_linop_desc : forall (s : st) n m c cT cH sym herm dt, wfst s ->
  exists s', new_linop n m c cT cH sym herm dt s = (s', Ok (nxt s)) /\
    ext s s' /\ wfst s' /\ nxt s < nxt s' /\ desc s' (nxt s) n m c cT cH sym herm dt /\
    (exists o, objs s' (nxt s) = Some o /\ o_pay o = PNone /\ o_count o = 0).
Proof.
  intros s n m c cT cH sym herm dt W.
  destruct dt, sym, herm, cT as [ct|], cH as [ch|];
    (eexists; split; [ run | split; [fresh_ext | split; [ wfs | split; [cbn; lia |]]];
       cbn [desc is_complex] ]);
    (split; [desc_tac | eexists; split; [lk|split; reflexivity]]).
Qed.
End Init.
