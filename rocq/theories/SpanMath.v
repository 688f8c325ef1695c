(** * Linear combinations, independence and rank (mathematics, no code is modelled here). *)
From Coq Require Import List Arith Lia Reals Lra.
From Verif Require Import Base Num KrylovPoly.
Import ListNotations.
Local Open Scope R_scope.

Section Span.
Context {E : IPS}.
Notation V := (iv E).

Lemma span_sub : forall l (u v : V), span l u -> span l v -> span l (isub u v).
Proof. intros. unfold isub, ineg. apply span_add; [|apply span_scale]; assumption. Qed.
Lemma span_map : forall (E' : IPS) (L : iv E' -> V) l u, lin L -> @span E' l u -> span (map L l) (L u).
Proof.
  intros E' L l u HL H. induction H as [|w v a Hw H IH].
  - rewrite (lin_zero L HL). apply sp_0.
  - rewrite (lin_add L HL), (lin_scale L HL). apply sp_add; [now apply in_map|exact IH].
Qed.
Lemma span_mono : forall l l' (u : V), incl l l' -> span l u -> span l' u.
Proof. intros l l' u H. apply span_incl. intros w Hw. apply span_in. now apply H. Qed.

(** The combination of [U] with coefficients [c]. *)
Fixpoint comb (U : list V) : rv (length U) -> V :=
  match U return rv (length U) -> V with
  | [] => fun _ => izero
  | u :: U => fun c => iadd (iscale (fst c) u) (comb U (snd c))
  end.
Lemma comb_lin : forall U, @lin (Rn (length U)) E (comb U).
Proof.
  induction U as [|u U [A S]]; split; intros; cbn.
  - veq.
  - veq.
  - change (iadd (iscale (fst u0 + fst v) u) (comb U (@iadd (Rn (length U)) (snd u0) (snd v))) =
            iadd (iadd (iscale (fst u0) u) (comb U (snd u0))) (iadd (iscale (fst v) u) (comb U (snd v)))).
    rewrite A. veq.
  - change (iadd (iscale (a * fst u0) u) (comb U (@iscale (Rn (length U)) a (snd u0))) =
            iscale a (iadd (iscale (fst u0) u) (comb U (snd u0)))).
    rewrite S. veq.
Qed.
Lemma comb_unit : forall U u, In u U -> exists c, u = comb U c.
Proof.
  induction U as [|w U IH]; [intros u []|]. intros u [<-|H].
  - exists ((1, @izero (Rn (length U))) : R * rv (length U)). cbn.
    pose proof (lin_zero _ (comb_lin U)) as Z. cbn in Z. rewrite Z. veq.
  - destruct (IH u H) as [c ->]. exists ((0, c) : R * rv (length U)). cbn. veq.
Qed.
Lemma span_comb : forall U u, span U u -> exists c, u = comb U c.
Proof.
  intros U u H. induction H as [|w v a Hw H [c ->]].
  - exists (@izero (Rn (length U))). symmetry. exact (lin_zero _ (comb_lin U)).
  - destruct (comb_unit U w Hw) as [c' ->].
    exists (@iadd (Rn (length U)) (@iscale (Rn (length U)) a c') c).
    rewrite (lin_add _ (comb_lin U)), (lin_scale _ (comb_lin U)). reflexivity.
Qed.
Lemma comb_list : forall U l, (forall u, In u l -> span U u) -> exists cs, l = map (comb U) cs.
Proof.
  intros U. induction l as [|u l IH]; intro H; [exists []; reflexivity|].
  destruct IH as [cs ->]; [intros; apply H; now right|].
  destruct (span_comb U u (H u (or_introl eq_refl))) as [c ->]. exists (c :: cs). reflexivity.
Qed.
Lemma indep_lift : forall (E' : IPS) (L : iv E' -> V) l, lin L -> @indep E (map L l) -> @indep E' l.
Proof.
  intros E' L l HL. induction l as [|v l IH]; cbn; [auto|]. intros [H N]. split; [auto|].
  intro S. apply N. now apply span_map.
Qed.
(** Steinitz: independent vectors in the span of [U] are at most as many as [U]. *)
Theorem steinitz : forall U (l : list V), (forall u, In u l -> span U u) -> indep l -> (length l <= length U)%nat.
Proof.
  intros U l H I. destruct (comb_list U l H) as [cs ->]. rewrite map_length.
  apply (@indep_dim (Rn (length U))); [apply Rn_dim|]. exact (indep_lift (Rn (length U)) (comb U) cs (comb_lin U) I).
Qed.

(** Gram-Schmidt: an orthogonal basis. *)
Theorem basis : forall U, exists o : list V, orthog o /\ Forall (fun u => u <> izero) o /\
  (length o <= length U)%nat /\ (forall u, span U u <-> span o u).
Proof.
  induction U as [|v U (o & O & NZ & L & S)].
  - exists []. repeat split; [constructor|constructor|auto|auto|auto].
  - assert (ST : forall x, span (v :: U) x <-> span (v :: o) x).
    { intro x. split; apply span_incl; intros y [<-|Hy]; try (apply span_in; now left).
      - apply (span_mono o); [intros q Hq; now right|]. apply S, span_in, Hy.
      - apply (span_mono U); [intros q Hq; now right|]. apply S, span_in, Hy. }
    set (w := isub v (proj v o)).
    assert (OW : Forall (fun u => ip w u = 0) o).
    { apply Forall_forall. intros u Hu. unfold w. ipx.
      rewrite (ip_sym (proj v o) u), (proj_at v o u O NZ Hu). ring. }
    assert (EV : v = iadd w (proj v o)) by (unfold w; veq).
    destruct (Req_dec (ip w w) 0) as [Z|Z].
    + apply ip_def in Z. exists o. split; [exact O|]. split; [exact NZ|]. split; [cbn; lia|].
      intro x. rewrite ST. split; [|apply span_mono; intros y Hy; now right].
      apply span_incl. intros y [<-|Hy]; [|now apply span_in].
      rewrite EV, Z. apply span_add; [apply sp_0|apply proj_span, incl_refl].
    + exists (w :: o). split; [constructor; auto|].
      split; [constructor; auto; intros C; apply Z; rewrite C; apply ip_zero|].
      split; [cbn; lia|]. intro x. rewrite ST.
      split; apply span_incl; intros y [<-|Hy]; try (apply span_in; now right).
      * rewrite EV at 1. apply span_add; [apply span_in; now left|]. apply proj_span. intros q Hq. now right.
      * unfold w. apply span_sub; [apply span_in; now left|]. apply proj_span. intros q Hq. now right.
Qed.
Lemma proj_same : forall o (v : V), orthog o -> Forall (fun u => u <> izero) o -> span o v -> v = proj v o.
Proof.
  intros o v O NZ S.
  assert (P : forall u, span o u -> ip u (isub v (proj v o)) = 0).
  { intros u Hu. induction Hu as [|w x a Hw Hx IH]; [apply ip_zerol|].
    rewrite ip_addl, IH, ip_scalel, ip_sub, (proj_at v o w O NZ Hw), (ip_sym v w). ring. }
  assert (Z : isub v (proj v o) = izero).
  { apply ip_def. apply P. apply span_sub; [exact S|apply proj_span, incl_refl]. }
  apply ip_ext. intro w. apply (f_equal (ip w)) in Z. rewrite ip_sub, ip_zero in Z. lra.
Qed.
End Span.

(** The rank of [A] is at most [r]: its range is spanned by [r] vectors. *)
Definition rank_le {E1 E2 : IPS} (A : iv E1 -> iv E2) (r : nat) : Prop :=
  exists U, (length U <= r)%nat /\ forall x, span U (A x).

(** If the range of [A] is spanned by [U], the range of the adjoint is spanned by as many vectors. *)
Theorem rank_adjoint : forall (E1 E2 : IPS) (A : iv E1 -> iv E2) (At : iv E2 -> iv E1) U, adjoint A At ->
  (forall x, span U (A x)) -> exists U', (length U' <= length U)%nat /\ forall y, span U' (At y).
Proof.
  intros E1 E2 A At U AD R. destruct (basis U) as (o & O & NZ & L & S).
  exists (map At o). rewrite map_length. split; [exact L|]. intro y.
  pose proof (adjoint_lin_t _ _ AD) as LT.
  assert (EY : At y = At (proj y o)).
  { apply ip_ext. intro x. rewrite (ip_sym x (At y)), (ip_sym x (At (proj y o))).
    assert (AX : forall u, ip (At u) x = ip (A x) u) by (intro u; rewrite (ip_sym (A x) u); symmetry; apply AD).
    rewrite !AX. clear AX.
    pose proof (proj1 (S _) (R x)) as HS. clear R. induction HS as [|w z a Hw Hz IH]; [rewrite !ip_zerol; reflexivity|].
    rewrite !ip_addl, !ip_scalel, IH, (proj_at y o w O NZ Hw), (ip_sym y w). reflexivity. }
  rewrite EY. apply span_map; [exact LT|]. apply proj_span, incl_refl.
Qed.

Lemma orthog_indep : forall (E : IPS) (l : list (iv E)), orthog l -> Forall (fun u => u <> izero) l -> indep l.
Proof.
  intros E l O. induction O as [|u t Hu Ht IH]; intro NZ; [exact I|]. inversion NZ; subst. split; [auto|].
  intro S. match goal with H : u <> izero |- _ => apply H end. apply ip_def.
  assert (G : forall w, span t w -> ip u w = 0).
  { intros w Hw. induction Hw as [|x w a Hx Hw IHw]; [apply ip_zero|].
    rewrite ip_add, ip_scale, IHw. rewrite Forall_forall in Hu. rewrite (Hu x Hx). ring. }
  apply G, S.
Qed.
(** Orthogonal vectors in the range of the adjoint are at most as many as the rank. *)
Theorem rank_orthog : forall (E1 E2 : IPS) (A : iv E1 -> iv E2) (At : iv E2 -> iv E1) r l, adjoint A At ->
  rank_le A r -> orthog l -> Forall (fun u => u <> izero) l -> (forall u, In u l -> exists y, u = At y) -> (length l <= r)%nat.
Proof.
  intros E1 E2 A At r l AD (U & LU & R) O NZ HL. destruct (rank_adjoint _ _ A At U AD R) as (U' & LU' & R').
  eapply Nat.le_trans; [|exact LU]. eapply Nat.le_trans; [|exact LU'].
  apply steinitz; [|now apply orthog_indep]. intros u Hu. destruct (HL u Hu) as [y ->]. apply R'.
Qed.
