(** L-BFGS matrices from conjugate steps: with pairs [(s, A s)] whose steps are conjugate with respect to a
    symmetric operator [A], every stored pair satisfies the secant equation, not only the newest one, and the
    matrix agrees with the inverse of [A] up to a part whose rank is the dimension less the number of pairs. *)
From Coq Require Import List Arith Lia Bool Reals Lra.
From Verif Require Import Base Num KrylovPoly SpanMath RankMath LbfgsMath.
Import ListNotations.
Local Open Scope R_scope.

Lemma FOP_snoc : forall (X : Type) (R : X -> X -> Prop) l x, ForallOrdPairs R (l ++ [x]) ->
  ForallOrdPairs R l /\ Forall (fun y => R y x) l.
Proof.
  intros X R l x. induction l as [|y l IH]; intro H; [split; constructor|].
  inversion H as [|y' l' HF HO]; subst. destruct (IH HO) as [H1 H2]. apply Forall_app in HF. destruct HF as [F1 F2].
  inversion F2; subst. split; constructor; assumption.
Qed.

Section Conj.
Variable E : IPS.
Notation V := (iv E).
Variable A : V -> V.
Hypothesis SA : selfadj A.

(** The pairs are [(s, A s)], and steps at different positions are conjugate. *)
Definition conj_pairs (ps : list (V * V)) : Prop :=
  Forall (fun p => snd p = A (fst p)) ps /\ ForallOrdPairs (fun p p' => ip (fst p) (A (fst p')) = 0) ps.

Lemma cp_snoc : forall ps p, conj_pairs (ps ++ [p]) -> conj_pairs ps /\ snd p = A (fst p) /\
  forall p', In p' ps -> snd p' = A (fst p') /\ ip (fst p) (snd p') = 0 /\ ip (snd p) (fst p') = 0.
Proof.
  intros ps p [F O]. destruct (FOP_snoc _ _ _ _ O) as [O1 O2]. apply Forall_app in F. destruct F as [F1 F2].
  inversion F2 as [|p0 l0 EP _]; subst. split; [split; assumption|]. split; [exact EP|]. intros p' Hp'.
  rewrite Forall_forall in F1, O2. specialize (F1 p' Hp'). specialize (O2 p' Hp'). cbn beta in *.
  split; [exact F1|]. split; [rewrite F1, (SA (fst p) (fst p')), ip_sym; exact O2|rewrite EP, ip_sym; exact O2].
Qed.

Lemma H_hered : forall g ps, 0 < g -> Forall (@curved E) ps -> conj_pairs ps ->
  forall p, In p ps -> Hof g ps (snd p) = fst p.
Proof.
  intros g ps G. induction ps as [|[s y] ps IH] using rev_ind; intros C P p Hp; [destruct Hp|].
  apply in_app_or in Hp. destruct Hp as [Hp|[<-|[]]].
  - destruct (cp_snoc _ _ P) as (P1 & _ & P3). apply Forall_app in C. destruct C as [C1 C2].
    destruct (P3 p Hp) as (_ & Z1 & Z2). cbn [fst snd] in Z1, Z2. specialize (IH C1 P1 p Hp).
    rewrite of_snoc_H. cbn [Hupd]. rewrite Z1.
    replace (isub (snd p) (iscale (/ ip s y * 0) y)) with (snd p) by (apply ip_ext; intro w; ipx; ring).
    rewrite IH, Z2. apply ip_ext. intro w. ipx. ring.
  - cbn [fst snd]. apply H_secant; assumption.
Qed.

Lemma cp_biorth : forall ps p p', conj_pairs ps -> In p ps -> In p' ps -> p = p' \/ ip (fst p) (snd p') = 0.
Proof.
  intros ps p p' [F O] H H'. rewrite Forall_forall in F.
  destruct (ForallOrdPairs_In O p p' H H') as [Z|[Z|Z]]; [now left|right|right].
  - rewrite (F p' H'). exact Z.
  - rewrite (F p' H'), (SA (fst p) (fst p')), ip_sym. exact Z.
Qed.

(** The steps, and likewise their images, are linearly independent. *)
Lemma cp_indep : forall ps, Forall (@curved E) ps -> conj_pairs ps ->
  indep (map fst ps) /\ indep (map snd ps).
Proof.
  intros ps C [F O]. induction O as [|p ps Hp O IH]; [split; exact I|].
  inversion C as [|p0 l0 Cp C1]; subst. inversion F as [|p0 l0 Fp F1]; subst. destruct (IH C1 F1) as [I1 I2].
  rewrite Forall_forall in Hp, F1. unfold curved in Cp.
  split; cbn [map indep]; (split; [assumption|]); intro S.
  - assert (G : forall w, span (map fst ps) w -> ip w (snd p) = 0).
    { intros w Hw. induction Hw as [|x w a Hx Hw IHw]; [apply ip_zerol|].
      rewrite ip_addl, ip_scalel, IHw. apply in_map_iff in Hx. destruct Hx as (p' & <- & Hp').
      rewrite Fp, (SA (fst p') (fst p)), ip_sym, (Hp p' Hp'). ring. }
    rewrite (G _ S) in Cp. lra.
  - assert (G : forall w, span (map snd ps) w -> ip (fst p) w = 0).
    { intros w Hw. induction Hw as [|x w a Hx Hw IHw]; [apply ip_zero|].
      rewrite ip_add, ip_scale, IHw. apply in_map_iff in Hx. destruct Hx as (p' & <- & Hp').
      rewrite (F1 p' Hp'), (Hp p' Hp'). ring. }
    rewrite (G _ S) in Cp. lra.
Qed.

Variables (g : R) (ps : list (V * V)).
Hypotheses (G : 0 < g) (C : Forall (@curved E) ps) (P : conj_pairs ps).

(** [H A - I] maps into the complement of the images, [A H - I] into the complement of the steps. *)
Lemma HA_perp : forall z u, In u (map snd ps) -> ip u (isub (Hof g ps (A z)) z) = 0.
Proof.
  intros z u Hu. apply in_map_iff in Hu. destruct Hu as (p & <- & Hp).
  destruct (of_good g ps G C) as [[_ HS _] _ _ _]. rewrite ip_sub, HS, (H_hered g ps G C P p Hp).
  destruct P as [F _]. rewrite Forall_forall in F. rewrite (F p Hp), (SA (fst p) z). ring.
Qed.
Lemma AH_perp : forall z u, In u (map fst ps) -> ip u (isub (A (Hof g ps z)) z) = 0.
Proof.
  intros z u Hu. apply in_map_iff in Hu. destruct Hu as (p & <- & Hp).
  destruct (of_good g ps G C) as [[_ HS _] _ _ _]. destruct P as [F _]. rewrite Forall_forall in F.
  rewrite ip_sub, (SA (fst p)), <- (F p Hp), HS, (H_hered g ps G C P p Hp). ring.
Qed.
End Conj.

(** The complement of [m] independent vectors in a space of dimension [n] spanned by the list [X]. *)
Lemma complement : forall (E : IPS) n (X : list (iv E)), dim_le E n -> (forall z : iv E, span X z) ->
  forall l : list (iv E), indep l -> exists U, (length U <= n - length l)%nat /\
    forall z : iv E, (forall u, In u l -> ip u z = 0) -> span U z.
Proof.
  intros E n X D SX l IL. destruct (basis l) as (o & O & NZ & _ & S).
  assert (LO : (length l <= length o)%nat).
  { apply steinitz; [|exact IL]. intros u Hu. apply S, span_in, Hu. }
  set (c := fun z : iv E => isub z (proj z o)).
  assert (Lc : forall z w, In w o -> ip w (c z) = 0).
  { intros z w Hw. unfold c. rewrite ip_sub, (proj_at z o w O NZ Hw), ip_sym. ring. }
  destruct (basis (map c X)) as (U & OU & NU & _ & SU).
  assert (PU : forall z, span (map c X) z -> forall w, In w o -> ip w z = 0).
  { intros z Hz w Hw. induction Hz as [|x z a Hx Hz IH]; [apply ip_zero|].
    apply in_map_iff in Hx. destruct Hx as (x0 & <- & _). rewrite ip_add, ip_scale, IH, (Lc x0 w Hw). ring. }
  exists U. split.
  - assert (Q : (length (o ++ U) <= n)%nat).
    { apply D; [|now apply Forall_app].
      assert (PO : forall u, In u U -> forall w, In w o -> ip w u = 0) by (intros u Hu; apply PU, SU, span_in, Hu).
      unfold orthog. revert O. clear -OU PO. induction o as [|w o IH]; intro O; [exact OU|]. inversion O as [|w0 l0 Hw O1]; subst.
      cbn. constructor.
      - apply Forall_app. split; [exact Hw|]. apply Forall_forall. intros u Hu. apply (PO u Hu). now left.
      - apply IH; [|exact O1]. intros u Hu w' Hw'. apply (PO u Hu). now right. }
    rewrite app_length in Q. lia.
  - intros z Hz. apply SU.
    assert (EZ : c z = z).
    { unfold c. assert (PZ : proj z o = izero).
      { apply ip_def. assert (Q : forall w, span o w -> ip w z = 0).
        { intros w Hw. apply S in Hw. induction Hw as [|x w a Hx Hw IH]; [apply ip_zerol|].
          rewrite ip_addl, ip_scalel, IH, (Hz x Hx). ring. }
        assert (Q2 : ip (proj z o) (c z) = 0).
        { pose proof (proj_span z o o (incl_refl o)) as Hp. induction Hp as [|x w a Hx Hw IH]; [apply ip_zerol|].
          rewrite ip_addl, ip_scalel, IH, (Lc z x Hx). ring. }
        pose proof (Q _ (proj_span z o o (incl_refl o))) as Q1. unfold c in Q2. rewrite ip_sub, Q1 in Q2. lra. }
      rewrite PZ. veq. }
    rewrite <- EZ.
    assert (LC : forall a u v, c (iadd (iscale a u) v) = iadd (iscale a (c u)) (c v)).
    { intros a u v. unfold c. replace (proj (iadd (iscale a u) v) o) with (iadd (iscale a (proj u o)) (proj v o)); [veq|].
      clear. induction o as [|w o IH]; cbn [proj]; [veq|]. rewrite <- IH. rewrite ip_addl, ip_scalel. unfold Rdiv. veq. }
    assert (C0 : c izero = izero).
    { unfold c. replace (proj izero o) with (@izero E); [veq|]. clear. induction o as [|w o IH]; cbn [proj]; [reflexivity|].
      rewrite <- IH, ip_zerol. unfold Rdiv. veq. }
    clear EZ Hz. pose proof (SX z) as HX. induction HX as [|x w a Hx Hw IH]; [rewrite C0; apply sp_0|].
    rewrite LC. apply sp_add; [now apply in_map|exact IH].
Qed.

Lemma Rn_span : forall n, exists X : list (iv (Rn n)), forall z : iv (Rn n), span X z.
Proof.
  induction n as [|n (X & H)]; [exists []; intro z; destruct z; apply (@sp_0 (Rn 0))|].
  set (L := fun z : iv (Rn n) => ((0, z) : iv (Rn (S n)))).
  assert (LL : lin L) by (split; intros; unfold L; cbn; f_equal; ring).
  exists (((1, rv0 n) : iv (Rn (S n))) :: map L X). intros [a z].
  replace ((a, z) : iv (Rn (S n))) with (@iadd (Rn (S n)) (@iscale (Rn (S n)) a (1, rv0 n)) (L z)).
  - apply sp_add; [now left|]. apply (span_mono (map L X)); [intros u Hu; now right|]. apply span_map; [exact LL|apply H].
  - unfold L. cbn. f_equal; [ring|].
    transitivity (@iadd (Rn n) (@iscale (Rn n) a izero) z); [reflexivity|]. apply (@ip_ext (Rn n)). intro w. ipx. ring.
Qed.
