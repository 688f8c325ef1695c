(** * Krylov spaces of low dimension (mathematics used by PropRank.v, no code is modelled here).

    If every vector of the Krylov space of [B] and [v] is a combination of [d] given vectors and [B]
    does not vanish on it, then [B z = v] for some [z] of the [d]-th Krylov space. *)
From Coq Require Import List Arith Lia Reals Lra.
From Verif Require Import Base Num KrylovPoly SpanMath MinresProof GkProof Precon Cheb RateMath.
Import ListNotations.
Local Open Scope R_scope.

Section Kry.
Context {E : IPS} (B : iv E -> iv E) (v : iv E) (LB : lin B).
Fixpoint pw (k : nat) : iv E := match k with O => v | S k => B (pw k) end.
Fixpoint pws (k : nat) : list (iv E) := match k with O => [] | S k => pw k :: pws k end.
Lemma pws_len : forall k, length (pws k) = k.
Proof. induction k; cbn; auto. Qed.
Lemma pw_kry : forall k, kry B v (S k) (pw k).
Proof. induction k as [|k IH]; [apply lk_v, LB|]. apply (lk_B B v). exact IH. Qed.
Lemma pws_kry : forall k u, In u (pws k) -> kry B v k u.
Proof.
  induction k as [|k IH]; [intros u []|]. intros u [<-|H]; [apply pw_kry|]. apply lk_S; auto.
Qed.
Lemma span_kry : forall k u, span (pws k) u -> kry B v k u.
Proof.
  intros k u H. induction H as [|w x a Hw Hx IH]; [apply lk_zero, LB|].
  apply lk_add; auto. apply lk_scale; auto. now apply pws_kry.
Qed.
Lemma pws_B : forall k u, In u (pws k) -> In (B u) (pws (S k)).
Proof.
  induction k as [|k IH]; [intros u []|]. intros u [<-|H]; [now left|]. right. now apply IH.
Qed.
Lemma pws_v : forall k, In v (pws (S k)).
Proof. induction k as [|k IH]; [now left|right; exact IH]. Qed.
Lemma kry_span : forall k u, kry B v k u -> span (pws k) u.
Proof.
  induction k as [|k IH]; intros u; [intros ->; apply sp_0|]. intros (a & z & Hz & ->).
  apply sp_add; [apply pws_v|]. specialize (IH z Hz). clear Hz.
  induction IH as [|w x c Hw Hx IH]; [rewrite (lin_zero B LB); apply sp_0|].
  rewrite (lin_add B LB), (lin_scale B LB). apply sp_add; [now apply pws_B|exact IH].
Qed.
Lemma span_dec : forall (l : list (iv E)) u, span l u \/ ~ span l u.
Proof.
  intros l u.
  destruct (basis l) as (o & O & NZ & _ & S).
  destruct (Req_dec (ip (isub u (proj u o)) (isub u (proj u o))) 0) as [Z|Z].
  - left. apply ip_def in Z. apply S.
    replace u with (proj u o); [apply proj_span, incl_refl|].
    apply ip_ext. intro w. apply (f_equal (ip w)) in Z. rewrite ip_sub, ip_zero in Z. lra.
  - right. intro H. apply S in H. apply Z. rewrite <- (proj_same o u O NZ H).
    replace (isub u u) with (@izero E) by veq. apply ip_zero.
Qed.
Lemma first_dep : forall k, indep (pws k) \/ exists j, (j < k)%nat /\ indep (pws j) /\ span (pws j) (pw j).
Proof.
  induction k as [|k [H|(j & L & H)]]; [left; exact I| |right; exists j; split; [lia|exact H]].
  destruct (span_dec (pws k) (pw k)) as [S|S]; [right; exists k; auto|]. left. split; assumption.
Qed.
Theorem dep_kry : forall n, ~ indep (pws (S n)) ->
  (forall k z, kry B v k z -> B z = izero -> z = izero) ->
  exists z, kry B v n z /\ B z = v.
Proof.
  intros n HD HI. destruct (first_dep (S n)) as [D|(j & L & D & S)].
  - exfalso. apply HD, D.
  - destruct j as [|j].
    + exists izero. split; [apply lk_zero, LB|]. rewrite (lin_zero B LB).
      cbn in S. inversion S as [Z|w x a [] Hx]. reflexivity.
    + apply span_kry in S. destruct S as (a & w & Hw & EQ). cbn in D. destruct D as [D N].
      set (p := isub (pw j) w).
      assert (KP : kry B v (S j) p) by (apply lk_sub; [exact LB|apply pw_kry|now apply lk_S]).
      assert (BP : B p = iscale a v).
      { unfold p, isub, ineg. rewrite (lin_add B LB), (lin_scale B LB). change (B (pw j)) with (pw (S j)). rewrite EQ. veq. }
      destruct (Req_dec a 0) as [->|NA].
      * exfalso. apply N. replace (pw j) with w; [now apply kry_span|].
        assert (PZ : p = izero) by (apply (HI _ _ KP); rewrite BP; veq).
        apply ip_ext. intro x. apply (f_equal (ip x)) in PZ. unfold p in PZ. rewrite ip_sub, ip_zero in PZ. lra.
      * exists (iscale (/ a) p). split.
        { apply lk_scale; [exact LB|]. revert KP. apply lk_le; [exact LB|lia]. }
        rewrite (lin_scale B LB), BP. veq. field. exact NA.
Qed.

Theorem low_kry : forall U, (forall k z, kry B v k z -> span U z) ->
  (forall k z, kry B v k z -> B z = izero -> z = izero) ->
  exists z, kry B v (length U) z /\ B z = v.
Proof.
  intros U HU. apply dep_kry. intro D. apply (steinitz U) in D; [rewrite pws_len in D; lia|].
  intros u Hu. apply (HU (S (length U))), pws_kry, Hu.
Qed.
Theorem dim_kry : forall n, dim_le E n -> (forall k z, kry B v k z -> B z = izero -> z = izero) ->
  exists z, kry B v n z /\ B z = v.
Proof.
  intros n DE. apply dep_kry. intro D. destruct (basis (pws (S n))) as (o & O & NZ & _ & S).
  apply (steinitz o) in D; [rewrite pws_len in D; specialize (DE o O NZ); lia|].
  intros u Hu. apply S, span_in, Hu.
Qed.

(** A multiple of the identity plus a part of low rank. *)
Theorem shift_kry : forall g U, (forall z, span U (isub (B z) (iscale g z))) -> forall k z, kry B v k z -> span (v :: U) z.
Proof.
  intros g U H. induction k as [|k IH]; [intros z ->; apply sp_0|]. intros z (a & w & Hw & ->).
  apply sp_add; [now left|]. replace (B w) with (iadd (isub (B w) (iscale g w)) (iscale g w)) by veq.
  apply span_add; [|apply span_scale; auto]. apply (span_mono U); [intros y Hy; now right|]. apply H.
Qed.
End Kry.

(** The Krylov spaces of the bi-conjugate gradient polynomials (KrylovPoly.v). *)
Theorem shift_kdim : forall (E : IPS) (B : iv E -> iv E) (r0 : iv E) g U,
  (forall z, span U (isub (B z) (iscale g z))) -> kdim B r0 (S (length U)).
Proof.
  intros E B r0 g U H l HL. apply (steinitz (r0 :: U)). intros u Hu.
  destruct (HL u Hu) as (f & PF & ->). clear Hu.
  induction PF as [f E1|f p Hp IH E1|f p h a c Hp IH1 Hh IH2 E1]; rewrite E1.
  - apply span_in. now left.
  - replace (B (p r0)) with (iadd (isub (B (p r0)) (iscale g (p r0))) (iscale g (p r0))) by veq.
    apply span_add; [|apply span_scale; exact IH]. apply (span_mono U); [intros y Hy; now right|]. apply H.
  - apply span_add; apply span_scale; assumption.
Qed.

Lemma posdef_inj : forall (E : IPS) (P : iv E -> iv E) u, posdef P -> ip u (P u) <= 0 -> u = izero.
Proof.
  intros E P u PP H. apply ip_def. destruct (Req_dec (ip u u) 0) as [Z|Z]; [exact Z|exfalso].
  assert (N : u <> izero) by (intros ->; apply Z, ip_zero). pose proof (PP u N). lra.
Qed.

(** ** Least squares: (N A' M A + d^2) z = N A' M b. *)
Section Ls.
Context {E1 E2 : IPS} (A : iv E1 -> iv E2) (At : iv E2 -> iv E1) (M : iv E2 -> iv E2) (N Ni : iv E1 -> iv E1)
  (b : iv E2) (d : R).
Hypotheses (AD : adjoint A At) (SM : selfadj M) (PM : posdef M) (SN : selfadj N) (PN : posdef N).
Hypothesis NI : forall z, N (Ni z) = z.
Let LA := adjoint_lin _ _ AD. Let LT := adjoint_lin_t _ _ AD. Let LM := adjoint_lin _ _ SM. Let LN := adjoint_lin _ _ SN.
Let C (z : iv E1) := N (At (M (A z))).
Let B (z : iv E1) := iadd (C z) (iscale (d * d) z).
Let v := N (At (M b)).

Lemma LC : lin C.
Proof.
  unfold C. split; intros; [rewrite (lin_add A LA), (lin_add M LM), (lin_add At LT), (lin_add N LN)
                 |rewrite (lin_scale A LA), (lin_scale M LM), (lin_scale At LT), (lin_scale N LN)]; reflexivity.
Qed.
Lemma LBl : lin B.
Proof. unfold B. split; intros; [rewrite (lin_add C LC)|rewrite (lin_scale C LC)]; veq. Qed.
Lemma N_inj : forall u w, N u = N w -> u = w.
Proof.
  intros u w H. assert (Z : isub u w = izero).
  { apply (posdef_inj _ N _ PN). rewrite (lin_sub N LN), H. replace (isub (N w) (N w)) with (@izero E1) by veq.
    rewrite ip_zero. lra. }
  apply ip_ext. intro x. apply (f_equal (ip x)) in Z. rewrite ip_sub, ip_zero in Z. lra.
Qed.
Lemma ls_range : forall k z, kry B v k z -> exists y, z = N (At y).
Proof.
  induction k as [|k IH]; intros z.
  - intros ->. exists izero. rewrite (lin_zero At LT), (lin_zero N LN). reflexivity.
  - intros (a & w & Hw & ->). destruct (IH w Hw) as [y ->].
    exists (iadd (iscale a (M b)) (iadd (M (A (N (At y)))) (iscale (d * d) y))).
    rewrite !(lin_add At LT), !(lin_add N LN), !(lin_scale At LT), !(lin_scale N LN). reflexivity.
Qed.
Theorem ls_rank : forall U, (forall x, span U (A x)) ->
  exists z, kry C v (length U) z /\ isub (At (M (isub b (A z)))) (iscale (d * d) (Ni z)) = izero.
Proof.
  intros U HU. destruct (rank_adjoint _ _ A At U AD HU) as (U' & LU & HT).
  destruct (low_kry B v LBl (map N U')) as (z & K & EZ).
  - intros k z K. destruct (ls_range k z K) as [y ->]. apply span_map; [exact LN|]. apply HT.
  - intros k z K Z. destruct (ls_range k z K) as [y Ey].
    assert (ENi : Ni z = At y) by (apply N_inj; rewrite NI; exact Ey).
    assert (Q : iadd (At (M (A z))) (iscale (d * d) (At y)) = izero).
    { apply N_inj. rewrite (lin_add N LN), (lin_scale N LN), <- Ey, (lin_zero N LN). exact Z. }
    apply (f_equal (ip z)) in Q. rewrite ip_add, ip_scale, ip_zero in Q.
    assert (Q1 : ip z (At (M (A z))) = ip (A z) (M (A z))).
    { rewrite (ip_sym z), <- AD, ip_sym. reflexivity. }
    assert (Q2 : ip z (At y) = ip (A z) y) by (rewrite (ip_sym z), <- AD, ip_sym; reflexivity).
    assert (P2 : 0 <= ip z (At y)).
    { rewrite Ey, ip_sym. destruct (Req_dec (ip (At y) (N (At y))) 0) as [E0|E0]; [rewrite E0; lra|].
      left. apply PN. intro X. apply E0. rewrite X. apply ip_zerol. }
    assert (AZ : A z = izero).
    { apply (posdef_inj _ M _ PM). rewrite <- Q1. pose proof (Rle_0_sqr d) as D. unfold Rsqr in D. nra. }
    rewrite Ey. rewrite AZ, ip_zerol in Q2.
    assert (AY : At y = izero).
    { apply (posdef_inj _ N _ PN). rewrite <- Ey, ip_sym, Q2. lra. }
    rewrite AY. apply (lin_zero N LN).
  - exists z. rewrite map_length in K. split.
    + apply (kry_shift C LC (d * d)). revert K. apply lk_le; [exact LBl|exact LU].
    + apply N_inj. rewrite (lin_sub N LN), (lin_scale N LN), NI, (lin_zero N LN), (lin_sub M LM), (lin_sub At LT), (lin_sub N LN).
      change (isub (isub v (C z)) (iscale (d * d) z) = izero). rewrite <- EZ. unfold B. veq.
Qed.
End Ls.

(** ** The dual system of CRAIG and CRAIG-MR: (A N A' + M^-1) y = b. *)
Section Du.
Context {E1 E2 : IPS} (A : iv E1 -> iv E2) (At : iv E2 -> iv E1) (M Mi : iv E2 -> iv E2) (N : iv E1 -> iv E1) (b : iv E2).
Hypotheses (AD : adjoint A At) (SM : selfadj M) (PM : posdef M) (SN : selfadj N) (PN : posdef N).
Hypothesis MI : forall z, M (Mi z) = z.
Let LA := adjoint_lin _ _ AD. Let LT := adjoint_lin_t _ _ AD. Let LM := adjoint_lin _ _ SM. Let LN := adjoint_lin _ _ SN.
Let C (y : iv E2) := M (A (N (At y))).
Let B (y : iv E2) := iadd (C y) (iscale 1 y).

Lemma LCd : lin C.
Proof.
  unfold C. split; intros; [rewrite (lin_add At LT), (lin_add N LN), (lin_add A LA), (lin_add M LM)
                 |rewrite (lin_scale At LT), (lin_scale N LN), (lin_scale A LA), (lin_scale M LM)]; reflexivity.
Qed.
Lemma LBd : lin B.
Proof. unfold B. split; intros; [rewrite (lin_add C LCd)|rewrite (lin_scale C LCd)]; veq. Qed.
Lemma M_inj : forall u w, M u = M w -> u = w.
Proof.
  intros u w H. assert (Z : isub u w = izero).
  { apply (posdef_inj _ M _ PM). rewrite (lin_sub M LM), H. replace (isub (M w) (M w)) with (@izero E2) by veq.
    rewrite ip_zero. lra. }
  apply ip_ext. intro x. apply (f_equal (ip x)) in Z. rewrite ip_sub, ip_zero in Z. lra.
Qed.
Theorem du_rank : forall U, (forall x, span U (A x)) ->
  exists y, kry C (M b) (S (length U)) y /\ iadd (A (N (At y))) (Mi y) = b.
Proof.
  intros U HU. destruct (low_kry B (M b) LBd (M b :: map M U)) as (y & K & EY).
  - apply (shift_kry B (M b) 1). intro z. replace (isub (B z) (iscale 1 z)) with (C z) by (unfold B; veq).
    apply (span_map E2 M U (A (N (At z)))); [exact LM|]. apply HU.
  - intros _ y _ Z.
    assert (Q : iadd (A (N (At y))) (Mi y) = izero).
    { apply M_inj. rewrite (lin_add M LM), MI, (lin_zero M LM). rewrite <- Z. unfold B, C. veq. }
    apply (f_equal (ip y)) in Q. rewrite ip_add, AD, ip_zero in Q.
    assert (P1 : 0 <= ip (At y) (N (At y))).
    { destruct (Req_dec (ip (At y) (N (At y))) 0) as [E0|E0]; [rewrite E0; lra|].
      left. apply PN. intro X. apply E0. rewrite X. apply ip_zerol. }
    assert (Y0 : Mi y = izero).
    { apply (posdef_inj _ M _ PM). rewrite MI, ip_sym. lra. }
    rewrite <- (MI y), Y0. apply (lin_zero M LM).
  - exists y. cbn [length] in K. rewrite map_length in K. split.
    + apply (kry_shift C LCd 1). exact K.
    + apply M_inj. rewrite (lin_add M LM), MI, <- EY. unfold B, C. veq.
Qed.
End Du.

(** ** MINRES: At z = b with a preconditioner. *)
Theorem mr_rank : forall (E : IPS) (At P : iv E -> iv E) (b : iv E) g U, selfadj At -> selfadj P ->
  (forall z, span U (isub (At (P z)) (iscale g z))) ->
  (forall k z, kry (fun z => At (P z)) b k z -> At (P z) = izero -> z = izero) ->
  exists z, kry (fun z => P (At z)) (P b) (S (length U)) z /\ At z = b.
Proof.
  intros E At P b g U SA SP HU HI.
  pose proof (adjoint_lin _ _ SA) as LA. pose proof (adjoint_lin _ _ SP) as LP.
  destruct (low_kry (fun z => At (P z)) b) with (U := b :: U) as (z & K & EZ).
  - split; intros; [rewrite (lin_add P LP), (lin_add At LA)|rewrite (lin_scale P LP), (lin_scale At LA)]; reflexivity.
  - apply (shift_kry _ b g U HU).
  - exact HI.
  - exists (P z). split; [apply (kry_push E P SP At b); exact K|exact EZ].
Qed.
Theorem mr_dim : forall (E : IPS) (At P : iv E -> iv E) (b : iv E) n, selfadj At -> selfadj P -> dim_le E n ->
  (forall k z, kry (fun z => At (P z)) b k z -> At (P z) = izero -> z = izero) ->
  exists z, kry (fun z => P (At z)) (P b) n z /\ At z = b.
Proof.
  intros E At P b n SA SP DE HI.
  pose proof (adjoint_lin _ _ SA) as LA. pose proof (adjoint_lin _ _ SP) as LP.
  destruct (dim_kry (fun z => At (P z)) b) with (n := n) as (z & K & EZ).
  - split; intros; [rewrite (lin_add P LP), (lin_add At LA)|rewrite (lin_scale P LP), (lin_scale At LA)]; reflexivity.
  - exact DE.
  - exact HI.
  - exists (P z). split; [apply (kry_push E P SP At b); exact K|exact EZ].
Qed.
