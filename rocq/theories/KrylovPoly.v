(** * The bi-conjugate gradient polynomials.

    For a linear operator B and a vector r0, [P k] and [Q k] are the residual and direction
    polynomials of the bi-conjugate gradient method with the shadow residual r0, as operators.
    CGS, BiCGSTAB and TFQMR compute products of them with r0 (see KrylovTerm.v). *)
From Coq Require Import List Reals Lra Lia.
From Verif Require Import Base Num.
Import ListNotations.
Local Open Scope R_scope.

Section Poly.
Context {E : IPS} (B : iv E -> iv E) (LB : lin B) (r0 : iv E).
Notation V := (iv E).

(** polynomials in B *)
Inductive poly : (V -> V) -> Prop :=
| po_id : forall f, (forall v, f v = v) -> poly f
| po_B : forall f g, poly g -> (forall v, f v = B (g v)) -> poly f
| po_lin : forall f g h a b, poly g -> poly h -> (forall v, f v = iadd (iscale a (g v)) (iscale b (h v))) -> poly f.
Lemma poly_lin : forall f, poly f -> lin f.
Proof.
  intros f H. induction H as [f E1|f g Hg [A1 A2] E1|f g h a b Hg [A1 A2] Hh [B1 B2] E1].
  - split; intros; rewrite !E1; reflexivity.
  - split; intros; rewrite !E1; [rewrite A1|rewrite A2]; apply LB.
  - split; intros; rewrite !E1; [rewrite A1, B1|rewrite A2, B2]; veq.
Qed.
Lemma poly_B : forall f, poly f -> forall v, f (B v) = B (f v).
Proof.
  intros f H. induction H as [f E1|f g Hg A1 E1|f g h a b Hg A1 Hh B1 E1]; intro v; rewrite !E1.
  - reflexivity.
  - now rewrite A1.
  - rewrite A1, B1, (lin_add B LB), !(lin_scale B LB). reflexivity.
Qed.
Lemma poly_comm : forall f, poly f -> forall g, poly g -> forall v, f (g v) = g (f v).
Proof.
  intros f Hf g Hg. pose proof (poly_lin f Hf) as Lf.
  induction Hg as [g E1|g h Hh IH E1|g h k a b Hh IH1 Hk IH2 E1]; intro v; rewrite !E1.
  - reflexivity.
  - rewrite (poly_B f Hf). now rewrite IH.
  - rewrite (lin_add f Lf), !(lin_scale f Lf), IH1, IH2. reflexivity.
Qed.
(** the symmetric bilinear form of polynomials *)
Definition F (f g : V -> V) : R := ip r0 (f (g r0)).
Lemma F_sym : forall f g, poly f -> poly g -> F f g = F g f.
Proof. intros. unfold F. now rewrite (poly_comm f). Qed.
Lemma F_lin : forall f g h a b, F (fun v => iadd (iscale a (f v)) (iscale b (g v))) h = a * F f h + b * F g h.
Proof. intros. unfold F. ipx. reflexivity. Qed.
Definition mulB (f : V -> V) : V -> V := fun v => B (f v).
Lemma poly_mulB : forall f, poly f -> poly (mulB f).
Proof. intros f H. eapply po_B; [exact H|]. reflexivity. Qed.
Lemma F_B : forall f g, poly f -> F (mulB f) g = F f (mulB g).
Proof. intros f g H. unfold F, mulB. now rewrite (poly_B f H). Qed.

(** *** the sequences *)
Fixpoint PQ (k : nat) : (V -> V) * (V -> V) :=
  match k with
  | O => (fun v => v, fun v => v)
  | S k => let P := fst (PQ k) in let Q := snd (PQ k) in
      let P' := fun v => isub (P v) (iscale (F P P / F Q (mulB Q)) (B (Q v))) in
      (P', fun v => iadd (P' v) (iscale (F P' P' / F P P) (Q v)))
  end.
Definition P k := fst (PQ k).
Definition Q k := snd (PQ k).
Definition rho k := F (P k) (P k).
Definition sig k := F (Q k) (mulB (Q k)).
Definition alp k := rho k / sig k.
Definition bet k := rho (S k) / rho k.
Lemma P_S : forall k v, P (S k) v = isub (P k v) (iscale (alp k) (B (Q k v))).
Proof. reflexivity. Qed.
Lemma Q_S : forall k v, Q (S k) v = iadd (P (S k) v) (iscale (bet k) (Q k v)).
Proof. reflexivity. Qed.
Lemma P_0 : forall v, P 0 v = v. Proof. reflexivity. Qed.
Lemma Q_0 : forall v, Q 0 v = v. Proof. reflexivity. Qed.
Lemma PQ_poly : forall k, poly (P k) /\ poly (Q k).
Proof.
  induction k as [|k [H1 H2]]; [split; apply po_id; reflexivity|].
  assert (H3 : poly (P (S k))).
  { apply (po_lin _ (P k) (mulB (Q k)) 1 (- alp k)); auto using poly_mulB. intro v. rewrite P_S. unfold mulB. veq. }
  split; auto. apply (po_lin _ (P (S k)) (Q k) 1 (bet k)); auto. intro v. rewrite Q_S. veq.
Qed.
Lemma P_poly : forall k, poly (P k). Proof. intro. apply PQ_poly. Qed.
Lemma Q_poly : forall k, poly (Q k). Proof. intro. apply PQ_poly. Qed.
#[local] Hint Resolve P_poly Q_poly poly_mulB : core.
(** recurrences of the form *)
Lemma F_PS : forall k h, F (P (S k)) h = F (P k) h - alp k * F (mulB (Q k)) h.
Proof. intros. unfold F. rewrite P_S. ipx. unfold mulB. ring. Qed.
Lemma F_QS : forall k h, F (Q (S k)) h = F (P (S k)) h + bet k * F (Q k) h.
Proof. intros. unfold F. rewrite Q_S. ipx. ring. Qed.
Lemma F_0 : forall h, F (Q 0) h = F (P 0) h. Proof. reflexivity. Qed.
Lemma sig_PQ : forall k h, (0 < k)%nat -> F (P k) h = F (Q k) h - bet (k - 1) * F (Q (k - 1)) h.
Proof. intros [|k] h L; [lia|]. rewrite F_QS. replace (S k - 1)%nat with k by lia. ring. Qed.

Definition alive k := forall i, (i < k)%nat -> rho i <> 0 /\ sig i <> 0.
Lemma alp_nz : forall k i, alive k -> (i < k)%nat -> alp i <> 0.
Proof.
  intros k i H L. destruct (H i L) as [H1 H2]. unfold alp, Rdiv. apply Rmult_integral_contrapositive_currified; auto.
  now apply Rinv_neq_0_compat.
Qed.
Lemma F_BQ : forall k i h, alive k -> (i < k)%nat -> F (mulB (Q i)) h = (F (P i) h - F (P (S i)) h) / alp i.
Proof. intros k i h H L. rewrite F_PS. field. eapply alp_nz; eauto. Qed.

Theorem orth : forall k, alive k -> forall i j, (i < j <= k)%nat -> F (P i) (P j) = 0 /\ F (Q i) (mulB (Q j)) = 0.
Proof.
  induction k as [|k IH]; intros H i j L; [lia|].
  assert (HK : alive k) by (intros m Hm; apply H; lia). specialize (IH HK).
  destruct (Nat.eq_dec j (S k)) as [->|N]; [|apply IH; lia].
  assert (QO : forall i j, (i <= k)%nat -> (j <= k)%nat -> i <> j -> F (Q i) (mulB (Q j)) = 0).
  { intros a b La Lb Nab. destruct (le_lt_dec a b); [apply IH; lia|].
    rewrite (F_sym _ _ (Q_poly a)) by auto. rewrite F_B by auto. apply IH. lia. }
  assert (PB : forall i, (i < k)%nat -> F (P i) (mulB (Q k)) = 0).
  { intros a La. destruct a as [|a]; [rewrite <- F_0; apply QO; lia|].
    rewrite sig_PQ by lia. rewrite !QO by lia. ring. }
  assert (PK : F (P k) (mulB (Q k)) = sig k).
  { unfold sig. destruct (Nat.eq_dec k 0) as [->|Z]; [symmetry; apply F_0|].
    rewrite sig_PQ by lia. rewrite (QO (k - 1)%nat k) by lia. ring. }
  assert (SK : sig k <> 0) by (apply H; lia). assert (RK : rho k <> 0) by (apply H; lia).
  assert (PP : forall i, (i <= k)%nat -> F (P i) (P (S k)) = 0).
  { intros a La. rewrite F_sym by auto. rewrite F_PS.
    rewrite (F_sym (mulB (Q k))) by auto. rewrite (F_sym (P k) (P a)) by auto.
    destruct (Nat.eq_dec a k) as [->|Na].
    - rewrite PK. fold (rho k). unfold alp. field. auto.
    - rewrite PB by lia. destruct (IH a k ltac:(lia)) as [-> _]. ring. }
  split; [apply PP; lia|].
  rewrite <- F_B by auto. rewrite F_sym by auto. rewrite F_QS.
  rewrite (F_sym (P (S k))) by auto. rewrite (F_BQ (S k) i _ H ltac:(lia)).
  rewrite (PP i) by lia. destruct (Nat.eq_dec i k) as [->|Nk].
  - fold (sig k). fold (rho (S k)). unfold bet, alp. field. auto.
  - rewrite (PP (S i)) by lia. rewrite (QO k i) by lia. field. apply (alp_nz (S k)); auto. lia.
Qed.

(** *** Finite dimension *)
Inductive span (l : list V) : V -> Prop :=
| sp_0 : span l izero
| sp_add : forall u v a, In u l -> span l v -> span l (iadd (iscale a u) v).
Lemma span_add : forall l u v, span l u -> span l v -> span l (iadd u v).
Proof.
  intros l u v H Hv. induction H as [|w u a Hw H IH].
  - replace (iadd izero v) with v by veq. exact Hv.
  - replace (iadd (iadd (iscale a w) u) v) with (iadd (iscale a w) (iadd u v)) by veq. now apply sp_add.
Qed.
Lemma span_scale : forall l u a, span l u -> span l (iscale a u).
Proof.
  intros l u a H. induction H as [|w u b Hw H IH].
  - replace (iscale a izero) with (@izero E) by veq. apply sp_0.
  - replace (iscale a (iadd (iscale b w) u)) with (iadd (iscale (a * b) w) (iscale a u)) by veq. now apply sp_add.
Qed.
Lemma span_in : forall l u, In u l -> span l u.
Proof. intros l u H. replace u with (iadd (iscale 1 u) izero) by veq. apply sp_add; auto. apply sp_0. Qed.
Lemma span_incl : forall l l' u, (forall w, In w l -> span l' w) -> span l u -> span l' u.
Proof.
  intros l l' u HI H. induction H as [|w v a Hw H IH]; [apply sp_0|]. apply span_add; auto. apply span_scale; auto.
Qed.
Lemma proj_span : forall (v : V) l l', incl l l' -> span l' (proj v l).
Proof.
  intros v l l'. induction l as [|u l IH]; intro H; [apply sp_0|]. cbn. apply sp_add; [apply H; now left|].
  apply IH. intros w Hw. apply H. now right.
Qed.
Lemma proj_at : forall (v : V) l u, orthog l -> Forall (fun u => u <> izero) l -> In u l -> ip u (proj v l) = ip v u.
Proof.
  intros v l u O NZ. induction O as [|w t Hw Ht IH]; [intros []|].
  assert (N1 : w <> izero) by (now inversion NZ). assert (N2 : Forall (fun u => u <> izero) t) by (now inversion NZ).
  intros [<-|Hu]; cbn; ipx.
  - rewrite (proj_orth v t w Hw). field. apply Rgt_not_eq, ip_nz. auto.
  - rewrite IH by auto. rewrite Forall_forall in Hw. rewrite (ip_sym u w), (Hw u Hu). ring.
Qed.
(** each vector is outside the span of the following ones *)
Fixpoint indep (l : list V) : Prop := match l with [] => True | v :: l => indep l /\ ~ span l v end.
Theorem indep_dim : forall n, dim_le E n -> forall l, indep l -> (length l <= n)%nat.
Proof.
  intros n D l H.
  assert (G : exists o, orthog o /\ Forall (fun u => u <> izero) o /\ length o = length l /\ forall u, In u o -> span l u).
  { induction l as [|v l IH]; [exists []; cbn; repeat split; try constructor; tauto|].
    destruct H as [H N]. destruct (IH H) as (o & O & NZ & L & S).
    exists (isub v (proj v o) :: o). split.
    { constructor; auto. apply Forall_forall. intros u Hu. ipx.
      rewrite (ip_sym (proj v o) u), (proj_at v o u O NZ Hu). ring. }
    split. { constructor; auto. intros C. apply N.
      assert (EV : v = proj v o).
      { apply ip_ext. intro w. assert (Z : ip w (isub v (proj v o)) = 0) by (rewrite C; apply ip_zero).
        rewrite ip_sub in Z. lra. }
      rewrite EV. apply (span_incl o); auto. apply proj_span. apply incl_refl. }
    split; [cbn; lia|]. intros u [<-|Hu].
    - apply span_add; [apply span_in; now left|]. unfold ineg. apply span_scale.
      apply (span_incl o); [|apply proj_span, incl_refl]. intros w Hw.
      apply (span_incl l); [intros z Hz; apply span_in; now right|auto].
    - apply (span_incl l); [intros z Hz; apply span_in; now right|auto]. }
  destruct G as (o & O & NZ & L & _). rewrite <- L. now apply D.
Qed.

(** The vectors p(B) r0 span a space of dimension at most [n]. *)
Definition kdim (n : nat) : Prop :=
  forall l, (forall u, In u l -> exists f, poly f /\ u = f r0) -> indep l -> (length l <= n)%nat.
Lemma dim_kdim : forall n, dim_le E n -> kdim n.
Proof. intros n D l _. now apply indep_dim. Qed.

(** The method must find P k r0 = 0 by the time k reaches that dimension, unless it breaks down. *)
Theorem finite : forall n, kdim n -> alive n -> P n r0 = izero.
Proof.
  intros n D H.
  assert (OR : forall i j, (i <= n)%nat -> (j <= n)%nat -> i <> j -> F (P i) (P j) = 0).
  { intros i j Li Lj N. destruct (le_lt_dec i j); [apply (orth n); auto; lia|].
    rewrite F_sym by auto. apply (orth n); auto; lia. }
  destruct (Req_dec (ip (P n r0) (P n r0)) 0) as [Z|Z]; [now apply ip_def|exfalso].
  set (l := fun m => map (fun i => P i r0) (rev (seq 0 m)) ++ [P n r0]).
  assert (SP : forall m v j, (j < n)%nat -> (m <= j)%nat -> span (l m) v -> ip r0 (P j v) = 0).
  { intros m v j Lj Lm S. pose proof (poly_lin _ (P_poly j)) as LP. induction S as [|u v a Hu S IH].
    - rewrite (lin_zero _ LP). apply ip_zero.
    - rewrite (lin_add _ LP), (lin_scale _ LP). ipx. rewrite IH.
      unfold l in Hu. apply in_app_or in Hu. destruct Hu as [Hu|[<-|[]]].
      + apply in_map_iff in Hu. destruct Hu as (i & <- & Hi). apply in_rev, in_seq in Hi.
        fold (F (P j) (P i)). rewrite OR by lia. ring.
      + fold (F (P j) (P n)). rewrite OR by lia. ring. }
  assert (IN : forall m, (m <= n)%nat -> indep (l m)).
  { induction m as [|m IH]; intro Lm.
    - cbn. split; auto. intros S. apply Z. remember (P n r0) as w. destruct S as [|u v a [] _]. apply ip_zero.
    - assert (El : l (S m) = P m r0 :: l m).
      { unfold l. rewrite seq_S, rev_app_distr. reflexivity. }
      rewrite El. split; [apply IH; lia|]. intros S.
      apply (proj1 (H m ltac:(lia))). unfold rho, F. apply (SP m _ m ltac:(lia) (le_n m) S). }
  assert (LP : forall u, In u (l n) -> exists f, poly f /\ u = f r0).
  { intros u Hu. unfold l in Hu. apply in_app_or in Hu. destruct Hu as [Hu|[<-|[]]].
    - apply in_map_iff in Hu. destruct Hu as (i & <- & _). exists (P i). split; [apply P_poly|reflexivity].
    - exists (P n). split; [apply P_poly|reflexivity]. }
  pose proof (D (l n) LP (IN n (le_n n))) as LL. unfold l in LL.
  rewrite app_length, map_length, rev_length, seq_length in LL. cbn in LL. lia.
Qed.
Lemma P_zero_later : forall k v, P k r0 = izero -> poly v -> P k (v r0) = izero.
Proof.
  intros k v H Hv. rewrite (poly_comm _ (P_poly k) _ Hv), H. apply (lin_zero _ (poly_lin _ Hv)).
Qed.

(** *** Polynomials of lower degree *)
Inductive low (k : nat) : (V -> V) -> Prop :=
| lo_0 : forall f, (forall v, f v = izero) -> low k f
| lo_add : forall f g i a, (i < k)%nat -> low k g -> (forall v, f v = iadd (iscale a (P i v)) (g v)) -> low k f.
Lemma low_ext : forall k f g, low k f -> (forall v, g v = f v) -> low k g.
Proof.
  intros k f g H E1. destruct H as [f H|f h i a L H E2].
  - apply lo_0. intro v. now rewrite E1.
  - eapply lo_add; [exact L|exact H|]. intro v. now rewrite E1.
Qed.
Lemma low_mono : forall k m f, (k <= m)%nat -> low k f -> low m f.
Proof. intros k m f L H. induction H as [f H|f g i a Li H IH E1]; [now apply lo_0|]. apply (lo_add m f g i a); auto. lia. Qed.
Lemma low_add : forall k f g h a b, low k f -> low k g -> (forall v, h v = iadd (iscale a (f v)) (iscale b (g v))) -> low k h.
Proof.
  intros k f g h a b Hf Hg. revert h. induction Hf as [f H|f f' i c Li H IH E1]; intros h Eh.
  - revert h Eh. induction Hg as [g H1|g g' j d Lj H1 IH E2]; intros h Eh.
    + apply lo_0. intro v. rewrite Eh, H, H1. veq.
    + apply (lo_add k h (fun v => iscale b (g' v)) j (b * d)); auto.
      * apply IH. intro v. rewrite H. veq.
      * intro v. rewrite Eh, H, E2. veq.
  - apply (lo_add k h (fun v => iadd (iscale a (f' v)) (iscale b (g v))) i (a * c)); auto.
    intro v. rewrite Eh, E1. veq.
Qed.
Lemma low_P : forall k i, (i < k)%nat -> low k (P i).
Proof. intros k i L. apply (lo_add k _ (fun _ => izero) i 1); auto; [now apply lo_0|]. intro v. veq. Qed.
Lemma low_F : forall k f, alive k -> low k f -> F f (P k) = 0 /\ F f (mulB (Q k)) = 0.
Proof.
  intros k f A H. induction H as [f H|f g i a L H [IH1 IH2] E1].
  - unfold F. rewrite !H. split; apply ip_zero.
  - destruct (orth k A i k ltac:(lia)) as [O1 O2].
    assert (O3 : F (P i) (mulB (Q k)) = 0).
    { destruct i as [|i]; [rewrite <- F_0; exact O2|]. rewrite sig_PQ by lia. rewrite O2.
      destruct (orth k A (S i - 1)%nat k ltac:(lia)) as [_ ->]. ring. }
    unfold F in *. rewrite !E1. ipx. rewrite O1, O3, IH1, IH2. split; ring.
Qed.
(** B P_i in terms of its neighbours *)
Lemma BQ_eq : forall k i v, alive k -> (i < k)%nat -> B (Q i v) = iscale (/ alp i) (isub (P i v) (P (S i) v)).
Proof.
  intros k i v A L. rewrite P_S. pose proof (alp_nz _ _ A L) as N. apply ip_ext. intro w. ipx. field. auto.
Qed.
Lemma BP_low : forall k i, alive k -> (i < k)%nat ->
  exists f, low (S i) f /\ forall v, B (P i v) = iadd (iscale (- / alp i) (P (S i) v)) (f v).
Proof.
  intros k i A L. destruct i as [|i].
  - exists (fun v => iscale (/ alp 0) (P 0 v)). split.
    + apply (low_add 1 (P 0) (P 0) _ (/ alp 0) 0); try (apply low_P; lia). intro v. veq.
    + intro v. change (P 0 v) with (Q 0 v) at 1. rewrite (BQ_eq k 0 v A L). veq.
  - exists (fun v => iadd (iscale (/ alp (S i)) (P (S i) v)) (iscale (- bet i) (iscale (/ alp i) (isub (P i v) (P (S i) v))))).
    split.
    + apply (low_add (S (S i)) (P (S i)) (fun v => isub (P i v) (P (S i) v)) _ (/ alp (S i)) (- bet i * / alp i)).
      * apply low_P; lia.
      * apply (low_add (S (S i)) (P i) (P (S i)) _ 1 (-1)); try (apply low_P; lia). intro v. veq.
      * intro v. veq.
    + intro v. assert (EP : P (S i) v = isub (Q (S i) v) (iscale (bet i) (Q i v))) by (rewrite Q_S; veq).
      rewrite EP at 1. rewrite (lin_sub B LB), (lin_scale B LB).
      rewrite (BQ_eq k (S i) v A L), (BQ_eq k i v A ltac:(lia)). veq.
Qed.
Lemma B_low : forall k f, alive k -> low k f -> low (S k) (mulB f).
Proof.
  intros k f A H. induction H as [f H|f g i a L H IH E1].
  - apply lo_0. intro v. unfold mulB. rewrite H. apply (lin_zero B LB).
  - destruct (BP_low k i A L) as (h & Hh & Eh).
    apply (low_add (S k) (mulB (P i)) (mulB g) _ a 1); auto.
    + apply (low_add (S k) (P (S i)) h _ (- / alp i) 1); [apply low_P; lia|eapply low_mono; [|exact Hh]; lia|].
      intro v. unfold mulB. rewrite Eh. veq.
    + intro v. unfold mulB. rewrite E1, (lin_add B LB), (lin_scale B LB). veq.
Qed.

(** *** Self-adjoint positive definite operators never break down. *)
Lemma poly_adj : selfadj B -> forall f, poly f -> forall u v, ip u (f v) = ip (f u) v.
Proof.
  intros SA f H. induction H as [f E1|f g Hg IH E1|f g h a b Hg IH1 Hh IH2 E1]; intros u v; rewrite !E1.
  - reflexivity.
  - rewrite (SA u (g v)). rewrite IH. now rewrite (poly_B g Hg).
  - ipx. rewrite IH1, IH2. reflexivity.
Qed.
Lemma low_Q : forall i, low (S i) (Q i).
Proof.
  induction i as [|i IH]; [apply (low_ext 1 (P 0)); [apply low_P; lia|reflexivity]|].
  apply (low_add (S (S i)) (P (S i)) (Q i) _ 1 (bet i)); [apply low_P; lia|eapply low_mono; [|exact IH]; lia|].
  intro v. rewrite Q_S. veq.
Qed.
Lemma F_Q_P : forall k, alive k -> F (Q k) (P k) = rho k.
Proof.
  intros [|k] A; [reflexivity|]. rewrite F_QS. destruct (low_F (S k) (Q k) A (low_Q k)) as [-> _]. unfold rho. ring.
Qed.
Lemma spd_alive : selfadj B -> posdef B -> forall k, (forall j, (j < k)%nat -> P j r0 <> izero) -> alive k.
Proof.
  intros SA PD k. induction k as [|k IH]; intros NZ i Li; [lia|].
  assert (AK : alive k) by (apply IH; intros; apply NZ; lia).
  destruct (Nat.eq_dec i k) as [->|]; [|apply AK; lia].
  assert (RP : 0 < rho k).
  { unfold rho, F. rewrite (poly_adj SA (P k) (P_poly k)). apply ip_nz. apply NZ. lia. }
  split; [lra|]. apply Rgt_not_eq. unfold sig, F, mulB.
  rewrite (poly_adj SA (Q k) (Q_poly k)). apply PD. intro Z.
  pose proof (F_Q_P k AK) as X. unfold F in X. rewrite (poly_comm _ (Q_poly k) _ (P_poly k)), Z in X.
  rewrite (lin_zero _ (poly_lin _ (P_poly k))), ip_zero in X. lra.
Qed.
End Poly.
