(** * Exact arithmetic: the Golub-Kahan bidiagonalisation behind LSQR, LSMR, CRAIG and CRAIG-MR. *)
From Coq Require Import List ZArith Reals Lia Lra Bool.
From Verif Require Import Base Num KrylovPoly SpanMath MinresProof.
Import ListNotations.
Local Open Scope R_scope.

Section GK.
Context {E1 E2 : IPS}.
Variables (A : iv E1 -> iv E2) (At : iv E2 -> iv E1).
Hypothesis AD : adjoint A At.
Let LA : lin A := adjoint_lin A At AD.
Let LAt : lin At := adjoint_lin_t A At AD.

Lemma ip_At : forall z y, ip z (At y) = ip (A z) y.
Proof. intros. rewrite (ip_sym z), <- AD, ip_sym. reflexivity. Qed.

Lemma unit_norm : forall {E : IPS} (y : iv E), 0 < inorm y -> ip (iscale (1 / inorm y) y) (iscale (1 / inorm y) y) = 1.
Proof. intros E y H. rewrite ip_scale, ip_scalel, <- inorm_sq. field. lra. Qed.

Lemma inorm_eq : forall {E : IPS} (y : iv E) a, 0 <= a -> ip y y = a * a -> inorm y = a.
Proof. intros E y a H1 H2. unfold inorm. rewrite H2. apply sqrt_square. exact H1. Qed.

Lemma sum_sq_pos : forall a b : R, a <> 0 -> 0 < a * a + b * b.
Proof. intros a b H. nra. Qed.

(** [U], [V]: the earlier vectors; [u], [v], [al]: the current ones. *)
Record GK (U : list (iv E2)) (V : list (iv E1)) (u : iv E2) (v : iv E1) (al : R) : Prop := {
  gk_uu : ip u u = 1;
  gk_vv : ip v v = 1;
  gk_uU : forall z, In z U -> ip z u = 0;
  gk_vV : forall z, In z V -> ip z v = 0;
  gk_U1 : forall z, In z U -> ip z z = 1;
  gk_V1 : forall z, In z V -> ip z z = 1;
  gk_Uo : orthog U;
  gk_Vo : orthog V;
  gk_AV : forall z, In z V -> dp (u :: U) (A z);
  gk_AU : forall z, In z U -> dp V (At z);
  gk_Au : exists g, dp V g /\ At u = iadd (iscale al v) g;
  gk_al : 0 < al;
  gk_R : forall z, In z (v :: V) -> exists y, z = At y }.

Section Step.
Context {U : list (iv E2)} {V : list (iv E1)} {u : iv E2} {v : iv E1} {al : R}.
Hypothesis G : GK U V u v al.

(** The new left vector, before normalisation. *)
Let y := isub (A v) (iscale al u).

Lemma gk_v_dp : forall z, dp V z -> ip z v = 0.
Proof. intros z H. apply H. apply (gk_vV _ _ _ _ _ G). Qed.
Lemma gk_u_dp : forall z, dp U z -> ip z u = 0.
Proof. intros z H. apply H. apply (gk_uU _ _ _ _ _ G). Qed.

Lemma gk_y : forall z, dp (u :: U) z -> ip z y = 0.
Proof.
  intros z H. apply H. intros t [<-|Ht]; unfold y; rewrite ip_sub, ip_scale, AD.
  - destruct (gk_Au _ _ _ _ _ G) as [g [Hg ->]]. ipx. rewrite (gk_v_dp g Hg), (gk_vv _ _ _ _ _ G), (gk_uu _ _ _ _ _ G). ring.
  - rewrite (gk_v_dp _ (gk_AU _ _ _ _ _ G t Ht)), (gk_uU _ _ _ _ _ G t Ht). ring.
Qed.

Variables (u' : iv E2) (be : R).
Hypothesis Hbe : 0 < be.
Hypothesis Hu' : y = iscale be u'.
Hypothesis Hu1 : ip u' u' = 1.

Let z := isub (At u') (iscale be v).

Lemma gk_u' : forall t, dp (u :: U) t -> ip t u' = 0.
Proof.
  intros t Ht. pose proof (gk_y t Ht) as H. rewrite Hu', ip_scale in H.
  apply Rmult_integral in H as [H|H]; [lra|exact H].
Qed.

Lemma gk_Av : A v = iadd (iscale be u') (iscale al u).
Proof. rewrite <- Hu'. unfold y. veq. Qed.

Lemma gk_z : forall t, dp (v :: V) t -> ip t z = 0.
Proof.
  intros t H. apply H. intros s [<-|Hs]; unfold z; rewrite ip_sub, ip_scale, ip_At.
  - rewrite gk_Av. ipx. rewrite Hu1, (gk_vv _ _ _ _ _ G), (gk_u' u) by (apply dp_in; left; reflexivity). ring.
  - rewrite (gk_u' _ (gk_AV _ _ _ _ _ G s Hs)), (gk_vV _ _ _ _ _ G s Hs). ring.
Qed.

Lemma gk_step : forall v' al', 0 < al' -> z = iscale al' v' -> ip v' v' = 1 -> GK (u :: U) (v :: V) u' v' al'.
Proof.
  intros v' al' Ha Hv' Hv1.
  assert (OV : forall t, dp (v :: V) t -> ip t v' = 0).
  { intros t Ht. pose proof (gk_z t Ht) as H. rewrite Hv', ip_scale in H.
    apply Rmult_integral in H as [H|H]; [lra|exact H]. }
  split.
  - exact Hu1.
  - exact Hv1.
  - intros t Ht. apply gk_u'. apply dp_in. exact Ht.
  - intros t Ht. apply OV. apply dp_in. exact Ht.
  - intros t [<-|Ht]; [apply (gk_uu _ _ _ _ _ G)|apply (gk_U1 _ _ _ _ _ G t Ht)].
  - intros t [<-|Ht]; [apply (gk_vv _ _ _ _ _ G)|apply (gk_V1 _ _ _ _ _ G t Ht)].
  - constructor; [|apply (gk_Uo _ _ _ _ _ G)]. apply Forall_forall. intros t Ht. rewrite ip_sym. apply (gk_uU _ _ _ _ _ G t Ht).
  - constructor; [|apply (gk_Vo _ _ _ _ _ G)]. apply Forall_forall. intros t Ht. rewrite ip_sym. apply (gk_vV _ _ _ _ _ G t Ht).
  - intros t [<-|Ht].
    + rewrite gk_Av. apply dp_add; apply dp_scale, dp_in; cbn; auto.
    + apply (dp_weak (u :: U)); [apply (gk_AV _ _ _ _ _ G t Ht)|]. intros s Hs. right. exact Hs.
  - intros t [<-|Ht].
    + destruct (gk_Au _ _ _ _ _ G) as [g [Hg ->]]. apply dp_add; [apply dp_scale, dp_in; left; reflexivity|].
      apply (dp_weak V); [exact Hg|]. intros s Hs. right. exact Hs.
    + apply (dp_weak V); [apply (gk_AU _ _ _ _ _ G t Ht)|]. intros s Hs. right. exact Hs.
  - exists (iscale be v). split; [apply dp_scale, dp_in; left; reflexivity|].
    rewrite <- Hv'. unfold z. veq.
  - exact Ha.
  - intros t [<-|Ht]; [|exact (gk_R _ _ _ _ _ G t Ht)].
    destruct (gk_R _ _ _ _ _ G v (or_introl eq_refl)) as [w Ew].
    exists (iscale (/ al') (isub u' (iscale be w))).
    rewrite (lin_scale At LAt), (lin_sub At LAt), (lin_scale At LAt), <- Ew. fold z. rewrite Hv'. veq. field. lra.
Qed.
End Step.

(** The span of the right vectors contains the Krylov space. *)
Lemma gk_A_dp : forall U V u v al z, GK U V u v al -> dp V z -> dp (u :: U) (A z).
Proof.
  intros U V u v al z G H y Hy. rewrite ip_sym, AD, ip_sym. apply H.
  intros t Ht. rewrite ip_At. apply (gk_AV _ _ _ _ _ G t Ht). exact Hy.
Qed.
Lemma gk_At_dp : forall U V u v al z, GK U V u v al -> dp (u :: U) z -> dp (v :: V) (At z).
Proof.
  intros U V u v al z G H y Hy. rewrite <- AD. apply H. intros t [<-|Ht]; rewrite AD.
  - destruct (gk_Au _ _ _ _ _ G) as [g [Hg ->]]. rewrite ip_addl, ip_scalel, (Hy v) by (left; reflexivity).
    rewrite (Hg y); [ring|]. intros s Hs. apply Hy. right. exact Hs.
  - apply (gk_AU _ _ _ _ _ G t Ht). intros s Hs. apply Hy. right. exact Hs.
Qed.

Lemma gk_dim : forall U V u v al n, GK U V u v al -> dim_le E1 n -> (length V < n)%nat.
Proof.
  intros U V u v al n G D. assert (L : (length (v :: V) <= n)%nat); [|cbn in L; lia].
  apply D.
  - constructor; [|apply (gk_Vo _ _ _ _ _ G)]. apply Forall_forall. intros t Ht. rewrite ip_sym. apply (gk_vV _ _ _ _ _ G t Ht).
  - constructor; [apply unit_nz, (gk_vv _ _ _ _ _ G)|]. apply Forall_forall. intros t Ht. apply unit_nz, (gk_V1 _ _ _ _ _ G t Ht).
Qed.
Lemma gk_dim_u : forall U V u v al m, GK U V u v al -> dim_le E2 m -> (length U < m)%nat.
Proof.
  intros U V u v al m G D. assert (L : (length (u :: U) <= m)%nat); [|cbn in L; lia].
  apply D.
  - constructor; [|apply (gk_Uo _ _ _ _ _ G)]. apply Forall_forall. intros t Ht. rewrite ip_sym. apply (gk_uU _ _ _ _ _ G t Ht).
  - constructor; [apply unit_nz, (gk_uu _ _ _ _ _ G)|]. apply Forall_forall. intros t Ht. apply unit_nz, (gk_U1 _ _ _ _ _ G t Ht).
Qed.
Lemma gk_rank : forall U V u v al r, GK U V u v al -> rank_le A r -> (length V < r)%nat.
Proof.
  intros U V u v al r G D. assert (L : (length (v :: V) <= r)%nat); [|cbn in L; lia].
  apply (rank_orthog _ _ A At r); [exact AD|exact D| | |exact (gk_R _ _ _ _ _ G)].
  - constructor; [|apply (gk_Vo _ _ _ _ _ G)]. apply Forall_forall. intros t Ht. rewrite ip_sym. apply (gk_vV _ _ _ _ _ G t Ht).
  - constructor; [apply unit_nz, (gk_vv _ _ _ _ _ G)|]. apply Forall_forall. intros t Ht. apply unit_nz, (gk_V1 _ _ _ _ _ G t Ht).
Qed.

Lemma gk_start : forall u v al, ip u u = 1 -> ip v v = 1 -> 0 < al -> At u = iscale al v -> GK [] [] u v al.
Proof.
  intros u v al Hu Hv Ha H. split; auto; try (now intros t []); try constructor.
  - exists izero. split; [apply dp_zero|]. rewrite H. veq.
  - intros t [<-|[]]. exists (iscale (/ al) u). rewrite (lin_scale At LAt), H. veq. field. lra.
Qed.
End GK.
