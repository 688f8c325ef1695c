(** * Exact arithmetic: one CRAIG or CRAIG-MR iteration, as mathematics.

    Both methods work on [(AA' + I) r = b]. *)
From Coq Require Import List ZArith Reals Lia Lra Bool.
From Verif Require Import Base Num MinresProof GkProof.
Import ListNotations.
Local Open Scope R_scope.

Section Craig.
Context {E1 E2 : IPS}.
Variables (A : iv E1 -> iv E2) (At : iv E2 -> iv E1).
Hypothesis AD : adjoint A At.
Let LA : lin A := adjoint_lin A At AD.
Let LAt : lin At := adjoint_lin_t A At AD.
Variable b : iv E2.

Definition AAt (z : iv E2) : iv E2 := A (At z).
Definition TT (z : iv E2) : iv E2 := iadd (A (At z)) z.

Lemma sym_AAt : selfadj AAt.
Proof. intros x y. unfold AAt. rewrite AD, (ip_At A At AD). reflexivity. Qed.
Lemma sym_TT : forall x y, ip (TT x) y = ip x (TT y).
Proof. intros x y. unfold TT. rewrite ip_addl, ip_add. f_equal. symmetry. apply sym_AAt. Qed.
Lemma TT_add : forall x y, TT (iadd x y) = iadd (TT x) (TT y).
Proof. intros. unfold TT. rewrite (lin_add At LAt), (lin_add A LA). veq. Qed.
Lemma TT_scale : forall a x, TT (iscale a x) = iscale a (TT x).
Proof. intros. unfold TT. rewrite (lin_scale At LAt), (lin_scale A LA). veq. Qed.
Lemma TT_sub : forall x y, TT (isub x y) = isub (TT x) (TT y).
Proof. intros. unfold isub, ineg. rewrite TT_add, TT_scale. reflexivity. Qed.
Lemma TT_zero : TT izero = izero.
Proof. unfold TT. rewrite (lin_zero At LAt), (lin_zero A LA). veq. Qed.
Lemma TT_ip : forall z, ip z (TT z) = ip (At z) (At z) + ip z z.
Proof. intro z. unfold TT. rewrite ip_add. f_equal. apply AD. Qed.
Lemma TT_inj : forall z, TT z = izero -> z = izero.
Proof.
  intros z H. apply ip_def. pose proof (TT_ip z) as P. rewrite H, ip_zero in P.
  pose proof (ip_pos (At z)). pose proof (ip_pos z). lra.
Qed.

(** [u], [v], [al]: the current vectors of the bidiagonalisation; [c], [s], [ah]: the rotation of
    type I; [d]: the current direction. *)
Record CI (k : nat) (U : list (iv E2)) (V : list (iv E1)) (u : iv E2) (v : iv E1)
  (al c s ah : R) (d : iv E2) : Prop := {
  ci_gk : GK A At U V u v al;
  ci_lU : length U = k; ci_lV : length V = k;
  ci_b : dp (u :: U) b;
  ci_kry : forall z, kry AAt b k z -> dp U z;
  ci_ku : kry AAt b (S k) u;
  ci_kv : kry AAt b (S (S k)) (A v);
  ci_kd : kry AAt b (S k) d;
  ci_c : c * ah = al; ci_1 : s * s = 1 - c * c; ci_ah : 0 < ah;
  ci_ud : exists e, dp U e /\ u = iadd (iscale ah d) e;
  ci_Td : TT d = iadd (iscale ah u) (iscale c (isub (A v) (iscale al u))) }.
Arguments ci_gk {_ _ _ _ _ _ _ _ _ _} _. Arguments ci_lU {_ _ _ _ _ _ _ _ _ _} _.
Arguments ci_lV {_ _ _ _ _ _ _ _ _ _} _. Arguments ci_b {_ _ _ _ _ _ _ _ _ _} _.
Arguments ci_kry {_ _ _ _ _ _ _ _ _ _} _. Arguments ci_ku {_ _ _ _ _ _ _ _ _ _} _.
Arguments ci_kv {_ _ _ _ _ _ _ _ _ _} _. Arguments ci_kd {_ _ _ _ _ _ _ _ _ _} _.
Arguments ci_c {_ _ _ _ _ _ _ _ _ _} _. Arguments ci_1 {_ _ _ _ _ _ _ _ _ _} _.
Arguments ci_ah {_ _ _ _ _ _ _ _ _ _} _. Arguments ci_ud {_ _ _ _ _ _ _ _ _ _} _.
Arguments ci_Td {_ _ _ _ _ _ _ _ _ _} _.

Lemma ci_start : forall u v al be c s ah d, ip u u = 1 -> ip v v = 1 -> 0 < al -> 0 < be ->
  b = iscale be u -> At u = iscale al v -> 0 < ah -> ah * ah = al * al + 1 -> c * ah = al -> s * ah = 1 ->
  iscale ah d = u -> CI 0 [] [] u v al c s ah d.
Proof.
  intros u v al be c s ah d Hu Hv Ha Hb EB EA Hh H2 Hc Hs Hd.
  assert (D : d = iscale (1 / ah) u). { rewrite <- Hd. apply ip_ext. intro z. ipx. field. lra. }
  assert (KU : kry AAt b 1 u).
  { replace u with (iscale (1 / be) b) by (rewrite EB; apply ip_ext; intro z; ipx; field; lra).
    apply kry_scale; [exact sym_AAt|]. apply kry_b. exact sym_AAt. }
  split; auto.
  - apply gk_start; assumption.
  - rewrite EB. apply dp_scale, dp_in. left. reflexivity.
  - intros z ->. apply dp_zero.
  - replace (A v) with (iscale (1 / al) (AAt u)).
    2:{ unfold AAt. rewrite EA, (lin_scale A LA). apply ip_ext. intro z. ipx. field. lra. }
    apply kry_scale; [exact sym_AAt|]. apply kry_A. exact KU.
  - rewrite D. apply kry_scale; [exact sym_AAt|exact KU].
  - apply Rmult_eq_reg_r with (ah * ah); [|nra]. transitivity (s * ah * (s * ah)); [ring|].
    rewrite Hs. transitivity (ah * ah - c * ah * (c * ah)); [|ring]. rewrite Hc. lra.
  - exists izero. split; [apply dp_zero|]. rewrite Hd. veq.
  - rewrite D, TT_scale. unfold TT. rewrite EA, (lin_scale A LA).
    assert (C2 : c = al / ah) by (rewrite <- Hc; field; lra). rewrite C2.
    apply ip_ext. intro z. ipx. apply Rmult_eq_reg_l with ah; [|lra]. field_simplify; [|lra|lra].
    replace (ah ^ 2) with (al * al + 1) by (rewrite <- H2; ring). ring.
Qed.

Section Step.
Context {k : nat} {U : list (iv E2)} {V : list (iv E1)} {u : iv E2} {v : iv E1} {al c s ah : R} {d : iv E2}.
Hypothesis I : CI k U V u v al c s ah d.
Let G := ci_gk I.
Let y := isub (A v) (iscale al u).

Lemma ci_kryS : forall z, kry AAt b (S k) z -> dp (u :: U) z.
Proof.
  intros z (a & z0 & K0 & ->). apply dp_add; [apply dp_scale, (ci_b I)|].
  apply (ci_kry I) in K0. unfold AAt.
  assert (V1 : dp V (At z0)).
  { intros t Ht. rewrite <- AD. apply K0. intros t' H'. rewrite AD. apply (gk_AU _ _ _ _ _ _ _ G t' H'). exact Ht. }
  apply (gk_A_dp A At AD U V u v al _ G V1).
Qed.

(** The residual of the Galerkin iterate is orthogonal to the Krylov space. *)
Lemma ci_gal : forall z, kry AAt b (S k) z -> ip z y = 0.
Proof. intros z H. apply (gk_y A At AD G). apply ci_kryS. exact H. Qed.

Variables (be : R) (u' : iv E2).
Hypothesis Hbe : 0 < be.
Hypothesis Hu' : y = iscale be u'.
Hypothesis Hu1 : ip u' u' = 1.
Let z := isub (At u') (iscale be v).
Variables (v' : iv E1) (al' : R).
Hypothesis Hv' : z = iscale al' v'.
Variables (de ah' c' s' : R) (d' : iv E2).
Hypothesis Hde : de * de = s * be * (s * be) + 1.
Hypothesis Hah : ah' * ah' = al' * al' + de * de.
Hypothesis Hp : 0 < ah'.
Hypothesis Hc' : c' * ah' = al'.
Hypothesis Hs' : s' * ah' = de.
Hypothesis Hd' : iscale ah' d' = isub u' (iscale (c * be) d).

Lemma st_Av : A v = iadd (iscale al u) (iscale be u').
Proof. rewrite <- Hu'. unfold y. veq. Qed.
Lemma st_Au : At u' = iadd (iscale be v) (iscale al' v').
Proof. rewrite <- Hv'. unfold z. veq. Qed.
Lemma st_1 : s' * s' = 1 - c' * c'.
Proof.
  apply Rmult_eq_reg_r with (ah' * ah'); [|nra]. transitivity (s' * ah' * (s' * ah')); [ring|].
  rewrite Hs'. transitivity (ah' * ah' - c' * ah' * (c' * ah')); [|ring]. rewrite Hc'. lra.
Qed.
Lemma st_d : d' = iscale (1 / ah') (isub u' (iscale (c * be) d)).
Proof. rewrite <- Hd'. apply ip_ext. intro t. ipx. field. lra. Qed.

Lemma st_Td : TT d' = iadd (iscale ah' u') (iscale c' (isub (A v') (iscale al' u'))).
Proof.
  assert (S1 := ci_1 I). assert (C1 := ci_c I).
  assert (C2 : c' = al' / ah') by (rewrite <- Hc'; field; lra).
  assert (E : iscale ah' (TT d') = iscale ah' (iadd (iscale ah' u') (iscale c' (isub (A v') (iscale al' u'))))).
  { rewrite <- TT_scale, Hd', TT_sub, TT_scale, (ci_Td I). fold y. rewrite Hu'. unfold TT. rewrite st_Au.
    rewrite (lin_add A LA), !(lin_scale A LA), st_Av.
    apply ip_ext. intro t. ipx. rewrite <- Hc'.
    transitivity (al' * ip t (A v') + be * al * ip t u + be * be * ip t u' + ip t u'
                  - c * ah * be * ip t u - c * c * be * be * ip t u'); [rewrite <- Hc'; ring|].
    rewrite C1.
    transitivity (al' * ip t (A v') + (s * be * (s * be) + 1) * ip t u').
    { replace (s * be * (s * be)) with (s * s * (be * be)) by ring. rewrite S1. ring. }
    rewrite <- Hde. replace (de * de) with (ah' * ah' - al' * al') by lra. rewrite <- Hc'. ring. }
  transitivity (iscale (1 / ah') (iscale ah' (TT d'))).
  - apply ip_ext. intro t. ipx. field. lra.
  - rewrite E. apply ip_ext. intro t. ipx. field. lra.
Qed.

Lemma st_ku : kry AAt b (S (S k)) u'.
Proof.
  replace u' with (iscale (1 / be) (isub (A v) (iscale al u))).
  2:{ fold y. rewrite Hu'. apply ip_ext. intro t. ipx. field. lra. }
  apply kry_scale; [exact sym_AAt|]. apply kry_sub; [exact sym_AAt|exact (ci_kv I)|].
  apply kry_scale; [exact sym_AAt|]. apply kry_S; [exact sym_AAt|exact (ci_ku I)].
Qed.
Lemma st_kd : kry AAt b (S (S k)) d'.
Proof.
  rewrite st_d. apply kry_scale; [exact sym_AAt|]. apply kry_sub; [exact sym_AAt|exact st_ku|].
  apply kry_scale; [exact sym_AAt|]. apply kry_S; [exact sym_AAt|exact (ci_kd I)].
Qed.

Lemma st_bu : ip b u' = 0.
Proof. apply (gk_u' A At AD G u' be Hbe Hu'). apply (ci_b I). Qed.

Lemma ci_step : 0 < al' -> ip v' v' = 1 -> CI (S k) (u :: U) (v :: V) u' v' al' c' s' ah' d'.
Proof.
  intros Ha' Hv1. split.
  - exact (gk_step A At AD G u' be Hbe Hu' Hu1 v' al' Ha' Hv' Hv1).
  - cbn. f_equal. exact (ci_lU I).
  - cbn. f_equal. exact (ci_lV I).
  - apply (dp_weak (u :: U)); [exact (ci_b I)|]. intros t Ht. right. exact Ht.
  - exact ci_kryS.
  - exact st_ku.
  - replace (A v') with (iscale (1 / al') (isub (AAt u') (iscale be (A v)))).
    2:{ unfold AAt. rewrite st_Au, (lin_add A LA), !(lin_scale A LA). apply ip_ext. intro t. ipx. field. lra. }
    apply kry_scale; [exact sym_AAt|]. apply kry_sub; [exact sym_AAt|apply kry_A, st_ku|].
    apply kry_scale; [exact sym_AAt|]. apply kry_S; [exact sym_AAt|exact (ci_kv I)].
  - exact st_kd.
  - exact Hc'.
  - exact st_1.
  - exact Hp.
  - exists (iscale (c * be) d). split; [apply dp_scale, ci_kryS, (ci_kd I)|]. rewrite Hd'. veq.
  - exact st_Td.
Qed.

(** ** CRAIG *)
Variables (r : iv E2) (tau tau' : R).
Hypothesis Hr : isub b (TT r) = iscale (- (tau * c)) y.
Hypothesis Ht' : tau' * ah' = - (c * be) * tau.
Let r' := iadd r (iscale tau' d').

Lemma cg_r : isub b (TT r') = iscale (- (tau' * c')) (isub (A v') (iscale al' u')).
Proof.
  unfold r'. rewrite TT_add, TT_scale, st_Td.
  apply ip_ext. intro t. pose proof (f_equal (ip t) Hr) as Rt. rewrite Hu' in Rt. ipx_in Rt. ipx.
  replace (ip t b) with (ip t (TT r) + - (tau * c) * (be * ip t u')) by lra.
  transitivity (- (tau * c) * (be * ip t u') - tau' * ah' * ip t u' - tau' * c' * (ip t (A v') - al' * ip t u')); [ring|].
  rewrite Ht'. ring.
Qed.

Hypothesis Hbd : ip b d = tau.
Lemma cg_bd : ip b d' = tau'.
Proof.
  apply Rmult_eq_reg_l with ah'; [|lra]. rewrite <- ip_scale, Hd', ip_sub, ip_scale, Hbd, st_bu. lra.
Qed.

Variables (wbar : iv E1).
Hypothesis Hvw : v = iadd (iscale c (At d)) (iscale s wbar).
Let W := iscale (s * be / de) wbar.
Hypothesis Hde0 : de <> 0.
Lemma cg_w : At d' = iadd (iscale c' v') (iscale s' W).
Proof.
  rewrite st_d, (lin_scale At LAt), (lin_sub At LAt), (lin_scale At LAt), st_Au.
  assert (C2 : c' = al' / ah') by (rewrite <- Hc'; field; lra).
  assert (S2 : s' = de / ah') by (rewrite <- Hs'; field; lra).
  unfold W. rewrite C2, S2. apply ip_ext. intro t. pose proof (f_equal (ip t) Hvw) as Vt. ipx_in Vt. ipx.
  rewrite Vt. field. split; [exact Hde0|lra].
Qed.
Lemma cg_v : v' = iadd (iscale c' (At d')) (iscale s' (iadd (iscale (- c') W) (iscale s' v'))).
Proof. rewrite cg_w. apply ip_ext. intro t. ipx. pose proof st_1 as S1. ring [S1]. Qed.

(** ** CRAIG-MR *)
Variables (x p dbar : iv E2) (zh atil theta : R).
Hypothesis Mr : isub b (TT x) = iscale zh p.
Hypothesis Mp : ip p p = 1.
Hypothesis Mpd : dp (u :: U) p.
Hypothesis Mg : dp (u :: U) (TT dbar).
Hypothesis Mgp : ip (TT dbar) p = 0.
Hypothesis Mu : iscale ah u = iadd (iscale theta (TT dbar)) (iscale atil p).
Hypothesis MU : forall t, In t U -> ip p (TT t) = 0.
Variables (rho ch sh : R).
Hypothesis Hrho : 0 < rho.
Hypothesis Hch : ch * rho = atil.
Hypothesis Hsh : sh * rho = c * be.
Hypothesis H3 : sh * sh = 1 - ch * ch.
Let dbar' := iscale (1 / rho) (isub d (iscale theta dbar)).
Let x' := iadd x (iscale (ch * zh) dbar').
Let p' := isub (iscale sh p) (iscale ch u').

Lemma mg_Td : TT dbar' = iadd (iscale ch p) (iscale sh u').
Proof.
  assert (E : TT (isub d (iscale theta dbar)) = iscale rho (iadd (iscale ch p) (iscale sh u'))).
  { rewrite TT_sub, TT_scale, (ci_Td I), Mu. fold y. rewrite Hu'. apply ip_ext. intro t. ipx.
    transitivity (atil * ip t p + c * be * ip t u'); [ring|]. rewrite <- Hch, <- Hsh. ring. }
  unfold dbar'. rewrite TT_scale, E. apply ip_ext. intro t. ipx. field. lra.
Qed.
Lemma mg_pu : ip p u' = 0.
Proof. apply (gk_u' A At AD G u' be Hbe Hu'). exact Mpd. Qed.
Lemma mg_r : isub b (TT x') = iscale (sh * zh) p'.
Proof.
  unfold x', p'. rewrite TT_add, TT_scale, mg_Td. apply ip_ext. intro t.
  pose proof (f_equal (ip t) Mr) as Rt. ipx_in Rt. ipx.
  replace (ip t b) with (ip t (TT x) + zh * ip t p) by lra. ring [H3].
Qed.
Lemma mg_p : ip p' p' = 1.
Proof. unfold p'. ipx. rewrite Mp, Hu1, (ip_sym u' p), mg_pu. ring [H3]. Qed.
Lemma mg_gp : ip (TT dbar') p' = 0.
Proof. rewrite mg_Td. unfold p'. ipx. rewrite Mp, Hu1, (ip_sym u' p), mg_pu. ring. Qed.
Lemma mg_u : iscale ah' u' = iadd (iscale (sh * ah') (TT dbar')) (iscale (- ch * ah') p').
Proof. rewrite mg_Td. unfold p'. apply ip_ext. intro t. ipx. ring [H3]. Qed.
Lemma mg_pd : dp (u' :: u :: U) p'.
Proof.
  unfold p'. apply dp_sub; apply dp_scale.
  - apply (dp_weak (u :: U)); [exact Mpd|]. intros t Ht. right. exact Ht.
  - apply dp_in. left. reflexivity.
Qed.
Lemma mg_g : dp (u' :: u :: U) (TT dbar').
Proof.
  rewrite mg_Td. apply dp_add; apply dp_scale.
  - apply (dp_weak (u :: U)); [exact Mpd|]. intros t Ht. right. exact Ht.
  - apply dp_in. left. reflexivity.
Qed.
(** [p'] is orthogonal to the image of the span. *)
Lemma mg_U0 : forall t, In t U -> ip p' (TT t) = 0.
Proof.
  intros t Ht. unfold p'. ipx. rewrite (MU t Ht). rewrite (ip_sym u' (TT t)).
  rewrite (gk_u' A At AD G u' be Hbe Hu'); [ring|].
  unfold TT. apply dp_add.
  - apply (gk_A_dp A At AD U V u v al _ G). apply (gk_AU _ _ _ _ _ _ _ G t Ht).
  - apply dp_in. right. exact Ht.
Qed.
Lemma mg_dU : forall t, dp U t -> ip p' (TT t) = 0.
Proof. intros t Ht. rewrite <- sym_TT, ip_sym. apply Ht. intros s0 H0. rewrite <- sym_TT, ip_sym. apply mg_U0. exact H0. Qed.
Lemma mg_Tdp : ip p' (TT d) = 0.
Proof.
  assert (E : TT d = iadd (iscale theta (TT dbar)) (iscale rho (TT dbar'))).
  { unfold dbar'. rewrite TT_scale, TT_sub, TT_scale. apply ip_ext. intro t. ipx. field. lra. }
  rewrite E, ip_add, !ip_scale, (ip_sym p' (TT dbar')), mg_gp. unfold p'. ipx.
  rewrite (ip_sym p (TT dbar)), Mgp, (ip_sym u' (TT dbar)), (gk_u' A At AD G u' be Hbe Hu' _ Mg). ring.
Qed.
Lemma mg_U : forall t, In t (u :: U) -> ip p' (TT t) = 0.
Proof.
  intros t [<-|Ht]; [|apply mg_U0; exact Ht].
  destruct (ci_ud I) as (e & De & Eu). rewrite Eu at 1. rewrite TT_add, TT_scale. ipx.
  rewrite mg_Tdp, (mg_dU e De). ring.
Qed.
Lemma mg_opt : forall t, kry AAt b (S k) t -> ip p' (TT t) = 0.
Proof.
  intros t Ht. apply ci_kryS in Ht. rewrite <- sym_TT, ip_sym. apply Ht.
  intros s0 H0. rewrite <- sym_TT, ip_sym. apply mg_U. exact H0.
Qed.
End Step.

(** A vector whose residual is orthogonal to a subspace is the Galerkin solution: it minimises the
    quadratic over the subspace. *)
Lemma gal_min : forall r z, ip (isub z r) (isub b (TT r)) = 0 ->
  ip r (TT r) - 2 * ip b r <= ip z (TT z) - 2 * ip b z.
Proof.
  intros r z H. pose proof (TT_ip (isub z r)) as P.
  pose proof (ip_pos (At (isub z r))). pose proof (ip_pos (isub z r)).
  assert (Q : 0 <= ip (isub z r) (TT (isub z r))) by (rewrite P; lra). clear P H0 H1.
  rewrite TT_sub in Q. ipx_in Q. ipx_in H. rewrite <- (sym_TT r z), (ip_sym (TT r) z) in Q.
  rewrite (ip_sym b r), (ip_sym b z). lra.
Qed.
(** A residual orthogonal to the image of a subspace has minimal norm over it. *)
Lemma res_min : forall x z, ip (TT (isub z x)) (isub b (TT x)) = 0 ->
  inorm (isub b (TT x)) <= inorm (isub b (TT z)).
Proof.
  intros x z H. unfold inorm. apply sqrt_le_1; [apply ip_pos|apply ip_pos|].
  replace (isub b (TT z)) with (isub (isub b (TT x)) (TT (isub z x))) by (rewrite TT_sub; veq).
  set (q := isub b (TT x)) in *. set (t := TT (isub z x)) in *.
  rewrite ip_sub, !ip_subl, (ip_sym q t), H. pose proof (ip_pos t). lra.
Qed.
End Craig.
Arguments ci_gk {_ _ _ _ _ _ _ _ _ _ _ _ _ _ _} _.
Arguments ci_lU {_ _ _ _ _ _ _ _ _ _ _ _ _ _ _} _.
Arguments ci_lV {_ _ _ _ _ _ _ _ _ _ _ _ _ _ _} _.
Arguments ci_b {_ _ _ _ _ _ _ _ _ _ _ _ _ _ _} _.
Arguments ci_kry {_ _ _ _ _ _ _ _ _ _ _ _ _ _ _} _.
Arguments ci_ku {_ _ _ _ _ _ _ _ _ _ _ _ _ _ _} _.
Arguments ci_kv {_ _ _ _ _ _ _ _ _ _ _ _ _ _ _} _.
Arguments ci_kd {_ _ _ _ _ _ _ _ _ _ _ _ _ _ _} _.
Arguments ci_c {_ _ _ _ _ _ _ _ _ _ _ _ _ _ _} _.
Arguments ci_1 {_ _ _ _ _ _ _ _ _ _ _ _ _ _ _} _.
Arguments ci_ah {_ _ _ _ _ _ _ _ _ _ _ _ _ _ _} _.
Arguments ci_ud {_ _ _ _ _ _ _ _ _ _ _ _ _ _ _} _.
Arguments ci_Td {_ _ _ _ _ _ _ _ _ _ _ _ _ _ _} _.
