(** * Exact complex arithmetic for the solver models.

    The scalars are pairs of real numbers and the vectors are the complexification of a real
    inner product space.  [np.dot] does not conjugate (cg.py:99, cgs.py:62, bicgstab.py:68,
    tfqmr.py:61), so [vdot] is bilinear; [np.linalg.norm] (cgs.py:99, bicgstab.py:107 and 139,
    tfqmr.py:95 and 118) is the Hermitian norm.  This is the arithmetic of a run in which every array has
    complex dtype ([result_type], cg.py:75, cgs.py:53).

    Comparisons read the real part: the solvers only compare [np.abs], [np.real], [np.imag] and
    norms, which are real.  The value of a division by zero is left to [dvc]. *)
From Coq Require Import List ZArith Lia Bool QArith Qreals Reals Lra Psatz.
From Verif Require Import Base Field Cplx Num ToolsModel CgModel KrylovModel.
Import ListNotations.
Local Open Scope R_scope.

Definition cdiv_ok (dvc : CR -> CR -> CR) : Prop :=
  forall a b : CR, b <> (0, 0) -> dvc a b = kmul (f := FCR) a (kinv (f := FCR) b).
(** Any branch of the square root, as long as it is the usual one on nonnegative reals. *)
Definition csq_ok (csq : CR -> CR) : Prop :=
  (forall z, kmul (f := FCR) (csq z) (csq z) = z) /\
  (forall a, 0 <= a -> csq (a, 0) = (sqrt a, 0)).

Definition cK (dvc : CR -> CR -> CR) (csq : CR -> CR) : Scal :=
  mkScal CR (0, 0) (1, 0) (fun q => (Q2R q, 0)) (kadd (f := FCR)) (ksub (f := FCR))
    (kmul (f := FCR)) dvc (kopp (f := FCR)) csq (fun z => (cmod z, 0)) (fun z => (fst z, 0))
    (fun z => (snd z, 0)) (fun a b => Rltb (fst a) (fst b)) (fun a b => Rleb (fst a) (fst b))
    (fun a b => Reqb (fst a) (fst b) && Reqb (snd a) (snd b)).

Section CV.
Variable E : IPS.
Definition cv : Type := (iv E * iv E)%type.
Definition cvadd (u v : cv) : cv := (iadd (fst u) (fst v), iadd (snd u) (snd v)).
Definition cvscale (a : CR) (u : cv) : cv :=
  (isub (iscale (fst a) (fst u)) (iscale (snd a) (snd u)),
   iadd (iscale (fst a) (snd u)) (iscale (snd a) (fst u))).
Definition cvneg (u : cv) : cv := (ineg (fst u), ineg (snd u)).
Definition cvsub (u v : cv) : cv := (isub (fst u) (fst v), isub (snd u) (snd v)).
Definition cvdot (u v : cv) : CR :=
  (ip (fst u) (fst v) - ip (snd u) (snd v), ip (fst u) (snd v) + ip (snd u) (fst v)).
Definition cvnorm (u : cv) : R := sqrt (ip (fst u) (fst u) + ip (snd u) (snd u)).
Definition cvzero : cv := (izero, izero).
End CV.
Arguments cvadd {E} _ _. Arguments cvscale {E} _ _. Arguments cvneg {E} _. Arguments cvsub {E} _ _.
Arguments cvdot {E} _ _. Arguments cvnorm {E} _. Arguments cvzero {E}.

Definition cV (dvc : CR -> CR -> CR) (csq : CR -> CR) (E : IPS) : Vs (cK dvc csq) :=
  mkVs (cK dvc csq) (cv E) (fun u => ilen (fst u)) (fun _ => cvzero) cvadd cvsub cvneg cvscale
    (fun v a => cvscale (dvc (1, 0) a) v) cvdot (fun u => (cvnorm u, 0)).

(** Complex linear maps, and the complexification of a real one. *)
Record clin {E : IPS} (A : cv E -> cv E) : Prop := mkclin {
  clin_add : forall u v, A (cvadd u v) = cvadd (A u) (A v);
  clin_scale : forall a u, A (cvscale a u) = cvscale a (A u) }.
Definition cplx {E : IPS} (A : iv E -> iv E) (u : cv E) : cv E := (A (fst u), A (snd u)).

(** ** Modulus and square root *)
Lemma cmod_nonneg : forall z, 0 <= cmod z.
Proof. intro z. apply sqrt_pos. Qed.
Lemma cmod_sq : forall z, cmod z * cmod z = fst z * fst z + snd z * snd z.
Proof. intro z. apply sqrt_sqrt. nra. Qed.
Lemma cmod_mul : forall a b, cmod (kmul (f := FCR) a b) = cmod a * cmod b.
Proof.
  intros [a a'] [b b']. unfold cmod. cbn [fst snd kmul FCR]. rewrite <- sqrt_mult by nra. f_equal. ring.
Qed.
Lemma cmod_real : forall a, cmod (a, 0) = Rabs a.
Proof.
  intro a. unfold cmod. cbn [fst snd]. replace (a * a + 0 * 0) with (Rsqr a) by (unfold Rsqr; ring).
  apply sqrt_Rsqr_abs.
Qed.
Lemma cmod_zero : forall z, cmod z = 0 -> z = (0, 0).
Proof.
  intros z H. pose proof (cmod_sq z) as S. rewrite H in S. destruct z as [a b]. cbn [fst snd] in S.
  assert (a = 0) by nra. assert (b = 0) by nra. subst; reflexivity.
Qed.
Lemma cmod_pos : forall z, z <> (0, 0) -> 0 < cmod z.
Proof. intros z H. destruct (cmod_nonneg z) as [P|P]; auto. exfalso. apply H, cmod_zero. auto. Qed.
Lemma cmod_csq : forall csq z, csq_ok csq -> cmod (csq z) = sqrt (cmod z).
Proof.
  intros csq z [H _]. rewrite <- (H z) at 2. rewrite cmod_mul, sqrt_square; [reflexivity|apply cmod_nonneg].
Qed.
Lemma cmod_fst : forall z, Rabs (fst z) <= cmod z.
Proof.
  intro z. rewrite <- sqrt_Rsqr_abs. apply sqrt_le_1_alt. unfold Rsqr. nra.
Qed.
Lemma csqrt_ok : csq_ok csqrt.
Proof.
  split; [exact csqrt_sq|]. intros a H. unfold csqrt. cbn [fst snd]. rewrite cmod_real, Rabs_right by lra.
  destruct (Rlt_dec 0 0); [lra|]. f_equal; [f_equal; lra|]. rewrite <- sqrt_0. f_equal. lra.
Qed.

(** ** Vector identities *)
Section CVFacts.
Context {E : IPS}.
Implicit Types u v w : cv E.
Lemma cvdot_sym : forall u v, cvdot u v = cvdot v u.
Proof. intros. unfold cvdot. rewrite !(ip_sym (fst v)), !(ip_sym (snd v)). f_equal. ring. Qed.
(** The bilinear square is bounded by the Hermitian norm squared. *)
Lemma cvdot_bound : forall u, cmod (cvdot u u) <= cvnorm u * cvnorm u.
Proof.
  intro u. unfold cvnorm. rewrite sqrt_sqrt by (pose proof (ip_pos (fst u)); pose proof (ip_pos (snd u)); lra).
  pose proof (ip_pos (fst u)). pose proof (ip_pos (snd u)).
  rewrite <- (sqrt_square (ip (fst u) (fst u) + ip (snd u) (snd u))) by lra.
  apply sqrt_le_1_alt. cbn [cvdot fst snd]. rewrite (ip_sym (snd u) (fst u)).
  pose proof (cauchy (fst u) (snd u)). nra.
Qed.
Lemma cvnorm_pos : forall u, 0 <= cvnorm u.
Proof. intro. apply sqrt_pos. Qed.
Lemma cvnorm_zero : forall u, cvnorm u = 0 -> u = cvzero.
Proof.
  intros [u v] H. apply sqrt_eq_0 in H; cbn [fst snd] in *;
    [|pose proof (ip_pos u); pose proof (ip_pos v); lra].
  pose proof (ip_pos u). pose proof (ip_pos v). unfold cvzero. f_equal; apply ip_def; lra.
Qed.
Lemma cvnorm_neg : forall u, cvnorm (cvneg u) = cvnorm u.
Proof. intro u. unfold cvnorm. cbn [cvneg fst snd]. f_equal. ipx. ring. Qed.
Lemma cplx_lin : forall A : iv E -> iv E, lin A -> clin (cplx A).
Proof.
  intros A L. split; intros; unfold cplx, cvadd, cvscale; cbn [fst snd].
  - now rewrite !(lin_add A L).
  - unfold isub, ineg. now rewrite !(lin_add A L), !(lin_scale A L).
Qed.
End CVFacts.
Ltac cveq := unfold cvadd, cvsub, cvneg, cvscale, cvzero; cbn [fst snd]; apply f_equal2; veq.
