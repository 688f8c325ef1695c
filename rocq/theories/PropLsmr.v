(** Properties C53, C54, C68: LSMR. *)
From Coq Require Import List Arith Lia Bool QArith ZArith Reals Lra Qreals.
From Verif Require Import Base Num SpanMath ToolsModel ToolsProof PropCg MinresModel MinresProof GkProof PropMinres
  LsqrModel LsqrFlow LsqrMath LsqrProof PropLsqr LsmrModel LsmrFlow LsmrMath LsmrProof.
Import ListNotations.
Local Open Scope R_scope.

(** ** Any arithmetic. *)
Theorem C53_terminates : forall (K : Scal) (WV WU : Vs K) (q : lprob WV WU) (kw : lm_kw WV WU) fuel ob rhs cnt,
  let lim := match m_itnlim kw with None => Z.of_nat (Nat.min (lp_m q) (lp_n q)) | Some l => l end in
  (Z.to_nat lim < fuel)%nat -> lm_solve fuel q kw ob rhs cnt <> Err EFuel.
Proof. intros K WV WU q kw fuel ob rhs cnt lim. exact (lm_solve_nofuel q kw fuel ob rhs cnt). Qed.

(** The solver object afterwards: of its scalar attributes none has changed, and [x] is set only if
    the loop was reached. *)
Theorem C53_stopping : forall (K : Scal) (WV WU : Vs K) (q : lprob WV WU) (kw : lm_kw WV WU) fuel ob rhs cnt r ob' cnt',
  let lim := match m_itnlim kw with None => Z.of_nat (Nat.min (lp_m q) (lp_n q)) | Some l => l end in
  lm_solve fuel q kw ob rhs cnt = Ok (r, ob', cnt') ->
  (Z.of_nat (r_itn r) <= Z.max 0 lim)%Z /\
  (cnt + r_itn r <= cnt' <= cnt + 2 * r_itn r + 1)%nat /\
  (0 <= r_istop r <= 8)%Z /\ (r_istop r = 0%Z <-> r_itn r = 0%nat) /\
  (r_istop r = 7%Z -> Z.of_nat (r_itn r) = lim) /\
  (r_istop r = 8%Z -> (m_window kw < r_itn r)%nat) /\
  (r_itn r = 0%nat -> r_x r = vzeros (lp_n q) /\ (seqb (r_normar r) s0 = true \/ (lim <= 0)%Z)) /\
  (a_itn ob' = a_itn ob /\ a_istop ob' = a_istop ob /\ a_Anorm ob' = a_Anorm ob /\ a_Acond ob' = a_Acond ob /\
   a_Arnorm ob' = a_Arnorm ob /\ a_xnorm ob' = a_xnorm ob /\ a_r1norm ob' = a_r1norm ob /\
   a_r2norm ob' = a_r2norm ob /\ a_optimal ob' = a_optimal ob /\ a_nMatvec ob' = a_nMatvec ob /\
   a_converged ob' = a_converged ob) /\
  (a_x ob' = Some (r_x r) \/
   a_x ob' = a_x ob /\ seqb (r_normar r) s0 = true /\ r_itn r = 0%nat /\ a_resids ob' = [] /\ a_nresids ob' = []) /\
  (r_itn r <> 0%nat -> a_x ob' = Some (r_x r)) /\
  (m_sres kw = false -> a_resids ob' = [] /\ a_nresids ob' = [] /\ a_norms ob' = []) /\
  (m_sres kw = true -> r_itn r <> 0%nat -> length (a_resids ob') = (r_itn r + 1)%nat /\ length (a_nresids ob') = (r_itn r + 1)%nat) /\
  (m_sres kw = true -> length (a_norms ob') = r_itn r) /\
  length (a_iters ob') = (if m_sit kw then r_itn r + 1 else 0)%nat /\
  length (a_dirs ob') = (r_itn r - m_window kw)%nat /\
  last (a_resids ob') (r_normr r) = r_normr r /\ last (a_nresids ob') (r_normar r) = r_normar r /\
  last (a_iters ob') (r_x r) = r_x r /\
  (m_window kw = 0%nat -> r_itn r = 0%nat).
Proof. intros K WV WU q kw fuel ob rhs cnt r ob' cnt' lim. exact (lm_flow_spec q kw fuel ob rhs cnt r ob' cnt'). Qed.

Theorem C53_zero : forall (K : Scal) (WV WU : Vs K) (q : lprob WV WU) (kw : lm_kw WV WU) fuel ob rhs cnt st0,
  lm_init q kw rhs cnt = Ok st0 -> seqb (smul (t_alpha st0) (t_beta st0)) s0 = true -> (0 < fuel)%nat ->
  exists r ob', lm_solve fuel q kw ob rhs cnt = Ok (r, ob', t_cnt st0) /\
    r_istop r = 0%Z /\ r_itn r = 0%nat /\ r_x r = vzeros (lp_n q) /\ a_x ob' = a_x ob /\
    r_normr r = t_beta st0 /\ r_normx r = s0.
Proof. intros K WV WU q kw. exact (lm_zero q kw). Qed.

(** ** Exact arithmetic. *)
Section Exact.
Variables (dv : R -> R -> R) (sq : R -> R).
Hypothesis DV : dv_ok dv.
Hypothesis SQ : sq_ok sq.
Variables E1 E2 : IPS.
Notation KK := (exactK dv sq).
(** [nv1], [nv2] stand for [numpy.linalg.norm]; of [nv1], which gives [normx], the proofs only use
    that it is non-negative and vanishes at zero. *)
Variables (nv1 : iv E1 -> R) (nv2 : iv E2 -> R).
Hypothesis NVP : forall z, 0 <= nv1 z.
Hypothesis NVZ : nv1 izero = 0.
Notation WV := (exactVn dv sq E1 nv1).
Notation WU := (exactVn dv sq E2 nv2).
Variables (q : lprob WV WU) (kw : lm_kw WV WU) (b : iv E2).
Hypothesis NM : m_M kw = None.
Hypothesis NN : m_N kw = None.
Hypothesis AD : adjoint (lp_A q : iv E1 -> iv E2) (lp_At q : iv E2 -> iv E1).
Hypothesis HW : (1 <= m_window kw)%nat.
Variables (fuel cnt : nat) (ob : lm_obj WV).
Let lim := match m_itnlim kw with None => Z.of_nat (Nat.min (lp_m q) (lp_n q)) | Some l => l end.
Hypothesis HF : (Z.to_nat lim < fuel)%nat.
Let A : iv E1 -> iv E2 := lp_A q.
Let At : iv E2 -> iv E1 := lp_At q.
Let d : R := m_damp kw.
Let res (x : iv E1) : iv E2 := isub b (A x).
Let nres (x : iv E1) : iv E1 := isub (At (res x)) (iscale (d * d) x).
Let obj (x : iv E1) : R := ip (res x) (res x) + d * d * ip x x.

Lemma lsmr_cases :
  (At b = izero /\ exists r ob' cnt', @lm_solve KK WV WU fuel q kw ob b cnt = Ok (r, ob', cnt') /\
    r_istop r = 0%Z /\ r_itn r = 0%nat /\ (r_x r : iv E1) = izero /\ a_x ob' = a_x ob /\ (r_normr r : R) = inorm b) \/
  (At b <> izero /\ exists r ob' cnt' xs, @lm_solve KK WV WU fuel q kw ob b cnt = Ok (r, ob', cnt') /\
    lm_post dv sq E1 E2 nv1 nv2 q kw b r ob' xs) \/
  (At b <> izero /\ @lm_solve KK WV WU fuel q kw ob b cnt = Err ZeroDivisionError /\
   exists k x, (Z.of_nat k < lim)%Z /\ kry (fun z => At (A z)) (At b) (S k) x /\
     (forall z, kry (fun z => At (A z)) (At b) (S k) z -> inorm (nres x) <= inorm (nres z)) /\ obj x = 0).
Proof.
  destruct (Req_dec (inorm (At b)) 0) as [Z|Z].
  - left. apply inorm_zero in Z. split; [exact Z|].
    exact (lm_exact_zero dv sq DV SQ E1 E2 nv1 nv2 q kw b NM NN AD fuel ob cnt ltac:(lia) Z).
  - right. assert (N : At b <> izero) by (intro Q; apply Z; rewrite Q; apply inorm_izero).
    destruct (lm_exact dv sq DV SQ E1 E2 nv1 nv2 NVP NVZ q kw b NM NN AD HW fuel ob cnt HF N) as [H|H]; [left|right]; split; auto.
Qed.

Lemma nres_izero : nres izero = At b.
Proof.
  unfold nres, res. rewrite (lin_zero A (adjoint_lin A At AD)). apply ip_ext. intro z.
  rewrite ip_sub, ip_scale, ip_zero, !(ip_At A At AD), ip_sub, ip_zero. ring.
Qed.

(** [A'b = 0]: [x = 0] is returned; the attribute [x] of the solver keeps its old value. *)
Theorem C53_zero_exact : At b = izero -> exists r ob' cnt', @lm_solve KK WV WU fuel q kw ob b cnt = Ok (r, ob', cnt') /\
  r_istop r = 0%Z /\ r_itn r = 0%nat /\ (r_x r : iv E1) = izero /\ a_x ob' = a_x ob /\ (r_normr r : R) = inorm b.
Proof. intro Z. exact (lm_exact_zero dv sq DV SQ E1 E2 nv1 nv2 q kw b NM NN AD fuel ob cnt ltac:(lia) Z). Qed.

(** Otherwise the outcome is either a result or [ZeroDivisionError]; the latter exactly when an
    iterate with residual 0 is produced, which takes [damp = 0] and a consistent system. *)
Theorem C53_zero_residual : forall e, @lm_solve KK WV WU fuel q kw ob b cnt = Err e ->
  e = ZeroDivisionError /\ d = 0 /\
  exists k x, (Z.of_nat k < lim)%Z /\ kry (fun z => At (A z)) (At b) (S k) x /\ A x = b.
Proof.
  intros e H. destruct lsmr_cases as [(_ & r & o & c & H2 & _)|[(_ & r & o & c & xs & H2 & _)|(NZ & H2 & k & x & L & K & _ & Z)]];
    try congruence.
  rewrite H in H2. injection H2 as ->. split; [reflexivity|].
  destruct (dr_zero dv sq E1 E2 nv1 nv2 q kw b AD x) as [E1' E2']; [|exact NZ|].
  - unfold dres2. rewrite <- Z. unfold obj, res. reflexivity.
  - split; [exact E2'|]. exists k, x. auto.
Qed.

Theorem C53_damped : d <> 0 -> exists r ob' cnt', @lm_solve KK WV WU fuel q kw ob b cnt = Ok (r, ob', cnt').
Proof.
  intro N. destruct (@lm_solve KK WV WU fuel q kw ob b cnt) as [[[r o] c]|e] eqn:H; [eauto|].
  destruct (C53_zero_residual e H) as (_ & D & _). contradiction.
Qed.

(** A system with an exact solution in the Krylov space of dimension [k]: the solver cannot complete
    [k] iterations. *)
Theorem C53_consistent : forall k z, d = 0 -> At b <> izero -> kry (fun z => At (A z)) (At b) k z -> A z = b ->
  forall r ob' cnt', @lm_solve KK WV WU fuel q kw ob b cnt = Ok (r, ob', cnt') -> (r_itn r < k)%nat.
Proof.
  intros k z D0 NZ KZ EZ r ob' cnt' H.
  destruct lsmr_cases as [(Z & _)|[(_ & r2 & o2 & c2 & xs & H2 & P)|(_ & H2 & _)]]; try congruence.
  rewrite H in H2. injection H2 as <- <- <-.
  destruct P as (LX & EX & _ & _ & _ & _ & _ & _ & _ & KR & _).
  destruct (Nat.lt_ge_cases (r_itn r) k) as [L|L]; [exact L|exfalso].
  destruct k as [|k].
  { cbn in KZ. apply NZ. rewrite <- EZ, KZ. rewrite (lin_zero A (adjoint_lin A At AD)). apply (lin_zero At (adjoint_lin_t A At AD)). }
  destruct (nth_error xs k) as [x|] eqn:NX; [|apply nth_error_None in NX; lia].
  destruct (KR k x NX) as (_ & M & N). apply N.
  apply (dr_consistent dv sq E1 E2 nv1 nv2 q kw b AD x z D0 EZ).
  apply inorm_zero. pose proof (M z KZ) as Q. pose proof (inorm_pos (LsqrMath.nres A At b d x)) as P0.
  assert (Z0 : LsqrMath.nres A At b d z = izero).
  { unfold LsqrMath.nres. rewrite EZ, D0. apply ip_ext. intro t. rewrite ip_sub, ip_scale, !(ip_At A At AD), ip_sub, ip_zero. ring. }
  fold A At d in Q. rewrite Z0, inorm_izero in Q. unfold A, At, d in *. lra.
Qed.

(** In particular when [b] is a multiple of [A A'b] (e.g. a nonzero multiple of the identity): the
    first iteration always raises. *)
Theorem C53_identity_raises : forall c, d = 0 -> At b <> izero -> A (iscale c (At b)) = b -> (1 <= lim)%Z ->
  @lm_solve KK WV WU fuel q kw ob b cnt = Err ZeroDivisionError.
Proof.
  intros c D0 NZ EC L1.
  destruct lsmr_cases as [(Z & _)|[(_ & r & o & c2 & xs & H & P)|(_ & H & _)]]; [contradiction| |exact H].
  exfalso.
  assert (I0 : (r_itn r < 1)%nat).
  { apply (C53_consistent 1 (iscale c (At b)) D0 NZ) with (ob' := o) (cnt' := c2); [|exact EC|exact H].
    exists c, izero. split; [reflexivity|]. rewrite (lin_zero A (adjoint_lin A At AD)), (lin_zero At (adjoint_lin_t A At AD)).
    apply ip_ext. intro t. rewrite ip_add, ip_zero. ring. }
  destruct (C53_stopping KK WV WU q kw fuel ob b cnt r o c2 H) as (_ & _ & _ & _ & _ & _ & I & _).
  destruct (I ltac:(lia)) as [X [S|S]]; [|fold lim in S; lia].
  apply Reqb_true in S. destruct P as (_ & _ & _ & _ & _ & _ & (_ & AR & _) & _).
  rewrite AR in S. apply NZ. rewrite <- nres_izero. apply inorm_zero. change (r_x r = (izero : iv E1)) in X.
  unfold nres, res, A, At, d. unfold LsqrMath.nres in S. rewrite X in S. exact S.
Qed.

(** The optimality estimate is exact after every iteration, and never increases. *)
Theorem C54_normar : forall r ob' cnt', @lm_solve KK WV WU fuel q kw ob b cnt = Ok (r, ob', cnt') -> At b <> izero ->
  (r_normar r : R) = inorm (nres (r_x r)) /\
  exists xs : list (iv E1), length xs = r_itn r /\ (r_x r : iv E1) = last xs izero /\
  (m_sit kw = true -> (a_iters ob' : list (iv E1)) = izero :: xs) /\
  (m_sres kw = true -> (a_nresids ob' : list R) = map (fun x => inorm (nres x)) (izero :: xs)) /\
  (forall i x x', nth_error (izero :: xs) i = Some x -> nth_error (izero :: xs) (S i) = Some x' ->
     inorm (nres x') <= inorm (nres x)).
Proof.
  intros r ob' cnt' H NZ.
  destruct lsmr_cases as [(Z & _)|[(_ & r2 & o2 & c2 & xs & H2 & P)|(_ & H2 & _)]]; try congruence.
  rewrite H in H2. injection H2 as <- <- <-.
  destruct P as (LX & EX & _ & _ & NR & IT & (_ & AR & _) & _ & _ & KR & _).
  split; [exact AR|]. exists xs. split; [exact LX|]. split; [exact EX|].
  split; [intro S; rewrite S in IT; exact IT|]. split; [intro S; rewrite S in NR; exact NR|].
  intros i x x' Hx Hx'. cbn [nth_error] in Hx'. destruct (KR i x' Hx') as (_ & M & _).
  apply M. destruct i as [|i].
  - injection Hx as <-. apply kry_zero. exact (sym_AtA A At AD).
  - cbn [nth_error] in Hx. apply kry_S; [exact (sym_AtA A At AD)|]. exact (proj1 (KR i x Hx)).
Qed.

(** C68: the residual estimate and the norm of [x] are exact as well. *)
Theorem C68_normr : forall r ob' cnt', @lm_solve KK WV WU fuel q kw ob b cnt = Ok (r, ob', cnt') -> At b <> izero ->
  (r_normr r : R) = sqrt (obj (r_x r)) /\ (r_normx r : R) = nv1 (r_x r : iv E1) /\
  exists xs : list (iv E1), length xs = r_itn r /\ (r_x r : iv E1) = last xs izero /\
  (m_sit kw = true -> (a_iters ob' : list (iv E1)) = izero :: xs) /\
  (m_sres kw = true -> (a_resids ob' : list R) = map (fun x => sqrt (obj x)) (izero :: xs)).
Proof.
  intros r ob' cnt' H NZ.
  destruct lsmr_cases as [(Z & _)|[(_ & r2 & o2 & c2 & xs & H2 & P)|(_ & H2 & _)]]; try congruence.
  rewrite H in H2. injection H2 as <- <- <-.
  destruct P as (LX & EX & _ & RS & NR & IT & (R2 & _ & XN) & _).
  split; [exact R2|]. split; [exact XN|]. exists xs. split; [exact LX|]. split; [exact EX|].
  split; [intro S; rewrite S in IT; exact IT|intro S; rewrite S in RS; exact RS].
Qed.

(** The i-th iterate minimises the norm of the residual of the (damped) normal equations over the
    Krylov space of dimension [i]; in a space of dimension [n] at most [n] iterations are made. *)
Theorem C68_krylov : forall r ob' cnt', @lm_solve KK WV WU fuel q kw ob b cnt = Ok (r, ob', cnt') -> At b <> izero ->
  exists xs : list (iv E1), length xs = r_itn r /\ (r_x r : iv E1) = last xs izero /\
  (forall i x, nth_error xs i = Some x -> kry (fun z => At (A z)) (At b) (S i) x /\
     (forall z, kry (fun z => At (A z)) (At b) (S i) z -> inorm (nres x) <= inorm (nres z)) /\ 0 < obj x) /\
  forall n, dim_le E1 n \/ dim_le E2 n \/ rank_le A n -> (r_itn r <= n)%nat /\ ((n <= r_itn r)%nat -> nres (r_x r) = izero).
Proof.
  intros r ob' cnt' H NZ.
  destruct lsmr_cases as [(Z & _)|[(_ & r2 & o2 & c2 & xs & H2 & P)|(_ & H2 & _)]]; try congruence.
  rewrite H in H2. injection H2 as <- <- <-.
  destruct P as (LX & EX & _ & _ & _ & _ & _ & _ & _ & KR & DM & _).
  exists xs. split; [exact LX|]. split; [exact EX|]. split; [|exact DM].
  intros i x Hx. destruct (KR i x Hx) as (K1 & K2 & K3). split; [exact K1|]. split; [exact K2|].
  assert (P1 : 0 <= obj x). { unfold obj. pose proof (ip_pos (res x)). pose proof (ip_pos x). pose proof (Rle_0_sqr d). unfold Rsqr in *. nra. }
  assert (P2 : obj x <> 0).
  { intro Z. apply K3. unfold dres2. rewrite <- Z. unfold obj, res. reflexivity. }
  lra.
Qed.

Theorem C68_stop_meaning : forall r ob' cnt', @lm_solve KK WV WU fuel q kw ob b cnt = Ok (r, ob', cnt') -> At b <> izero ->
  (r_istop r = 1%Z -> sqrt (obj (r_x r)) <= m_btol kw * inorm b + m_atol kw * r_normA r * nv1 (r_x r : iv E1)) /\
  (r_istop r = 2%Z -> inorm (nres (r_x r)) <= m_atol kw * (r_normA r * sqrt (obj (r_x r)))).
Proof.
  intros r ob' cnt' H NZ.
  destruct lsmr_cases as [(Z & _)|[(_ & r2 & o2 & c2 & xs & H2 & P)|(_ & H2 & _)]]; try congruence.
  rewrite H in H2. injection H2 as <- <- <-.
  destruct P as (_ & _ & _ & _ & _ & _ & (R2 & AR & XN) & S1 & S2 & _).
  rewrite R2, XN in S1. rewrite R2, AR in S2. split; [exact S1|exact S2].
Qed.

(** With all tolerances 0 the solver cannot solve any consistent undamped system to completion:
    given an iteration limit of at least the dimension it raises. *)
Theorem C68_consistent_raises : forall n z, d = 0 -> At b <> izero -> A z = b ->
  (m_atol kw : R) = 0 -> (m_btol kw : R) = 0 -> (m_conlim kw : R) = 0 -> (m_etol kw : R) = 0 ->
  (forall l, 0 <= (m_lnorm kw l : R)) ->
  dim_le E1 n \/ dim_le E2 n \/ rank_le A n -> (Z.of_nat n <= lim)%Z ->
  @lm_solve KK WV WU fuel q kw ob b cnt = Err ZeroDivisionError.
Proof.
  intros n z D0 NZ EZ Z1 Z2 Z3 Z4 Z5 DN LN.
  destruct lsmr_cases as [(Z & _)|[(_ & r & o & c & xs & H & P)|(_ & H & _)]]; [contradiction| |exact H].
  exfalso. pose proof P as (LX & EX & _ & _ & _ & _ & (_ & AR & _) & _ & _ & KR & DM & T0).
  destruct (DM n DN) as [D1 D2].
  assert (XZ : LsqrMath.nres A At b d (r_x r) = izero).
  { destruct (Nat.lt_ge_cases (r_itn r) n) as [L|L]; [|exact (D2 L)].
    destruct (Req_dec (inorm (LsqrMath.nres A At b d (r_x r))) 0) as [Q|Q]; [apply inorm_zero; exact Q|exfalso].
    assert (Q' : LsqrMath.nres A At b d (r_x r) <> izero) by (intro F; apply Q; rewrite F; apply inorm_izero).
    specialize (T0 Z1 Z2 Z3 Z4 Z5 Q'). unfold lm_lim in T0. fold lim in T0. lia. }
  pose proof (dr_consistent dv sq E1 E2 nv1 nv2 q kw b AD (r_x r) z D0 EZ XZ) as DZ.
  rewrite EX in DZ, XZ. destruct xs as [|x0 xs _] using rev_ind.
  - apply NZ. rewrite <- nres_izero. exact XZ.
  - rewrite last_last in DZ. destruct (KR (length xs) x0) as (_ & _ & N).
    + rewrite nth_error_app2, Nat.sub_diag by lia. reflexivity.
    + exact (N DZ).
Qed.
End Exact.

(** ** The hypotheses hold of the 3 by 2 operator of PropLsqr. *)
Definition mkw (damp : R) (lim : option Z) (tol : R) (WV WU : Vs K0) : lm_kw WV WU :=
  @mklmkw K0 WV WU damp tol tol tol None None lim tol true true 5 (fun _ => 0 : sc K0).
Lemma xAD : adjoint xA xAt.
Proof. intros [a [b [c []]]] [e [f []]]. cbn. ring. Qed.
Definition xb : iv (Rn 3) := (1, (1, (1, tt))).
Lemma xAtb : xAt xb <> izero.
Proof. intro H. apply (f_equal (fun z : iv (Rn 2) => fst z)) in H. cbn in H. lra. Qed.
Example ex_C54 : let kw := mkw 2 None 0 W2 W3 in
  dv_ok Rdiv /\ sq_ok sqrt /\ m_M kw = None /\ m_N kw = None /\ adjoint xA xAt /\ (1 <= m_window kw)%nat /\
  (Z.to_nat (lm_lim xq kw) < 3)%nat /\ xAt xb <> izero /\ (m_damp kw : R) <> 0 /\
  exists r ob' cnt', @lm_solve K0 W2 W3 3 xq kw lm_obj0 xb 0 = Ok (r, ob', cnt').
Proof.
  intro kw. split; [exact Rdiv_ok|]. split; [exact sqrt_ok|]. split; [reflexivity|]. split; [reflexivity|].
  split; [exact xAD|]. split; [cbn; lia|]. split; [cbn; lia|]. split; [exact xAtb|]. split; [cbn; lra|].
  apply (C53_damped Rdiv sqrt Rdiv_ok sqrt_ok (Rn 2) (Rn 3) inorm inorm (@inorm_pos (Rn 2)) (@inorm_izero (Rn 2)) xq kw xb eq_refl eq_refl xAD); cbn; try lia. lra.
Qed.
(** A consistent system: [A (1,1) = (1,1,3)], and dimensions 2 and 3. *)
Example ex_C68_consistent : let kw := mkw 0 None 0 W2 W3 in
  xAt (1, (1, (3, tt))) <> izero /\ xA (v2 1 1) = (1, (1, (3, tt))) /\
  dim_le (Rn 2) 2 /\ (Z.of_nat 2 <= lm_lim xq kw)%Z /\
  (forall l, 0 <= (m_lnorm kw l : R)) /\
  @lm_solve K0 W2 W3 3 xq kw lm_obj0 (1, (1, (3, tt))) 0 = Err ZeroDivisionError.
Proof.
  intro kw.
  assert (N : xAt (1, (1, (3, tt))) <> izero).
  { intro H. apply (f_equal (fun z : iv (Rn 2) => fst z)) in H. cbn in H. lra. }
  assert (E : xA (v2 1 1) = (1, (1, (3, tt)))) by (unfold xA; cbn; repeat (apply f_equal2; [ring|]); reflexivity).
  split; [exact N|]. split; [exact E|]. split; [exact (Rn_dim 2)|]. split; [cbn; lia|]. split; [intro; cbn; lra|].
  apply (C68_consistent_raises Rdiv sqrt Rdiv_ok sqrt_ok (Rn 2) (Rn 3) inorm inorm (@inorm_pos (Rn 2)) (@inorm_izero (Rn 2)) xq kw (1, (1, (3, tt))) eq_refl eq_refl xAD)
    with (n := 2%nat) (z := v2 1 1); try reflexivity; try (cbn; lia); try exact N; try exact E.
  - intro; cbn; lra.
  - left. exact (Rn_dim 2).
Qed.
(** The identity. *)
Definition iq : lprob W2 W2 := @mklprob K0 W2 W2 2 2 (fun z => z) (fun z => z).
Example ex_C53_identity : let kw := mkw 0 None 1 W2 W2 in
  @lm_solve K0 W2 W2 3 iq kw lm_obj0 (v2 1 2) 0 = Err ZeroDivisionError.
Proof.
  intro kw.
  apply (C53_identity_raises Rdiv sqrt Rdiv_ok sqrt_ok (Rn 2) (Rn 2) inorm inorm (@inorm_pos (Rn 2)) (@inorm_izero (Rn 2)) iq kw (v2 1 2) eq_refl eq_refl) with (c := 1);
    try reflexivity; try (cbn; lia).
  - intros x y. reflexivity.
  - intro H. apply (f_equal (fun z : iv (Rn 2) => fst z)) in H. cbn in H. lra.
  - cbn. apply v2_eq; ring.
Qed.
Example ex_C53_zero : xAt (1, (2, (-1, tt))) = izero.
Proof. exact ex_C52_zero. Qed.
Print Assumptions C53_terminates.
Print Assumptions C53_stopping.
Print Assumptions C53_zero.
Print Assumptions C53_zero_exact.
Print Assumptions C53_zero_residual.
Print Assumptions C53_damped.
Print Assumptions C53_consistent.
Print Assumptions C53_identity_raises.
Print Assumptions C54_normar.
Print Assumptions C68_normr.
Print Assumptions C68_krylov.
Print Assumptions C68_stop_meaning.
Print Assumptions C68_consistent_raises.
