(** Properties C50-C52, C67: LSQR. *)
From Coq Require Import List Arith Lia Bool QArith ZArith Reals Lra Qreals.
From Verif Require Import Base Num SpanMath ToolsModel ToolsProof PropCg MinresModel MinresProof GkProof PropMinres
  LsqrModel LsqrFlow LsqrMath LsqrProof.
Import ListNotations.
Local Open Scope R_scope.

(** ** Any arithmetic. *)
(** With enough fuel the loop is never cut short: the outcome is a result or one of Python's
    exceptions. *)
Theorem C50_terminates : forall (K : Scal) (WV WU : Vs K) (q : lprob WV WU) (kw : ls_kw WV WU) fuel rhs cnt,
  let lim := if (l_itnlim kw =? 0)%Z then (3 * Z.of_nat (lp_n q))%Z else l_itnlim kw in
  (Z.to_nat lim < fuel)%nat -> ls_solve fuel q kw rhs cnt <> Err EFuel.
Proof. intros K WV WU q kw fuel rhs cnt lim. exact (ls_solve_nofuel q kw fuel rhs cnt). Qed.

Theorem C50_stopping : forall (K : Scal) (WV WU : Vs K) (q : lprob WV WU) (kw : ls_kw WV WU) fuel rhs cnt o cnt',
  let lim := if (l_itnlim kw =? 0)%Z then (3 * Z.of_nat (lp_n q))%Z else l_itnlim kw in
  ls_solve fuel q kw rhs cnt = Ok (o, cnt') ->
  l_wantvar kw = false /\
  (Z.of_nat (o_itn o) <= Z.max 0 lim)%Z /\ o_nmv o = (2 * o_itn o)%nat /\
  (cnt + o_itn o <= cnt' <= cnt + 2 * o_itn o + 1)%nat /\
  (0 <= o_istop o <= 8)%Z /\ (o_istop o = 0%Z <-> o_itn o = 0%nat) /\
  (o_istop o = 7%Z -> Z.of_nat (o_itn o) = lim) /\
  (Z.of_nat (o_itn o) < lim -> o_itn o <> 0%nat -> In (o_istop o) [1; 2; 3; 4; 5; 6; 8])%Z /\
  (o_status o = Some LsZero <-> o_istop o = 0%Z) /\
  (o_status o = Some LsSmall <-> In (o_istop o) [1; 2; 4; 5]%Z) /\
  (o_status o = Some LsIll <-> In (o_istop o) [3; 6]%Z) /\
  (o_status o = Some LsMax <-> o_istop o = 7%Z) /\
  (o_status o = Some LsDirect <-> o_istop o = 8%Z) /\
  (o_optimal o = true <-> In (o_istop o) [1; 2; 4; 5; 8]%Z) /\
  (o_itn o = 0%nat -> o_x o = vzeros (lp_n q) /\ (seqb (o_Arnorm o) s0 = true \/ (lim <= 0)%Z)) /\
  length (o_resids o) = (if l_sres kw then o_itn o + 1 else 0)%nat /\
  length (o_nresids o) = (if l_sres kw then o_itn o + 1 else 0)%nat /\
  length (o_iters o) = (if l_sit kw then o_itn o + 1 else 0)%nat /\
  last (o_resids o) (o_r2norm o) = o_r2norm o /\ last (o_nresids o) (o_Arnorm o) = o_Arnorm o /\
  last (o_iters o) (o_x o) = o_x o /\
  (l_window kw = 0%nat -> o_itn o = 0%nat).
Proof. intros K WV WU q kw fuel rhs cnt o cnt' lim. exact (ls_flow_spec q kw fuel rhs cnt o cnt'). Qed.

(** The two ways of not entering the loop: [alpha*beta == 0] (line 207) and a negative limit. *)
Theorem C50_zero : forall (K : Scal) (WV WU : Vs K) (q : lprob WV WU) (kw : ls_kw WV WU) fuel rhs cnt st0,
  l_wantvar kw = false -> ls_init q kw rhs cnt = Ok st0 ->
  seqb (smul (s_alpha st0) (s_beta st0)) s0 = true \/ (l_itnlim kw < 0)%Z -> (0 < fuel)%nat ->
  exists o, ls_solve fuel q kw rhs cnt = Ok (o, s_cnt st0) /\
    o_istop o = 0%Z /\ o_itn o = 0%nat /\ o_x o = vzeros (lp_n q) /\ o_status o = Some LsZero /\ o_optimal o = false.
Proof. intros K WV WU q kw. exact (ls_zero q kw). Qed.

Theorem C50_conlim : forall (K : Scal) (WV WU : Vs K) (q : lprob WV WU) (kw : ls_kw WV WU) fuel rhs cnt c,
  ls_solve fuel q kw rhs cnt =
  ls_solve fuel q (mklskw (l_itnlim kw) (l_damp kw) (l_M kw) (l_N kw) (l_atol kw) (l_btol kw) c (l_wantvar kw)
    (l_etol kw) (l_sres kw) (l_sit kw) (l_window kw) (l_lnorm kw) (l_infle kw)) rhs cnt.
Proof. intros K WV WU q [] fuel rhs cnt c. reflexivity. Qed.

Theorem C50_wantvar : forall (K : Scal) (WV WU : Vs K) (q : lprob WV WU) (kw : ls_kw WV WU) fuel rhs cnt,
  l_wantvar kw = true -> ls_solve fuel q kw rhs cnt = Err TypeError.
Proof. intros K WV WU q kw fuel rhs cnt H. unfold ls_solve. rewrite H. reflexivity. Qed.

(** ** Exact arithmetic. *)
Section Exact.
Variables (dv : R -> R -> R) (sq : R -> R).
Hypothesis DV : dv_ok dv.
Hypothesis SQ : sq_ok sq.
Variables E1 E2 : IPS.
Notation KK := (exactK dv sq).
(** [nv1], [nv2] stand for [numpy.linalg.norm]; it only enters [Acond], so it may be any function. *)
Variables (nv1 : iv E1 -> R) (nv2 : iv E2 -> R).
Notation WV := (exactVn dv sq E1 nv1).
Notation WU := (exactVn dv sq E2 nv2).
Variables (q : lprob WV WU) (kw : ls_kw WV WU) (b : iv E2).
Hypothesis NM : l_M kw = None.
Hypothesis NN : l_N kw = None.
Hypothesis AD : adjoint (lp_A q : iv E1 -> iv E2) (lp_At q : iv E2 -> iv E1).
Hypothesis HW : (1 <= l_window kw)%nat.
Hypothesis NV : l_wantvar kw = false.
Variables (fuel cnt : nat).
Let lim := if (l_itnlim kw =? 0)%Z then (3 * Z.of_nat (lp_n q))%Z else l_itnlim kw.
Hypothesis HF : (Z.to_nat lim < fuel)%nat.
Let A : iv E1 -> iv E2 := lp_A q.
Let At : iv E2 -> iv E1 := lp_At q.
Let d : R := l_damp kw.
Let res (x : iv E1) : iv E2 := isub b (A x).
Let nres (x : iv E1) : iv E1 := isub (At (res x)) (iscale (d * d) x).
Let obj (x : iv E1) : R := ip (res x) (res x) + d * d * ip x x.

(** The solver returns; the reported norms are those of the returned vector. *)
Theorem C51_residual : exists o cnt', @ls_solve KK WV WU fuel q kw b cnt = Ok (o, cnt') /\
  let x := o_x o : iv E1 in
  (o_r2norm o : R) = sqrt (obj x) /\ (o_xnorm o : R) = inorm x /\
  inorm (res x) <= (o_r1norm o : R) <= o_r2norm o /\
  (d = 0 -> (o_r1norm o : R) = inorm (res x)).
Proof.
  destruct (ls_exact dv sq DV SQ E1 E2 nv1 nv2 q kw b NM NN AD HW fuel cnt NV HF)
    as (o & c & xs & H & _ & _ & _ & _ & _ & (R2 & _ & XN & R1 & R0) & _).
  exists o, c. split; [exact H|]. cbv zeta. split; [exact R2|]. split; [exact XN|]. split; [exact R1|exact R0].
Qed.

(** The same for every iterate: the stored histories are the norms of the stored iterates, and the
    (damped) residual norm never increases. *)
Theorem C51_history : exists o cnt' (xs : list (iv E1)), @ls_solve KK WV WU fuel q kw b cnt = Ok (o, cnt') /\
  length xs = o_itn o /\ (o_x o : iv E1) = last xs izero /\
  (l_sit kw = true -> (o_iters o : list (iv E1)) = izero :: xs) /\
  (l_sres kw = true -> (o_resids o : list R) = map (fun x => sqrt (obj x)) (izero :: xs)) /\
  (forall i x x', nth_error (izero :: xs) i = Some x -> nth_error (izero :: xs) (S i) = Some x' -> obj x' <= obj x).
Proof.
  destruct (ls_exact dv sq DV SQ E1 E2 nv1 nv2 q kw b NM NN AD HW fuel cnt NV HF)
    as (o & c & xs & H & LX & EX & RS & _ & IT & _ & _ & KR & _).
  exists o, c, xs. split; [exact H|]. split; [exact LX|]. split; [exact EX|].
  split; [intro S; rewrite S in IT; exact IT|]. split; [intro S; rewrite S in RS; exact RS|].
  intros i x x' Hx Hx'. cbn [nth_error] in Hx'. destruct (KR i x' Hx') as [_ M].
  apply M. destruct i as [|i].
  - injection Hx as <-. apply kry_zero. exact (sym_AtA A At AD).
  - cbn [nth_error] in Hx. apply kry_S; [exact (sym_AtA A At AD)|]. exact (proj1 (KR i x Hx)).
Qed.

Theorem C52_optimality : exists o cnt' (xs : list (iv E1)), @ls_solve KK WV WU fuel q kw b cnt = Ok (o, cnt') /\
  length xs = o_itn o /\ (o_x o : iv E1) = last xs izero /\
  (o_Arnorm o : R) = inorm (nres (o_x o)) /\
  (l_sres kw = true -> (o_nresids o : list R) = map (fun x => inorm (nres x)) (izero :: xs)) /\
  ((o_Arnorm o : R) = 0 -> nres (o_x o) = izero /\ forall z, obj (o_x o) <= obj z).
Proof.
  destruct (ls_exact dv sq DV SQ E1 E2 nv1 nv2 q kw b NM NN AD HW fuel cnt NV HF)
    as (o & c & xs & H & LX & EX & _ & NR & _ & (_ & AR & _) & _).
  exists o, c, xs. split; [exact H|]. split; [exact LX|]. split; [exact EX|]. split; [exact AR|].
  split; [intro S; rewrite S in NR; exact NR|].
  intro Z. rewrite AR in Z. apply inorm_zero in Z. split; [exact Z|].
  exact (nres_opt dv sq E1 E2 nv1 nv2 q kw b AD _ Z).
Qed.

(** Breakdown: vanishing [alpha*beta] before the loop (i.e. [A'b = 0]). *)
Theorem C52_zero : At b = izero -> exists o cnt', @ls_solve KK WV WU fuel q kw b cnt = Ok (o, cnt') /\
  (o_x o : iv E1) = izero /\ o_istop o = 0%Z /\ o_itn o = 0%nat /\ (o_Arnorm o : R) = 0.
Proof.
  intro Z.
  destruct (ex_init dv sq DV SQ E1 E2 nv1 nv2 q kw b NM NN AD HW cnt) as (st0 & E0 & I0 & G0 & B0 & P0 & BP).
  pose proof (gh_ok _ _ _ _ _ _ _ _ _ _ _ G0) as (_ & AR & _).
  assert (X0 : s_x st0 = (izero : iv E1)) by exact (gh_x _ _ _ _ _ _ _ _ _ _ _ G0).
  assert (N0 : nres izero = izero).
  { unfold nres, res. rewrite (lin_zero A (adjoint_lin A At AD)). apply ip_ext. intro z.
    transitivity (ip z (At b)); [|rewrite Z; reflexivity].
    rewrite ip_sub, ip_scale, ip_zero. rewrite !(ip_At A At AD), ip_sub, ip_zero. ring. }
  assert (A0 : (s_Arnorm st0 : R) = 0).
  { rewrite AR, X0. fold (nres izero). transitivity (inorm (nres izero)); [reflexivity|]. rewrite N0. apply inorm_izero. }
  pose proof (ls_init_spec q kw _ _ _ E0) as (_ & _ & _ & _ & S1 & _).
  destruct (ls_zero q kw fuel b cnt st0 NV E0) as (o & H & I1 & I2 & I3 & _).
  - left. rewrite <- S1. apply Reqb_true. exact A0.
  - lia.
  - exists o, (s_cnt st0). split; [exact H|]. split; [exact I3|]. split; [exact I1|]. split; [exact I2|].
    destruct (ls_exact dv sq DV SQ E1 E2 nv1 nv2 q kw b NM NN AD HW fuel cnt NV HF)
      as (o2 & c & xs & H2 & _ & _ & _ & _ & _ & (_ & AR2 & _) & _).
    rewrite H in H2. injection H2 as <- _. rewrite AR2. change (o_x o : iv E1) with (o_x o : vc WV). rewrite I3.
    transitivity (inorm (nres izero)); [reflexivity|]. rewrite N0. apply inorm_izero.
Qed.

(** Krylov optimality and finite termination: the i-th iterate minimises the damped objective over
    the Krylov space of [A'A] and [A'b] of dimension [i]; in a space of dimension [n] (domain or
    range) at most [n+1] iterations are made, and after [n] the problem is solved. *)
Theorem C67_krylov : exists o cnt' (xs : list (iv E1)), @ls_solve KK WV WU fuel q kw b cnt = Ok (o, cnt') /\
  length xs = o_itn o /\ (o_x o : iv E1) = last xs izero /\
  (forall i x, nth_error xs i = Some x -> kry (fun z => At (A z)) (At b) (S i) x /\
     forall z, kry (fun z => At (A z)) (At b) (S i) z -> obj x <= obj z) /\
  (nres (o_x o) <> izero -> cnt' = (cnt + 2 * o_itn o + 1)%nat) /\
  forall n, dim_le E1 n \/ dim_le E2 n \/ rank_le A n -> (o_itn o <= n + 1)%nat /\
    ((n <= o_itn o)%nat -> nres (o_x o) = izero /\ forall z, obj (o_x o) <= obj z).
Proof.
  destruct (ls_exact dv sq DV SQ E1 E2 nv1 nv2 q kw b NM NN AD HW fuel cnt NV HF)
    as (o & c & xs & H & LX & EX & _ & _ & _ & _ & _ & KR & CN & DM).
  exists o, c, xs. split; [exact H|]. split; [exact LX|]. split; [exact EX|]. split; [exact KR|]. split; [exact CN|].
  intros n DN. destruct (DM n DN) as [D1 D2]. split; [exact D1|]. intro L. specialize (D2 L). split; [exact D2|].
  exact (nres_opt dv sq E1 E2 nv1 nv2 q kw b AD _ D2).
Qed.

(** Without damping, a returned vector that satisfies the normal equations is the least-squares
    solution of smallest norm. *)
Theorem C67_minimum_norm : exists o cnt', @ls_solve KK WV WU fuel q kw b cnt = Ok (o, cnt') /\
  (d = 0 -> (o_Arnorm o : R) = 0 -> forall z, At (res z) = izero ->
     inorm (o_x o : iv E1) <= inorm z /\ (inorm z = inorm (o_x o : iv E1) -> z = o_x o)).
Proof.
  destruct (ls_exact dv sq DV SQ E1 E2 nv1 nv2 q kw b NM NN AD HW fuel cnt NV HF)
    as (o & c & xs & H & LX & EX & _ & _ & _ & (_ & AR & _) & _ & KR & _).
  exists o, c. split; [exact H|]. intros D0 Z z Hz. rewrite AR in Z. apply inorm_zero in Z.
  assert (NZ : LsqrMath.nres A At b d z = izero).
  { unfold LsqrMath.nres. fold (res z). rewrite Hz, D0. apply ip_ext. intro y. rewrite ip_sub, ip_scale, ip_zero. ring. }
  apply (nres_minnorm dv sq E1 E2 nv1 nv2 q kw b AD D0 (length xs) _ z); [|exact Z|exact NZ].
  rewrite EX. destruct xs as [|x0 xs _] using rev_ind; [reflexivity|].
  rewrite last_last, app_length. cbn [length]. rewrite Nat.add_1_r.
  apply (KR (length xs) x0). rewrite nth_error_app2, Nat.sub_diag by lia. reflexivity.
Qed.

(** With the default limit [3n] the iteration limit is never the reason for stopping. *)
Theorem C67_default_limit : l_itnlim kw = 0%Z -> (1 <= lp_n q)%nat -> dim_le E1 (lp_n q) ->
  exists o cnt', @ls_solve KK WV WU fuel q kw b cnt = Ok (o, cnt') /\ o_istop o <> 7%Z.
Proof.
  intros L0 N1 DN.
  destruct (ls_exact dv sq DV SQ E1 E2 nv1 nv2 q kw b NM NN AD HW fuel cnt NV HF)
    as (o & c & xs & H & _ & _ & _ & _ & _ & _ & _ & _ & _ & DM).
  exists o, c. split; [exact H|]. intro I7.
  destruct (C50_stopping KK WV WU q kw fuel b cnt o c H) as (_ & _ & _ & _ & _ & _ & I & _).
  specialize (I I7). rewrite L0 in I. cbn [Z.eqb] in I.
  destruct (DM (lp_n q) (or_introl DN)) as [D1 _]. lia.
Qed.

(** The codes 1 and 2 state true inequalities about the returned vector. *)
Theorem C51_stop_meaning : forall o cnt', @ls_solve KK WV WU fuel q kw b cnt = Ok (o, cnt') ->
  (o_istop o = 1%Z -> sqrt (obj (o_x o)) <= l_btol kw * inorm b + l_atol kw * o_Anorm o * inorm (o_x o : iv E1)) /\
  (o_istop o = 2%Z -> l_infle kw (l_atol kw) = false ->
     inorm (nres (o_x o)) <= l_atol kw * (o_Anorm o * sqrt (obj (o_x o)))).
Proof.
  intros o cnt' H.
  destruct (ls_exact dv sq DV SQ E1 E2 nv1 nv2 q kw b NM NN AD HW fuel cnt NV HF)
    as (o2 & c & xs & H2 & _ & _ & _ & _ & _ & (R2 & AR & XN & _) & _).
  rewrite H in H2. injection H2 as <- _.
  destruct (ls_stop dv sq DV SQ E1 E2 nv1 nv2 q kw b NM NN AD HW fuel cnt o cnt' NV H HF) as [S1 S2].
  rewrite R2, XN in S1. rewrite R2, AR in S2. split; [exact S1|exact S2].
Qed.
End Exact.

(** ** The hypotheses hold of a 3 by 2 operator, with damping 2 and the other arguments at their
    defaults. *)
Notation K0 := (exactK Rdiv sqrt).
Notation W2 := (exactV Rdiv sqrt (Rn 2)).
Notation W3 := (exactV Rdiv sqrt (Rn 3)).
Definition xA (z : iv (Rn 2)) : iv (Rn 3) := (fst z, (fst (snd z), (fst z + 2 * fst (snd z), tt))).
Definition xAt (y : iv (Rn 3)) : iv (Rn 2) :=
  v2 (fst y + fst (snd (snd y))) (fst (snd y) + 2 * fst (snd (snd y))).
Definition xq : lprob W2 W3 := @mklprob K0 W2 W3 3 2 (xA : vc W2 -> vc W3) (xAt : vc W3 -> vc W2).
Definition lkw (damp : R) (lim : Z) (WV WU : Vs K0) : ls_kw WV WU :=
  @mklskw K0 WV WU lim damp None None (Q2R (1 # 1000000000)) (Q2R (1 # 1000000000)) (Q2R 100000000) false
    (Q2R (1 # 1000000)) true true 5 (fun _ => 0 : sc K0) (fun _ => false).
Example ex_C51 : let kw := lkw 2 0 W2 W3 in
  dv_ok Rdiv /\ sq_ok sqrt /\ l_M kw = None /\ l_N kw = None /\ adjoint xA xAt /\ (1 <= l_window kw)%nat /\
  l_wantvar kw = false /\ (l_damp kw : R) <> 0 /\ dim_le (Rn 2) (lp_n xq) /\ (1 <= lp_n xq)%nat /\
  (Z.to_nat (if (l_itnlim kw =? 0)%Z then (3 * Z.of_nat (lp_n xq))%Z else l_itnlim kw) < 7)%nat.
Proof.
  intro kw. split; [exact Rdiv_ok|]. split; [exact sqrt_ok|]. split; [reflexivity|]. split; [reflexivity|].
  split. { intros [a [b [c []]]] [e [f []]]. cbn. ring. }
  split; [cbn; lia|]. split; [reflexivity|]. split; [cbn; lra|]. split; [exact (Rn_dim 2)|]. split; cbn; [lia|]. change (6 < 7)%nat. lia.
Qed.
(** [A'b = 0] with [b] different from zero. *)
Example ex_C52_zero : xAt (1, (2, (-1, tt))) = izero.
Proof. unfold xAt. cbn. unfold v2. apply f_equal2; [ring|]. apply f_equal2; [ring|reflexivity]. Qed.
Example ex_C50_zero : exists st0, @ls_init K0 W2 W3 xq (lkw 2 (-1) W2 W3) (1, (1, (1, tt))) 0 = Ok st0 /\
  (l_itnlim (lkw 2 (-1) W2 W3) < 0)%Z.
Proof.
  destruct (ex_init Rdiv sqrt Rdiv_ok sqrt_ok (Rn 2) (Rn 3) inorm inorm xq (lkw 2 (-1) W2 W3) (1, (1, (1, tt))) eq_refl eq_refl
    (proj1 (proj2 (proj2 (proj2 (proj2 ex_C51))))) ltac:(cbn; lia) 0) as (st0 & H & _).
  exists st0. split; [exact H|]. cbn. lia.
Qed.

(** ** With damping, [r1norm] is not the norm of [b - A x]: [A = [[3,0],[12,91]]], [b = (1,0)],
    [damp = 4], one iteration. *)
Definition rA (z : iv (Rn 2)) : iv (Rn 2) := v2 (3 * fst z) (12 * fst z + 91 * fst (snd z)).
Definition rAt (y : iv (Rn 2)) : iv (Rn 2) := v2 (3 * fst y + 12 * fst (snd y)) (91 * fst (snd y)).
Definition rq : lprob W2 W2 := @mklprob K0 W2 W2 2 2 (rA : vc W2 -> vc W2) (rAt : vc W2 -> vc W2).
Lemma rAD : adjoint rA rAt.
Proof. intros [a [b []]] [c [e []]]. cbn. ring. Qed.

Theorem C51_r1norm_refuted : exists (q : lprob W2 W2) (kw : ls_kw W2 W2) (b : iv (Rn 2)) o cnt',
  adjoint (lp_A q : iv (Rn 2) -> iv (Rn 2)) (lp_At q : iv (Rn 2) -> iv (Rn 2)) /\ l_M kw = None /\ l_N kw = None /\
  @ls_solve K0 W2 W2 2 q kw b 0 = Ok (o, cnt') /\ o_itn o = 1%nat /\
  inorm (isub b (lp_A q (o_x o))) < (o_r1norm o : R).
Proof.
  set (b := v2 1 0).
  set (kw := lkw 4 1 W2 W2).
  assert (H0 : exists st0, @ls_init K0 W2 W2 rq kw b 0 = Ok st0 /\
    s_Mu st0 = b /\ s_u st0 = b /\ s_vN st0 = Some (b, b) /\ s_w st0 = Some b /\
    (s_alpha st0 : R) = 3 /\ (s_beta st0 : R) = 1 /\ (s_rhobar st0 : R) = 3 /\ (s_phibar st0 : R) = 1 /\
    (s_Anorm st0 : R) = 0 /\ (s_ddnorm st0 : R) = 0 /\ (s_z st0 : R) = 0 /\ (s_xxnorm st0 : R) = 0 /\
    (s_res2 st0 : R) = 0 /\ (s_cs2 st0 : R) = -1 /\ (s_sn2 st0 : R) = 0 /\ (s_nrg2 st0 : R) = 0 /\
    s_istop st0 = 0%Z /\ s_itn st0 = 0%nat /\ s_brk st0 = false /\ s_x st0 = (izero : iv (Rn 2))).
  { unfold ls_init. cbv zeta.
    destruct (ex_gk Rdiv sqrt Rdiv_ok sqrt_ok (Rn 2) inorm b) as (u & G1 & G2 & _).
    change (l_M kw) with (@None (vc W2 -> vc W2)). rewrite G1. cbn [rbind].
    assert (N1 : inorm b = 1) by (unfold inorm; cbn; apply sqrt_val; [lra|ring]).
    rewrite N1 in *.
    assert (U : u = b) by (rewrite G2 by lra; cbn; apply v2_eq; field). rewrite U.
    replace (@sgtb K0 1 (@s0 K0)) with true by (symmetry; apply Rltb_true; cbn; lra).
    change (l_N kw) with (@None (vc W2 -> vc W2)).
    destruct (ex_gk Rdiv sqrt Rdiv_ok sqrt_ok (Rn 2) inorm (rAt b)) as (v & H1 & H2 & _).
    change (lp_At rq b) with (rAt b). rewrite H1. cbn [rbind].
    assert (N3 : inorm (rAt b) = 3) by (unfold inorm; cbn; apply sqrt_val; [lra|ring]).
    rewrite N3 in *.
    assert (V : v = b) by (rewrite H2 by lra; cbn; apply v2_eq; field). rewrite V.
    replace (@sgtb K0 3 (@s0 K0)) with true by (symmetry; apply Rltb_true; cbn; lra).
    eexists. split; [reflexivity|].
    cbn [s_Mu s_u s_vN s_w s_alpha s_beta s_rhobar s_phibar s_Anorm s_ddnorm s_z s_xxnorm s_res2 s_cs2 s_sn2 s_nrg2 s_istop s_itn s_brk s_x].
    do 14 (split; [try reflexivity; cbn; unfold Q2R; cbn; lra|]).
    do 4 (split; [reflexivity|]).
    split; [apply Reqb_false; cbn; lra|reflexivity]. }
  destruct H0 as (st0 & E0 & I1 & I2 & I3 & I4 & I5 & I6 & I7 & I8 & I9 & I10 & I11 & I12 & I13 & I14 & I15 & I16 & I17 & I18 & I19 & I20).
  assert (P : ls_pre Rdiv sqrt (Rn 2) (Rn 2) inorm inorm kw st0 b b b).
  { split.
    - exact I1.
    - exact I2.
    - exact I3.
    - exact I4.
    - left. rewrite I7. lra.
    - rewrite I14. lra.
    - rewrite I12. lra.
    - rewrite I13. lra.
    - rewrite I10. lra.
    - rewrite I16. lra.
    - rewrite I9. lra.
    - rewrite I17. lia. }
  destruct (ex_body Rdiv sqrt Rdiv_ok sqrt_ok (Rn 2) (Rn 2) inorm inorm rq kw eq_refl eq_refl ltac:(cbn; lia) 1 st0 b b b ltac:(lra) P)
    as (st1 & u' & v' & al' & EB & O).
  exists rq, kw, b.
  eexists _, _. split; [exact rAD|]. split; [reflexivity|]. split; [reflexivity|].
  split.
  { unfold ls_solve. change (l_wantvar kw) with false. cbv iota. rewrite E0. cbn [rbind].
    rewrite I6. cbn [while]. unfold ls_cond at 1. rewrite I19, I18.
    change (ls_lim rq kw) with 1%Z in *. cbn [negb andb Z.of_nat Z.ltb Z.compare]. rewrite EB.
    unfold ls_cond. rewrite (eo_itn _ _ _ _ _ _ _ _ _ _ _ _ _ _ _ _ O), I18. cbn [Nat.add Z.of_nat Pos.of_succ_nat Z.ltb Z.compare Pos.compare Pos.compare_cont].
    rewrite andb_false_r. cbn [rbind]. reflexivity. }
  cbn [o_itn o_x o_r1norm]. split; [rewrite (eo_itn _ _ _ _ _ _ _ _ _ _ _ _ _ _ _ _ O), I18; reflexivity|].
  pose proof (eo_x _ _ _ _ _ _ _ _ _ _ _ _ _ _ _ _ O) as EX. pose proof (eo_bep _ _ _ _ _ _ _ _ _ _ _ _ _ _ _ _ O) as EBE.
  pose proof (eo_ga _ _ _ _ _ _ _ _ _ _ _ _ _ _ _ _ O) as EG. pose proof (eo_r1 _ _ _ _ _ _ _ _ _ _ _ _ _ _ _ _ O) as ER.
  cbv zeta in EG. unfold gb, rh in EG.
  change (l_damp kw : R) with 4 in *. change (lp_A rq) with rA in *. change (lp_At rq) with rAt in *.
  rewrite I5 in *. rewrite I7 in *. rewrite I8 in *. rewrite I11, I12, I14, I15 in *. rewrite I13 in *. rewrite I20 in *.
  assert (Y : isub (rA b) (iscale 3 b) = v2 0 12) by (unfold isub, ineg; cbn; apply v2_eq; ring).
  rewrite Y in *.
  assert (B : inorm (v2 0 12) = 12) by (unfold inorm; cbn; apply sqrt_val; [lra|ring]). rewrite B in *.
  assert (R5 : sqrt (3 * 3 + 4 * 4) = 5) by (apply sqrt_val; [lra|ring]). rewrite R5 in *.
  assert (R13 : sqrt (5 * 5 + 12 * 12) = 13) by (apply sqrt_val; [lra|ring]). rewrite R13 in *.
  destruct (EBE ltac:(lra)) as (EU & _ & EA & _).
  assert (U : u' = v2 0 1) by (rewrite EU; cbn; apply v2_eq; field). rewrite U in *.
  assert (Z : isub (rAt (v2 0 1)) (iscale 12 b) = v2 0 91) by (unfold isub, ineg; cbn; apply v2_eq; ring).
  rewrite Z in EA.
  assert (N91 : inorm (v2 0 91) = 91) by (unfold inorm; cbn; apply sqrt_val; [lra|ring]). rewrite N91 in EA. rewrite EA in *.
  replace (- -1 * 13) with 13 in * by ring.
  replace (12 / 13 * 91) with 84 in * by field.
  assert (R85 : sqrt (13 * 13 + 84 * 84) = 85) by (apply sqrt_val; [lra|ring]). rewrite R85 in *.
  destruct EG as (_ & _ & _ & _ & XX).
  replace (5 / 13 * (3 / 5 * 1)) with (3 / 13) in * by field.
  rewrite XX in ER.
  rewrite ER by (lra || nra).
  assert (XV : (s_x st1 : iv (Rn 2)) = v2 (3 / 169) 0) by (rewrite EX; cbn; apply v2_eq; field).
  change (s_x st1 : iv (Rn 2)) with (s_x st1 : vc W2) in XV. rewrite XV.
  unfold inorm. apply sqrt_lt_1.
  - apply ip_pos.
  - nra.
  - unfold isub, ineg. cbn. lra.
Qed.
Print Assumptions C50_terminates.
Print Assumptions C50_stopping.
Print Assumptions C50_zero.
Print Assumptions C50_conlim.
Print Assumptions C50_wantvar.
Print Assumptions C51_residual.
Print Assumptions C51_history.
Print Assumptions C52_optimality.
Print Assumptions C52_zero.
Print Assumptions C67_krylov.
Print Assumptions C67_minimum_norm.
Print Assumptions C67_default_limit.
Print Assumptions C51_stop_meaning.
Print Assumptions C51_r1norm_refuted.
