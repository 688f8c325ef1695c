(** Properties C55-C57, C69, C70: CRAIG and CRAIG-MR. *)
From Coq Require Import List Arith Lia Bool QArith ZArith Reals Lra Qreals.
From Verif Require Import Base Num ToolsModel ToolsProof PropCg MinresModel MinresProof GkProof PropMinres
  LsqrModel LsqrFlow LsqrMath LsqrProof PropLsqr CraigModel CraigFlow CraigMath CraigProof.
Import ListNotations.
Local Open Scope R_scope.

(** ** CRAIG, any arithmetic. *)
Theorem C55_terminates : forall (K : Scal) (WV WU : Vs K) (q : lprob WV WU) (kw : cr_kw WV WU) fuel rhs cnt,
  let lim := if (c_itnlim kw =? 0)%Z then (3 * Z.of_nat (lp_n q))%Z else c_itnlim kw in
  (Z.to_nat lim < fuel)%nat -> cr_solve fuel q kw rhs cnt <> Err EFuel.
Proof. intros K WV WU q kw fuel rhs cnt lim. exact (cr_solve_nofuel q kw fuel rhs cnt). Qed.

(** Whenever [solve] returns: at least one and at most [itnlim] iterations, stop codes 1, 4, 7, 8 and
    the lengths of the histories. *)
Theorem C55_stopping : forall (K : Scal) (WV WU : Vs K) (q : lprob WV WU) (kw : cr_kw WV WU) fuel rhs cnt r cnt',
  let lim := if (c_itnlim kw =? 0)%Z then (3 * Z.of_nat (lp_n q))%Z else c_itnlim kw in
  cr_solve fuel q kw rhs cnt = Ok (r, cnt') ->
  (1 <= Z.of_nat (go_itn r) <= lim)%Z /\
  (cnt + 1 + go_itn r <= cnt' <= cnt + 1 + 2 * go_itn r)%nat /\ go_nmv r = (2 * go_itn r)%nat /\
  (go_istop r = 1 \/ go_istop r = 4 \/ go_istop r = 7 /\ Z.of_nat (go_itn r) = lim \/
   go_istop r = 8 /\ (c_window kw < go_itn r)%nat)%Z /\
  go_optimal r = negb (go_istop r =? 7)%Z /\
  length (go_resids r) = (if c_sres kw then go_itn r + 1 else 0)%nat /\
  length (go_norms r) = (if c_sres kw then go_itn r + 1 else 0)%nat /\
  length (go_nresids r) = (if c_sres kw then go_itn r else 0)%nat /\
  length (go_itp r) = (if c_sit kw then go_itn r + 1 else 0)%nat /\
  length (go_itd r) = (if c_sit kw then go_itn r + 1 else 0)%nat /\
  length (go_dirs r) = (go_itn r - c_window kw)%nat /\
  last (go_itp r) (go_x r) = go_x r /\ last (go_itd r) (go_r r) = go_r r /\
  (1 <= c_window kw)%nat /\ c_wantvar kw = false.
Proof. intros K WV WU q kw fuel rhs cnt r cnt' lim. exact (cr_flow_spec q kw fuel rhs cnt r cnt'). Qed.

(** [damp], [atol] and [conlim] have no effect (the comparison and the equality test of the
    arithmetic have to agree that a positive [conlim] is nonzero: [1/conlim] is computed). *)
Theorem C55_ignored : forall (K : Scal) (WV WU : Vs K) (q : lprob WV WU) fuel rhs cnt
    il d d' M N at_ at_' bt cl cl' wv et sr si w ln,
  (sgtb cl s0 = true -> seqb cl s0 = false) -> (sgtb cl' s0 = true -> seqb cl' s0 = false) ->
  cr_solve fuel q (mkcrkw il d M N at_ bt cl wv et sr si w ln) rhs cnt =
  cr_solve fuel q (mkcrkw il d' M N at_' bt cl' wv et sr si w ln) rhs cnt.
Proof. intros K WV WU q. exact (cr_indep q). Qed.

Theorem C55_wantvar : forall (K : Scal) (WV WU : Vs K) (q : lprob WV WU) (kw : cr_kw WV WU) fuel rhs cnt,
  c_wantvar kw = true -> cr_solve fuel q kw rhs cnt = Err TypeError.
Proof. intros K WV WU q kw fuel rhs cnt H. unfold cr_solve. rewrite H. reflexivity. Qed.

(** ** CRAIG-MR, any arithmetic. *)
Theorem C57_terminates : forall (K : Scal) (WV WU : Vs K) (q : lprob WV WU) (kw : cm_kw WV WU) fuel rhs cnt,
  let lim := match h_itnlim kw with None => Z.of_nat (Nat.min (lp_m q) (lp_n q)) | Some l => l end in
  (Z.to_nat lim < fuel)%nat -> cm_solve fuel q kw rhs cnt <> Err EFuel.
Proof. intros K WV WU q kw fuel rhs cnt lim. exact (cm_solve_nofuel q kw fuel rhs cnt). Qed.

Theorem C57_stopping : forall (K : Scal) (WV WU : Vs K) (q : lprob WV WU) (kw : cm_kw WV WU) fuel rhs cnt r cnt',
  let lim := match h_itnlim kw with None => Z.of_nat (Nat.min (lp_m q) (lp_n q)) | Some l => l end in
  cm_solve fuel q kw rhs cnt = Ok (r, cnt') ->
  (Z.of_nat (ho_itn r) <= Z.max 0 lim)%Z /\
  (cnt + ho_itn r <= cnt' <= cnt + 1 + 2 * ho_itn r)%nat /\ ho_nmv r = (2 * ho_itn r)%nat /\
  (ho_istop r = 0 /\ ho_itn r = 0%nat /\ lim <= 0 \/
   ho_istop r = 7 /\ 1 <= Z.of_nat (ho_itn r) /\ Z.of_nat (ho_itn r) = lim \/
   ho_istop r = 8 /\ (h_window kw < ho_itn r)%nat /\ Z.of_nat (ho_itn r) < lim)%Z /\
  ho_optimal r = (ho_istop r =? 8)%Z /\
  (ho_itn r = 0%nat -> ho_x r = vzeros (lp_m q)) /\
  length (ho_norms r) = (if h_sres kw then ho_itn r + 1 else 0)%nat /\
  length (ho_nresids r) = (if h_sres kw then ho_itn r else 0)%nat /\
  length (ho_iters r) = (if h_sit kw then ho_itn r + 1 else 0)%nat /\
  length (ho_dirs r) = (ho_itn r - h_window kw)%nat /\
  last (ho_iters r) (ho_x r) = ho_x r /\
  (h_window kw = 0%nat -> ho_itn r = 0%nat).
Proof. intros K WV WU q kw fuel rhs cnt r cnt' lim. exact (cm_flow_spec q kw fuel rhs cnt r cnt'). Qed.

Theorem C57_ignored : forall (K : Scal) (WV WU : Vs K) (q : lprob WV WU) fuel rhs cnt
    d d' at_ at_' bt bt' cl cl' M N il et sr si w ln,
  cm_solve fuel q (mkcmkw d at_ bt cl M N il et sr si w ln) rhs cnt =
  cm_solve fuel q (mkcmkw d' at_' bt' cl' M N il et sr si w ln) rhs cnt.
Proof. intros K WV WU q. exact (cm_indep q). Qed.

(** ** Exact arithmetic. *)
Section Exact.
Variables (dv : R -> R -> R) (sq : R -> R).
Hypothesis DV : dv_ok dv.
Hypothesis SQ : sq_ok sq.
Variables E1 E2 : IPS.
Notation KK := (exactK dv sq).
(** [nv1], [nv2] stand for [numpy.linalg.norm], which the methods of this file do not use. *)
Variables (nv1 : iv E1 -> R) (nv2 : iv E2 -> R).
Notation WV := (exactVn dv sq E1 nv1).
Notation WU := (exactVn dv sq E2 nv2).
Variables (q : lprob WV WU) (b : iv E2).
Let A : iv E1 -> iv E2 := lp_A q.
Let At : iv E2 -> iv E1 := lp_At q.
Hypothesis AD : adjoint A At.
Let AAt (z : iv E2) : iv E2 := A (At z).
Variables (fuel cnt : nat).

Section Cr.
Variable kw : cr_kw WV WU.
Hypothesis NM : c_M kw = None.
Hypothesis NN : c_N kw = None.
Hypothesis HW : (1 <= c_window kw)%nat.
Hypothesis NV : c_wantvar kw = false.
Let lim := if (c_itnlim kw =? 0)%Z then (3 * Z.of_nat (lp_n q))%Z else c_itnlim kw.
Hypothesis HF : (Z.to_nat lim < fuel)%nat.

(** A zero right-hand side, or no iteration: [UnboundLocalError]. *)
Theorem C55_zero : b = izero -> @cr_solve KK WV WU fuel q kw b cnt = Err UnboundLocalError.
Proof. intro Z. exact (cr_zero dv sq DV SQ E1 E2 nv1 nv2 q b kw NM NN fuel cnt Z NV). Qed.
Theorem C55_no_iteration : (lim <= 0)%Z -> @cr_solve KK WV WU fuel q kw b cnt = Err UnboundLocalError.
Proof. intro L. exact (cr_noiter dv sq DV SQ E1 E2 nv1 nv2 q b AD kw NM NN HW fuel cnt L NV ltac:(lia)). Qed.

(** In all other cases a result is returned. *)
Theorem C55_returns : b <> izero -> (1 <= lim)%Z ->
  exists r cnt', @cr_solve KK WV WU fuel q kw b cnt = Ok (r, cnt').
Proof.
  intros NZ L. assert (HB : 0 < inorm b).
  { destruct (Rle_lt_or_eq_dec 0 (inorm b) (inorm_pos b)) as [P|Z]; [exact P|]. exfalso. apply NZ, inorm_zero. auto. }
  destruct (cr_exact dv sq DV SQ E1 E2 nv1 nv2 q b AD kw NM NN HW fuel cnt HB NV L HF) as (r & c & ps & H & _). eauto.
Qed.

Lemma craig_run : forall r cnt', @cr_solve KK WV WU fuel q kw b cnt = Ok (r, cnt') ->
  exists ps, cr_spec dv sq E1 E2 nv1 nv2 q b kw r ps.
Proof.
  intros r cnt' H. destruct (C55_stopping KK WV WU q kw fuel b cnt r cnt' H) as (L & _). fold lim in L.
  assert (NZ : 0 < inorm b).
  { destruct (Rle_lt_or_eq_dec 0 (inorm b) (inorm_pos b)) as [P|Z]; [exact P|].
    rewrite C55_zero in H; [discriminate|]. apply inorm_zero. auto. }
  destruct (cr_exact dv sq DV SQ E1 E2 nv1 nv2 q b AD kw NM NN HW fuel cnt NZ NV ltac:(change (1 <= lim)%Z; lia) HF) as (r2 & c2 & ps & H2 & S).
  change (@cr_solve KK WV WU fuel q kw b cnt = Ok (r2, c2)) in H2. rewrite H in H2. injection H2 as <- <-. eauto.
Qed.

(** Every iterate satisfies [x = A'r]; once the Krylov space of [AA'] and [b] stops growing
    (breakdown), and in any case after as many iterations as the dimension of domain or range,
    [Ax + r = b] and hence [(A'A + I)x = A'b]. *)
Theorem C56_breakdown : forall r cnt', @cr_solve KK WV WU fuel q kw b cnt = Ok (r, cnt') ->
  exists ps : list (iv E1 * iv E2), length ps = S (go_itn r) /\
  last ps (izero, izero) = (go_x r : iv E1, go_r r : iv E2) /\
  (c_sit kw = true -> go_itp r = map fst ps /\ go_itd r = map snd ps) /\
  forall i x y, nth_error ps i = Some (x, y) ->
    x = At y /\
    ((forall z, kry AAt b (S (S i)) z -> kry AAt b (S i) z) \/
     i = go_itn r /\ (exists n, (dim_le E1 n \/ dim_le E2 n) /\ (n <= i)%nat) ->
     iadd (A x) y = b /\ iadd (At (A x)) x = At b).
Proof.
  intros r cnt' H. destruct (craig_run r cnt' H) as (ps & P). exists ps.
  split; [exact (cp_len _ _ _ _ _ _ _ _ _ _ _ P)|]. split; [exact (cp_last _ _ _ _ _ _ _ _ _ _ _ P)|].
  split; [exact (cp_sit _ _ _ _ _ _ _ _ _ _ _ P)|].
  intros i x y Hi. pose proof (cp_ps _ _ _ _ _ _ _ _ _ _ _ P i _ Hi) as G. pose proof G as (GX & _).
  cbn [fst snd] in GX. split; [exact GX|]. intro HB. apply (tt_normal dv sq E1 E2 nv1 nv2 q b AD); [exact GX|].
  destruct HB as [HB|(-> & n & D & L)].
  - exact (gal_inv dv sq E1 E2 nv1 nv2 q b AD (S i) (x, y) G HB).
  - pose proof (cp_dim _ _ _ _ _ _ _ _ _ _ _ P n D L) as T.
    assert (EL : last ps (izero, izero) = (x, y)).
    { apply last_nth_error. rewrite (cp_len _ _ _ _ _ _ _ _ _ _ _ P). cbn [Nat.sub]. rewrite Nat.sub_0_r. exact Hi. }
    rewrite (cp_last _ _ _ _ _ _ _ _ _ _ _ P) in EL. injection EL as _ <-. exact T.
Qed.

(** C69: the dual iterate is the Galerkin (conjugate gradient) iterate of [(AA' + I)y = b]: it
    minimises the quadratic over the Krylov space, with a residual orthogonal to the space. *)
Theorem C69_galerkin : forall r cnt', @cr_solve KK WV WU fuel q kw b cnt = Ok (r, cnt') ->
  exists ps : list (iv E1 * iv E2), length ps = S (go_itn r) /\
  last ps (izero, izero) = (go_x r : iv E1, go_r r : iv E2) /\
  forall i x y, nth_error ps i = Some (x, y) -> kry AAt b (S i) y /\
    (forall z, kry AAt b (S i) z -> ip z (isub b (iadd (A x) y)) = 0) /\
    (forall z, kry AAt b (S i) z ->
       ip (At y) (At y) + ip y y - 2 * ip b y <= ip (At z) (At z) + ip z z - 2 * ip b z).
Proof.
  intros r cnt' H. destruct (craig_run r cnt' H) as (ps & P). exists ps.
  split; [exact (cp_len _ _ _ _ _ _ _ _ _ _ _ P)|]. split; [exact (cp_last _ _ _ _ _ _ _ _ _ _ _ P)|].
  intros i x y Hi. destruct (cp_ps _ _ _ _ _ _ _ _ _ _ _ P i _ Hi) as (GX & GK & GO). cbn [fst snd] in *.
  split; [exact GK|]. split.
  - intros z Hz. rewrite GX. exact (GO z Hz).
  - intros z Hz. rewrite <- !(TT_ip A At AD). apply gal_min; [exact AD|]. apply GO.
    apply kry_sub; [exact (sym_AAt A At AD)|exact Hz|exact GK].
Qed.

(** The reported norms: [r2norm] and the residual history contain [||x||^2 + ||r||^2] (the root of it
    in the case of [r2norm]), which never decreases; the history of energy norms is short of that of
    the first iterate. *)
Theorem C69_norms : forall r cnt', @cr_solve KK WV WU fuel q kw b cnt = Ok (r, cnt') ->
  let nrg (p : iv E1 * iv E2) := ip (fst p) (fst p) + ip (snd p) (snd p) in
  (go_r2norm r : R) = sqrt (ip (go_x r : iv E1) (go_x r : iv E1) + ip (go_r r : iv E2) (go_r r : iv E2)) /\
  exists p0 ps, last (p0 :: ps) (izero, izero) = (go_x r : iv E1, go_r r : iv E2) /\
  (c_sit kw = true -> go_itp r = map fst (p0 :: ps) /\ go_itd r = map snd (p0 :: ps)) /\
  (c_sres kw = true -> (go_resids r : list R) = map nrg (p0 :: ps) /\
     (go_norms r : list R) = map (fun p => nrg p - nrg p0) (p0 :: ps)) /\
  (forall i p p', nth_error (p0 :: ps) i = Some p -> nth_error (p0 :: ps) (S i) = Some p' -> nrg p <= nrg p').
Proof.
  intros r cnt' H nrg. destruct (craig_run r cnt' H) as (ps & P).
  pose proof (cp_len _ _ _ _ _ _ _ _ _ _ _ P) as LN. pose proof (cp_last _ _ _ _ _ _ _ _ _ _ _ P) as LL.
  split; [rewrite (cp_r2 _ _ _ _ _ _ _ _ _ _ _ P), LL; reflexivity|].
  destruct ps as [|p0 ps]; [discriminate|]. exists p0, ps. split; [exact LL|].
  split; [exact (cp_sit _ _ _ _ _ _ _ _ _ _ _ P)|]. split; [exact (cp_sres _ _ _ _ _ _ _ _ _ _ _ P)|].
  intros i [x y] [x' y'] Hp Hp'. pose proof (cp_ps _ _ _ _ _ _ _ _ _ _ _ P _ _ Hp) as G.
  pose proof (cp_ps _ _ _ _ _ _ _ _ _ _ _ P _ _ Hp') as G'.
  pose proof (gal_nrg dv sq E1 E2 nv1 nv2 q b AD _ _ G) as N. pose proof (gal_nrg dv sq E1 E2 nv1 nv2 q b AD _ _ G') as N'.
  change (nrg (x, y) = ip b y) in N. change (nrg (x', y') = ip b y') in N'.
  destruct G as (GX & GK & _). destruct G' as (GX' & GK' & GO'). cbn [fst snd] in *.
  pose proof (sym_AAt A At AD) as SA.
  assert (M : ip y' (CraigMath.TT A At y') - 2 * ip b y' <= ip y (CraigMath.TT A At y) - 2 * ip b y).
  { apply gal_min; [exact AD|]. apply GO'. apply kry_sub; [exact SA|apply kry_S; [exact SA|exact GK]|exact GK']. }
  rewrite !(TT_ip A At AD) in M. fold At in GX, GX'. rewrite <- GX, <- GX' in M.
  unfold nrg in *. cbn [fst snd] in *. lra.
Qed.

(** Stop codes: 4 does not occur; 1 only after the first iteration; stopping at the default limit
    [3n] means the problem has been solved. *)
Theorem C69_stopping : forall r cnt', @cr_solve KK WV WU fuel q kw b cnt = Ok (r, cnt') ->
  (go_istop r = 1 \/ go_istop r = 7 \/ go_istop r = 8)%Z /\
  (go_istop r = 1%Z -> go_itn r = 1%nat) /\
  (go_istop r = 7%Z -> c_itnlim kw = 0%Z -> dim_le E1 (lp_n q) ->
     iadd (A (go_x r)) (go_r r) = b /\ iadd (At (A (go_x r))) (go_x r) = At b).
Proof.
  intros r cnt' H. destruct (craig_run r cnt' H) as (ps & P).
  destruct (C55_stopping KK WV WU q kw fuel b cnt r cnt' H) as (L & _ & _ & I & _). fold lim in L, I.
  pose proof (cp_no4 _ _ _ _ _ _ _ _ _ _ _ P) as N4.
  split; [lia|]. split; [exact (cp_one _ _ _ _ _ _ _ _ _ _ _ P)|].
  intros I7 L0 D. assert (LI : lim = (3 * Z.of_nat (lp_n q))%Z) by (unfold lim; rewrite L0; reflexivity).
  assert (LE : (lp_n q <= go_itn r)%nat) by lia.
  pose proof (cp_dim _ _ _ _ _ _ _ _ _ _ _ P (lp_n q) (or_introl D) LE) as T.
  apply (tt_normal dv sq E1 E2 nv1 nv2 q b AD); [|exact T].
  pose proof (cp_len _ _ _ _ _ _ _ _ _ _ _ P) as LN. pose proof (cp_last _ _ _ _ _ _ _ _ _ _ _ P) as LL.
  destruct (nth_error ps (go_itn r)) as [p|] eqn:NP; [|apply nth_error_None in NP; lia].
  destruct (cp_ps _ _ _ _ _ _ _ _ _ _ _ P _ _ NP) as (GX & _).
  assert (EL : last ps (izero, izero) = p).
  { apply last_nth_error. rewrite LN. cbn [Nat.sub]. rewrite Nat.sub_0_r. exact NP. }
  rewrite LL in EL. rewrite <- EL in GX. exact GX.
Qed.
End Cr.

(** CRAIG-MR. *)
Section Cm.
Variable kw : cm_kw WV WU.
Hypothesis NM : h_M kw = None.
Hypothesis NN : h_N kw = None.
Hypothesis HW : (1 <= h_window kw)%nat.
Let lim := match h_itnlim kw with None => Z.of_nat (Nat.min (lp_m q) (lp_n q)) | Some l => l end.
Hypothesis HF : (Z.to_nat lim < fuel)%nat.
Let res (x : iv E2) : iv E2 := isub b (iadd (A (At x)) x).

(** The iterates (vectors of the range) minimise the residual of [(AA' + I)x = b] over the Krylov
    spaces; the histories. *)
Theorem C70_minres : exists r cnt' (xs : list (iv E2)), @cm_solve KK WV WU fuel q kw b cnt = Ok (r, cnt') /\
  length xs = S (ho_itn r) /\ last xs izero = (ho_x r : iv E2) /\
  (h_sit kw = true -> ho_iters r = xs) /\
  (forall i x, nth_error xs i = Some x -> kry AAt b i x /\
     forall z, kry AAt b i z -> inorm (res x) <= inorm (res z)) /\
  (h_sres kw = true ->
     (ho_norms r : list R) = map (fun x => inorm (iadd (A (At x)) x) * inorm (iadd (A (At x)) x)) xs /\
     forall i x x', nth_error xs i = Some x -> nth_error xs (S i) = Some x' ->
       nth_error (ho_nresids r) i = Some (inorm (isub (res x) (res x')))).
Proof.
  destruct (cm_exact dv sq DV SQ E1 E2 nv1 nv2 q b AD kw NM NN HW fuel cnt HF) as (r & c & xs & H & P).
  exists r, c, xs. split; [exact H|]. destruct P as [P1 P2 P3 P4 P5 P6 P7 P8].
  split; [exact P1|]. split; [exact P2|]. split; [exact P4|]. split.
  - intros i x Hx. destruct (P3 i x Hx) as (K & O). split; [exact K|]. intros z Hz.
    apply (res_min A At AD b). apply O. apply kry_sub; [exact (sym_AAt A At AD)|exact Hz|exact K].
  - intro S. split.
    + rewrite (P5 S). apply map_ext. intro x. symmetry. apply inorm_sq.
    + intros i x x' Hx Hx'. rewrite (proj2 (P6 S) i x x' Hx Hx'). f_equal. f_equal.
      rewrite (TT_sub A At AD). unfold res, CraigMath.TT. fold A At. veq.
Qed.

(** The solution is reached after [m] iterations in a range of dimension [m], after [n+1] iterations
    in a domain of dimension [n], and as soon as the Krylov space stops growing. *)
Theorem C70_termination : forall r cnt', @cm_solve KK WV WU fuel q kw b cnt = Ok (r, cnt') ->
  ((exists m, dim_le E2 m /\ (m <= ho_itn r)%nat) \/ (exists n, dim_le E1 n /\ (n + 1 <= ho_itn r)%nat) \/
   ((1 <= ho_itn r)%nat /\ forall z, kry AAt b (S (ho_itn r)) z -> kry AAt b (ho_itn r) z)) ->
  iadd (A (At (ho_x r))) (ho_x r) = b.
Proof.
  intros r cnt' H HC.
  destruct (cm_exact dv sq DV SQ E1 E2 nv1 nv2 q b AD kw NM NN HW fuel cnt HF) as (r2 & c2 & xs & H2 & P).
  change (@cm_solve KK WV WU fuel q kw b cnt = Ok (r2, c2)) in H2. rewrite H in H2. injection H2 as <- <-.
  destruct P as [P1 P2 P3 P4 P5 P6 P7 P8].
  destruct HC as [(m & D & L)|[(n & D & L)|(L & HI)]].
  - exact (P8 m D L).
  - apply (P7 n D). lia.
  - destruct (nth_error xs (ho_itn r)) as [x|] eqn:NX; [|apply nth_error_None in NX; lia].
    assert (EL : last xs izero = x).
    { apply last_nth_error. rewrite P1. cbn [Nat.sub]. rewrite Nat.sub_0_r. exact NX. }
    rewrite P2 in EL. rewrite EL. pose proof (P3 _ _ NX) as M. destruct (ho_itn r) as [|k]; [lia|].
    exact (mres_inv dv sq E1 E2 nv1 nv2 q b AD k x M HI).
Qed.

(** Hence the default limit [min(m,n)] suffices if [m <= n]. *)
Theorem C70_default_limit : h_itnlim kw = None -> (lp_m q <= lp_n q)%nat -> dim_le E2 (lp_m q) ->
  forall r cnt', @cm_solve KK WV WU fuel q kw b cnt = Ok (r, cnt') ->
  ho_istop r = 7%Z -> iadd (A (At (ho_x r))) (ho_x r) = b.
Proof.
  intros L0 LE D r cnt' H I7. apply (C70_termination r cnt' H). left. exists (lp_m q). split; [exact D|].
  destruct (C57_stopping KK WV WU q kw fuel b cnt r cnt' H) as (_ & _ & _ & I & _). fold lim in I.
  assert (lim = Z.of_nat (lp_m q)). { unfold lim. rewrite L0. f_equal. apply Nat.min_l. exact LE. }
  lia.
Qed.
End Cm.
End Exact.

(** ** Refutations and examples. *)
Definition W1 : Vs K0 := exactV Rdiv sqrt (Rn 1).
Definition ckw (lim : Z) (WV WU : Vs K0) : cr_kw WV WU :=
  @mkcrkw K0 WV WU lim 0 None None 0 0 0 false 0 true true 5 (fun _ => 0 : sc K0).
Definition v3 (a b c : R) : iv (Rn 3) := (a, (b, (c, tt))).
Lemma v3_inj : forall a b c a' b' c', v3 a b c = v3 a' b' c' -> a = a' /\ b = b' /\ c = c'.
Proof. intros a b c a' b' c' H. injection H. auto. Qed.
(** diag(1,2,3). *)
Definition gA (z : iv (Rn 3)) : iv (Rn 3) := v3 (fst z) (2 * fst (snd z)) (3 * fst (snd (snd z))).
Definition gq : lprob W3 W3 := @mklprob K0 W3 W3 3 3 (gA : vc W3 -> vc W3) (gA : vc W3 -> vc W3).
Lemma gAD : adjoint gA gA.
Proof. intros [a [b [c []]]] [e [f [g []]]]. cbn. ring. Qed.
Lemma g_nz : v3 1 1 1 <> izero.
Proof. intro H. apply (f_equal (fun z : iv (Rn 3) => fst z)) in H. cbn in H. lra. Qed.

(** C56's "A x + r = b at every iteration" is false: diag(1,2,3), b = (1,1,1), one iteration. *)
Theorem C56_every_iteration_refuted : exists (q : lprob W3 W3) (kw : cr_kw W3 W3) (b : iv (Rn 3)) r cnt',
  adjoint (lp_A q : iv (Rn 3) -> iv (Rn 3)) (lp_At q : iv (Rn 3) -> iv (Rn 3)) /\
  c_M kw = None /\ c_N kw = None /\
  @cr_solve K0 W3 W3 2 q kw b 0 = Ok (r, cnt') /\ go_itn r = 1%nat /\
  iadd (lp_A q (go_x r) : iv (Rn 3)) (go_r r) <> b.
Proof.
  exists gq, (ckw 1 W3 W3), (v3 1 1 1).
  assert (HB : @izero (Rn 3) <> v3 1 1 1) by (intro Z; apply g_nz; auto).
  destruct (C55_returns Rdiv sqrt Rdiv_ok sqrt_ok (Rn 3) (Rn 3) inorm inorm gq (v3 1 1 1) gAD 2 0 (ckw 1 W3 W3) eq_refl eq_refl)
    as (r & c & H); try reflexivity; try (cbn; lia); [exact g_nz|].
  exists r, c. split; [exact gAD|]. split; [reflexivity|]. split; [reflexivity|]. split; [exact H|].
  destruct (C55_stopping K0 W3 W3 gq (ckw 1 W3 W3) 2 (v3 1 1 1) 0 r c H) as (L & _). cbn in L.
  assert (I1 : go_itn r = 1%nat) by lia. split; [exact I1|].
  destruct (C69_galerkin Rdiv sqrt Rdiv_ok sqrt_ok (Rn 3) (Rn 3) inorm inorm gq (v3 1 1 1) gAD 2 0 (ckw 1 W3 W3) eq_refl eq_refl
    ltac:(cbn; lia) eq_refl ltac:(cbn; lia) r c H) as (ps & LP & EP & G).
  destruct (C56_breakdown Rdiv sqrt Rdiv_ok sqrt_ok (Rn 3) (Rn 3) inorm inorm gq (v3 1 1 1) gAD 2 0 (ckw 1 W3 W3) eq_refl eq_refl
    ltac:(cbn; lia) eq_refl ltac:(cbn; lia) r c H) as (ps2 & LP2 & EP2 & _ & G2).
  intro E.
  destruct (nth_error ps (go_itn r)) as [[x y]|] eqn:NP; [|apply nth_error_None in NP; lia].
  destruct (nth_error ps2 (go_itn r)) as [[x2 y2]|] eqn:NP2; [|apply nth_error_None in NP2; lia].
  assert (EL : last ps (izero, izero) = (x, y)).
  { apply last_nth_error. rewrite LP. cbn [Nat.sub]. rewrite Nat.sub_0_r. exact NP. }
  assert (EL2 : last ps2 (izero, izero) = (x2, y2)).
  { apply last_nth_error. rewrite LP2. cbn [Nat.sub]. rewrite Nat.sub_0_r. exact NP2. }
  rewrite EP in EL. rewrite EP2 in EL2. injection EL as Ex Ey. injection EL2 as Ex2 Ey2.
  destruct (G _ _ _ NP) as (K & _). destruct (G2 _ _ _ NP2) as (X2 & _).
  rewrite I1 in K. destruct K as (a & z & (a' & z' & Hz' & Hz) & Hy). cbn [kry] in Hz'.
  assert (XX : (go_x r : iv (Rn 3)) = gA (go_r r)) by (rewrite Ex2, Ey2; exact X2).
  assert (YY : (go_r r : iv (Rn 3)) = v3 (a + a') (a + 4 * a') (a + 9 * a')).
  { rewrite Ey, Hy, Hz, Hz'. unfold v3. cbn. repeat (apply f_equal2; [ring|]). reflexivity. }
  rewrite XX, YY in E. cbn in E. apply v3_inj in E. lra.
Qed.

(** The hypotheses of the theorems about exact arithmetic hold of this system. *)
Example ex_C56 : dv_ok Rdiv /\ sq_ok sqrt /\ adjoint gA gA /\ v3 1 1 1 <> izero /\
  c_M (ckw 0 W3 W3) = None /\ c_N (ckw 0 W3 W3) = None /\ (1 <= c_window (ckw 0 W3 W3))%nat /\
  (Z.to_nat (cr_lim gq (ckw 0 W3 W3)) < 10)%nat /\ dim_le (Rn 3) (lp_n gq) /\
  exists r cnt', @cr_solve K0 W3 W3 10 gq (ckw 0 W3 W3) (v3 1 1 1) 0 = Ok (r, cnt').
Proof.
  split; [exact Rdiv_ok|]. split; [exact sqrt_ok|]. split; [exact gAD|]. split; [exact g_nz|].
  split; [reflexivity|]. split; [reflexivity|]. split; [cbn; lia|]. split; [cbn; lia|]. split; [exact (Rn_dim 3)|].
  apply (C55_returns Rdiv sqrt Rdiv_ok sqrt_ok (Rn 3) (Rn 3) inorm inorm gq (v3 1 1 1) gAD 10 0 (ckw 0 W3 W3) eq_refl eq_refl);
    try reflexivity; try (cbn; lia). exact g_nz.
Qed.
(** With tolerances 0 that run stops at the default limit 9, so it returns the solution. *)
Example ex_C69_solved : forall r cnt', @cr_solve K0 W3 W3 10 gq (ckw 0 W3 W3) (v3 1 1 1) 0 = Ok (r, cnt') ->
  go_istop r = 7%Z -> iadd (gA (go_x r)) (go_r r) = v3 1 1 1.
Proof.
  intros r cnt' H I7.
  apply (C69_stopping Rdiv sqrt Rdiv_ok sqrt_ok (Rn 3) (Rn 3) inorm inorm gq (v3 1 1 1) gAD 10 0 (ckw 0 W3 W3) eq_refl eq_refl
    ltac:(cbn; lia) eq_refl ltac:(cbn; lia) r cnt' H); [exact I7|reflexivity|exact (Rn_dim 3)].
Qed.

(** The default limit of CRAIG-MR, [min(m,n)], may be one iteration short when [n < m]:
    A = [1; 0], b = (1,1). *)
Definition hkw (lim : option Z) (WV WU : Vs K0) : cm_kw WV WU :=
  @mkcmkw K0 WV WU 0 0 0 0 None None lim 0 true true 5 (fun _ => 0 : sc K0).
Definition hA (z : iv (Rn 1)) : iv (Rn 2) := v2 (fst z) 0.
Definition hAt (z : iv (Rn 2)) : iv (Rn 1) := (fst z, tt).
Definition hq : lprob W1 W2 := @mklprob K0 W1 W2 2 1 (hA : vc W1 -> vc W2) (hAt : vc W2 -> vc W1).
Lemma hAD : adjoint hA hAt.
Proof. intros [a [b []]] [c []]. cbn. ring. Qed.
Theorem C70_default_limit_refuted : exists (q : lprob W1 W2) (kw : cm_kw W1 W2) (b : iv (Rn 2)) r cnt',
  adjoint (lp_A q : iv (Rn 1) -> iv (Rn 2)) (lp_At q : iv (Rn 2) -> iv (Rn 1)) /\
  dim_le (Rn 1) (lp_n q) /\ dim_le (Rn 2) (lp_m q) /\
  h_M kw = None /\ h_N kw = None /\ h_itnlim kw = None /\
  @cm_solve K0 W1 W2 2 q kw b 0 = Ok (r, cnt') /\ ho_istop r = 7%Z /\
  iadd (lp_A q (lp_At q (ho_x r)) : iv (Rn 2)) (ho_x r) <> b.
Proof.
  exists hq, (hkw None W1 W2), (v2 1 1).
  destruct (C70_minres Rdiv sqrt Rdiv_ok sqrt_ok (Rn 1) (Rn 2) inorm inorm hq (v2 1 1) hAD 2 0 (hkw None W1 W2) eq_refl eq_refl
    ltac:(cbn; lia) ltac:(cbn; lia)) as (r & c & xs & H & LX & EX & _ & KX & _).
  exists r, c. split; [exact hAD|]. split; [exact (Rn_dim 1)|]. split; [exact (Rn_dim 2)|].
  split; [reflexivity|]. split; [reflexivity|]. split; [reflexivity|]. split; [exact H|].
  destruct (C57_stopping K0 W1 W2 hq (hkw None W1 W2) 2 (v2 1 1) 0 r c H) as (_ & _ & _ & I & _). cbn in I.
  assert (I7 : ho_istop r = 7%Z /\ ho_itn r = 1%nat) by lia. destruct I7 as [I7 I1]. split; [exact I7|].
  intro E.
  destruct (nth_error xs (ho_itn r)) as [x|] eqn:NX; [|apply nth_error_None in NX; lia].
  assert (EL : last xs izero = x).
  { apply last_nth_error. rewrite LX. cbn [Nat.sub]. rewrite Nat.sub_0_r. exact NX. }
  rewrite EX in EL. destruct (KX _ _ NX) as (K & _). rewrite I1 in K. destruct K as (a & z & Hz & Hx). cbn [kry] in Hz.
  assert (XX : (ho_x r : iv (Rn 2)) = v2 a a).
  { rewrite EL, Hx, Hz. unfold v2. cbn. repeat (apply f_equal2; [ring|]). reflexivity. }
  rewrite XX in E. cbn in E. injection E as Q1 Q2. lra.
Qed.
(** The same system with one more iteration is solved; the hypotheses of C70_termination. *)
Example ex_C70 : dim_le (Rn 1) 1 /\
  exists r cnt', @cm_solve K0 W1 W2 3 hq (hkw (Some 2%Z) W1 W2) (v2 1 1) 0 = Ok (r, cnt') /\ (1 + 1 <= ho_itn r)%nat /\
  iadd (hA (hAt (ho_x r))) (ho_x r) = v2 1 1.
Proof.
  split; [exact (Rn_dim 1)|].
  destruct (C70_minres Rdiv sqrt Rdiv_ok sqrt_ok (Rn 1) (Rn 2) inorm inorm hq (v2 1 1) hAD 3 0 (hkw (Some 2%Z) W1 W2) eq_refl eq_refl
    ltac:(cbn; lia) ltac:(cbn; lia)) as (r & c & xs & H & _).
  exists r, c. split; [exact H|].
  destruct (C57_stopping K0 W1 W2 hq (hkw (Some 2%Z) W1 W2) 3 (v2 1 1) 0 r c H) as (_ & _ & _ & I & _). cbn in I.
  assert (L : (1 + 1 <= ho_itn r)%nat) by lia. split; [exact L|].
  apply (C70_termination Rdiv sqrt Rdiv_ok sqrt_ok (Rn 1) (Rn 2) inorm inorm hq (v2 1 1) hAD 3 0 (hkw (Some 2%Z) W1 W2) eq_refl eq_refl
    ltac:(cbn; lia) ltac:(cbn; lia) r c H).
  right; left. exists 1%nat. split; [exact (Rn_dim 1)|exact L].
Qed.
(** A zero right-hand side and a negative limit. *)
Example ex_C55_zero : @cr_solve K0 W3 W3 10 gq (ckw 0 W3 W3) (v3 0 0 0) 0 = Err UnboundLocalError.
Proof.
  apply (C55_zero Rdiv sqrt Rdiv_ok sqrt_ok (Rn 3) (Rn 3) inorm inorm gq (v3 0 0 0) 10 0 (ckw 0 W3 W3)); reflexivity.
Qed.
Example ex_C55_no_iteration : @cr_solve K0 W3 W3 10 gq (ckw (-1) W3 W3) (v3 1 1 1) 0 = Err UnboundLocalError.
Proof.
  apply (C55_no_iteration Rdiv sqrt Rdiv_ok sqrt_ok (Rn 3) (Rn 3) inorm inorm gq (v3 1 1 1) gAD 10 0 (ckw (-1) W3 W3));
    try reflexivity; cbn; lia.
Qed.

Print Assumptions C55_terminates.
Print Assumptions C55_stopping.
Print Assumptions C55_ignored.
Print Assumptions C55_wantvar.
Print Assumptions C55_zero.
Print Assumptions C55_no_iteration.
Print Assumptions C55_returns.
Print Assumptions C56_breakdown.
Print Assumptions C56_every_iteration_refuted.
Print Assumptions C57_terminates.
Print Assumptions C57_stopping.
Print Assumptions C57_ignored.
Print Assumptions C69_galerkin.
Print Assumptions C69_norms.
Print Assumptions C69_stopping.
Print Assumptions C70_minres.
Print Assumptions C70_termination.
Print Assumptions C70_default_limit.
Print Assumptions C70_default_limit_refuted.
