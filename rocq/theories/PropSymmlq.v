(** Properties C79-C81: the whole of [Symmlq.solve], for an object that supplies [matvec]. *)
From Coq Require Import List Arith Lia Bool QArith ZArith Reals Lra Qreals String.
From Verif Require Import Base Num ToolsModel ToolsProof CgModel CgProof PropCg MinresProof PropMinres
  Symmlq SymmlqModel SymmlqProof.
Import ListNotations.
Local Open Scope R_scope.

(** ** C79: outcomes and counters, in any arithmetic. *)
(** Without the attribute the two models of [solve] agree. *)
Theorem C79_missing : forall (K : Scal) (W : Vs K) X (rest : vc W -> sc K -> bool -> res X) fuel (q : kprob W) it0 (b : vc W) kw cnt,
  exists e, sy_solve fuel None q it0 b kw cnt = Err e /\
    sl_solve symmlq_attrs rest q b (y_check kw) = Err e.
Proof.
  intros K W X rest fuel q it0 b kw cnt. pose proof (sl_solve_spec X rest q b (y_check kw)) as H. cbv zeta in H.
  unfold sy_solve, sy_prec.
  set (y := match q_P q with Some P => P b | None => b end) in *.
  destruct (vlen y =? 0)%nat; [eexists; split; [reflexivity|exact H]|].
  set (S1 := match q_P q with Some P => _ | None => (0%Z, false) end). clearbody S1. destruct S1 as [i d].
  unfold sgtb. destruct (sltb s0 (vdot b y)); destruct (sltb (vdot b y) s0);
    eexists; (split; [reflexivity|exact H]).
Qed.

(** With the attribute they agree as well: the one of Symmlq.v followed by the first Lanczos step,
    the loop and the closing statements is the other. *)
Theorem C79_present : forall (K : Scal) (W : Vs K) fuel mv (q : kprob W) it0 (b : vc W) kw cnt,
  (forall x : sc K, sltb s0 x = true -> sltb x s0 = false /\ seqb x s0 = false) ->
  sy_solve fuel (Some mv) q it0 b kw cnt =
  sl_solve ("matvec"%string :: symmlq_attrs) (fun _ beta1 done =>
    let '(st, done) := sy_first q kw mv b (sy_prec q b) beta1 (if done then 7%Z else 0%Z) done
                         (if y_sit kw then it0 ++ [vzeros (vlen b)] else it0) cnt in
    match (if done then Ok st else while fuel (sy_cond (sy_lim kw b)) (sy_body q kw beta1 (sy_lim kw b)) st) with
    | Ok st => sy_final q kw b beta1 st
    | Err e => Err e
    end) q b (y_check kw).
Proof.
  intros K W fuel mv q it0 b kw cnt TR. unfold sy_solve, sl_solve, sy_prec. unfold sgtb.
  set (y := match q_P q with Some P => P b | None => b end).
  destruct (vlen y =? 0)%nat; [reflexivity|].
  destruct (sltb s0 (vdot b y)) eqn:B; [|destruct (q_P q) as [P|]; [destruct (y_check kw && _)|]; destruct (sltb (vdot b y) s0); reflexivity].
  destruct (TR _ B) as [B1 B2]. rewrite B1, B2, !orb_false_r. cbn [getattr existsb String.eqb rbind].
  assert (EY : y = sy_prec q b) by reflexivity. rewrite EY. clear EY.
  destruct (q_P q) as [P|] eqn:EP; [|reflexivity].
  unfold sy_asym, sgtb. destruct (y_check kw); cbn [andb]; [|reflexivity].
  match goal with |- context [if ?c then (7%Z, true) else (0%Z, false)] => destruct c end; reflexivity.
Qed.

Example ex_C79_present : forall x : sc (exactK Rdiv sqrt), sltb s0 x = true -> sltb x s0 = false /\ seqb x s0 = false.
Proof.
  intros x H. apply Rltb_true in H. cbn [s0 exactK] in H. split; [apply Rltb_false; apply Rlt_le; exact H|].
  apply Reqb_false. apply not_eq_sym, Rlt_not_eq. exact H.
Qed.

(** With it, [solve] returns or raises IndexError (empty right-hand side) or UnboundLocalError. *)
Theorem C79_outcome : forall (K : Scal) (W : Vs K) (q : kprob W) kw fuel (b : vc W) it0 cnt,
  (sy_lim kw b < fuel)%nat ->
  let r := sy_solve fuel (Some (opmul (q_A q))) q it0 b kw cnt in
  (exists o cnt', r = Ok (o, cnt')) \/
  r = Err IndexError /\ vlen (sy_prec q b) = 0%nat \/
  r = Err UnboundLocalError /\ (1 <= vlen (sy_prec q b))%nat.
Proof.
  intros K W q kw fuel b it0 cnt F r. pose proof (sy_solve_flow q kw fuel b it0 cnt F) as H. fold r in H.
  destruct r as [[o c]|e]; [left; eauto|]. destruct e; cbn in H; try contradiction; auto.
Qed.

(** Two products at least must be allowed, and the right-hand side must not be seen to be zero. *)
Theorem C79_unbound : forall (K : Scal) (W : Vs K) (q : kprob W) kw fuel (b : vc W) it0 cnt,
  (sy_lim kw b < fuel)%nat -> (1 <= vlen (sy_prec q b))%nat ->
  (sy_lim kw b <= 1)%nat \/ sltb s0 (vdot b (sy_prec q b)) = false ->
  sy_solve fuel (Some (opmul (q_A q))) q it0 b kw cnt = Err UnboundLocalError.
Proof.
  intros K W q kw fuel b it0 cnt F L D. pose proof (sy_solve_flow q kw fuel b it0 cnt F) as H.
  destruct (sy_solve fuel _ q it0 b kw cnt) as [[o c]|e].
  - exfalso. destruct H as (_ & P & N & _). destruct D as [D|D]; [lia|congruence].
  - destruct e; cbn in H; try contradiction; [lia|reflexivity].
Qed.

Theorem C79_counters : forall (K : Scal) (W : Vs K) (q : kprob W) kw fuel (b : vc W) it0 cnt o cnt',
  (sy_lim kw b < fuel)%nat ->
  sy_solve fuel (Some (opmul (q_A q))) q it0 b kw cnt = Ok (o, cnt') ->
  (2 <= sy_lim kw b)%nat /\ (1 <= u_itn o)%nat /\ (u_nmv o <= sy_lim kw b + 1)%nat /\
  cnt' = (cnt + u_nmv o + (if y_check kw then 1 else 0))%nat /\
  u_nmv o = (u_itn o + (if (u_istop o =? 0)%Z || (u_istop o =? 6)%Z then 2 else 1))%nat /\
  In (u_istop o) [-1; 0; 1; 2; 3; 4; 6]%Z /\
  (u_istop o = 0%Z -> u_nmv o = (sy_lim kw b + 1)%nat) /\
  List.length (u_iters o) = (List.length it0 +
    (if y_sit kw then u_itn o + (if (u_istop o =? 0)%Z then 1 else 0) else 0))%nat /\
  u_xnorm o = vnorm (u_x o) /\
  u_rnorm o = vnorm (vsub b (sy_shift kw (q_A q (u_x o)) (u_x o))).
Proof.
  intros K W q kw fuel b it0 cnt o cnt' F E. pose proof (sy_solve_flow q kw fuel b it0 cnt F) as H. rewrite E in H.
  destruct H as (_ & _ & L & I & C & X & R & H). unfold chk, stored in *.
  split; [exact L|]. split; [exact I|].
  destruct H as [(S1 & N & M & LI)|[(S1 & N & M & LI)|(S1 & N & M & LI)]].
  - assert (Z0 : (u_istop o =? 0)%Z = false) by (apply Z.eqb_neq; cbn in S1; lia).
    assert (Z6 : (u_istop o =? 6)%Z = false) by (apply Z.eqb_neq; cbn in S1; lia).
    rewrite Z0, Z6. cbn [orb]. apply Z.eqb_neq in Z0.
    split; [lia|]. split; [exact C|]. split; [exact N|]. split; [cbn in *; tauto|]. split; [intro; contradiction|].
    split; [rewrite LI; destruct (y_sit kw); lia|]. split; assumption.
  - rewrite S1. cbn [Z.eqb orb Pos.eqb]. split; [lia|]. split; [exact C|]. split; [exact N|]. split; [cbn; tauto|]. split; [discriminate|].
    split; [rewrite LI; destruct (y_sit kw); lia|]. split; assumption.
  - rewrite S1. cbn [Z.eqb orb]. split; [lia|]. split; [exact C|]. split; [exact N|]. split; [cbn; tauto|]. split; [intros _; exact M|].
    split; [rewrite LI; destruct (y_sit kw); lia|]. split; assumption.
Qed.

(** ** C80: exact arithmetic, no preconditioner. *)
Section Exact.
Variables (dv : R -> R -> R) (sq : R -> R).
Hypothesis DV : dv_ok dv.
Hypothesis SQ : sq_ok sq.
Variable E : IPS.
Local Notation KK := (exactK dv sq).
Local Notation WW := (exactV dv sq E).
Variables (q : kprob WW) (kw : @sy_kw KK) (b : iv E) (fuel : nat) (it0 : list (iv E)) (cnt : nat).
Hypothesis NP : q_P q = None.
Hypothesis SA : selfadj (q_A q : iv E -> iv E).
Hypothesis CB : y_check kw = true -> 0 <= q_cbrt q (@machine_eps KK).
Hypothesis LB : (1 <= ilen b)%nat.
Hypothesis BN : b <> izero.
Hypothesis LF : (@sy_lim KK WW kw b < fuel)%nat.
Hypothesis L2 : (2 <= @sy_lim KK WW kw b)%nat.
Local Notation lim := (@sy_lim KK WW kw b).
Local Notation eps := (@machine_eps KK).
Let sh := match y_shift kw with Some s => s | None => 0 end.
Let At (z : iv E) : iv E := isub (q_A q z) (iscale sh z).
Local Notation res z := (inorm (isub b (At z))).

Lemma sy_solve_exact : exists o cnt' st,
  @sy_solve KK WW fuel (Some (opmul (q_A q))) q it0 b kw cnt = Ok (o, cnt') /\
  sy_left dv sq E q kw b (inorm b) it0 lim st /\
  sy_flow kw lim cnt (List.length it0 + stored kw 1) st /\ sy_cond lim st = false /\
  @sy_final KK WW q kw b (inorm b) st = Ok (o, cnt').
Proof.
  assert (PB : 0 < ip b b) by (apply ip_nz; exact BN).
  assert (B1 : 0 < inorm b) by (apply sqrt_lt_R0; exact PB).
  pose proof (sy_solve_flow q kw fuel b it0 cnt LF) as HF.
  destruct (sy_init_live dv sq DV SQ E q kw b NP SA (inorm b) B1 it0 eq_refl CB cnt) as (st & S1 & L1).
  assert (ES : @sy_solve KK WW fuel (Some (opmul (q_A q))) q it0 b kw cnt =
    match while fuel (sy_cond lim) (@sy_body KK WW q kw (inorm b) lim) st with
    | Ok st => @sy_final KK WW q kw b (inorm b) st
    | Err e => Err e
    end).
  { unfold sy_solve, sy_prec. rewrite NP.
    change (@vlen KK WW b) with (ilen b). destruct (ilen b =? 0)%nat eqn:Z; [apply Nat.eqb_eq in Z; lia|].
    assert (N1 : @sltb KK (@vdot KK WW b b) (@s0 KK) = false) by (apply Rltb_false, ip_pos).
    assert (N2 : @seqb KK (@vdot KK WW b b) (@s0 KK) = false) by (apply Reqb_false; change (ip b b <> 0); lra).
    assert (N3 : @sgtb KK (@vdot KK WW b b) (@s0 KK) = true) by (apply Rltb_true; exact PB).
    assert (N4 : @ssqrt KK (@vdot KK WW b b) = inorm b) by (apply SQ; change (0 <= ip b b); lra).
    rewrite N1, N2, N3, N4. cbn [orb].
    match goal with |- context [sy_first ?a ?b ?c ?d ?e ?f ?g ?h ?i ?j] =>
      assert (S2 : sy_first a b c d e f g h i j = (st, false)) by exact S1; rewrite S2 end.
    reflexivity. }
  assert (F1 : sy_flow kw lim cnt (List.length it0 + stored kw 1) st /\ y_nmv st = 1%nat /\ y_itn st = 0%nat).
  { assert (LL : (List.length it0 + stored kw 1)%nat = List.length (if y_sit kw then it0 ++ [(izero : iv E)] else it0)).
    { unfold stored. destruct (y_sit kw); [rewrite app_length; reflexivity|lia]. }
    rewrite LL. apply (sy_first_flow q kw _ _ _ _ lim _ _ S1). }
  destruct F1 as (F1 & N1 & I1).
  rewrite ES in HF |- *.
  destruct (while fuel (sy_cond lim) (@sy_body KK WW q kw (inorm b) lim) st) as [st'|e] eqn:EW.
  - destruct (sy_loop dv sq DV SQ E q kw b NP SA (inorm b) B1 it0 lim cnt st st' L1 I1 F1 fuel EW) as (H1 & H2 & H3).
    destruct (@sy_final KK WW q kw b (inorm b) st') as [[o c]|e] eqn:EFN.
    + exists o, c, st'. split; [reflexivity|]. split; [exact H1|]. split; [exact H2|]. split; [exact H3|exact EFN].
    + exfalso. unfold sy_final in EFN. destruct (y_lqdiag st') as [[l d]|] eqn:EL; [unfold opmul in EFN; discriminate|].
      destruct H2 as [_ [H2|[H2|H2]]].
      * destruct H2 as (B & H5 & H6 & _ & H4 & _). apply H4 in EL. unfold sy_cond in H3. rewrite B in H3. cbn in H3.
        apply Nat.ltb_ge in H3. lia.
      * destruct H2 as (_ & _ & _ & _ & _ & H2 & _). congruence.
      * destruct H2 as (_ & _ & _ & _ & _ & H2 & _). congruence.
  - exfalso. destruct (sy_while_ok q kw (inorm b) lim cnt (List.length it0 + stored kw 1) fuel st F1) as (st' & EW' & _); [lia|].
    rewrite EW in EW'. discriminate.
Qed.

(** [solve] returns.  If a stopping test ended the loop in iteration [k], there is a point [xl] of
    [A K_(k-1)] with residual orthogonal to [K_(k-1)] (the LQ point), and whenever the Lanczos-CG
    point [xc] of [K_k] exists the result is the one of the two with the smaller residual, with the
    guarantee the stopping code announces. *)
Theorem C80_symmlq : exists o cnt',
  @sy_solve KK WW fuel (Some (opmul (q_A q))) q it0 b kw cnt = Ok (o, cnt') /\
  u_rnorm o = res (u_x o) /\ u_xnorm o = inorm (u_x o : iv E) /\
  (u_istop o = 0%Z /\ u_nmv o = (lim + 1)%nat \/
   In (u_istop o) [-1; 1; 2; 3; 4]%Z /\ (u_nmv o <= lim)%nat /\ u_nmv o = (u_itn o + 1)%nat /\
   exists xl : iv E,
     (exists z, kry At b (u_itn o - 1) z /\ xl = At z) /\
     (forall z, kry At b (u_itn o - 1) z -> ip (isub b (At xl)) z = 0) /\
     (forall xc, kry At b (u_itn o) xc -> (forall z, kry At b (u_itn o) z -> ip (isub b (At xc)) z = 0) ->
        ((u_x o : iv E) = xl \/ (u_x o : iv E) = xc) /\ u_rnorm o <= res xl /\ u_rnorm o <= res xc /\
        (u_istop o = 1%Z -> u_rnorm o <= y_rtol kw * u_anorm o * inorm xl) /\
        (u_istop o = 2%Z -> u_rnorm o <= eps * u_anorm o * inorm xl)) /\
     (u_istop o = 3%Z -> inorm b <= eps * u_anorm o * inorm xl) /\
     ((forall z, kry At b (u_itn o) z -> kry At b (u_itn o) (At z)) ->
      (forall z, kry At b (u_itn o) z -> At z = izero -> z = izero) -> At (u_x o) = b)).
Proof.
  assert (PB : 0 < ip b b) by (apply ip_nz; exact BN).
  assert (B1 : 0 < inorm b) by (apply sqrt_lt_R0; exact PB).
  destruct sy_solve_exact as (o & c & st & ES & HL & HF & HC & EF).
  exists o, c. split; [exact ES|].
  destruct (C79_counters KK WW q kw fuel b it0 cnt o c LF ES) as (_ & _ & _ & _ & _ & _ & _ & _ & X & R).
  assert (R' : u_rnorm o = res (u_x o)).
  { rewrite R. rewrite (sy_shift_eq dv sq E q kw (u_x o)). reflexivity. }
  split; [exact R'|]. split; [exact X|].
  unfold sy_final in EF. destruct (y_lqdiag st) as [[lqn dg]|] eqn:ELQ; [|discriminate].
  unfold opmul in EF. cbv beta iota zeta in EF.
  assert (O : u_istop o = y_istop st /\ u_nmv o = (y_nmv st + 1)%nat /\ u_itn o = y_itn st /\ u_anorm o = y_anorm st /\
    u_x o = @sy_point KK WW q b (inorm b) lqn dg st) by (injection EF as <- _; repeat split; reflexivity).
  destruct O as (O1 & O2 & O3 & O4 & O5).
  destruct HL as [[BF HL]|(s0 & L0 & RN & -> & BT)].
  - left. destruct HF as [_ [HF|[HF|HF]]]; [|destruct HF; congruence|destruct HF; congruence].
    destruct HF as (_ & F1 & F2 & F3 & F4 & _). unfold sy_cond in HC. rewrite BF in HC. cbn in HC. apply Nat.ltb_ge in HC.
    split; [|lia]. rewrite O1. destruct F3 as [F3|[_ F3]]; [exact F3|]. apply F4 in F3. congruence.
  - right. destruct HF as [_ [HF|[HF|HF]]]; [destruct HF; congruence| |].
    + destruct HF as (_ & F1 & F2 & F3 & F4 & _). rewrite O1, O2, O3.
      split; [exact F4|]. split; [lia|]. split; [lia|].
      destruct (sy_met_exact dv sq DV SQ E q kw b NP SA (inorm b) B1 it0 eq_refl lim s0 lqn dg (u_x o) L0 RN ELQ O5)
        as (xl & [M1 M2] & M3 & M4 & M5 & M6).
      exists xl. split; [exact M1|]. split; [exact M2|]. rewrite R', O4. split; [|split].
      * intros xc K1 K2. apply (M3 xc). split; assumption.
      * exact M4.
      * intros D INJ. apply M5; [left; exact D|exact INJ].
    + exfalso. destruct HF as (_ & F1 & F2 & F3 & F4 & _).
      destruct RN as (_ & N1 & _ & [I0|[I0 _]] & _).
      * cbn [sy_top y_nmv y_itn] in F2. lia.
      * cbn [sy_top y_nmv y_itn] in F2. lia.
Qed.

(** Finite termination: in dimension [n], with at least [n+1] products allowed and a non-singular
    operator, a test ends the loop in iteration [k <= n], and if [k = n] the result is exact. *)
Theorem C80_finite : forall n, dim_le E n -> (n < lim)%nat -> (forall z, At z = izero -> z = izero) ->
  exists o cnt', @sy_solve KK WW fuel (Some (opmul (q_A q))) q it0 b kw cnt = Ok (o, cnt') /\
    In (u_istop o) [-1; 1; 2; 3; 4]%Z /\ (u_itn o <= n)%nat /\ u_nmv o = (u_itn o + 1)%nat /\
    (u_itn o = n -> At (u_x o) = b).
Proof.
  intros n D HN INJ. 
  assert (PB : 0 < ip b b) by (apply ip_nz; exact BN).
  assert (B1 : 0 < inorm b) by (apply sqrt_lt_R0; exact PB).
  destruct sy_solve_exact as (o & c & st & ES & HL & HF & HC & EF).
  exists o, c. split; [exact ES|].
  unfold sy_final in EF. destruct (y_lqdiag st) as [[lqn dg]|] eqn:ELQ; [|discriminate].
  unfold opmul in EF. cbv beta iota zeta in EF.
  assert (O : u_istop o = y_istop st /\ u_nmv o = (y_nmv st + 1)%nat /\ u_itn o = y_itn st /\
    u_x o = @sy_point KK WW q b (inorm b) lqn dg st) by (injection EF as <- _; repeat split; reflexivity).
  destruct O as (O1 & O2 & O3 & O5).
  destruct HL as [[BF HL]|(s0 & L0 & RN & -> & BT)].
  - exfalso. destruct HF as [_ [HF|[HF|HF]]]; [|destruct HF; congruence|destruct HF; congruence].
    destruct HF as (_ & F1 & _). unfold sy_cond in HC. rewrite BF in HC. cbn in HC. apply Nat.ltb_ge in HC.
    destruct (sl_ex _ _ _ _ _ _ _ _ _ _ HL) as (V & u & c1 & e & I & _).
    assert (LE : (List.length (u :: V) <= n)%nat).
    { apply D.
      - constructor; [|apply (si_Vo _ _ _ _ _ _ _ _ _ _ _ _ _ _ _ _ I)].
        apply Forall_forall. intros v Hv. rewrite ip_sym. apply (si_uV _ _ _ _ _ _ _ _ _ _ _ _ _ _ _ _ I v Hv).
      - constructor; [apply unit_nz, (si_uu _ _ _ _ _ _ _ _ _ _ _ _ _ _ _ _ I)|].
        apply Forall_forall. intros v Hv. apply unit_nz, (si_V1 _ _ _ _ _ _ _ _ _ _ _ _ _ _ _ _ I v Hv). }
    cbn in LE. rewrite (si_len _ _ _ _ _ _ _ _ _ _ _ _ _ _ _ _ I) in LE. lia.
  - destruct HF as [_ [HF|[HF|HF]]]; [destruct HF; congruence| |].
    + destruct HF as (_ & F1 & F2 & F3 & F4 & _). rewrite O1, O2, O3.
      destruct (sy_met_exact dv sq DV SQ E q kw b NP SA (inorm b) B1 it0 eq_refl lim s0 lqn dg (u_x o) L0 RN ELQ O5)
        as (xl & [M1 M2] & M3 & M4 & M5 & M6).
      split; [exact F4|]. split; [apply M6; exact D|]. split; [lia|].
      intro EN. apply M5; [right; rewrite EN; exact D|]. intros z _. apply INJ.
    + exfalso. destruct HF as (_ & F1 & F2 & F3 & F4 & _).
      destruct RN as (_ & N1 & _ & _). cbn [sy_top y_nmv y_itn] in F2. lia.
Qed.

(** The stored iterates are the LQ points up to their component along [b]. *)
Theorem C80_iterates : forall o cnt', y_sit kw = true ->
  @sy_solve KK WW fuel (Some (opmul (q_A q))) q it0 b kw cnt = Ok (o, cnt') ->
  exists zs, (u_iters o : list (iv E)) = it0 ++ zs /\
    forall i z, nth_error zs i = Some z -> exists c,
      let x := iadd z (iscale c b) in
      (exists z', kry At b i z' /\ x = At z') /\ (forall z', kry At b i z' -> ip (isub b (At x)) z' = 0).
Proof.
  intros o' c' SIT ES'. destruct sy_solve_exact as (o & c & st & ES & HL & HF & HC & EF).
  rewrite ES in ES'. injection ES' as <- <-.
  unfold sy_final in EF. destruct (y_lqdiag st) as [[lqn dg]|] eqn:ELQ; [|discriminate].
  unfold opmul in EF. cbv beta iota zeta in EF.
  assert (O : u_iters o = y_iters st) by (injection EF as <- _; reflexivity). rewrite O.
  assert (IT : exists zs, (y_iters st : list (iv E)) = it0 ++ zs /\
    forall i z, nth_error zs i = Some z -> exists c, lq_point (shifted E (q_A q) sh) b i (iadd z (iscale c b))).
  { destruct HL as [[_ HL]|(s0 & HL & _ & -> & _)].
    - pose proof (sl_it _ _ _ _ _ _ _ _ _ _ HL) as IT. rewrite SIT in IT. destruct IT as (zs & Z1 & _ & Z3). exists zs. auto.
    - pose proof (sl_it _ _ _ _ _ _ _ _ _ _ HL) as IT. rewrite SIT in IT. destruct IT as (zs & Z1 & _ & Z3). exists zs. auto. }
  destruct IT as (zs & Z1 & Z3). exists zs. split; [exact Z1|]. intros i z Hi.
  destruct (Z3 i z Hi) as (c0 & P). exists c0. exact P.
Qed.
End Exact.

(** The LQ point is the point of [A K_j] closest to the solution. *)
Theorem C80_lq_closest : forall (E : IPS) (A : iv E -> iv E) (b xs xl : iv E) j,
  selfadj A -> A xs = b -> (exists z, kry A b j z /\ xl = A z) ->
  (forall z, kry A b j z -> ip (isub b (A xl)) z = 0) ->
  forall z, kry A b j z -> inorm (isub xs xl) <= inorm (isub xs (A z)).
Proof.
  intros E A b xs xl j SA XS (z0 & K0 & X0) H z Hz. pose proof (adjoint_lin A A SA) as LA.
  assert (O : ip (isub xs xl) (A (isub z0 z)) = 0).
  { rewrite (SA (isub xs xl) (isub z0 z)). rewrite (lin_sub A LA), XS. apply H. apply kry_sub; assumption. }
  unfold inorm. apply sqrt_le_1_alt.
  assert (Q : isub xs (A z) = iadd (isub xs xl) (A (isub z0 z))).
  { rewrite (lin_sub A LA), X0. veq. }
  rewrite Q. set (d := A (isub z0 z)) in *. pose proof (ip_pos d).
  rewrite ip_add, !ip_addl, (ip_sym d), O. lra.
Qed.

(** ** C81: what is returned at the iteration limit.  [A = ((4,3),(3,4))], [b = (1,0)],
    [matvec_max = 2]. *)
Section Limit.
Local Ltac rcbn := match goal with |- ?l = ?r => change (@eq R l r) end; cbn.
Notation K2 := (exactK Rdiv sqrt).
Notation E2 := (Rn 2).
Notation W2 := (exactV Rdiv sqrt E2).
Notation eps := (@machine_eps K2).
Definition fA (z : iv E2) : iv E2 := v2 (4 * fst z + 3 * fst (snd z)) (3 * fst z + 4 * fst (snd z)).
Definition fprob : kprob W2 :=
  @mkprob K2 W2 2 2 (fA : vc W2 -> vc W2) None (0%R : sc K2) (0%R : sc K2) (fun x => x) [].
Definition fkw (l : nat) : @sy_kw K2 := mksykw (Some l) (@slit K2 (1 # 1000000000)) false None true.
Definition fb : iv E2 := v2 1 0.

Lemma fA_sym : selfadj fA.
Proof. intros [a [b []]] [c [d []]]. cbn. ring. Qed.
Lemma fA_inj : forall z, fA z = izero -> z = izero.
Proof.
  intros [a [c []]] H. unfold fA, v2 in H. cbn in H. injection H as H1 H2.
  change ((a, (c, tt)) = (0, (0, tt))). assert (a = 0) by lra. assert (c = 0) by lra. subst. reflexivity.
Qed.

Definition fst1 (its : list (iv E2)) : sy_st W2 :=
  @mksy K2 W2 (v2 0 0) (v2 0 0) (v2 0 3) fb (v2 0 3) 1 3 25 4 3 1 0 0 1 0 (4 + eps) (4 + eps) 0 0 1 None 0 0 1 1 false its.

Lemma ffirst : forall its l, @sy_first K2 W2 fprob (fkw l) (opmul (q_A fprob)) fb fb (1 : sc K2) 0%Z false its 0 = (fst1 its, false).
Proof.
  intros its l. unfold sy_first, opmul, sy_prec, sy_shift, fkw. cbn [y_check y_shift q_P fprob q_A].
  cbv beta iota zeta.
  assert (Ev : @vscale K2 W2 (@sdiv K2 (@s1 K2) (1 : sc K2)) fb = v2 1 0).
  { change (iscale (1 / 1) fb = v2 1 0). cbn. apply v2_eq; field. }
  rewrite Ev. assert (Ea : fA (v2 1 0) = v2 4 3) by (unfold fA; cbn [v2 fst snd]; apply v2_eq; ring). rewrite Ea.
  assert (Ed : @vdot K2 W2 (v2 1 0) (v2 4 3) = 4) by (rcbn; ring). rewrite Ed.
  assert (Ey : @vsub K2 W2 (v2 4 3) (@vscale K2 W2 (@sdiv K2 (4 : sc K2) (1 : sc K2)) fb) = v2 0 3).
  { cbn. apply v2_eq; field. }
  rewrite Ey.
  assert (Ey2 : @vsub K2 W2 (v2 0 3) (@vscale K2 W2 (@sdiv K2 (@vdot K2 W2 (v2 1 0) (v2 0 3)) (@vdot K2 W2 (v2 1 0) (v2 1 0))) (v2 1 0)) = v2 0 3).
  { cbn. apply v2_eq; field. }
  rewrite Ey2.
  assert (Eb : @vdot K2 W2 (v2 0 3) (v2 0 3) = 9) by (rcbn; ring). rewrite Eb.
  assert (Es : @ssqrt K2 (9 : sc K2) = 3) by (apply sqrt_val; lra). rewrite Es.
  assert (N : @sltb K2 (9 : sc K2) (@s0 K2) = false) by (apply Rltb_false; change (0 <= 9); lra). rewrite N.
  assert (N2 : @sleb K2 (3 : sc K2) eps = false) by (apply Rleb_false; rewrite eps_val; lra). rewrite N2.
  cbv beta iota zeta.
  assert (Et : @sadd K2 (@smul K2 (4 : sc K2) (4 : sc K2)) (@smul K2 (3 : sc K2) (3 : sc K2)) = 25) by (rcbn; ring). rewrite Et.
  assert (Eg : @sabs K2 (4 : sc K2) = 4) by (apply Rabs_right; lra). rewrite Eg.
  reflexivity.
Qed.

Definition fst2 (its : list (iv E2)) (ac : R) : sy_st W2 :=
  @mksy K2 W2 (v2 0 0) (v2 0 0) (v2 0 3) fb (v2 0 3) 1 3 25 4 3 1 0 0 1 0 (4 + eps) (4 + eps) ac 5 (3/4) (Some (1, 4)) 0 1 1 1 false its.

Lemma ftop : forall its l, (2 <= l)%nat -> exists ac, @sy_top K2 W2 (fkw l) (1 : sc K2) l (fst1 its) = fst2 its ac.
Proof.
  intros its l L. unfold sy_top, fst1. cbn [y_x y_w y_y y_r1 y_r2 y_oldb y_beta y_tnorm y_gbar y_dbar y_snprod y_bstep
    y_ynorm2 y_rhs1 y_rhs2 y_gmax y_gmin y_acond y_anorm y_cgnorm y_lqdiag y_istop y_itn y_nmv y_cnt y_brk y_iters].
  assert (E5 : @ssqrt K2 (25 : sc K2) = 5) by (apply sqrt_val; lra). rewrite E5.
  assert (E0 : @ssqrt K2 (0 : sc K2) = 0) by apply sqrt_0. rewrite E0.
  assert (NG : @seqb K2 (4 : sc K2) (@s0 K2) = false) by (apply Reqb_false; change (4 <> 0); lra). rewrite NG. cbv iota.
  assert (EL : @ssqrt K2 (@sadd K2 (@smul K2 (1 : sc K2) (1 : sc K2)) (@smul K2 (0 : sc K2) (0 : sc K2))) = 1).
  { apply sqrt_val; [lra|]. rcbn. ring. }
  rewrite EL. assert (E4 : @sabs K2 (4 : sc K2) = 4) by (apply Rabs_right; lra). rewrite E4.
  assert (EC : @sdiv K2 (@smul K2 (@smul K2 (1 : sc K2) (1 : sc K2)) (3 : sc K2)) (4 : sc K2) = 3/4) by (rcbn; field). rewrite EC.
  assert (NL : @sltb K2 (1 : sc K2) (3/4 : sc K2) = false) by (apply Rltb_false; lra). rewrite NL. cbv iota.
  set (ac := @sdiv K2 (4 + eps : sc K2) _).
  assert (PM : @pymin K2 (4 + eps : sc K2) (4 : sc K2) = 4).
  { unfold pymin. assert (Q : @sltb K2 (4 : sc K2) (4 + eps : sc K2) = true) by (apply Rltb_true; rewrite eps_val; lra).
    rewrite Q. reflexivity. }
  assert (AC : ac = (4 + eps) / 4) by (unfold ac; rewrite PM; reflexivity).
  exists ac. change (0 =? 0)%Z with true. cbv iota. unfold sy_tests.
  replace (l <=? 1)%nat with false by (symmetry; apply Nat.leb_gt; lia).
  assert (T4 : @sgeb K2 ac (@sdiv K2 (@slit K2 (1 # 10)) eps) = false).
  { apply Rleb_false. rewrite AC. change (@sdiv K2) with Rdiv. change (@slit K2 (1 # 10)) with (Q2R (1 # 10)).
    rewrite eps_val. unfold Q2R. cbn. lra. }
  rewrite T4.
  assert (T3 : @sgeb K2 (@smul K2 (@smul K2 (5 : sc K2) (0 : sc K2)) eps) (1 : sc K2) = false).
  { apply Rleb_false. change (5 * 0 * eps < 1). lra. }
  rewrite T3.
  assert (T2 : @sleb K2 (3/4 : sc K2) (@smul K2 (@smul K2 (5 : sc K2) (0 : sc K2)) eps) = false).
  { apply Rleb_false. change (5 * 0 * eps < 3/4). lra. }
  rewrite T2.
  assert (T1 : @sleb K2 (3/4 : sc K2) (@smul K2 (@smul K2 (5 : sc K2) (0 : sc K2)) (y_rtol (fkw l))) = false).
  { apply Rleb_false. change (5 * 0 * y_rtol (fkw l) < 3/4). lra. }
  rewrite T1. cbv iota zeta. reflexivity.
Qed.

Lemma flan : forall its l ac, @sy_lan K2 W2 fprob (fkw l) (fst2 its ac) =
  ((v2 0 1 : iv E2), (4 : R), (v2 0 0 : iv E2), (v2 0 0 : iv E2), (0 : R), 2%nat).
Proof.
  intros its l ac. unfold sy_lan, fst2, opmul, sy_prec, sy_shift, fkw.
  cbn [y_y y_r1 y_r2 y_oldb y_beta y_cnt y_shift q_P fprob q_A]. cbv beta iota zeta.
  assert (Ev : @vscale K2 W2 (@sdiv K2 (@s1 K2) (3 : sc K2)) (v2 0 3) = v2 0 1).
  { change (iscale (1 / 3) (v2 0 3) = v2 0 1). cbn. apply v2_eq; field. }
  rewrite Ev. assert (Ea : fA (v2 0 1) = v2 3 4) by (unfold fA; cbn [v2 fst snd]; apply v2_eq; ring). rewrite Ea.
  assert (Ey : @vsub K2 W2 (v2 3 4) (@vscale K2 W2 (@sdiv K2 (3 : sc K2) (1 : sc K2)) fb) = v2 0 4).
  { cbn. apply v2_eq; field. }
  rewrite Ey.
  assert (Ed : @vdot K2 W2 (v2 0 1) (v2 0 4) = 4) by (rcbn; ring). rewrite Ed.
  assert (Ey2 : @vsub K2 W2 (v2 0 4) (@vscale K2 W2 (@sdiv K2 (4 : sc K2) (3 : sc K2)) (v2 0 3)) = v2 0 0).
  { cbn. apply v2_eq; field. }
  rewrite Ey2. assert (Eb : @vdot K2 W2 (v2 0 0) (v2 0 0) = 0) by (rcbn; ring). rewrite Eb. reflexivity.
Qed.

Lemma fbody : forall its l, (2 <= l)%nat -> exists st, @sy_body K2 W2 fprob (fkw l) (1 : sc K2) l (fst1 its) = Ok st /\
  (y_x st : iv E2) = v2 0 (3/25) /\ (y_w st : iv E2) = v2 0 (-4/5) /\ y_bstep st = 4/25 /\ y_snprod st = 3/5 /\
  y_rhs1 st = - (24/25) /\ y_cgnorm st = 3/4 /\ y_lqdiag st = Some (1, 4) /\
  y_brk st = false /\ y_nmv st = 2%nat /\ y_itn st = 1%nat /\ y_iters st = its ++ [v2 0 (3/25)] /\ y_istop st = 0%Z.
Proof.
  intros its l L. destruct (ftop its l L) as [ac T]. unfold sy_body. rewrite T. cbn [fst2 y_brk].
  fold (fst2 its ac). rewrite flan.
  assert (NB : @sltb K2 (0 : sc K2) (@s0 K2) = false) by (apply Rltb_false; change (0 <= 0); lra). rewrite NB.
  assert (S0 : @ssqrt K2 (0 : sc K2) = 0) by apply sqrt_0. rewrite S0.
  eexists. split; [reflexivity|].
  assert (G5 : @ssqrt K2 (@sadd K2 (@smul K2 (4 : sc K2) (4 : sc K2)) (@smul K2 (3 : sc K2) (3 : sc K2))) = 5).
  { apply sqrt_val; [lra|]. rcbn. ring. }
  unfold sy_upd, fst2. cbn [y_x y_w y_y y_r1 y_r2 y_oldb y_beta y_tnorm y_gbar y_dbar y_snprod y_bstep
    y_ynorm2 y_rhs1 y_rhs2 y_gmax y_gmin y_acond y_anorm y_cgnorm y_lqdiag y_istop y_itn y_nmv y_cnt y_brk y_iters].
  rewrite G5. 
  assert (EX : @vadd K2 W2 (v2 0 0) (@vadd K2 W2
      (@vscale K2 W2 (@smul K2 (@sdiv K2 (1 : sc K2) (5 : sc K2)) (@sdiv K2 (4 : sc K2) (5 : sc K2))) (v2 0 0))
      (@vscale K2 W2 (@smul K2 (@sdiv K2 (1 : sc K2) (5 : sc K2)) (@sdiv K2 (3 : sc K2) (5 : sc K2))) (v2 0 1))) = v2 0 (3/25)).
  { cbn. apply v2_eq; field. }
  rewrite EX.
  split; [reflexivity|]. split; [cbn; apply v2_eq; field|]. split; [rcbn; field|]. split; [rcbn; field|].
  split; [rcbn; field|]. split; [reflexivity|]. split; [reflexivity|]. split; [reflexivity|]. split; [reflexivity|].
  split; [reflexivity|]. split; reflexivity.
Qed.

Lemma while_eq : forall (St : Type) f (c : St -> bool) bd s,
  while (Datatypes.S f) c bd s = if c s then match bd s with Ok s' => while f c bd s' | Err e => Err e end else Ok s.
Proof. reflexivity. Qed.

Lemma fsolve : forall l, @sy_solve K2 W2 10 (Some (opmul (q_A fprob))) fprob [] fb (fkw l) 0 =
    match while 10 (sy_cond l) (@sy_body K2 W2 fprob (fkw l) (1 : sc K2) l) (fst1 [(izero : iv E2)]) with
    | Ok st => @sy_final K2 W2 fprob (fkw l) fb (1 : sc K2) st
    | Err e => Err e
    end.
Proof.
  assert (BB : @vdot K2 W2 fb fb = 1) by (rcbn; ring).
  intro l. unfold sy_solve, sy_prec. cbn [fprob q_P]. change (@vlen K2 W2 fb) with 2%nat. cbn [Nat.eqb].
    rewrite BB.
    assert (N1 : @sltb K2 (1 : sc K2) (@s0 K2) = false) by (apply Rltb_false; change (0 <= 1); lra).
    assert (N2 : @seqb K2 (1 : sc K2) (@s0 K2) = false) by (apply Reqb_false; change (1 <> 0); lra).
    assert (N3 : @sgtb K2 (1 : sc K2) (@s0 K2) = true) by (apply Rltb_true; change (0 < 1); lra).
    assert (N4 : @ssqrt K2 (1 : sc K2) = 1) by apply sqrt_1.
    rewrite N1, N2, N3, N4. cbn [orb].
    match goal with |- context [sy_first ?a ?b ?c ?d ?e ?f ?g ?h ?i ?j] =>
      assert (S2 : sy_first a b c d e f g h i j = (fst1 [(izero : iv E2)], false)) by exact (ffirst [(izero : iv E2)] l); rewrite S2 end.
    reflexivity.
Qed.

Lemma f3 : exists o cnt', @sy_solve K2 W2 10 (Some (opmul (q_A fprob))) fprob [] fb (fkw 3) 0 = Ok (o, cnt') /\
  In (u_istop o) [-1; 1; 2; 3; 4]%Z /\ u_itn o = 2%nat /\ fA (u_x o) = fb /\
  (u_iters o : list (iv E2)) = [izero; v2 0 (3/25)].
Proof.
  assert (NZ : fb <> izero) by (intro H; injection H as H; lra).
  set (its := [(izero : iv E2)]).
  destruct (C80_finite Rdiv sqrt Rdiv_ok sqrt_ok E2 fprob (fkw 3) fb 10 [] 0 eq_refl fA_sym ltac:(discriminate)
    ltac:(cbn; lia) NZ ltac:(cbn; lia) ltac:(cbn; lia) 2%nat (Rn_dim 2) ltac:(cbn; lia)) as (o' & c' & E1 & E2' & E3 & E4 & E5).
  { intros z Hz. apply fA_inj. rewrite <- Hz. cbn. apply (f_equal2 (@pair R (R * unit))); [ring|]. apply (f_equal2 (@pair R unit)); [ring|reflexivity]. }
  exists o', c'. split; [exact E1|]. split; [exact E2'|].
  assert (I2 : (2 <= u_itn o')%nat /\ exists t, (u_iters o' : list (iv E2)) = (its ++ [v2 0 (3/25)]) ++ t).
  { destruct (fbody its 3 ltac:(lia)) as (st3 & HB3 & _ & _ & _ & _ & _ & _ & _ & BK3 & NM3 & IT3 & IS3 & _).
    pose proof E1 as E1'. rewrite fsolve in E1'. rewrite while_eq in E1'. fold its in E1'.
    assert (C1 : @sy_cond K2 W2 3 (fst1 its) = true) by reflexivity. rewrite C1, HB3 in E1'.
    assert (C2 : @sy_cond K2 W2 3 st3 = true) by (unfold sy_cond; rewrite BK3, NM3; reflexivity). rewrite while_eq, C2 in E1'.
    assert (BI : forall s s', @sy_body K2 W2 fprob (fkw 3) (1 : sc K2) 3 s = Ok s' -> (y_itn s < y_itn s')%nat /\
      exists t, (y_iters s' : list (iv E2)) = y_iters s ++ t).
    { intros s s' Bs. unfold sy_body in Bs. remember (@sy_top K2 W2 (fkw 3) (1 : sc K2) 3 s) as t eqn:Et.
      assert (T3 : y_itn t = (y_itn s + 1)%nat /\ y_iters t = y_iters s) by (rewrite Et; split; reflexivity).
      clear Et. destruct T3 as [T3 T4].
      destruct (y_brk t); [injection Bs as <-; split; [lia|exists []; rewrite app_nil_r; exact T4]|].
      destruct (sy_lan fprob (fkw 3) t) as [[[[[v al] r2] y] be] ct].
      destruct (sltb be _); injection Bs as <-; (split; [cbn; lia|]).
      - exists []. cbn [sy_indef y_iters]. rewrite app_nil_r. exact T4.
      - eexists. cbn [sy_upd y_iters fkw y_sit]. rewrite T4. reflexivity. }
    destruct (@sy_body K2 W2 fprob (fkw 3) (1 : sc K2) 3 st3) as [s4|] eqn:B4; [|discriminate].
    destruct (BI _ _ B4) as [N4 I4]. rewrite IS3 in I4.
    match type of E1' with match ?w with _ => _ end = _ => destruct w as [s5|] eqn:W5; [|discriminate] end.
    assert (N5 : (2 <= y_itn s5)%nat /\ exists t, (y_iters s5 : list (iv E2)) = (its ++ [v2 0 (3/25)]) ++ t).
    { apply (while_inv _ _ (fun s : sy_st W2 => (2 <= y_itn s)%nat /\ exists t, (y_iters s : list (iv E2)) = (its ++ [v2 0 (3/25)]) ++ t)) in W5; [apply W5| |split; [lia|exact I4]].
      intros s s' [Hs [t Ht]] _ Bs. destruct (BI _ _ Bs) as [M1 [t' M2]]. split; [lia|].
      exists (t ++ t'). rewrite M2, Ht, <- !app_assoc. reflexivity. }
    unfold sy_final in E1'. destruct (y_lqdiag s5) as [[l5 d5]|]; [|discriminate]. unfold opmul in E1'. cbv beta iota zeta in E1'.
    injection E1' as E1' _. assert (Q1 := f_equal (@u_itn K2 W2) E1'). assert (Q2 := f_equal (@u_iters K2 W2) E1').
    cbn [u_itn u_iters] in Q1, Q2. rewrite <- Q1, <- Q2. exact N5. }
  destruct I2 as [I2 [t I3]]. assert (I4 : u_itn o' = 2%nat) by lia.
  split; [exact I4|]. split.
  - refine (eq_trans _ (E5 I4)). cbn. apply (f_equal2 (@pair R (R * unit))); [ring|]. apply (f_equal2 (@pair R unit)); [ring|reflexivity].
  - destruct (C79_counters K2 W2 fprob (fkw 3) 10 fb [] 0 o' c' ltac:(cbn; lia) E1) as (_ & _ & _ & _ & _ & _ & _ & LN & _).
    assert (Z0 : (u_istop o' =? 0)%Z = false) by (apply Z.eqb_neq; cbn in E2'; lia).
    rewrite Z0, I4, I3 in LN. cbn in LN. destruct t; [|cbn in LN; lia]. rewrite I3. reflexivity.
Qed.

(** At the limit the point returned is neither the LQ nor the CG point and may be worse than the
    zero vector, although one more product would give the exact solution. *)
Theorem C81_limit_refuted : exists (q : kprob W2) (b : iv E2) (kw : @sy_kw K2) o cnt',
  selfadj (q_A q : iv E2 -> iv E2) /\ q_P q = None /\ y_shift kw = None /\
  @sy_solve K2 W2 10 (Some (opmul (q_A q))) q [] b kw 0 = Ok (o, cnt') /\
  u_istop o = 0%Z /\ inorm b < u_rnorm o /\
  ~ (exists z, kry (q_A q : iv E2 -> iv E2) b 1 z /\ (u_x o : iv E2) = q_A q z) /\
  ~ (forall z, kry (q_A q : iv E2 -> iv E2) b 2 z -> ip (isub b (q_A q (u_x o))) z = 0) /\
  exists o' cnt'', @sy_solve K2 W2 10 (Some (opmul (q_A q))) q [] b (mksykw (Some 3%nat) (y_rtol kw) false None true) 0 = Ok (o', cnt'') /\
    (q_A q (u_x o') : iv E2) = b.
Proof.
  exists fprob, fb, (fkw 2).
  set (its := [(izero : iv E2)]).
  destruct (fbody its 2 ltac:(lia)) as (st & HB & X & Wd & BS & SP & R1 & CG & LQ & BK & NM & IT & _ & IS).
  assert (PX : @sy_point K2 W2 fprob fb (1 : sc K2) (1 : sc K2) (4 : sc K2) st = v2 (2/125) (39/125)).
  { unfold sy_point, sy_prec. cbn [fprob q_P]. rewrite X, Wd, BS, SP, R1, CG.
    assert (Q : @sltb K2 (3/4 : sc K2) (1 : sc K2) = true) by (apply Rltb_true; lra). rewrite Q. cbv beta iota zeta.
    cbn. apply v2_eq; field. }
  assert (RN : inorm (isub fb (fA (v2 (2/125) (39/125)))) = 162/125).
  { apply sqrt_val; [lra|]. rcbn. field. }
  assert (SOL : exists o cnt', @sy_solve K2 W2 10 (Some (opmul (q_A fprob))) fprob [] fb (fkw 2) 0 = Ok (o, cnt') /\
    u_istop o = 0%Z /\ (u_x o : iv E2) = v2 (2/125) (39/125) /\ u_rnorm o = 162/125).
  { rewrite fsolve. fold its.
    assert (EW : while 10 (sy_cond 2) (@sy_body K2 W2 fprob (fkw 2) (1 : sc K2) 2) (fst1 its) = Ok st).
    { cbn [while]. assert (C1 : @sy_cond K2 W2 2 (fst1 its) = true) by reflexivity. rewrite C1, HB.
      assert (C2 : @sy_cond K2 W2 2 st = false) by (unfold sy_cond; rewrite BK, NM; reflexivity). rewrite C2. reflexivity. }
    rewrite EW. unfold sy_final. rewrite LQ. unfold opmul. cbv beta iota zeta.
    eexists _, _. split; [reflexivity|]. cbn [u_istop u_x u_rnorm]. split; [exact IS|]. split; [exact PX|].
    rewrite PX. unfold sy_shift, fkw. cbn [y_shift]. exact RN. }
  destruct SOL as (o & c & S1 & S2 & S3 & S4). exists o, c.
  split; [exact fA_sym|]. split; [reflexivity|]. split; [reflexivity|]. split; [exact S1|]. split; [exact S2|].
  split. { rewrite S4. assert (N : inorm fb = 1) by (apply sqrt_val; [lra|rcbn; ring]). rewrite N. lra. }
  split.
  { intros (z & (a & z' & Hz' & ->) & Q). cbn in Hz'. subst z'. rewrite S3 in Q.
    cbn in Q. injection Q as Q1 Q2. lra. }
  split.
  { intro G. assert (KB : kry (q_A fprob : iv E2 -> iv E2) fb 2 (v2 0 3)).
    { exists (-4), fb. split; [exists 1, izero; split; [reflexivity|]|]; unfold fb, v2; cbn; repeat (apply f_equal2; [ring|]); reflexivity. }
    specialize (G _ KB). rewrite S3 in G. cbn in G. lra. }
  destruct f3 as (o' & c' & E1 & _ & _ & E4 & _). exists o', c'. split; [exact E1|exact E4].
Qed.
(** [store_iterates] does not store the successive solution estimates: here the run ends with the
    exact solution after two iterations and the last vector stored is neither that solution nor the LQ
    point of its iteration. *)
Theorem C81_iterates_refuted : exists (q : kprob W2) (b : iv E2) (kw : @sy_kw K2) o cnt' zl,
  selfadj (q_A q : iv E2 -> iv E2) /\ q_P q = None /\ y_shift kw = None /\ y_sit kw = true /\
  @sy_solve K2 W2 10 (Some (opmul (q_A q))) q [] b kw 0 = Ok (o, cnt') /\
  In (u_istop o) [-1; 1; 2; 3; 4]%Z /\ (q_A q (u_x o) : iv E2) = b /\
  last (u_iters o) izero = zl /\ zl <> (u_x o : iv E2) /\
  ~ (exists z, kry (q_A q : iv E2 -> iv E2) b (u_itn o - 1) z /\ zl = q_A q z).
Proof.
  destruct f3 as (o & c & E1 & E2' & E3 & E4 & E5). exists fprob, fb, (fkw 3), o, c, (v2 0 (3/25)).
  split; [exact fA_sym|]. split; [reflexivity|]. split; [reflexivity|]. split; [reflexivity|]. split; [exact E1|].
  split; [exact E2'|]. split; [exact E4|]. split; [rewrite E5; reflexivity|]. split.
  - intro Q. rewrite <- Q in E4. unfold fA, fb, v2 in E4. cbn in E4. injection E4 as Q1 Q2. lra.
  - rewrite E3. intros (z & (a & z' & Hz' & ->) & Q). cbn in Hz'. subst z'. cbn in Q. injection Q as Q1 Q2. lra.
Qed.

(** The hypotheses of C80 hold of this system. *)
Example C80_hyps : selfadj (q_A fprob : iv E2 -> iv E2) /\ q_P fprob = None /\ fb <> izero /\
  (@sy_lim K2 W2 (fkw 3) fb < 10)%nat /\ (2 <= @sy_lim K2 W2 (fkw 3) fb)%nat /\ (1 <= ilen fb)%nat /\
  (forall z, fA z = izero -> z = izero) /\ dim_le E2 2.
Proof.
  split; [exact fA_sym|]. split; [reflexivity|]. split; [intro H; injection H as H; lra|].
  split; [cbn; lia|]. split; [cbn; lia|]. split; [cbn; lia|]. split; [exact fA_inj|exact (Rn_dim 2)].
Qed.

Example C80_exact_run : exists o cnt', @sy_solve K2 W2 10 (Some (opmul (q_A fprob))) fprob [] fb (fkw 3) 0 = Ok (o, cnt') /\
  In (u_istop o) [-1; 1; 2; 3; 4]%Z /\ u_itn o = 2%nat /\ fA (u_x o) = fb.
Proof. destruct f3 as (o & c & E1 & E2' & E3 & E4 & _). eauto 10. Qed.

(** [C80_lq_closest]: the LQ point of order 1 of this system is [A (b / 25)]. *)
Example C80_lq_closest_ex : let xs := v2 (4/7) (-3/7) in let xl := v2 (4/25) (3/25) in
  fA xs = fb /\ (exists z, kry fA fb 1 z /\ xl = fA z) /\ (forall z, kry fA fb 1 z -> ip (isub fb (fA xl)) z = 0).
Proof.
  cbv zeta. split; [unfold fA, fb; cbn [v2 fst snd]; apply v2_eq; field|]. split.
  - exists (v2 (1/25) 0). split.
    + exists (1/25), izero. split; [reflexivity|]. unfold fb, v2. cbn. repeat (apply f_equal2; [field|]). reflexivity.
    + unfold fA; cbn [v2 fst snd]; apply v2_eq; field.
  - intros z (a & z' & Hz & ->). cbn in Hz. subst z'. cbn. field.
Qed.
End Limit.

(** C79 in the positive case: one product allowed, or none needed. *)
Example C79_unbound_ex :
  @sy_solve (exactK Rdiv sqrt) (exactV Rdiv sqrt (Rn 2)) 10 (Some (opmul (q_A fprob))) fprob [] fb (fkw 1) 0 = Err UnboundLocalError.
Proof. apply C79_unbound; [cbn; lia|cbn; lia|left; cbn; lia]. Qed.

Print Assumptions C79_missing. Print Assumptions C79_present. Print Assumptions C79_outcome. Print Assumptions C79_unbound. Print Assumptions C79_counters.
Print Assumptions C80_symmlq. Print Assumptions C80_finite. Print Assumptions C80_iterates. Print Assumptions C80_lq_closest.
Print Assumptions C81_limit_refuted. Print Assumptions C81_iterates_refuted.
