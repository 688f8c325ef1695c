(** * CGS, BiCGSTAB and TFQMR stop exactly when they should, in any arithmetic. *)
From Coq Require Import List ZArith QArith Lia Bool.
From Verif Require Import Base Num ToolsModel CgModel KrylovModel KrylovProof.
Import ListNotations.

Section Stop.
Context {K : Scal} {W : Vs K}.
Notation S := (sc K).
Notation V := (vc W).
Variables (q : kprob W) (rhs : V) (kw : kkw W).
Notation mx := (mmax (w_mmax kw) rhs).

(** The states at the loop head during a run. *)
Definition cgs_reach (cnt k : nat) (st : cgs_st W) : Prop :=
  let '(r0, c0) := start_r q kw rhs cnt in
  let rho := vdot r0 r0 in
  let rn := sabs (ssqrt rho) in
  let th := thr q rn in
  rounds (fun st => negb (s_fin st)) (cgs_body q r0 th mx) k
    (mkcgs (start_x kw rhs) r0 r0 r0 rho rn 0 c0 (sleb rn th || (mx <=? 0)%nat)) = Ok st.
Definition bi_reach (cnt k : nat) (st : bi_st W) : Prop :=
  let '(r0, c0) := start_r q kw rhs cnt in
  let nmv := match w_guess kw with Some _ => 1%nat | None => 0%nat end in
  let rhon := vdot r0 r0 in
  let rn := sabs (ssqrt rhon) in
  let th := thr q rn in
  rounds (fun st => negb (b_fin st)) (bi_body q r0 th mx) k
    (mkbi (start_x kw rhs) r0 (vzeros (vlen rhs)) (vzeros (vlen rhs)) s1 rhon s1 s1 rn nmv c0
                 (sleb rn th || (mx <=? nmv)%nat)) = Ok st.

Lemma cgs_stop : forall fuel cnt o cnt', cgs_solve fuel q rhs kw cnt = Ok (o, cnt') ->
  o_conv o = true \/ (mx <= o_nmv o)%nat.
Proof.
  intros fuel cnt o cnt' H. unfold cgs_solve in H.
  destruct (start_r q kw rhs cnt) as [r0 c0]. set (rn := sabs _) in H. set (th := thr q rn) in H.
  destruct (while _ _ _ _) as [st|] eqn:EW; [|discriminate]. injection H as <- <-. cbn [o_conv o_nmv].
  apply while_inv with (I := fun st => s_fin st = true -> sleb (s_res st) th = true \/ (mx <= s_nmv st)%nat) in EW.
  - destruct EW as [I C]. apply negb_false_iff in C. exact (I C).
  - intros s s' _ _ B. unfold cgs_body, opmul in B. cbv beta iota zeta in B.
    destruct (_ || _) eqn:T in B; injection B as <-; cbn [s_fin s_res s_nmv]; [|discriminate].
    intros _. apply orb_true_elim in T. destruct T as [T|T]; [left; exact T|right; now apply Nat.leb_le].
  - cbn [s_fin s_res s_nmv]. intro T. apply orb_true_elim in T.
    destruct T as [T|T]; [left; exact T|right; now apply Nat.leb_le].
Qed.
Lemma cgs_goes_on : forall cnt k st, cgs_reach cnt k st -> s_fin st = false ->
  sleb (s_res st) (thr q (rn0 q rhs kw cnt)) = false /\ (s_nmv st < mx)%nat.
Proof.
  intros cnt k st R F. unfold cgs_reach in R. unfold rn0.
  destruct (start_r q kw rhs cnt) as [r0 c0]. cbn [fst]. set (rn := sabs _) in *. set (th := thr q rn) in *.
  destruct k as [|k]; cbn [rounds] in R.
  - injection R as <-. cbn [s_fin s_res s_nmv] in *. apply orb_false_elim in F as [F1 F2].
    split; [exact F1|]. now apply Nat.leb_gt.
  - destruct (rounds _ _ k _) as [s|]; [|discriminate]. destruct (negb (s_fin s)); [|discriminate].
    unfold cgs_body, opmul in R. cbv beta iota zeta in R.
    destruct (_ || _) eqn:T in R; injection R as <-; cbn [s_fin s_res s_nmv] in *; [discriminate|].
    apply orb_false_elim in T as [F1 F2]. split; [exact F1|]. now apply Nat.leb_gt.
Qed.

Lemma bi_stop : forall fuel cnt o cnt', bi_solve fuel q rhs kw cnt = Ok (o, cnt') ->
  o_conv o = true \/ (mx <= o_nmv o)%nat.
Proof.
  intros fuel cnt o cnt' H. unfold bi_solve in H.
  destruct (start_r q kw rhs cnt) as [r0 c0]. set (rn := sabs _) in H. set (th := thr q rn) in H.
  destruct (while _ _ _ _) as [st|] eqn:EW; [|discriminate]. injection H as <- <-. cbn [o_conv o_nmv].
  apply while_inv with (I := fun st => b_fin st = true -> sleb (b_res st) th = true \/ (mx <= b_nmv st)%nat) in EW.
  - destruct EW as [I C]. apply negb_false_iff in C. exact (I C).
  - intros s s' _ _ B. unfold bi_body, opmul in B. cbv beta iota zeta in B.
    destruct (sleb _ th) eqn:T1 in B; [|destruct (mx <=? _)%nat eqn:T2 in B];
      injection B as <-; cbn [b_fin b_res b_nmv].
    + intros _. left. exact T1.
    + intros _. right. now apply Nat.leb_le.
    + intro T. apply orb_true_elim in T. destruct T as [T|T]; [left; exact T|right; now apply Nat.leb_le].
  - cbn [b_fin b_res b_nmv]. intro T. apply orb_true_elim in T.
    destruct T as [T|T]; [left; exact T|right; now apply Nat.leb_le].
Qed.
Lemma bi_goes_on : forall cnt k st, bi_reach cnt k st -> b_fin st = false ->
  sleb (b_res st) (thr q (rn0 q rhs kw cnt)) = false /\ (b_nmv st < mx)%nat.
Proof.
  intros cnt k st R F. unfold bi_reach in R. unfold rn0.
  destruct (start_r q kw rhs cnt) as [r0 c0]. cbn [fst]. set (rn := sabs _) in *. set (th := thr q rn) in *.
  destruct k as [|k]; cbn [rounds] in R.
  - injection R as <-. cbn [b_fin b_res b_nmv] in *. apply orb_false_elim in F as [F1 F2].
    split; [exact F1|]. now apply Nat.leb_gt.
  - destruct (rounds _ _ k _) as [s|]; [|discriminate]. destruct (negb (b_fin s)); [|discriminate].
    unfold bi_body, opmul in R. cbv beta iota zeta in R.
    destruct (sleb _ th) in R; [|destruct (mx <=? _)%nat in R]; injection R as <-;
      cbn [b_fin b_res b_nmv] in *; try discriminate.
    apply orb_false_elim in F as [F1 F2]. split; [exact F1|]. now apply Nat.leb_gt.
Qed.

Lemma tf_stop : forall fuel cnt o cnt', tf_solve fuel q rhs kw cnt = Ok (o, cnt') ->
  o_conv o = true \/ (mx <= o_nmv o)%nat.
Proof.
  intros fuel cnt o cnt' H. unfold tf_solve in H.
  destruct (start_r q kw rhs cnt) as [r0 c0]. set (rn := sabs _) in H. set (th := thr q rn) in H.
  destruct (while _ _ _ _) as [st|] eqn:EW; [|discriminate].
  apply while_inv with (I := fun st => t_fin st = true -> forall m, t_m st = Some m -> tf_test th mx (t_res st) m (t_nmv st) = true) in EW.
  - destruct EW as [I C]. apply negb_false_iff in C. destruct (t_m st) as [m|]; [|discriminate]. injection H as <- <-.
    cbn [o_conv o_nmv]. specialize (I C m eq_refl). unfold tf_test in I. apply orb_true_elim in I.
    destruct I as [I|I]; [left; exact I|right; now apply Nat.leb_le].
  - intros s s' _ _ B. unfold tf_body, opmul in B. cbv beta iota zeta in B.
    destruct (tf_pass _ _ _ _ _ _ _ _ _) as [[[[[w d] theta] rn'] eta] x].
    destruct (tf_test _ _ _ _ _) eqn:T1 in B.
    { injection B as <-. cbn [t_fin t_m t_res t_nmv]. intros _ m M. injection M as <-. exact T1. }
    destruct (tf_pass _ _ _ _ _ _ _ _ _) as [[[[[w' d'] theta'] rn''] eta'] x'].
    destruct (tf_test _ _ _ _ _) eqn:T2 in B; injection B as <-; cbn [t_fin t_m t_res t_nmv]; [|discriminate].
    intros _ m M. injection M as <-. exact T2.
  - unfold tf_init, opmul. destruct (_ || _); cbn [t_fin t_m]; discriminate.
Qed.
Definition tf_reached (cnt k : nat) (st : tf_st W) : Prop :=
  let '(r0, c0) := start_r q kw rhs cnt in
  let rn := sabs (ssqrt (vdot r0 r0)) in
  let th := thr q rn in
  rounds (fun st => negb (t_fin st)) (tf_body q r0 th mx) k
    (tf_init q rhs (start_x kw rhs) r0 rn th mx c0) = Ok st.
Lemma tf_goes_on : forall cnt k st, tf_reached cnt k st -> t_fin st = false ->
  (forall m, t_m st = Some m -> sltb (smul (t_res st) (ssqrt (sadd m s1))) (thr q (rn0 q rhs kw cnt)) = false) /\
  (t_m st = None -> sleb (t_res st) (thr q (rn0 q rhs kw cnt)) = false) /\ (t_nmv st <= mx)%nat.
Proof.
  intros cnt k st R F. unfold tf_reached in R. unfold rn0.
  destruct (start_r q kw rhs cnt) as [r0 c0]. cbn [fst]. set (rn := sabs _) in *. set (th := thr q rn) in *.
  destruct k as [|k]; cbn [rounds] in R.
  - injection R as <-. revert F. unfold tf_init, opmul. destruct (_ || _) eqn:T; cbn [t_fin t_m t_res t_nmv]; [discriminate|].
    intros _. apply orb_false_elim in T as [F1 F2]. apply Nat.leb_gt in F2.
    split; [discriminate|]. split; [intros _; exact F1|lia].
  - destruct (rounds _ _ k _) as [s|]; [|discriminate]. destruct (negb (t_fin s)); [|discriminate].
    unfold tf_body, opmul in R. cbv beta iota zeta in R.
    destruct (tf_pass _ _ _ _ _ _ _ _ _) as [[[[[w d] theta] rn'] eta] x].
    destruct (tf_test _ _ _ _ _) eqn:T1 in R.
    { injection R as <-. discriminate F. }
    destruct (tf_pass _ _ _ _ _ _ _ _ _) as [[[[[w' d'] theta'] rn''] eta'] x'].
    destruct (tf_test _ _ _ _ _) eqn:T2 in R; injection R as <-; cbn [t_fin t_m t_res t_nmv] in *; [discriminate|].
    unfold tf_test in T2. apply orb_false_elim in T2 as [F1 F2]. apply Nat.leb_gt in F2.
    split; [intros m M; injection M as <-; exact F1|]. split; [discriminate|lia].
Qed.
End Stop.
