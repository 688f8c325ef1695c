(** * Properties C86, C87: solvers running on operator objects.

    Vocabulary:
    - [client], [pure], [heap] (Client.v): a program that uses operators only through products, its
      run against mathematical functions, and its run against operator objects, in which every
      product is [apply] and changes the heap;
    - [stands s a enc dec A]: in heap [s] the object [a] does what the function [A] does, vectors
      being passed as arrays by [enc] and read back by [dec];
    - [cgc_solve], [lsc_solve], ... (CgClient.v, MrClient.v, LsClient.v): the solvers as clients. *)
From Coq Require Import List ZArith Lia Bool Arith Reals Lra.
From Verif Require Import Base Num Field Vec ToolsModel CgModel KrylovModel MinresModel LsqrModel LsmrModel CraigModel
  LinopModel LinopFrame LinopDep LinopGood LinopOps LinopExpr LinopPtr LinopExtra LinopMat PropLinop Cplx
  Client CgClient MrClient LsClient ClientReal.
Import ListNotations.
Local Open Scope nat_scope.

Section Gen.
Context {F : Fld}.

Definition stands {X Y : Type} (s : st F) (a : addr) (enc : X -> arr F) (dec : arr F -> Y) (A : X -> Y) : Prop :=
  exists n m dt g, GoodD s a n m dt g /\
    forall x, awf (enc x) /\ asize (enc x) = n /\
      dec (mkarr (result_type dt (adt (enc x))) (g (adata (enc x)))) = A x.

(** Between [s] and [s'] nothing but product counters changed, and they only grew. *)
Definition only_counters (s s' : st F) : Prop :=
  arrs s' = arrs s /\ rows s' = rows s /\
  forall b, match objs s b, objs s' b with
            | Some o, Some o' => with_count 0 o = with_count 0 o' /\ o_count o <= o_count o'
            | None, None => True | _, _ => False end.
Lemma cle_only : forall s s' : st F, cle s s' -> only_counters s s'.
Proof. intros s s' []. unfold only_counters. auto. Qed.

(** Object [b] is not multiplied with when object [a] is asked, unless it is [a] itself. *)
Definition apart (s : st F) (a b : addr) : Prop := a = b \/ ~ reach s a b.

(** ** C86: any program. *)
Theorem C86_client : forall (Q : Type) (Arg Ans : Q -> Type) (R : Type) (ad : Q -> addr)
    (enc : forall q, Arg q -> arr F) (dec : forall q, arr F -> Ans q) (f : forall q, Arg q -> Ans q)
    (c : client Arg Ans R) (s : st F) r t,
  pure f c = (r, t) -> (forall q, In q t -> stands s (ad q) (enc q) (dec q) (f q)) ->
  exists D, forall d, D <= d -> exists s', heap ad enc dec d c s = (s', Ok r) /\ only_counters s s' /\
    forall b, (forall q, In q t -> apart s (ad q) b) ->
      count s' b = count s b + length (filter (fun q => Nat.eqb (ad q) b) t).
Proof.
  intros Q Arg Ans R ad enc dec f c s r t E H.
  destruct (heap_pure ad enc dec R f c s) as [D HD].
  - rewrite E. exact H.
  - exists D. intros d Hd. destruct (HD d s Hd (cle_refl s)) as (s' & E' & C & N). rewrite E in *.
    exists s'. split; [exact E'|]. split; [now apply cle_only|]. exact N.
Qed.

(** ** C86: the Krylov solvers, in any arithmetic. *)
Section Krylov.
Context {K : Scal} {W : Vs K}.
Notation V := (vc W).
Variables (enc : V -> arr F) (dec : arr F -> V) (s : st F) (a p : addr).
Definition adk (l : lab) : addr := match l with LA => a | LP => p end.
Definition runk {R : Type} (d : nat) (c : client (fun _ : lab => V) (fun _ : lab => V) R) : M F R :=
  heap adk (fun _ => enc) (fun _ => dec) d c.

(** Run on the objects, [c] returns [r]; the counter of the operator grows as [r] says. *)
Definition same_run {O : Type} (hasP : bool) (c : client (fun _ : lab => V) (fun _ : lab => V) (res (O * nat)))
    (r : res (O * nat)) (cnt : nat) : Prop :=
  exists D, forall d, D <= d -> exists s', runk d c s = (s', Ok r) /\ only_counters s s' /\
    forall o cnt', r = Ok (o, cnt') -> (hasP = true -> p <> a /\ ~ reach s p a) -> count s' a + cnt = count s a + cnt'.

Lemma same_run_of : forall (O : Type) hasP (c : client (fun _ : lab => V) (fun _ : lab => V) (res (O * nat))) r cnt f,
  stands s a enc dec (f LA) -> (hasP = true -> stands s p enc dec (f LP)) ->
  fst (pure f c) = r -> (forall o cnt', r = Ok (o, cnt') -> cnt' = cnt + nA (snd (pure f c))) ->
  asksin (fun l => l = LP -> hasP = true) c -> same_run hasP c r cnt.
Proof.
  intros O hasP c r cnt f SA SP E N AI. destruct (pure f c) as [r0 t] eqn:P. cbn [fst snd] in *. subst r0.
  assert (HT : forall q, In q t -> q = LP -> hasP = true).
  { intros q Hq. apply (asksin_pure _ _ f c q AI). rewrite P. exact Hq. }
  destruct (C86_client lab _ _ _ adk (fun _ => enc) (fun _ => dec) f c s r t P) as [D HD].
  - intros [|] Hq; cbn [adk]; [exact SA|]. apply SP. apply (HT LP Hq eq_refl).
  - exists D. intros d Hd. destruct (HD d Hd) as (s' & E' & OC & CN). exists s'. split; [exact E'|]. split; [exact OC|].
    intros o cnt' Er HA. rewrite (N _ _ Er). rewrite CN.
    + assert (EQ : length (filter (fun q => Nat.eqb (adk q) a) t) = nA t).
      { unfold nA. clear - HT HA. induction t as [|[|] t IH]; [reflexivity| |]; cbn [filter adk isA].
        - rewrite Nat.eqb_refl. cbn [length]. f_equal. apply IH. intros q Hq. apply HT. right. exact Hq.
        - destruct (HA (HT LP (or_introl eq_refl) eq_refl)) as [NE _]. apply Nat.eqb_neq in NE. rewrite NE.
          apply IH. intros q Hq. apply HT. right. exact Hq. }
      rewrite EQ. lia.
    + intros [|] Hq; [left; reflexivity|]. right. apply HA. apply (HT LP Hq eq_refl).
Qed.

Variable q : kprob W.
Hypothesis SA : stands s a enc dec (q_A q).
Hypothesis SP : forall P, q_P q = Some P -> stands s p enc dec P.
Definition hasP : bool := match q_P q with Some _ => true | None => false end.
Lemma SP' : hasP = true -> stands s p enc dec (answers q LP).
Proof.
  unfold hasP, answers, prec. destruct (q_P q) as [P|] eqn:E; [|discriminate]. intros _.
  apply SP. reflexivity.
Qed.

Theorem C86_cg : forall fuel o rhs kw cnt,
  same_run hasP (cgc_solve fuel (parof q) o rhs kw cnt) (cg_solve fuel q o rhs kw cnt) cnt.
Proof.
  intros. destruct (pure_cgc_solve fuel q o rhs kw cnt) as [E N].
  apply (same_run_of _ hasP _ _ _ (answers q)); [exact SA|exact SP'|exact E|exact N|exact (asks_cgc fuel (parof q) o rhs kw cnt)].
Qed.
Theorem C86_cgs : forall fuel rhs kw cnt,
  same_run hasP (cgsc_solve fuel (parof q) rhs kw cnt) (cgs_solve fuel q rhs kw cnt) cnt.
Proof.
  intros. destruct (pure_cgsc_solve fuel q rhs kw cnt) as [E N].
  apply (same_run_of _ hasP _ _ _ (answers q)); [exact SA|exact SP'|exact E|exact N|exact (asks_cgsc fuel (parof q) rhs kw cnt)].
Qed.
Theorem C86_bicgstab : forall fuel rhs kw cnt,
  same_run hasP (bic_solve fuel (parof q) rhs kw cnt) (bi_solve fuel q rhs kw cnt) cnt.
Proof.
  intros. destruct (pure_bic_solve fuel q rhs kw cnt) as [E N].
  apply (same_run_of _ hasP _ _ _ (answers q)); [exact SA|exact SP'|exact E|exact N|exact (asks_bic fuel (parof q) rhs kw cnt)].
Qed.
Theorem C86_tfqmr : forall fuel rhs kw cnt,
  same_run hasP (tfc_solve fuel (parof q) rhs kw cnt) (tf_solve fuel q rhs kw cnt) cnt.
Proof.
  intros. destruct (pure_tfc_solve fuel q rhs kw cnt) as [E N].
  apply (same_run_of _ hasP _ _ _ (answers q)); [exact SA|exact SP'|exact E|exact N|exact (asks_tfc fuel (parof q) rhs kw cnt)].
Qed.
(** The preconditioner of MINRES is a keyword argument. *)
Theorem C86_minres : forall fuel hist b kw cnt,
  (forall P, m_precon kw = Some P -> stands s p enc dec P) ->
  same_run (match m_precon kw with Some _ => true | None => false end)
    (mrc_solve fuel (mparof q kw) hist b kw cnt) (mr_solve fuel q hist b kw cnt) cnt.
Proof.
  intros fuel hist b kw cnt SPm. destruct (pure_mrc_solve q kw fuel hist b cnt) as [E N].
  apply (same_run_of _ _ _ _ _ (manswers q kw)); [exact SA| |exact E|exact N|exact (asks_mrc fuel (mparof q kw) hist b kw cnt)].
  unfold manswers, mr_y0. destruct (m_precon kw) as [P|]; [|discriminate]. intros _. apply SPm. reflexivity.
Qed.
End Krylov.

(** ** C86: the least-squares solvers.  [t] is the object A.T. *)
Section Ls.
Context {K : Scal} {WV WU : Vs K}.
Notation V := (vc WV).
Notation U := (vc WU).
Variables (encV : V -> arr F) (decV : arr F -> V) (encU : U -> arr F) (decU : arr F -> U).
Variables (s : st F) (a t pm pn : addr).
Definition adl (l : llab) : addr := match l with QA => a | QT => t | QM => pm | QN => pn end.
Definition encl (l : llab) : larg (WV := WV) (WU := WU) l -> arr F :=
  match l with QA => encV | QT => encU | QM => encU | QN => encV end.
Definition decl (l : llab) : arr F -> lans (WV := WV) (WU := WU) l :=
  match l with QA => decU | QT => decV | QM => decU | QN => decV end.
Definition runl {R : Type} (d : nat) (c : client larg lans R) : M F R := heap adl encl decl d c.

Variables (q : lprob WV WU) (M0 : option (U -> U)) (N0 : option (V -> V)).
Hypothesis SA : stands s a encV decU (lp_A q).
Hypothesis ST : stands s t encU decV (lp_At q).
Hypothesis SM : forall P, M0 = Some P -> stands s pm encU decU P.
Hypothesis SN : forall P, N0 = Some P -> stands s pn encV decV P.

(** Run on the objects, [c] returns [r]; the counters of A and A.T together grow as [r] says,
    provided products with the one are not products with the other, or they are one object. *)
Definition same_runl {O : Type} (c : client larg lans (res (O * nat))) (r : res (O * nat)) (cnt : nat) : Prop :=
  exists D, forall d, D <= d -> exists s', runl d c s = (s', Ok r) /\ only_counters s s' /\
    forall o cnt', r = Ok (o, cnt') ->
      (M0 <> None -> pm <> a /\ pm <> t /\ ~ reach s pm a /\ ~ reach s pm t) ->
      (N0 <> None -> pn <> a /\ pn <> t /\ ~ reach s pn a /\ ~ reach s pn t) ->
      (t = a -> count s' a + cnt = count s a + cnt') /\
      (~ reach s a t -> ~ reach s t a -> count s' a + count s' t + cnt = count s a + count s t + cnt').

Lemma same_runl_of : forall (O : Type) (c : client larg lans (res (O * nat))) r cnt,
  runs q M0 N0 cnt c r snd -> asksin (nomn (lparof q M0 N0)) c -> same_runl c r cnt.
Proof.
  intros O c r cnt [E N] AI. unfold same_runl. destruct (pure (lanswers q M0 N0) c) as [r0 tr] eqn:P.
  cbn [fst snd] in *. subst r0.
  assert (HT : forall l, In l tr -> nomn (lparof q M0 N0) l).
  { intros l Hl. apply (asksin_pure _ _ (lanswers q M0 N0) c l AI). rewrite P. exact Hl. }
  assert (HM : In QM tr -> exists Q, M0 = Some Q).
  { intro Hl. destruct (HT QM Hl) as [H _]. specialize (H eq_refl). cbn in H. destruct M0; [eauto|discriminate]. }
  assert (HN : In QN tr -> exists Q, N0 = Some Q).
  { intro Hl. destruct (HT QN Hl) as [_ H]. specialize (H eq_refl). cbn in H. destruct N0; [eauto|discriminate]. }
  destruct (C86_client llab _ _ _ adl encl decl (lanswers q M0 N0) c s r tr P) as [D HD].
  - intros [| | |] Hl; cbn [adl encl decl lanswers]; [exact SA|exact ST| |].
    + destruct (HM Hl) as [Q E]. rewrite E. apply SM. exact E.
    + destruct (HN Hl) as [Q E]. rewrite E. apply SN. exact E.
  - exists D. intros d Hd. destruct (HD d Hd) as (s' & E' & OC & CN). exists s'. split; [exact E'|]. split; [exact OC|].
    intros o cnt' Er CM CNN. specialize (N _ Er). cbn [snd] in N.
    assert (CM' : In QM tr -> pm <> a /\ pm <> t /\ ~ reach s pm a /\ ~ reach s pm t).
    { intro Hl. destruct (HM Hl) as [Q E]. apply CM. rewrite E. discriminate. }
    assert (CN' : In QN tr -> pn <> a /\ pn <> t /\ ~ reach s pn a /\ ~ reach s pn t).
    { intro Hl. destruct (HN Hl) as [Q E]. apply CNN. rewrite E. discriminate. }
    split.
    + intro Eta. rewrite CN.
      * assert (EQ : length (filter (fun l => Nat.eqb (adl l) a) tr) = nAT tr).
        { unfold nAT. clear - CM' CN' Eta. induction tr as [|[| | |] tr IH]; [reflexivity| | | |]; cbn [filter adl isAT].
          - rewrite Nat.eqb_refl. cbn [length]. f_equal. apply IH; intro; [apply CM'|apply CN']; right; assumption.
          - rewrite Eta, Nat.eqb_refl. cbn [length]. f_equal. apply IH; intro; [apply CM'|apply CN']; right; assumption.
          - destruct (CM' (or_introl eq_refl)) as [NE _]. apply Nat.eqb_neq in NE. rewrite NE.
            apply IH; intro; [apply CM'|apply CN']; right; assumption.
          - destruct (CN' (or_introl eq_refl)) as [NE _]. apply Nat.eqb_neq in NE. rewrite NE.
            apply IH; intro; [apply CM'|apply CN']; right; assumption. }
        rewrite EQ, N. lia.
      * intros [| | |] Hl; cbn [adl]; [left; reflexivity|left; exact Eta| |]; right; [apply CM'|apply CN']; assumption.
    + intros R1 R2.
      assert (NE : a <> t) by (intro E0; apply R1; rewrite <- E0; apply reach_refl).
      rewrite (CN a), (CN t).
      * assert (EQ : length (filter (fun l => Nat.eqb (adl l) a) tr) + length (filter (fun l => Nat.eqb (adl l) t) tr) = nAT tr).
        { unfold nAT. clear - CM' CN' NE. induction tr as [|[| | |] tr IH]; [reflexivity| | | |]; cbn [filter adl isAT].
          - rewrite Nat.eqb_refl. apply Nat.eqb_neq in NE. rewrite NE. cbn [length]. rewrite <- IH; [lia| |]; intro; [apply CM'|apply CN']; right; assumption.
          - rewrite Nat.eqb_refl. apply not_eq_sym in NE. apply Nat.eqb_neq in NE. rewrite NE. cbn [length].
            rewrite <- IH; [lia| |]; intro; [apply CM'|apply CN']; right; assumption.
          - destruct (CM' (or_introl eq_refl)) as (N1 & N2 & _). apply Nat.eqb_neq in N1, N2. rewrite N1, N2.
            apply IH; intro; [apply CM'|apply CN']; right; assumption.
          - destruct (CN' (or_introl eq_refl)) as (N1 & N2 & _). apply Nat.eqb_neq in N1, N2. rewrite N1, N2.
            apply IH; intro; [apply CM'|apply CN']; right; assumption. }
        rewrite N. lia.
      * intros [| | |] Hl; cbn [adl]; [right; exact R1|left; reflexivity| |]; right; [apply CM'|apply CN']; assumption.
      * intros [| | |] Hl; cbn [adl]; [left; reflexivity|right; exact R2| |]; right; [apply CM'|apply CN']; assumption.
Qed.

Theorem C86_lsqr : forall fuel kw rhs cnt, l_M kw = M0 -> l_N kw = N0 ->
  same_runl (lsc_solve fuel (lparof q M0 N0) kw rhs cnt) (ls_solve fuel q kw rhs cnt) cnt.
Proof.
  intros fuel kw rhs cnt EM EN. apply same_runl_of; [|apply asks_lsc]. rewrite <- EM, <- EN. apply runs_lsc_solve.
Qed.
Theorem C86_lsmr : forall fuel kw ob b cnt, m_M kw = M0 -> m_N kw = N0 ->
  same_runl (lmc_solve fuel (lparof q M0 N0) kw ob b cnt) (lm_solve fuel q kw ob b cnt) cnt.
Proof.
  intros fuel kw ob b cnt EM EN. apply same_runl_of; [|apply asks_lmc]. rewrite <- EM, <- EN. apply runs_lmc_solve.
Qed.
Theorem C86_craig : forall fuel kw b cnt, c_M kw = M0 -> c_N kw = N0 ->
  same_runl (crc_solve fuel (lparof q M0 N0) kw b cnt) (cr_solve fuel q kw b cnt) cnt.
Proof.
  intros fuel kw b cnt EM EN. apply same_runl_of; [|apply asks_crc]. rewrite <- EM, <- EN. apply runs_crc_solve.
Qed.
Theorem C86_craigmr : forall fuel kw b cnt, h_M kw = M0 -> h_N kw = N0 ->
  same_runl (cmc_solve fuel (lparof q M0 N0) kw b cnt) (cm_solve fuel q kw b cnt) cnt.
Proof.
  intros fuel kw b cnt EM EN. apply same_runl_of; [|apply asks_cmc]. rewrite <- EM, <- EN. apply runs_cmc_solve.
Qed.
End Ls.
End Gen.

Lemma stands_act : forall (s : st FCR) a n m dt f, GoodD s a n m dt f ->
  stands s a (@enc n) (dec m) (act n m f).
Proof.
  intros s a n m dt f G. exists n, m, dt, f. split; [exact G|]. intro x.
  destruct (enc_ok n x) as [H1 H2]. split; [exact H1|]. split; [exact H2|]. apply dec_act.
Qed.


(** ** A concrete case: a 3 by 2 and a 2 by 2 matrix of float64 numbers, made into operators one
    after the other.  Both stand for real maps, so does the attribute T of the first, and no product
    with one of the three makes a product with another. *)
Definition rc (x : R) : FCR := (x, 0%R).
Definition mA : list (list FCR) := [[rc 1; rc 0]; [rc 0; rc 1]; [rc 1; rc 2]].
Lemma rc_real : forall x, kconj (f := FCR) (rc x) = rc x.
Proof. intro x. unfold rc. cbn. f_equal. ring. Qed.
Lemma mA_builds : builds (ndarray_op DFloat 3 2 mA false None) (@empty_st FCR) 2 3 DFloat (mat_vec mA).
Proof.
  apply (ndarray_builds FCR_OK); try discriminate; try reflexivity.
  - repeat split; auto.
  - split; [reflexivity|]. intros r [<-|[<-|[<-|[]]]]; reflexivity.
  - intros _ r [<-|[<-|[<-|[]]]]; unfold vreal, vconj; cbn [map]; rewrite !rc_real; reflexivity.
Qed.
Definition mN : list (list FCR) := [[rc 2; rc 1]; [rc 1; rc 2]].

Lemma reach_leaf : forall (s : st FCR) a b o g, objs s a = Some o -> o_mv o = CUser g -> reach s a b -> a = b.
Proof.
  intros s a b o g Ho Hm H. destruct H as [a|a b c (o1 & H1 & D) _]; [reflexivity|].
  rewrite Ho in H1. injection H1 as <-. rewrite Hm in D. destruct D.
Qed.
Example ex_C86 : exists (s : st FCR) a t p At P, attrT s a = Some t /\
  stands s a (@enc 2) (dec 3) (act 2 3 (mat_vec mA)) /\ stands s t (@enc 3) (dec 2) At /\ stands s p (@enc 2) (dec 2) P /\
  @adjoint (Rn 2) (Rn 3) (act 2 3 (mat_vec mA)) At /\
  p <> a /\ p <> t /\ ~ reach s p a /\ ~ reach s p t /\ ~ reach s a t /\ ~ reach s t a.
Proof.
  destruct mA_builds as (s & a & E & _ & Wf & G).
  assert (B : builds (ndarray_op DFloat 2 2 mN false None) s 2 2 DFloat (mat_vec mN)).
  { apply (ndarray_builds FCR_OK); try discriminate; try reflexivity; [exact Wf| |].
    - split; [reflexivity|]. intros r [<-|[<-|[]]]; reflexivity.
    - intros _ r [<-|[<-|[]]]; unfold vreal, vconj; cbn [map]; rewrite !rc_real; reflexivity. }
  destruct B as (s1 & p & E1 & X & Wf1 & G1).
  destruct (GoodD_T s1 a 2 3 DFloat _ (GoodD_mono _ _ _ _ _ _ _ X G) eq_refl) as (t & g & Ht & Gt & AD).
  unfold ndarray_op in E, E1. cbn in E. injection E as <- <-. cbn in E1. injection E1 as Es <-.
  assert (Et : attrT s1 0 = Some 1) by (rewrite <- Es; reflexivity).
  rewrite Et in Ht. injection Ht as <-.
  exists s1, 0, 1, 2, (act 3 2 g), (act 2 2 (mat_vec mN)). split; [exact Et|].
  split; [eapply stands_act, GoodD_mono; [exact X|exact G]|]. split; [eapply stands_act; exact Gt|].
  split; [eapply stands_act; exact G1|]. split; [exact AD|].
  rewrite <- Es. repeat split; try discriminate; intro H;
    (eapply reach_leaf in H; [|reflexivity|reflexivity]; discriminate).
Qed.

Print Assumptions C86_client.
Print Assumptions C86_cg.
Print Assumptions C86_cgs.
Print Assumptions C86_bicgstab.
Print Assumptions C86_tfqmr.
Print Assumptions C86_minres.
Print Assumptions C86_lsqr.
Print Assumptions C86_lsmr.
Print Assumptions C86_craig.
Print Assumptions C86_craigmr.
