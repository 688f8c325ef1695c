(** * Proofs about the LSMR model: any arithmetic. *)
From Coq Require Import List ZArith QArith Lia Bool.
From Verif Require Import Base Num ToolsModel MinresModel LsqrModel LsqrFlow LsmrModel.
Import ListNotations.
Local Open Scope nat_scope.

Section Flow.
Context {K : Scal} {WV WU : Vs K}.
Notation S := (sc K).
Variables (q : lprob WV WU) (kw : lm_kw WV WU).
Notation lim := (lm_lim q kw).

Ltac nofuel0 := repeat first
  [ progress intros | apply pydiv_nofuel | apply pysqrt_nofuel | apply gk_norm_nofuel | discriminate
  | apply rbind_nofuel | progress cbv beta zeta
  | match goal with
    | |- context [match ?t with pair _ _ => _ end] => destruct t
    | |- context [if ?t then _ else _] => destruct t
    | |- context [match ?t with Some _ => _ | None => _ end] => destruct t
    end ].

Lemma symOrtho_nofuel : forall a b : S, symOrtho a b <> Err EFuel.
Proof. intros. unfold symOrtho. nofuel0. Qed.
Ltac nofuel := repeat first [ progress intros | apply symOrtho_nofuel
  | apply pydiv_nofuel | apply pysqrt_nofuel | apply gk_norm_nofuel | discriminate
  | apply rbind_nofuel | progress cbv beta zeta
  | match goal with
    | |- context [match ?t with pair _ _ => _ end] => destruct t
    | |- context [if ?t then _ else _] => destruct t
    | |- context [match ?t with Some _ => _ | None => _ end] => destruct t
    end ].

Lemma lm_bidiag_nofuel : forall Mu v Nv al cnt, lm_bidiag q kw Mu v Nv al cnt <> Err EFuel.
Proof. intros. unfold lm_bidiag. nofuel. Qed.
Lemma lm_rot1_nofuel : forall a b c d : S, lm_rot1 a b c d <> Err EFuel.
Proof. intros. unfold lm_rot1. nofuel. Qed.
Lemma lm_rot2_nofuel : forall a b c d e : S, lm_rot2 a b c d e <> Err EFuel.
Proof. intros. unfold lm_rot2. nofuel. Qed.
Lemma lm_upx_nofuel : forall (x h hb v : vc WV) a b c d e f g, lm_upx x h hb v a b c d e f g <> Err EFuel.
Proof. intros. unfold lm_upx. nofuel. Qed.
Lemma lm_derr_nofuel : forall itn a b c d e, lm_derr kw itn a b c d e <> Err EFuel.
Proof. intros. unfold lm_derr. nofuel. Qed.
Lemma lm_nr_nofuel : forall a b c d e f g h i j k l m n : S, lm_nr a b c d e f g h i j k l m n <> Err EFuel.
Proof. intros. unfold lm_nr. nofuel. Qed.
Lemma lm_na_nofuel : forall itn (a b c d e f g : S), lm_na itn a b c d e f g <> Err EFuel.
Proof. intros. unfold lm_na. nofuel. Qed.
Lemma lm_tests_nofuel : forall a b c d e f g h, lm_tests kw a b c d e f g h <> Err EFuel.
Proof. intros. unfold lm_tests. nofuel. Qed.

Lemma lm_body_nofuel : forall bnorm st, lm_body q kw bnorm lim st <> Err EFuel.
Proof.
  intros. unfold lm_body. cbv zeta.
  apply rbind_nofuel; [apply lm_bidiag_nofuel|]. intros [[[[[Mu v] Nv] al] be] cnt].
  apply rbind_nofuel; [apply lm_rot1_nofuel|]. intros [[[[[[chat shat] c] s] rho] thn] alb].
  apply rbind_nofuel; [apply lm_rot2_nofuel|]. intros [[[[[[thb rht] cb] sb] rhb] ze] zeb].
  apply rbind_nofuel; [apply lm_upx_nofuel|]. intros [[x h] hb].
  apply rbind_nofuel; [apply lm_derr_nofuel|]. intros [[[nrg2 dErr] dirs] istop].
  apply rbind_nofuel; [apply lm_nr_nofuel|]. intros [[[[[[bdd tht] rhd] bd] tau] d] nr].
  apply rbind_nofuel; [apply lm_na_nofuel|]. intros [[[[nA2 nA] mx] mn] cA].
  apply rbind_nofuel; [apply lm_tests_nofuel|]. discriminate.
Qed.
Lemma lm_init_nofuel : forall b cnt, lm_init q kw b cnt <> Err EFuel.
Proof. intros. unfold lm_init. nofuel. Qed.

Lemma lm_tests_range : forall late i bn an ac rn ar xn r, @lm_tests K WV WU kw late i bn an ac rn ar xn = Ok r ->
  (0 <= i <= 8)%Z -> (0 <= r <= 8)%Z /\ (late = true -> (0 < r)%Z) /\
  (r = 7%Z -> late = true \/ i = 7%Z) /\ (r = 0%Z -> i = 0%Z) /\ (r = 8%Z -> i = 8%Z).
Proof.
  intros late i bn an ac rn ar xn r H HI. unfold lm_tests in H.
  rb H t1 E1. rb H t2 E2. rb H t3 E3. cbv zeta in H. rb H ct E4. injection H as <-.
  clear E1 E2 E3 E4.
  repeat match goal with |- context [sleb ?x ?y] => destruct (sleb x y) end; destruct late;
    repeat split; try lia; auto; discriminate.
Qed.

Lemma lm_bidiag_cnt : forall Mu v Nv al cnt r, lm_bidiag q kw Mu v Nv al cnt = Ok r ->
  let '(_, _, _, _, beta, cnt') := r in cnt' = cnt + (if sgtb beta s0 then 2 else 1).
Proof.
  intros Mu v Nv al cnt r H. unfold lm_bidiag in H. cbv zeta in H.
  rb H x E. destruct x as [[Mu' u'] be]. destruct (sgtb be s0) eqn:EB.
  - destruct Nv as [Nv|]; [|discriminate]. rb H y E2. destruct y as [[? ?] ?]. injection H as <-. rewrite EB. lia.
  - injection H as <-. rewrite EB. lia.
Qed.

Record lm_flow (st0 st : lm_st WV WU) : Prop := {
  mf_cnt : t_cnt st0 + t_itn st <= t_cnt st <= t_cnt st0 + 2 * t_itn st;
  mf_itn : (Z.of_nat (t_itn st) <= Z.max 0 lim)%Z;
  mf_run : t_brk st = false -> t_istop st = 0%Z;
  mf_stop : 1 <= t_itn st -> (0 <= t_istop st <= 8)%Z /\ t_brk st = (0 <? t_istop st)%Z /\
            (t_istop st = 7%Z -> Z.of_nat (t_itn st) = lim) /\
            (t_istop st = 8%Z -> m_window kw < t_itn st);
  mf_late : 1 <= t_itn st -> (lim <= Z.of_nat (t_itn st))%Z -> (0 < t_istop st)%Z;
  mf_zero : t_itn st = 0 -> st = st0;
  mf_win : 1 <= t_itn st -> 1 <= m_window kw;
  mf_brk0 : 1 <= t_itn st -> t_brk st0 = false;
  mf_res : length (t_resids st) = (if negb (t_brk st0) && m_sres kw then t_itn st + 1 else 0) /\
           length (t_nresids st) = (if negb (t_brk st0) && m_sres kw then t_itn st + 1 else 0) /\
           length (t_norms st) = (if m_sres kw then t_itn st else 0) /\
           length (t_iters st) = (if m_sit kw then t_itn st + 1 else 0) /\
           length (t_dirs st) = t_itn st - m_window kw;
  mf_last : last (t_resids st) (t_normr st) = t_normr st /\
            last (t_nresids st) (t_normar st) = t_normar st /\
            last (t_iters st) (t_x st) = t_x st }.

Lemma lm_step_flow : forall bnorm st0 st st', t_istop st0 = 0%Z -> lm_flow st0 st ->
  lm_cond lim st = true -> lm_body q kw bnorm lim st = Ok st' ->
  lm_flow st0 st' /\ t_itn st' = t_itn st + 1.
Proof.
  intros bnorm st0 st st' I0 F C H.
  unfold lm_cond in C. apply andb_prop in C as [C1 C2]. apply negb_true_iff in C1. apply Z.ltb_lt in C2.
  destruct F as [F2 F3 F4 F5 F6 F7 F8 FB F9 F10]. specialize (F4 C1).
  assert (B0 : t_brk st0 = false).
  { destruct (Nat.eq_dec (t_itn st) 0) as [Z|Z]; [rewrite (F7 Z) in C1; exact C1|apply FB; lia]. }
  unfold lm_body in H. cbv zeta in H.
  rb H r E1. pose proof (lm_bidiag_cnt _ _ _ _ _ _ E1) as CN. clear E1.
  destruct r as [[[[[Mu' v'] Nv'] al] be] cnt].
  rb H r E2. clear E2. destruct r as [[[[[[chat shat] c] s] rho] thn] alb].
  rb H r E2. clear E2. destruct r as [[[[[[thb rht] cb] sb] rhb] ze] zeb].
  rb H r E3. clear E3. destruct r as [[x h] hb].
  rb H r E4. destruct r as [[[nrg2 dErr] dirs] istop].
  assert (D : 1 <= m_window kw /\ (istop = 0 \/ istop = 8)%Z /\ (istop = 8%Z -> m_window kw < t_itn st + 1) /\
     length dirs = (length (t_dirs st) + (if m_window kw <? (t_itn st + 1)%nat then 1 else 0))).
  { unfold lm_derr in E4. cbv zeta in E4. destruct (Nat.eqb_spec (m_window kw) 0); [discriminate|].
    split; [lia|]. destruct (Nat.ltb_spec (m_window kw) (t_itn st + 1)).
    - rb E4 g E. injection E4 as _ _ <- <-. rewrite F4, app_length. destruct (sltb _ _); auto.
    - injection E4 as _ _ <- <-. rewrite F4. split; [auto|]. split; [discriminate|lia]. }
  clear E4. destruct D as [D1 [D2 [D8 D3]]].
  rb H r E5. clear E5. destruct r as [[[[[[bdd tht] rhd] bd] tau] d] nr].
  rb H r E6. clear E6. destruct r as [[[[nA2 nA] mx] mn] cA].
  rb H i E7. apply lm_tests_range in E7; [|lia]. destruct E7 as (T1 & T2 & T3 & T4 & T5).
  injection H as <-. split; [|reflexivity].
  destruct F9 as (R1 & R2 & R3 & R4 & R5). rewrite B0 in R1, R2. cbn [negb andb] in R1, R2.
  split; cbn [t_itn t_cnt t_brk t_istop t_resids t_nresids t_norms t_iters t_dirs t_normr t_normar t_x].
  - destruct (sgtb be s0); lia.
  - lia.
  - intro B. apply Z.ltb_ge in B. lia.
  - intros _. split; [exact T1|]. split; [reflexivity|]. split.
    + intro G. destruct (T3 G) as [L|L]; [apply Z.leb_le in L|]; lia.
    + intro G. apply D8, T5, G.
  - intros _ L. apply T2. apply Z.leb_le. lia.
  - lia.
  - intros _. exact D1.
  - intros _. exact B0.
  - rewrite B0. cbn [negb andb].
    destruct (m_sres kw), (m_sit kw); rewrite ?app_length, ?R1, ?R2, ?R3, ?R4, ?D3, ?R5; cbn [length].
    all: destruct (Nat.ltb_spec (m_window kw) (t_itn st + 1)); repeat split; try lia.
  - destruct (m_sres kw), (m_sit kw); rewrite ?last_snoc; auto.
    all: repeat split; try reflexivity.
    all: match goal with |- last ?l _ = _ => destruct l; [reflexivity|cbn in *; lia] end.
Qed.

Lemma lm_init_spec : forall b cnt st, lm_init q kw b cnt = Ok st ->
  t_istop st = 0%Z /\ t_itn st = 0 /\ t_x st = vzeros (lp_n q) /\ t_brk st = seqb (t_normar st) s0 /\
  t_normar st = smul (t_alpha st) (t_beta st) /\ t_normr st = t_beta st /\ t_normx st = s0 /\
  t_cnt st = cnt + (if sgtb (t_beta st) s0 then 1 else 0) /\
  lm_flow st st.
Proof.
  intros b cnt st H. unfold lm_init in H. cbv zeta in H.
  rb H r E1. clear E1. destruct r as [[Mu u] be].
  rb H r E2. destruct r as [[[v Nv] al] c].
  assert (CN : c = cnt + (if sgtb be s0 then 1 else 0)).
  { destruct (sgtb be s0).
    - rb E2 y E. destruct y as [[? ?] ?]. injection E2 as _ _ _ <-. reflexivity.
    - injection E2 as _ _ _ <-. lia. }
  clear E2. rb H nA E3. clear E3. injection H as <-.
  cbn [t_istop t_itn t_x t_brk t_normar t_alpha t_beta t_normr t_normx t_cnt].
  repeat match goal with |- _ /\ _ => split; [solve [reflexivity|exact CN]|] end.
  split; cbn [t_itn t_cnt t_brk t_istop t_resids t_nresids t_norms t_iters t_dirs t_normr t_normar t_x length];
    try lia; try reflexivity.
  - destruct (seqb (smul al be) s0), (m_sres kw), (m_sit kw); cbn; auto.
  - destruct (seqb (smul al be) s0), (m_sres kw), (m_sit kw); cbn; auto.
Qed.

Lemma lm_while_flow : forall fuel bnorm st0 st, t_istop st0 = 0%Z -> lm_flow st0 st0 ->
  while fuel (lm_cond lim) (lm_body q kw bnorm lim) st0 = Ok st -> lm_flow st0 st /\ lm_cond lim st = false.
Proof.
  intros fuel bnorm st0 st I0 F H.
  apply while_inv with (I := fun st => lm_flow st0 st) in H; [exact H| |exact F].
  intros s s' Fs C B. apply (lm_step_flow bnorm st0 s s' I0 Fs C B).
Qed.

Lemma lm_solve_nofuel : forall fuel ob b cnt, Z.to_nat lim < fuel -> lm_solve fuel q kw ob b cnt <> Err EFuel.
Proof.
  intros fuel ob b cnt HF. unfold lm_solve.
  destruct (lm_init q kw b cnt) as [st0|e] eqn:E0.
  2:{ pose proof (lm_init_nofuel b cnt). cbn. congruence. }
  cbn [rbind]. apply lm_init_spec in E0 as (I1 & I2 & _ & _ & _ & _ & _ & _ & F).
  apply rbind_nofuel; [|discriminate].
  apply while_term_err with (I := fun st => lm_flow st0 st) (mu := fun st => Z.to_nat lim - t_itn st);
    [|exact F|lia].
  intros s Fs C. destruct (lm_body q kw (t_beta st0) lim s) as [s'|e] eqn:B.
  - left. exists s'. split; [reflexivity|].
    destruct (lm_step_flow _ st0 s s' I1 Fs C B) as [F' N]. split; [exact F'|].
    unfold lm_cond in C. apply andb_prop in C as [_ C]. apply Z.ltb_lt in C. lia.
  - right. exists e. split; [reflexivity|]. pose proof (lm_body_nofuel (t_beta st0) s). congruence.
Qed.

Lemma lm_flow_spec : forall fuel ob b cnt r ob' cnt', lm_solve fuel q kw ob b cnt = Ok (r, ob', cnt') ->
  (Z.of_nat (r_itn r) <= Z.max 0 lim)%Z /\
  cnt + r_itn r <= cnt' <= cnt + 2 * r_itn r + 1 /\
  (0 <= r_istop r <= 8)%Z /\ (r_istop r = 0%Z <-> r_itn r = 0) /\
  (r_istop r = 7%Z -> Z.of_nat (r_itn r) = lim) /\
  (r_istop r = 8%Z -> m_window kw < r_itn r) /\
  (r_itn r = 0 -> r_x r = vzeros (lp_n q) /\ (seqb (r_normar r) s0 = true \/ (lim <= 0)%Z)) /\
  (a_itn ob' = a_itn ob /\ a_istop ob' = a_istop ob /\ a_Anorm ob' = a_Anorm ob /\ a_Acond ob' = a_Acond ob /\
   a_Arnorm ob' = a_Arnorm ob /\ a_xnorm ob' = a_xnorm ob /\ a_r1norm ob' = a_r1norm ob /\
   a_r2norm ob' = a_r2norm ob /\ a_optimal ob' = a_optimal ob /\ a_nMatvec ob' = a_nMatvec ob /\
   a_converged ob' = a_converged ob) /\
  (a_x ob' = Some (r_x r) \/
   a_x ob' = a_x ob /\ seqb (r_normar r) s0 = true /\ r_itn r = 0 /\ a_resids ob' = [] /\ a_nresids ob' = []) /\
  (r_itn r <> 0 -> a_x ob' = Some (r_x r)) /\
  (m_sres kw = false -> a_resids ob' = [] /\ a_nresids ob' = [] /\ a_norms ob' = []) /\
  (m_sres kw = true -> r_itn r <> 0 -> length (a_resids ob') = r_itn r + 1 /\ length (a_nresids ob') = r_itn r + 1) /\
  (m_sres kw = true -> length (a_norms ob') = r_itn r) /\
  length (a_iters ob') = (if m_sit kw then r_itn r + 1 else 0) /\
  length (a_dirs ob') = r_itn r - m_window kw /\
  last (a_resids ob') (r_normr r) = r_normr r /\ last (a_nresids ob') (r_normar r) = r_normar r /\
  last (a_iters ob') (r_x r) = r_x r /\
  (m_window kw = 0 -> r_itn r = 0).
Proof.
  intros fuel ob b cnt r ob' cnt' H. unfold lm_solve in H.
  rb H st0 E0. rb H st E1. injection H as <- <- <-.
  apply lm_init_spec in E0 as (I1 & I2 & I3 & I4 & I5 & I6 & I7 & I8 & F0).
  apply lm_while_flow in E1 as [F CF]; [|exact I1|exact F0].
  destruct F as [F2 F3 F4 F5 F6 F7 F8 FB F9 F10].
  cbn [r_itn r_istop r_x r_normar r_normr a_itn a_istop a_Anorm a_Acond a_Arnorm a_xnorm a_r1norm a_r2norm a_optimal
       a_nMatvec a_converged a_x a_resids a_nresids a_norms a_iters a_dirs].
  assert (IZ : t_istop st = 0%Z <-> t_itn st = 0).
  { split; intro G.
    - destruct (Nat.eq_dec (t_itn st) 0) as [Z|Z]; [exact Z|exfalso].
      destruct (F5 ltac:(lia)) as (_ & B & _). rewrite G in B. cbn in B.
      unfold lm_cond in CF. rewrite B in CF. cbn [negb andb] in CF. apply Z.ltb_ge in CF.
      specialize (F6 ltac:(lia) CF). lia.
    - rewrite (F7 G). exact I1. }
  assert (IR : (0 <= t_istop st <= 8)%Z).
  { destruct (Nat.eq_dec (t_itn st) 0) as [Z|Z]; [apply IZ in Z; lia|]. apply F5. lia. }
  destruct F9 as (R1 & R2 & R3 & R4 & R5). destruct F10 as (L1 & L2 & L3).
  assert (NB : t_itn st <> 0 -> seqb (t_normar st0) s0 = false).
  { intro N. rewrite <- I4. apply FB. lia. }
  split; [exact F3|].
  split. { destruct (sgtb (t_beta st0) s0); lia. }
  split; [exact IR|]. split; [exact IZ|].
  split. { intro G. destruct (Nat.eq_dec (t_itn st) 0) as [Z|Z]; [apply IZ in Z; lia|]. apply F5; lia. }
  split. { intro G. destruct (Nat.eq_dec (t_itn st) 0) as [Z|Z]; [apply IZ in Z; lia|]. apply F5; lia. }
  split. { intro Z. rewrite (F7 Z). split; [exact I3|]. unfold lm_cond in CF. rewrite (F7 Z), I2, I4 in CF.
    destruct (seqb (t_normar st0) s0); [left; reflexivity|]. right. cbn [negb andb] in CF. apply Z.ltb_ge in CF. exact CF. }
  split; [do 10 (split; [reflexivity|]); reflexivity|].
  split. { destruct (seqb (t_normar st0) s0) eqn:SE; [right|left; reflexivity].
    destruct (Nat.eq_dec (t_itn st) 0) as [Z|Z]; [|specialize (NB Z); congruence].
    split; [reflexivity|]. rewrite (F7 Z) at 1. split; [exact SE|]. split; [exact Z|].
    rewrite I4 in R1, R2. cbn in R1, R2.
    split; apply length_zero_iff_nil; assumption. }
  split. { intro N. rewrite (NB N). reflexivity. }
  split. { intro SR. rewrite SR in R1, R2, R3. rewrite andb_false_r in R1, R2.
    split; [|split]; apply length_zero_iff_nil; assumption. }
  split. { intros SR N. rewrite I4, (NB N), SR in R1, R2. auto. }
  split. { intro SR. rewrite SR in R3. exact R3. }
  split; [exact R4|]. split; [exact R5|]. split; [exact L1|]. split; [exact L2|]. split; [exact L3|].
  intro Z. destruct (Nat.eq_dec (t_itn st) 0) as [G|G]; [exact G|]. specialize (F8 ltac:(lia)). lia.
Qed.

(** [A'b = 0]: the early return. *)
Lemma lm_zero : forall fuel ob b cnt st0, lm_init q kw b cnt = Ok st0 ->
  seqb (smul (t_alpha st0) (t_beta st0)) s0 = true -> 0 < fuel ->
  exists r ob', lm_solve fuel q kw ob b cnt = Ok (r, ob', t_cnt st0) /\
    r_istop r = 0%Z /\ r_itn r = 0 /\ r_x r = vzeros (lp_n q) /\ a_x ob' = a_x ob /\
    r_normr r = t_beta st0 /\ r_normx r = s0.
Proof.
  intros fuel ob b cnt st0 E0 Z HF. unfold lm_solve. rewrite E0. cbn [rbind].
  pose proof (lm_init_spec _ _ _ E0) as (I1 & I2 & I3 & I4 & I5 & I6 & I7 & I8 & F0).
  destruct fuel as [|fuel]; [lia|].
  assert (C : lm_cond lim st0 = false).
  { unfold lm_cond. rewrite I4, I5, Z. reflexivity. }
  cbn [while]. rewrite C. cbv beta iota. eexists _, _. split; [reflexivity|].
  cbn [r_itn r_istop r_x a_x r_normr r_normx]. rewrite I5, Z. auto 10.
Qed.
End Flow.
