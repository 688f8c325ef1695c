(** * Proofs about the LSQR model: any arithmetic. *)
From Coq Require Import List ZArith QArith Lia Bool.
From Verif Require Import Base Num ToolsModel MinresModel LsqrModel.
Import ListNotations.
Local Open Scope nat_scope.

Lemma rbind_ok : forall {A B} (m : res A) (f : A -> res B) b,
  rbind m f = Ok b -> exists a, m = Ok a /\ f a = Ok b.
Proof. intros A B [a|e] f b H; cbn in H; [eauto|discriminate]. Qed.

(** [rb H a E]: peel one [rbind] off [H : rbind m f = Ok b], naming the result [a] and [E : m = Ok a]. *)
Ltac rb H a E := apply rbind_ok in H; destruct H as [a [E H]].

Lemma rbind_nofuel : forall {A B} (m : res A) (f : A -> res B),
  m <> Err EFuel -> (forall a, f a <> Err EFuel) -> rbind m f <> Err EFuel.
Proof. intros A B [a|e] f H1 H2; cbn; [apply H2|congruence]. Qed.

Section Flow.
Context {K : Scal} {WV WU : Vs K}.
Notation S := (sc K).
Variables (q : lprob WV WU) (kw : ls_kw WV WU).
Notation lim := (ls_lim q kw).

Lemma pydiv_nofuel : forall a b : S, pydiv a b <> Err EFuel.
Proof. intros. unfold pydiv. destruct (seqb _ _); discriminate. Qed.
Lemma pysqrt_nofuel : forall a : S, pysqrt a <> Err EFuel.
Proof. intros. unfold pysqrt. destruct (sltb _ _); discriminate. Qed.
Lemma gk_norm_nofuel : forall {W : Vs K} P (y : vc W), gk_norm P y <> Err EFuel.
Proof. intros. unfold gk_norm. apply rbind_nofuel; [apply pysqrt_nofuel|]. intro. destruct (sgtb _ _); discriminate. Qed.

Ltac nofuel := repeat first
  [ progress intros | apply pydiv_nofuel | apply pysqrt_nofuel | apply gk_norm_nofuel | discriminate
  | apply rbind_nofuel | progress cbv beta zeta
  | match goal with
    | |- context [match ?t with pair _ _ => _ end] => destruct t
    | |- context [if ?t then _ else _] => destruct t
    | |- context [match ?t with Some _ => _ | None => _ end] => destruct t
    end ].

Lemma ls_bidiag_nofuel : forall Mu u v Nv al An cnt, ls_bidiag q kw Mu u v Nv al An cnt <> Err EFuel.
Proof. intros. unfold ls_bidiag, pnorm4. nofuel. Qed.
Lemma ls_rot_nofuel : forall a b c d e : S, ls_rot a b c d e <> Err EFuel.
Proof. intros. unfold ls_rot, pnorm2. nofuel. Qed.
Lemma ls_upx_nofuel : forall (x w v : vc WV) a b c, ls_upx x w v a b c <> Err EFuel.
Proof. intros. unfold ls_upx. nofuel. Qed.
Lemma ls_derr_nofuel : forall itn a b c d e, ls_derr kw itn a b c d e <> Err EFuel.
Proof. intros. unfold ls_derr. nofuel. Qed.
Lemma ls_xn_nofuel : forall a b c d e f g : S, ls_xn a b c d e f g <> Err EFuel.
Proof. intros. unfold ls_xn, pnorm2. nofuel. Qed.
Lemma ls_norms_nofuel : forall a b c d e f g h i : S, ls_norms a b c d e f g h i <> Err EFuel.
Proof. intros. unfold ls_norms. nofuel. Qed.
Lemma ls_tests_nofuel : forall a b c d e f g h, ls_tests kw a b c d e f g h <> Err EFuel.
Proof. intros. unfold ls_tests. nofuel. Qed.

Lemma ls_body_nofuel : forall bnorm st, ls_body q kw bnorm lim st <> Err EFuel.
Proof.
  intros. unfold ls_body. destruct (s_vN st) as [[v Nv]|]; [|discriminate].
  apply rbind_nofuel; [apply ls_bidiag_nofuel|]. intros [[[[[[[Mu' u'] v'] Nv'] al] be] An] cnt].
  apply rbind_nofuel; [apply ls_rot_nofuel|]. intros [[[[[[psi rho] theta] rhobar] phi] phibar] tau].
  destruct (s_w st) as [w|]; [|nofuel].
  apply rbind_nofuel; [apply ls_upx_nofuel|]. intros [[x w'] dk].
  apply rbind_nofuel; [apply ls_derr_nofuel|]. intros [[[nrg2 dErr] dirs] istop].
  apply rbind_nofuel; [apply ls_xn_nofuel|]. intros [[[[xnorm cs2] sn2] z] xxnorm].
  apply rbind_nofuel; [apply ls_norms_nofuel|]. intros [[[[Acond res2] rnorm] Arnorm] r1norm].
  apply rbind_nofuel; [apply ls_tests_nofuel|]. discriminate.
Qed.
Lemma ls_init_nofuel : forall rhs cnt, ls_init q kw rhs cnt <> Err EFuel.
Proof. intros. unfold ls_init. nofuel. Qed.

Lemma ls_tests_range : forall late i bn an ac rn ar xn r, @ls_tests K WV WU kw late i bn an ac rn ar xn = Ok r ->
  (0 <= i <= 8)%Z -> (0 <= r <= 8)%Z /\ (late = true -> (0 < r)%Z) /\
  (r = 7%Z -> late = true \/ i = 7%Z) /\ (r = 0%Z -> i = 0%Z).
Proof.
  intros late i bn an ac rn ar xn r H HI. unfold ls_tests in H.
  rb H t1 E1. rb H t2 E2. rb H t3 E3. rb H ax E4. rb H t4 E5. rb H t6 E6. injection H as <-.
  clear E1 E2 E3 E4 E5 E6.
  generalize (sleb t1 (sadd (l_btol kw) t6)) (ls_le (l_infle kw) t2 (l_atol kw)) (ls_le (l_infle kw) t3 s0)
    (sleb (sadd s1 t4) s1) (ls_le1 (l_infle kw) t2) (ls_le1 (l_infle kw) t3).
  intros b1 b2 b3 b4 b5 b6.
  destruct b1; [repeat split; lia|]. destruct b2; [repeat split; lia|]. destruct b3; [repeat split; lia|].
  destruct b4; [repeat split; lia|]. destruct b5; [repeat split; lia|]. destruct b6; [repeat split; lia|].
  destruct late; repeat split; try lia; auto; discriminate.
Qed.

Lemma ls_bidiag_cnt : forall Mu u v Nv al An cnt r, ls_bidiag q kw Mu u v Nv al An cnt = Ok r ->
  let '(_, _, _, _, _, beta, _, cnt') := r in cnt' = cnt + (if sgtb beta s0 then 2 else 1).
Proof.
  intros Mu u v Nv al An cnt r H. unfold ls_bidiag in H. cbv zeta in H.
  rb H x E. destruct x as [[Mu' u'] be]. destruct (sgtb be s0) eqn:EB.
  - rb H An' E1. rb H y E2. destruct y as [[? ?] ?]. injection H as <-. rewrite EB. lia.
  - injection H as <-. rewrite EB. lia.
Qed.

Lemma ls_derr_i : forall itn phi nrg2 dErr dirs i nrg2' dErr' dirs' i',
  ls_derr kw itn phi nrg2 dErr dirs i = Ok (nrg2', dErr', dirs', i') -> i' = i \/ i' = 8%Z.
Proof.
  intros itn phi nrg2 dErr dirs i nrg2' dErr' dirs' i' H. unfold ls_derr in H. cbv zeta in H.
  destruct (l_window kw =? 0); [discriminate|]. destruct (l_window kw <? itn).
  - rb H nrg E. destruct (sltb _ _); injection H as _ _ _ <-; auto.
  - injection H as _ _ _ <-. auto.
Qed.

Lemma ls_body_tests : forall bnorm st st', ls_body q kw bnorm lim st = Ok st' ->
  exists late i, (i = s_istop st \/ i = 8%Z) /\
    @ls_tests K WV WU kw late i bnorm (s_Anorm st') (s_Acond st') (s_r2norm st') (s_Arnorm st') (s_xnorm st') = Ok (s_istop st').
Proof.
  intros bnorm st st' H.
  unfold ls_body in H. destruct (s_vN st) as [[v Nv]|]; [|discriminate].
  rb H r E1. clear E1. destruct r as [[[[[[[Mu' u'] v'] Nv'] al] be] An] cnt].
  rb H r E2. clear E2. destruct r as [[[[[[psi rho] theta] rhobar] phi] phibar] tau].
  destruct (s_w st) as [w|]; [|rb H y0 E0; rb H y1 E2; rb H y2 E3; discriminate].
  rb H r E3. clear E3. destruct r as [[x w'] dk].
  rb H r E4. destruct r as [[[nrg2 dErr] dirs] istop].
  rb H r E5. destruct r as [[[[xnorm cs2] sn2] z] xxnorm].
  rb H r E6. destruct r as [[[[Acond res2] rnorm] Arnorm] r1norm].
  rb H r E7. injection H as <-. cbn [s_Anorm s_Acond s_r2norm s_Arnorm s_xnorm s_istop].
  eexists _, istop. split; [exact (ls_derr_i _ _ _ _ _ _ _ _ _ _ E4)|exact E7].
Qed.

(** [bs]: the successive values of [beta] computed in the loop. *)
Record ls_flow (st0 st : ls_st WV WU) (bs : list S) : Prop := {
  lf_len : length bs = s_itn st;
  lf_cnt : s_cnt st = s_cnt st0 + s_itn st + length (filter (fun be => sgtb be s0) bs);
  lf_itn : (Z.of_nat (s_itn st) <= Z.max 0 lim)%Z;
  lf_run : s_brk st = false -> s_istop st = 0%Z;
  lf_stop : 1 <= s_itn st -> (0 <= s_istop st <= 8)%Z /\ s_brk st = (0 <? s_istop st)%Z /\
            (s_istop st = 7%Z -> Z.of_nat (s_itn st) = lim);
  lf_late : 1 <= s_itn st -> (lim <= Z.of_nat (s_itn st))%Z -> (0 < s_istop st)%Z;
  lf_zero : s_itn st = 0 -> st = st0;
  lf_win : 1 <= s_itn st -> 1 <= l_window kw;
  lf_res : length (s_resids st) = (if l_sres kw then s_itn st + 1 else 0) /\
           length (s_nresids st) = (if l_sres kw then s_itn st + 1 else 0) /\
           length (s_iters st) = (if l_sit kw then s_itn st + 1 else 0) /\
           length (s_dirs st) = s_itn st - l_window kw;
  lf_last : last (s_resids st) (s_r2norm st) = s_r2norm st /\
            last (s_nresids st) (s_Arnorm st) = s_Arnorm st /\
            last (s_iters st) (s_x st) = s_x st }.

Lemma last_snoc : forall {A} (l : list A) a d, last (l ++ [a]) d = a.
Proof. intros A l a d. induction l as [|h [|h' t] IH]; [reflexivity|reflexivity|exact IH]. Qed.

Lemma ls_step_flow : forall bnorm st0 st bs st', s_istop st0 = 0%Z -> ls_flow st0 st bs ->
  ls_cond lim st = true -> ls_body q kw bnorm lim st = Ok st' ->
  ls_flow st0 st' (bs ++ [s_beta st']) /\ s_itn st' = s_itn st + 1.
Proof.
  intros bnorm st0 st bs st' I0 F C H.
  unfold ls_cond in C. apply andb_prop in C as [C1 C2]. apply negb_true_iff in C1. apply Z.ltb_lt in C2.
  destruct F as [F1 F2 F3 F4 F5 F6 F7 F8 F9 F10]. specialize (F4 C1).
  unfold ls_body in H. destruct (s_vN st) as [[v Nv]|]; [|discriminate].
  rb H r E1. pose proof (ls_bidiag_cnt _ _ _ _ _ _ _ _ E1) as CN. clear E1.
  destruct r as [[[[[[[Mu' u'] v'] Nv'] al] be] An] cnt].
  rb H r E2. clear E2. destruct r as [[[[[[psi rho] theta] rhobar] phi] phibar] tau].
  destruct (s_w st) as [w|]; [|rb H y0 E0; rb H y1 E2; rb H y2 E3; discriminate].
  rb H r E3. clear E3. destruct r as [[x w'] dk].
  rb H r E4. destruct r as [[[nrg2 dErr] dirs] istop].
  assert (D : 1 <= l_window kw /\ (istop = 0 \/ istop = 8)%Z /\
     length dirs = (length (s_dirs st) + (if l_window kw <? (s_itn st + 1)%nat then 1 else 0))).
  { unfold ls_derr in E4. cbv zeta in E4. destruct (Nat.eqb_spec (l_window kw) 0); [discriminate|].
    split; [lia|]. destruct (l_window kw <? _)%nat.
    - rb E4 g E. injection E4 as _ _ <- <-. rewrite F4, app_length. destruct (sltb _ _); auto.
    - injection E4 as _ _ <- <-. rewrite F4. auto. }
  clear E4. destruct D as [D1 [D2 D3]].
  rb H r E5. clear E5. destruct r as [[[[xnorm cs2] sn2] z] xxnorm].
  rb H r E6. clear E6. destruct r as [[[[Acond res2] rnorm] Arnorm] r1norm].
  rb H i E7. apply ls_tests_range in E7; [|lia]. destruct E7 as (T1 & T2 & T3 & T4).
  injection H as <-. split; [|reflexivity].
  destruct F9 as (R1 & R2 & R3 & R4).
  split; cbn [s_itn s_beta s_cnt s_brk s_istop s_resids s_nresids s_iters s_dirs s_r2norm s_Arnorm s_x].
  - rewrite app_length, F1. reflexivity.
  - rewrite CN, F2, filter_app, app_length. cbn [filter]. destruct (sgtb be s0); cbn [length]; lia.
  - lia.
  - intro B. apply Z.ltb_ge in B. lia.
  - intros _. split; [exact T1|]. split; [reflexivity|]. intro G.
    destruct (T3 G) as [L|L]; [apply Z.leb_le in L|]; lia.
  - intros _ L. apply T2. apply Z.leb_le. lia.
  - lia.
  - intros _. exact D1.
  - destruct (l_sres kw), (l_sit kw); rewrite ?app_length, ?R1, ?R2, ?R3, ?D3, ?R4; cbn [length].
    all: destruct (Nat.ltb_spec (l_window kw) (s_itn st + 1)); repeat split; try lia.
  - destruct (l_sres kw), (l_sit kw); rewrite ?last_snoc; auto.
    all: repeat split; try reflexivity.
    all: match goal with |- last ?l _ = _ => destruct l; [reflexivity|cbn in *; lia] end.
Qed.

Lemma ls_init_spec : forall rhs cnt st, ls_init q kw rhs cnt = Ok st ->
  s_istop st = 0%Z /\ s_itn st = 0 /\ s_x st = vzeros (lp_n q) /\ s_brk st = seqb (s_Arnorm st) s0 /\
  s_Arnorm st = smul (s_alpha st) (s_beta st) /\ s_r1norm st = s_beta st /\ s_r2norm st = s_beta st /\
  s_cnt st = cnt + (if sgtb (s_beta st) s0 then 1 else 0) /\
  ls_flow st st [].
Proof.
  intros rhs cnt st H. unfold ls_init in H. cbv zeta in H.
  rb H r E1. clear E1. destruct r as [[Mu u] be].
  rb H r E2. destruct r as [[vN al] c].
  assert (CN : c = cnt + (if sgtb be s0 then 1 else 0)).
  { destruct (sgtb be s0).
    - rb E2 y E. destruct y as [[? ?] ?]. injection E2 as _ _ <-. reflexivity.
    - injection E2 as _ _ <-. lia. }
  clear E2. injection H as <-.
  cbn [s_istop s_itn s_x s_brk s_Arnorm s_alpha s_beta s_r1norm s_r2norm s_cnt].
  repeat match goal with |- _ /\ _ => split; [solve [reflexivity|exact CN]|] end.
  split; cbn [s_itn s_beta s_cnt s_brk s_istop s_resids s_nresids s_iters s_dirs s_r2norm s_Arnorm s_x length filter];
    try lia; try reflexivity.
  - destruct (l_sres kw), (l_sit kw); cbn; auto.
  - destruct (l_sres kw), (l_sit kw); cbn; auto.
Qed.

Lemma ls_while_flow : forall fuel bnorm st0 st, s_istop st0 = 0%Z -> ls_flow st0 st0 [] ->
  while fuel (ls_cond lim) (ls_body q kw bnorm lim) st0 = Ok st ->
  (exists bs, ls_flow st0 st bs) /\ ls_cond lim st = false.
Proof.
  intros fuel bnorm st0 st I0 F H.
  apply while_inv with (I := fun st => exists bs, ls_flow st0 st bs) in H; [exact H| |eauto].
  intros s s' [bs Fs] C B. destruct (ls_step_flow bnorm st0 s bs s' I0 Fs C B) as [F' _]. eauto.
Qed.

Lemma ls_solve_nofuel : forall fuel rhs cnt, Z.to_nat lim < fuel -> ls_solve fuel q kw rhs cnt <> Err EFuel.
Proof.
  intros fuel rhs cnt HF. unfold ls_solve. destruct (l_wantvar kw); [discriminate|].
  destruct (ls_init q kw rhs cnt) as [st0|e] eqn:E0.
  2:{ pose proof (ls_init_nofuel rhs cnt). cbn. congruence. }
  cbn [rbind]. apply ls_init_spec in E0 as (I1 & I2 & _ & _ & _ & _ & _ & _ & F).
  apply rbind_nofuel; [|discriminate].
  apply while_term_err with (I := fun st => exists bs, ls_flow st0 st bs) (mu := fun st => Z.to_nat lim - s_itn st);
    [|eauto|lia].
  intros s [bs Fs] C. destruct (ls_body q kw (s_beta st0) lim s) as [s'|e] eqn:B.
  - left. exists s'. split; [reflexivity|].
    destruct (ls_step_flow _ st0 s bs s' I1 Fs C B) as [F' N]. split; [eauto|].
    unfold ls_cond in C. apply andb_prop in C as [_ C]. apply Z.ltb_lt in C. lia.
  - right. exists e. split; [reflexivity|]. pose proof (ls_body_nofuel (s_beta st0) s). congruence.
Qed.

Lemma ls_flow_spec : forall fuel rhs cnt o cnt', ls_solve fuel q kw rhs cnt = Ok (o, cnt') ->
  l_wantvar kw = false /\
  (Z.of_nat (o_itn o) <= Z.max 0 lim)%Z /\ o_nmv o = 2 * o_itn o /\
  cnt + o_itn o <= cnt' <= cnt + 2 * o_itn o + 1 /\
  (0 <= o_istop o <= 8)%Z /\ (o_istop o = 0%Z <-> o_itn o = 0) /\
  (o_istop o = 7%Z -> Z.of_nat (o_itn o) = lim) /\
  (Z.of_nat (o_itn o) < lim -> o_itn o <> 0%nat -> In (o_istop o) [1; 2; 3; 4; 5; 6; 8])%Z /\
  (o_status o = Some LsZero <-> o_istop o = 0%Z) /\
  (o_status o = Some LsSmall <-> In (o_istop o) [1; 2; 4; 5]%Z) /\
  (o_status o = Some LsIll <-> In (o_istop o) [3; 6]%Z) /\
  (o_status o = Some LsMax <-> o_istop o = 7%Z) /\
  (o_status o = Some LsDirect <-> o_istop o = 8%Z) /\
  (o_optimal o = true <-> In (o_istop o) [1; 2; 4; 5; 8]%Z) /\
  (o_itn o = 0 -> o_x o = vzeros (lp_n q) /\ (seqb (o_Arnorm o) s0 = true \/ (lim <= 0)%Z)) /\
  length (o_resids o) = (if l_sres kw then o_itn o + 1 else 0) /\
  length (o_nresids o) = (if l_sres kw then o_itn o + 1 else 0) /\
  length (o_iters o) = (if l_sit kw then o_itn o + 1 else 0) /\
  last (o_resids o) (o_r2norm o) = o_r2norm o /\ last (o_nresids o) (o_Arnorm o) = o_Arnorm o /\
  last (o_iters o) (o_x o) = o_x o /\
  (l_window kw = 0 -> o_itn o = 0).
Proof.
  intros fuel rhs cnt o cnt' H. unfold ls_solve in H. destruct (l_wantvar kw); [discriminate|].
  rb H st0 E0. rb H st E1. injection H as <- <-.
  apply ls_init_spec in E0 as (I1 & I2 & I3 & I4 & I5 & I6 & I7 & I8 & F0).
  apply ls_while_flow in E1 as [[bs F] CF]; [|exact I1|exact F0].
  destruct F as [F1 F2 F3 F4 F5 F6 F7 F8 F9 F10].
  cbn [o_itn o_nmv o_istop o_status o_optimal o_x o_Arnorm o_resids o_nresids o_iters o_r2norm].
  assert (IZ : s_istop st = 0%Z <-> s_itn st = 0).
  { split; intro G.
    - destruct (Nat.eq_dec (s_itn st) 0) as [Z|Z]; [exact Z|exfalso].
      destruct (F5 ltac:(lia)) as (_ & B & _). rewrite G in B. cbn in B.
      unfold ls_cond in CF. rewrite B in CF. cbn [negb andb] in CF. apply Z.ltb_ge in CF.
      specialize (F6 ltac:(lia) CF). lia.
    - rewrite (F7 G). exact I1. }
  assert (IR : (0 <= s_istop st <= 8)%Z).
  { destruct (Nat.eq_dec (s_itn st) 0) as [Z|Z]; [apply IZ in Z; lia|]. apply F5. lia. }
  assert (FL : length (filter (fun be => sgtb be s0) bs) <= s_itn st).
  { rewrite <- F1. clear. induction bs as [|h t IH]; cbn; [lia|]. destruct (sgtb h s0); cbn; lia. }
  split; [reflexivity|]. split; [exact F3|]. split; [reflexivity|].
  split. { destruct (sgtb (s_beta st0) s0); lia. }
  split; [exact IR|]. split; [exact IZ|].
  split. { intro G. destruct (Nat.eq_dec (s_itn st) 0) as [Z|Z]; [apply IZ in Z; lia|]. apply F5; lia. }
  split. { intros L Z. assert (s_istop st <> 7%Z). { intro G. destruct (F5 ltac:(lia)) as (_ & _ & G7). specialize (G7 G). lia. }
    assert (s_istop st <> 0%Z) by (rewrite IZ; lia). cbn. lia. }
  assert (IC : (s_istop st = 0 \/ s_istop st = 1 \/ s_istop st = 2 \/ s_istop st = 3 \/ s_istop st = 4 \/
    s_istop st = 5 \/ s_istop st = 6 \/ s_istop st = 7 \/ s_istop st = 8)%Z) by lia.
  assert (ST : forall t, ls_stat (s_istop st) = t -> ls_stat (s_istop st) = t) by auto.
  do 6 (split; [destruct IC as [-> | [-> | [-> | [-> | [-> | [-> | [-> | [-> | ->]]]]]]]]; cbn; split; intro; try reflexivity; try discriminate; try lia; auto 10|]).
  split. { intro Z. rewrite (F7 Z). split; [exact I3|]. unfold ls_cond in CF. rewrite (F7 Z), I2, I4 in CF.
    destruct (seqb (s_Arnorm st0) s0); [left; reflexivity|]. right. cbn [negb andb] in CF. apply Z.ltb_ge in CF. exact CF. }
  destruct F9 as (R1 & R2 & R3 & R4). destruct F10 as (L1 & L2 & L3).
  repeat (split; [assumption|]).
  intro Z. destruct (Nat.eq_dec (s_itn st) 0) as [G|G]; [exact G|]. specialize (F8 ltac:(lia)). lia.
Qed.

(** [x = 0] is returned at once when [alpha*beta == 0], and for a negative [itnlim]. *)
Lemma ls_zero : forall fuel rhs cnt st0, l_wantvar kw = false -> ls_init q kw rhs cnt = Ok st0 ->
  seqb (smul (s_alpha st0) (s_beta st0)) s0 = true \/ (l_itnlim kw < 0)%Z -> 0 < fuel ->
  exists o, ls_solve fuel q kw rhs cnt = Ok (o, s_cnt st0) /\
    o_istop o = 0%Z /\ o_itn o = 0 /\ o_x o = vzeros (lp_n q) /\ o_status o = Some LsZero /\ o_optimal o = false.
Proof.
  intros fuel rhs cnt st0 HV E0 Z HF. unfold ls_solve. rewrite HV, E0. cbn [rbind].
  pose proof (ls_init_spec _ _ _ E0) as (I1 & I2 & I3 & I4 & I5 & I6 & I7 & I8 & F0).
  destruct fuel as [|fuel]; [lia|].
  assert (C : ls_cond lim st0 = false).
  { unfold ls_cond. rewrite I4, I5, I2. destruct Z as [Z|Z]; [rewrite Z; reflexivity|].
    rewrite andb_comm. replace (Z.of_nat 0 <? lim)%Z with false; [reflexivity|].
    symmetry. apply Z.ltb_ge. unfold ls_lim. destruct (Z.eqb_spec (l_itnlim kw) 0); lia. }
  cbn [while]. rewrite C. cbv beta iota. eexists. split; [reflexivity|].
  cbn [o_itn o_istop o_status o_optimal o_x]. rewrite I1, I2, I3. auto.
Qed.
End Flow.
