(** * Proofs about the CRAIG and CRAIG-MR models: any arithmetic. *)
From Coq Require Import List ZArith QArith Lia Bool.
From Verif Require Import Base Num ToolsModel MinresModel LsqrModel LsqrFlow CraigModel.
Import ListNotations.
Local Open Scope nat_scope.

Section Flow.
Context {K : Scal} {WV WU : Vs K}.
Notation S := (sc K).
Variable q : lprob WV WU.

Ltac nofuel := repeat first
  [ progress intros | apply pydiv_nofuel | apply pysqrt_nofuel | apply gk_norm_nofuel | discriminate
  | apply rbind_nofuel | progress cbv beta zeta
  | match goal with
    | |- context [match ?t with pair _ _ => _ end] => destruct t
    | |- context [if ?t then _ else _] => destruct t
    | |- context [match ?t with Some _ => _ | None => _ end] => destruct t
    end ].

Lemma cr_bidiag_nofuel : forall M N Mu v Nv al cnt, cr_bidiag q M N Mu v Nv al cnt <> Err EFuel.
Proof. intros. unfold cr_bidiag. nofuel. Qed.
Lemma cr_rot_nofuel : forall a b c d : S, cr_rot a b c d <> Err EFuel.
Proof. intros. unfold cr_rot, pnorm2. nofuel. Qed.
Lemma cr_upd_nofuel : forall (u d r : vc WU) (v w x : vc WV) a b c e f g h,
  cr_upd u d r v w x a b c e f g h <> Err EFuel.
Proof. intros. unfold cr_upd. nofuel. Qed.
Lemma cr_derr_nofuel : forall w (et : S) ln itn a b c d e, cr_derr w et ln itn a b c d e <> Err EFuel.
Proof. intros. unfold cr_derr. nofuel. Qed.
Lemma cr_tests_nofuel : forall (kw : cr_kw WV WU) a b c d, cr_tests kw a b c d <> Err EFuel.
Proof. intros. unfold cr_tests. nofuel. Qed.
Lemma cm_upd_nofuel : forall (u d db x : vc WU) a b c e f, cm_upd u d db x a b c e f <> Err EFuel.
Proof. intros. unfold cm_upd, pnorm2. nofuel. Qed.

Lemma cr_bidiag_cnt : forall M N Mu v Nv al cnt r, cr_bidiag q M N Mu v Nv al cnt = Ok r ->
  let '(_, _, _, _, _, beta, cnt') := r in cnt' = cnt + (if sgtb beta s0 then 2 else 1).
Proof.
  intros M N Mu v Nv al cnt r H. unfold cr_bidiag in H. cbv zeta in H.
  rb H x E. destruct x as [[Mu' u'] be]. destruct (sgtb be s0) eqn:EB.
  - destruct Nv as [Nv|]; [|discriminate]. rb H y E2. destruct y as [[? ?] ?]. injection H as <-. rewrite EB. lia.
  - injection H as <-. rewrite EB. lia.
Qed.

Lemma cr_derr_spec : forall w (et : S) ln itn t nrg2 dErr dirs i dErr' dirs' i',
  cr_derr w et ln itn t nrg2 dErr dirs i = Ok (dErr', dirs', i') ->
  1 <= w /\ (i' = i \/ i' = 8%Z /\ w < itn) /\ length dirs' = length dirs + (if w <? itn then 1 else 0).
Proof.
  intros w et ln itn t nrg2 dErr dirs i dErr' dirs' i' H. unfold cr_derr in H.
  destruct (Nat.eqb_spec w 0); [discriminate|]. cbv zeta in H. split; [lia|].
  destruct (Nat.ltb_spec w itn).
  - rb H g E. injection H as _ <- <-. rewrite app_length. cbn [length].
    split; [destruct (sltb _ _); auto|reflexivity].
  - injection H as _ <- <-. split; [auto|lia].
Qed.

(** ** CRAIG *)
Section Cr.
Variable kw : cr_kw WV WU.
Notation lim := (cr_lim q kw).

Lemma cr_body_nofuel : forall bnorm st, cr_body q kw bnorm lim st <> Err EFuel.
Proof.
  intros. unfold cr_body. cbv zeta.
  apply rbind_nofuel; [apply cr_bidiag_nofuel|]. intros [[[[[[Mu u] v] Nv] al] be] cnt].
  apply rbind_nofuel; [apply cr_rot_nofuel|]. intros [[[[bh s2] ah] c] s].
  apply rbind_nofuel; [apply cr_upd_nofuel|]. intros [[[[[d tau] r] zeta] wbar] x].
  apply rbind_nofuel; [apply cr_derr_nofuel|]. intros [[dErr dirs] istop].
  apply rbind_nofuel; [apply cr_tests_nofuel|]. discriminate.
Qed.
Lemma cr_init_nofuel : forall b cnt, cr_init q kw b cnt <> Err EFuel.
Proof. intros. unfold cr_init, pnorm2. nofuel. Qed.

Lemma cr_tests_range : forall late i rn bn r, cr_tests kw late i rn bn = Ok r ->
  r = 1%Z \/ r = 4%Z \/ r = (if late then 7%Z else i).
Proof.
  intros late i rn bn r H. unfold cr_tests in H. rb H a E1. rb H t E2. cbv zeta in H. injection H as <-.
  destruct (sleb t _); [auto|]. destruct (sleb _ _); auto.
Qed.

Record cr_flow (st0 st : cr_st WV WU) : Prop := {
  cf_cnt : g_cnt st0 + g_itn st <= g_cnt st <= g_cnt st0 + 2 * g_itn st;
  cf_itn : (Z.of_nat (g_itn st) <= Z.max 0 lim)%Z;
  cf_run : g_brk st = false -> g_istop st = 0%Z;
  cf_stop : 1 <= g_itn st -> g_brk st = (0 <? g_istop st)%Z /\
            (g_istop st = 0 \/ g_istop st = 1 \/ g_istop st = 4 \/
             g_istop st = 7 /\ Z.of_nat (g_itn st) = lim \/
             g_istop st = 8 /\ (c_window kw < g_itn st)%nat)%Z;
  cf_late : 1 <= g_itn st -> (lim <= Z.of_nat (g_itn st))%Z -> (0 < g_istop st)%Z;
  cf_zero : g_itn st = 0 -> st = st0;
  cf_win : 1 <= g_itn st -> 1 <= c_window kw;
  cf_Ar : 1 <= g_itn st -> g_Ar st <> None;
  cf_res : length (g_resids st) = (if c_sres kw then g_itn st + 1 else 0) /\
           length (g_nresids st) = (if c_sres kw then g_itn st else 0) /\
           length (g_norms st) = (if c_sres kw then g_itn st + 1 else 0) /\
           length (g_itp st) = (if c_sit kw then g_itn st + 1 else 0) /\
           length (g_itd st) = (if c_sit kw then g_itn st + 1 else 0) /\
           length (g_dirs st) = g_itn st - c_window kw;
  cf_last : last (g_resids st) (g_rnorm st) = g_rnorm st /\
            last (g_itp st) (g_x st) = g_x st /\ last (g_itd st) (g_r st) = g_r st }.

Lemma cr_step_flow : forall bnorm st0 st st', g_istop st0 = 0%Z -> cr_flow st0 st ->
  cr_cond lim st = true -> cr_body q kw bnorm lim st = Ok st' ->
  cr_flow st0 st' /\ g_itn st' = g_itn st + 1.
Proof.
  intros bnorm st0 st st' I0 F C H.
  unfold cr_cond in C. apply andb_prop in C as [C2 C1]. apply negb_true_iff in C1. apply Z.ltb_lt in C2.
  destruct F as [F2 F3 F4 F5 F6 F7 F8 FB F9 F10]. specialize (F4 C1).
  unfold cr_body in H. cbv zeta in H.
  rb H r E1. pose proof (cr_bidiag_cnt _ _ _ _ _ _ _ _ E1) as CN. clear E1.
  destruct r as [[[[[[Mu' u'] v'] Nv'] al] be] cnt].
  rb H r E2. clear E2. destruct r as [[[[bh s2] ah] c] s].
  rb H r E3. clear E3. destruct r as [[[[[d tau] r] zeta] wbar] x].
  rb H y E4. destruct y as [[dErr dirs] istop]. apply cr_derr_spec in E4 as (D1 & D2 & D3). rewrite F4 in D2.
  rb H i E7. apply cr_tests_range in E7.
  injection H as <-. split; [|reflexivity].
  destruct F9 as (R1 & R2 & R3 & R4 & R5 & R6).
  assert (IV : (i = 0 \/ i = 1 \/ i = 4 \/ i = 7 /\ Z.of_nat (g_itn st + 1) = lim \/
                i = 8 /\ (c_window kw < g_itn st + 1)%nat)%Z).
  { destruct (Z.leb_spec lim (Z.of_nat (g_itn st + 1))); lia. }
  split; cbn [g_itn g_cnt g_brk g_istop g_resids g_nresids g_norms g_itp g_itd g_dirs g_rnorm g_x g_r g_Ar].
  - destruct (sgtb be s0); lia.
  - lia.
  - intro B. apply Z.ltb_ge in B. lia.
  - intros _. split; [reflexivity|exact IV].
  - intros _ L. apply Z.leb_le in L. rewrite L in E7. lia.
  - lia.
  - intros _. exact D1.
  - discriminate.
  - destruct (c_sres kw), (c_sit kw); rewrite ?app_length, ?R1, ?R2, ?R3, ?R4, ?D3, ?R5, ?R6; cbn [length].
    all: destruct (Nat.ltb_spec (c_window kw) (g_itn st + 1)); repeat split; try lia.
  - destruct (c_sres kw), (c_sit kw); rewrite ?last_snoc; auto.
    all: repeat split; try reflexivity.
    all: match goal with |- last ?l _ = _ => destruct l; [reflexivity|cbn in *; lia] end.
Qed.

Lemma cr_init_spec : forall b cnt st bn, cr_init q kw b cnt = Ok (st, bn) ->
  g_istop st = 0%Z /\ g_itn st = 0 /\ sgtb bn s0 = true /\ g_brk st = seqb bn s0 /\ g_Ar st = None /\
  g_cnt st = cnt + 1 /\ cr_flow st st.
Proof.
  intros b cnt st bn H. unfold cr_init in H. cbv zeta in H.
  rb H ct E0. clear E0.
  rb H r E1. clear E1. destruct r as [[Mu u] be].
  rb H r E2. destruct r as [[vN al] c].
  rb H rho E3. rb H tau E4. rb H c' E5. rb H s E6. clear E3 E4 E5 E6.
  destruct vN as [[v Nv]|]; [|discriminate].
  destruct (sgtb be s0) eqn:GB; [|discriminate].
  rb E2 y E. destruct y as [[? ?] ?]. injection E2 as _ _ _ <-.
  injection H as <- <-. cbn [g_istop g_itn g_brk g_cnt g_Ar].
  repeat match goal with |- _ /\ _ => split; [solve [reflexivity|exact GB]|] end.
  split; cbn [g_itn g_cnt g_brk g_istop g_resids g_nresids g_norms g_itp g_itd g_dirs g_rnorm g_x g_r g_Ar length];
    try lia; try reflexivity.
  - destruct (c_sres kw), (c_sit kw); cbn; auto 10.
  - destruct (c_sres kw), (c_sit kw); cbn; auto 10.
Qed.

Lemma cr_while_flow : forall fuel bnorm st0 st, g_istop st0 = 0%Z -> cr_flow st0 st0 ->
  while fuel (cr_cond lim) (cr_body q kw bnorm lim) st0 = Ok st -> cr_flow st0 st /\ cr_cond lim st = false.
Proof.
  intros fuel bnorm st0 st I0 F H.
  apply while_inv with (I := fun st => cr_flow st0 st) in H; [exact H| |exact F].
  intros s s' Fs C B. apply (cr_step_flow bnorm st0 s s' I0 Fs C B).
Qed.

Lemma cr_solve_nofuel : forall fuel b cnt, Z.to_nat lim < fuel -> cr_solve fuel q kw b cnt <> Err EFuel.
Proof.
  intros fuel b cnt HF. unfold cr_solve. destruct (c_wantvar kw); [discriminate|].
  destruct (cr_init q kw b cnt) as [[st0 bn]|e] eqn:E0.
  2:{ pose proof (cr_init_nofuel b cnt). cbn. congruence. }
  cbn [rbind]. apply cr_init_spec in E0 as (I1 & I2 & _ & _ & _ & _ & F).
  apply rbind_nofuel.
  2:{ intro. apply rbind_nofuel; [apply pysqrt_nofuel|]. intro. apply rbind_nofuel; [apply pysqrt_nofuel|]. intro.
      destruct (g_Ar _); discriminate. }
  apply while_term_err with (I := fun st => cr_flow st0 st) (mu := fun st => Z.to_nat lim - g_itn st);
    [|exact F|lia].
  intros s Fs C. destruct (cr_body q kw bn lim s) as [s'|e] eqn:B.
  - left. exists s'. split; [reflexivity|].
    destruct (cr_step_flow _ st0 s s' I1 Fs C B) as [F' N]. split; [exact F'|].
    unfold cr_cond in C. apply andb_prop in C as [C _]. apply Z.ltb_lt in C. lia.
  - right. exists e. split; [reflexivity|]. pose proof (cr_body_nofuel bn s). congruence.
Qed.

Lemma cr_flow_spec : forall fuel b cnt r cnt', cr_solve fuel q kw b cnt = Ok (r, cnt') ->
  (1 <= Z.of_nat (go_itn r) <= lim)%Z /\
  cnt + 1 + go_itn r <= cnt' <= cnt + 1 + 2 * go_itn r /\ go_nmv r = 2 * go_itn r /\
  (go_istop r = 1 \/ go_istop r = 4 \/ go_istop r = 7 /\ Z.of_nat (go_itn r) = lim \/
   go_istop r = 8 /\ (c_window kw < go_itn r)%nat)%Z /\
  go_optimal r = negb (go_istop r =? 7)%Z /\
  length (go_resids r) = (if c_sres kw then go_itn r + 1 else 0) /\
  length (go_norms r) = (if c_sres kw then go_itn r + 1 else 0) /\
  length (go_nresids r) = (if c_sres kw then go_itn r else 0) /\
  length (go_itp r) = (if c_sit kw then go_itn r + 1 else 0) /\
  length (go_itd r) = (if c_sit kw then go_itn r + 1 else 0) /\
  length (go_dirs r) = go_itn r - c_window kw /\
  last (go_itp r) (go_x r) = go_x r /\ last (go_itd r) (go_r r) = go_r r /\
  1 <= c_window kw /\ c_wantvar kw = false.
Proof.
  intros fuel b cnt r cnt' H. unfold cr_solve in H.
  destruct (c_wantvar kw) eqn:WV0; [discriminate|].
  rb H y E0. destruct y as [st0 bn]. rb H st E1. rb H r1 E2. rb H r2 E3.
  destruct (g_Ar st) as [Ar|] eqn:EA; [|discriminate]. injection H as <- <-.
  apply cr_init_spec in E0 as (I1 & I2 & I3 & I4 & I5 & I6 & F0).
  apply cr_while_flow in E1 as [F CF]; [|exact I1|exact F0].
  destruct F as [F2 F3 F4 F5 F6 F7 F8 FB F9 F10].
  assert (N0 : 1 <= g_itn st).
  { destruct (Nat.eq_dec (g_itn st) 0) as [Z|Z]; [|lia]. rewrite (F7 Z), I5 in EA. discriminate. }
  cbn [go_itn go_istop go_x go_r go_nmv go_resids go_nresids go_norms go_itp go_itd go_dirs go_optimal].
  destruct (F5 N0) as [B V]. specialize (F6 N0).
  assert (IV : g_istop st <> 0%Z).
  { intro Z. unfold cr_cond in CF. rewrite B, Z in CF. cbn in CF. rewrite andb_true_r in CF. apply Z.ltb_ge in CF. lia. }
  destruct F9 as (R1 & R2 & R3 & R4 & R5 & R6). destruct F10 as (L1 & L2 & L3).
  repeat match goal with |- _ /\ _ => split end; try assumption; try lia.
  destruct V as [V|[V|[V|[[V _]|[V _]]]]]; try lia; rewrite V; reflexivity.
Qed.
End Cr.

(** [damp] and [atol] are never read; [conlim] only in a division whose result is dropped. *)
Lemma cr_indep : forall fuel b cnt il d d' M N at_ at_' bt cl cl' wv et sr si w ln,
  (sgtb cl s0 = true -> seqb cl s0 = false) -> (sgtb cl' s0 = true -> seqb cl' s0 = false) ->
  cr_solve fuel q (mkcrkw il d M N at_ bt cl wv et sr si w ln) b cnt =
  cr_solve fuel q (mkcrkw il d' M N at_' bt cl' wv et sr si w ln) b cnt.
Proof.
  intros. unfold cr_solve. cbn [c_wantvar]. destruct wv; [reflexivity|].
  assert (E : cr_init q (mkcrkw il d M N at_ bt cl false et sr si w ln) b cnt =
              cr_init q (mkcrkw il d' M N at_' bt cl' false et sr si w ln) b cnt); [|rewrite E; reflexivity].
  assert (D : forall c : S, (sgtb c s0 = true -> seqb c s0 = false) ->
    exists a : S, (if sgtb c s0 then pydiv s1 c else Ok s0) = Ok a).
  { intros c Hc. destruct (sgtb c s0); [|eauto]. unfold pydiv. rewrite Hc by reflexivity. eauto. }
  destruct (D cl H) as [a1 E1], (D cl' H0) as [a2 E2].
  unfold cr_init. cbn [c_conlim]. rewrite E1, E2. reflexivity.
Qed.

(** ** CRAIG-MR *)
Section Cm.
Variable kw : cm_kw WV WU.
Notation lim := (cm_lim q kw).

Lemma cm_body_nofuel : forall st, cm_body q kw lim st <> Err EFuel.
Proof.
  intros. unfold cm_body. cbv zeta.
  apply rbind_nofuel; [apply cr_bidiag_nofuel|]. intros [[[[[[Mu u] v] Nv] al] be] cnt].
  apply rbind_nofuel; [apply cr_rot_nofuel|]. intros [[[[bh s2] ah] c] s].
  apply rbind_nofuel; [apply cm_upd_nofuel|]. intros [[[[[[dbar theta] atil] zeta] zhat] d] x].
  apply rbind_nofuel; [apply cr_derr_nofuel|]. intros [[dErr dirs] istop]. discriminate.
Qed.
Lemma cm_init_nofuel : forall b cnt, cm_init q kw b cnt <> Err EFuel.
Proof. intros. unfold cm_init, pnorm2. nofuel. Qed.

Record cm_flow (st0 st : cm_st WV WU) : Prop := {
  ch_cnt : h_cnt st0 + h_itn st <= h_cnt st <= h_cnt st0 + 2 * h_itn st;
  ch_itn : (Z.of_nat (h_itn st) <= Z.max 0 lim)%Z;
  ch_run : h_brk st = false -> h_istop st = 0%Z /\ ((Z.of_nat (h_itn st) < lim)%Z \/ h_itn st = 0);
  ch_stop : h_brk st = true -> 1 <= h_itn st /\
            (h_istop st = 7 /\ Z.of_nat (h_itn st) = lim \/
             h_istop st = 8 /\ (h_window kw < h_itn st)%nat /\ Z.of_nat (h_itn st) < lim)%Z;
  ch_zero : h_itn st = 0 -> st = st0;
  ch_win : 1 <= h_itn st -> 1 <= h_window kw;
  ch_res : length (h_nresids st) = (if h_sres kw then h_itn st else 0) /\
           length (h_norms st) = (if h_sres kw then h_itn st + 1 else 0) /\
           length (h_iters st) = (if h_sit kw then h_itn st + 1 else 0) /\
           length (h_dirs st) = h_itn st - h_window kw;
  ch_last : last (h_iters st) (h_x st) = h_x st }.

Lemma cm_step_flow : forall st0 st st', cm_flow st0 st ->
  cm_cond lim st = true -> cm_body q kw lim st = Ok st' ->
  cm_flow st0 st' /\ h_itn st' = h_itn st + 1.
Proof.
  intros st0 st st' F C H.
  unfold cm_cond in C. apply andb_prop in C as [C2 C1]. apply negb_true_iff in C1. apply Z.ltb_lt in C2.
  destruct F as [F2 F3 F4 F5 F7 F8 F9 F10]. destruct (F4 C1) as [I0 _].
  unfold cm_body in H. cbv zeta in H.
  rb H r E1. pose proof (cr_bidiag_cnt _ _ _ _ _ _ _ _ E1) as CN. clear E1.
  destruct r as [[[[[[Mu' u'] v'] Nv'] al] be] cnt].
  rb H r E2. clear E2. destruct r as [[[[bh s2] ah] c] s].
  rb H r E3. clear E3. destruct r as [[[[[[dbar theta] atil] zeta] zhat] d] x].
  rb H y E4. destruct y as [[dErr dirs] istop]. apply cr_derr_spec in E4 as (D1 & D2 & D3). rewrite I0 in D2.
  injection H as <-. split; [|reflexivity].
  destruct F9 as (R1 & R2 & R3 & R4).
  split; cbn [h_itn h_cnt h_brk h_istop h_nresids h_norms h_iters h_dirs h_x].
  - destruct (sgtb be s0); lia.
  - lia.
  - intro B. apply Z.ltb_ge in B. destruct (Z.leb_spec lim (Z.of_nat (h_itn st + 1))); lia.
  - intro B. apply Z.ltb_lt in B. split; [lia|]. destruct (Z.leb_spec lim (Z.of_nat (h_itn st + 1))); lia.
  - lia.
  - intros _. exact D1.
  - destruct (h_sres kw), (h_sit kw); rewrite ?app_length, ?R1, ?R2, ?R3, ?R4, ?D3; cbn [length].
    all: destruct (Nat.ltb_spec (h_window kw) (h_itn st + 1)); repeat split; try lia.
  - destruct (h_sit kw); rewrite ?last_snoc; auto.
    match goal with |- last ?l _ = _ => destruct l; [reflexivity|cbn in *; lia] end.
Qed.

Lemma cm_init_spec : forall b cnt st, cm_init q kw b cnt = Ok st ->
  h_istop st = 0%Z /\ h_itn st = 0 /\ h_x st = vzeros (lp_m q) /\ h_brk st = false /\
  cnt <= h_cnt st <= cnt + 1 /\ cm_flow st st.
Proof.
  intros b cnt st H. unfold cm_init in H. cbv zeta in H.
  rb H r E1. clear E1. destruct r as [[Mu u] be].
  rb H r E2. destruct r as [[[v Nv] al] c].
  assert (CN : cnt <= c <= cnt + 1).
  { destruct (sgtb be s0).
    - rb E2 y E. destruct y as [[? ?] ?]. injection E2 as _ _ _ <-. lia.
    - injection E2 as _ _ _ <-. lia. }
  rb H ah E3. rb H c' E5. rb H s E6. injection H as <-.
  cbn [h_istop h_itn h_brk h_cnt h_x].
  repeat match goal with |- _ /\ _ => split; [solve [reflexivity|exact CN]|] end.
  split; cbn [h_itn h_cnt h_brk h_istop h_nresids h_norms h_iters h_dirs h_x length];
    try lia; try reflexivity; try discriminate.
  - destruct (h_sres kw), (h_sit kw); cbn; auto 10.
  - destruct (h_sit kw); cbn; auto 10.
Qed.

Lemma cm_while_flow : forall fuel st0 st, cm_flow st0 st0 ->
  while fuel (cm_cond lim) (cm_body q kw lim) st0 = Ok st -> cm_flow st0 st /\ cm_cond lim st = false.
Proof.
  intros fuel st0 st F H.
  apply while_inv with (I := fun st => cm_flow st0 st) in H; [exact H| |exact F].
  intros s s' Fs C B. apply (cm_step_flow st0 s s' Fs C B).
Qed.

Lemma cm_solve_nofuel : forall fuel b cnt, Z.to_nat lim < fuel -> cm_solve fuel q kw b cnt <> Err EFuel.
Proof.
  intros fuel b cnt HF. unfold cm_solve.
  destruct (cm_init q kw b cnt) as [st0|e] eqn:E0.
  2:{ pose proof (cm_init_nofuel b cnt). cbn. congruence. }
  cbn [rbind]. apply cm_init_spec in E0 as (_ & _ & _ & _ & _ & F).
  apply rbind_nofuel; [|discriminate].
  apply while_term_err with (I := fun st => cm_flow st0 st) (mu := fun st => Z.to_nat lim - h_itn st);
    [|exact F|lia].
  intros s Fs C. destruct (cm_body q kw lim s) as [s'|e] eqn:B.
  - left. exists s'. split; [reflexivity|].
    destruct (cm_step_flow st0 s s' Fs C B) as [F' N]. split; [exact F'|].
    unfold cm_cond in C. apply andb_prop in C as [C _]. apply Z.ltb_lt in C. lia.
  - right. exists e. split; [reflexivity|]. pose proof (cm_body_nofuel s). congruence.
Qed.

Lemma cm_flow_spec : forall fuel b cnt r cnt', cm_solve fuel q kw b cnt = Ok (r, cnt') ->
  (Z.of_nat (ho_itn r) <= Z.max 0 lim)%Z /\
  cnt + ho_itn r <= cnt' <= cnt + 1 + 2 * ho_itn r /\ ho_nmv r = 2 * ho_itn r /\
  (ho_istop r = 0 /\ ho_itn r = 0%nat /\ lim <= 0 \/
   ho_istop r = 7 /\ 1 <= Z.of_nat (ho_itn r) /\ Z.of_nat (ho_itn r) = lim \/
   ho_istop r = 8 /\ (h_window kw < ho_itn r)%nat /\ Z.of_nat (ho_itn r) < lim)%Z /\
  ho_optimal r = (ho_istop r =? 8)%Z /\
  (ho_itn r = 0 -> ho_x r = vzeros (lp_m q)) /\
  length (ho_norms r) = (if h_sres kw then ho_itn r + 1 else 0) /\
  length (ho_nresids r) = (if h_sres kw then ho_itn r else 0) /\
  length (ho_iters r) = (if h_sit kw then ho_itn r + 1 else 0) /\
  length (ho_dirs r) = ho_itn r - h_window kw /\
  last (ho_iters r) (ho_x r) = ho_x r /\
  (h_window kw = 0 -> ho_itn r = 0).
Proof.
  intros fuel b cnt r cnt' H. unfold cm_solve in H.
  rb H st0 E0. rb H st E1. injection H as <- <-.
  apply cm_init_spec in E0 as (I1 & I2 & I3 & I4 & I5 & F0).
  apply cm_while_flow in E1 as [F CF]; [|exact F0].
  destruct F as [F2 F3 F4 F5 F7 F8 F9 F10].
  cbn [ho_itn ho_istop ho_x ho_nmv ho_nresids ho_norms ho_iters ho_dirs ho_optimal].
  assert (IV : (h_istop st = 0 /\ h_itn st = 0%nat /\ lim <= 0 \/
                h_istop st = 7 /\ 1 <= Z.of_nat (h_itn st) /\ Z.of_nat (h_itn st) = lim \/
                h_istop st = 8 /\ (h_window kw < h_itn st)%nat /\ Z.of_nat (h_itn st) < lim)%Z).
  { unfold cm_cond in CF. destruct (h_brk st) eqn:B.
    - destruct (F5 eq_refl) as [N G]. lia.
    - rewrite andb_true_r in CF. apply Z.ltb_ge in CF. destruct (F4 eq_refl) as [Z0 [L|L]]; [lia|]. left. lia. }
  destruct F9 as (R1 & R2 & R3 & R4).
  repeat match goal with |- _ /\ _ => split end; try assumption; try lia.
  - destruct IV as [[-> _]|[[-> _]|[-> _]]]; reflexivity.
  - intro Z. rewrite (F7 Z). exact I3.
Qed.
End Cm.

Lemma cm_indep : forall fuel b cnt d d' at_ at_' bt bt' cl cl' M N il et sr si w ln,
  cm_solve fuel q (mkcmkw d at_ bt cl M N il et sr si w ln) b cnt =
  cm_solve fuel q (mkcmkw d' at_' bt' cl' M N il et sr si w ln) b cnt.
Proof. reflexivity. Qed.
End Flow.
