(** * MINRES as a program that uses operators only through products (see CgClient.v). *)
From Coq Require Import List ZArith QArith Bool Arith Lia.
From Verif Require Import Base Num ToolsModel CgModel MinresModel Client CgClient.
Import ListNotations.
Local Open Scope nat_scope.

Section MrC.
Context {K : Scal} {W : Vs K}.
Notation S := (sc K).
Notation V := (vc W).
Notation cl := (client (fun _ : lab => V) (fun _ : lab => V)).

(** Shape of the operator, whether there is a preconditioner (a keyword argument here), its shape,
    and the random vectors of the two symmetry checks. *)
Record mpar := mkmpar {
  e_m : nat; e_n : nat; e_P : bool; e_pm : nat; e_pn : nat; e_cbrt : S -> S; e_draws : list V; e_pdraws : list V }.

(** tools/utils.py:63-85, for the object [l]. *)
Fixpoint syml_loop (l : lab) (cbrt : S -> S) (draws : list V) (cnt : nat) : cl (bool * nat) :=
  match draws with
  | [] => Ret (true, cnt)
  | x :: rest =>
      Ask l x (fun w => Ask l w (fun r =>
        let s := vdot w w in
        let t := vdot x r in
        let z := sabs (ssub s t) in
        let epsa := smul (sadd s machine_eps) (cbrt machine_eps) in
        if sgtb z epsa then Ret (false, cnt + 2) else syml_loop l cbrt rest (cnt + 2)))
  end.
Definition syml (l : lab) (cbrt : S -> S) (m n : nat) (draws : list V) (cnt : nat) : cl (bool * nat) :=
  if negb (Nat.eqb m n) then Ret (false, cnt) else syml_loop l cbrt draws cnt.

Definition mprec (p : mpar) (y : V) : cl V := if e_P p then Ask LP y Ret else Ret y.

(** minres.py:236-251. *)
Definition mrc_lan (p : mpar) (kw : mr_kw W) (st : mr_st W) : cl (V * S * V * V * S * nat) :=
  let itn := r_itn st + 1 in
  let s := sdiv s1 (r_beta st) in
  let v := vscale s (r_y st) in
  Ask LA v (fun y =>
  let cnt := r_cnt st + 1 in
  let y := vsub y (vscale (m_shift kw) v) in
  let y := if 2 <=? itn then vsub y (vscale (sdiv (r_beta st) (r_oldb st)) (r_r1 st)) else y in
  let alfa := vdot v y in
  let y := vadd (vscale (sdiv (sneg alfa) (r_beta st)) (r_r2 st)) y in
  let r2 := y in
  cbind (mprec p r2) (fun y => Ret (v, alfa, r2, y, vdot r2 y, cnt))).

(** minres.py:219-381. *)
Definition mrc_body (p : mpar) (kw : mr_kw W) (eps beta1 : S) (lim : nat) (st : mr_st W) : cl (res (mr_st W)) :=
  cbind (mrc_lan p kw st) (fun '(v, alfa, r2, y, beta, cnt) => Ret (
  if sltb beta s0 then
    Ok (mkmr (r_x st) y (r_r2 st) r2 (r_w st) (r_w2 st) (r_beta st) beta (r_dbar st) (r_epsln st) (r_phibar st)
          (r_rhs1 st) (r_rhs2 st) (r_Arnorm st) (r_tnorm2 st) (r_ynorm2 st) (r_cs st) (r_sn st)
          (r_gmax st) (r_gmin st) (r_Anorm st) (r_Acond st) (r_rnorm st) (r_ynorm st) (r_nrg2 st)
          (r_dErr st) (r_dirs st) 6%Z (r_itn st + 1) cnt true (r_hist st) (r_iters st))
  else
  let beta := ssqrt beta in
  let gbar := mr_gbar st alfa in
  if m_window kw =? 0 then Err ZeroDivisionError else
  Ok (mr_upd kw eps beta1 lim st v alfa r2 y cnt beta (mr_delta st alfa) gbar (mr_root st gbar beta)
        (mr_gamma eps gbar beta)))).

(** minres.py:161-197.  Returns [y], [beta1], [istop], [done] and the counter. *)
Definition mrc_start (p : mpar) (kw : mr_kw W) (b : V) (cnt : nat) : cl (V * S * Z * bool * nat) :=
  cbind (mprec p b) (fun y =>
  let beta1 := vdot b y in
  let istop := if sltb beta1 s0 then 9%Z else 0%Z in
  let done := sltb beta1 s0 || seqb beta1 s0 in
  let beta1 := if sgtb beta1 s0 then ssqrt beta1 else beta1 in
  cbind (if m_check kw then syml LA (e_cbrt p) (e_m p) (e_n p) (e_draws p) cnt else Ret (true, cnt))
    (fun '(ok, cnt) =>
  let istop := if ok then istop else 7%Z in
  let done := done || negb ok in
  cbind (if e_P p then
           if m_check kw
           then cbind (syml LP (e_cbrt p) (e_pm p) (e_pn p) (e_pdraws p) 0) (fun '(ok, _) => Ret ok)
           else Ret true
         else Ret true) (fun okP =>
  let istop := if okP then istop else 8%Z in
  let done := done || negb okP in
  Ret (y, beta1, istop, done, cnt)))).

(** minres.py:132-142, 202-208. *)
Definition mrc_init (kw : mr_kw W) (b y : V) (beta1 : S) (istop : Z) (done : bool) (hist : list S) (cnt : nat)
  : mr_st W :=
  let z := vzeros (vlen b) in
  mkmr z y b b z z
    s0 beta1 s0 s0 beta1 beta1 s0 s0 s0 s0 (slit (-1)) s0 s0 s0
    s0 s0 s0 s0 s0 (repeat s0 (m_window kw)) [] istop 0 cnt done hist
    (if m_sit kw then [z] else []).

(** minres.py:115-410. *)
Definition mrc_solve (fuel : nat) (p : mpar) (hist : list S) (b : V) (kw : mr_kw W) (cnt : nat)
  : cl (res (mr_out W * nat)) :=
  let eps := machine_eps in
  cbind (mrc_start p kw b cnt) (fun '(y, beta1, istop, done, cnt) =>
  let lim := mr_lim kw b in
  cbind (cwhile fuel (mr_cond lim) (mrc_body p kw eps beta1 lim) (mrc_init kw b y beta1 istop done hist cnt)) (fun r =>
  match r with
  | Ok st => Ret (Ok (mkmrout beta1 (r_x st) (r_istop st) (r_itn st) (r_itn st) (mr_conv (r_istop st))
                   (r_rnorm st) (r_Arnorm st) (r_Anorm st) (r_Acond st) (r_ynorm st)
                   (r_hist st) (r_dirs st) (r_iters st), r_cnt st))
  | Err e => Ret (Err e)
  end)).

(** ** Answering with functions. *)
Definition mparof (q : kprob W) (kw : mr_kw W) : mpar :=
  mkmpar (q_m q) (q_n q) (match m_precon kw with Some _ => true | None => false end) (m_pm kw) (m_pn kw)
    (q_cbrt q) (q_draws q) (m_pdraws kw).
Definition manswers (q : kprob W) (kw : mr_kw W) (l : lab) (x : V) : V :=
  match l with LA => q_A q x | LP => mr_y0 kw x end.

Section Pure.
Variables (q : kprob W) (kw : mr_kw W).
Notation f := (manswers q kw). Notation p := (mparof q kw).

Lemma pure_mprec : forall y, exists t, pure f (mprec p y) = (mr_y0 kw y, t) /\ nA t = 0.
Proof.
  intro y. unfold mprec, mparof, mr_y0. cbn [e_P]. destruct (m_precon kw) eqn:E; cbn.
  - eexists. split; [unfold mr_y0; rewrite E; reflexivity|reflexivity].
  - exists []. split; reflexivity.
Qed.
Lemma pure_symA : forall cbrt draws cnt, exists t,
  pure f (syml_loop LA cbrt draws cnt) = (check_symmetric_loop cbrt (q_A q) draws cnt, t) /\
  snd (check_symmetric_loop cbrt (q_A q) draws cnt) = cnt + nA t.
Proof.
  intros cbrt draws. induction draws as [|x rest IH]; intro cnt; cbn [check_symmetric_loop syml_loop pure].
  - exists []. cbn. split; [reflexivity|lia].
  - unfold opmul. cbn [manswers]. replace (cnt + 1 + 1) with (cnt + 2) by lia.
    match goal with |- context [if ?b then Ret _ else _] => destruct b end.
    + exists [LA; LA]. cbn. split; [reflexivity|lia].
    + destruct (IH (cnt + 2)) as (t & I1 & I2). exists (LA :: LA :: t). rewrite I1. split; [reflexivity|].
      rewrite I2, !nA_LA. lia.
Qed.
Lemma pure_symP : forall P cbrt draws cnt, m_precon kw = Some P -> exists t,
  pure f (syml_loop LP cbrt draws cnt) = (check_symmetric_loop cbrt P draws cnt, t) /\ nA t = 0.
Proof.
  intros P cbrt draws cnt E. assert (Y : forall x, mr_y0 kw x = P x) by (intro; unfold mr_y0; rewrite E; reflexivity).
  revert cnt. induction draws as [|x rest IH]; intro cnt; cbn [check_symmetric_loop syml_loop pure].
  - exists []. split; reflexivity.
  - unfold opmul. cbn [manswers]. rewrite !Y. replace (cnt + 1 + 1) with (cnt + 2) by lia.
    match goal with |- context [if ?b then Ret _ else _] => destruct b end.
    + exists [LP; LP]. split; reflexivity.
    + destruct (IH (cnt + 2)) as (t & I1 & I2). exists (LP :: LP :: t). rewrite I1. split; [reflexivity|exact I2].
Qed.

Lemma pure_mrc_body : forall eps beta1 lim st,
  fst (pure f (mrc_body p kw eps beta1 lim st)) = mr_body q kw eps beta1 lim st /\
  forall st', mr_body q kw eps beta1 lim st = Ok st' ->
    r_cnt st' = r_cnt st + nA (snd (pure f (mrc_body p kw eps beta1 lim st))).
Proof.
  intros eps beta1 lim st. unfold mrc_body, mr_body, mrc_lan, mr_lan, opmul. cbn zeta.
  rewrite pure_bind. cbn [pure manswers]. rewrite pure_bind.
  match goal with |- context [pure f (mprec p ?y)] => destruct (pure_mprec y) as (t & P1 & P2); rewrite P1 end.
  cbn [pure fst snd]. unfold mr_y0. split; [reflexivity|]. intros st' E. rewrite !nA_app, nA_LA, nA_app, P2.
  match type of E with (if ?b then _ else _) = _ => destruct b end.
  - injection E as <-. cbn [r_cnt]. rewrite !nA_nil. lia.
  - destruct (m_window kw =? 0); [discriminate|]. injection E as <-. cbn [mr_upd r_cnt]. rewrite !nA_nil. lia.
Qed.

Lemma pure_mrc_start : forall b cnt, exists t,
  pure f (mrc_start p kw b cnt) =
    ((let '(beta1, istop, done, cnt) := mr_start q kw b cnt in (mr_y0 kw b, beta1, istop, done, cnt)), t) /\
  snd (mr_start q kw b cnt) = cnt + nA t.
Proof.
  intros b cnt. unfold mrc_start, mr_start. cbn zeta. rewrite pure_bind.
  destruct (pure_mprec b) as (t0 & P1 & P2). rewrite P1. rewrite pure_bind.
  assert (HA : exists t,
    pure f (if m_check kw then syml LA (e_cbrt p) (e_m p) (e_n p) (e_draws p) cnt else Ret (true, cnt)) =
    ((if m_check kw then check_symmetric (q_cbrt q) (q_m q) (q_n q) (q_A q) (q_draws q) cnt else (true, cnt)), t) /\
    snd (if m_check kw then check_symmetric (q_cbrt q) (q_m q) (q_n q) (q_A q) (q_draws q) cnt else (true, cnt))
      = cnt + nA t).
  { unfold mparof. cbn [e_cbrt e_m e_n e_draws]. unfold syml, check_symmetric.
    destruct (m_check kw); [destruct (negb _); [|apply pure_symA]|]; exists []; cbn; (split; [reflexivity|lia]). }
  destruct HA as (t1 & A1 & A2). rewrite A1.
  destruct (if m_check kw then check_symmetric _ _ _ _ _ _ else _) as [ok cn]. cbn [snd] in A2. rewrite pure_bind.
  assert (HP : exists t,
    pure f (if e_P p then
           if m_check kw
           then cbind (syml LP (e_cbrt p) (e_pm p) (e_pn p) (e_pdraws p) 0) (fun '(ok, _) => Ret ok)
           else Ret true
         else Ret true) =
    (match m_precon kw with
             | Some P => if m_check kw
                         then fst (check_symmetric (q_cbrt q) (m_pm kw) (m_pn kw) P (m_pdraws kw) 0)
                         else true
             | None => true
             end, t) /\ nA t = 0).
  { unfold mparof. cbn [e_P e_cbrt e_pm e_pn e_pdraws]. destruct (m_precon kw) as [P|] eqn:E; [|exists []; split; reflexivity].
    destruct (m_check kw); [|exists []; split; reflexivity]. rewrite pure_bind. unfold syml, check_symmetric.
    destruct (negb _); [exists []; split; reflexivity|].
    destruct (pure_symP P (q_cbrt q) (m_pdraws kw) 0 E) as (t & S1 & S2). rewrite S1.
    destruct (check_symmetric_loop _ P _ 0) as [okP c]. exists (t ++ []). cbn [pure]. rewrite app_nil_r.
    split; [reflexivity|exact S2]. }
  destruct HP as (t2 & B1 & B2). rewrite B1. cbn [pure].
  eexists. split; [reflexivity|]. cbn [snd]. rewrite !nA_app, P2, B2, nA_nil. lia.
Qed.

Theorem pure_mrc_solve : forall fuel hist b cnt,
  fst (pure f (mrc_solve fuel p hist b kw cnt)) = mr_solve fuel q hist b kw cnt /\
  forall o cnt', mr_solve fuel q hist b kw cnt = Ok (o, cnt') ->
    cnt' = cnt + nA (snd (pure f (mrc_solve fuel p hist b kw cnt))).
Proof.
  intros fuel hist b cnt. unfold mrc_solve, mr_solve. cbn zeta. rewrite pure_bind.
  destruct (pure_mrc_start b cnt) as (t0 & S1 & S2). rewrite S1.
  destruct (mr_start q kw b cnt) as [[[beta1 istop] done] cn]. cbn [snd] in S2. rewrite pure_bind.
  change (mrc_init kw b (mr_y0 kw b) beta1 istop done hist cn) with (mr_init kw b beta1 istop done hist cn).
  destruct (pure_cwhile _ f (mr_body q kw machine_eps beta1 (mr_lim kw b)) (mr_cond (mr_lim kw b))
    (mrc_body p kw machine_eps beta1 (mr_lim kw b)) isA r_cnt
    (fun st => proj1 (pure_mrc_body machine_eps beta1 (mr_lim kw b) st))
    (fun st => proj2 (pure_mrc_body machine_eps beta1 (mr_lim kw b) st)) fuel
    (mr_init kw b beta1 istop done hist cn)) as [W1 W2].
  destruct (pure f (cwhile fuel _ _ _)) as [r t2]. cbn [fst snd] in W1, W2. subst r.
  destruct (while fuel _ _ _) as [st'|e]; cbn [pure fst snd]; [|split; [reflexivity|discriminate]].
  split; [reflexivity|]. intros o cnt' E. injection E as <- <-.
  rewrite (W2 _ eq_refl). cbn [r_cnt mr_init]. rewrite S2, app_nil_r, !nA_app. unfold nA. lia.
Qed.
End Pure.

Definition nopm (p : mpar) (l : lab) : Prop := l = LP -> e_P p = true.
Lemma asks_mprec : forall p r, asksin (nopm p) (mprec p r).
Proof. intros p r. unfold mprec. destruct (e_P p) eqn:E; repeat constructor. intros _. exact E. Qed.
Lemma asks_syml : forall p l cbrt m n draws cnt, nopm p l -> asksin (nopm p) (syml l cbrt m n draws cnt).
Proof.
  intros p l cbrt m n draws cnt H. unfold syml. destruct (negb _); [constructor|]. revert cnt.
  induction draws as [|x d IH]; intro cnt; cbn [syml_loop]; [constructor|].
  constructor; [exact H|]. intro w. constructor; [exact H|]. intro r. cbn zeta.
  destruct (sgtb _ _); [constructor|apply IH].
Qed.
Lemma asks_mrc : forall fuel p hist b kw cnt, asksin (nopm p) (mrc_solve fuel p hist b kw cnt).
Proof.
  intros. unfold mrc_solve. apply asksin_bind.
  - unfold mrc_start. apply asksin_bind; [apply asks_mprec|]. intro y. cbn zeta. apply asksin_bind.
    + destruct (m_check kw); [apply asks_syml; discriminate|constructor].
    + intros [ok cn]. apply asksin_bind; [|intro; constructor].
      destruct (e_P p) eqn:E; [|constructor]. destruct (m_check kw); [|constructor].
      apply asksin_bind; [apply asks_syml; intros _; exact E|]. intros [o c]. constructor.
  - intros [[[[y beta1] istop] done] cn]. cbn zeta. apply asksin_bind; [|intros [x|e]; constructor].
    apply asksin_while. intro st. unfold mrc_body, mrc_lan. apply asksin_bind.
    + cbn zeta. constructor; [discriminate|]. intro. apply asksin_bind; [apply asks_mprec|intro; constructor].
    + intros [[[[[v alfa] r2] y1] beta] cnt1]. constructor.
Qed.
End MrC.
