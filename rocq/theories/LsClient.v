(** * LSQR, LSMR, CRAIG and CRAIG-MR as programs that use operators only through products.

    As in CgClient.v: the Python lines modelled in LsqrModel.v, LsmrModel.v and CraigModel.v, with
    the operator, its transpose and the preconditioners M and N reached by questions.  The parts
    that multiply with nothing ([ls_rot], [lm_nr], [cr_upd], ...) are those of the models. *)
From Coq Require Import List ZArith QArith Bool Arith Lia.
From Verif Require Import Base Num ToolsModel MinresModel LsqrModel LsmrModel CraigModel Client.
Import ListNotations.
Local Open Scope nat_scope.

(** The objects a least-squares solver multiplies with: [A], [A.T], [M] and [N]. *)
Inductive llab := QA | QT | QM | QN.
Definition isAT (l : llab) : bool := match l with QA | QT => true | _ => false end.

Section LsC.
Context {K : Scal} {WV WU : Vs K}.
Notation S := (sc K).
Notation V := (vc WV).
Notation U := (vc WU).
Definition larg (l : llab) : Type := match l with QA => V | QT => U | QM => U | QN => V end.
Definition lans (l : llab) : Type := match l with QA => U | QT => V | QM => U | QN => V end.
Notation cl := (client larg lans).

(** What is known without multiplying: the shape, and whether [M] and [N] are given. *)
Record lpar := mklpar { a_m : nat; a_n : nat; a_M : bool; a_N : bool }.

(** lsqr.py:194-197 and the like, after the product with the preconditioner. *)
Definition gk_fin {W : Vs K} (y py : vc W) : res (vc W * vc W * S) :=
  rbind (pysqrt (vdot py y)) (fun beta =>
  if sgtb beta s0 then Ok (vdivs y beta, vdivs py beta, beta) else Ok (y, py, beta)).
Definition gkM (p : lpar) (y : U) : cl (res (U * U * S)) :=
  if a_M p then Ask (Arg := larg) (Ans := lans) QM y (fun py => Ret (gk_fin y py)) else Ret (gk_fin y y).
Definition gkN (p : lpar) (y : V) : cl (res (V * V * S)) :=
  if a_N p then Ask (Arg := larg) (Ans := lans) QN y (fun py => Ret (gk_fin y py)) else Ret (gk_fin y y).
Definition askA {R : Type} (v : V) (k : U -> cl R) : cl R := Ask (Arg := larg) (Ans := lans) QA v k.
Definition askT {R : Type} (u : U) (k : V -> cl R) : cl R := Ask (Arg := larg) (Ans := lans) QT u k.
Definition crr {R T : Type} (r : res R) (f : R -> cl (res T)) : cl (res T) :=
  match r with Ok x => f x | Err e => Ret (Err e) end.

(** lsqr.py:252-272. *)
Definition lsc_bidiag (p : lpar) (kw : ls_kw WV WU) (Mu u : U) (v Nv : V) (alpha Anorm : S) (cnt : nat)
  : cl (res (U * U * V * V * S * S * S * nat)) :=
  askA v (fun Av =>
  let Mu := vsub Av (vscale alpha Mu) in
  let cnt := cnt + 1 in
  crb (gkM p Mu) (fun '(Mu, u, beta) =>
  if sgtb beta s0 then
    crr (pnorm4 Anorm alpha beta (l_damp kw)) (fun Anorm =>
    askT u (fun Au =>
    let Nv := vsub Au (vscale beta Nv) in
    let cnt := cnt + 1 in
    crb (gkN p Nv) (fun '(Nv, v, alpha) =>
    Ret (Ok (Mu, u, v, Nv, alpha, beta, Anorm, cnt)))))
  else Ret (Ok (Mu, u, v, Nv, alpha, beta, Anorm, cnt)))).

(** lsqr.py:243-413. *)
Definition lsc_body (p : lpar) (kw : ls_kw WV WU) (bnorm : S) (lim : Z) (st : ls_st WV WU)
  : cl (res (ls_st WV WU)) :=
  let itn := s_itn st + 1 in
  match s_vN st with
  | None => Ret (Err UnboundLocalError)
  | Some (v, Nv) =>
  crb (lsc_bidiag p kw (s_Mu st) (s_u st) v Nv (s_alpha st) (s_Anorm st) (s_cnt st))
    (fun '(Mu, u, v, Nv, alpha, beta, Anorm, cnt) => Ret (
  rbind (ls_rot (l_damp kw) (s_rhobar st) (s_phibar st) alpha beta)
    (fun '(psi, rho, theta, rhobar, phi, phibar, tau) =>
  match s_w st with
  | None =>
      rbind (pydiv phi rho) (fun _ => rbind (pydiv (sneg theta) rho) (fun _ =>
      rbind (pydiv s1 rho) (fun _ => Err UnboundLocalError)))
  | Some w =>
  rbind (ls_upx (s_x st) w v phi rho theta) (fun '(x, w, dk) =>
  let ddnorm := sadd (s_ddnorm st) (smul dk dk) in
  rbind (ls_derr kw itn phi (s_nrg2 st) (s_dErr st) (s_dirs st) (s_istop st)) (fun '(nrg2, dErr, dirs, istop) =>
  rbind (ls_xn (s_cs2 st) (s_sn2 st) (s_z st) (s_xxnorm st) rho theta phi) (fun '(xnorm, cs2, sn2, z, xxnorm) =>
  rbind (ls_norms (l_damp kw) Anorm ddnorm phibar psi (s_res2 st) alpha tau xxnorm)
    (fun '(Acond, res2, rnorm, Arnorm, r1norm) =>
  rbind (ls_tests kw (lim <=? Z.of_nat itn)%Z istop bnorm Anorm Acond rnorm Arnorm xnorm) (fun istop =>
  Ok (mkls x Mu u (Some (v, Nv)) (Some w) alpha beta rhobar phibar Anorm Acond ddnorm
        z xnorm xxnorm res2 cs2 sn2 Arnorm r1norm rnorm nrg2 dErr
        istop itn cnt (0 <? istop)%Z
        (if l_sres kw then s_resids st ++ [rnorm] else s_resids st)
        (if l_sres kw then s_nresids st ++ [Arnorm] else s_nresids st)
        dirs (if l_sit kw then s_iters st ++ [x] else s_iters st)))))))
  end)))
  end.

(** lsqr.py:159-238. *)
Definition lsc_init (p : lpar) (kw : ls_kw WV WU) (rhs : U) (cnt : nat) : cl (res (ls_st WV WU)) :=
  let x := vzeros (a_n p) in
  crb (gkM p rhs) (fun '(Mu, u, beta) =>
  crb (if sgtb beta s0 then
         askT u (fun Au => crb (gkN p Au) (fun '(Nv, v, alpha) => Ret (Ok (Some (v, Nv), alpha, cnt + 1))))
       else Ret (Ok (None, s0, cnt))) (fun '(vN, alpha, cnt) =>
  let w := if sgtb alpha s0 then match vN with Some (v, _) => Some v | None => None end else None in
  let Arnorm := smul alpha beta in
  Ret (Ok (mkls x Mu u vN w alpha beta alpha beta s0 s0 s0
        s0 s0 s0 s0 (slit (-1)) s0 Arnorm beta beta s0 (repeat s0 (l_window kw))
        0 0 cnt (seqb Arnorm s0)
        (if l_sres kw then [beta] else []) (if l_sres kw then [Arnorm] else [])
        [] (if l_sit kw then [x] else []))))).

(** lsqr.py:151-152. *)
Definition lsc_lim (p : lpar) (kw : ls_kw WV WU) : Z :=
  if (l_itnlim kw =? 0)%Z then (3 * Z.of_nat (a_n p))%Z else l_itnlim kw.

(** lsqr.py:86-454. *)
Definition lsc_solve (fuel : nat) (p : lpar) (kw : ls_kw WV WU) (rhs : U) (cnt : nat) : cl (res (ls_out WV * nat)) :=
  if l_wantvar kw then Ret (Err TypeError) else
  crb (lsc_init p kw rhs cnt) (fun st0 =>
  crb (cwhile fuel (ls_cond (lsc_lim p kw)) (lsc_body p kw (s_beta st0) (lsc_lim p kw)) st0) (fun st =>
  Ret (Ok (mklsout (s_x st) (s_istop st) (ls_stat (s_istop st)) (ls_opt (s_istop st)) (s_itn st) (2 * s_itn st)
        (s_r1norm st) (s_r2norm st) (s_Anorm st) (s_Acond st) (s_Arnorm st) (s_xnorm st)
        (s_resids st) (s_nresids st) (s_dirs st) (s_iters st), s_cnt st)))).

(** ** Answering with functions. *)
Definition some {T : Type} (o : option T) : bool := match o with Some _ => true | None => false end.
Definition lparof (q : lprob WV WU) (M : option (U -> U)) (N : option (V -> V)) : lpar :=
  mklpar (lp_m q) (lp_n q) (some M) (some N).
Definition lanswers (q : lprob WV WU) (M : option (U -> U)) (N : option (V -> V)) (l : llab) : larg l -> lans l :=
  match l return larg l -> lans l with
  | QA => lp_A q
  | QT => lp_At q
  | QM => fun y => match M with Some P => P y | None => y end
  | QN => fun y => match N with Some P => P y | None => y end
  end.
Definition nAT (t : list llab) : nat := length (filter isAT t).
Lemma nAT_app : forall t t', nAT (t ++ t') = nAT t + nAT t'.
Proof. intros. unfold nAT. rewrite filter_app, app_length. reflexivity. Qed.
Lemma nAT_A : forall t, nAT (QA :: t) = Datatypes.S (nAT t).
Proof. reflexivity. Qed.
Lemma nAT_T : forall t, nAT (QT :: t) = Datatypes.S (nAT t).
Proof. reflexivity. Qed.
Lemma nAT_nil : nAT [] = 0.
Proof. reflexivity. Qed.

(** [c], answered by the functions, gives [r]; if [b] questions have been put to [A] and [A.T]
    before and [c] succeeds with [x], then [k x] have been put afterwards. *)
Definition runs {R : Type} (q : lprob WV WU) M N (b : nat) (c : cl (res R)) (r : res R) (k : R -> nat) : Prop :=
  fst (pure (lanswers q M N) c) = r /\
  forall x, r = Ok x -> k x = b + nAT (snd (pure (lanswers q M N) c)).
Arguments runs {R} q M N b c r k : simpl never.

Section Runs.
Variables (q : lprob WV WU) (M : option (U -> U)) (N : option (V -> V)).
Notation par := (lparof q M N).

Lemma runs_ret : forall (R : Type) b (r : res R) k, (forall x, r = Ok x -> k x = b) -> runs q M N b (Ret r) r k.
Proof. intros R b r k H. split; [reflexivity|]. intros x E. rewrite (H x E). cbn. lia. Qed.
Lemma runs_crb : forall (R T : Type) b (c : cl (res R)) (g : R -> cl (res T)) r (h : R -> res T) k l,
  runs q M N b c r k -> (forall x, r = Ok x -> runs q M N (k x) (g x) (h x) l) ->
  runs q M N b (crb c g) (rbind r h) l.
Proof.
  intros R T b c g r h k l [H1 H2] G. unfold runs. rewrite pure_crb.
  destruct (pure (lanswers q M N) c) as [r0 t]. cbn [fst snd] in *. subst r0.
  destruct r as [x|e]; [|split; [reflexivity|discriminate]].
  destruct (G x eq_refl) as [G1 G2]. destruct (pure (lanswers q M N) (g x)) as [r t']. cbn [fst snd rbind] in *.
  split; [exact G1|]. intros y Ey. rewrite nAT_app, (G2 _ Ey), (H2 x eq_refl). lia.
Qed.
Lemma runs_crr : forall (R T : Type) b (r : res R) (g : R -> cl (res T)) (h : R -> res T) l,
  (forall x, r = Ok x -> runs q M N b (g x) (h x) l) -> runs q M N b (crr r g) (rbind r h) l.
Proof. intros R T b [x|e] g h l H; [apply H; reflexivity|]. split; [reflexivity|discriminate]. Qed.
Lemma runs_askA : forall (R : Type) b v (k : U -> cl (res R)) r l,
  runs q M N (b + 1) (k (lp_A q v)) r l -> runs q M N b (askA v k) r l.
Proof.
  intros R b v k r l [H1 H2]. unfold runs, askA. cbn [pure lanswers].
  destruct (pure (lanswers q M N) (k (lp_A q v))) as [r0 t]. cbn [fst snd] in *. split; [exact H1|].
  intros x E. rewrite nAT_A, (H2 x E). lia.
Qed.
Lemma runs_askT : forall (R : Type) b u (k : V -> cl (res R)) r l,
  runs q M N (b + 1) (k (lp_At q u)) r l -> runs q M N b (askT u k) r l.
Proof.
  intros R b v k r l [H1 H2]. unfold runs, askT. cbn [pure lanswers].
  destruct (pure (lanswers q M N) (k (lp_At q v))) as [r0 t]. cbn [fst snd] in *. split; [exact H1|].
  intros x E. rewrite nAT_T, (H2 x E). lia.
Qed.
Lemma runs_gkM : forall b y, runs q M N b (gkM par y) (gk_norm M y) (fun _ => b).
Proof.
  intros b y. unfold gkM, lparof, gk_norm, runs. cbn [a_M]. destruct M; cbn [some pure fst snd lanswers];
  (split; [reflexivity|]); intros; cbn; lia.
Qed.
Lemma runs_gkN : forall b y, runs q M N b (gkN par y) (gk_norm N y) (fun _ => b).
Proof.
  intros b y. unfold gkN, lparof, gk_norm, runs. cbn [a_N]. destruct N; cbn [some pure fst snd lanswers];
  (split; [reflexivity|]); intros; cbn; lia.
Qed.
Lemma runs_while : forall (T : Type) cond (body : T -> cl (res T)) pbody (cnt : T -> nat),
  (forall st, runs q M N (cnt st) (body st) (pbody st) cnt) ->
  forall fuel st, runs q M N (cnt st) (cwhile fuel cond body st) (while fuel cond pbody st) cnt.
Proof.
  intros T cond body pbody cnt H fuel st.
  destruct (pure_cwhile T (lanswers q M N) pbody cond body isAT cnt) with (fuel := fuel) (st := st) as [W1 W2].
  - intro st0. apply (proj1 (H st0)).
  - intros st0 st' E. apply (proj2 (H st0) st' E).
  - split; [exact W1|]. intros st' E. rewrite (W2 _ E). reflexivity.
Qed.
End Runs.

Ltac tup := repeat match goal with x : (_ * _)%type |- _ => destruct x end.

Lemma runs_lsc_bidiag : forall q kw Mu u v Nv alpha Anorm cnt,
  runs q (l_M kw) (l_N kw) cnt (lsc_bidiag (lparof q (l_M kw) (l_N kw)) kw Mu u v Nv alpha Anorm cnt)
    (ls_bidiag q kw Mu u v Nv alpha Anorm cnt) snd.
Proof.
  intros. unfold lsc_bidiag, ls_bidiag. apply runs_askA.
  eapply runs_crb; [apply runs_gkM|]. intros [[Mu1 u1] beta] _. cbn beta iota.
  destruct (sgtb beta s0); [|apply runs_ret; intros x E; injection E as <-; reflexivity].
  apply runs_crr. intros An _. apply runs_askT. eapply runs_crb; [apply runs_gkN|].
  intros [[Nv1 v1] al1] _. apply runs_ret. intros x E. injection E as <-. reflexivity.
Qed.
Lemma runs_lsc_body : forall q kw bnorm lim st,
  runs q (l_M kw) (l_N kw) (s_cnt st) (lsc_body (lparof q (l_M kw) (l_N kw)) kw bnorm lim st)
    (ls_body q kw bnorm lim st) s_cnt.
Proof.
  intros. unfold lsc_body, ls_body. destruct (s_vN st) as [[v Nv]|]; [|apply runs_ret; discriminate].
  eapply runs_crb; [apply runs_lsc_bidiag|].
  intros [[[[[[[Mu u] v1] Nv1] alpha] beta] Anorm] cnt] _. apply runs_ret. cbn [snd]. intros x E.
  destruct (ls_rot _ _ _ _ _) as [[[[[[[psi rho] theta] rhobar] phi] phibar] tau]|]; [cbn [rbind] in E|discriminate].
  destruct (s_w st) as [w|].
  - destruct (ls_upx _ _ _ _ _ _) as [[[x1 w1] dk]|]; [cbn [rbind] in E|discriminate].
    destruct (ls_derr _ _ _ _ _ _ _) as [[[[nrg2 dErr] dirs] istop]|]; [cbn [rbind] in E|discriminate].
    destruct (ls_xn _ _ _ _ _ _ _) as [[[[[xnorm cs2] sn2] z] xxnorm]|]; [cbn [rbind] in E|discriminate].
    destruct (ls_norms _ _ _ _ _ _ _ _ _) as [[[[[Acond res2] rnorm] Arnorm] r1norm]|]; [cbn [rbind] in E|discriminate].
    destruct (ls_tests _ _ _ _ _ _ _ _ _) as [is|]; [cbn [rbind] in E|discriminate].
    injection E as <-. reflexivity.
  - destruct (pydiv phi rho); [cbn [rbind] in E|discriminate].
    destruct (pydiv (sneg theta) rho); [cbn [rbind] in E|discriminate].
    destruct (pydiv s1 rho); discriminate.
Qed.
Lemma runs_lsc_init : forall q kw rhs cnt,
  runs q (l_M kw) (l_N kw) cnt (lsc_init (lparof q (l_M kw) (l_N kw)) kw rhs cnt) (ls_init q kw rhs cnt) s_cnt.
Proof.
  intros. unfold lsc_init, ls_init. eapply runs_crb; [apply runs_gkM|]. intros [[Mu u] beta] _.
  apply runs_crb with (k := snd).
  - destruct (sgtb beta s0); [|apply runs_ret; intros x E; injection E as <-; reflexivity].
    apply runs_askT. eapply runs_crb; [apply runs_gkN|]. intros [[Nv v] alpha] _.
    apply runs_ret. intros x E. injection E as <-. reflexivity.
  - intros [[vN alpha] cn] _. apply runs_ret. intros x E. injection E as <-. reflexivity.
Qed.
Theorem runs_lsc_solve : forall fuel q kw rhs cnt,
  runs q (l_M kw) (l_N kw) cnt (lsc_solve fuel (lparof q (l_M kw) (l_N kw)) kw rhs cnt)
    (ls_solve fuel q kw rhs cnt) snd.
Proof.
  intros. unfold lsc_solve, ls_solve. destruct (l_wantvar kw); [apply runs_ret; discriminate|].
  eapply runs_crb; [apply runs_lsc_init|]. intros st0 _.
  eapply runs_crb; [apply (runs_while q (l_M kw) (l_N kw) _ _ _ (ls_body q kw (s_beta st0) (ls_lim q kw)) s_cnt (runs_lsc_body q kw (s_beta st0) (ls_lim q kw)))|].
  intros st _. apply runs_ret. intros x E. injection E as <-. reflexivity.
Qed.

(** ** LSMR *)

(** lsmr.py:311-332. *)
Definition lmc_bidiag (p : lpar) (kw : lm_kw WV WU) (Mu : U) (v : V) (Nv : option V) (alpha : S) (cnt : nat)
  : cl (res (U * V * option V * S * S * nat)) :=
  askA v (fun Av =>
  let Mu := vsub Av (vscale alpha Mu) in
  let cnt := cnt + 1 in
  crb (gkM p Mu) (fun '(Mu, u, beta) =>
  if sgtb beta s0 then
    match Nv with
    | None => Ret (Err UnboundLocalError)
    | Some Nv =>
      askT u (fun Au =>
      let Nv := vsub Au (vscale beta Nv) in
      let cnt := cnt + 1 in
      crb (gkN p Nv) (fun '(Nv, v, alpha) => Ret (Ok (Mu, v, Some Nv, alpha, beta, cnt))))
    end
  else Ret (Ok (Mu, v, Nv, alpha, beta, cnt)))).

(** lsmr.py:303-475. *)
Definition lmc_body (p : lpar) (kw : lm_kw WV WU) (normb : S) (lim : Z) (st : lm_st WV WU)
  : cl (res (lm_st WV WU)) :=
  let itn := t_itn st + 1 in
  crb (lmc_bidiag p kw (t_Mu st) (t_v st) (t_Nv st) (t_alpha st) (t_cnt st)) (fun '(Mu, v, Nv, alpha, beta, cnt) =>
  Ret (
  rbind (lm_rot1 (m_damp kw) (t_alphabar st) alpha beta) (fun '(chat, shat, c, s, rho, thetanew, alphabar) =>
  rbind (lm_rot2 (t_cbar st) (t_sbar st) rho thetanew (t_zetabar st))
    (fun '(thetabar, rhotemp, cbar, sbar, rhobar, zeta, zetabar) =>
  rbind (lm_upx (t_x st) (t_h st) (t_hbar st) v thetabar rho (t_rho st) (t_rhobar st) zeta rhobar thetanew)
    (fun '(x, h, hbar) =>
  rbind (lm_derr kw itn zeta (t_nrg2 st) (t_dErr st) (t_dirs st) (t_istop st)) (fun '(nrg2, dErr, dirs, istop) =>
  rbind (lm_nr chat shat c s thetabar rhobar (t_zeta st) zeta (t_betadd st) (t_betad st) (t_rhodold st)
          (t_tautil st) (t_thetil st) (t_d st))
    (fun '(betadd, thetil, rhodold, betad, tautil, d, normr) =>
  rbind (lm_na itn (t_normA2 st) alpha beta (t_maxrbar st) (t_minrbar st) (t_rhobar st) rhotemp)
    (fun '(normA2, normA, maxrbar, minrbar, condA) =>
  let normar := sabs zetabar in
  let normx := vnorm x in
  rbind (lm_tests kw (lim <=? Z.of_nat itn)%Z istop normb normA condA normr normar normx) (fun istop =>
  Ok (mklm x Mu v Nv h hbar alpha beta alphabar rho rhobar cbar sbar zetabar zeta betadd betad rhodold tautil
        thetil d normA2 normA maxrbar minrbar condA normr normar normx nrg2 dErr istop itn cnt (0 <? istop)%Z
        (if m_sres kw then t_resids st ++ [normr] else t_resids st)
        (if m_sres kw then t_nresids st ++ [normar] else t_nresids st)
        (if m_sres kw then t_norms st ++ [nrg2] else t_norms st)
        dirs (if m_sit kw then t_iters st ++ [x] else t_iters st))))))))))).

(** lsmr.py:211-300. *)
Definition lmc_init (p : lpar) (kw : lm_kw WV WU) (b : U) (cnt : nat) : cl (res (lm_st WV WU)) :=
  crb (gkM p b) (fun '(Mu, u, beta) =>
  crb (if sgtb beta s0 then
         askT u (fun Au => crb (gkN p Au) (fun '(Nv, v, alpha) => Ret (Ok (v, Some Nv, alpha, cnt + 1))))
       else Ret (Ok (vzeros (a_n p), None, s0, cnt))) (fun '(v, Nv, alpha, cnt) =>
  Ret (
  let x := vzeros (a_n p) in
  let normA2 := smul alpha alpha in
  rbind (pysqrt normA2) (fun normA =>
  let normar := smul alpha beta in
  let zero := seqb normar s0 in
  Ok (mklm x Mu v Nv v (vzeros (a_n p)) alpha beta alpha s1 s1 s1 s0 (smul alpha beta) s0
        beta s0 s1 s0 s0 s0 normA2 normA s0 (slit (10 ^ 100)) s1
        beta normar s0 s0 (repeat s0 (m_window kw)) 0 0 cnt zero
        (if negb zero && m_sres kw then [beta] else [])
        (if negb zero && m_sres kw then [normar] else [])
        [] [] (if m_sit kw then [x] else [])))))).

(** lsmr.py:189-194. *)
Definition lmc_lim (p : lpar) (kw : lm_kw WV WU) : Z :=
  match m_itnlim kw with None => Z.of_nat (Nat.min (a_m p) (a_n p)) | Some l => l end.

(** lsmr.py:64-492. *)
Definition lmc_solve (fuel : nat) (p : lpar) (kw : lm_kw WV WU) (ob : lm_obj WV) (b : U) (cnt : nat)
  : cl (res (lm_ret WV * lm_obj WV * nat)) :=
  crb (lmc_init p kw b cnt) (fun st0 =>
  crb (cwhile fuel (lm_cond (lmc_lim p kw)) (lmc_body p kw (t_beta st0) (lmc_lim p kw)) st0) (fun st =>
  Ret (Ok (mklmret (t_x st) (t_istop st) (t_itn st) (t_normr st) (t_normar st) (t_normA st) (t_condA st) (t_normx st),
      mklmobj (if seqb (t_normar st0) s0 then a_x ob else Some (t_x st))
        (a_itn ob) (a_istop ob) (a_Anorm ob) (a_Acond ob) (a_Arnorm ob) (a_xnorm ob) (a_r1norm ob) (a_r2norm ob)
        (a_optimal ob) (a_nMatvec ob) (a_converged ob)
        (t_resids st) (t_nresids st) (t_norms st) (t_dirs st) (t_iters st),
      t_cnt st)))).

Lemma runs_lmc_bidiag : forall q kw Mu v Nv alpha cnt,
  runs q (m_M kw) (m_N kw) cnt (lmc_bidiag (lparof q (m_M kw) (m_N kw)) kw Mu v Nv alpha cnt)
    (lm_bidiag q kw Mu v Nv alpha cnt) snd.
Proof.
  intros. unfold lmc_bidiag, lm_bidiag. apply runs_askA.
  eapply runs_crb; [apply runs_gkM|]. intros [[Mu1 u1] beta] _. cbn beta iota.
  destruct (sgtb beta s0); [|apply runs_ret; intros x E; injection E as <-; reflexivity].
  destruct Nv as [Nv|]; [|apply runs_ret; discriminate].
  apply runs_askT. eapply runs_crb; [apply runs_gkN|].
  intros [[Nv1 v1] al1] _. apply runs_ret. intros x E. injection E as <-. reflexivity.
Qed.
Lemma runs_lmc_body : forall q kw normb lim st,
  runs q (m_M kw) (m_N kw) (t_cnt st) (lmc_body (lparof q (m_M kw) (m_N kw)) kw normb lim st)
    (lm_body q kw normb lim st) t_cnt.
Proof.
  intros. unfold lmc_body, lm_body. eapply runs_crb; [apply runs_lmc_bidiag|].
  intros [[[[[Mu v1] Nv1] alpha] beta] cnt] _. apply runs_ret. cbn [snd]. intros x E.
  destruct (lm_rot1 _ _ _ _) as [[[[[[[chat shat] c] s] rho] thetanew] alphabar]|]; [cbn [rbind] in E|discriminate].
  destruct (lm_rot2 _ _ _ _ _) as [[[[[[[thetabar rhotemp] cbar] sbar] rhobar] zeta] zetabar]|]; [cbn [rbind] in E|discriminate].
  destruct (lm_upx _ _ _ _ _ _ _ _ _ _ _) as [[[x1 h] hbar]|]; [cbn [rbind] in E|discriminate].
  destruct (lm_derr _ _ _ _ _ _ _) as [[[[nrg2 dErr] dirs] istop]|]; [cbn [rbind] in E|discriminate].
  destruct (lm_nr _ _ _ _ _ _ _ _ _ _ _ _ _ _) as [[[[[[[betadd thetil] rhodold] betad] tautil] d] normr]|]; [cbn [rbind] in E|discriminate].
  destruct (lm_na _ _ _ _ _ _ _ _) as [[[[[normA2 normA] maxrbar] minrbar] condA]|]; [cbn [rbind] in E|discriminate].
  cbn zeta in E. destruct (lm_tests _ _ _ _ _ _ _ _ _) as [is|]; [cbn [rbind] in E|discriminate].
  injection E as <-. reflexivity.
Qed.
Lemma runs_lmc_init : forall q kw b cnt,
  runs q (m_M kw) (m_N kw) cnt (lmc_init (lparof q (m_M kw) (m_N kw)) kw b cnt) (lm_init q kw b cnt) t_cnt.
Proof.
  intros. unfold lmc_init, lm_init. eapply runs_crb; [apply runs_gkM|]. intros [[Mu u] beta] _.
  apply runs_crb with (k := snd).
  - destruct (sgtb beta s0); [|apply runs_ret; intros x E; injection E as <-; reflexivity].
    apply runs_askT. eapply runs_crb; [apply runs_gkN|]. intros [[Nv v] alpha] _.
    apply runs_ret. intros x E. injection E as <-. reflexivity.
  - intros [[[v Nv] alpha] cn] _. apply runs_ret. cbn zeta. intros x E.
    destruct (pysqrt _); [cbn [rbind] in E; injection E as <-; reflexivity|discriminate].
Qed.
Theorem runs_lmc_solve : forall fuel q kw ob b cnt,
  runs q (m_M kw) (m_N kw) cnt (lmc_solve fuel (lparof q (m_M kw) (m_N kw)) kw ob b cnt)
    (lm_solve fuel q kw ob b cnt) snd.
Proof.
  intros. unfold lmc_solve, lm_solve. eapply runs_crb; [apply runs_lmc_init|]. intros st0 _.
  eapply runs_crb; [apply (runs_while q (m_M kw) (m_N kw) _ _ _ (lm_body q kw (t_beta st0) (lm_lim q kw)) t_cnt (runs_lmc_body q kw (t_beta st0) (lm_lim q kw)))|].
  intros st _. apply runs_ret. intros x E. injection E as <-. reflexivity.
Qed.

(** ** CRAIG and CRAIG-MR *)

(** craig.py:302-329 and craigmr.py:136-157. *)
Definition crc_bidiag (p : lpar) (Mu : U) (v : V) (Nv : option V) (alpha : S) (cnt : nat)
  : cl (res (U * U * V * option V * S * S * nat)) :=
  askA v (fun Av =>
  let Mu := vsub Av (vscale alpha Mu) in
  let cnt := cnt + 1 in
  crb (gkM p Mu) (fun '(Mu, u, beta) =>
  if sgtb beta s0 then
    match Nv with
    | None => Ret (Err UnboundLocalError)
    | Some Nv =>
      askT u (fun Au =>
      let Nv := vsub Au (vscale beta Nv) in
      let cnt := cnt + 1 in
      crb (gkN p Nv) (fun '(Nv, v, alpha) => Ret (Ok (Mu, u, v, Some Nv, alpha, beta, cnt))))
    end
  else Ret (Ok (Mu, u, v, Nv, alpha, beta, cnt)))).

(** craig.py:293-478. *)
Definition crc_body (p : lpar) (kw : cr_kw WV WU) (bnorm : S) (lim : Z) (st : cr_st WV WU)
  : cl (res (cr_st WV WU)) :=
  let itn := g_itn st + 1 in
  crb (crc_bidiag p (g_Mu st) (g_v st) (g_Nv st) (g_alpha st) (g_cnt st))
    (fun '(Mu, u, v, Nv, alpha, beta, cnt) => Ret (
  let Ar := sabs (smul (smul (smul (g_alpha st) beta) (g_s st)) (g_zeta st)) in
  rbind (cr_rot (g_c st) (g_s st) alpha beta) (fun '(beta_hat, s2, alpha_hat, c, s) =>
  rbind (cr_upd u (g_d st) (g_r st) v (g_wbar st) (g_x st) (g_tau st) (g_zeta st) beta_hat s2 alpha_hat c s)
    (fun '(d, tau, r, zeta, wbar, x) =>
  let eta := smul c zeta in
  let xi := smul s zeta in
  let rnrg2 := sadd (g_rnrg2 st) (smul tau tau) in
  let xnrg2 := sadd (g_xnrg2 st) (smul zeta zeta) in
  rbind (cr_derr (c_window kw) (c_etol kw) (c_lnorm kw) itn tau rnrg2 (g_dErr st) (g_dirs st) (g_istop st))
    (fun '(dErr, dirs, istop) =>
  let rnorm := sadd (g_rnorm st) (smul tau tau) in
  let xnorm := sadd (g_xnorm st) (smul eta eta) in
  let r1 := sadd (g_r1 st) (smul xi xi) in
  rbind (cr_tests kw (lim <=? Z.of_nat itn)%Z istop rnorm bnorm) (fun istop =>
  Ok (mkcr x r Mu v Nv d wbar alpha c s tau zeta rnorm xnorm r1 rnrg2 xnrg2 (Some Ar) dErr
        istop itn cnt (0 <? istop)%Z
        (if c_sres kw then g_norms st ++ [xnrg2] else g_norms st)
        (if c_sres kw then g_resids st ++ [rnorm] else g_resids st)
        (if c_sres kw then g_nresids st ++ [Ar] else g_nresids st)
        dirs
        (if c_sit kw then g_itp st ++ [x] else g_itp st)
        (if c_sit kw then g_itd st ++ [r] else g_itd st)))))))).

(** craig.py:183-288. *)
Definition crc_init (p : lpar) (kw : cr_kw WV WU) (b : U) (cnt : nat) : cl (res (cr_st WV WU * S)) :=
  crr (if sgtb (c_conlim kw) s0 then pydiv s1 (c_conlim kw) else Ok s0) (fun _ =>
  crb (gkM p b) (fun '(Mu, u, beta) =>
  crb (if sgtb beta s0 then
         askT u (fun Au => crb (gkN p Au) (fun '(Nv, v, alpha) => Ret (Ok (Some (v, Nv), alpha, cnt + 1))))
       else Ret (Ok (None, s0, cnt))) (fun '(vN, alpha, cnt) => Ret (
  rbind (pnorm2 alpha s1) (fun rho =>
  let d := vdivs u rho in
  rbind (pydiv beta rho) (fun tau =>
  let r := vscale tau d in
  let rnorm := smul tau tau in
  rbind (pydiv alpha rho) (fun c =>
  rbind (pydiv s1 rho) (fun s =>
  let zeta := smul s beta in
  let eta := smul c zeta in
  let xi := smul s zeta in
  match vN with
  | None => Err UnboundLocalError
  | Some (v, Nv) =>
    let w := vscale c v in
    let wbar := vscale s v in
    let x := vscale zeta w in
    Ok (mkcr x r Mu v (Some Nv) d wbar alpha c s tau zeta rnorm (smul eta eta) (smul xi xi) s0 s0 None
          (repeat s0 (c_window kw)) 0 0 cnt (seqb beta s0)
          (if c_sres kw then [s0] else []) (if c_sres kw then [rnorm] else []) [] []
          (if c_sit kw then [x] else []) (if c_sit kw then [r] else []), beta)
  end)))))))).

(** craig.py:176. *)
Definition crc_lim (p : lpar) (kw : cr_kw WV WU) : Z :=
  if (c_itnlim kw =? 0)%Z then (3 * Z.of_nat (a_n p))%Z else c_itnlim kw.

(** craig.py:104-520. *)
Definition crc_solve (fuel : nat) (p : lpar) (kw : cr_kw WV WU) (b : U) (cnt : nat) : cl (res (cr_out WV WU * nat)) :=
  if c_wantvar kw then Ret (Err TypeError) else
  crb (crc_init p kw b cnt) (fun '(st0, bnorm) =>
  crb (cwhile fuel (cr_cond (crc_lim p kw)) (crc_body p kw bnorm (crc_lim p kw)) st0) (fun st => Ret (
  rbind (pysqrt (g_r1 st)) (fun r1 =>
  rbind (pysqrt (g_rnorm st)) (fun r2 =>
  match g_Ar st with
  | None => Err UnboundLocalError
  | Some Ar =>
    Ok (mkcrout (g_x st) (g_r st) (g_istop st) (ls_stat (g_istop st)) (ls_opt (g_istop st)) (g_itn st)
          (2 * g_itn st) r1 r2 Ar (g_xnorm st) (g_norms st) (g_resids st) (g_nresids st) (g_dirs st)
          (g_itp st) (g_itd st), g_cnt st)
  end))))).

Lemma runs_crc_bidiag : forall q M N Mu v Nv alpha cnt,
  runs q M N cnt (crc_bidiag (lparof q M N) Mu v Nv alpha cnt) (cr_bidiag q M N Mu v Nv alpha cnt) snd.
Proof.
  intros. unfold crc_bidiag, cr_bidiag. apply runs_askA.
  eapply runs_crb; [apply runs_gkM|]. intros [[Mu1 u1] beta] _. cbn beta iota.
  destruct (sgtb beta s0); [|apply runs_ret; intros x E; injection E as <-; reflexivity].
  destruct Nv as [Nv|]; [|apply runs_ret; discriminate].
  apply runs_askT. eapply runs_crb; [apply runs_gkN|].
  intros [[Nv1 v1] al1] _. apply runs_ret. intros x E. injection E as <-. reflexivity.
Qed.
Lemma runs_crc_body : forall q kw bnorm lim st,
  runs q (c_M kw) (c_N kw) (g_cnt st) (crc_body (lparof q (c_M kw) (c_N kw)) kw bnorm lim st)
    (cr_body q kw bnorm lim st) g_cnt.
Proof.
  intros. unfold crc_body, cr_body. eapply runs_crb; [apply runs_crc_bidiag|].
  intros [[[[[[Mu u] v1] Nv1] alpha] beta] cnt] _. apply runs_ret. cbn [snd]. cbn zeta. intros x E.
  destruct (cr_rot _ _ _ _) as [[[[[bh s2] ah] c] s]|]; [cbn [rbind] in E|discriminate].
  destruct (cr_upd _ _ _ _ _ _ _ _ _ _ _ _ _) as [[[[[[d tau] r] zeta] wbar] x1]|]; [cbn [rbind] in E|discriminate].
  destruct (cr_derr _ _ _ _ _ _ _ _ _) as [[[dErr dirs] istop]|]; [cbn [rbind] in E|discriminate].
  destruct (cr_tests _ _ _ _ _) as [is|]; [cbn [rbind] in E|discriminate].
  injection E as <-. reflexivity.
Qed.
Lemma runs_crc_init : forall q kw b cnt,
  runs q (c_M kw) (c_N kw) cnt (crc_init (lparof q (c_M kw) (c_N kw)) kw b cnt) (cr_init q kw b cnt)
    (fun x => g_cnt (fst x)).
Proof.
  intros. unfold crc_init, cr_init. apply runs_crr. intros _ _.
  eapply runs_crb; [apply runs_gkM|]. intros [[Mu u] beta] _.
  apply runs_crb with (k := snd).
  - destruct (sgtb beta s0); [|apply runs_ret; intros x E; injection E as <-; reflexivity].
    apply runs_askT. eapply runs_crb; [apply runs_gkN|]. intros [[Nv v] alpha] _.
    apply runs_ret. intros x E. injection E as <-. reflexivity.
  - intros [[vN alpha] cn] _. apply runs_ret. cbn zeta. intros x E.
    destruct (pnorm2 _ _) as [rho|]; [cbn [rbind] in E|discriminate].
    destruct (pydiv beta rho); [cbn [rbind] in E|discriminate].
    destruct (pydiv alpha rho); [cbn [rbind] in E|discriminate].
    destruct (pydiv s1 rho); [cbn [rbind] in E|discriminate].
    destruct vN as [[v Nv]|]; [injection E as <-; reflexivity|discriminate].
Qed.
Theorem runs_crc_solve : forall fuel q kw b cnt,
  runs q (c_M kw) (c_N kw) cnt (crc_solve fuel (lparof q (c_M kw) (c_N kw)) kw b cnt) (cr_solve fuel q kw b cnt) snd.
Proof.
  intros. unfold crc_solve, cr_solve. destruct (c_wantvar kw); [apply runs_ret; discriminate|].
  eapply runs_crb; [apply runs_crc_init|]. intros [st0 bnorm] _. cbn [fst].
  eapply runs_crb; [apply (runs_while q (c_M kw) (c_N kw) _ _ _ (cr_body q kw bnorm (cr_lim q kw)) g_cnt (runs_crc_body q kw bnorm (cr_lim q kw)))|].
  intros st _. apply runs_ret. intros x E.
  destruct (pysqrt (g_r1 st)); [cbn [rbind] in E|discriminate].
  destruct (pysqrt (g_rnorm st)); [cbn [rbind] in E|discriminate].
  destruct (g_Ar st); [injection E as <-; reflexivity|discriminate].
Qed.

(** craigmr.py:128-212. *)
Definition cmc_body (p : lpar) (kw : cm_kw WV WU) (lim : Z) (st : cm_st WV WU) : cl (res (cm_st WV WU)) :=
  let itn := h_itn st + 1 in
  crb (crc_bidiag p (h_Mu st) (h_v st) (h_Nv st) (h_alpha st) (h_cnt st))
    (fun '(Mu, u, v, Nv, alpha, beta, cnt) => Ret (
  rbind (cr_rot (h_c st) (h_s st) alpha beta) (fun '(beta_hat, _, alpha_hat, c, s) =>
  rbind (cm_upd u (h_d st) (h_dbar st) (h_x st) beta_hat alpha_hat (h_atil st) (h_theta st) (h_zhat st))
    (fun '(dbar, theta, atil, zeta, zhat, d, x) =>
  let nrg2 := sadd (h_nrg2 st) (smul zeta zeta) in
  rbind (cr_derr (h_window kw) (h_etol kw) (h_lnorm kw) itn zeta nrg2 (h_dErr st) (h_dirs st) (h_istop st))
    (fun '(dErr, dirs, istop) =>
  let istop := if (lim <=? Z.of_nat itn)%Z then 7%Z else istop in
  Ok (mkcm x Mu v Nv d dbar alpha c s zhat atil theta nrg2 dErr istop itn cnt (0 <? istop)%Z
        (if h_sres kw then h_norms st ++ [nrg2] else h_norms st)
        (if h_sres kw then h_nresids st ++ [sabs zeta] else h_nresids st)
        dirs
        (if h_sit kw then h_iters st ++ [x] else h_iters st))))))).

(** craigmr.py:73-125. *)
Definition cmc_init (p : lpar) (kw : cm_kw WV WU) (b : U) (cnt : nat) : cl (res (cm_st WV WU)) :=
  crb (gkM p b) (fun '(Mu, u, beta) =>
  crb (if sgtb beta s0 then
         askT u (fun Au => crb (gkN p Au) (fun '(Nv, v, alpha) => Ret (Ok (v, Some Nv, alpha, cnt + 1))))
       else Ret (Ok (vzeros (a_n p), None, s0, cnt))) (fun '(v, Nv, alpha, cnt) => Ret (
  rbind (pnorm2 alpha s1) (fun alpha_hat =>
  rbind (pydiv alpha alpha_hat) (fun c =>
  rbind (pydiv s1 alpha_hat) (fun s =>
  let x := vzeros (a_m p) in
  Ok (mkcm x Mu v Nv (vdivs u alpha_hat) (vzeros (a_m p)) alpha c s beta alpha_hat s0 s0
        (repeat s0 (h_window kw)) 0 0 cnt false
        (if h_sres kw then [s0] else []) [] [] (if h_sit kw then [x] else [])))))))).

(** craigmr.py:66-71. *)
Definition cmc_lim (p : lpar) (kw : cm_kw WV WU) : Z :=
  match h_itnlim kw with None => Z.of_nat (Nat.min (a_m p) (a_n p)) | Some l => l end.

(** craigmr.py:51-250. *)
Definition cmc_solve (fuel : nat) (p : lpar) (kw : cm_kw WV WU) (b : U) (cnt : nat) : cl (res (cm_out WU * nat)) :=
  crb (cmc_init p kw b cnt) (fun st0 =>
  crb (cwhile fuel (cm_cond (cmc_lim p kw)) (cmc_body p kw (cmc_lim p kw)) st0) (fun st =>
  Ret (Ok (mkcmout (h_x st) (h_istop st) (ls_stat (h_istop st)) (ls_opt (h_istop st)) (h_itn st) (2 * h_itn st)
        (h_norms st) (h_nresids st) (h_dirs st) (h_iters st), h_cnt st)))).

Lemma runs_cmc_body : forall q kw lim st,
  runs q (h_M kw) (h_N kw) (h_cnt st) (cmc_body (lparof q (h_M kw) (h_N kw)) kw lim st)
    (cm_body q kw lim st) h_cnt.
Proof.
  intros. unfold cmc_body, cm_body. eapply runs_crb; [apply runs_crc_bidiag|].
  intros [[[[[[Mu u] v1] Nv1] alpha] beta] cnt] _. apply runs_ret. cbn [snd]. cbn zeta. intros x E.
  destruct (cr_rot _ _ _ _) as [[[[[bh s2] ah] c] s]|]; [cbn [rbind] in E|discriminate].
  destruct (cm_upd _ _ _ _ _ _ _ _ _) as [[[[[[[dbar theta] atil] zeta] zhat] d] x1]|]; [cbn [rbind] in E|discriminate].
  destruct (cr_derr _ _ _ _ _ _ _ _ _) as [[[dErr dirs] istop]|]; [cbn [rbind] in E|discriminate].
  injection E as <-. reflexivity.
Qed.
Lemma runs_cmc_init : forall q kw b cnt,
  runs q (h_M kw) (h_N kw) cnt (cmc_init (lparof q (h_M kw) (h_N kw)) kw b cnt) (cm_init q kw b cnt) h_cnt.
Proof.
  intros. unfold cmc_init, cm_init. eapply runs_crb; [apply runs_gkM|]. intros [[Mu u] beta] _.
  apply runs_crb with (k := snd).
  - destruct (sgtb beta s0); [|apply runs_ret; intros x E; injection E as <-; reflexivity].
    apply runs_askT. eapply runs_crb; [apply runs_gkN|]. intros [[Nv v] alpha] _.
    apply runs_ret. intros x E. injection E as <-. reflexivity.
  - intros [[[v Nv] alpha] cn] _. apply runs_ret. cbn zeta. intros x E.
    destruct (pnorm2 _ _) as [rho|]; [cbn [rbind] in E|discriminate].
    destruct (pydiv alpha rho); [cbn [rbind] in E|discriminate].
    destruct (pydiv s1 rho); [cbn [rbind] in E|discriminate].
    injection E as <-; reflexivity.
Qed.
Theorem runs_cmc_solve : forall fuel q kw b cnt,
  runs q (h_M kw) (h_N kw) cnt (cmc_solve fuel (lparof q (h_M kw) (h_N kw)) kw b cnt) (cm_solve fuel q kw b cnt) snd.
Proof.
  intros. unfold cmc_solve, cm_solve. eapply runs_crb; [apply runs_cmc_init|]. intros st0 _.
  eapply runs_crb; [apply (runs_while q (h_M kw) (h_N kw) _ _ _ (cm_body q kw (cm_lim q kw)) h_cnt (runs_cmc_body q kw (cm_lim q kw)))|].
  intros st _. apply runs_ret. intros x E. injection E as <-. reflexivity.
Qed.

(** Without M and N, nothing is asked of them. *)
Definition nomn (p : lpar) (l : llab) : Prop := (l = QM -> a_M p = true) /\ (l = QN -> a_N p = true).
Lemma asks_gkM : forall p y, asksin (nomn p) (gkM p y).
Proof. intros p y. unfold gkM. destruct (a_M p) eqn:E; repeat constructor; [intros _; exact E|discriminate]. Qed.
Lemma asks_gkN : forall p y, asksin (nomn p) (gkN p y).
Proof. intros p y. unfold gkN. destruct (a_N p) eqn:E; repeat constructor; [discriminate|intros _; exact E]. Qed.
Lemma asks_A : forall p (R : Type) v (k : U -> cl R), (forall y, asksin (nomn p) (k y)) -> asksin (nomn p) (askA v k).
Proof. intros. unfold askA. constructor; [split; discriminate|assumption]. Qed.
Lemma asks_T : forall p (R : Type) v (k : V -> cl R), (forall y, asksin (nomn p) (k y)) -> asksin (nomn p) (askT v k).
Proof. intros. unfold askT. constructor; [split; discriminate|assumption]. Qed.
Lemma asks_crr : forall p (R T : Type) (r : res R) (k : R -> cl (res T)), (forall y, asksin (nomn p) (k y)) -> asksin (nomn p) (crr r k).
Proof. intros. unfold crr. destruct r; [auto|constructor]. Qed.
Ltac asksolve :=
  repeat (cbn zeta; first
    [ apply asks_gkM | apply asks_gkN | apply asks_A; intros | apply asks_T; intros | apply asks_crr; intros
    | apply asksin_while; intros | apply asksin_crb; intros | apply ai_ret
    | match goal with
      | |- context [let '_ := ?e in _] => destruct e
      | |- context [if ?b then _ else _] => destruct b
      | |- context [match ?e with _ => _ end] => destruct e
      end ]).
Lemma asks_lsc : forall fuel p kw rhs cnt, asksin (nomn p) (lsc_solve fuel p kw rhs cnt).
Proof. intros. unfold lsc_solve, lsc_init, lsc_body, lsc_bidiag. asksolve. Qed.
Lemma asks_lmc : forall fuel p kw ob rhs cnt, asksin (nomn p) (lmc_solve fuel p kw ob rhs cnt).
Proof. intros. unfold lmc_solve, lmc_init, lmc_body, lmc_bidiag. asksolve. Qed.
Lemma asks_crc : forall fuel p kw rhs cnt, asksin (nomn p) (crc_solve fuel p kw rhs cnt).
Proof. intros. unfold crc_solve, crc_init, crc_body, crc_bidiag. asksolve. Qed.
Lemma asks_cmc : forall fuel p kw rhs cnt, asksin (nomn p) (cmc_solve fuel p kw rhs cnt).
Proof. intros. unfold cmc_solve, cmc_init, cmc_body, crc_bidiag. asksolve. Qed.
End LsC.
