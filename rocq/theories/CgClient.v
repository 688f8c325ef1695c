(** * CG and the unsymmetric solvers as programs that use operators only through products.

    The definitions of CgModel.v and KrylovModel.v take the operator and the preconditioner as
    functions.  Here the same lines of Python are transcribed as clients (Client.v), which know
    nothing about the operators but the answers they get; [pure_*] show that answering with the
    functions gives the definitions of CgModel.v and KrylovModel.v, and that the counter those
    thread is the number of questions put to the operator. *)
From Coq Require Import List ZArith QArith Bool Arith Lia.
From Verif Require Import Base Num ToolsModel CgModel KrylovModel Client.
Import ListNotations.
Local Open Scope nat_scope.

(** The objects a solver multiplies with: its operator and its preconditioner. *)
Inductive lab := LA | LP.
Definition isA (l : lab) : bool := match l with LA => true | LP => false end.

Section CgC.
Context {K : Scal} {W : Vs K}.
Notation S := (sc K).
Notation V := (vc W).
Notation cl := (client (fun _ : lab => V) (fun _ : lab => V)).

(** What a solver knows about its operators without multiplying: the shape of the operator and
    whether there is a preconditioner; and its other parameters. *)
Record kpar := mkpar {
  p_m : nat; p_n : nat; p_P : bool; p_abstol : S; p_reltol : S; p_cbrt : S -> S; p_draws : list V }.

(** tools/utils.py:63-85.  [cnt] here and below: the number of questions put to the operator so
    far, kept as in CgModel.v; the programs do not use it. *)
Fixpoint symc_loop (cbrt : S -> S) (draws : list V) (cnt : nat) : cl (bool * nat) :=
  match draws with
  | [] => Ret (true, cnt)
  | x :: rest =>
      Ask LA x (fun w => Ask LA w (fun r =>
        let s := vdot w w in
        let t := vdot x r in
        let z := sabs (ssub s t) in
        let epsa := smul (sadd s machine_eps) (cbrt machine_eps) in
        if sgtb z epsa then Ret (false, cnt + 2) else symc_loop cbrt rest (cnt + 2)))
  end.
Definition symc (p : kpar) (cnt : nat) : cl (bool * nat) :=
  if negb (Nat.eqb (p_m p) (p_n p)) then Ret (false, cnt) else symc_loop (p_cbrt p) (p_draws p) cnt.

(** cg.py:91-94 and 137-140. *)
Definition precc (p : kpar) (r : V) : cl V := if p_P p then Ask LP r Ret else Ret r.

(** cg.py:102. *)
Definition thrc (p : kpar) (res0 : S) : S := pymax (p_abstol p) (smul (p_reltol p) res0).

(** cg.py:74-104. *)
Definition cgc_init (p : kpar) (kw : cg_kw W) (o : cg_obj W) (rhs : V) (cnt : nat) : cl (cg_st W) :=
  let x := match k_guess kw with Some g => g | None => vzeros (vlen rhs) end in
  let iters := if k_sit kw then g_iters o ++ [x] else g_iters o in
  let r := vneg rhs in
  cbind (match k_guess kw with
         | Some _ => Ask LA x (fun Ax => Ret (vadd r Ax, 1, cnt + 1))
         | None => Ret (r, 0, cnt)
         end) (fun '(r, nmv, cnt) =>
  cbind (precc p r) (fun y =>
  let resids := if k_sres kw then g_resids o ++ [y] else g_resids o in
  let ry := vdot r y in
  let res := sabs (ssqrt ry) in
  Ret (mkst x r (vneg r) ry res nmv true cnt (g_hist o ++ [res]) resids iters (g_inf o)))).

(** cg.py:113. *)
Definition cgc_cond (p : kpar) (kw : cg_kw W) (rhs : V) (res0 : S) (st : cg_st W) : bool :=
  sgtb (c_res st) (thrc p res0) && (c_nmv st <? mmax (k_mmax kw) rhs) && c_def st.

(** cg.py:115-158. *)
Definition cgc_body (p : kpar) (kw : cg_kw W) (st : cg_st W) : cl (res (cg_st W)) :=
  Ask LA (c_p st) (fun Ap =>
  let cnt := c_cnt st + 1 in
  let nmv := c_nmv st + 1 in
  let pAp := vdot (c_p st) Ap in
  if k_curv kw && curv_bad pAp then
    Ret (Ok (mkst (c_x st) (c_r st) (c_p st) (c_ry st) (c_res st) nmv false cnt
                  (c_hist st) (c_resids st) (c_iters st) (Some (c_p st))))
  else
    let alpha := sdiv (c_ry st) pAp in
    let x := vadd (c_x st) (vscale alpha (c_p st)) in
    let r := vadd (c_r st) (vscale alpha Ap) in
    let iters := if k_sit kw then c_iters st ++ [x] else c_iters st in
    cbind (precc p r) (fun y =>
    let resids := if k_sres kw then c_resids st ++ [y] else c_resids st in
    let ry_next := vdot r y in
    let beta := sdiv ry_next (c_ry st) in
    let pp := vsub (vscale beta (c_p st)) r in
    let rn := sabs (ssqrt ry_next) in
    Ret (Ok (mkst x r pp ry_next rn nmv (c_def st) cnt (c_hist st ++ [rn]) resids iters (c_inf st))))).

(** cg.py:161-165. *)
Definition cgc_final (p : kpar) (res0 : S) (st : cg_st W) : cg_obj W :=
  mkcg (Some res0) (Some (c_res st)) (c_hist st) (c_resids st) (c_iters st) (c_inf st)
       (sleb (c_res st) (thrc p res0)) (Some (c_def st)) (c_nmv st) (Some (c_x st)).

(** cg.py:46-165. *)
Definition cgc_solve (fuel : nat) (p : kpar) (o : cg_obj W) (rhs : V) (kw : cg_kw W) (cnt : nat)
  : cl (res (cg_obj W * nat)) :=
  cbind (if k_sym kw then symc p cnt else Ret (true, cnt)) (fun '(ok, cnt) =>
  if negb ok then Ret (Ok (o, cnt))
  else
    cbind (cgc_init p kw o rhs cnt) (fun st =>
    let res0 := c_res st in
    cbind (cwhile fuel (cgc_cond p kw rhs res0) (cgc_body p kw) st) (fun r =>
    match r with
    | Ok st' => Ret (Ok (cgc_final p res0 st', c_cnt st'))
    | Err e => Ret (Err e)
    end))).

(** ** Answering with functions. *)
Definition parof (q : kprob W) : kpar :=
  mkpar (q_m q) (q_n q) (match q_P q with Some _ => true | None => false end) (q_abstol q) (q_reltol q)
        (q_cbrt q) (q_draws q).
Definition answers (q : kprob W) (l : lab) (x : V) : V := match l with LA => q_A q x | LP => prec q x end.

Definition nA (t : list lab) : nat := length (filter isA t).
Lemma nA_app : forall t t', nA (t ++ t') = nA t + nA t'.
Proof. intros. unfold nA. rewrite filter_app, app_length. reflexivity. Qed.

Lemma pure_precc : forall q r, fst (pure (answers q) (precc (parof q) r)) = prec q r /\
  nA (snd (pure (answers q) (precc (parof q) r))) = 0.
Proof. intros q r. unfold precc, parof, prec. cbn [p_P]. destruct (q_P q) eqn:E; cbn; [unfold prec; rewrite E|]; split; reflexivity. Qed.

Lemma pure_symc_loop : forall q cbrt draws cnt,
  fst (pure (answers q) (symc_loop cbrt draws cnt)) = check_symmetric_loop cbrt (q_A q) draws cnt /\
  snd (check_symmetric_loop cbrt (q_A q) draws cnt) =
    cnt + nA (snd (pure (answers q) (symc_loop cbrt draws cnt))).
Proof.
  intros q cbrt draws. induction draws as [|x rest IH]; intro cnt; cbn [check_symmetric_loop symc_loop pure].
  - cbn. split; [reflexivity|lia].
  - unfold opmul. cbn [answers]. replace (cnt + 1 + 1) with (cnt + 2) by lia.
    match goal with |- context [if ?b then Ret _ else _] => destruct b end.
    + cbn. split; [reflexivity|lia].
    + destruct (IH (cnt + 2)) as [I1 I2].
      destruct (pure (answers q) (symc_loop cbrt rest (cnt + 2))) as [r t]. cbn [fst snd] in *.
      split; [exact I1|]. rewrite I2. unfold nA. cbn. lia.
Qed.
Lemma pure_symc : forall q cnt,
  fst (pure (answers q) (symc (parof q) cnt)) =
    check_symmetric (q_cbrt q) (q_m q) (q_n q) (q_A q) (q_draws q) cnt /\
  snd (check_symmetric (q_cbrt q) (q_m q) (q_n q) (q_A q) (q_draws q) cnt) =
    cnt + nA (snd (pure (answers q) (symc (parof q) cnt))).
Proof.
  intros q cnt. unfold check_symmetric, symc, parof. cbn [p_m p_n p_cbrt p_draws].
  destruct (negb _); [cbn; split; [reflexivity|lia]|apply pure_symc_loop].
Qed.

Lemma pure_cgc_init : forall q kw o rhs cnt,
  fst (pure (answers q) (cgc_init (parof q) kw o rhs cnt)) = cg_init q kw o rhs cnt /\
  c_cnt (cg_init q kw o rhs cnt) = cnt + nA (snd (pure (answers q) (cgc_init (parof q) kw o rhs cnt))).
Proof.
  intros q kw o rhs cnt. unfold cgc_init, cg_init. rewrite pure_bind.
  destruct (k_guess kw) as [g|]; cbn [pure cbind]; unfold opmul; cbn [answers];
  rewrite pure_bind;
  match goal with |- context [pure (answers q) (precc (parof q) ?r)] =>
    pose proof (pure_precc q r) as [P1 P2];
    destruct (pure (answers q) (precc (parof q) r)) as [y t]; cbn [fst snd] in P1, P2; subst y end;
  cbn [pure fst snd c_cnt]; rewrite ?app_nil_r; split; try reflexivity.
  - cbn [app]. change (nA (LA :: t)) with (Datatypes.S (nA t)). lia.
  - cbn [app]. lia.
Qed.

Lemma pure_cgc_body : forall q kw st,
  fst (pure (answers q) (cgc_body (parof q) kw st)) = cg_body q kw st /\
  forall st', cg_body q kw st = Ok st' ->
    c_cnt st' = c_cnt st + nA (snd (pure (answers q) (cgc_body (parof q) kw st))).
Proof.
  intros q kw st. unfold cgc_body, cg_body. cbn [pure]. unfold opmul. cbn [answers].
  match goal with |- context [if ?b then Ret _ else _] => destruct b end.
  - cbn [pure fst snd]. split; [reflexivity|]. intros st' E. injection E as <-. reflexivity.
  - cbn zeta. rewrite pure_bind.
    match goal with |- context [pure (answers q) (precc (parof q) ?r)] =>
      pose proof (pure_precc q r) as [P1 P2];
      destruct (pure (answers q) (precc (parof q) r)) as [y t]; cbn [fst snd] in P1, P2; subst y end.
    cbn [pure fst snd]. rewrite app_nil_r. split; [reflexivity|].
    intros st' E. injection E as <-. cbn [c_cnt]. change (nA (LA :: t)) with (Datatypes.S (nA t)). lia.
Qed.

Theorem pure_cgc_solve : forall fuel q o rhs kw cnt,
  fst (pure (answers q) (cgc_solve fuel (parof q) o rhs kw cnt)) = cg_solve fuel q o rhs kw cnt /\
  forall o' cnt', cg_solve fuel q o rhs kw cnt = Ok (o', cnt') ->
    cnt' = cnt + nA (snd (pure (answers q) (cgc_solve fuel (parof q) o rhs kw cnt))).
Proof.
  intros fuel q o rhs kw cnt. unfold cgc_solve, cg_solve. rewrite pure_bind.
  assert (HS : fst (pure (answers q) (if k_sym kw then symc (parof q) cnt else Ret (true, cnt))) =
               (if k_sym kw then check_symmetric (q_cbrt q) (q_m q) (q_n q) (q_A q) (q_draws q) cnt
                else (true, cnt)) /\
               snd (if k_sym kw then check_symmetric (q_cbrt q) (q_m q) (q_n q) (q_A q) (q_draws q) cnt
                else (true, cnt)) =
               cnt + nA (snd (pure (answers q) (if k_sym kw then symc (parof q) cnt else Ret (true, cnt))))).
  { destruct (k_sym kw); [apply pure_symc|]. cbn. split; [reflexivity|lia]. }
  destruct HS as [HS1 HS2].
  destruct (pure (answers q) (if k_sym kw then symc (parof q) cnt else Ret (true, cnt))) as [[ok cn] t].
  cbn [fst snd] in HS1, HS2. rewrite <- HS1 in HS2 |- *. cbn [snd] in HS2.
  destruct (negb ok).
  - cbn [pure fst snd]. rewrite app_nil_r. split; [reflexivity|]. intros o' cnt' E. injection E as <- <-. exact HS2.
  - rewrite pure_bind. destruct (pure_cgc_init q kw o rhs cn) as [I1 I2].
    destruct (pure (answers q) (cgc_init (parof q) kw o rhs cn)) as [st t1]. cbn [fst snd] in I1, I2. subst st.
    cbn zeta. rewrite pure_bind.
    destruct (pure_cwhile _ (answers q) (cg_body q kw) (cg_cond q kw rhs (c_res (cg_init q kw o rhs cn)))
      (cgc_body (parof q) kw) isA c_cnt (fun st => proj1 (pure_cgc_body q kw st))
      (fun st => proj2 (pure_cgc_body q kw st)) fuel (cg_init q kw o rhs cn)) as [W1 W2].
    change (cgc_cond (parof q) kw rhs (c_res (cg_init q kw o rhs cn)))
      with (cg_cond q kw rhs (c_res (cg_init q kw o rhs cn))).
    destruct (pure (answers q) (cwhile fuel _ _ _)) as [r t2]. cbn [fst snd] in W1, W2. subst r.
    destruct (while fuel _ _ _) as [st'|e]; cbn [pure fst snd].
    + split; [reflexivity|]. intros o' cnt' E. injection E as <- <-.
      rewrite (W2 _ eq_refl), I2, HS2, app_nil_r, !nA_app. unfold nA. lia.
    + split; [reflexivity|discriminate].
Qed.

(** ** The unsymmetric solvers. *)

(** cgs.py:58-60, bicgstab.py:62-65, tfqmr.py:57-59. *)
Definition startc_r (kw : kkw W) (rhs : V) (cnt : nat) : cl (V * nat) :=
  match w_guess kw with
  | Some g => Ask LA g (fun Ax => Ret (vsub rhs Ax, cnt + 1))
  | None => Ret (rhs, cnt)
  end.

(** cgs.py:78-114. *)
Definition cgsc_body (p : kpar) (r0 : V) (th : S) (mx : nat) (st : cgs_st W) : cl (res (cgs_st W)) :=
  cbind (precc p (s_p st)) (fun y =>
  Ask LA y (fun v =>
  let nmv := s_nmv st + 1 in
  let sigma := vdot r0 v in
  let alpha := sdiv (s_rho st) sigma in
  let qq := vsub (s_u st) (vscale alpha v) in
  cbind (precc p (vadd (s_u st) qq)) (fun z =>
  let x := vadd (s_x st) (vscale alpha z) in
  Ask LA z (fun Az =>
  let cnt := s_cnt st + 1 + 1 in
  let nmv := nmv + 1 in
  let r := vsub (s_r st) (vscale alpha Az) in
  let rn := vnorm r in
  if sleb rn th || (mx <=? nmv) then
    Ret (Ok (mkcgs x r (s_u st) (s_p st) (s_rho st) rn nmv cnt true))
  else
    let rho_next := vdot r0 r in
    let beta := sdiv rho_next (s_rho st) in
    let u := vadd r (vscale beta qq) in
    let pp := vadd (vscale beta (vadd (vscale beta (s_p st)) qq)) u in
    Ret (Ok (mkcgs x r u pp rho_next rn nmv cnt false)))))).

(** cgs.py:40-123. *)
Definition cgsc_solve (fuel : nat) (p : kpar) (rhs : V) (kw : kkw W) (cnt : nat) : cl (res (kout W * nat)) :=
  let mx := mmax (w_mmax kw) rhs in
  let x := start_x kw rhs in
  cbind (startc_r kw rhs cnt) (fun '(r0, cnt) =>
  let rho := vdot r0 r0 in
  let rn := sabs (ssqrt rho) in
  let th := thrc p rn in
  let st := mkcgs x r0 r0 r0 rho rn 0 cnt (sleb rn th || (mx <=? 0)) in
  cbind (cwhile fuel (fun st => negb (s_fin st)) (cgsc_body p r0 th mx) st) (fun r =>
  match r with
  | Ok st => Ret (Ok (mkout rn (s_res st) (sleb (s_res st) th) (s_nmv st) (s_x st), s_cnt st))
  | Err e => Ret (Err e)
  end)).

(** bicgstab.py:87-145. *)
Definition bic_body (p : kpar) (r0 : V) (th : S) (mx : nat) (st : bi_st W) : cl (res (bi_st W)) :=
  let beta := sdiv (smul (sdiv (b_rhon st) (b_rho st)) (b_alpha st)) (b_omega st) in
  let rho := b_rhon st in
  let pp := vadd (vsub (vscale beta (b_p st)) (vscale (smul beta (b_omega st)) (b_v st))) (b_r st) in
  cbind (precc p pp) (fun qq =>
  Ask LA qq (fun v =>
  let cnt := b_cnt st + 1 in
  let nmv := b_nmv st + 1 in
  let alpha := sdiv rho (vdot r0 v) in
  let s := vsub (b_r st) (vscale alpha v) in
  let rn := vnorm s in
  if sleb rn th then
    Ret (Ok (mkbi (vadd (b_x st) (vscale alpha qq)) (b_r st) pp v rho rho alpha (b_omega st) rn nmv cnt true))
  else if mx <=? nmv then
    Ret (Ok (mkbi (b_x st) (b_r st) pp v rho rho alpha (b_omega st) rn nmv cnt true))
  else
    cbind (precc p s) (fun z =>
    Ask LA z (fun t =>
    let cnt := cnt + 1 in
    let nmv := nmv + 1 in
    let omega := sdiv (vdot t s) (vdot t t) in
    let rho_next := smul (sneg omega) (vdot r0 t) in
    let r := vsub s (vscale omega t) in
    let x := vadd (vadd (b_x st) (vscale omega z)) (vscale alpha qq) in
    let rn := vnorm r in
    Ret (Ok (mkbi x r pp v rho rho_next alpha omega rn nmv cnt (sleb rn th || (mx <=? nmv)))))))).

(** bicgstab.py:43-151. *)
Definition bic_solve (fuel : nat) (p : kpar) (rhs : V) (kw : kkw W) (cnt : nat) : cl (res (kout W * nat)) :=
  let mx := mmax (w_mmax kw) rhs in
  let x := start_x kw rhs in
  cbind (startc_r kw rhs cnt) (fun '(r0, cnt) =>
  let nmv := match w_guess kw with Some _ => 1 | None => 0 end in
  let rhon := vdot r0 r0 in
  let rn := sabs (ssqrt rhon) in
  let th := thrc p rn in
  let st := mkbi x r0 (vzeros (vlen rhs)) (vzeros (vlen rhs)) s1 rhon s1 s1 rn nmv cnt
                 (sleb rn th || (mx <=? nmv)) in
  cbind (cwhile fuel (fun st => negb (b_fin st)) (bic_body p r0 th mx) st) (fun r =>
  match r with
  | Ok st => Ret (Ok (mkout rn (b_res st) (sleb (b_res st) th) (b_nmv st) (b_x st), b_cnt st))
  | Err e => Ret (Err e)
  end)).

(** tfqmr.py:87-150. *)
Definition tfc_body (p : kpar) (r0 : V) (th : S) (mx : nat) (st : tf_st W) : cl (res (tf_st W)) :=
  let k := t_k st + 1 in
  let sigma := vdot r0 (t_v st) in
  let alpha := sdiv (t_rho st) sigma in
  let '(w, d, theta, rn, eta, x) :=
    tf_pass alpha (t_w st) (t_u st) (t_d st) (t_z st) (t_x st) (t_theta st) (t_eta st) (t_res st) in
  let m := ssub (smul (slit 2) (sofnat k)) s1 in
  if tf_test th mx rn m (t_nmv st) then
    Ret (Ok (mktf x (t_y st) w d (t_z st) (t_u st) (t_v st) theta eta (t_rho st) rn k (Some m)
             (t_nmv st) (t_cnt st) true))
  else
    let m := sadd m s1 in
    let y := vsub (t_y st) (vscale alpha (t_v st)) in
    cbind (precc p y) (fun z =>
    Ask LA z (fun u =>
    let cnt := t_cnt st + 1 in
    let nmv := t_nmv st + 1 in
    let '(w, d, theta, rn, eta, x) := tf_pass alpha w u d z x theta eta rn in
    if tf_test th mx rn m nmv then
      Ret (Ok (mktf x y w d z u (t_v st) theta eta (t_rho st) rn k (Some m) nmv cnt true))
    else
      let rho_next := vdot r0 w in
      let beta := sdiv rho_next (t_rho st) in
      let y := vadd (vscale beta y) w in
      let v := vscale beta (vadd (vscale beta (t_v st)) u) in
      cbind (precc p y) (fun z =>
      Ask LA z (fun u =>
      let cnt := cnt + 1 in
      let nmv := nmv + 1 in
      Ret (Ok (mktf x y w d z u (vadd v u) theta eta rho_next rn k (Some m) nmv cnt false)))))).

(** tfqmr.py:54-83. *)
Definition tfc_init (p : kpar) (rhs : V) (x r0 : V) (rn th : S) (mx cnt : nat) : cl (tf_st W) :=
  if sleb rn th || (mx <=? 0) then
    Ret (mktf x r0 r0 r0 r0 r0 r0 s0 s0 (vdot r0 r0) rn 0 None 0 cnt true)
  else
    cbind (precc p r0) (fun z =>
    Ask LA z (fun u =>
    Ret (mktf x r0 r0 (vzeros (vlen rhs)) z u u s0 s0 (vdot r0 r0) rn 0 None 1 (cnt + 1) false))).

(** tfqmr.py:39-159. *)
Definition tfc_solve (fuel : nat) (p : kpar) (rhs : V) (kw : kkw W) (cnt : nat) : cl (res (kout W * nat)) :=
  let mx := mmax (w_mmax kw) rhs in
  let x := start_x kw rhs in
  cbind (startc_r kw rhs cnt) (fun '(r0, cnt) =>
  let rn := sabs (ssqrt (vdot r0 r0)) in
  let th := thrc p rn in
  cbind (tfc_init p rhs x r0 rn th mx cnt) (fun st =>
  cbind (cwhile fuel (fun st => negb (t_fin st)) (tfc_body p r0 th mx) st) (fun r =>
  match r with
  | Ok st =>
      match t_m st with
      | None => Ret (Err UnboundLocalError)
      | Some m =>
          Ret (Ok (mkout rn (t_res st) (sltb (smul (t_res st) (ssqrt (sadd m s1))) th) (t_nmv st) (t_x st),
              t_cnt st))
      end
  | Err e => Ret (Err e)
  end))).

Ltac ask1 q :=
  match goal with
  | |- context [pure (answers q) (precc (parof q) ?r)] =>
      let P1 := fresh "P" in let P2 := fresh "P" in
      pose proof (pure_precc q r) as [P1 P2];
      destruct (pure (answers q) (precc (parof q) r)) as [? ?]; cbn [fst snd] in P1, P2; rewrite P1
  end.
Ltac asks q := repeat (first [rewrite pure_bind | ask1 q | progress cbn [pure answers cbind] | progress cbn zeta]).
Lemma nA_LA : forall t, nA (LA :: t) = Datatypes.S (nA t).
Proof. reflexivity. Qed.
Lemma nA_nil : nA [] = 0.
Proof. reflexivity. Qed.
Ltac nAs := rewrite ?nA_app, ?nA_LA, ?nA_app, ?nA_LA, ?nA_app, ?nA_LA, ?nA_app, ?nA_nil;
  repeat match goal with H : nA _ = 0 |- _ => rewrite H end; lia.
Ltac fin2 := cbn [fst snd]; split; [reflexivity|]; let E := fresh in intros ? E; injection E as <-; cbn [s_cnt b_cnt t_cnt]; nAs.

Lemma pure_startc_r : forall q kw rhs cnt,
  fst (pure (answers q) (startc_r kw rhs cnt)) = start_r q kw rhs cnt /\
  snd (start_r q kw rhs cnt) = cnt + nA (snd (pure (answers q) (startc_r kw rhs cnt))).
Proof. intros q kw rhs cnt. unfold startc_r, start_r. destruct (w_guess kw); cbn; split; try reflexivity; lia. Qed.

Lemma pure_cgsc_body : forall q r0 th mx st,
  fst (pure (answers q) (cgsc_body (parof q) r0 th mx st)) = cgs_body q r0 th mx st /\
  forall st', cgs_body q r0 th mx st = Ok st' ->
    s_cnt st' = s_cnt st + nA (snd (pure (answers q) (cgsc_body (parof q) r0 th mx st))).
Proof.
  intros q r0 th mx st. unfold cgsc_body, cgs_body, opmul. asks q.
  match goal with |- context [if ?b then Ret _ else _] => destruct b end; cbn [pure]; fin2.
Qed.
Lemma pure_bic_body : forall q r0 th mx st,
  fst (pure (answers q) (bic_body (parof q) r0 th mx st)) = bi_body q r0 th mx st /\
  forall st', bi_body q r0 th mx st = Ok st' ->
    b_cnt st' = b_cnt st + nA (snd (pure (answers q) (bic_body (parof q) r0 th mx st))).
Proof.
  intros q r0 th mx st. unfold bic_body, bi_body, opmul. asks q.
  match goal with |- context [if sleb ?a th then Ret _ else _] => destruct (sleb a th) end; [cbn [pure]; fin2|].
  destruct (mx <=? b_nmv st + 1); [cbn [pure]; fin2|]. asks q. fin2.
Qed.
Lemma pure_tfc_body : forall q r0 th mx st,
  fst (pure (answers q) (tfc_body (parof q) r0 th mx st)) = tf_body q r0 th mx st /\
  forall st', tf_body q r0 th mx st = Ok st' ->
    t_cnt st' = t_cnt st + nA (snd (pure (answers q) (tfc_body (parof q) r0 th mx st))).
Proof.
  intros q r0 th mx st. unfold tfc_body, tf_body, opmul. cbn zeta.
  destruct (tf_pass _ _ _ _ _ _ _ _ _) as [[[[[w d] theta] rn] eta] x].
  destruct (tf_test _ _ _ _ _); [cbn [pure]; fin2|]. asks q.
  destruct (tf_pass _ _ _ _ _ _ _ _ _) as [[[[[w1 d1] theta1] rn1] eta1] x1].
  destruct (tf_test _ _ _ _ _); [cbn [pure]; fin2|]. asks q. fin2.
Qed.
Lemma pure_tfc_init : forall q rhs x r0 rn th mx cnt,
  fst (pure (answers q) (tfc_init (parof q) rhs x r0 rn th mx cnt)) = tf_init q rhs x r0 rn th mx cnt /\
  t_cnt (tf_init q rhs x r0 rn th mx cnt) =
    cnt + nA (snd (pure (answers q) (tfc_init (parof q) rhs x r0 rn th mx cnt))).
Proof.
  intros. unfold tfc_init, tf_init, opmul. destruct (_ || _); [cbn; split; [reflexivity|lia]|].
  asks q. cbn [fst snd]. split; [reflexivity|]. cbn [t_cnt]. nAs.
Qed.

Theorem pure_cgsc_solve : forall fuel q rhs kw cnt,
  fst (pure (answers q) (cgsc_solve fuel (parof q) rhs kw cnt)) = cgs_solve fuel q rhs kw cnt /\
  forall o cnt', cgs_solve fuel q rhs kw cnt = Ok (o, cnt') ->
    cnt' = cnt + nA (snd (pure (answers q) (cgsc_solve fuel (parof q) rhs kw cnt))).
Proof.
  intros fuel q rhs kw cnt. unfold cgsc_solve, cgs_solve. cbn zeta. rewrite pure_bind.
  destruct (pure_startc_r q kw rhs cnt) as [S1 S2].
  destruct (pure (answers q) (startc_r kw rhs cnt)) as [[r0 cn] t0]. cbn [fst snd] in S1, S2.
  rewrite <- S1 in S2 |- *. cbn [snd] in S2. clear S1. cbn zeta.
  rewrite pure_bind.
  match goal with |- context [while _ (fun st => negb (s_fin st)) (cgs_body q r0 ?th ?mx) ?sti] =>
    change (thrc (parof q)) with (thr q);
    destruct (pure_cwhile _ (answers q) (cgs_body q r0 th mx) (fun st => negb (s_fin st))
      (cgsc_body (parof q) r0 th mx) isA s_cnt (fun st => proj1 (pure_cgsc_body q r0 th mx st))
      (fun st => proj2 (pure_cgsc_body q r0 th mx st)) fuel sti) as [W1 W2] end.
  destruct (pure (answers q) (cwhile fuel _ _ _)) as [r t2]. cbn [fst snd] in W1, W2. subst r.
  destruct (while fuel _ _ _) as [st'|e]; cbn [pure fst snd]; [|split; [reflexivity|discriminate]].
  specialize (W2 _ eq_refl). 
  cbn [pure fst snd]. split; [reflexivity|]. intros o cnt' E. injection E as <- <-.
  rewrite W2. cbn [s_cnt]. unfold nA in *. rewrite S2, !filter_app, !app_length. cbn [filter length]. lia.
Qed.

Theorem pure_bic_solve : forall fuel q rhs kw cnt,
  fst (pure (answers q) (bic_solve fuel (parof q) rhs kw cnt)) = bi_solve fuel q rhs kw cnt /\
  forall o cnt', bi_solve fuel q rhs kw cnt = Ok (o, cnt') ->
    cnt' = cnt + nA (snd (pure (answers q) (bic_solve fuel (parof q) rhs kw cnt))).
Proof.
  intros fuel q rhs kw cnt. unfold bic_solve, bi_solve. cbn zeta. rewrite pure_bind.
  destruct (pure_startc_r q kw rhs cnt) as [S1 S2].
  destruct (pure (answers q) (startc_r kw rhs cnt)) as [[r0 cn] t0]. cbn [fst snd] in S1, S2.
  rewrite <- S1 in S2 |- *. cbn [snd] in S2. clear S1. cbn zeta.
  rewrite pure_bind.
  match goal with |- context [while _ (fun st => negb (b_fin st)) (bi_body q r0 ?th ?mx) ?sti] =>
    change (thrc (parof q)) with (thr q);
    destruct (pure_cwhile _ (answers q) (bi_body q r0 th mx) (fun st => negb (b_fin st))
      (bic_body (parof q) r0 th mx) isA b_cnt (fun st => proj1 (pure_bic_body q r0 th mx st))
      (fun st => proj2 (pure_bic_body q r0 th mx st)) fuel sti) as [W1 W2] end.
  destruct (pure (answers q) (cwhile fuel _ _ _)) as [r t2]. cbn [fst snd] in W1, W2. subst r.
  destruct (while fuel _ _ _) as [st'|e]; cbn [pure fst snd]; [|split; [reflexivity|discriminate]].
  specialize (W2 _ eq_refl). 
  cbn [pure fst snd]. split; [reflexivity|]. intros o cnt' E. injection E as <- <-.
  rewrite W2. cbn [b_cnt]. unfold nA in *. rewrite S2, !filter_app, !app_length. cbn [filter length]. lia.
Qed.

Theorem pure_tfc_solve : forall fuel q rhs kw cnt,
  fst (pure (answers q) (tfc_solve fuel (parof q) rhs kw cnt)) = tf_solve fuel q rhs kw cnt /\
  forall o cnt', tf_solve fuel q rhs kw cnt = Ok (o, cnt') ->
    cnt' = cnt + nA (snd (pure (answers q) (tfc_solve fuel (parof q) rhs kw cnt))).
Proof.
  intros fuel q rhs kw cnt. unfold tfc_solve, tf_solve. cbn zeta. rewrite pure_bind.
  destruct (pure_startc_r q kw rhs cnt) as [S1 S2].
  destruct (pure (answers q) (startc_r kw rhs cnt)) as [[r0 cn] t0]. cbn [fst snd] in S1, S2.
  rewrite <- S1 in S2 |- *. cbn [snd] in S2. clear S1. cbn zeta.
  rewrite pure_bind. change (thrc (parof q)) with (thr q).
  match goal with |- context [tf_init q rhs ?x r0 ?rn ?th ?mx cn] =>
    destruct (pure_tfc_init q rhs x r0 rn th mx cn) as [I1 I2] end.
  destruct (pure (answers q) (tfc_init _ _ _ _ _ _ _ _)) as [st t1]. cbn [fst snd] in I1, I2. subst st.
  rewrite pure_bind.
  match goal with |- context [while _ (fun st => negb (t_fin st)) (tf_body q r0 ?th ?mx) ?sti] =>
    change (thrc (parof q)) with (thr q);
    destruct (pure_cwhile _ (answers q) (tf_body q r0 th mx) (fun st => negb (t_fin st))
      (tfc_body (parof q) r0 th mx) isA t_cnt (fun st => proj1 (pure_tfc_body q r0 th mx st))
      (fun st => proj2 (pure_tfc_body q r0 th mx st)) fuel sti) as [W1 W2] end.
  destruct (pure (answers q) (cwhile fuel _ _ _)) as [r t2]. cbn [fst snd] in W1, W2. subst r.
  destruct (while fuel _ _ _) as [st'|e]; cbn [pure fst snd]; [|split; [reflexivity|discriminate]].
  specialize (W2 _ eq_refl). destruct (t_m st'); [|split; [reflexivity|discriminate]].
  cbn [pure fst snd]. split; [reflexivity|]. intros o cnt' E. injection E as <- <-.
  rewrite W2. unfold nA in *. rewrite I2, S2, !filter_app, !app_length. cbn [filter length]. lia.
Qed.

(** Without a preconditioner, nothing is asked of it. *)
Definition nop (p : kpar) (l : lab) : Prop := l = LP -> p_P p = true.
Lemma asks_precc : forall p r, asksin (nop p) (precc p r).
Proof. intros p r. unfold precc. destruct (p_P p) eqn:E; repeat constructor. intros _. exact E. Qed.
Lemma asks_symc : forall p cnt, asksin (nop p) (symc p cnt).
Proof.
  intros p cnt. unfold symc. destruct (negb _); [constructor|]. revert cnt.
  induction (p_draws p) as [|x l IH]; intro cnt; cbn [symc_loop]; [constructor|].
  constructor; [discriminate|]. intro w. constructor; [discriminate|]. intro r. cbn zeta.
  destruct (sgtb _ _); [constructor|apply IH].
Qed.
Ltac asksolve :=
  repeat (cbn zeta; first
    [ apply asks_precc | apply asks_symc | apply asksin_while; intros | apply asksin_bind; intros
    | apply asksin_crb; intros | constructor; [discriminate|]; intros | constructor
    | match goal with
      | |- context [let '_ := ?e in _] => destruct e
      | |- context [if ?b then _ else _] => destruct b
      | |- context [match ?e with _ => _ end] => destruct e
      end ]).
Lemma asks_cgc : forall fuel p o rhs kw cnt, asksin (nop p) (cgc_solve fuel p o rhs kw cnt).
Proof. intros. unfold cgc_solve, cgc_init, cgc_body. asksolve. Qed.
Lemma asks_cgsc : forall fuel p rhs kw cnt, asksin (nop p) (cgsc_solve fuel p rhs kw cnt).
Proof. intros. unfold cgsc_solve, startc_r, cgsc_body. asksolve. Qed.
Lemma asks_bic : forall fuel p rhs kw cnt, asksin (nop p) (bic_solve fuel p rhs kw cnt).
Proof. intros. unfold bic_solve, startc_r, bic_body. asksolve. Qed.
Lemma asks_tfc : forall fuel p rhs kw cnt, asksin (nop p) (tfc_solve fuel p rhs kw cnt).
Proof. intros. unfold tfc_solve, startc_r, tfc_init, tfc_body. asksolve. Qed.
End CgC.
