(** * Scaling the right-hand side.

    A grading of the scalars is a family [gm k] that behaves like the multiplication by c^k for some c > 0
    under every operation the solvers use.  The real numbers have one for every c > 0, rounded arithmetic
    (without overflow and underflow) for every power of the radix. *)
From Coq Require Import List ZArith QArith Bool Lia.
From Verif Require Import Base Num ToolsModel CgModel KrylovModel.
Import ListNotations.
Local Open Scope Z_scope.

Record grade (K : Scal) := mkgrade {
  gm : Z -> sc K -> sc K;
  gm_0 : forall a, gm 0 a = a;
  gm_s0 : forall k, gm k s0 = s0;
  gm_add : forall k a b, sadd (gm k a) (gm k b) = gm k (sadd a b);
  gm_sub : forall k a b, ssub (gm k a) (gm k b) = gm k (ssub a b);
  gm_mul : forall j k a b, smul (gm j a) (gm k b) = gm (j + k) (smul a b);
  gm_div : forall j k a b, sdiv (gm j a) (gm k b) = gm (j - k) (sdiv a b);
  gm_neg : forall k a, sneg (gm k a) = gm k (sneg a);
  gm_abs : forall k a, sabs (gm k a) = gm k (sabs a);
  gm_real : forall k a, sreal (gm k a) = gm k (sreal a);
  gm_imag : forall k a, simag (gm k a) = gm k (simag a);
  gm_sqrt : forall k a, ssqrt (gm (2 * k) a) = gm k (ssqrt a);
  gm_lt : forall k a b, sltb (gm k a) (gm k b) = sltb a b;
  gm_le : forall k a b, sleb (gm k a) (gm k b) = sleb a b;
  gm_eq : forall k a b, seqb (gm k a) (gm k b) = seqb a b }.
Arguments gm {K} _ _ _.

Record vgrade {K : Scal} (G : grade K) (W : Vs K) := mkvgrade {
  vm : Z -> vc W -> vc W;
  vm_0 : forall v, vm 0 v = v;
  vm_len : forall k v, vlen (vm k v) = vlen v;
  vm_zeros : forall k n, vm k (vzeros n) = vzeros n;
  vm_add : forall k u v, vadd (vm k u) (vm k v) = vm k (vadd u v);
  vm_sub : forall k u v, vsub (vm k u) (vm k v) = vm k (vsub u v);
  vm_neg : forall k u, vneg (vm k u) = vm k (vneg u);
  vm_scale : forall j k a u, vscale (gm G j a) (vm k u) = vm (j + k) (vscale a u);
  vm_divs : forall j k a u, vdivs (vm k u) (gm G j a) = vm (k - j) (vdivs u a);
  vm_dot : forall j k u v, vdot (vm j u) (vm k v) = gm G (j + k) (vdot u v);
  vm_norm : forall k u, vnorm (vm k u) = gm G k (vnorm u) }.
Arguments vm {K G W} _ _ _.

Section G.
Context {K : Scal} (G : grade K).
Notation m := (gm G).

(** The same laws with one factor of degree 0. *)
Lemma gm_mulr : forall k a b, smul a (m k b) = m k (smul a b).
Proof. intros. rewrite <- (gm_0 K G a) at 1. apply gm_mul. Qed.
Lemma gm_mull : forall k a b, smul (m k a) b = m k (smul a b).
Proof. intros. rewrite <- (gm_0 K G b) at 1. rewrite gm_mul, Z.add_0_r. reflexivity. Qed.
Lemma gm_divl : forall k a b, sdiv (m k a) b = m k (sdiv a b).
Proof. intros. rewrite <- (gm_0 K G b) at 1. rewrite gm_div, Z.sub_0_r. reflexivity. Qed.
Lemma gm_divs : forall k a b, sdiv (m k a) (m k b) = sdiv a b.
Proof. intros. rewrite gm_div, Z.sub_diag. apply gm_0. Qed.
Lemma gm_divr : forall k a b, sdiv a (m k b) = m (- k) (sdiv a b).
Proof. intros. rewrite <- (gm_0 K G a) at 1. apply gm_div. Qed.
Lemma gm_lt0 : forall k a, sltb (m k a) s0 = sltb a s0.
Proof. intros. rewrite <- (gm_s0 K G k) at 1. apply gm_lt. Qed.
Lemma gm_0lt : forall k a, sltb s0 (m k a) = sltb s0 a.
Proof. intros. rewrite <- (gm_s0 K G k) at 1. apply gm_lt. Qed.
Lemma gm_le0 : forall k a, sleb (m k a) s0 = sleb a s0.
Proof. intros. rewrite <- (gm_s0 K G k) at 1. apply gm_le. Qed.
Lemma gm_eq0 : forall k a, seqb (m k a) s0 = seqb a s0.
Proof. intros. rewrite <- (gm_s0 K G k) at 1. apply gm_eq. Qed.
Lemma gm_sq2 : forall a, ssqrt (m 2 a) = m 1 (ssqrt a).
Proof. intros. apply (gm_sqrt K G 1). Qed.
Lemma gm_max : forall k a b, pymax (m k a) (m k b) = m k (pymax a b).
Proof. intros. unfold pymax. rewrite gm_lt. destruct (sltb a b); reflexivity. Qed.
Lemma gm_min : forall k a b, pymin (m k a) (m k b) = m k (pymin a b).
Proof. intros. unfold pymin. rewrite gm_lt. destruct (sltb b a); reflexivity. Qed.

Context {W : Vs K} (H : vgrade G W).
Lemma vm_scale0 : forall k a u, vscale a (vm H k u) = vm H k (vscale a u).
Proof. intros. rewrite <- (gm_0 K G a) at 1. apply vm_scale. Qed.
Lemma vm_scalel : forall k a u, vscale (m k a) u = vm H k (vscale a u).
Proof. intros. rewrite <- (vm_0 G W H u) at 1. rewrite vm_scale, Z.add_0_r. reflexivity. Qed.
Lemma vm_divs0 : forall k a u, vdivs (vm H k u) a = vm H k (vdivs u a).
Proof. intros. rewrite <- (gm_0 K G a) at 1. rewrite vm_divs, Z.sub_0_r. reflexivity. Qed.
Lemma vm_divss : forall k a u, vdivs (vm H k u) (m k a) = vdivs u a.
Proof. intros. rewrite vm_divs, Z.sub_diag. apply vm_0. Qed.
Lemma vm_dotl : forall k u v, vdot (vm H k u) v = m k (vdot u v).
Proof. intros. rewrite <- (vm_0 G W H v) at 1. rewrite vm_dot, Z.add_0_r. reflexivity. Qed.
Lemma vm_dotr : forall k u v, vdot u (vm H k v) = m k (vdot u v).
Proof. intros. rewrite <- (vm_0 G W H u) at 1. apply vm_dot. Qed.
End G.

(** A homogeneous function: it commutes with the scalings. *)
Definition homog {K : Scal} {G : grade K} {W1 W2 : Vs K} (H1 : vgrade G W1) (H2 : vgrade G W2)
  (A : vc W1 -> vc W2) : Prop := forall k v, A (vm H1 k v) = vm H2 k (A v).
Definition ohomog {K : Scal} {G : grade K} {W : Vs K} (H : vgrade G W) (P : option (vc W -> vc W)) : Prop :=
  forall f, P = Some f -> homog H H f.

(** Runs of two loops step by step. *)
Lemma while_map : forall {St St' : Type} (f : St -> St') c body c' body',
  (forall s, c' (f s) = c s) ->
  (forall s, c s = true -> body' (f s) = match body s with Ok t => Ok (f t) | Err e => Err e end) ->
  forall fuel s, while fuel c' body' (f s) = match while fuel c body s with Ok t => Ok (f t) | Err e => Err e end.
Proof.
  intros St St' f c body c' body' HC HB fuel. induction fuel as [|fuel IH]; intros s; [reflexivity|].
  cbn. rewrite HC. destruct (c s) eqn:E; [|reflexivity]. rewrite HB by exact E. destruct (body s) as [t|e]; [|reflexivity].
  apply IH.
Qed.
Definition rmap {A B} (f : A -> B) (r : res A) : res B := match r with Ok a => Ok (f a) | Err e => Err e end.

(** Collect the scalings at the root of every term, innermost first. *)
Ltac clean t := lazymatch t with context [gm _ _ _] => fail | context [vm _ _ _] => fail | _ => idtac end.
Ltac gmz := cbn [Z.add Z.sub Z.opp Z.mul Z.pos_sub Pos.add Pos.mul Pos.succ Z.succ_double Z.pred_double Z.double Pos.pred_double].
Ltac gm1 :=
  match goal with
  | |- context [gm ?G 0 ?a] => rewrite (gm_0 _ G a)
  | |- context [vm ?H 0 ?a] => rewrite (vm_0 _ _ H a)
  | |- context [gm ?G ?k s0] => rewrite (gm_s0 _ G k)
  | |- context [sadd (gm ?G ?k ?a) (gm ?G ?k ?b)] => clean a; clean b; rewrite (gm_add _ G k a b)
  | |- context [ssub (gm ?G ?k ?a) (gm ?G ?k ?b)] => clean a; clean b; rewrite (gm_sub _ G k a b)
  | |- context [smul (gm ?G ?j ?a) (gm ?G ?k ?b)] => clean a; clean b; rewrite (gm_mul _ G j k a b)
  | |- context [smul (gm ?G ?j ?a) ?b] => clean a; clean b; rewrite (gm_mull G j a b)
  | |- context [smul ?a (gm ?G ?k ?b)] => clean a; clean b; rewrite (gm_mulr G k a b)
  | |- context [sdiv (gm ?G ?k ?a) (gm ?G ?k ?b)] => clean a; clean b; rewrite (gm_divs G k a b)
  | |- context [sdiv (gm ?G ?j ?a) (gm ?G ?k ?b)] => clean a; clean b; rewrite (gm_div _ G j k a b)
  | |- context [sdiv (gm ?G ?j ?a) ?b] => clean a; clean b; rewrite (gm_divl G j a b)
  | |- context [sdiv ?a (gm ?G ?k ?b)] => clean a; clean b; rewrite (gm_divr G k a b)
  | |- context [sneg (gm ?G ?k ?a)] => clean a; rewrite (gm_neg _ G k a)
  | |- context [sabs (gm ?G ?k ?a)] => clean a; rewrite (gm_abs _ G k a)
  | |- context [sreal (gm ?G ?k ?a)] => clean a; rewrite (gm_real _ G k a)
  | |- context [simag (gm ?G ?k ?a)] => clean a; rewrite (gm_imag _ G k a)
  | |- context [ssqrt (gm ?G 2 ?a)] => clean a; rewrite (gm_sq2 G a)
  | |- context [sltb (gm ?G ?k ?a) (gm ?G ?k ?b)] => clean a; clean b; rewrite (gm_lt _ G k a b)
  | |- context [sleb (gm ?G ?k ?a) (gm ?G ?k ?b)] => clean a; clean b; rewrite (gm_le _ G k a b)
  | |- context [seqb (gm ?G ?k ?a) (gm ?G ?k ?b)] => clean a; clean b; rewrite (gm_eq _ G k a b)
  | |- context [sltb (gm ?G ?k ?a) s0] => clean a; rewrite (gm_lt0 G k a)
  | |- context [sltb s0 (gm ?G ?k ?a)] => clean a; rewrite (gm_0lt G k a)
  | |- context [sleb (gm ?G ?k ?a) s0] => clean a; rewrite (gm_le0 G k a)
  | |- context [seqb (gm ?G ?k ?a) s0] => clean a; rewrite (gm_eq0 G k a)
  | |- context [pymax (gm ?G ?k ?a) (gm ?G ?k ?b)] => clean a; clean b; rewrite (gm_max G k a b)
  | |- context [pymin (gm ?G ?k ?a) (gm ?G ?k ?b)] => clean a; clean b; rewrite (gm_min G k a b)
  | |- context [vlen (vm ?H ?k ?a)] => rewrite (vm_len _ _ H k a)
  | |- context [vadd (vm ?H ?k ?a) (vm ?H ?k ?b)] => clean a; clean b; rewrite (vm_add _ _ H k a b)
  | |- context [vsub (vm ?H ?k ?a) (vm ?H ?k ?b)] => clean a; clean b; rewrite (vm_sub _ _ H k a b)
  | |- context [vneg (vm ?H ?k ?a)] => clean a; rewrite (vm_neg _ _ H k a)
  | |- context [vscale (gm ?G ?j ?a) (vm ?H ?k ?b)] => clean a; clean b; rewrite (vm_scale _ _ H j k a b)
  | |- context [vscale ?a (vm ?H ?k ?b)] => clean a; clean b; rewrite (vm_scale0 _ H k a b)
  | |- context [vdivs (vm ?H ?k ?b) (gm ?G ?k ?a)] => clean a; clean b; rewrite (vm_divss _ H k a b)
  | |- context [vdivs (vm ?H ?k ?b) ?a] => clean a; clean b; rewrite (vm_divs0 _ H k a b)
  | |- context [vdot (vm ?H ?j ?a) (vm ?H ?k ?b)] => clean a; clean b; rewrite (vm_dot _ _ H j k a b)
  | |- context [vnorm (vm ?H ?k ?a)] => clean a; rewrite (vm_norm _ _ H k a)
  end; gmz.
Ltac gms := repeat gm1.

Section Krylov.
Context {K : Scal} (G : grade K) {W : Vs K} (H : vgrade G W).
Notation m := (gm G).
Notation w := (vm H).

(** The same problem with an absolute tolerance scaled like the right-hand side. *)
Definition q_up (q : kprob W) : kprob W :=
  mkprob (q_m q) (q_n q) (q_A q) (q_P q) (m 1 (q_abstol q)) (q_reltol q) (q_cbrt q) (q_draws q).

Context (q : kprob W) (HA : homog H H (q_A q)) (HP : ohomog H (q_P q)).
Lemma prec_up : forall k v, prec (q_up q) (w k v) = w k (prec q v).
Proof. intros. unfold prec. cbn. destruct (q_P q) as [P|]; [apply (HP P eq_refl)|reflexivity]. Qed.
Lemma thr_up : forall a, thr (q_up q) (m 1 a) = m 1 (thr q a).
Proof. intros. unfold thr. cbn. gms. reflexivity. Qed.
Lemma mmax_up : forall o k v, mmax o (w k v) = mmax o v.
Proof. intros. unfold mmax. gms. reflexivity. Qed.
Lemma curv_up : forall k a, curv_bad (m k a) = curv_bad a.
Proof. intros. unfold curv_bad, sgtb. gms. reflexivity. Qed.

(** ** CG *)
Definition cg_obj_up (o : cg_obj W) : cg_obj W :=
  mkcg (option_map (m 1) (g_residNorm0 o)) (option_map (m 1) (g_residNorm o)) (map (m 1) (g_hist o))
    (map (w 1) (g_resids o)) (map (w 1) (g_iters o)) (option_map (w 1) (g_inf o))
    (g_conv o) (g_def o) (g_nmv o) (option_map (w 1) (g_x o)).
Definition cg_kw_up (kw : cg_kw W) : cg_kw W :=
  mkkw (option_map (w 1) (k_guess kw)) (k_mmax kw) (k_sym kw) (k_curv kw) (k_sres kw) (k_sit kw).
Definition cg_st_up (st : cg_st W) : cg_st W :=
  mkst (w 1 (c_x st)) (w 1 (c_r st)) (w 1 (c_p st)) (m 2 (c_ry st)) (m 1 (c_res st)) (c_nmv st) (c_def st) (c_cnt st)
    (map (m 1) (c_hist st)) (map (w 1) (c_resids st)) (map (w 1) (c_iters st)) (option_map (w 1) (c_inf st)).

Lemma cg_body_up : forall kw st, cg_body (q_up q) (cg_kw_up kw) (cg_st_up st) = rmap cg_st_up (cg_body q kw st).
Proof.
  intros kw [x r p ry rs nmv df cnt hist resids iters inf]. unfold cg_body, opmul. cbn [cg_st_up c_x c_r c_p c_ry c_res c_nmv c_def c_cnt c_hist c_resids c_iters c_inf
    cg_kw_up k_guess k_mmax k_sym k_curv k_sres k_sit]. change (q_A (q_up q)) with (q_A q).
  rewrite (HA 1). gms. rewrite curv_up. destruct (k_curv kw && curv_bad _); [reflexivity|].
  cbn [rmap]. rewrite prec_up. gms.
  f_equal. unfold cg_st_up. destruct (k_sit kw), (k_sres kw); cbn; rewrite ?map_app; reflexivity.
Qed.

Lemma cg_init_up : forall kw o rhs cnt,
  cg_init (q_up q) (cg_kw_up kw) (cg_obj_up o) (w 1 rhs) cnt = cg_st_up (cg_init q kw o rhs cnt).
Proof.
  intros kw o rhs cnt. unfold cg_init, opmul. cbn [cg_obj_up g_iters g_resids g_hist g_inf
    cg_kw_up k_guess k_mmax k_sym k_curv k_sres k_sit]. change (q_A (q_up q)) with (q_A q).
  destruct (k_guess kw) as [g|]; cbn [option_map]; gms.
  - rewrite (HA 1). gms. rewrite prec_up. gms. unfold cg_st_up.
    destruct (k_sit kw), (k_sres kw); cbn; rewrite ?map_app; reflexivity.
  - rewrite prec_up. gms. unfold cg_st_up.
    destruct (k_sit kw), (k_sres kw); cbn; rewrite ?map_app; cbn; rewrite ?vm_zeros; reflexivity.
Qed.
Lemma cg_cond_up : forall kw rhs r0 st,
  cg_cond (q_up q) (cg_kw_up kw) (w 1 rhs) (m 1 r0) (cg_st_up st) = cg_cond q kw rhs r0 st.
Proof. intros. unfold cg_cond, sgtb. cbn [cg_st_up c_res c_nmv c_def cg_kw_up k_mmax]. rewrite thr_up, mmax_up. gms. reflexivity. Qed.

Lemma cg_solve_up : forall fuel o rhs kw cnt,
  cg_solve fuel (q_up q) (cg_obj_up o) (w 1 rhs) (cg_kw_up kw) cnt =
  rmap (fun p => (cg_obj_up (fst p), snd p)) (cg_solve fuel q o rhs kw cnt).
Proof.
  intros fuel o rhs kw cnt. unfold cg_solve. cbn [cg_kw_up k_sym].
  change (check_symmetric (q_cbrt (q_up q)) (q_m (q_up q)) (q_n (q_up q)) (q_A (q_up q)) (q_draws (q_up q)) cnt)
    with (check_symmetric (q_cbrt q) (q_m q) (q_n q) (q_A q) (q_draws q) cnt).
  destruct (if k_sym kw then _ else _) as [ok cnt']. destruct ok; cbn [negb]; [|reflexivity].
  rewrite cg_init_up. cbn [cg_st_up c_res].
  rewrite (while_map cg_st_up (cg_cond q kw rhs (c_res (cg_init q kw o rhs cnt'))) (cg_body q kw)).
  - destruct (while _ _ _ _) as [st|e]; [|reflexivity]. cbn [rmap fst snd]. unfold cg_final, cg_obj_up. cbn. rewrite thr_up. gms.
    reflexivity.
  - intros. apply cg_cond_up.
  - intros. apply cg_body_up.
Qed.

(** ** CGS, BiCGSTAB, TFQMR *)
Definition kkw_up (kw : kkw W) : kkw W := mkkkw (option_map (w 1) (w_guess kw)) (w_mmax kw).
Definition kout_up (o : kout W) : kout W :=
  mkout (m 1 (o_residNorm0 o)) (m 1 (o_residNorm o)) (o_conv o) (o_nmv o) (w 1 (o_x o)).
Definition kres_up (r : res (kout W * nat)) : res (kout W * nat) := rmap (fun p => (kout_up (fst p), snd p)) r.

Lemma start_x_up : forall kw rhs, start_x (kkw_up kw) (w 1 rhs) = w 1 (start_x kw rhs).
Proof. intros. unfold start_x. cbn. destruct (w_guess kw); cbn; [reflexivity|]. gms. rewrite vm_zeros. reflexivity. Qed.
Lemma start_r_up : forall kw rhs cnt,
  start_r (q_up q) (kkw_up kw) (w 1 rhs) cnt = (w 1 (fst (start_r q kw rhs cnt)), snd (start_r q kw rhs cnt)).
Proof. intros. unfold start_r. cbn. destruct (w_guess kw) as [g|]; cbn; [|reflexivity]. rewrite (HA 1). gms. reflexivity. Qed.

Definition cgs_up (st : cgs_st W) : cgs_st W :=
  mkcgs (w 1 (s_x st)) (w 1 (s_r st)) (w 1 (s_u st)) (w 1 (s_p st)) (m 2 (s_rho st)) (m 1 (s_res st)) (s_nmv st) (s_cnt st) (s_fin st).
Lemma cgs_body_up : forall r0 th mx st,
  cgs_body (q_up q) (w 1 r0) (m 1 th) mx (cgs_up st) = rmap cgs_up (cgs_body q r0 th mx st).
Proof.
  intros r0 th mx [x r u p rho rs nmv cnt fin]. unfold cgs_body, opmul.
  cbn [cgs_up s_x s_r s_u s_p s_rho s_res s_nmv s_cnt s_fin]. change (q_A (q_up q)) with (q_A q).
  repeat first [gm1 | rewrite prec_up | rewrite (HA 1)].
  destruct (sleb _ th || _); cbn [rmap]; unfold cgs_up; cbn; reflexivity.
Qed.
Lemma cgs_solve_up : forall fuel rhs kw cnt,
  cgs_solve fuel (q_up q) (w 1 rhs) (kkw_up kw) cnt = kres_up (cgs_solve fuel q rhs kw cnt).
Proof.
  intros. unfold cgs_solve. rewrite start_x_up, start_r_up, mmax_up. cbn [w_mmax kkw_up].
  destruct (start_r q kw rhs cnt) as [r0 cnt']. cbn [fst snd]. gms. rewrite thr_up. gms.
  set (th := thr q _). set (mx := mmax _ _).
  match goal with |- match while _ _ _ ?s with _ => _ end = kres_up (match while _ _ _ ?t with _ => _ end) =>
    change s with (cgs_up t) end.
  rewrite (while_map cgs_up (fun st => negb (s_fin st)) (cgs_body q r0 th mx)); [|reflexivity|intros; apply cgs_body_up].
  destruct (while _ _ _ _) as [st|e]; [|reflexivity]. unfold kres_up, kout_up. cbn. gms. reflexivity.
Qed.

Definition bi_up (k : Z) (st : bi_st W) : bi_st W :=
  mkbi (w 1 (b_x st)) (w 1 (b_r st)) (w 1 (b_p st)) (w 1 (b_v st)) (m k (b_rho st)) (m 2 (b_rhon st)) (b_alpha st) (b_omega st)
    (m 1 (b_res st)) (b_nmv st) (b_cnt st) (b_fin st).
(** One pass, for any degrees of [rho] and [beta] for which the new direction scales. *)
Lemma bi_body_gen : forall r0 th mx k st,
  (let beta := sdiv (smul (sdiv (b_rhon st) (b_rho st)) (b_alpha st)) (b_omega st) in
   vadd (vsub (vscale (m (2 - k) beta) (w 1 (b_p st))) (vscale (m (2 - k) (smul beta (b_omega st))) (w 1 (b_v st)))) (w 1 (b_r st)) =
   w 1 (vadd (vsub (vscale beta (b_p st)) (vscale (smul beta (b_omega st)) (b_v st))) (b_r st))) ->
  bi_body (q_up q) (w 1 r0) (m 1 th) mx (bi_up k st) = rmap (bi_up 2) (bi_body q r0 th mx st).
Proof.
  intros r0 th mx k [x r p v rho rhon alpha omega rs nmv cnt fin] E. unfold bi_body, opmul.
  cbn [bi_up b_x b_r b_p b_v b_rho b_rhon b_alpha b_omega b_res b_nmv b_cnt b_fin] in *. change (q_A (q_up q)) with (q_A q).
  cbv zeta in *.
  rewrite (gm_div K G 2 k), (gm_mull G (2 - k) (sdiv rhon rho) alpha), (gm_divl G (2 - k) _ omega), (gm_mull G (2 - k) _ omega), E.
  repeat first [gm1 | rewrite prec_up | rewrite (HA 1)].
  repeat match goal with |- context [if ?c then _ else _] => destruct c end; cbn [rmap]; unfold bi_up; cbn; reflexivity.
Qed.
Lemma bi_body_up : forall r0 th mx st,
  bi_body (q_up q) (w 1 r0) (m 1 th) mx (bi_up 2 st) = rmap (bi_up 2) (bi_body q r0 th mx st).
Proof. intros. apply bi_body_gen. cbv zeta. cbn [Z.sub Z.opp Z.add Z.pos_sub]. change (2 - 2) with 0. rewrite !gm_0. gms. reflexivity. Qed.

(** The first direction is [beta * 0 - beta * omega * 0 + r]; a multiple of the zero vector must not depend on the size
    of the factor. *)
Definition zero_mult : Prop := forall j k a n, @vscale _ W (m j a) (vzeros n) = w k (vscale a (vzeros n)).
Lemma bi_solve_up : zero_mult -> forall fuel rhs kw cnt,
  bi_solve fuel (q_up q) (w 1 rhs) (kkw_up kw) cnt = kres_up (bi_solve fuel q rhs kw cnt).
Proof.
  intros Z0 fuel rhs kw cnt. unfold bi_solve. rewrite start_x_up, start_r_up, mmax_up. cbn [w_mmax kkw_up].
  destruct (start_r q kw rhs cnt) as [r0 cnt']. cbn [fst snd]. gms. rewrite thr_up. gms.
  set (th := thr q _). set (mx := mmax _ _).
  replace (match w_guess (kkw_up kw) with Some _ => 1%nat | None => 0%nat end)
    with (match w_guess kw with Some _ => 1%nat | None => 0%nat end) by (cbn; destruct (w_guess kw); reflexivity).
  set (nmv := match w_guess kw with Some _ => 1%nat | None => 0%nat end).
  set (st0 := mkbi (start_x kw rhs) _ _ _ _ _ _ _ _ _ _ _).
  match goal with |- match while _ _ _ ?s with _ => _ end = _ => replace s with (bi_up 0 st0)
    by (unfold bi_up, st0; cbn; rewrite !vm_zeros, gm_0; reflexivity) end.
  assert (E : while fuel (fun st => negb (b_fin st)) (bi_body (q_up q) (w 1 r0) (m 1 th) mx) (bi_up 0 st0)
    = match while fuel (fun st => negb (b_fin st)) (bi_body q r0 th mx) st0 with
      | Ok st => Ok (bi_up (if b_fin st0 then 0 else 2) st) | Err e => Err e end).
  { destruct fuel as [|fuel]; [reflexivity|]. cbn [while]. change (b_fin (bi_up 0 st0)) with (b_fin st0).
    destruct (b_fin st0) eqn:F; [reflexivity|]. cbn [negb].
    rewrite bi_body_gen.
    - destruct (bi_body q r0 th mx st0) as [st|e]; [|reflexivity]. cbn [rmap].
      apply (while_map (bi_up 2)); [reflexivity|intros; apply bi_body_up].
    - cbv zeta. subst st0. cbn [b_p b_v b_r b_rhon b_rho b_alpha b_omega]. rewrite !vm_zeros, !(Z0 _ 1). gms. reflexivity. }
  rewrite E. clear E. destruct (while _ _ _ _) as [st|e]; [|reflexivity]. unfold kres_up, kout_up. cbn. gms. reflexivity.
Qed.

Definition tf_up (st : tf_st W) : tf_st W :=
  mktf (w 1 (t_x st)) (w 1 (t_y st)) (w 1 (t_w st)) (w 1 (t_d st)) (w 1 (t_z st)) (w 1 (t_u st)) (w 1 (t_v st))
    (t_theta st) (t_eta st) (m 2 (t_rho st)) (m 1 (t_res st)) (t_k st) (t_m st) (t_nmv st) (t_cnt st) (t_fin st).
Lemma tf_body_up : forall r0 th mx st,
  tf_body (q_up q) (w 1 r0) (m 1 th) mx (tf_up st) = rmap tf_up (tf_body q r0 th mx st).
Proof.
  intros r0 th mx [x y ww d z u v theta eta rho rs k mm nmv cnt fin]. unfold tf_body, tf_pass, tf_test, opmul.
  cbn [tf_up t_x t_y t_w t_d t_z t_u t_v t_theta t_eta t_rho t_res t_k t_m t_nmv t_cnt t_fin]. change (q_A (q_up q)) with (q_A q).
  repeat first [gm1 | rewrite prec_up | rewrite (HA 1)].
  repeat match goal with |- context [if ?c then _ else _] => destruct c end; cbn [rmap]; unfold tf_up; cbn; reflexivity.
Qed.
Lemma tf_solve_up : forall fuel rhs kw cnt,
  tf_solve fuel (q_up q) (w 1 rhs) (kkw_up kw) cnt = kres_up (tf_solve fuel q rhs kw cnt).
Proof.
  intros. unfold tf_solve. rewrite start_x_up, start_r_up, mmax_up. cbn [w_mmax kkw_up].
  destruct (start_r q kw rhs cnt) as [r0 cnt']. cbn [fst snd]. gms. rewrite thr_up. gms.
  set (rn := sabs (ssqrt _)). set (th := thr q _). set (mx := mmax _ _).
  replace (tf_init (q_up q) (w 1 rhs) (w 1 (start_x kw rhs)) (w 1 r0) (m 1 rn) (m 1 th) mx cnt')
    with (tf_up (tf_init q rhs (start_x kw rhs) r0 rn th mx cnt')).
  2:{ unfold tf_init, opmul. gms. change (q_A (q_up q)) with (q_A q). rewrite prec_up, (HA 1).
      destruct (sleb rn th || _); unfold tf_up; cbn; rewrite ?vm_zeros; reflexivity. }
  rewrite (while_map tf_up (fun st => negb (t_fin st)) (tf_body q r0 th mx)); [|reflexivity|intros; apply tf_body_up].
  destruct (while _ _ _ _) as [st|e]; [|reflexivity]. cbn [tf_up t_m t_res t_nmv t_x t_cnt].
  destruct (t_m st); [|reflexivity]. unfold kres_up, kout_up. cbn. gms. reflexivity.
Qed.
End Krylov.
