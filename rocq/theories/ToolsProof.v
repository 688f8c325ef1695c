(** * Proofs about tools/utils.py and symOrtho. *)
From Coq Require Import List ZArith QArith Qreals Reals Lia Lra Psatz Bool.
From Verif Require Import Base Num ToolsModel.
Import ListNotations.

Section AnyArith.
Context {K : Scal} {W : Vs K}.

Lemma check_symmetric_loop_count : forall cbrt (A : vc W -> vc W) draws cnt,
  (cnt <= snd (check_symmetric_loop cbrt A draws cnt) <= cnt + 2 * length draws)%nat.
Proof.
  intros cbrt A draws. induction draws as [|x t IH]; intro cnt; cbn; [lia|].
  destruct (sgtb _ _); cbn; [lia|]. specialize (IH (cnt + 1 + 1)%nat). lia.
Qed.

Lemma check_symmetric_count : forall cbrt m n (A : vc W -> vc W) draws cnt,
  (cnt <= snd (check_symmetric cbrt m n A draws cnt) <= cnt + 2 * length draws)%nat.
Proof.
  intros. unfold check_symmetric. destruct (negb _); cbn; [lia|].
  apply check_symmetric_loop_count.
Qed.

Lemma check_pd_loop_count : forall (A : vc W -> vc W) semi draws cnt,
  (cnt <= snd (check_pd_loop A semi draws cnt) <= cnt + length draws)%nat.
Proof.
  intros A semi draws. induction draws as [|x t IH]; intro cnt; cbn; [lia|].
  destruct (sgtb _ _); cbn; [lia|].
  destruct (if semi then _ else _); cbn; [lia|]. specialize (IH (cnt + 1)%nat). lia.
Qed.
End AnyArith.

Lemma Q2R_pos_lit : forall p : positive, (0 < Q2R (1 # p))%R.
Proof.
  intro p. replace 0%R with (Q2R 0) by (unfold Q2R; cbn; lra).
  apply Qlt_Rlt. unfold Qlt. cbn. lia.
Qed.

(** ** check_symmetric, exact arithmetic. *)
Section SymExact.
Context (dv : R -> R -> R) (sq : R -> R) (E : IPS).
Notation KK := (exactK dv sq).
Notation WW := (exactV dv sq E).
Local Open Scope R_scope.

Lemma check_sym_pass : forall (cbrt : R -> R) (A : iv E -> iv E) (draws : list (iv E)) cnt,
  selfadj A -> 0 <= cbrt (@machine_eps KK) ->
  fst (@check_symmetric_loop KK WW cbrt A draws cnt) = true.
Proof.
  intros cbrt A draws cnt SA HC. revert cnt. induction draws as [|x t IH]; intro cnt; [reflexivity|].
  cbn [check_symmetric_loop opmul].
  replace (sgtb _ _) with false; [apply IH|].
  symmetry. unfold sgtb. apply Rltb_false.
  change (Rabs (ip (A x) (A x) - ip x (A (A x))) <=
          (ip (A x) (A x) + @machine_eps KK) * cbrt (@machine_eps KK)).
  rewrite (SA x (A x)). replace (ip (A x) (A x) - ip (A x) (A x)) with 0 by ring.
  rewrite Rabs_R0. apply Rmult_le_pos; [|exact HC].
  pose proof (ip_pos (A x)). pose proof (Q2R_pos_lit 4503599627370496).
  unfold machine_eps. cbn [slit exactK]. lra.
Qed.

(** A rejection exhibits a random vector on which the operator is not symmetric. *)
Lemma check_sym_reject : forall (cbrt : R -> R) (A : iv E -> iv E) (draws : list (iv E)) cnt,
  0 <= cbrt (@machine_eps KK) ->
  fst (@check_symmetric_loop KK WW cbrt A draws cnt) = false ->
  exists x, In x draws /\ ip (A x) (A x) <> ip x (A (A x)).
Proof.
  intros cbrt A draws cnt HC. revert cnt. induction draws as [|x t IH]; intros cnt H; [discriminate|].
  cbn [check_symmetric_loop opmul] in H.
  destruct (sgtb _ _) eqn:G.
  - exists x. split; [left; reflexivity|]. intro Z.
    unfold sgtb in G. apply Rltb_true in G.
    change ((ip (A x) (A x) + @machine_eps KK) * cbrt (@machine_eps KK) <
            Rabs (ip (A x) (A x) - ip x (A (A x)))) in G.
    rewrite <- Z in G. replace (ip (A x) (A x) - ip (A x) (A x)) with 0 in G by ring.
    rewrite Rabs_R0 in G.
    assert (0 <= (ip (A x) (A x) + @machine_eps KK) * cbrt (@machine_eps KK)).
    { apply Rmult_le_pos; [|exact HC].
      pose proof (ip_pos (A x)). pose proof (Q2R_pos_lit 4503599627370496).
      unfold machine_eps. cbn [slit exactK]. lra. }
    lra.
  - destruct (IH _ H) as [y [Hy N]]. exists y. split; [right; exact Hy|exact N].
Qed.

Lemma sqrt_eps_nonneg : sq_ok sq -> 0 <= sq (@machine_eps KK).
Proof.
  intro SQ. rewrite SQ; [apply sqrt_pos|].
  unfold machine_eps. cbn [slit exactK]. left. apply Q2R_pos_lit.
Qed.

Lemma check_pd_spec : forall (A : iv E -> iv E) (semi : bool) (draws : list (iv E)) cnt,
  sq_ok sq ->
  let bad (v : iv E) := if semi then ip v (A v) < 0 else ip v (A v) <= 0 in
  (fst (@check_pd_loop KK WW A semi draws cnt) = false <-> exists v, In v draws /\ bad v).
Proof.
  intros A semi draws cnt SQ bad. revert cnt. induction draws as [|x t IH]; intro cnt.
  - cbn. split; [discriminate|]. intros [v [[] _]].
  - cbn [check_pd_loop opmul].
    replace (sgtb _ _) with false.
    2:{ symmetry. unfold sgtb. apply Rltb_false.
        change (0 <= sq (@machine_eps KK) * Rabs (ip x (A x))).
        apply Rmult_le_pos; [apply sqrt_eps_nonneg; exact SQ|apply Rabs_pos]. }
    assert (HB : (if semi then @sltb KK (sreal (@vdot KK WW x (A x))) s0
                  else @sleb KK (sreal (@vdot KK WW x (A x))) s0) = true <-> bad x).
    { unfold bad. destruct semi; [apply Rltb_true|apply Rleb_true]. }
    destruct (if semi then _ else _).
    + split; [|reflexivity]. intros _. exists x. split; [left; reflexivity|]. apply HB. reflexivity.
    + rewrite IH. split.
      * intros [v [Hv B]]. exists v. split; [right; exact Hv|exact B].
      * intros [v [[<-|Hv] B]]; [|eauto]. apply HB in B. discriminate.
Qed.
End SymExact.

(** ** In R^n, a vanishing test quantity on the coordinate vectors means symmetry. *)
Section Converse.
Variable n : nat.
Notation E := (Rn n).
Notation B := (basis n : list (iv (Rn n))).
Local Open Scope R_scope.

Lemma parseval2 : forall m (w u : rv m),
  rsum (map (fun e => rvdot e u * rvdot w e) (basis m)) = rvdot w u.
Proof.
  induction m; intros w u; cbn; [reflexivity|].
  rewrite map_map. cbn. rewrite rvdot_sym, !rvdot_zero.
  rewrite <- (IHm (snd w) (snd u)).
  replace (map (fun x => (0 * fst u + rvdot x (snd u)) * (fst w * 0 + rvdot (snd w) x)) (basis m))
    with (map (fun e => rvdot e (snd u) * rvdot (snd w) e) (basis m)).
  - unfold rsum. ring.
  - apply map_ext. intro a. ring.
Qed.

Definition vsum {F : IPS} (l : list (iv F)) : iv F := fold_right iadd izero l.

Lemma ip_vsum : forall {F : IPS} (w : iv F) {X} (f : X -> iv F) l,
  ip w (vsum (map f l)) = rsum (map (fun x => ip w (f x)) l).
Proof.
  intros F w X f l. unfold vsum, rsum. induction l; cbn; ipx; [reflexivity|].
  rewrite IHl. reflexivity.
Qed.

Lemma lin_vsum : forall {F G : IPS} (A : iv F -> iv G), lin A -> forall {X} (f : X -> iv F) l,
  A (vsum (map f l)) = vsum (map (fun x => A (f x)) l).
Proof.
  intros F G A L X f l. unfold vsum. induction l; cbn; [apply (lin_zero A L)|].
  rewrite (lin_add A L), IHl. reflexivity.
Qed.

Lemma expand : forall u : iv E, u = vsum (map (fun e => iscale (ip e u) e) B).
Proof.
  intro u. apply ip_ext. intro w. rewrite ip_vsum.
  transitivity (rsum (map (fun e : rv n => rvdot e u * rvdot w e) (basis n))).
  - symmetry. apply parseval2.
  - f_equal. apply map_ext. intro e. rewrite ip_scale. reflexivity.
Qed.

Lemma ip_expand : forall w u : iv E, ip w u = rsum (map (fun e => ip e u * ip w e) B).
Proof. intros w u. symmetry. apply (parseval2 n w u). Qed.

Lemma ip_lin_expand : forall (A : iv E -> iv E), lin A -> forall w u,
  ip w (A u) = rsum (map (fun e => ip e u * ip w (A e)) B).
Proof.
  intros A L w u. rewrite (expand u) at 1. rewrite (lin_vsum A L), ip_vsum.
  f_equal. apply map_ext. intro e. rewrite (lin_scale A L), ip_scale. reflexivity.
Qed.

Lemma rsum_ext : forall {X} (f g : X -> R) l, (forall x, In x l -> f x = g x) ->
  rsum (map f l) = rsum (map g l).
Proof.
  intros X f g l H. f_equal. apply map_ext_in. exact H.
Qed.

Lemma rsum_swap : forall {X Y} (f : X -> Y -> R) l1 l2,
  rsum (map (fun x => rsum (map (f x) l2)) l1) = rsum (map (fun y => rsum (map (fun x => f x y) l1)) l2).
Proof.
  intros X Y f l1 l2. induction l1 as [|a t IH].
  - induction l2 as [|c l2 IH2]; [reflexivity|].
    change (0 = 0 + rsum (map (fun y => rsum (map (fun x => f x y) [])) l2)).
    rewrite <- IH2. cbn. ring.
  - change (rsum (map (f a) l2) + rsum (map (fun x => rsum (map (f x) l2)) t) =
            rsum (map (fun y => f a y + rsum (map (fun x => f x y) t)) l2)).
    rewrite IH, rsum_plus. reflexivity.
Qed.

Lemma rsum_nonneg : forall {X} (f : X -> R) l, (forall x, In x l -> 0 <= f x) -> 0 <= rsum (map f l).
Proof.
  intros X f l. induction l; intro H; cbn; [lra|].
  unfold rsum in *. specialize (IHl (fun x Hx => H x (or_intror Hx))).
  specialize (H a (or_introl eq_refl)). lra.
Qed.

Lemma rsum_zero : forall {X} (f : X -> R) l, (forall x, In x l -> 0 <= f x) -> rsum (map f l) = 0 ->
  forall x, In x l -> f x = 0.
Proof.
  intros X f l. induction l as [|a t IH]; intros H Z x Hx; [destruct Hx|].
  cbn in Z. unfold rsum in Z.
  assert (N := rsum_nonneg f t (fun x Hx => H x (or_intror Hx))). unfold rsum in N.
  assert (Na := H a (or_introl eq_refl)).
  destruct Hx as [<-|Hx]; [lra|].
  apply IH; [intros; apply H; right; assumption| |exact Hx]. unfold rsum. lra.
Qed.

Lemma test_converse : forall (A : iv E -> iv E), lin A ->
  (forall e, In e B -> ip (A e) (A e) = ip e (A (A e))) -> selfadj A.
Proof.
  intros A L T.
  set (a := fun i j : iv E => ip i (A j)).
  assert (S1 : rsum (map (fun j => rsum (map (fun i => a i j * a i j) B)) B) =
               rsum (map (fun j => rsum (map (fun i => a i j * a j i) B)) B)).
  { apply rsum_ext. intros j Hj.
    transitivity (ip (A j) (A j)).
    - apply (parseval n (A j)).
    - rewrite (T j Hj). rewrite (ip_lin_expand A L j (A j)). reflexivity. }
  assert (S2 : rsum (map (fun j => rsum (map (fun i => a j i * a j i) B)) B) =
               rsum (map (fun j => rsum (map (fun i => a i j * a i j) B)) B)).
  { rewrite (rsum_swap (fun j i => a j i * a j i)). reflexivity. }
  assert (S3 : rsum (map (fun j => rsum (map (fun i => (a i j - a j i) * (a i j - a j i)) B)) B) = 0).
  { transitivity
      (rsum (map (fun j => rsum (map (fun i => a i j * a i j) B) +
                           (rsum (map (fun i => a j i * a j i) B) +
                            rsum (map (fun i => a i j * a j i) B) * (-2))) B)).
    - apply rsum_ext. intros j _. rewrite <- rsum_scale, <- !rsum_plus.
      apply rsum_ext. intros i _. ring.
    - rewrite !rsum_plus, rsum_scale, S2, S1. ring. }
  assert (S4 : forall i j, In i B -> In j B -> a i j = a j i).
  { intros i j Hi Hj.
    assert (Z := rsum_zero _ _ (fun j _ => rsum_nonneg _ B (fun i _ => Rle_0_sqr _)) S3 j Hj).
    cbv beta in Z.
    assert (Z2 := rsum_zero (fun i => (a i j - a j i) * (a i j - a j i)) B (fun i _ => Rle_0_sqr _) Z i Hi).
    cbv beta in Z2. apply Rmult_integral in Z2. lra. }
  intros u v. rewrite (ip_lin_expand A L u v), (ip_sym (A u) v), (ip_lin_expand A L v u).
  transitivity (rsum (map (fun e => rsum (map (fun f => ip e v * (ip f u * a f e)) B)) B)).
  - apply rsum_ext. intros e He.
    rewrite (ip_sym u (A e)).
    rewrite (ip_expand (A e) u).
    rewrite (Rmult_comm (ip e v)), <- rsum_scale.
    apply rsum_ext. intros f Hf. rewrite (ip_sym (A e) f). unfold a. ring.
  - rewrite rsum_swap. apply rsum_ext. intros f Hf.
    rewrite (ip_sym v (A f)).
    rewrite (ip_expand (A f) v).
    rewrite (Rmult_comm (ip f u)), <- rsum_scale.
    apply rsum_ext. intros e He. rewrite (ip_sym (A f) e).
    rewrite (S4 f e Hf He). unfold a. ring.
Qed.
End Converse.

(** ** symOrtho, exact arithmetic. *)
Section SymOrtho.
Local Open Scope R_scope.
Context (dv : R -> R -> R) (sq : R -> R) (DV : dv_ok dv) (SQ : sq_ok sq).
Notation KK := (exactK dv sq).

Lemma sign_spec : forall a : R, a <> 0 ->
  (@sign KK a : R) * (@sign KK a) = 1 /\ (@sign KK a : R) * a = Rabs a /\ (@sign KK a : R) <> 0.
Proof.
  intros a H. unfold sign. cbn. unfold Rltb. unfold Q2R. cbn.
  destruct (Rlt_dec a 0); unfold Rabs; destruct (Rcase_abs a); lra.
Qed.

Lemma ortho_branch : forall a b : R, a <> 0 ->
  let d := sqrt (1 + b / a * (b / a)) in
  0 < d /\ d * d * (a * a) = a * a + b * b /\ Rabs a * d = sqrt (a * a + b * b).
Proof.
  intros a b H d.
  assert (P : 0 < 1 + b / a * (b / a)) by (pose proof (Rle_0_sqr (b / a)); unfold Rsqr in *; lra).
  assert (D : d * d = 1 + b / a * (b / a)) by (apply sqrt_sqrt; lra).
  split; [apply sqrt_lt_R0; exact P|]. split.
  - rewrite D. field. exact H.
  - unfold d. rewrite <- sqrt_Rsqr_abs, <- sqrt_mult; [|apply Rle_0_sqr|lra].
    f_equal. unfold Rsqr. field. exact H.
Qed.

Lemma symOrtho_spec : forall a b : R, exists c s r : R,
  @symOrtho KK a b = Ok (c, s, r) /\
  c * c + s * s = 1 /\ c * a + s * b = r /\ c * b - s * a = 0 /\ r = sqrt (a * a + b * b).
Proof.
  intros a b. unfold symOrtho. cbn [seqb exactK s0].
  destruct (Reqb b 0) eqn:Eb.
  - apply Reqb_true in Eb. subst b. eexists _, _, _. split; [reflexivity|]. cbn [exactK sabs s0].
    destruct (Req_dec a 0) as [->|Na].
    + unfold sign. cbn. unfold Rltb. destruct (Rlt_dec 0 0); [lra|].
      rewrite Rabs_R0. replace (0 * 0 + 0 * 0) with 0 by ring. rewrite sqrt_0. repeat split; ring.
    + destruct (sign_spec a Na) as [S1 [S2 _]].
      split; [rewrite S1; ring|]. split; [rewrite S2; ring|]. split; [ring|].
      replace (a * a + 0 * 0) with (Rsqr a) by (unfold Rsqr; ring). symmetry. apply sqrt_Rsqr_abs.
  - apply Reqb_false in Eb. destruct (Reqb a 0) eqn:Ea.
    + apply Reqb_true in Ea. subst a. eexists _, _, _. split; [reflexivity|]. cbn [exactK sabs s0].
      destruct (sign_spec b Eb) as [S1 [S2 _]].
      split; [rewrite S1; ring|]. split; [rewrite S2; ring|]. split; [ring|].
      replace (0 * 0 + b * b) with (Rsqr b) by (unfold Rsqr; ring). symmetry. apply sqrt_Rsqr_abs.
    + apply Reqb_false in Ea.
      destruct (sgtb _ _); unfold pydiv, pysqrt; cbn [seqb sltb exactK s0 s1 sdiv ssqrt sadd smul].
      * (* |b| > |a| *)
        destruct (ortho_branch b a Eb) as [D1 [D2 D3]]. cbn zeta in *.
        destruct (sign_spec b Eb) as [S1 [S2 S3]].
        replace (Reqb b 0) with false by (symmetry; apply Reqb_false; exact Eb). cbn [rbind].
        rewrite DV by exact Eb.
        replace (Rltb (1 + a / b * (a / b)) 0) with false.
        2:{ symmetry. apply Rltb_false. pose proof (Rle_0_sqr (a / b)). unfold Rsqr in *. lra. }
        cbn [rbind]. rewrite SQ.
        2:{ pose proof (Rle_0_sqr (a / b)). unfold Rsqr in *. lra. }
        set (d := sqrt (1 + a / b * (a / b))) in *.
        replace (Reqb d 0) with false by (symmetry; apply Reqb_false; lra).
        cbn [rbind]. rewrite DV by lra. set (sg := @sign KK b : R) in *.
        assert (Ns : sg / d <> 0).
        { apply Rmult_integral_contrapositive_currified; [exact S3|apply Rinv_neq_0_compat; lra]. }
        replace (Reqb (sg / d) 0) with false by (symmetry; apply Reqb_false; exact Ns).
        cbn [rbind]. rewrite DV by exact Ns.
        eexists _, _, _. split; [reflexivity|].
        assert (Q1 : (sg / d) * (sg / d) * (d * d) = 1).
        { transitivity (sg * sg); [field; lra|exact S1]. }
        assert (NB : b * b <> 0) by (apply Rmult_integral_contrapositive_currified; exact Eb).
        assert (QQ : (sg / d) * (sg / d) * (a * a + b * b) = b * b).
        { transitivity ((sg / d) * (sg / d) * (d * d) * (b * b)); [|rewrite Q1; ring].
          replace (a * a + b * b) with (d * d * (b * b)) by lra. ring. }
        assert (Q2 : sg / d * (a / b) * (sg / d * (a / b)) + sg / d * (sg / d) = 1).
        { transitivity ((sg / d) * (sg / d) * (a * a + b * b) / (b * b)); [field; split; lra|].
          rewrite QQ. field. exact Eb. }
        assert (HR : b / (sg / d) = sqrt (a * a + b * b)).
        { rewrite (Rplus_comm (a * a)). rewrite <- D3. rewrite <- S2.
          transitivity (b * d * (sg * sg) / sg); [rewrite S1; field; split; lra|field; exact S3]. }
        split; [exact Q2|]. split; [|split; [field; split; lra|exact HR]].
        rewrite HR. rewrite (Rplus_comm (a * a)). rewrite <- D3, <- S2.
        transitivity (sg / d * (a * a + b * b) / b); [field; split; lra|].
        rewrite (Rplus_comm (a * a)), <- D2. field. split; lra.
      * (* |b| <= |a| *)
        destruct (ortho_branch a b Ea) as [D1 [D2 D3]]. cbn zeta in *.
        destruct (sign_spec a Ea) as [S1 [S2 S3]].
        replace (Reqb a 0) with false by (symmetry; apply Reqb_false; exact Ea). cbn [rbind].
        rewrite DV by exact Ea.
        replace (Rltb (1 + b / a * (b / a)) 0) with false.
        2:{ symmetry. apply Rltb_false. pose proof (Rle_0_sqr (b / a)). unfold Rsqr in *. lra. }
        cbn [rbind]. rewrite SQ.
        2:{ pose proof (Rle_0_sqr (b / a)). unfold Rsqr in *. lra. }
        set (d := sqrt (1 + b / a * (b / a))) in *.
        replace (Reqb d 0) with false by (symmetry; apply Reqb_false; lra).
        cbn [rbind]. rewrite DV by lra. set (sg := @sign KK a : R) in *.
        assert (Ns : sg / d <> 0).
        { apply Rmult_integral_contrapositive_currified; [exact S3|apply Rinv_neq_0_compat; lra]. }
        replace (Reqb (sg / d) 0) with false by (symmetry; apply Reqb_false; exact Ns).
        cbn [rbind]. rewrite DV by exact Ns.
        eexists _, _, _. split; [reflexivity|].
        assert (Q1 : (sg / d) * (sg / d) * (d * d) = 1).
        { transitivity (sg * sg); [field; lra|exact S1]. }
        assert (QQ : (sg / d) * (sg / d) * (a * a + b * b) = a * a).
        { transitivity ((sg / d) * (sg / d) * (d * d) * (a * a)); [|rewrite Q1; ring].
          replace (a * a + b * b) with (d * d * (a * a)) by lra. ring. }
        assert (Q2 : sg / d * (sg / d) + sg / d * (b / a) * (sg / d * (b / a)) = 1).
        { transitivity ((sg / d) * (sg / d) * (a * a + b * b) / (a * a)); [field; split; lra|].
          rewrite QQ. field. exact Ea. }
        assert (HR : a / (sg / d) = sqrt (a * a + b * b)).
        { rewrite <- D3. rewrite <- S2.
          transitivity (a * d * (sg * sg) / sg); [rewrite S1; field; split; lra|field; exact S3]. }
        split; [exact Q2|]. split; [|split; [field; split; lra|exact HR]].
        rewrite HR, <- D3, <- S2.
        transitivity (sg / d * (a * a + b * b) / a); [field; split; lra|].
        rewrite <- D2. field. split; lra.
Qed.
End SymOrtho.

(** ** roots_quadratic, exact arithmetic. *)
Section Roots.
Local Open Scope R_scope.
Context (dv : R -> R -> R) (sq : R -> R) (DV : dv_ok dv) (SQ : sq_ok sq).
Context (neg : R -> bool) (NEG : forall b : R, if neg b then b <= 0 else 0 <= b).
Notation KK := (exactK dv sq).

Definition qpoly (a2 a1 a0 v : R) : R := a2 * (v * v) + a1 * v + a0.

Lemma Q2R_2 : Q2R 2 = 2. Proof. unfold Q2R. cbn. lra. Qed.
Lemma Q2R_4 : Q2R 4 = 4. Proof. unfold Q2R. cbn. lra. Qed.
Lemma Q2R_half : Q2R (1 # 2) = / 2. Proof. unfold Q2R. cbn. lra. Qed.

Lemma pydiv_ok : forall a b : R, b <> 0 -> @pydiv KK a b = Ok (a / b).
Proof.
  intros a b H. unfold pydiv. cbn. replace (Reqb b 0) with false by (symmetry; apply Reqb_false; exact H).
  rewrite DV by exact H. reflexivity.
Qed.

Section Newton.
Variables a2 a1 a0 : R.
Notation q := (qpoly a2 a1 a0).
Notation der v := (2 * a2 * v + a1).

Lemma newton_S : forall k v,
  @newton KK a2 a1 a0 (S k) v =
  if Reqb (der v) 0 then @newton KK a2 a1 a0 k v
  else @newton KK a2 a1 a0 k (v - q v / der v).
Proof.
  intros k v. cbn [newton]. cbn [sadd smul slit seqb s0 exactK ssub]. rewrite Q2R_2.
  destruct (Reqb (der v) 0) eqn:D; [reflexivity|].
  rewrite pydiv_ok by (apply Reqb_false; exact D). cbn [rbind].
  replace ((a2 * v + a1) * v + a0) with (q v) by (unfold qpoly; ring). reflexivity.
Qed.

Lemma newton_exact : forall k v, q v = 0 -> @newton KK a2 a1 a0 k v = Ok v.
Proof.
  induction k as [|k IH]; intros v H; [reflexivity|].
  rewrite newton_S. destruct (Reqb (der v) 0) eqn:D; [apply IH; exact H|].
  rewrite H. unfold Rdiv. rewrite Rmult_0_l, Rminus_0_r. apply IH. exact H.
Qed.

Lemma q_newton : forall v, der v <> 0 -> q (v - q v / der v) = a2 * (q v / der v) * (q v / der v).
Proof.
  intros v H.
  assert (G : forall t, q (v - t) = q v - t * der v + a2 * (t * t)) by (intro t; unfold qpoly; ring).
  rewrite G. field. exact H.
Qed.

Lemma der_sq : forall v, der v * der v = a1 * a1 - 4 * a2 * a0 + 4 * (a2 * q v).
Proof. intro v. unfold qpoly. ring. Qed.

Lemma newton_dec : forall k v, 0 <= a1 * a1 - 4 * a2 * a0 -> 0 <= a2 * q v ->
  exists v', @newton KK a2 a1 a0 k v = Ok v' /\ 0 <= a2 * q v' <= a2 * q v.
Proof.
  induction k as [|k IH]; intros v HD H.
  - exists v. split; [reflexivity|lra].
  - rewrite newton_S. destruct (Reqb (der v) 0) eqn:D; [apply IH; assumption|].
    apply Reqb_false in D.
    set (w := v - q v / der v).
    assert (E : a2 * q w = (a2 * q v) * (a2 * q v) / (der v * der v)).
    { unfold w. rewrite q_newton by exact D. field. exact D. }
    assert (P : 0 < der v * der v) by (apply Rsqr_pos_lt; exact D).
    assert (B : a2 * q w <= a2 * q v).
    { rewrite E. pose proof (der_sq v) as DS.
      apply Rmult_le_reg_r with (der v * der v); [exact P|].
      replace (a2 * q v * (a2 * q v) / (der v * der v) * (der v * der v)) with
        (a2 * q v * (a2 * q v)) by (field; exact D).
      apply Rmult_le_compat_l; [exact H|]. lra. }
    assert (N : 0 <= a2 * q w).
    { rewrite E. apply Rmult_le_pos; [apply Rle_0_sqr|]. left. apply Rinv_0_lt_compat. exact P. }
    destruct (IH w HD N) as [v' [E' H']]. exists v'. split; [exact E'|lra].
Qed.

Lemma newton_all_exact : forall k l, Forall (fun v => q v = 0) l ->
  @newton_all KK a2 a1 a0 k l = Ok l.
Proof.
  intros k l H. induction H as [|v t Hv Ht IH]; [reflexivity|].
  cbn [newton_all]. rewrite newton_exact by exact Hv. cbn [rbind]. rewrite IH. reflexivity.
Qed.
End Newton.

Lemma roots_spec : forall (a2 a1 a0 tol : R) (nitref : nat),
  0 <= tol < 1 / 4 ->
  exists l : list R, @roots_quadratic KK neg a2 a1 a0 tol nitref = Ok l /\
    (* empty iff there is no real root *)
    (l = [] <-> forall v, qpoly a2 a1 a0 v <> 0) /\
    (* well conditioned quadratics and linear functions: exactly the roots *)
    ((a2 = 0 /\ a1 <> 0) \/ (a2 <> 0 /\ tol * (a1 * a1) < Rabs (a0 * a2)) ->
       forall v, In v l <-> qpoly a2 a1 a0 v = 0) /\
    (* every case *)
    (forall v, In v l -> Rabs (qpoly a2 a1 a0 v) <= (match nitref with O => 1 | _ => tol end) * Rabs a0).
Proof.
  intros a2 a1 a0 tol nitref HT. unfold roots_quadratic.
  assert (TP : forall v, qpoly a2 a1 a0 v = 0 ->
     Rabs (qpoly a2 a1 a0 v) <= (match nitref with O => 1 | _ => tol end) * Rabs a0).
  { intros v ->. rewrite Rabs_R0. apply Rmult_le_pos; [destruct nitref; lra|apply Rabs_pos]. }
  cbn [seqb exactK s0].
  destruct (Reqb a2 0) eqn:E2.
  - apply Reqb_true in E2. subst a2.
    destruct (Reqb a1 0) eqn:E1.
    + apply Reqb_true in E1. subst a1.
      destruct (Reqb a0 0) eqn:E0.
      * apply Reqb_true in E0. subst a0. exists [0]. split; [reflexivity|].
        split; [split; [discriminate|intro H; exfalso; apply (H 0); unfold qpoly; ring]|].
        split; [intros [[_ H]|[H _]]; congruence|].
        intros v _. apply TP. unfold qpoly. ring.
      * apply Reqb_false in E0. exists []. split; [reflexivity|].
        split; [split; [|reflexivity]|].
        { intros _ v H. apply E0. unfold qpoly in H. lra. }
        split; [intros [[_ H]|[H _]]; congruence|]. intros v [].
    + apply Reqb_false in E1.
      cbn [sneg exactK]. rewrite pydiv_ok by exact E1. cbn [rbind].
      assert (HQ : qpoly 0 a1 a0 (- a0 / a1) = 0) by (unfold qpoly; field; exact E1).
      assert (HU : forall v, qpoly 0 a1 a0 v = 0 -> v = - a0 / a1).
      { intros v H. unfold qpoly in H. apply Rmult_eq_reg_l with a1; [|exact E1].
        replace (a1 * (- a0 / a1)) with (- a0) by (field; exact E1). lra. }
      rewrite newton_all_exact by (constructor; [exact HQ|constructor]).
      eexists. split; [reflexivity|].
      split; [split; [discriminate|intro H; exfalso; exact (H _ HQ)]|].
      split.
      { intros _ v. split; [intros [<-|[]]; exact HQ|]. intro H. left. symmetry. apply HU. exact H. }
      intros v [<-|[]]. apply TP. exact HQ.
  - apply Reqb_false in E2. unfold sgtb. cbn [smul sabs sltb exactK].
    destruct (Rltb (tol * a1 * a1) (Rabs (a0 * a2))) eqn:EC.
    + apply Rltb_true in EC. cbn [ssub slit sltb exactK]. rewrite Q2R_4.
      destruct (Rltb (a1 * a1 - 4 * a2 * a0) 0) eqn:ER.
      * apply Rltb_true in ER. exists []. split; [reflexivity|].
        assert (NR : forall v, qpoly a2 a1 a0 v <> 0).
        { intros v H. pose proof (der_sq a2 a1 a0 v) as DS. rewrite H in DS.
          pose proof (Rle_0_sqr (2 * a2 * v + a1)). unfold Rsqr in *. lra. }
        split; [split; auto|]. split; [|intros v []].
        intros _ v. split; [intros []|]. intro H. exact (NR v H).
      * apply Rltb_false in ER. unfold pysqrt. cbn [sltb exactK ssqrt s0].
        replace (Rltb (a1 * a1 - 4 * a2 * a0) 0) with false by (symmetry; apply Rltb_false; exact ER).
        cbn [rbind]. rewrite SQ by exact ER.
        set (rt := sqrt (a1 * a1 - 4 * a2 * a0)).
        assert (RR : rt * rt = a1 * a1 - 4 * a2 * a0) by (apply sqrt_sqrt; exact ER).
        assert (RP : 0 <= rt) by apply sqrt_pos.
        set (d := @sneg KK _ * _).
        assert (Ed : exists sg, (sg = 1 \/ sg = -1) /\ 0 <= sg * a1 /\ d = - / 2 * (a1 + sg * rt)).
        { unfold d. cbn [sneg exactK slit sadd]. rewrite Q2R_half. unfold copysign.
          cbn [sneg sabs exactK]. rewrite (Rabs_pos_eq rt RP).
          pose proof (NEG a1) as NN. destruct (neg a1).
          - exists (-1). split; [right; reflexivity|]. split; [lra|]. f_equal. ring.
          - exists 1. split; [left; reflexivity|]. split; [lra|]. f_equal. ring. }
        destruct Ed as [sg [SG [SA Ed]]].
        assert (SS : sg * sg = 1) by (destruct SG as [->| ->]; ring).
        assert (A0 : a0 * a2 <> 0).
        { intro Z. rewrite Z, Rabs_R0 in EC. 
          assert (0 <= tol * a1 * a1) by (rewrite Rmult_assoc; apply Rmult_le_pos; [lra|apply Rle_0_sqr]).
          lra. }
        assert (Nd : d <> 0).
        { intro Z. rewrite Ed in Z.
          assert (Z1 : sg * a1 + rt = 0).
          { transitivity (sg * a1 + sg * sg * rt); [rewrite SS; ring|].
            transitivity (-2 * sg * (- / 2 * (a1 + sg * rt))); [field|rewrite Z; ring]. }
          assert (rt = 0) by lra. assert (sg * a1 = 0) by lra.
          assert (a1 = 0) by (transitivity (sg * sg * a1); [rewrite SS; ring|rewrite Rmult_assoc, H0; ring]).
          rewrite H, H1 in RR. lra. }
        assert (Hd : d * d + a1 * d + a0 * a2 = 0).
        { rewrite Ed.
          transitivity (/ 4 * (sg * sg * (rt * rt)) - / 4 * (a1 * a1) + a0 * a2); [field|].
          rewrite SS, RR. field. }
        rewrite !pydiv_ok by assumption. cbn [rbind].
        assert (Q1 : qpoly a2 a1 a0 (d / a2) = 0).
        { unfold qpoly. transitivity ((d * d + a1 * d + a0 * a2) / a2); [field; exact E2|].
          rewrite Hd. field. exact E2. }
        assert (Q2 : qpoly a2 a1 a0 (a0 / d) = 0).
        { unfold qpoly. transitivity (a0 * (d * d + a1 * d + a0 * a2) / (d * d)); [field; exact Nd|].
          rewrite Hd. field. exact Nd. }
        rewrite newton_all_exact by (constructor; [exact Q1|constructor; [exact Q2|constructor]]).
        eexists. split; [reflexivity|].
        split; [split; [discriminate|intro H; exfalso; exact (H _ Q1)]|].
        split.
        { intros _ v. split; [intros [<-|[<-|[]]]; assumption|]. intro H.
          assert (F : (v - d / a2) * (v - a0 / d) = 0).
          { assert (FE : (v - d / a2) * (v - a0 / d) = qpoly a2 a1 a0 v / a2 -
               v * (d * d + a1 * d + a0 * a2) / (a2 * d)).
            { unfold qpoly. field. split; assumption. }
            rewrite FE, H, Hd. field. split; assumption. }
          apply Rmult_integral in F as [F|F]; [left|right; left]; lra. }
        intros v [<-|[<-|[]]]; apply TP; assumption.
    + apply Rltb_false in EC. cbn [sneg exactK]. rewrite pydiv_ok by exact E2. cbn [rbind].
      assert (ECc : Rabs (a0 * a2) <= tol * (a1 * a1)) by lra.
      assert (DP : 0 <= a1 * a1 - 4 * a2 * a0).
      { pose proof (Rle_abs (a0 * a2)). pose proof (Rle_0_sqr a1). unfold Rsqr in *. nra. }
      assert (Q1 : qpoly a2 a1 a0 (- a1 / a2) = a0) by (unfold qpoly; field; exact E2).
      assert (Q0 : qpoly a2 a1 a0 0 = a0) by (unfold qpoly; ring).
      assert (RT : exists v, qpoly a2 a1 a0 v = 0).
      { exists ((- a1 + sqrt (a1 * a1 - 4 * a2 * a0)) / (2 * a2)).
        assert (RR := sqrt_sqrt _ DP). unfold qpoly.
        set (rt := sqrt (a1 * a1 - 4 * a2 * a0)) in *.
        transitivity ((rt * rt - (a1 * a1 - 4 * a2 * a0)) / (4 * a2)); [field; exact E2|].
        rewrite RR. field. exact E2. }
      assert (ONE : forall v, qpoly a2 a1 a0 v = a0 ->
                (2 * a2 * v + a1 = a1 \/ 2 * a2 * v + a1 = - a1) ->
                exists v', @newton KK a2 a1 a0 nitref v = Ok v' /\
                  Rabs (qpoly a2 a1 a0 v') <= (match nitref with O => 1 | _ => tol end) * Rabs a0).
      { intros v Hv Hder. destruct (Req_dec a1 0) as [Z|NZ].
        - assert (a0 = 0).
          { rewrite Z in ECc. assert (Rabs (a0 * a2) = 0) by (pose proof (Rabs_pos (a0 * a2)); nra).
            destruct (Req_dec (a0 * a2) 0) as [T|T]; [|exfalso; exact (Rabs_no_R0 _ T H)].
            apply Rmult_integral in T. tauto. }
          exists v. split; [apply newton_exact; lra|]. apply TP. lra.
        - destruct nitref as [|k].
          + exists v. split; [reflexivity|]. rewrite Hv. lra.
          + assert (Nder : 2 * a2 * v + a1 <> 0) by lra.
            rewrite newton_S.
            replace (Reqb (2 * a2 * v + a1) 0) with false by (symmetry; apply Reqb_false; exact Nder).
            rewrite Hv. set (w := v - a0 / (2 * a2 * v + a1)).
            assert (DD : (2 * a2 * v + a1) * (2 * a2 * v + a1) = a1 * a1)
              by (destruct Hder as [-> | ->]; ring).
            assert (QW : qpoly a2 a1 a0 w * (a1 * a1) = a2 * (a0 * a0)).
            { unfold w. rewrite <- Hv at 2. rewrite q_newton by exact Nder. rewrite Hv.
              rewrite <- DD. field. exact Nder. }
            assert (PP : 0 < a1 * a1) by (apply Rsqr_pos_lt; exact NZ).
            assert (W0 : 0 <= a2 * qpoly a2 a1 a0 w).
            { apply Rmult_le_reg_r with (a1 * a1); [exact PP|].
              rewrite Rmult_0_l, Rmult_assoc, QW.
              replace (a2 * (a2 * (a0 * a0))) with (Rsqr (a2 * a0)) by (unfold Rsqr; ring).
              apply Rle_0_sqr. }
            assert (WB : Rabs (qpoly a2 a1 a0 w) <= tol * Rabs a0).
            { apply Rmult_le_reg_r with (a1 * a1); [exact PP|].
              replace (Rabs (qpoly a2 a1 a0 w) * (a1 * a1)) with (Rabs (qpoly a2 a1 a0 w * (a1 * a1))).
              2:{ rewrite Rabs_mult. rewrite (Rabs_pos_eq (a1 * a1)) by lra. reflexivity. }
              rewrite QW. replace (a2 * (a0 * a0)) with (a0 * (a0 * a2)) by ring.
              rewrite Rabs_mult. pose proof (Rabs_pos a0).
              apply Rle_trans with (Rabs a0 * (tol * (a1 * a1))); [|lra].
              apply Rmult_le_compat_l; assumption. }
            destruct (newton_dec a2 a1 a0 k w DP W0) as [v' [E' [L1 L2]]].
            exists v'. split; [exact E'|].
            apply Rle_trans with (Rabs (qpoly a2 a1 a0 w)); [|exact WB].
            assert (PA2 : 0 < Rabs a2) by (apply Rabs_pos_lt; exact E2).
            apply Rmult_le_reg_l with (Rabs a2); [exact PA2|].
            rewrite <- !Rabs_mult. rewrite !Rabs_pos_eq; lra. }
      destruct (ONE (- a1 / a2) Q1) as [v1 [N1 B1]]; [right; field; exact E2|].
      destruct (ONE 0 Q0) as [v2 [N2 B2]]; [left; ring|].
      exists [v1; v2]. split.
      { cbn [newton_all]. rewrite N1. cbn [rbind]. rewrite N2. reflexivity. }
      split; [split; [discriminate|intro H; exfalso; destruct RT as [v Hv]; exact (H v Hv)]|].
      split.
      { intros [[H _]|[_ H]]; [congruence|]. exfalso. lra. }
      intros v [<-|[<-|[]]]; assumption.
Qed.
End Roots.
