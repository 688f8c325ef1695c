(** * Scaling the right-hand side of MINRES: the iterates scale, the stopping tests do not (see Grade.v). *)
From Coq Require Import List ZArith QArith Bool Lia.
From Verif Require Import Base Num ToolsModel CgModel MinresModel Grade GradeLls.
Import ListNotations.
Local Open Scope Z_scope.

Section Mr.
Context {K : Scal} (G : grade K) {W : Vs K} (H : vgrade G W).
Notation m := (gm G).
Notation w := (vm H).
Context (q : kprob W) (HA : homog H H (q_A q)) (kw : mr_kw W) (HP : ohomog H (m_precon kw)) (HN : nhomog G (MinresModel.m_lnorm kw)).

Definition d0 (i : nat) : Z := match i with O => 1 | _ => 0 end.
Definition d1 (i : nat) : Z := match i with O | 1%nat => 1 | _ => 0 end.
(** Everything but [tnorm2], [Anorm], [istop] and the flag that leaves the loop. *)
Definition related (s t : mr_st W) : Prop :=
  (r_itn t = r_itn s /\ r_cnt t = r_cnt s /\ r_x t = w 1 (r_x s) /\ r_y t = w (d0 (r_itn s)) (r_y s) /\
   r_r1 t = w (d1 (r_itn s)) (r_r1 s) /\ r_r2 t = w (d0 (r_itn s)) (r_r2 s) /\ MinresModel.r_w t = MinresModel.r_w s /\ r_w2 t = r_w2 s /\
   r_oldb t = m (d1 (r_itn s)) (r_oldb s) /\ r_beta t = m (d0 (r_itn s)) (r_beta s)) /\
  (r_dbar t = r_dbar s /\ r_epsln t = r_epsln s /\ r_phibar t = m 1 (r_phibar s) /\ r_rhs1 t = m 1 (r_rhs1 s) /\
   r_rhs2 t = m 1 (r_rhs2 s) /\ r_Arnorm t = m 1 (r_Arnorm s) /\ r_ynorm2 t = m 2 (r_ynorm2 s) /\ r_cs t = r_cs s /\ r_sn t = r_sn s) /\
  (r_gmax t = r_gmax s /\ r_gmin t = r_gmin s /\ r_Acond t = r_Acond s /\ r_rnorm t = m 1 (r_rnorm s) /\ r_ynorm t = m 1 (r_ynorm s) /\
   r_nrg2 t = m 2 (r_nrg2 s) /\ r_dErr t = map (m 1) (r_dErr s) /\ r_dirs t = r_dirs s /\ r_hist t = map (m 1) (r_hist s) /\
   r_iters t = map (w 1) (r_iters s)).

Lemma prec_mr : forall k v, match m_precon kw with Some P => P (w k v) | None => w k v end =
  w k (match m_precon kw with Some P => P v | None => v end).
Proof. intros. destruct (m_precon kw) as [P|]; [apply (HP P eq_refl)|reflexivity]. Qed.

(** The Lanczos step: all degrees cancel. *)
Lemma mr_lan_up : forall s t, related s t -> mr_lan q kw t = mr_lan q kw s.
Proof.
  intros s t ((Ei & Ec & Ex & Ey & Er1 & Er2 & Ew & Ew2 & Eo & Eb) & _). unfold mr_lan, opmul.
  rewrite Ei, Ec, Ey, Er1, Er2, Eo, Eb. destruct (r_itn s) as [|[|n]]; cbn [d0 d1].
  - change (2 <=? 0 + 1)%nat with false. cbv iota. cbv zeta. gms. reflexivity.
  - change (2 <=? 1 + 1)%nat with true. cbv iota. cbv zeta. gms. reflexivity.
  - gms. reflexivity.
Qed.
Lemma mr_body_up : forall eps beta1 lim s t s1, related s t -> mr_body q kw eps beta1 lim s = Ok s1 ->
  exists t1, mr_body q kw eps (m 1 beta1) lim t = Ok t1 /\ related s1 t1.
Proof.
  intros eps beta1 lim s t s1 R E. unfold mr_body in *. rewrite (mr_lan_up s t R).
  destruct (mr_lan q kw s) as [[[[[v alfa] r2] y] beta] cnt].
  destruct R as ((Ei & Ec & Ex & Ey & Er1 & Er2 & Ew & Ew2 & Eo & Eb) & (Ed & Ee & Eph & E1 & E2 & Ear & Eyn2 & Ecs & Esn) &
    (Egx & Egn & Eac & Ern & Eyn & Enr & Ede & Edi & Eh & Eit)).
  assert (D : forall n, d0 (n + 1) = 0 /\ d1 (n + 1) = d0 n) by (intros [|[|n]]; split; reflexivity).
  destruct (D (r_itn s)) as [D0 D1].
  destruct (sltb beta s0).
  - injection E as <-. eexists. split; [reflexivity|].
    unfold related. cbn. rewrite ?D0, ?D1, ?Ei, ?gm_0, ?vm_0. repeat split; assumption || reflexivity.
  - destruct (m_window kw =? 0)%nat; [discriminate|]. injection E as <-. eexists. split; [reflexivity|].
    unfold related, mr_upd, mr_delta, mr_gbar, mr_root, mr_gamma.
    cbn [r_itn r_cnt r_x r_y r_r1 r_r2 MinresModel.r_w r_w2 r_oldb r_beta r_dbar r_epsln r_phibar r_rhs1 r_rhs2 r_Arnorm r_ynorm2 r_cs r_sn
      r_gmax r_gmin r_Acond r_rnorm r_ynorm r_nrg2 r_dErr r_dirs r_hist r_iters].
    rewrite Ei, Ex, Er2, Ew, Ew2, Eb, Ed, Ee, Eph, E1, E2, Eyn2, Ecs, Esn, Egx, Egn, Enr, Ede, Edi, Eh, Eit, D0, D1.
    rewrite ?gm_0, ?vm_0, ?map_app. cbn [map].
    repeat split; try reflexivity; gms; rewrite ?(vm_scalel G H); gms; rewrite ?lset_up, ?HN; gms; try reflexivity.
    destruct (m_sit kw); rewrite ?map_app; reflexivity.
Qed.

Lemma mr_init_up : forall b beta1 istop istop' dn dn' hist cnt,
  related (mr_init kw b beta1 istop dn hist cnt) (mr_init kw (w 1 b) (m 1 beta1) istop' dn' (map (m 1) hist) cnt).
Proof.
  intros. unfold related, mr_init, mr_y0. cbn [r_itn r_cnt r_x r_y r_r1 r_r2 MinresModel.r_w r_w2 r_oldb r_beta r_dbar r_epsln r_phibar r_rhs1
    r_rhs2 r_Arnorm r_ynorm2 r_cs r_sn r_gmax r_gmin r_Acond r_rnorm r_ynorm r_nrg2 r_dErr r_dirs r_hist r_iters d0 d1].
  rewrite prec_mr, vm_len. rewrite ?repeat_up, ?vm_zeros, ?gm_s0.
  repeat split; try reflexivity. destruct (m_sit kw); cbn; rewrite ?vm_zeros; reflexivity.
Qed.
Lemma mr_rounds_up : forall eps beta1 lim s t, related s t -> forall k sk tk,
  rounds (mr_cond lim) (mr_body q kw eps beta1 lim) k s = Ok sk ->
  rounds (mr_cond lim) (mr_body q kw eps (m 1 beta1) lim) k t = Ok tk -> related sk tk.
Proof.
  intros eps beta1 lim s t R. induction k as [|k IH]; intros sk tk; cbn [rounds].
  - intros A B. injection A as <-. injection B as <-. exact R.
  - destruct (rounds _ _ k s) as [s'|]; [|discriminate]. destruct (rounds _ _ k t) as [t'|]; [|discriminate].
    destruct (mr_cond lim s'); [|discriminate]. destruct (mr_cond lim t'); [|discriminate]. intros A B.
    destruct (mr_body_up eps beta1 lim s' t' sk (IH _ _ eq_refl eq_refl) A) as (t1 & E & R1). rewrite E in B. injection B as <-. exact R1.
Qed.
Lemma mr_body_itn : forall eps beta1 lim s s1, mr_body q kw eps beta1 lim s = Ok s1 -> r_itn s1 = (r_itn s + 1)%nat.
Proof.
  intros eps beta1 lim s s1 E. unfold mr_body in E. destruct (mr_lan q kw s) as [[[[[v alfa] r2] y] beta] cnt].
  destruct (sltb beta s0); [injection E as <-; reflexivity|]. destruct (m_window kw =? 0)%nat; [discriminate|]. injection E as <-. reflexivity.
Qed.
Lemma mr_rounds_itn : forall eps beta1 lim k s sk,
  rounds (mr_cond lim) (mr_body q kw eps beta1 lim) k s = Ok sk -> r_itn sk = (r_itn s + k)%nat.
Proof.
  intros eps beta1 lim. induction k as [|k IH]; intros s sk; cbn [rounds].
  - intro A. injection A as <-. lia.
  - destruct (rounds _ _ k s) as [s'|] eqn:E; [|discriminate]. destruct (mr_cond lim s'); [|discriminate]. intro A.
    apply mr_body_itn in A. rewrite A, (IH _ _ E). lia.
Qed.

(** The symmetry check does not look at the right-hand side. *)
Lemma mr_start_up : forall b cnt, sgtb (vdot b (mr_y0 kw b)) s0 = true ->
  mr_start q kw (w 1 b) cnt = (let '(beta1, istop, dn, c) := mr_start q kw b cnt in (m 1 beta1, istop, dn, c)).
Proof.
  intros b cnt B. unfold mr_start, mr_y0 in *. rewrite prec_mr. unfold sgtb in *. gms. rewrite B.
  destruct (if m_check kw then check_symmetric _ _ _ _ _ _ else _) as [ok c]. gms. reflexivity.
Qed.
Lemma mr_solve_up : forall fuel fuel' hist b cnt o c o' c', sgtb (vdot b (mr_y0 kw b)) s0 = true ->
  mr_solve fuel q hist b kw cnt = Ok (o, c) -> mr_solve fuel' q (map (m 1) hist) (w 1 b) kw cnt = Ok (o', c') ->
  u_itn o' = u_itn o ->
  u_residNorm0 o' = m 1 (u_residNorm0 o) /\ u_x o' = w 1 (u_x o) /\ u_nmv o' = u_nmv o /\ c' = c /\ u_rnorm o' = m 1 (u_rnorm o) /\
  u_Arnorm o' = m 1 (u_Arnorm o) /\ u_Acond o' = u_Acond o /\ u_ynorm o' = m 1 (u_ynorm o) /\ u_hist o' = map (m 1) (u_hist o) /\
  u_dirs o' = u_dirs o /\ u_iters o' = map (w 1) (u_iters o).
Proof.
  intros fuel fuel' hist b cnt o c o' c' B E E' I. unfold mr_solve in *. rewrite mr_start_up in E' by exact B.
  destruct (mr_start q kw b cnt) as [[[beta1 istop] dn] c0].
  assert (L : mr_lim kw (w 1 b) = mr_lim kw b) by (unfold mr_lim; rewrite vm_len; reflexivity). rewrite L in E'. clear L.
  destruct (while fuel _ _ _) as [s|] eqn:R; [|discriminate]. destruct (while fuel' _ _ _) as [t|] eqn:R'; [|discriminate].
  injection E as <- <-. injection E' as <- <-. cbn in *.
  apply while_rounds in R. destruct R as (k & _ & R & _). apply while_rounds in R'. destruct R' as (k' & _ & R' & _).
  pose proof (mr_rounds_itn _ _ _ _ _ _ R) as N. pose proof (mr_rounds_itn _ _ _ _ _ _ R') as N'. cbn in N, N'.
  assert (k' = k) as -> by lia.
  destruct (mr_rounds_up _ _ _ _ _ (mr_init_up b beta1 istop istop dn dn hist c0) k s t R R') as (P1 & P2 & P3). tauto.
Qed.
End Mr.
