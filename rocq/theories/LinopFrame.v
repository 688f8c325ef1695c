(** * Frame properties of products: what op * x can change, and on what it depends. *)
From Coq Require Import List ZArith Lia Bool.
From Verif Require Import Base Field Vec LinopModel.
Import ListNotations.

Section Frame.
Context {F : Fld}.
Notation st := (st F). Notation obj := (obj F). Notation M := (M F).

(** equal up to the product counter *)
Definition same (o o' : obj) : Prop := with_count 0 o = with_count 0 o'.
Lemma same_refl : forall o, same o o. Proof. reflexivity. Qed.
Lemma same_sym : forall o o', same o o' -> same o' o. Proof. unfold same; auto. Qed.
Lemma same_trans : forall a b c, same a b -> same b c -> same a c.
Proof. unfold same; intros; congruence. Qed.

(** attributes other than the counter *)
Definition stable {A} (p : obj -> A) : Prop := forall o o', same o o' -> p o = p o'.
Ltac stab := intros o o' E; destruct o, o'; cbv in E; injection E; intros; subst; reflexivity.
Lemma stable_nargin : stable o_nargin. Proof. stab. Qed.
Lemma stable_nargout : stable o_nargout. Proof. stab. Qed.
Lemma stable_sym : stable o_sym. Proof. stab. Qed.
Lemma stable_herm : stable o_herm. Proof. stab. Qed.
Lemma stable_dtype : stable o_dtype. Proof. stab. Qed.
Lemma stable_mv : stable o_mv. Proof. stab. Qed.
Lemma stable_T : stable o_T. Proof. stab. Qed.
Lemma stable_H : stable o_H. Proof. stab. Qed.
Lemma stable_pay : stable o_pay. Proof. stab. Qed.
Lemma with_count_same : forall n o, same (with_count n o) o.
Proof. intros; reflexivity. Qed.

(** ** heap extension (counters may differ) *)
Record ext (s s' : st) : Prop := mkext {
  ext_obj : forall a o, objs s a = Some o -> exists o', objs s' a = Some o' /\ same o o';
  ext_arr : forall l x, arrs s l = Some x -> arrs s' l = Some x;
  ext_row : forall l r, rows s l = Some r -> rows s' l = Some r
}.
Lemma ext_refl : forall s, ext s s.
Proof. constructor; eauto using same_refl. Qed.
Lemma ext_trans : forall a b c, ext a b -> ext b c -> ext a c.
Proof.
  intros a b c [H1 H2 H3] [G1 G2 G3]; constructor; eauto.
  intros x o Hx. destruct (H1 _ _ Hx) as (o' & Ho' & E).
  destruct (G1 _ _ Ho') as (o'' & Ho'' & E'). eauto using same_trans.
Qed.

(** ** counters-only change *)
Record cle (s s' : st) : Prop := mkcle {
  cle_nxt : nxt s' = nxt s;
  cle_narr : narr s' = narr s;
  cle_nrow : nrow s' = nrow s;
  cle_arrs : arrs s' = arrs s;
  cle_rows : rows s' = rows s;
  cle_obj : forall a, match objs s a, objs s' a with
                      | Some o, Some o' => same o o' /\ o_count o <= o_count o'
                      | None, None => True
                      | _, _ => False
                      end
}.
Lemma cle_refl : forall s, cle s s.
Proof. constructor; auto. intros a; destruct (objs s a); auto using same_refl. Qed.
Lemma cle_trans : forall a b c, cle a b -> cle b c -> cle a c.
Proof.
  intros a b c H G. destruct H, G; constructor; try congruence.
  intros x. specialize (cle_obj0 x); specialize (cle_obj1 x).
  destruct (objs a x), (objs b x), (objs c x); try tauto.
  destruct cle_obj0, cle_obj1; split; [eapply same_trans; eauto | lia].
Qed.
Lemma cle_ext : forall s s', cle s s' -> ext s s'.
Proof.
  intros s s' []; constructor.
  - intros a o Ha. specialize (cle_obj0 a). rewrite Ha in cle_obj0.
    destruct (objs s' a); [|tauto]. destruct cle_obj0; eauto.
  - rewrite cle_arrs0; auto.
  - rewrite cle_rows0; auto.
Qed.
Lemma cle_ext_r : forall s s', cle s s' -> ext s' s.
Proof.
  intros s s' []; constructor.
  - intros a o Ha. specialize (cle_obj0 a). rewrite Ha in cle_obj0.
    destruct (objs s a); [|tauto]. destruct cle_obj0; eauto using same_sym.
  - rewrite cle_arrs0; auto.
  - rewrite cle_rows0; auto.
Qed.

Definition FrameM {A} (m : M A) : Prop := forall s s1 r, m s = (s1, r) -> cle s s1.
Lemma frame_ret : forall A (a : A), FrameM (ret a).
Proof. intros A a s s1 r H; inversion H; apply cle_refl. Qed.
Lemma frame_raise : forall A e, FrameM (@raise F A e).
Proof. intros A a s s1 r H; inversion H; apply cle_refl. Qed.
Lemma frame_lift : forall A (x : res A), FrameM (lift x).
Proof. intros A a s s1 r H; inversion H; apply cle_refl. Qed.
Lemma frame_bind : forall A B (m : M A) (k : A -> M B),
  FrameM m -> (forall a, FrameM (k a)) -> FrameM (bind m k).
Proof.
  intros A B m k Hm Hk s s1 r H. unfold bind in H.
  destruct (m s) as [s' [a|e]] eqn:E.
  - eapply cle_trans; [eapply Hm, E | eapply Hk, H].
  - inversion H; subst. eapply Hm, E.
Qed.
Lemma frame_getattr : forall A (p : obj -> A) a, FrameM (getattr p a).
Proof.
  intros A p a s s1 r H. unfold getattr in H.
  destruct (objs s a); inversion H; apply cle_refl.
Qed.
Lemma frame_get_arr : forall l, FrameM (@get_arr F l).
Proof.
  intros a s s1 r H. unfold get_arr in H.
  destruct (arrs s a); inversion H; apply cle_refl.
Qed.
Lemma frame_get_row : forall l, FrameM (@get_row F l).
Proof.
  intros a s s1 r H. unfold get_row in H.
  destruct (rows s a); inversion H; apply cle_refl.
Qed.
Lemma frame_bump : forall a, FrameM (@bump F a).
Proof.
  intros a s s1 r H. unfold bump, modobj in H.
  destruct (objs s a) as [o|] eqn:E; inversion H; subst; [|apply cle_refl].
  constructor; cbn; auto. intros b. unfold upd.
  destruct (Nat.eqb_spec b a); subst.
  - rewrite E. split; [reflexivity | cbn; lia].
  - destruct (objs s b); auto using same_refl.
Qed.
Lemma frame_mmap : forall A B (f : A -> M B) l,
  (forall a, FrameM (f a)) -> FrameM (mmap f l).
Proof.
  induction l; intros; cbn; auto using frame_ret.
  apply frame_bind; auto. intros. apply frame_bind; auto using frame_ret.
Qed.

Hint Resolve frame_ret frame_raise frame_lift frame_getattr frame_get_arr frame_get_row
     frame_bump : frame.
Ltac frame_tac := repeat first
  [ solve [auto 2 with frame] | apply frame_bind; intros | apply frame_mmap; intros
  | match goal with |- FrameM (match ?x with _ => _ end) => destruct x end ].

Section Call.
Variable ap : addr -> arr F -> M (arr F).
Hypothesis Hap : forall a x, FrameM (ap a x).
Hint Resolve Hap : frame.

Lemma frame_ap_opt : forall o x, FrameM (ap_opt ap o x).
Proof. intros [a|] x; cbn; frame_tac. Qed.
Hint Resolve frame_ap_opt : frame.
Lemma frame_ap_w : forall w a x, FrameM (ap_w ap w a x).
Proof. intros [] a x; cbn; frame_tac. Qed.
Hint Resolve frame_ap_w : frame.
Lemma frame_blk_attr : forall A (p : obj -> A) b, FrameM (blk_attr p b).
Proof. intros A p []; cbn; frame_tac. Qed.
Hint Resolve frame_blk_attr : frame.
Lemma frame_blk_row : forall rt xdt ws row x y, FrameM (blk_row ap rt xdt ws row x y).
Proof.
  induction ws; destruct row; intros; cbn; frame_tac.
Qed.
Hint Resolve frame_blk_row : frame.
Lemma frame_blk_rows : forall rt xdt ws blks hs x, FrameM (blk_rows ap rt xdt ws hs blks x).
Proof.
  induction blks; destruct hs; intros; cbn; frame_tac.
Qed.
Hint Resolve frame_blk_rows : frame.
Lemma frame_bd_loop : forall rt xdt blks ws hs x, FrameM (bd_loop ap rt xdt ws hs blks x).
Proof.
  induction blks; destruct ws, hs; intros; cbn; frame_tac.
Qed.
Hint Resolve frame_bd_loop : frame.
Lemma frame_call : forall c x, FrameM (call ap c x).
Proof.
  destruct c; intros; cbn [call]; unfold red_matvec, blk_matvec, bd_matvec; frame_tac.
Qed.
Hint Resolve frame_call : frame.
Lemma frame_mul_vector : forall a x, FrameM (mul_vector ap a x).
Proof.
  intros. unfold mul_vector; frame_tac.
Qed.
End Call.

(** A product changes counters only, and never decreases one. *)
Lemma frame_apply : forall d a x, FrameM (apply d a x).
Proof.
  induction d; intros; cbn; auto with frame. apply frame_mul_vector; auto.
Qed.

(** ** Monotonicity: results do not depend on counters, unrelated objects, or spare fuel *)
Definition MonoM {A} (m m' : M A) : Prop := forall s s' s1 r,
  ext s s' -> m s = (s1, r) -> bad r = false ->
  exists s1', m' s' = (s1', r) /\ ext s1 s1'.

Lemma mono_ret : forall A (a : A), MonoM (ret a) (ret a).
Proof. intros A a s s' s1 r E H B; inversion H; subst; eexists; split; eauto. reflexivity. Qed.
Lemma mono_raise : forall A e, MonoM (@raise F A e) (raise e).
Proof. intros A a s s' s1 r E H B; inversion H; subst; eexists; split; eauto. reflexivity. Qed.
Lemma mono_lift : forall A (x : res A), MonoM (lift x) (lift x).
Proof. intros A a s s' s1 r E H B; inversion H; subst; eexists; split; eauto. reflexivity. Qed.
Lemma mono_bind : forall A B (m m' : M A) (k k' : A -> M B),
  MonoM m m' -> (forall a, MonoM (k a) (k' a)) -> MonoM (bind m k) (bind m' k').
Proof.
  intros A B m m' k k' Hm Hk s s' s1 r E H Hb. unfold bind in *.
  destruct (m s) as [s2 [a|e]] eqn:E1.
  - destruct (Hm _ _ _ _ E E1 eq_refl) as (s2' & H2 & E2). rewrite H2.
    eapply Hk; eauto.
  - inversion H; subst.
    assert (Hb' : bad (@Err A e) = false) by (destruct e; auto).
    destruct (Hm _ _ _ _ E E1 Hb') as (s2' & H2 & E2). rewrite H2. eauto.
Qed.
Lemma mono_getattr : forall A (p : obj -> A) a, stable p -> MonoM (getattr p a) (getattr p a).
Proof.
  intros A p a Hp s s' s1 r E H B. unfold getattr in *.
  destruct (objs s a) eqn:Ha; inversion H; subst; [|discriminate].
  destruct (ext_obj _ _ E _ _ Ha) as (o' & Ho' & Hs). rewrite Ho', (Hp _ _ Hs).
  eauto.
Qed.
Lemma mono_get_arr : forall l, MonoM (@get_arr F l) (get_arr l).
Proof.
  intros l s s' s1 r E H B. unfold get_arr in *.
  destruct (arrs s l) eqn:Ha; inversion H; subst; [|discriminate].
  rewrite (ext_arr _ _ E _ _ Ha). eauto.
Qed.
Lemma mono_get_row : forall l, MonoM (@get_row F l) (get_row l).
Proof.
  intros l s s' s1 r E H B. unfold get_row in *.
  destruct (rows s l) eqn:Ha; inversion H; subst; [|discriminate].
  rewrite (ext_row _ _ E _ _ Ha). eauto.
Qed.
Lemma mono_bump : forall a, MonoM (@bump F a) (bump a).
Proof.
  intros a s s' s1 r E H B. unfold bump, modobj in *.
  destruct (objs s a) eqn:Ha; inversion H; subst; [|discriminate].
  destruct (ext_obj _ _ E _ _ Ha) as (o' & Ho' & Hs). rewrite Ho'.
  eexists; split; eauto. destruct E as [E1 E2 E3].
  constructor; cbn; auto. intros b ob. unfold upd.
  destruct (Nat.eqb_spec b a); subst; intros Hb.
  - inversion Hb; subst. eexists; split; eauto.
  - eauto.
Qed.
Lemma mono_mmap : forall A B (f f' : A -> M B) l,
  (forall a, MonoM (f a) (f' a)) -> MonoM (mmap f l) (mmap f' l).
Proof.
  induction l; intros; cbn; auto using mono_ret.
  apply mono_bind; auto. intros. apply mono_bind; auto using mono_ret.
Qed.

Hint Resolve mono_ret mono_raise mono_lift mono_getattr mono_get_arr mono_get_row
     mono_bump stable_nargin stable_nargout stable_sym stable_herm stable_dtype stable_mv
     stable_T stable_H stable_pay : mono.
Ltac mono_tac := repeat first
  [ solve [auto 2 with mono] | apply mono_bind; intros | apply mono_mmap; intros
  | match goal with |- MonoM (match ?x with _ => _ end) _ => destruct x end ].

Section CallMono.
Variable ap ap' : addr -> arr F -> M (arr F).
Hypothesis Hap : forall a x, MonoM (ap a x) (ap' a x).
Hint Resolve Hap : mono.

Lemma mono_ap_opt : forall o x, MonoM (ap_opt ap o x) (ap_opt ap' o x).
Proof. intros [a|] x; cbn; mono_tac. Qed.
Hint Resolve mono_ap_opt : mono.
Lemma mono_ap_w : forall w a x, MonoM (ap_w ap w a x) (ap_w ap' w a x).
Proof. intros [] a x; cbn; mono_tac. Qed.
Hint Resolve mono_ap_w : mono.
Lemma mono_blk_attr : forall A (p : obj -> A) b, stable p -> MonoM (blk_attr p b) (blk_attr p b).
Proof. intros A p [] ?; cbn; mono_tac. Qed.
Hint Resolve mono_blk_attr : mono.
Lemma mono_blk_row : forall rt xdt ws row x y,
  MonoM (blk_row ap rt xdt ws row x y) (blk_row ap' rt xdt ws row x y).
Proof.
  induction ws; destruct row; intros; cbn; mono_tac.
Qed.
Hint Resolve mono_blk_row : mono.
Lemma mono_blk_rows : forall rt xdt ws blks hs x,
  MonoM (blk_rows ap rt xdt ws hs blks x) (blk_rows ap' rt xdt ws hs blks x).
Proof.
  induction blks; destruct hs; intros; cbn; mono_tac.
Qed.
Hint Resolve mono_blk_rows : mono.
Lemma mono_bd_loop : forall rt xdt blks ws hs x,
  MonoM (bd_loop ap rt xdt ws hs blks x) (bd_loop ap' rt xdt ws hs blks x).
Proof.
  induction blks; destruct ws, hs; intros; cbn; mono_tac.
Qed.
Hint Resolve mono_bd_loop : mono.
Lemma mono_call : forall c x, MonoM (call ap c x) (call ap' c x).
Proof.
  destruct c; intros; cbn [call]; unfold red_matvec, blk_matvec, bd_matvec; mono_tac.
Qed.
Hint Resolve mono_call : mono.
Lemma mono_mul_vector : forall a x, MonoM (mul_vector ap a x) (mul_vector ap' a x).
Proof.
  intros. unfold mul_vector; mono_tac.
Qed.
End CallMono.

Lemma mono_apply : forall d d' a x, d <= d' -> MonoM (apply d a x) (apply d' a x).
Proof.
  induction d; intros d' a x Hd.
  - intros s s' s1 r E H B. inversion H; subst. discriminate.
  - destruct d'; [lia|]. cbn [apply]. apply mono_mul_vector. intros; apply IHd; lia.
Qed.
Lemma mono_call_apply : forall d d' c x, d <= d' ->
  MonoM (call (apply d) c x) (call (apply d') c x).
Proof. intros. apply mono_call. intros. now apply mono_apply. Qed.
End Frame.
