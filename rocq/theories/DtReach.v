(** * The executions of DtModel.v computed: all outcomes with their environments. *)
From Coq Require Import List Bool Arith.
From Verif Require Import LinopModel DtModel.
Import ListNotations.

Definition dt_beq (a b : dtype) : bool :=
  match a, b with DInt, DInt | DFloat, DFloat | DComplex, DComplex => true | _, _ => false end.
Definition oc_beq (a b : outc) : bool :=
  match a, b with
  | Normal, Normal | Broke, Broke | Continued, Continued | Returned, Returned | CastError, CastError | NameError, NameError => true
  | _, _ => false
  end.
Fixpoint denv_beq (a b : denv) : bool :=
  match a, b with
  | [], [] => true
  | (x, k) :: a, (y, l) :: b => dt_beq k l && var_beq x y && denv_beq a b
  | _, _ => false
  end.
Definition oe_beq (a b : outc * denv) : bool := oc_beq (fst a) (fst b) && denv_beq (snd a) (snd b).
Lemma dt_beq_eq : forall a b, dt_beq a b = true <-> a = b.
Proof. destruct a, b; simpl; split; congruence. Qed.
Lemma oc_beq_eq : forall a b, oc_beq a b = true <-> a = b.
Proof. destruct a, b; simpl; split; congruence. Qed.
Lemma denv_beq_eq : forall a b, denv_beq a b = true <-> a = b.
Proof.
  induction a as [|[x k] a IH]; destruct b as [|[y l] b]; cbn [denv_beq]; try (split; intros H; discriminate H); [tauto|].
  rewrite !andb_true_iff, dt_beq_eq, var_beq_eq, IH. split.
  - intros [[-> ->] ->]. reflexivity.
  - intros H. injection H as -> -> ->. auto.
Qed.
Lemma oe_beq_eq : forall a b, oe_beq a b = true <-> a = b.
Proof.
  intros [o e] [o' e']. unfold oe_beq. simpl. rewrite andb_true_iff, oc_beq_eq, denv_beq_eq. split; [intros [-> ->]; auto | intros H; injection H as -> ->; auto].
Qed.
(** Without repetition. *)
Fixpoint dd (l : list (outc * denv)) : list (outc * denv) :=
  match l with [] => [] | a :: l => let m := dd l in if existsb (oe_beq a) m then m else a :: m end.
Lemma in_dd : forall a l, In a (dd l) <-> In a l.
Proof.
  induction l as [|b l IH]; simpl; [tauto|]. destruct (existsb (oe_beq b) (dd l)) eqn:E.
  - apply existsb_exists in E. destruct E as (c & I & E). apply oe_beq_eq in E. subst c. rewrite IH. split; auto.
    intros [<- | H]; auto. apply IH. auto.
  - simpl. rewrite IH. tauto.
Qed.

Definition out := list (outc * denv).
Definition is_normal (o : outc) : bool := match o with Normal => true | _ => false end.
Definition goes_on (o : outc) : bool := match o with Normal | Continued => true | _ => false end.
Definition nexts (r : out) : list denv := map snd (filter (fun p => goes_on (fst p)) r).
Definition leaves (p : outc * denv) : out :=
  match p with (Broke, e) => [(Normal, e)] | (Normal, _) | (Continued, _) => [] | p => [p] end.
Fixpoint collect (f : outc * denv -> option out) (l : out) : option out :=
  match l with
  | [] => Some []
  | a :: l => match f a, collect f l with Some r, Some m => Some (r ++ m) | _, _ => None end
  end.
(** The environments at the head of a loop, each with the outcomes of the body. *)
Fixpoint work (n : nat) (f : denv -> option out) (todo : list denv) (acc : list (denv * out)) : option (list (denv * out)) :=
  match todo with
  | [] => Some acc
  | e :: t =>
      match n with
      | 0 => None
      | S n => if existsb (fun q => denv_beq e (fst q)) acc then work n f t acc else
          match f e with Some r => work n f (nexts r ++ t) ((e, r) :: acc) | None => None end
      end
  end.
Fixpoint coll (n : nat) (s : stm) (e : denv) {struct s} : option out :=
  match s with
  | Skip => Some [(Normal, e)]
  | Set_ x a => Some match kind e a with Some d => [(Normal, set e x d)] | None => [(NameError, e)] end
  | Upd x a => Some
      match kind e a, get e x with
      | Some d, Some k => if can_cast (result_type k d) k then [(Normal, e)] else [(CastError, e)]
      | _, _ => [(NameError, e)]
      end
  | Seq a b =>
      match coll n a e with
      | Some l => option_map dd (collect (fun p => if is_normal (fst p) then coll n b (snd p) else Some [p]) l)
      | None => None
      end
  | If a b => match coll n a e, coll n b e with Some l, Some m => Some (dd (l ++ m)) | _, _ => None end
  | While b => option_map (fun acc => dd (flat_map (fun q => (Normal, fst q) :: flat_map leaves (snd q)) acc)) (work n (coll n b) [e] [])
  | Break => Some [(Broke, e)]
  | Continue => Some [(Continued, e)]
  | Return => Some [(Returned, e)]
  end.

(** Rounds of a loop. *)
Inductive star (b : stm) : denv -> denv -> Prop :=
  | star0 : forall e, star b e e
  | starS : forall e o e1 e2, exec b e o e1 -> o = Normal \/ o = Continued -> star b e1 e2 -> star b e e2.
Lemma star_snoc : forall b e e1, star b e e1 -> forall o e2, exec b e1 o e2 -> o = Normal \/ o = Continued -> star b e e2.
Proof. induction 1; intros; [eapply starS; eauto; constructor|]. eapply starS; eauto. Qed.
Lemma in_nexts : forall r e1, In e1 (nexts r) <-> exists o, In (o, e1) r /\ (o = Normal \/ o = Continued).
Proof.
  assert (G : forall o, goes_on o = true <-> o = Normal \/ o = Continued)
    by (destruct o; simpl; split; intros H; try discriminate; auto; destruct H; discriminate).
  intros. unfold nexts. rewrite in_map_iff. split.
  - intros ([o e2] & <- & H). apply filter_In in H. destruct H as [H K]. exists o. split; auto. apply G; auto.
  - intros (o & H & K). exists (o, e1). split; auto. apply filter_In. split; auto. apply G; auto.
Qed.
Lemma while_inv : forall s e o e', exec s e o e' -> forall b, s = While b ->
  exists e1, star b e e1 /\ (o = Normal /\ e' = e1 \/ exists o1, exec b e1 o1 e' /\ In (o, e') (leaves (o1, e'))).
Proof.
  induction 1; intros b' E; try discriminate; injection E as <-.
  - exists e. split; [constructor | auto].
  - destruct (IHexec2 _ eq_refl) as (e3 & S1 & H2). exists e3. split; auto. eapply starS; eauto.
  - exists e. split; [constructor|]. right. exists Broke. simpl. auto.
  - exists e. split; [constructor|]. right. exists o. split; auto. destruct H0 as [-> | [-> | ->]]; simpl; auto.
Qed.
Lemma while_star : forall b e e1, star b e e1 -> forall o e2, exec (While b) e1 o e2 -> exec (While b) e o e2.
Proof. induction 1; intros; auto. eapply XIter; eauto. Qed.
Lemma leaves_exec : forall b e o1 e1 o e2, exec b e o1 e1 -> In (o, e2) (leaves (o1, e1)) -> exec (While b) e o e2.
Proof.
  intros b e o1 e1 o e2 X H. destruct o1; simpl in H; try contradiction; destruct H as [H|[]]; injection H as <- <-;
    [apply XBroke; auto | apply XLeft; auto ..].
Qed.
Lemma leaves_env : forall o1 e1 o e2, In (o, e2) (leaves (o1, e1)) -> e2 = e1.
Proof. intros [] e1 o e2 H; simpl in H; try contradiction; destruct H as [H|[]]; congruence. Qed.

Lemma in_collect : forall f l r, collect f l = Some r ->
  (forall q, In q r <-> exists p m, In p l /\ f p = Some m /\ In q m) /\ (forall p, In p l -> f p <> None).
Proof.
  induction l as [|a l IH]; simpl; intros r H.
  - injection H as <-. split; [|tauto]. intros q. split; [intros [] | intros (p & m & [] & _)].
  - destruct (f a) as [ra|] eqn:Fa; [|discriminate]. destruct (collect f l) as [m|]; [|discriminate]. injection H as <-.
    destruct (IH _ eq_refl) as [I1 I2]. split.
    + intros q. rewrite in_app_iff, I1. split.
      * intros [H | (p & n & A & B & C)]; [exists a, ra | exists p, n]; auto.
      * intros (p & n & [<- | A] & B & C); [left; congruence | right; exists p, n; auto].
    + intros p [<- | A]; [congruence | auto].
Qed.

(** A finished worklist: exactly the environments that the loop can reach. *)
Lemma work_spec : forall b f, (forall e r, f e = Some r -> forall o e', In (o, e') r <-> exec b e o e') ->
  forall e0 n todo acc res, work n f todo acc = Some res ->
  (forall e r, In (e, r) acc -> f e = Some r /\ star b e0 e) ->
  (forall z, In z todo -> star b e0 z) ->
  (forall e r z, In (e, r) acc -> In z (nexts r) -> (exists r1, In (z, r1) acc) \/ In z todo) ->
  (forall e r, In (e, r) res -> f e = Some r /\ star b e0 e) /\
  (forall e r z, In (e, r) res -> In z (nexts r) -> exists r1, In (z, r1) res) /\
  (forall z, (exists r, In (z, r) acc) \/ In z todo -> exists r, In (z, r) res).
Proof.
  intros b f Hf e0. induction n; intros todo acc res W A T C.
  - destruct todo; [|discriminate]. injection W as <-. split; [auto|]. split.
    + intros e r z I J. destruct (C _ _ _ I J) as [|[]]; auto.
    + intros z [|[]]; auto.
  - destruct todo as [|e t]; simpl in W.
    + injection W as <-. split; [auto|]. split.
      * intros e r z I J. destruct (C _ _ _ I J) as [|[]]; auto.
      * intros z [|[]]; auto.
    + destruct (existsb (fun q => denv_beq e (fst q)) acc) eqn:M.
      * apply existsb_exists in M. destruct M as ([e1 r1] & I & E). simpl in E. apply denv_beq_eq in E. subst e1.
        destruct (IHn _ _ _ W A) as (R1 & R2 & R3).
        -- intros z Hz. apply T. right. auto.
        -- intros e2 r2 z I2 J. destruct (C _ _ _ I2 J) as [|[<-|]]; eauto.
        -- split; [auto|]. split; [auto|]. intros z [Hz | [<- | Hz]]; apply R3; eauto.
      * destruct (f e) as [r|] eqn:Fe; [|discriminate].
        assert (Te : star b e0 e) by (apply T; left; auto).
        destruct (IHn _ _ _ W) as (R1 & R2 & R3).
        -- intros e2 r2 [I|I]; [injection I as <- <-; auto | auto].
        -- intros z Hz. apply in_app_or in Hz. destruct Hz as [Hz|Hz]; [|apply T; right; auto].
           apply in_nexts in Hz. destruct Hz as (o & Hz & G). eapply star_snoc; [exact Te | apply (Hf _ _ Fe); exact Hz | exact G].
        -- intros e2 r2 z [I|I] J.
           ++ injection I as <- <-. right. apply in_or_app. auto.
           ++ destruct (C _ _ _ I J) as [[r3 K]|[<-|K]]; [left; exists r3; right; auto | left; exists r; left; auto | right; apply in_or_app; auto].
        -- split; [auto|]. split; [auto|]. intros z [[r3 Hz] | [<- | Hz]]; apply R3.
           ++ left. exists r3. right. auto.
           ++ left. exists r. left. auto.
           ++ right. apply in_or_app. auto.
Qed.

(** When the computation comes to an end, it lists what happens and nothing else. *)
Theorem coll_spec : forall n s e r, coll n s e = Some r -> forall o e', In (o, e') r <-> exec s e o e'.
Proof.
  intros n. induction s; intros e0 r D o e'.
  - injection D as <-. split; [intros [H|[]]; injection H as <- <-; constructor | intros X; inversion X; subst; simpl; auto].
  - injection D as <-. split.
    + destruct (kind e0 e) eqn:K; intros [H|[]]; injection H as <- <-; [apply XSet | apply XSetU]; auto.
    + intros X; inversion X; subst; match goal with H : kind _ _ = _ |- _ => rewrite H end; simpl; auto.
  - injection D as <-. split.
    + destruct (kind e0 e) eqn:K; [destruct (get e0 x) eqn:G; [destruct (can_cast (result_type d0 d) d0) eqn:C|]|];
        intros [H|[]]; injection H as <- <-; [eapply XUpd; eauto | eapply XUpdC; eauto | apply XUpdU; auto | apply XUpdU; auto].
    + intros X; inversion X; subst.
      * match goal with H : kind _ _ = _, G : get _ _ = _, C : can_cast _ _ = _ |- _ => rewrite H, G, C end; simpl; auto.
      * match goal with H : kind _ _ = _, G : get _ _ = _, C : can_cast _ _ = _ |- _ => rewrite H, G, C end; simpl; auto.
      * match goal with H : _ \/ _ |- _ => destruct H as [->| G] end; simpl; auto. rewrite G. destruct (kind e' e); simpl; auto.
  - simpl in D. destruct (coll n s1 e0) as [l|] eqn:C1; [|discriminate].
    destruct (collect _ l) as [m|] eqn:C2; [|discriminate]. injection D as <-. rewrite in_dd.
    destruct (in_collect _ _ _ C2) as [I1 I2]. rewrite I1. split.
    + intros ([o1 e1] & k & A & B & G). apply (IHs1 _ _ C1) in A. simpl in B. destruct (is_normal o1) eqn:N.
      * destruct o1; try discriminate. apply (IHs2 _ _ B) in G. eapply XSeq; eauto.
      * injection B as <-. destruct G as [G|[]]. injection G as <- <-. apply XSeq1; auto. intros ->. discriminate.
    + intros X. inversion X; subst.
      * match goal with Y : exec s1 e0 Normal e1, Z : exec s2 e1 o e' |- _ =>
          assert (A : In (Normal, e1) l) by (apply (IHs1 _ _ C1); exact Y); specialize (I2 _ A); simpl in I2;
          destruct (coll n s2 e1) as [k|] eqn:C3; [|congruence]; exists (Normal, e1), k; repeat split; auto; apply (IHs2 _ _ C3); exact Z end.
      * exists (o, e'), [(o, e')]. split; [apply (IHs1 _ _ C1); auto|]. split; [|left; auto]. destruct o; simpl; auto; contradiction.
  - simpl in D. destruct (coll n s1 e0) as [l|] eqn:C1; [|discriminate]. destruct (coll n s2 e0) as [m|] eqn:C2; [|discriminate].
    injection D as <-. rewrite in_dd, in_app_iff, (IHs1 _ _ C1), (IHs2 _ _ C2). split.
    + intros [H|H]; [apply XIf1 | apply XIf2]; auto.
    + intros X; inversion X; subst; auto.
  - cbn [coll] in D. destruct (work n (coll n s) [e0] []) as [acc|] eqn:W; [|discriminate]. injection D as <-.
    rewrite in_dd, in_flat_map.
    destruct (work_spec s (coll n s) IHs e0 _ _ _ _ W) as (R1 & R2 & R3).
    { intros ? ? []. } { intros z [<-|[]]. constructor. } { intros ? ? ? []. }
    split.
    + intros ([e1 r1] & A & B). destruct (R1 _ _ A) as [F1 S1]. eapply while_star; [exact S1|]. destruct B as [B|B].
      * simpl in B. injection B as <- <-. constructor.
      * apply in_flat_map in B. destruct B as ([o1 e2] & B & G). eapply leaves_exec; [apply (IHs _ _ F1); exact B | exact G].
    + intros X. destruct (while_inv _ _ _ _ X _ eq_refl) as (e1 & S1 & H).
      assert (K : exists r, In (e1, r) acc).
      { assert (G : forall a c, star s a c -> (exists r, In (a, r) acc) -> exists r, In (c, r) acc).
        { induction 1 as [|a o1 c d Y G S2 IH]; intros [ra I]; eauto. apply IH. apply (R2 a ra c I).
          apply in_nexts. exists o1. split; auto. apply (IHs _ _ (proj1 (R1 _ _ I))). auto. }
        apply (G e0 e1 S1). apply R3. right. left. auto. }
      destruct K as [r1 K]. exists (e1, r1). split; auto. destruct H as [[-> ->] | (o1 & H & L1)]; [left; auto | right].
      apply in_flat_map. exists (o1, e'). split; auto. apply (IHs _ _ (proj1 (R1 _ _ K))). auto.
  - injection D as <-. split; [intros [H|[]]; injection H as <- <-; constructor | intros X; inversion X; subst; simpl; auto].
  - injection D as <-. split; [intros [H|[]]; injection H as <- <-; constructor | intros X; inversion X; subst; simpl; auto].
  - injection D as <-. split; [intros [H|[]]; injection H as <- <-; constructor | intros X; inversion X; subst; simpl; auto].
Qed.
