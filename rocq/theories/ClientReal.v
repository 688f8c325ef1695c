(** * Operators of real dtype as maps between the spaces R^n of Num.v.

    [enc x] is the float64 array with the entries of [x]; [act n m f] the map from R^n to R^m that
    an operator acting as [f] on lists of complex numbers induces. *)
From Coq Require Import List ZArith Lia Bool Arith Reals Lra.
From Verif Require Import Base Num Field Vec LinopModel LinopFrame LinopGood LinopDep LinopOps LinopPtr PropLinop Cplx Client.
Import ListNotations.

Fixpoint tolist {n : nat} : rv n -> list R :=
  match n return rv n -> list R with
  | O => fun _ => []
  | S n => fun u => fst u :: tolist (snd u)
  end.
Fixpoint oflist (n : nat) (l : list R) : rv n :=
  match n return rv n with
  | O => tt
  | S n => (hd 0%R l, oflist n (tl l))
  end.
Definition emb {n : nat} (x : rv n) : list FCR := map (fun r => (r, 0%R)) (tolist x).
Definition enc {n : nat} (x : rv n) : arr FCR := mkarr DFloat (emb x).
Definition dec (n : nat) (y : arr FCR) : rv n := oflist n (map fst (adata y)).
Definition act (n m : nat) (f : list FCR -> list FCR) (x : rv n) : rv m := oflist m (map fst (f (emb x))).

Lemma tolist_len : forall n (x : rv n), length (tolist x) = n.
Proof. induction n; intro x; cbn; [reflexivity|]. rewrite IHn. reflexivity. Qed.
Lemma oflist_tolist : forall n (x : rv n), oflist n (tolist x) = x.
Proof. induction n; intro x; [destruct x; reflexivity|]. destruct x as [a x]. cbn. rewrite IHn. reflexivity. Qed.
Lemma tolist_oflist : forall n l, length l = n -> tolist (oflist n l) = l.
Proof.
  induction n; intros [|a l] H; try discriminate; [reflexivity|]. cbn. rewrite IHn; [reflexivity|]. now injection H.
Qed.
Lemma emb_len : forall n (x : rv n), length (emb x) = n.
Proof. intros. unfold emb. rewrite map_length. apply tolist_len. Qed.
Lemma emb_real : forall n (x : rv n), vreal (emb x).
Proof.
  intros n x. unfold vreal, vconj, emb. rewrite map_map. apply map_ext. intro r. cbn.
  f_equal. ring.
Qed.
Lemma real_fst : forall l : list FCR, vreal l -> map (fun r => (r, 0%R)) (map fst l) = l.
Proof.
  induction l as [|[a b] l IH]; intro H; [reflexivity|]. unfold vreal, vconj in H. cbn in H.
  injection H as Hb Hl. cbn. rewrite IH by exact Hl.
  assert (Z : b = 0%R) by (cbn in Hb; lra). rewrite Z. reflexivity.
Qed.
Lemma emb_inj : forall n (x y : rv n), emb x = emb y -> x = y.
Proof.
  intros n x y H. rewrite <- (oflist_tolist n x), <- (oflist_tolist n y).
  assert (E : map fst (emb x) = map fst (emb y)) by (rewrite H; reflexivity).
  unfold emb in E. rewrite !map_map in E. cbn in E. rewrite !map_id in E. rewrite E. reflexivity.
Qed.
Lemma emb_dot : forall n (x y : rv n), dot (emb x) (emb y) = (rvdot x y, 0%R).
Proof.
  induction n; intros x y; [reflexivity|]. destruct x as [a x], y as [b y].
  change (emb ((a, x) : rv (S n))) with ((a, 0%R) :: emb x).
  change (emb ((b, y) : rv (S n))) with ((b, 0%R) :: emb y).
  cbn [dot]. rewrite IHn. cbn. f_equal; ring.
Qed.

Section Act.
Variables (n m : nat) (f : list FCR -> list FCR).
Hypotheses (L : linmap n m f) (RM : real_map n f).

Lemma act_emb : forall x : rv n, emb (act n m f x) = f (emb x).
Proof.
  intro x. unfold act, emb at 1.
  assert (Rl : vreal (f (emb x))).
  { unfold vreal. rewrite <- RM by apply emb_len. rewrite emb_real. reflexivity. }
  rewrite tolist_oflist by (rewrite map_length; apply (lin_len _ _ _ L), emb_len).
  apply real_fst. exact Rl.
Qed.
End Act.

(** The transpose of an operator induces the adjoint map. *)
Lemma act_adjoint : forall n m f g, linmap n m f -> real_map n f -> linmap m n g -> real_map m g ->
  is_transpose n m f g -> @adjoint (Rn n) (Rn m) (act n m f) (act m n g).
Proof.
  intros n m f g Lf Rf Lg Rg T u v. cbn in u, v.
  specialize (T (emb v) (emb u) (emb_len _ _) (emb_len _ _)).
  rewrite <- (act_emb n m f Lf Rf), <- (act_emb m n g Lg Rg), !emb_dot in T.
  injection T as T. exact T.
Qed.

(** The induced map does not depend on more than the values of [f]. *)
Lemma act_ext : forall n m f g, (forall x, length x = n -> f x = g x) -> forall x : rv n, act n m f x = act n m g x.
Proof. intros n m f g E x. unfold act. rewrite E by apply emb_len. reflexivity. Qed.

Lemma dec_act : forall n m dt f (x : rv n),
  dec m (mkarr dt (f (adata (enc x)))) = act n m f x.
Proof. reflexivity. Qed.

(** A good operator of real dtype represents the induced map. *)
Lemma enc_ok : forall n (x : rv n), awf (enc x) /\ asize (enc x) = n.
Proof. intros n x. split; [intros _; apply emb_real|apply emb_len]. Qed.

Lemma GoodD_act : forall (s : st FCR) a n m dt f, GoodD s a n m dt f -> is_complex dt = false ->
  linmap n m f /\ real_map n f.
Proof.
  intros s a n m dt f G C. split; [|eapply GoodD_real; eauto].
  eapply denotes_lin. apply Good_den. exact (proj1 G).
Qed.

(** and its attribute T the adjoint. *)
Lemma GoodD_T : forall (s : st FCR) a n m dt f, GoodD s a n m dt f -> is_complex dt = false ->
  exists t g, attrT s a = Some t /\ GoodD s t m n dt g /\ @adjoint (Rn n) (Rn m) (act n m f) (act m n g).
Proof.
  intros s a n m dt f G C. destruct (Good_T _ _ _ _ _ (proj1 G)) as (t & g & Wt & Gt & Tr).
  assert (Gd : GoodD s t m n dt g).
  { split; [exact Gt|]. split; [eapply Dts_w; [apply G|exact Wt]|eapply Acy_w; [apply G|exact Wt]]. }
  exists t, g. split; [destruct Wt as (o & Ho & Ht); unfold attrT; now rewrite Ho|]. split; [exact Gd|].
  destruct (GoodD_act _ _ _ _ _ _ G C), (GoodD_act _ _ _ _ _ _ Gd C). apply act_adjoint; assumption.
Qed.
