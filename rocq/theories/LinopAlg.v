(** * Every operator-building call yields a Good object. *)
From Coq Require Import List ZArith Lia Bool Ring.
From Verif Require Import Base Field Vec LinopModel LinopFrame LinopGood LinopInit.
Import ListNotations.

Section Alg.
Context {F : Fld} (FOK : FldOK F).
Add Ring Kring2 : (fk_ring F FOK).
Notation st := (st F). Notation obj := (obj F). Notation M := (M F). Notation arr := (arr F).

(** which arguments give an operator whose T/H chains never hit None *)
Definition complete (sym herm : bool) (dt : dtype) (cT cH : option (clo F)) : bool :=
  sym || (if is_complex dt
          then match cT with Some _ => herm || match cH with Some _ => true | None => false end
                           | None => false end
          else herm || match cT, cH with None, None => false | _, _ => true end).

Record honest (s : st) (n m : nat) (c : clo F) (cT cH : option (clo F)) (sym herm : bool) (dt : dtype)
  (f fT fH : list F -> list F) : Prop := mkhonest {
  ho_f : linmap n m f; ho_fT : linmap m n fT; ho_fH : linmap m n fH;
  ho_tr : is_transpose n m f fT;
  ho_ad : is_adjoint n m f fH;
  ho_real : is_complex dt = false -> real_map n f;
  ho_c : cden s c n f;
  ho_cT : forall ct, cT = Some ct -> cden s ct m fT;
  ho_cH : forall ch, cH = Some ch -> cden s ch m fH;
  ho_sym : sym = true -> n = m /\ is_transpose n n f f;
  ho_herm : herm = true -> n = m /\ is_adjoint n n f f
}.

Lemma has_denotes : forall (s : st) a n m sy he dt c T H f,
  has s a n m sy he dt c T H -> linmap n m f -> (is_complex dt = false -> real_map n f) ->
  cden s c n f -> denotes s a n m f.
Proof.
  intros s a n m sy he dt c T H f (o & Ho & H1 & H2 & H3 & H4 & H5 & H6 & H7 & H8) L R C.
  subst. eapply (denotes_mk FOK); eauto.
Qed.

Lemma has_good1 : forall (s : st) (S : sset) a n m sy he dt c t h f g g',
  has s a n m sy he dt c (Some t) (Some h) -> denotes s a n m f ->
  (sy = true -> n = m /\ is_transpose n n f f) ->
  (he = true -> n = m /\ is_adjoint n n f f) ->
  S t m n g -> is_transpose n m f g -> S h m n g' -> is_adjoint n m f g' ->
  good1 s S a n m f.
Proof.
  intros s S a n m sy he dt c t h f g g' (o & Ho & H1 & H2 & H3 & H4 & H5 & H6 & H7 & H8)
    D Hs Hh St Tr Sh Ad.
  constructor; auto.
  - intros o' Ho'. rewrite Ho in Ho'. inversion Ho'; subst o'. rewrite H3. auto.
  - intros o' Ho'. rewrite Ho in Ho'. inversion Ho'; subst o'. rewrite H4. auto.
  - exists o, t, g. auto.
  - exists o, h, g'. auto.
Qed.


(** the finite sets used below *)
Definition inl (l : list (addr * nat * nat * (list F -> list F))) : sset :=
  fun a n m f => In (a, n, m, f) l.

Ltac mem := unfold inl; cbn; auto 8.
Lemma adj_self_T : forall n (f fT : list F -> list F), linmap n n f -> linmap n n fT ->
  is_transpose n n f fT -> is_transpose n n f f -> forall x, length x = n -> fT x = f x.
Proof.
  intros. apply (transpose_unique FOK n n f); auto. apply H0. apply H.
Qed.
Lemma adj_self_H : forall n (f fH : list F -> list F), linmap n n f -> linmap n n fH ->
  is_adjoint n n f fH -> is_adjoint n n f f -> forall x, length x = n -> fH x = f x.
Proof.
  intros n f fH L LH A A' x Hx.
  rewrite <- (conj_map_conj FOK fH x), <- (conj_map_conj FOK f x). unfold conj_map at 1 3.
  f_equal.
  apply (transpose_unique FOK n n f); auto using vconj_length.
  - intros. apply (conj_map_lin FOK n n); auto.
  - intros. apply (conj_map_lin FOK n n); auto.
  - now apply (adjoint_conj_transpose FOK).
  - now apply (adjoint_conj_transpose FOK).
  - now rewrite vconj_length.
Qed.

Theorem desc_good : forall (s : st) N n m c cT cH sym herm dt f fT fH,
  desc s N n m c cT cH sym herm dt -> complete sym herm dt cT cH = true ->
  honest s n m c cT cH sym herm dt f fT fH ->
  Good s N n m f.
Proof.
  intros s N n m c cT cH sym herm dt f fT fH D CP [Lf LT LH Tr Ad Rl Cf CT CH Sy He].
  unfold desc, complete in *.
  destruct (is_complex dt) eqn:Edt.
  - (* complex *)
    clear Rl.
    assert (Lq := conj_map_lin FOK _ _ _ Lf).
    destruct sym.
    + destruct (Sy eq_refl) as [E Sf]; subst m.
      destruct D as (q & HN & Hq & _).
      assert (DN : denotes s N n n f) by (eapply has_denotes; eauto; congruence).
      assert (Dq : denotes s q n n (conj_map f)).
      { eapply has_denotes; eauto; try congruence. eapply (cden_conjN); eauto. }
      exists (inl [(N,n,n,f); (q,n,n,conj_map f)]). split; [|now left].
      intros a n' m' g [Ha|[Ha|[]]]; inversion Ha; subst; clear Ha.
      * eapply has_good1 with (g := g) (g' := conj_map g); eauto; cbn.
        { mem. } { mem. }
        now apply (transpose_conj_adjoint FOK).
      * eapply has_good1 with (g := conj_map f) (g' := f); eauto; try discriminate; cbn.
        { mem. }
        { apply (conj_transpose_adjoint FOK). now apply (transpose_conj_adjoint FOK). }
        { mem. }
        { now apply (conj_adjoint_transpose FOK). }
    + destruct herm.
      * destruct (He eq_refl) as [E Af]; subst m.
        destruct cT as [ct|]; [|discriminate].
        destruct D as (t & q & HN & Hq & Ht & _).
        assert (DN : denotes s N n n f) by (eapply has_denotes; eauto; congruence).
        assert (Dq : denotes s q n n (conj_map f)).
        { eapply has_denotes; eauto; try congruence. eapply (cden_conjN); eauto. }
        assert (Dt : denotes s t n n fT) by (eapply has_denotes; eauto; congruence).
        assert (Tq : is_transpose n n f (conj_map f)) by now apply (adjoint_conj_transpose FOK).
        assert (EqT : forall x, length x = n -> fT x = conj_map f x).
        { apply (transpose_unique FOK n n f); auto; [apply LT | apply Lq]. }
        exists (inl [(N,n,n,f); (q,n,n,conj_map f); (t,n,n,fT)]). split; [|now left].
        intros a n' m' g [Ha|[Ha|[Ha|[]]]]; inversion Ha; subst; clear Ha.
        -- eapply has_good1 with (g := conj_map g) (g' := g); eauto; try discriminate; cbn.
           { mem. } { mem. }
        -- eapply has_good1 with (g := f) (g' := fT); eauto; try discriminate; cbn.
           { mem. }
           { now apply (conj_transpose_adjoint FOK). }
           { mem. }
           { now apply (conj_adjoint_transpose FOK). }
        -- eapply has_good1 with (g := f) (g' := conj_map f); eauto; try discriminate; cbn.
           { intros _. split; auto.
             eapply (is_adjoint_ext) with (f := conj_map f) (g := conj_map f).
             intros; now rewrite EqT. intros; now rewrite EqT.
             now apply (conj_adjoint_transpose FOK). }
           { mem. }
           { now apply (is_transpose_sym FOK). }
           { mem. }
           { apply (transpose_conj_adjoint FOK). now apply (is_transpose_sym FOK). }
      * destruct cT as [ct|]; [|discriminate]. destruct cH as [ch|]; [|discriminate].
        destruct D as (t & h & q & HN & Ht & Hh & Hq & _).
        assert (DN : denotes s N n m f) by (eapply has_denotes; eauto; congruence).
        assert (Dq : denotes s q n m (conj_map f)).
        { eapply has_denotes; eauto; try congruence. eapply (cden_conjN); eauto. }
        assert (Dt : denotes s t m n fT) by (eapply has_denotes; eauto; congruence).
        assert (Dh : denotes s h m n fH) by (eapply has_denotes; eauto; congruence).
        exists (inl [(N,n,m,f); (q,n,m,conj_map f); (t,m,n,fT); (h,m,n,fH)]). split; [|now left].
        intros a n' m' g [Ha|[Ha|[Ha|[Ha|[]]]]]; inversion Ha; subst; clear Ha.
        -- eapply has_good1 with (g := fT) (g' := fH); eauto; try discriminate; cbn.
           { mem. } { mem. }
        -- eapply has_good1 with (g := fH) (g' := fT); eauto; try discriminate; cbn.
           { mem. }
           { now apply (conj_transpose_adjoint FOK). }
           { mem. }
           { now apply (conj_adjoint_transpose FOK). }
        -- eapply has_good1 with (g := f) (g' := conj_map f); eauto; try discriminate; cbn.
           { mem. }
           { now apply (is_transpose_sym FOK). }
           { mem. }
           { apply (transpose_conj_adjoint FOK). now apply (is_transpose_sym FOK). }
        -- eapply has_good1 with (g := conj_map f) (g' := f); eauto; try discriminate; cbn.
           { mem. }
           { apply (adjoint_conj_transpose FOK). now apply (is_adjoint_sym FOK). }
           { mem. }
           { now apply (is_adjoint_sym FOK). }
  - (* real *)
    specialize (Rl eq_refl).
    assert (AdT : is_adjoint n m f fT) by (eapply (real_transpose_adjoint FOK); eauto).
    assert (TrH : is_transpose n m f fH) by (eapply (real_adjoint_transpose FOK); eauto).
    assert (RT : real_map m fT) by (eapply (real_transpose_real FOK) with (f := f); eauto; apply LT).
    assert (RH : real_map m fH) by (eapply (real_transpose_real FOK) with (f := f); eauto; apply LH).
    destruct sym, herm.
    + destruct (Sy eq_refl) as [E Sf]; subst m. destruct (He eq_refl) as [_ Af].
      assert (DN : denotes s N n n f) by (eapply has_denotes; eauto).
      exists (inl [(N,n,n,f)]). split; [|now left].
      intros a n' m' g [Ha|[]]; inversion Ha; subst; clear Ha.
      eapply has_good1 with (g := g) (g' := g); eauto; mem.
    + destruct (Sy eq_refl) as [E Sf]; subst m.
      assert (Af : is_adjoint n n f f) by (eapply (real_transpose_adjoint FOK); eauto).
      destruct cH as [ch|].
      * destruct D as (h & HN & Hh & _).
        assert (DN : denotes s N n n f) by (eapply has_denotes; eauto).
        assert (Dh : denotes s h n n fH) by (eapply has_denotes; eauto).
        assert (Eq : forall x, length x = n -> fH x = f x) by (eapply adj_self_H; eauto).
        assert (SH : is_transpose n n fH fH).
        { eapply is_transpose_ext with (f := f) (g := f); auto; intros; now rewrite Eq. }
        exists (inl [(N,n,n,f); (h,n,n,fH)]). split; [|now left].
        intros a n' m' g [Ha|[Ha|[]]]; inversion Ha; subst; clear Ha.
        -- eapply has_good1 with (g := g) (g' := fH); eauto; try discriminate; mem.
        -- eapply has_good1 with (g := g) (g' := f); eauto; try discriminate.
           { mem. } { mem. } now apply (is_adjoint_sym FOK).
      * assert (DN : denotes s N n n f) by (eapply has_denotes; eauto).
        exists (inl [(N,n,n,f)]). split; [|now left].
        intros a n' m' g [Ha|[]]; inversion Ha; subst; clear Ha.
        eapply has_good1 with (g := g) (g' := g); eauto; try discriminate; mem.
    + destruct (He eq_refl) as [E Af]; subst m.
      assert (Sf : is_transpose n n f f) by (eapply (real_adjoint_transpose FOK); eauto).
      destruct cT as [ct|].
      * destruct D as (h & HN & Hh & _).
        assert (DN : denotes s N n n f) by (eapply has_denotes; eauto).
        assert (Dh : denotes s h n n fT) by (eapply has_denotes; eauto).
        assert (Eq : forall x, length x = n -> fT x = f x) by (eapply adj_self_T; eauto).
        assert (SH : is_adjoint n n fT fT).
        { eapply is_adjoint_ext with (f := f) (g := f); auto; intros; now rewrite Eq. }
        exists (inl [(N,n,n,f); (h,n,n,fT)]). split; [|now left].
        intros a n' m' g [Ha|[Ha|[]]]; inversion Ha; subst; clear Ha.
        -- eapply has_good1 with (g := fT) (g' := g); eauto; try discriminate; mem.
        -- eapply has_good1 with (g := f) (g' := g); eauto; try discriminate.
           { mem. } { now apply (is_transpose_sym FOK). } { mem. }
      * assert (DN : denotes s N n n f) by (eapply has_denotes; eauto).
        exists (inl [(N,n,n,f)]). split; [|now left].
        intros a n' m' g [Ha|[]]; inversion Ha; subst; clear Ha.
        eapply has_good1 with (g := g) (g' := g); eauto; try discriminate; mem.
    + destruct cT as [ct|], cH as [ch|]; try discriminate.
      * destruct D as (t & h & HN & Ht & Hh & _).
        assert (DN : denotes s N n m f) by (eapply has_denotes; eauto).
        assert (Dt : denotes s t m n fT) by (eapply has_denotes; eauto).
        assert (Dh : denotes s h m n fH) by (eapply has_denotes; eauto).
        exists (inl [(N,n,m,f); (t,m,n,fT); (h,m,n,fH)]). split; [|now left].
        intros a n' m' g [Ha|[Ha|[Ha|[]]]]; inversion Ha; subst; clear Ha.
        -- eapply has_good1 with (g := fT) (g' := fH); eauto; try discriminate; mem.
        -- eapply has_good1 with (g := f) (g' := f); eauto; try discriminate.
           { mem. } { now apply (is_transpose_sym FOK). }
           { mem. } { now apply (is_adjoint_sym FOK). }
        -- eapply has_good1 with (g := f) (g' := f); eauto; try discriminate.
           { mem. } { now apply (is_transpose_sym FOK). }
           { mem. } { now apply (is_adjoint_sym FOK). }
      * destruct D as (t & HN & Ht & _).
        assert (DN : denotes s N n m f) by (eapply has_denotes; eauto).
        assert (Dt : denotes s t m n fT) by (eapply has_denotes; eauto).
        exists (inl [(N,n,m,f); (t,m,n,fT)]). split; [|now left].
        intros a n' m' g [Ha|[Ha|[]]]; inversion Ha; subst; clear Ha.
        -- eapply has_good1 with (g := fT) (g' := fT); eauto; try discriminate; mem.
        -- eapply has_good1 with (g := f) (g' := f); eauto; try discriminate.
           { mem. } { now apply (is_transpose_sym FOK). }
           { mem. } { now apply (is_adjoint_sym FOK). }
      * destruct D as (t & HN & Ht & _).
        assert (DN : denotes s N n m f) by (eapply has_denotes; eauto).
        assert (Dt : denotes s t m n fH) by (eapply has_denotes; eauto).
        exists (inl [(N,n,m,f); (t,m,n,fH)]). split; [|now left].
        intros a n' m' g [Ha|[Ha|[]]]; inversion Ha; subst; clear Ha.
        -- eapply has_good1 with (g := fH) (g' := fH); eauto; try discriminate; mem.
        -- eapply has_good1 with (g := f) (g' := f); eauto; try discriminate.
           { mem. } { now apply (is_transpose_sym FOK). }
           { mem. } { now apply (is_adjoint_sym FOK). }
Qed.
End Alg.
