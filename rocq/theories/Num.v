(** * Scalars, vectors and loops for the iterative solvers.

    The solver models (files CgModel, KrylovModel, ...) are written over two records of
    operations WITHOUT any law: [Scal] (what numpy scalars can do) and [Vs] (what numpy
    vectors can do).  A theorem stated for every [Scal] and every [Vs] therefore holds for
    IEEE floating point with NaN and infinities, for exact reals, for complex numbers,
    for anything.  Theorems about exact arithmetic instantiate the records with the reals
    ([exactK]) and an arbitrary real inner product space ([IPS], [exactV]). *)
From Coq Require Import List ZArith QArith Qreals Reals Lia Lra Bool.
From Verif Require Import Base.
Import ListNotations.

Record Scal := mkScal {
  sc : Type;
  s0 : sc; s1 : sc;
  slit : Q -> sc;                       (* a float literal such as 1.0e-8 *)
  sadd : sc -> sc -> sc; ssub : sc -> sc -> sc; smul : sc -> sc -> sc;
  sdiv : sc -> sc -> sc;                (* numpy division: total *)
  sneg : sc -> sc; ssqrt : sc -> sc; sabs : sc -> sc;
  sreal : sc -> sc; simag : sc -> sc;
  sltb : sc -> sc -> bool; sleb : sc -> sc -> bool; seqb : sc -> sc -> bool }.

Record Vs (K : Scal) := mkVs {
  vc : Type;
  vlen : vc -> nat;                     (* x.shape[0] *)
  vzeros : nat -> vc;
  vadd : vc -> vc -> vc; vsub : vc -> vc -> vc; vneg : vc -> vc;
  vscale : sc K -> vc -> vc;
  vdivs : vc -> sc K -> vc;             (* x / a, x /= a (numpy: total) *)
  vdot : vc -> vc -> sc K;              (* np.dot: no conjugation *)
  vnorm : vc -> sc K }.                 (* np.linalg.norm *)

Arguments s0 {_}. Arguments s1 {_}. Arguments slit {_} _.
Arguments sadd {_} _ _. Arguments ssub {_} _ _. Arguments smul {_} _ _.
Arguments sdiv {_} _ _. Arguments sneg {_} _. Arguments ssqrt {_} _.
Arguments sabs {_} _. Arguments sreal {_} _. Arguments simag {_} _.
Arguments sltb {_} _ _. Arguments sleb {_} _ _. Arguments seqb {_} _ _.
Arguments vc {_} _. Arguments vlen {_ _} _. Arguments vzeros {_ _} _.
Arguments vadd {_ _} _ _. Arguments vsub {_ _} _ _. Arguments vneg {_ _} _.
Arguments vscale {_ _} _ _. Arguments vdivs {_ _} _ _. Arguments vdot {_ _} _ _. Arguments vnorm {_ _} _.

(** Python [max(a, b)] returns [b] only if [b > a]; [min(a, b)] returns [b] only if [b < a]. *)
Definition pymax {K : Scal} (a b : sc K) : sc K := if sltb a b then b else a.
Definition pymin {K : Scal} (a b : sc K) : sc K := if sltb b a then b else a.

(** Python comparison [a > b], [a >= b]. *)
Definition sgtb {K : Scal} (a b : sc K) : bool := sltb b a.
Definition sgeb {K : Scal} (a b : sc K) : bool := sleb b a.

(** ** While loops.  [EFuel] marks "not finished within [fuel] rounds"; every theorem that
    asserts another outcome excludes it. *)
Fixpoint while {St : Type} (fuel : nat) (c : St -> bool) (body : St -> res St) (s : St)
  : res St :=
  match fuel with
  | O => Err EFuel
  | S f => if c s then match body s with Ok s' => while f c body s' | Err e => Err e end
           else Ok s
  end.

Section While.
Context {St : Type} (c : St -> bool) (body : St -> res St).

Lemma while_inv (I : St -> Prop) :
  (forall s s', I s -> c s = true -> body s = Ok s' -> I s') ->
  forall fuel s s', I s -> while fuel c body s = Ok s' -> I s' /\ c s' = false.
Proof.
  intros HI fuel. induction fuel as [|fuel IH]; intros s s' Is H; cbn in H; [discriminate|].
  destruct (c s) eqn:Ec.
  - destruct (body s) as [s1|e] eqn:Eb; [|discriminate].
    apply (IH s1); [|exact H]. apply (HI s); assumption.
  - injection H as <-. split; assumption.
Qed.

(** Termination: a natural-number measure that every round strictly decreases. *)
Lemma while_term (I : St -> Prop) (mu : St -> nat) :
  (forall s, I s -> c s = true ->
     exists s', body s = Ok s' /\ I s' /\ (mu s' < mu s)%nat) ->
  forall fuel s, I s -> (mu s < fuel)%nat -> exists s', while fuel c body s = Ok s'.
Proof.
  intros HB fuel. induction fuel as [|fuel IH]; intros s Is Hm; [lia|].
  cbn. destruct (c s) eqn:Ec; [|eauto].
  destruct (HB s Is Ec) as [s1 [E [I1 M1]]]. rewrite E.
  apply IH; [exact I1|lia].
Qed.

(** Termination when the body may raise. *)
Lemma while_term_err (I : St -> Prop) (mu : St -> nat) :
  (forall s, I s -> c s = true ->
     (exists s', body s = Ok s' /\ I s' /\ (mu s' < mu s)%nat) \/
     (exists e, body s = Err e /\ e <> EFuel)) ->
  forall fuel s, I s -> (mu s < fuel)%nat -> while fuel c body s <> Err EFuel.
Proof.
  intros HB fuel. induction fuel as [|fuel IH]; intros s Is Hm; [lia|].
  cbn. destruct (c s) eqn:Ec; [|discriminate].
  destruct (HB s Is Ec) as [[s1 [E [I1 M1]]]|[e [E Ne]]]; rewrite E.
  - apply IH; [exact I1|lia].
  - intro H. injection H as ->. congruence.
Qed.

(** More fuel never changes a finished run. *)
Lemma while_mono : forall f1 f2 s r,
  (f1 <= f2)%nat -> while f1 c body s = r -> r <> Err EFuel -> while f2 c body s = r.
Proof.
  induction f1 as [|f1 IH]; intros f2 s r Hle H Hne; cbn in H; [congruence|].
  destruct f2 as [|f2]; [lia|]. cbn.
  destruct (c s); [|exact H].
  destruct (body s); [|exact H].
  apply IH; [lia|exact H|exact Hne].
Qed.

(** Unrolling: a finished run is [k] successful rounds followed by a failing test. *)
Fixpoint rounds (k : nat) (s : St) : res St :=
  match k with
  | O => Ok s
  | S k => match rounds k s with
           | Ok s' => if c s' then body s' else Err EFuel
           | Err e => Err e
           end
  end.

Lemma rounds_shift : forall k s,
  rounds (S k) s = if c s then match body s with Ok s' => rounds k s' | Err e => Err e end
                   else Err EFuel.
Proof.
  induction k as [|k IH]; intro s.
  - cbn. destruct (c s); [|reflexivity]. destruct (body s); reflexivity.
  - cbn [rounds] in *. rewrite IH. destruct (c s); [|reflexivity].
    destruct (body s); reflexivity.
Qed.

Lemma while_rounds : forall fuel s s',
  while fuel c body s = Ok s' -> exists k, (k < fuel)%nat /\ rounds k s = Ok s' /\ c s' = false.
Proof.
  induction fuel as [|fuel IH]; intros s s' H; cbn in H; [discriminate|].
  destruct (c s) eqn:Ec.
  - destruct (body s) as [s1|e] eqn:Eb; [|discriminate].
    destruct (IH _ _ H) as [k [Hk [R C]]].
    exists (S k). split; [lia|]. split; [|exact C].
    rewrite rounds_shift, Ec, Eb. exact R.
  - injection H as <-. exists 0%nat. split; [lia|]. split; [reflexivity|exact Ec].
Qed.
End While.

(** ** Exact arithmetic. *)
Definition Rltb (a b : R) : bool := if Rlt_dec a b then true else false.
Definition Rleb (a b : R) : bool := if Rle_dec a b then true else false.
Definition Reqb (a b : R) : bool := if Req_EM_T a b then true else false.

Lemma Rltb_true : forall a b, Rltb a b = true <-> (a < b)%R.
Proof. intros a b. unfold Rltb. destruct (Rlt_dec a b); split; intro; try tauto; discriminate. Qed.
Lemma Rltb_false : forall a b, Rltb a b = false <-> (b <= a)%R.
Proof. intros a b. unfold Rltb. destruct (Rlt_dec a b); split; intro; try discriminate; try lra; reflexivity. Qed.
Lemma Rleb_true : forall a b, Rleb a b = true <-> (a <= b)%R.
Proof. intros a b. unfold Rleb. destruct (Rle_dec a b); split; intro; try tauto; discriminate. Qed.
Lemma Rleb_false : forall a b, Rleb a b = false <-> (b < a)%R.
Proof. intros a b. unfold Rleb. destruct (Rle_dec a b); split; intro; try discriminate; try lra; reflexivity. Qed.
Lemma Reqb_true : forall a b, Reqb a b = true <-> a = b.
Proof. intros a b. unfold Reqb. destruct (Req_EM_T a b); split; intro; try tauto; discriminate. Qed.
Lemma Reqb_false : forall a b, Reqb a b = false <-> a <> b.
Proof. intros a b. unfold Reqb. destruct (Req_EM_T a b); split; intro; try tauto; discriminate. Qed.

(** Exact real scalars.  [dv] is the division and [sq] the square root the machine would
    provide; theorems assume of them only what they state (typically: correct where defined,
    arbitrary elsewhere). *)
Definition exactK (dv : R -> R -> R) (sq : R -> R) : Scal :=
  mkScal R 0%R 1%R Q2R Rplus Rminus Rmult dv Ropp sq Rabs (fun x => x) (fun _ => 0%R)
         Rltb Rleb Reqb.

Definition dv_ok (dv : R -> R -> R) := forall a b, b <> 0%R -> dv a b = (a / b)%R.
Definition sq_ok (sq : R -> R) := forall a, (0 <= a)%R -> sq a = sqrt a.

(** A real inner product space (any dimension). *)
Record IPS := mkIPS {
  iv : Type;
  ilen : iv -> nat;
  izero : iv;
  iadd : iv -> iv -> iv;
  iscale : R -> iv -> iv;
  ip : iv -> iv -> R;
  ip_sym : forall u v, ip u v = ip v u;
  ip_add : forall w u v, ip w (iadd u v) = (ip w u + ip w v)%R;
  ip_scale : forall w a u, ip w (iscale a u) = (a * ip w u)%R;
  ip_zero : forall w, ip w izero = 0%R;
  ip_pos : forall u, (0 <= ip u u)%R;
  ip_ext : forall u v, (forall w, ip w u = ip w v) -> u = v }.
Arguments ilen {_} _. Arguments izero {_}. Arguments iadd {_} _ _. Arguments iscale {_} _ _.
Arguments ip {_} _ _. Arguments ip_sym {_} _ _. Arguments ip_add {_} _ _ _.
Arguments ip_scale {_} _ _ _. Arguments ip_zero {_} _. Arguments ip_pos {_} _.
Arguments ip_ext {_} _ _ _.

Definition ineg {E : IPS} (u : iv E) : iv E := iscale (-1)%R u.
Definition isub {E : IPS} (u v : iv E) : iv E := iadd u (ineg v).
Definition inorm {E : IPS} (u : iv E) : R := sqrt (ip u u).

(** Vectors of [E].  [nv] is [numpy.linalg.norm]; theorems about a solver whose decisions do not
    depend on it leave it arbitrary, all others use [exactVn], where it is the norm of [E]. *)
Definition exactVn (dv : R -> R -> R) (sq : R -> R) (E : IPS) (nv : iv E -> R) : Vs (exactK dv sq) :=
  mkVs (exactK dv sq) (iv E) ilen (fun _ => izero) iadd isub ineg iscale
    (fun v a => iscale (dv 1%R a) v) ip nv.
Notation exactV dv sq E := (exactVn dv sq E inorm).

Section IPSFacts.
Context {E : IPS}.
Implicit Types u v w : iv E.
Local Open Scope R_scope.

Lemma ip_neg : forall w u, ip w (ineg u) = - ip w u.
Proof. intros. unfold ineg. rewrite ip_scale. ring. Qed.
Lemma ip_sub : forall w u v, ip w (isub u v) = ip w u - ip w v.
Proof. intros. unfold isub. rewrite ip_add, ip_neg. ring. Qed.
Lemma ip_addl : forall w u v, ip (iadd u v) w = ip u w + ip v w.
Proof. intros. rewrite ip_sym, ip_add, !(ip_sym w). reflexivity. Qed.
Lemma ip_scalel : forall w a u, ip (iscale a u) w = a * ip u w.
Proof. intros. rewrite ip_sym, ip_scale, (ip_sym w). reflexivity. Qed.
Lemma ip_negl : forall w u, ip (ineg u) w = - ip u w.
Proof. intros. rewrite ip_sym, ip_neg, (ip_sym w). reflexivity. Qed.
Lemma ip_subl : forall w u v, ip (isub u v) w = ip u w - ip v w.
Proof. intros. rewrite ip_sym, ip_sub, !(ip_sym w). reflexivity. Qed.
Lemma ip_zerol : forall w, ip izero w = 0.
Proof. intros. rewrite ip_sym. apply ip_zero. Qed.

Lemma quad_nonneg : forall a b c, 0 <= a ->
  (forall t, 0 <= a * t * t + 2 * b * t + c) -> a = 0 -> b = 0.
Proof.
  intros a b c _ H ->.
  destruct (Req_dec b 0) as [|Hb]; [assumption|exfalso].
  specialize (H (- (c + 1) / (2 * b))). 
  replace (0 * (- (c + 1) / (2 * b)) * (- (c + 1) / (2 * b)) +
             2 * b * (- (c + 1) / (2 * b)) + c) with (-1) in H by (field; lra).
  lra.
Qed.

(** Definiteness follows from non-degeneracy and positivity. *)
Lemma ip_def : forall u, ip u u = 0 -> u = izero.
Proof.
  intros u H. apply ip_ext. intro w. rewrite ip_zero.
  apply (quad_nonneg (ip u u) (ip w u) (ip w w)); [apply ip_pos| |exact H].
  intro t.
  pose proof (ip_pos (iadd w (iscale t u))) as P.
  rewrite !ip_add, !ip_addl, !ip_scale, !ip_scalel in P.
  rewrite (ip_sym u w) in P. lra.
Qed.

Lemma ip_nz : forall u, u <> izero -> 0 < ip u u.
Proof.
  intros u H. destruct (ip_pos u) as [P|P]; [exact P|].
  exfalso. apply H. apply ip_def. auto.
Qed.

Lemma inorm_zero : forall u, inorm u = 0 -> u = izero.
Proof.
  intros u H. apply ip_def. apply sqrt_eq_0; [apply ip_pos|exact H].
Qed.
Lemma inorm_pos : forall u, 0 <= inorm u.
Proof. intro u. apply sqrt_pos. Qed.
Lemma inorm_sq : forall u, inorm u * inorm u = ip u u.
Proof. intro u. apply sqrt_sqrt, ip_pos. Qed.
Lemma inorm_neg : forall u, inorm (ineg u) = inorm u.
Proof. intro u. unfold inorm. rewrite ip_neg, ip_negl. f_equal. ring. Qed.
Lemma inorm_izero : inorm (@izero E) = 0.
Proof. unfold inorm. rewrite ip_zero. apply sqrt_0. Qed.

(** Cauchy-Schwarz and the triangle inequality. *)
Lemma cauchy : forall u v, ip u v * ip u v <= ip u u * ip v v.
Proof.
  intros u v. destruct (Req_dec (ip u u) 0) as [Z|NZ].
  - apply ip_def in Z. subst u. rewrite !ip_zerol. lra.
  - pose proof (ip_pos u) as Pu.
    pose proof (ip_pos (isub v (iscale (ip u v / ip u u) u))) as P.
    rewrite !ip_sub, !ip_subl, !ip_scale, !ip_scalel in P.
    rewrite (ip_sym v u) in P.
    assert (Q : 0 <= ip v v - ip u v * ip u v / ip u u).
    { replace (ip v v - ip u v * ip u v / ip u u) with
        (ip v v - ip u v / ip u u * ip u v -
         (ip u v / ip u u * ip u v - ip u v / ip u u * (ip u v / ip u u * ip u u)))
        by (field; exact NZ).
      exact P. }
    apply Rmult_le_compat_r with (r := ip u u) in Q; [|exact Pu].
    replace ((ip v v - ip u v * ip u v / ip u u) * ip u u) with
      (ip v v * ip u u - ip u v * ip u v) in Q by (field; exact NZ).
    lra.
Qed.

Lemma cauchy_norm : forall u v, ip u v <= inorm u * inorm v.
Proof.
  intros u v. unfold inorm. rewrite <- sqrt_mult by apply ip_pos.
  destruct (Rle_dec (ip u v) 0) as [N|P].
  - apply Rle_trans with 0; [exact N|apply sqrt_pos].
  - rewrite <- (sqrt_Rsqr (ip u v)) by lra. apply sqrt_le_1_alt. unfold Rsqr. apply cauchy.
Qed.

Lemma inorm_triangle : forall u v, inorm (iadd u v) <= inorm u + inorm v.
Proof.
  intros u v. apply Rsqr_incr_0.
  - unfold Rsqr. rewrite inorm_sq. rewrite ip_add, !ip_addl.
    rewrite (ip_sym v u). pose proof (cauchy_norm u v).
    pose proof (inorm_sq u). pose proof (inorm_sq v). nra.
  - apply inorm_pos.
  - pose proof (inorm_pos u). pose proof (inorm_pos v). lra.
Qed.

Lemma inorm_scale : forall a u, inorm (iscale a u) = Rabs a * inorm u.
Proof.
  intros a u. unfold inorm. rewrite ip_scale, ip_scalel, <- Rmult_assoc.
  rewrite sqrt_mult; [|nra|apply ip_pos]. f_equal. apply sqrt_Rsqr_abs.
Qed.
End IPSFacts.

(** Push an inner product through the vector operations. *)
Ltac ipx := repeat first
  [ rewrite ip_add | rewrite ip_sub | rewrite ip_neg | rewrite ip_scale | rewrite ip_zero
  | rewrite ip_addl | rewrite ip_subl | rewrite ip_negl | rewrite ip_scalel
  | rewrite ip_zerol ].
Ltac ipx_in H := repeat first
  [ rewrite ip_add in H | rewrite ip_sub in H | rewrite ip_neg in H | rewrite ip_scale in H
  | rewrite ip_zero in H
  | rewrite ip_addl in H | rewrite ip_subl in H | rewrite ip_negl in H
  | rewrite ip_scalel in H | rewrite ip_zerol in H ].
(** Prove a vector identity by testing it against an arbitrary vector. *)
Ltac veq := apply ip_ext; let w := fresh "w" in intro w; ipx; try ring.

(** Linear maps between inner product spaces. *)
Record lin {E1 E2 : IPS} (A : iv E1 -> iv E2) : Prop := mklin {
  lin_add : forall u v, A (iadd u v) = iadd (A u) (A v);
  lin_scale : forall a u, A (iscale a u) = iscale a (A u) }.

Section LinFacts.
Context {E1 E2 : IPS} (A : iv E1 -> iv E2) (L : lin A).
Lemma lin_neg : forall u, A (ineg u) = ineg (A u).
Proof. intro. apply (lin_scale A L). Qed.
Lemma lin_sub : forall u v, A (isub u v) = isub (A u) (A v).
Proof. intros. unfold isub. rewrite (lin_add A L), lin_neg. reflexivity. Qed.
Lemma lin_zero : A izero = izero.
Proof.
  assert (E : @izero E1 = iscale 0%R izero) by veq.
  rewrite E, (lin_scale A L). veq.
Qed.
End LinFacts.

Definition adjoint {E1 E2 : IPS} (A : iv E1 -> iv E2) (At : iv E2 -> iv E1) : Prop :=
  forall u v, ip u (A v) = ip (At u) v.

Lemma adjoint_lin : forall {E1 E2 : IPS} (A : iv E1 -> iv E2) At, adjoint A At -> lin A.
Proof.
  intros E1 E2 A At H. split; intros; apply ip_ext; intro w; ipx; rewrite !H; ipx; reflexivity.
Qed.
Lemma adjoint_lin_t : forall {E1 E2 : IPS} (A : iv E1 -> iv E2) At, adjoint A At -> lin At.
Proof.
  intros E1 E2 A At H. split; intros; apply ip_ext; intro w; rewrite (ip_sym w); rewrite <- H; ipx;
    rewrite !H, !(ip_sym _ w); reflexivity.
Qed.

Definition selfadj {E : IPS} (A : iv E -> iv E) : Prop := adjoint A A.
Definition posdef {E : IPS} (A : iv E -> iv E) : Prop :=
  forall u, u <> izero -> (0 < ip u (A u))%R.

(** ** Pairwise orthogonal families, and finite dimension. *)
Definition orthog {E : IPS} (l : list (iv E)) : Prop := ForallOrdPairs (fun u v => ip u v = 0%R) l.

(** [E] has dimension at most [n]: no [n+1] mutually orthogonal non-zero vectors. *)
Definition dim_le (E : IPS) (n : nat) : Prop :=
  forall l : list (iv E), orthog l -> Forall (fun u => u <> izero) l -> (length l <= n)%nat.

(** ** The Euclidean space R^n. *)
Fixpoint rv (n : nat) : Type := match n with O => unit | S n => (R * rv n)%type end.
Fixpoint rv0 (n : nat) : rv n :=
  match n return rv n with O => tt | S n => (0%R, rv0 n) end.
Fixpoint rvadd {n : nat} : rv n -> rv n -> rv n :=
  match n return rv n -> rv n -> rv n with
  | O => fun _ _ => tt | S n => fun u v => ((fst u + fst v)%R, rvadd (snd u) (snd v)) end.
Fixpoint rvscale {n : nat} (a : R) : rv n -> rv n :=
  match n return rv n -> rv n with
  | O => fun _ => tt | S n => fun u => ((a * fst u)%R, rvscale a (snd u)) end.
Fixpoint rvdot {n : nat} : rv n -> rv n -> R :=
  match n return rv n -> rv n -> R with
  | O => fun _ _ => 0%R | S n => fun u v => (fst u * fst v + rvdot (snd u) (snd v))%R end.

Section RnLaws.
Local Open Scope R_scope.
Lemma rvdot_sym : forall n (u v : rv n), rvdot u v = rvdot v u.
Proof. induction n; intros; cbn; [reflexivity|]. rewrite IHn. ring. Qed.
Lemma rvdot_add : forall n (w u v : rv n), rvdot w (rvadd u v) = rvdot w u + rvdot w v.
Proof. induction n; intros; cbn; [ring|]. rewrite IHn. ring. Qed.
Lemma rvdot_scale : forall n (w : rv n) a u, rvdot w (rvscale a u) = a * rvdot w u.
Proof. induction n; intros; cbn; [ring|]. rewrite IHn. ring. Qed.
Lemma rvdot_zero : forall n (w : rv n), rvdot w (rv0 n) = 0.
Proof. induction n; intros; cbn; [ring|]. rewrite IHn. ring. Qed.
Lemma rvdot_pos : forall n (u : rv n), 0 <= rvdot u u.
Proof. induction n; intros; cbn; [lra|]. specialize (IHn (snd u)). nra. Qed.
Lemma rvdot_ext : forall n (u v : rv n), (forall w, rvdot w u = rvdot w v) -> u = v.
Proof.
  induction n; intros u v H.
  - destruct u, v. reflexivity.
  - destruct u as [a u], v as [b v].
    f_equal.
    + specialize (H (1, rv0 n)). cbn in H.
      rewrite !(rvdot_sym n (rv0 n)), !rvdot_zero in H. lra.
    + apply IHn. intro w. specialize (H (0, w)). cbn in H. lra.
Qed.
End RnLaws.

Definition Rn (n : nat) : IPS :=
  mkIPS (rv n) (fun _ => n) (rv0 n) rvadd rvscale rvdot
    (rvdot_sym n) (rvdot_add n) (rvdot_scale n) (rvdot_zero n) (rvdot_pos n) (rvdot_ext n).

(** Bessel's inequality gives the dimension bound. *)
Section Bessel.
Local Open Scope R_scope.
Context {E : IPS}.

Fixpoint bsum (v : iv E) (l : list (iv E)) : R :=
  match l with
  | [] => 0
  | u :: t => ip v u * ip v u / ip u u + bsum v t
  end.

Fixpoint proj (v : iv E) (l : list (iv E)) : iv E :=
  match l with
  | [] => izero
  | u :: t => iadd (iscale (ip v u / ip u u) u) (proj v t)
  end.

Lemma proj_orth : forall v l u, Forall (fun w => ip u w = 0) l -> ip u (proj v l) = 0.
Proof.
  intros v l u H. induction H as [|w t Hw Ht IH]; cbn; ipx; [reflexivity|].
  rewrite Hw, IH. ring.
Qed.

Lemma proj_ip : forall v l, ip v (proj v l) = bsum v l.
Proof.
  intros v l. induction l as [|u t IH]; cbn; ipx; [reflexivity|]. rewrite IH. unfold Rdiv. ring.
Qed.

Lemma proj_self : forall v l, orthog l -> Forall (fun u => u <> izero) l ->
  ip (proj v l) (proj v l) = bsum v l.
Proof.
  intros v l O NZ. induction O as [|u t Hu Ht IH]; cbn; ipx; [reflexivity|].
  inversion NZ; subst. rewrite IH by assumption.
  rewrite (ip_sym (proj v t) u), (proj_orth v t u Hu).
  field. apply Rgt_not_eq, ip_nz. assumption.
Qed.

Lemma bessel : forall v l, orthog l -> Forall (fun u => u <> izero) l -> bsum v l <= ip v v.
Proof.
  intros v l O NZ. pose proof (ip_pos (isub v (proj v l))) as P. ipx_in P.
  rewrite (ip_sym (proj v l) v), proj_ip, (proj_self v l O NZ) in P. lra.
Qed.
End Bessel.

(** Coordinate vectors of R^n and Parseval. *)
Fixpoint basis (n : nat) : list (rv n) :=
  match n return list (rv n) with
  | O => []
  | S n => (1%R, rv0 n) :: map (fun u => (0%R, u)) (basis n)
  end.

Section DimRn.
Local Open Scope R_scope.
Definition rsum (l : list R) : R := fold_right Rplus 0 l.

Lemma basis_len : forall n, length (basis n) = n.
Proof. induction n; cbn; [reflexivity|]. rewrite map_length, IHn. reflexivity. Qed.

Lemma parseval : forall n (u : rv n),
  rsum (map (fun e => rvdot e u * rvdot e u) (basis n)) = rvdot u u.
Proof.
  induction n; intro u; cbn; [reflexivity|].
  rewrite map_map. cbn. rewrite rvdot_sym, rvdot_zero.
  rewrite <- (IHn (snd u)).
  replace (map (fun x => (0 * fst u + rvdot x (snd u)) * (0 * fst u + rvdot x (snd u))) (basis n))
    with (map (fun e => rvdot e (snd u) * rvdot e (snd u)) (basis n)).
  - unfold rsum. ring.
  - apply map_ext. intro a. ring.
Qed.

Lemma basis_unit : forall n e, In e (basis n) -> rvdot e e = 1.
Proof.
  induction n; intros e H; cbn in H; [tauto|].
  destruct H as [<-|H].
  - cbn. rewrite rvdot_zero. ring.
  - apply in_map_iff in H. destruct H as [u [<- Hu]]. cbn. rewrite (IHn u Hu). ring.
Qed.

Lemma rsum_plus : forall {X} (f g : X -> R) l,
  rsum (map (fun x => f x + g x) l) = rsum (map f l) + rsum (map g l).
Proof. intros X f g l. induction l; cbn; [ring|]. unfold rsum in *. rewrite IHl. ring. Qed.

Lemma rsum_scale : forall {X} (f : X -> R) a l,
  rsum (map (fun x => f x * a) l) = rsum (map f l) * a.
Proof. intros X f a l. induction l; cbn; [ring|]. unfold rsum in *. rewrite IHl. ring. Qed.

Lemma rsum_le : forall {X} (f : X -> R) c l, (forall x, In x l -> f x <= c) ->
  rsum (map f l) <= INR (length l) * c.
Proof.
  intros X f c l. induction l; intro H.
  - cbn. lra.
  - replace (INR (length (a :: l))) with (INR (length l) + 1) by (cbn [length]; rewrite S_INR; ring).
    cbn [map rsum fold_right]. specialize (IHl (fun x Hx => H x (or_intror Hx))).
    specialize (H a (or_introl eq_refl)). unfold rsum in IHl. lra.
Qed.

Lemma bsum_total : forall n (l : list (rv n)), Forall (fun u => u <> rv0 n) l ->
  rsum (map (fun e => @bsum (Rn n) e l) (basis n)) = INR (length l).
Proof.
  intros n l H. induction H as [|u t Hu Ht IH].
  - cbn. induction (basis n); cbn; [reflexivity|]. unfold rsum in *. rewrite IHl. ring.
  - replace (INR (length (u :: t))) with (1 + INR (length t)) by (cbn [length]; rewrite S_INR; ring).
    cbn [bsum]. rewrite rsum_plus, IH. f_equal.
    unfold Rdiv. rewrite rsum_scale.
    change (rsum (map (fun e : rv n => rvdot e u * rvdot e u) (basis n)) * / rvdot u u = 1).
    rewrite parseval. apply Rinv_r.
    apply Rgt_not_eq, (@ip_nz (Rn n)). exact Hu.
Qed.

Theorem Rn_dim : forall n, dim_le (Rn n) n.
Proof.
  intros n l O NZ. apply INR_le. change (INR (@length (rv n) l) <= INR n).
  rewrite <- (bsum_total n l NZ).
  eapply Rle_trans.
  - apply (rsum_le _ 1). intros e He.
    apply Rle_trans with (@ip (Rn n) e e).
    + apply bessel; assumption.
    + change (rvdot e e <= 1). rewrite (basis_unit n e He). lra.
  - change (INR (@length (rv n) (basis n)) * 1 <= INR n). rewrite basis_len. lra.
Qed.
End DimRn.
