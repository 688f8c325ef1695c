(** * The dtypes of the arrays and scalars of the [solve] methods.

    A name denotes the kind of an array or of a scalar ([DInt], [DFloat], [DComplex] of LinopModel.v);
    values are forgotten.  An assignment [x = e] gives [x] the kind of [e]; an in-place statement
    [x += e], [x *= e], [x /= e] raises TypeError unless the kind of the result can be cast to the kind of
    [x] by numpy's rule same_kind (numpy 1.10 and later).  The modules do not import the new division,
    so the quotient of two integers is an integer.  A conditional on data may take either branch and a
    loop may run any number of times; conditionals on the arguments (is there a preconditioner, a
    guess) are decided when the program is built. *)
From Coq Require Import List Bool Arith.
From Verif Require Import LinopModel.
Import ListNotations.

(** The names; [self_x_] is [self.x]. *)
Inductive var :=
  | rhs_ | self_x_ | x_ | r_ | y_ | ry_ | residNorm_ | p_ | Ap_ | pAp_ | alpha_ | ry_next_ | beta_
  | r0_ | rho_ | u_ | v_ | sigma_ | q_ | z_ | Az_ | rho_next_ | omega_ | s_ | t_ | w_ | d_ | theta_
  | eta_ | c_ | r1_ | beta1_ | oldb_ | dbar_ | epsln_ | phibar_ | cs_ | sn_ | w2_ | r2_ | alfa_
  | oldeps_ | delta_ | gbar_ | gamma_ | phi_ | denom_ | w1_ | Mu_ | Nv_ | dk_ | h_ | hbar_ | wbar_.
Definition vnum (x : var) : nat :=
  match x with
  | rhs_ => 0 | self_x_ => 1 | x_ => 2 | r_ => 3 | y_ => 4 | ry_ => 5 | residNorm_ => 6 | p_ => 7 | Ap_ => 8
  | pAp_ => 9 | alpha_ => 10 | ry_next_ => 11 | beta_ => 12 | r0_ => 13 | rho_ => 14 | u_ => 15 | v_ => 16
  | sigma_ => 17 | q_ => 18 | z_ => 19 | Az_ => 20 | rho_next_ => 21 | omega_ => 22 | s_ => 23 | t_ => 24
  | w_ => 25 | d_ => 26 | theta_ => 27 | eta_ => 28 | c_ => 29 | r1_ => 30 | beta1_ => 31 | oldb_ => 32
  | dbar_ => 33 | epsln_ => 34 | phibar_ => 35 | cs_ => 36 | sn_ => 37 | w2_ => 38 | r2_ => 39 | alfa_ => 40
  | oldeps_ => 41 | delta_ => 42 | gbar_ => 43 | gamma_ => 44 | phi_ => 45 | denom_ => 46 | w1_ => 47
  | Mu_ => 48 | Nv_ => 49 | dk_ => 50 | h_ => 51 | hbar_ => 52 | wbar_ => 53
  end.
Definition vall : list var := [
  rhs_; self_x_; x_; r_; y_; ry_; residNorm_; p_; Ap_; pAp_; alpha_; ry_next_; beta_; r0_; rho_; u_; v_;
  sigma_; q_; z_; Az_; rho_next_; omega_; s_; t_; w_; d_; theta_; eta_; c_; r1_; beta1_; oldb_; dbar_;
  epsln_; phibar_; cs_; sn_; w2_; r2_; alfa_; oldeps_; delta_; gbar_; gamma_; phi_; denom_; w1_; Mu_; Nv_;
  dk_; h_; hbar_; wbar_].
Lemma vnum_nth : forall x, nth (vnum x) vall rhs_ = x.
Proof. destruct x; reflexivity. Qed.
Definition var_beq (x y : var) : bool := Nat.eqb (vnum x) (vnum y).
Lemma var_beq_eq : forall x y, var_beq x y = true <-> x = y.
Proof.
  intros x y. unfold var_beq. rewrite Nat.eqb_eq. split; [|intros ->; auto].
  intros H. rewrite <- (vnum_nth x), H. apply vnum_nth.
Qed.
Definition denv := list (var * dtype).
Fixpoint get (e : denv) (x : var) : option dtype :=
  match e with [] => None | (y, k) :: e => if var_beq x y then Some k else get e x end.
Fixpoint set (e : denv) (x : var) (d : dtype) : denv :=
  match e with
  | [] => [(x, d)]
  | (y, k) :: e => if var_beq x y then (y, d) :: e else (y, k) :: set e x d
  end.

(** Kinds of expressions. *)
Inductive dexp :=
  | V (x : var)
  | L (d : dtype)               (* a literal, np.zeros(n, dtype) *)
  | J (a b : dexp)              (* + - * / and np.dot *)
  | Op (d : option dtype) (e : dexp)   (* product with an operator of dtype d; None: no operator *)
  | Sq (e : dexp)               (* np.sqrt *)
  | Ab (e : dexp)               (* abs *)
  | Fl (e : dexp).              (* math.sqrt, np.linalg.norm *)
Definition opj (d : option dtype) (k : dtype) : dtype := match d with Some d => result_type d k | None => k end.
Definition sqk (d : dtype) : dtype := match d with DInt => DFloat | d => d end.
Definition abk (d : dtype) : dtype := match d with DComplex => DFloat | d => d end.
Fixpoint kind (e : denv) (a : dexp) : option dtype :=
  match a with
  | V x => get e x
  | L d => Some d
  | J a b => match kind e a, kind e b with Some p, Some q => Some (result_type p q) | _, _ => None end
  | Op d a => option_map (opj d) (kind e a)
  | Sq a => option_map sqk (kind e a)
  | Ab a => option_map abk (kind e a)
  | Fl a => option_map (fun _ => DFloat) (kind e a)
  end.
(** np.can_cast(a, b, 'same_kind') *)
Definition can_cast (a b : dtype) : bool :=
  match a, b with DInt, _ | DFloat, DFloat | DFloat, DComplex | DComplex, DComplex => true | _, _ => false end.

Inductive stm :=
  | Skip
  | Set_ (x : var) (e : dexp)
  | Upd (x : var) (e : dexp)
  | Seq (a b : stm)
  | If (a b : stm)
  | While (b : stm)
  | Break | Continue | Return.
Inductive outc := Normal | Broke | Continued | Returned | CastError | NameError.

Inductive exec : stm -> denv -> outc -> denv -> Prop :=
  | XSkip : forall e, exec Skip e Normal e
  | XSet : forall x a d e, kind e a = Some d -> exec (Set_ x a) e Normal (set e x d)
  | XSetU : forall x a e, kind e a = None -> exec (Set_ x a) e NameError e
  | XUpd : forall x a d k e, kind e a = Some d -> get e x = Some k -> can_cast (result_type k d) k = true -> exec (Upd x a) e Normal e
  | XUpdC : forall x a d k e, kind e a = Some d -> get e x = Some k -> can_cast (result_type k d) k = false ->
      exec (Upd x a) e CastError e
  | XUpdU : forall x a e, kind e a = None \/ get e x = None -> exec (Upd x a) e NameError e
  | XSeq : forall a b e e1 o e2, exec a e Normal e1 -> exec b e1 o e2 -> exec (Seq a b) e o e2
  | XSeq1 : forall a b e o e1, exec a e o e1 -> o <> Normal -> exec (Seq a b) e o e1
  | XIf1 : forall a b e o e1, exec a e o e1 -> exec (If a b) e o e1
  | XIf2 : forall a b e o e1, exec b e o e1 -> exec (If a b) e o e1
  | XStop : forall b e, exec (While b) e Normal e
  | XIter : forall b e o e1 o2 e2, exec b e o e1 -> o = Normal \/ o = Continued ->
      exec (While b) e1 o2 e2 -> exec (While b) e o2 e2
  | XBroke : forall b e e1, exec b e Broke e1 -> exec (While b) e Normal e1
  | XLeft : forall b e o e1, exec b e o e1 -> o = Returned \/ o = CastError \/ o = NameError -> exec (While b) e o e1
  | XBreak : forall e, exec Break e Broke e
  | XContinue : forall e, exec Continue e Continued e
  | XReturn : forall e, exec Return e Returned e.

Fixpoint seqs (l : list stm) : stm := match l with [] => Skip | [a] => a | a :: l => Seq a (seqs l) end.
Definition when (l : list stm) : stm := If (seqs l) Skip.

(** A solver: what is always done before the loop, what is done besides when the loop is entered
    ([if not finished:]), the body of the loop, what follows. *)
Record dprog := mkdprog { d_pre : stm; d_first : stm; d_body : stm; d_post : stm }.
Definition whole (p : dprog) : stm :=
  Seq (d_pre p) (Seq (If (Seq (d_first p) (While (d_body p))) Skip) (d_post p)).
(** The start and two passes through the body. *)
Definition two_passes (p : dprog) : stm := Seq (d_pre p) (Seq (d_first p) (Seq (d_body p) (d_body p))).

(** Arguments: the dtypes of the operator and of the preconditioner (if any); is there a guess? *)
Section Krylov.
Variables (op : dtype) (P : option dtype) (guess : bool).
Definition given {A} (o : option A) (l : list stm) : list stm := match o with Some _ => l | None => [] end.
Definition astype : dexp := J (L op) (V rhs_).  (* np.result_type(self.op.dtype, rhs.dtype) *)
Definition results : stm := Set_ self_x_ (V x_).

(** cg.py:75-165. *)
Definition cg_dt : dprog := mkdprog
  (seqs ([
    Set_ x_ astype;                                               (* 75-77 *)
    Set_ r_ (V rhs_)]                                            (* 85 *)
    ++ (if guess then [Upd r_ (Op (Some op) (V x_))] else []) ++ [   (* 86-88 *)
    Set_ y_ (Op P (V r_));                                       (* 91-94 *)
    Set_ ry_ (J (V r_) (V y_));                                 (* 99 *)
    Set_ residNorm_ (Ab (Sq (V ry_)));                           (* 100 *)
    Set_ p_ (V r_)]))                                            (* 104 *)
  Skip
  (seqs [
    Set_ Ap_ (Op (Some op) (V p_));                              (* 115 *)
    Set_ pAp_ (J (V p_) (V Ap_));                               (* 117 *)
    when [Continue];                                               (* 119-124 *)
    Set_ alpha_ (J (V ry_) (V pAp_));                           (* 127 *)
    Upd x_ (J (V alpha_) (V p_));                               (* 130 *)
    Upd r_ (J (V alpha_) (V Ap_));                              (* 131 *)
    Set_ y_ (Op P (V r_));                                       (* 137-140 *)
    Set_ ry_next_ (J (V r_) (V y_));                            (* 146 *)
    Set_ beta_ (J (V ry_next_) (V ry_));                        (* 149 *)
    Upd p_ (V beta_); Upd p_ (V r_);                           (* 150-151 *)
    Set_ ry_ (V ry_next_);                                       (* 153 *)
    Set_ residNorm_ (Ab (Sq (V ry_)))])                          (* 154 *)
  results.

(** cgs.py:58-60, bicgstab.py:62-65, tfqmr.py:57-59. *)
Definition r0_dt : list stm :=
  [Set_ r0_ (V rhs_)] ++ (if guess then [Set_ r0_ (J (V rhs_) (Op (Some op) (V x_)))] else []).

(** cgs.py:53-123. *)
Definition cgs_dt : dprog := mkdprog
  (seqs ([Set_ x_ astype]                                         (* 53-55 *)
    ++ r0_dt ++ [                                                  (* 58-60 *)
    Set_ rho_ (J (V r0_) (V r0_));                              (* 62 *)
    Set_ residNorm_ (Ab (Sq (V rho_)))])) (* 63 *)
  (seqs [Set_ r_ (V r0_); Set_ u_ (V r0_); Set_ p_ (V r0_)])     (* 71-74 *)
  (seqs [
    Set_ y_ (Op P (V p_));                                       (* 78-81 *)
    Set_ v_ (Op (Some op) (V y_));                               (* 83 *)
    Set_ sigma_ (J (V r0_) (V v_));                             (* 84 *)
    Set_ alpha_ (J (V rho_) (V sigma_));                        (* 85 *)
    Set_ q_ (J (V u_) (J (V alpha_) (V v_)));                  (* 86 *)
    Set_ z_ (Op P (J (V u_) (V q_)));                           (* 88-91 *)
    Upd x_ (J (V alpha_) (V z_));                               (* 94 *)
    Set_ Az_ (Op (Some op) (V z_));                              (* 95 *)
    Upd r_ (J (V alpha_) (V Az_));                              (* 96 *)
    Set_ residNorm_ (Fl (V r_));                                 (* 99 *)
    when [Continue];                                               (* 101-103 *)
    Set_ rho_next_ (J (V r0_) (V r_));                          (* 105 *)
    Set_ beta_ (J (V rho_next_) (V rho_));                      (* 106 *)
    Set_ rho_ (V rho_next_);                                     (* 107 *)
    Set_ u_ (J (V r_) (J (V beta_) (V q_)));                   (* 108 *)
    Upd p_ (V beta_); Upd p_ (V q_); Upd p_ (V beta_); Upd p_ (V u_)])  (* 111-114 *)
  results.

(** bicgstab.py:56-151. *)
Definition bicgstab_dt : dprog := mkdprog
  (seqs ([Set_ x_ astype]                                         (* 56-58 *)
    ++ r0_dt ++ [                                                  (* 62-65 *)
    Set_ rho_ (L DFloat); Set_ alpha_ (L DFloat); Set_ omega_ (L DFloat);  (* 67 *)
    Set_ rho_next_ (J (V r0_) (V r0_));                         (* 68 *)
    Set_ residNorm_ (Ab (Sq (V rho_next_)))]))                     (* 69 *)
  (seqs [Set_ r_ (V r0_); Set_ p_ astype; Set_ v_ astype])     (* 80-83 *)
  (seqs [
    Set_ beta_ (J (V rho_next_) (J (V rho_) (J (V alpha_) (V omega_))));  (* 87 *)
    Set_ rho_ (V rho_next_);                                     (* 88 *)
    Upd p_ (V beta_);                                            (* 91 *)
    Upd p_ (J (V beta_) (J (V omega_) (V v_)));                (* 92 *)
    Upd p_ (V r_);                                               (* 93 *)
    Set_ q_ (Op P (V p_));                                       (* 96-99 *)
    Set_ v_ (Op (Some op) (V q_));                               (* 101 *)
    Set_ alpha_ (J (V rho_) (J (V r0_) (V v_)));               (* 103 *)
    Set_ s_ (J (V r_) (J (V alpha_) (V v_)));                  (* 104 *)
    Set_ residNorm_ (Fl (V s_));                                 (* 107 *)
    when [Upd x_ (J (V alpha_) (V q_)); Continue];              (* 111-114 *)
    when [Continue];                                               (* 116-118 *)
    Set_ z_ (Op P (V s_));                                       (* 120-123 *)
    Set_ t_ (Op (Some op) (V z_));                               (* 125 *)
    Set_ omega_ (J (J (V t_) (V s_)) (J (V t_) (V t_)));      (* 126 *)
    Set_ rho_next_ (J (V omega_) (J (V r0_) (V t_)));          (* 127 *)
    Set_ r_ (J (V s_) (J (V omega_) (V t_)));                  (* 130 *)
    Upd z_ (V omega_);                                           (* 135 *)
    Upd x_ (V z_);                                               (* 136 *)
    Upd x_ (J (V alpha_) (V q_));                               (* 137 *)
    Set_ residNorm_ (Fl (V r_));                                 (* 139 *)
    when [Continue]])                                              (* 143-145 *)
  results.

(** tfqmr.py:52-159. *)
Definition tfqmr_dt : dprog := mkdprog
  (seqs ([Set_ x_ astype]                                         (* 52-54 *)
    ++ r0_dt ++ [                                                  (* 57-59 *)
    Set_ rho_ (J (V r0_) (V r0_));                              (* 61 *)
    Set_ residNorm_ (Ab (Sq (V rho_)))]))                          (* 62 *)
  (seqs [Set_ y_ (V r0_); Set_ w_ (V r0_); Set_ d_ astype;    (* 70-73 *)
         Set_ theta_ (L DFloat); Set_ eta_ (L DFloat);           (* 74-75 *)
         Set_ z_ (Op P (V y_)); Set_ u_ (Op (Some op) (V z_)); Set_ v_ (V u_)])  (* 77-83 *)
  (let half := [                                                   (* 92-99 and 115-122 *)
      Upd w_ (J (V alpha_) (V u_));
      Upd d_ (J (V theta_) (J (V theta_) (J (V eta_) (V alpha_))));
      Upd d_ (V z_);
      Set_ theta_ (J (Fl (V w_)) (V residNorm_));
      Set_ c_ (J (L DFloat) (Sq (J (L DInt) (J (V theta_) (V theta_)))));
      Set_ residNorm_ (J (V residNorm_) (J (V theta_) (V c_)));
      Set_ eta_ (J (V c_) (J (V c_) (V alpha_)));
      Upd x_ (J (V eta_) (V d_))] in
   seqs ([
    Set_ sigma_ (J (V r0_) (V v_));                             (* 88 *)
    Set_ alpha_ (J (V rho_) (V sigma_))]                        (* 89 *)
    ++ half ++ [                                                   (* 92-99 *)
    when [Continue];                                               (* 101-103 *)
    Upd y_ (J (V alpha_) (V v_));                               (* 107 *)
    Set_ z_ (Op P (V y_)); Set_ u_ (Op (Some op) (V z_))]      (* 109-114 *)
    ++ half ++ [                                                   (* 115-122 *)
    when [Continue];                                               (* 123-125 *)
    Set_ rho_next_ (J (V r0_) (V w_));                          (* 128 *)
    Set_ beta_ (J (V rho_next_) (V rho_));                      (* 129 *)
    Set_ rho_ (V rho_next_);                                     (* 130 *)
    Upd y_ (V beta_); Upd y_ (V w_);                           (* 133-134 *)
    Upd v_ (V beta_); Upd v_ (V u_); Upd v_ (V beta_);       (* 137-139 *)
    Set_ z_ (Op P (V y_)); Set_ u_ (Op (Some op) (V z_));      (* 142-147 *)
    Upd v_ (V u_)]))                                             (* 150 *)
  results.

(** minres.py:115-410; [shift] the dtype of the shift.  The entries [dErr[i] = phi] are left out. *)
Definition minres_dt (shift : dtype) : dprog := mkdprog
  (seqs [
    Set_ x_ astype;                                               (* 135-136 *)
    Set_ r1_ (V rhs_);                                           (* 161 *)
    Set_ y_ (Op P (V rhs_));                                     (* 162-165 *)
    Set_ beta1_ (J (V rhs_) (V y_));                            (* 166 *)
    when [Set_ beta1_ (Sq (V beta1_))];                          (* 180-181 *)
    Set_ oldb_ (L DFloat); Set_ beta_ (V beta1_); Set_ dbar_ (L DFloat); Set_ epsln_ (L DFloat);  (* 202 *)
    Set_ phibar_ (V beta1_);                                     (* 203 *)
    Set_ cs_ (L DFloat); Set_ sn_ (L DFloat);                    (* 205 *)
    Set_ w_ astype; Set_ w2_ astype; Set_ r2_ (V r1_)])        (* 206-208 *)
  Skip
  (seqs [
    Set_ s_ (J (L DFloat) (V beta_));                            (* 236 *)
    Set_ v_ (J (V s_) (V y_));                                  (* 237 *)
    Set_ y_ (Op (Some op) (V v_));                               (* 239 *)
    Upd y_ (J (L shift) (V v_));                                 (* 240 *)
    when [Set_ y_ (J (V y_) (J (V beta_) (J (V oldb_) (V r1_))))];  (* 242-243 *)
    Set_ alfa_ (J (V v_) (V y_));                               (* 245 *)
    Set_ y_ (J (J (V alfa_) (J (V beta_) (V r2_))) (V y_));   (* 246 *)
    Set_ r1_ (V r2_); Set_ r2_ (V y_);                         (* 247-248 *)
    Set_ y_ (Op P (V r2_));                                      (* 249 *)
    Set_ oldb_ (V beta_);                                        (* 250 *)
    Set_ beta_ (J (V r2_) (V y_));                              (* 251 *)
    when [Break];                                                  (* 252-254 *)
    Set_ beta_ (Sq (V beta_));                                   (* 255 *)
    Set_ oldeps_ (V epsln_);                                     (* 270 *)
    Set_ delta_ (J (J (V cs_) (V dbar_)) (J (V sn_) (V alfa_)));  (* 271 *)
    Set_ gbar_ (J (J (V sn_) (V dbar_)) (J (V cs_) (V alfa_)));   (* 272 *)
    Set_ epsln_ (J (V sn_) (V beta_));                          (* 277 *)
    Set_ dbar_ (J (V cs_) (V beta_));                           (* 278 *)
    If (Set_ gamma_ (Sq (J (V gbar_) (V beta_)))) (Set_ gamma_ (L DFloat));  (* 284-285 *)
    Set_ cs_ (J (V gbar_) (V gamma_));                          (* 286 *)
    Set_ sn_ (J (V beta_) (V gamma_));                          (* 287 *)
    Set_ phi_ (J (V cs_) (V phibar_));                          (* 288 *)
    Set_ phibar_ (J (V sn_) (V phibar_));                       (* 289 *)
    Set_ denom_ (J (L DFloat) (V gamma_));                       (* 293 *)
    Set_ w1_ (V w2_); Set_ w2_ (V w_);                         (* 294-295 *)
    Set_ w_ (J (J (V v_) (J (J (V oldeps_) (V w1_)) (J (V delta_) (V w2_)))) (V denom_));  (* 296 *)
    Upd x_ (J (V phi_) (V w_));                                 (* 297 *)
    when [Break]])                                                 (* 381 *)
  results.
End Krylov.

(** The least-squares solvers, when the first [beta] is positive; [op]: dtype of A, [M], [N]: of the
    preconditioners. *)
Section Ls.
Variables (op : dtype) (M N : option dtype).
(** lsqr.py:189-209, lsmr.py:211-233, craig.py:213-233, craigmr.py:76-98; [a]: is the first [alpha] positive? *)
Definition ls_start (a : bool) : list stm := [
  Set_ u_ (Op M (V Mu_));
  Set_ beta_ (Fl (J (V u_) (V Mu_)));
  Upd u_ (V beta_)] ++ given M [Upd Mu_ (V beta_)] ++ [
  Set_ Nv_ (Op (Some op) (V u_));
  Set_ v_ (Op N (V Nv_));
  Set_ alpha_ (Fl (J (V v_) (V Nv_)))]
  ++ (if a then [Upd v_ (V alpha_)] ++ given N [Upd Nv_ (V alpha_)] else []).
(** lsqr.py:252-272, lsmr.py:311-332, craig.py:302-329, craigmr.py:136-157. *)
Definition ls_step : list stm := [
  Set_ Mu_ (J (Op (Some op) (V v_)) (J (V alpha_) (V Mu_)));
  Set_ u_ (Op M (V Mu_));
  Set_ beta_ (Fl (J (V u_) (V Mu_)));
  when ([Upd u_ (V beta_)] ++ given M [Upd Mu_ (V beta_)] ++ [
    Set_ Nv_ (J (Op (Some op) (V u_)) (J (V beta_) (V Nv_)));
    Set_ v_ (Op N (V Nv_));
    Set_ alpha_ (Fl (J (V v_) (V Nv_)));
    when ([Upd v_ (V alpha_)] ++ given N [Upd Nv_ (V alpha_)])])].

(** lsqr.py:180-442.  When the first [alpha] is zero the loop is skipped (213-217, 243), so it is taken
    to be positive.  The scalars of the rotations come from math.sqrt: [L DFloat]. *)
Definition lsqr_dt : dprog := mkdprog
  (seqs ([Set_ x_ (L DFloat);                                     (* 180 *)
    Set_ Mu_ (V rhs_); Set_ alpha_ (L DFloat)]                  (* 188, 194 *)
    ++ ls_start true ++ [                                          (* 189-209 *)
    Set_ w_ (V v_)]))                                            (* 210 *)
  Skip
  (seqs (ls_step ++ [                                              (* 252-272 *)
    Set_ dk_ (J (L DFloat) (V w_));                              (* 299 *)
    Upd x_ (J (L DFloat) (V w_));                                (* 301 *)
    Upd w_ (L DFloat); Upd w_ (V v_);                           (* 302 *)
    when [Break]]))                                                (* 413 *)
  results.                                                         (* 442 *)

(** lsmr.py:210-492.  When the first [alpha] is zero the method returns early (283-287), so it is taken
    to be positive. *)
Definition lsmr_dt : dprog := mkdprog
  (seqs ([Set_ Mu_ (V rhs_);                                     (* 210 *)
    Set_ v_ (L DFloat); Set_ alpha_ (L DInt)]                    (* 217-218 *)
    ++ ls_start true ++ [                                          (* 211-233 *)
    Set_ h_ (V v_); Set_ hbar_ (L DFloat); Set_ x_ (L DFloat)]))  (* 245-247 *)
  Skip
  (seqs (ls_step ++ [                                              (* 311-332 *)
    Set_ hbar_ (J (V h_) (J (L DFloat) (V hbar_)));             (* 359 *)
    Set_ x_ (J (V x_) (J (L DFloat) (V hbar_)));                (* 360 *)
    Set_ h_ (J (V v_) (J (L DFloat) (V h_)));                   (* 361 *)
    when [Break]]))                                                (* 475 *)
  results.                                                         (* 491 *)

(** craig.py:205-507. *)
Definition craig_dt (a : bool) : dprog := mkdprog
  (seqs ([Set_ r_ (L DFloat); Set_ x_ (L DFloat);                (* 205-206 *)
    Set_ Mu_ (V rhs_); Set_ alpha_ (L DFloat)]                  (* 212, 218 *)
    ++ ls_start a ++ [                                             (* 213-233 *)
    Set_ d_ (J (V u_) (L DFloat)); Set_ r_ (J (L DFloat) (V d_));  (* 248, 250 *)
    Set_ w_ (J (L DFloat) (V v_)); Set_ wbar_ (J (L DFloat) (V v_));  (* 259-260 *)
    Set_ x_ (J (L DFloat) (V w_))]))                             (* 261 *)
  Skip
  (seqs (ls_step ++ [                                              (* 302-329 *)
    Set_ d_ (J (J (V u_) (J (L DFloat) (V d_))) (L DFloat));    (* 347 *)
    Upd r_ (J (L DFloat) (V d_));                                (* 349 *)
    Upd wbar_ (L DFloat);                                         (* 357 *)
    Set_ w_ (J (J (L DFloat) (V v_)) (J (L DFloat) (V wbar_))); (* 358 *)
    Upd wbar_ (L DFloat); Upd wbar_ (J (L DFloat) (V v_));      (* 359-360 *)
    Upd x_ (J (L DFloat) (V w_));                                (* 361 *)
    when [Break]]))                                                (* 478 *)
  results.                                                         (* 507 *)

(** craigmr.py:75-238. *)
Definition craigmr_dt (a : bool) : dprog := mkdprog
  (seqs ([Set_ Mu_ (V rhs_);                                     (* 75 *)
    Set_ v_ (L DFloat); Set_ alpha_ (L DInt)]                    (* 82-83 *)
    ++ ls_start a ++ [                                             (* 76-98 *)
    Set_ d_ (J (V u_) (L DFloat)); Set_ dbar_ (L DFloat); Set_ x_ (L DFloat)]))  (* 110-112 *)
  Skip
  (seqs (ls_step ++ [                                              (* 136-157 *)
    Set_ dbar_ (J (J (V d_) (J (L DFloat) (V dbar_))) (L DFloat));  (* 181 *)
    Set_ d_ (J (J (V u_) (J (L DFloat) (V d_))) (L DFloat));    (* 191 *)
    Upd x_ (J (L DFloat) (V dbar_));                             (* 192 *)
    when [Break]]))                                                (* 212 *)
  results.                                                         (* 238 *)
End Ls.
