(** * Passing arguments in Python, the constructors of pykrylov/generic/generic.py and of
      [StructuredLBFGSOperator] (pykrylov/linop/lbfgs.py).

    Argument values are abstract; what matters is which parameter receives which value and
    which calls raise TypeError. *)
From Coq Require Import List String QArith Bool Arith.
From Verif Require Import Base.
Import ListNotations.
Local Open Scope string_scope.

Section PyCall.
Variable val : Type.
Definition dict := list (string * val).

Fixpoint lookup (k : string) (d : dict) : option val :=
  match d with
  | [] => None
  | (k', v) :: d => if String.eqb k k' then Some v else lookup k d
  end.

(** [d.get(k, default)] *)
Definition get (d : dict) (k : string) (default : val) : val :=
  match lookup k d with Some v => v | None => default end.

(** A parameter list [p1, ..., pk = d, ...] followed by [**kwargs]. *)
Definition params := list (string * option val).

(** The call rule of Python for a function with parameters [ps] and [**kwargs]: positional
    arguments fill the parameters from the left; each keyword naming a parameter fills it,
    unless it is already filled; the other keywords go to [kwargs]; parameters left over get
    their default value. *)
Fixpoint fill (ps : params) (pos : list val) : res (dict * params) :=
  match pos, ps with
  | [], _ => Ok ([], ps)
  | _ :: _, [] => Err TypeError
  | v :: pos, (p, _) :: ps => rmap (fun r => ((p, v) :: fst r, snd r)) (fill ps pos)
  end.

Fixpoint named (ps : params) (kw : dict) : res dict :=
  match ps with
  | [] => Ok []
  | (p, d) :: ps =>
      match lookup p kw, d with
      | Some v, _ | None, Some v => rmap (fun r => (p, v) :: r) (named ps kw)
      | None, None => Err TypeError
      end
  end.

Definition is_some {A : Type} (o : option A) : bool := match o with Some _ => true | None => false end.

Definition call (ps : params) (pos : list val) (kw : dict) : res (dict * dict) :=
  rbind (fill ps pos) (fun '(env, rest) =>
    if existsb (fun p => is_some (lookup (fst p) kw)) env then Err TypeError   (* multiple values *)
    else rbind (named rest kw) (fun env2 =>
      Ok ((env ++ env2)%list,
          filter (fun p => negb (existsb (fun q => String.eqb (fst p) (fst q)) ps)) kw))).

(** ** pykrylov/linop/lbfgs.py *)
Variable five : val.                                       (* the default of [npairs] *)

(** lbfgs.py:25 and lbfgs.py:263: [def __init__(self, n, npairs=5, **kwargs)]. *)
Definition lbfgs_params : params := [("self", None); ("n", None); ("npairs", Some five)].

Section Ctor.
Variable obj : Type.
(** The body of [InverseLBFGSOperator.__init__], lbfgs.py:39-63 (see [lb_init]). *)
Variable inverse_body : dict -> dict -> res obj.
(** The rest of [StructuredLBFGSOperator.__init__], lbfgs.py:278-279. *)
Variable structured_rest : obj -> res obj.

Definition inverse_init (pos : list val) (kw : dict) : res obj :=
  rbind (call lbfgs_params pos kw) (fun '(env, kwargs) => inverse_body env kwargs).

(** lbfgs.py:277: [super(StructuredLBFGSOperator, self).__init__(self, n, npairs, **kwargs)];
    the bound method passes [self] a first time. *)
Definition structured_init (self : val) (pos : list val) (kw : dict) : res obj :=
  rbind (call lbfgs_params (self :: pos) kw) (fun '(env, kwargs) =>
    let n := get env "n" self in
    let npairs := get env "npairs" self in
    rbind (inverse_init [self; self; n; npairs] kwargs) structured_rest).
End Ctor.

(** ** pykrylov/generic/generic.py *)
Record kattrs := mkattrs {
  a_op : val; a_abstol : val; a_reltol : val; a_precon : val; a_logger : val;
  a_residNorm : val; a_residNorm0 : val; a_residHistory : list val;
  a_nMatvec : nat; a_nIter : nat; a_converged : bool; a_best : val; a_x : val }.

Variable flt : Q -> val.                                   (* a float *)
Variables (none null_log : val).

(** generic.py:65-87 *)
Definition km_init (op : val) (kw : dict) : kattrs :=
  let best := none in
  mkattrs op (get kw "abstol" (flt (1 # 100000000))) (get kw "reltol" (flt (1 # 1000000)))
          (get kw "precon" none) (get kw "logger" null_log)
          none none [] 0 0 false best best.

(** generic.py:65: [def __init__(self, op, **kwargs)]. *)
Definition km_call (self : val) (pos : list val) (kw : dict) : res kattrs :=
  rbind (call [("self", None); ("op", None)] (self :: pos) kw) (fun '(env, kwargs) =>
    Ok (km_init (get env "op" none) kwargs)).
End PyCall.
