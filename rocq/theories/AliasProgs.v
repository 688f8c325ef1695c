(** * The array statements of the [solve] methods, in the language of Alias.v.

    Each line of the Python text that creates, names, updates or passes an array is transcribed;
    scalar computations, tests, logging and printing are left out.  [_t], [_view], [_copy] name
    intermediate values that the Python text does not name.  Assignments of scalars to a name that
    also denotes an array are kept (lsqr.py:325 rebinds [rhs] to a number). *)
From Coq Require Import List String.
From Verif Require Import Alias.
Import ListNotations.
Open Scope string_scope.

(** [if precon is not None: y = precon * x  else: y = x]. *)
Definition precon_or (y x : var) : stmt := SIf (SProd y [x]) (SAlias y x).
(** [if store: self.list.append(x.copy())]. *)
Definition keep (x : var) : stmt := SIf (seq [SNew "_copy" [x]; SAppend "_copy"]) SSkip.
(** [if c: s]. *)
Definition when (l : list stmt) : stmt := SIf (seq l) SSkip.
(** tools/utils.py:63-85, [check_symmetric(op)]. *)
Definition check_symmetric : stmt :=
  SWhile (seq [SNew "_x" []; SProd "_w" ["_x"]; SProd "_r" ["_w"]; when [SBreak]]).
(** cg.py:77, cgs.py:55, bicgstab.py:58, tfqmr.py:54: [x = kwargs.get('guess', np.zeros(n)).astype(result_type)]. *)
Definition initial_guess : stmt := seq [SNew "_t" []; SIf (SNew "x" ["guess"]) (SNew "x" ["_t"])].
(** [self.bestSolution = self.x = x]. *)
Definition results : list stmt := [SAlias "self.bestSolution" "x"; SAlias "self.x" "x"].

(** cg.py:60-165. *)
Definition cg_prog : stmt := seq ([
  when [check_symmetric; when [SReturn]];                            (* 69-72 *)
  initial_guess;                                                     (* 77 *)
  keep "x";                                                          (* 79-80 *)
  SNew "r" ["rhs"];                                                  (* 85: -rhs *)
  when [SProd "_t" ["x"]; SUpd "r" ["_t"]];                          (* 86-87 *)
  precon_or "y" "r";                                                 (* 91-94 *)
  keep "y";                                                          (* 96-97 *)
  SNew "p" ["r"];                                                    (* 104 *)
  SWhile (seq [                                                      (* 113 *)
    SProd "Ap" ["p"];                                                (* 115 *)
    when [when [SAlias "self.infiniteDescent" "p"; SContinue]];      (* 119-124 *)
    SNew "_t" ["p"]; SUpd "x" ["_t"];                                (* 130 *)
    SNew "_t" ["Ap"]; SUpd "r" ["_t"];                               (* 131 *)
    keep "x";                                                        (* 133-134 *)
    precon_or "y" "r";                                               (* 137-140 *)
    keep "y";                                                        (* 142-143 *)
    SUpd "p" []; SUpd "p" ["r"]])]                                   (* 150-151 *)
  ++ results).                                                       (* 164 *)

(** cgs.py:49-123. *)
Definition cgs_prog : stmt := seq ([
  initial_guess;                                                     (* 55 *)
  SAlias "r0" "rhs";                                                 (* 58 *)
  when [SProd "_t" ["x"]; SNew "r0" ["rhs"; "_t"]];                  (* 59-60 *)
  when [SNew "r" ["r0"]; SAlias "u" "r0"; SNew "p" ["r0"]];          (* 71-74 *)
  SWhile (seq [                                                      (* 76 *)
    precon_or "y" "p";                                               (* 78-81 *)
    SProd "v" ["y"];                                                 (* 83 *)
    SNew "_t" ["v"]; SNew "q" ["u"; "_t"];                           (* 86 *)
    SNew "_t" ["u"; "q"]; precon_or "z" "_t";                        (* 88-91 *)
    SNew "_t" ["z"]; SUpd "x" ["_t"];                                (* 94 *)
    SProd "Az" ["z"];                                                (* 95 *)
    SNew "_t" ["Az"]; SUpd "r" ["_t"];                               (* 96 *)
    when [SContinue];                                                (* 101-103 *)
    SNew "_t" ["q"]; SNew "u" ["r"; "_t"];                           (* 108 *)
    SUpd "p" []; SUpd "p" ["q"]; SUpd "p" []; SUpd "p" ["u"]])]      (* 111-114 *)
  ++ results).                                                       (* 122 *)

(** bicgstab.py:52-151. *)
Definition bicgstab_prog : stmt := seq ([
  initial_guess;                                                     (* 58 *)
  SAlias "r0" "rhs";                                                 (* 62 *)
  when [SProd "_t" ["x"]; SNew "r0" ["rhs"; "_t"]];                  (* 63-65 *)
  when [SNew "r" ["r0"]; SNew "p" []; SNew "v" []];                  (* 80-83 *)
  SWhile (seq [                                                      (* 85 *)
    SUpd "p" []; SNew "_t" ["v"]; SUpd "p" ["_t"]; SUpd "p" ["r"];   (* 91-93 *)
    precon_or "q" "p";                                               (* 96-99 *)
    SProd "v" ["q"];                                                 (* 101 *)
    SNew "_t" ["v"]; SNew "s" ["r"; "_t"];                           (* 104 *)
    when [SNew "_t" ["q"]; SUpd "x" ["_t"]; SContinue];              (* 111-114 *)
    when [SContinue];                                                (* 116-118 *)
    precon_or "z" "s";                                               (* 120-123 *)
    SProd "t" ["z"];                                                 (* 125 *)
    SNew "_t" ["t"]; SNew "r" ["s"; "_t"];                           (* 130 *)
    SUpd "z" []; SUpd "x" ["z"]; SNew "_t" ["q"]; SUpd "x" ["_t"];   (* 135-137 *)
    when [SContinue]])]                                              (* 143-145 *)
  ++ results).                                                       (* 150 *)

(** tfqmr.py:48-159. *)
Definition tfqmr_prog : stmt := seq ([
  initial_guess;                                                     (* 54 *)
  SAlias "r0" "rhs";                                                 (* 57 *)
  when [SProd "_t" ["x"]; SNew "r0" ["rhs"; "_t"]];                  (* 58-59 *)
  when [SNew "y" ["r0"]; SNew "w" ["r0"]; SNew "d" [];               (* 70-73 *)
        precon_or "z" "y"; SProd "u" ["z"]; SNew "v" ["u"]];         (* 77-83 *)
  SWhile (seq [                                                      (* 85 *)
    SNew "_t" ["u"]; SUpd "w" ["_t"];                                (* 92 *)
    SUpd "d" []; SUpd "d" ["z"];                                     (* 93-94 *)
    SNew "_t" ["d"]; SUpd "x" ["_t"];                                (* 99 *)
    when [SContinue];                                                (* 101-103 *)
    SNew "_t" ["v"]; SUpd "y" ["_t"];                                (* 107 *)
    precon_or "z" "y"; SProd "u" ["z"];                              (* 109-114 *)
    SNew "_t" ["u"]; SUpd "w" ["_t"];                                (* 115 *)
    SUpd "d" []; SUpd "d" ["z"];                                     (* 116-117 *)
    SNew "_t" ["d"]; SUpd "x" ["_t"];                                (* 122 *)
    when [SContinue];                                                (* 123-125 *)
    SUpd "y" []; SUpd "y" ["w"];                                     (* 133-134 *)
    SUpd "v" []; SUpd "v" ["u"]; SUpd "v" [];                        (* 137-139 *)
    precon_or "z" "y"; SProd "u" ["z"];                              (* 142-147 *)
    SUpd "v" ["u"]])]                                                (* 150 *)
  ++ results).                                                       (* 158 *)

(** minres.py:115-410. *)
Definition minres_prog : stmt := seq ([
  SNew "x" []; SNew "dErr" [];                                       (* 136-138 *)
  keep "x";                                                          (* 141-142 *)
  SAlias "r1" "b";                                                   (* 161 *)
  SIf (SProd "y" ["b"]) (SNew "y" ["b"]);                            (* 162-165 *)
  when [check_symmetric];                                            (* 186-190 *)
  when [check_symmetric];                                            (* 193-197 *)
  SNew "w" []; SNew "w2" []; SNew "r2" ["r1"];                       (* 206-208 *)
  when [SWhile (seq [                                                (* 219-220 *)
    SNew "v" ["y"];                                                  (* 237 *)
    SProd "y" ["v"];                                                 (* 239 *)
    SNew "_t" ["v"]; SUpd "y" ["_t"];                                (* 240 *)
    when [SNew "_t" ["r1"]; SNew "y" ["y"; "_t"]];                   (* 242-243 *)
    SNew "_t" ["r2"]; SNew "y" ["_t"; "y"];                          (* 246 *)
    SNew "r1" ["r2"]; SNew "r2" ["y"];                               (* 247-248 *)
    when [SProd "y" ["r2"]];                                         (* 249 *)
    when [SBreak];                                                   (* 252-254 *)
    SNew "w1" ["w2"]; SNew "w2" ["w"];                               (* 294-295 *)
    SNew "w" ["v"; "w1"; "w2"];                                      (* 296 *)
    SNew "_t" ["w"]; SUpd "x" ["_t"];                                (* 297 *)
    keep "x";                                                        (* 299-300 *)
    SUpd "dErr" [];                                                  (* 304 *)
    when [SBreak]])]]                                                (* 381 *)
  ++ results).                                                       (* 397 *)

(** The bidiagonalisation shared by the lls solvers, e.g. lsqr.py:189-209 and 252-272 ([mid]: what lies between). *)
Definition bidiag_start (mid : list stmt) : list stmt := [precon_or "u" "Mu"] ++ mid ++ [
  when [SUpd "u" []; when [SUpd "Mu" []]; SProd "Nv" ["u"]; precon_or "v" "Nv"];
  when [SUpd "v" []; when [SUpd "Nv" []]] ].
Definition bidiag_step : list stmt := [
  SProd "_t" ["v"]; SNew "Mu" ["_t"; "Mu"]; precon_or "u" "Mu";
  when [SUpd "u" []; when [SUpd "Mu" []];
        SProd "_t" ["u"]; SNew "Nv" ["_t"; "Nv"]; precon_or "v" "Nv";
        when [SUpd "v" []; when [SUpd "Nv" []]]] ].

(** lsqr.py:139-454. *)
Definition lsqr_prog : stmt := seq ([
  SNew "var" [];                                                     (* 154-157 *)
  SNew "x" []; SNew "dErr" [];                                       (* 180-182 *)
  keep "x";                                                          (* 185-186 *)
  SAlias "_view" "rhs"; SNew "Mu" ["_view"]]                         (* 188: rhs[:m].copy() *)
  ++ bidiag_start [] ++ [                                               (* 189-209 *)
  when [SNew "w" ["v"]];                                             (* 210 *)
  SWhile (seq (bidiag_step ++ [                                      (* 243-272 *)
    SNew "dk" ["w"];                                                 (* 299 *)
    SNew "_t" ["w"]; SUpd "x" ["_t"];                                (* 301 *)
    SUpd "w" []; SUpd "w" ["v"];                                     (* 302 *)
    when [SNew "_t" ["dk"]; SUpd "var" ["_t"]];                      (* 304 *)
    keep "x";                                                        (* 306-307 *)
    SUpd "dErr" [];                                                  (* 311 *)
    SNew "rhs" [];                                                   (* 325: a number *)
    when [SBreak]]))]                                                (* 413 *)
  ++ results ++ [SAlias "self.var" "var"]).                          (* 442-453 *)

(** lsmr.py:169-492. *)
Definition lsmr_prog : stmt := seq ([
  SAlias "b" "b";                                                    (* 181: b.squeeze(), a view *)
  SNew "Mu" ["b"]]                                                    (* 210 *)
  ++ bidiag_start [SNew "v" []] ++ [                                               (* 211-233 *)
  SNew "h" ["v"]; SNew "hbar" []; SNew "x" [];                       (* 245-247 *)
  keep "x";                                                          (* 249-250 *)
  SNew "dErr" [];                                                    (* 271 *)
  when [SReturn];                                                    (* 284-287 *)
  SWhile (seq (bidiag_step ++ [                                      (* 303-332 *)
    SNew "_t" ["hbar"]; SNew "hbar" ["h"; "_t"];                     (* 359 *)
    SNew "_t" ["hbar"]; SNew "x" ["x"; "_t"];                        (* 360 *)
    SNew "_t" ["h"]; SNew "h" ["v"; "_t"];                           (* 361 *)
    keep "x";                                                        (* 363-364 *)
    SUpd "dErr" [];                                                  (* 367 *)
    when [SBreak]]));                                                (* 475 *)
  SAlias "self.x" "x"; SAlias "return" "x"]).                        (* 491-492 *)

(** craig.py:159-520. *)
Definition craig_prog : stmt := seq ([
  SNew "var" [];                                                     (* 178-181 *)
  SNew "r" []; SNew "x" []; SNew "dErr" [];                          (* 205-209 *)
  SAlias "_view" "rhs"; SNew "Mu" ["_view"]]                         (* 212 *)
  ++ bidiag_start [] ++ [                                               (* 213-233 *)
  SNew "d" ["u"]; SNew "r" ["d"];                                    (* 248-250 *)
  SNew "w" ["v"]; SNew "wbar" ["v"]; SNew "x" ["w"];                 (* 259-261 *)
  SIf (seq [SNew "_copy" ["x"]; SAppend "_copy"; SNew "_copy" ["r"]; SAppend "_copy"]) SSkip; (* 271-273 *)
  SWhile (seq (bidiag_step ++ [                                      (* 293-329 *)
    SNew "_t" ["d"]; SNew "d" ["u"; "_t"];                           (* 347 *)
    SNew "_t" ["d"]; SUpd "r" ["_t"];                                (* 349 *)
    SUpd "wbar" [];                                                  (* 357 *)
    SNew "_t" ["wbar"]; SNew "w" ["v"; "_t"];                        (* 358 *)
    SUpd "wbar" []; SNew "_t" ["v"]; SUpd "wbar" ["_t"];             (* 359-360 *)
    SNew "_t" ["w"]; SUpd "x" ["_t"];                                (* 361 *)
    SIf (seq [SNew "_copy" ["x"]; SAppend "_copy"; SNew "_copy" ["r"]; SAppend "_copy"]) SSkip; (* 363-365 *)
    SUpd "dErr" [];                                                  (* 373 *)
    when [SBreak]]))]                                                (* 478 *)
  ++ results ++ [SAlias "self.r" "r"]).                              (* 507-508 *)

(** craigmr.py:54-250. *)
Definition craigmr_prog : stmt := seq ([
  SAlias "b" "b";                                                    (* 63: b.squeeze(), a view *)
  SNew "Mu" ["b"]]                                                    (* 75 *)
  ++ bidiag_start [SNew "v" []] ++ [                                               (* 76-98 *)
  SNew "d" ["u"]; SNew "dbar" []; SNew "x" [];                       (* 110-112 *)
  keep "x";                                                          (* 114-115 *)
  SNew "dErr" [];                                                    (* 118 *)
  SWhile (seq (bidiag_step ++ [                                      (* 128-157 *)
    SNew "_t" ["dbar"]; SNew "dbar" ["d"; "_t"];                     (* 181 *)
    SNew "_t" ["d"]; SNew "d" ["u"; "_t"];                           (* 191 *)
    SNew "_t" ["dbar"]; SUpd "x" ["_t"];                             (* 192 *)
    keep "x";                                                        (* 194-195 *)
    SUpd "dErr" [];                                                  (* 202 *)
    when [SBreak]]))]                                                (* 212 *)
  ++ results).                                                       (* 238 *)

(** symmlq.py:85-400. *)
Definition symmlq_prog : stmt := seq ([
  SNew "w" []; SNew "x" []; SNew "v" [];                             (* 118-120 *)
  keep "x";                                                          (* 122-123 *)
  SNew "r1" ["rhs"];                                                 (* 129 *)
  SIf (SProd "y" ["r1"]) (SNew "y" ["rhs"]);                         (* 130-133 *)
  when [SProd "r2" ["y"]];                                           (* 138-139 *)
  when [SNew "v" ["y"]; SProd "y" ["v"];                             (* 160-162 *)
        when [SProd "r2" ["y"]];                                     (* 163-164 *)
        when [SNew "_t" ["v"]; SUpd "y" ["_t"]];                     (* 177 *)
        SNew "_t" ["r1"]; SUpd "y" ["_t"];                           (* 179 *)
        SNew "_t" ["v"]; SUpd "y" ["_t"]; SNew "r2" ["y"];           (* 185-186 *)
        when [SProd "y" ["r2"]]];                                    (* 188 *)
  when [SWhile (seq [                                                (* 234-235 *)
    when [SBreak];                                                   (* 294-295 *)
    SNew "v" ["y"]; SProd "y" ["v"];                                 (* 301-302 *)
    when [SNew "_t" ["v"]; SUpd "y" ["_t"]];                         (* 303 *)
    SNew "_t" ["r1"]; SUpd "y" ["_t"];                               (* 304 *)
    SNew "_t" ["r2"]; SUpd "y" ["_t"];                               (* 306 *)
    SNew "r1" ["r2"]; SNew "r2" ["y"];                               (* 307-308 *)
    when [SProd "y" ["r2"]];                                         (* 309 *)
    when [SBreak];                                                   (* 313-315 *)
    SNew "_t" ["w"; "v"]; SUpd "x" ["_t"];                           (* 335 *)
    SUpd "w" []; SNew "_t" ["v"]; SUpd "w" ["_t"];                   (* 336 *)
    keep "x"])];                                                     (* 338-339 *)
  when [SNew "_t" ["w"]; SUpd "x" ["_t"]];                           (* 361-365 *)
  SIf (SProd "y" ["rhs"]) (SNew "y" ["rhs"]);                        (* 370-373 *)
  SNew "_t" ["y"]; SUpd "x" ["_t"];                                  (* 374 *)
  SProd "y" ["x"];                                                   (* 378 *)
  when [SNew "_t" ["x"]; SUpd "y" ["_t"]];                           (* 379 *)
  SNew "r1" ["rhs"; "y"]]                                            (* 380 *)
  ++ results).                                                       (* 397-398 *)

(** The solvers, with the names of their array parameters. *)
Definition solvers : list (string * list var * stmt) := [
  ("cg", ["rhs"; "guess"], cg_prog); ("cgs", ["rhs"; "guess"], cgs_prog);
  ("bicgstab", ["rhs"; "guess"], bicgstab_prog); ("tfqmr", ["rhs"; "guess"], tfqmr_prog);
  ("minres", ["b"], minres_prog); ("symmlq", ["rhs"], symmlq_prog);
  ("lsqr", ["rhs"], lsqr_prog); ("lsmr", ["b"], lsmr_prog);
  ("craig", ["rhs"], craig_prog); ("craigmr", ["b"], craigmr_prog) ].
