(** * Patterns and expressions in the generated code.

    Models how the two back ends print the patterns of [match] and [case]
    clauses: [dump_Pattern] of aps2scala/dump-scala.cc (a Scala pattern is
    printed) and [dump_Pattern_cond] / [dump_Pattern_bindings] of
    apscpp/dump-cpp.cc (a C++ condition and C++ declarations are printed);
    and how expressions are printed ([dump_Expression],
    [dump_collect_Actuals]). *)

Require Import List Arith ZArith Lia Bool.
Import ListNotations.

(** ** Source patterns *)

(** An expression used as a condition.  Simplification: an expression is
    given by the pattern variables it mentions and its value as a function of
    theirs; anything else it mentions is the same throughout the match. *)
Record cexpr := { ce_vars : list nat; ce_fun : list nat -> bool }.

(** The function of a pattern call (parse/aps.y:1049-1063).
    [FCons k n]: constructor number [k] with [n] formals;
    [FSeq]: the sequence pattern "{}" (aps.y:127-132);
    [FUser d]: a pattern function declared by the user (aps.y:634-643). *)
Inductive pfun := FCons (k n : nat) | FSeq | FUser (d : nat).

(** Abstract syntax of patterns (parse/aps-tree, phylum Pattern; built in
    parse/aps.y:1026-1118).  Variables are named by numbers; [PVar None] is
    the variable "_" that the parser makes for "?" (aps.y:1064,1347).
    [PCall None] is a call whose function is not a use of a name.
    [PRest None] is "..." and [PRest (Some q)] is "... and q".
    [POther] is any other form (pattern_actual, typed_pattern, pattern_use,
    hole, ...). *)
Inductive pat :=
| PMatch (p : pat) (t : nat)
| PCall (f : option pfun) (ps : list pat)
| PRest (c : option pat)
| PAnd (p q : pat)
| PVar (x : option nat)
| PCond (e : cexpr)
| POther.

(** ** The Scala back end *)

(** Names of Scala variables printed for pattern variables
    (dump-scala.cc:384-387): "v_" followed by the name, or by a number for
    "_".  APS identifiers never are numerals, so the two never coincide. *)
Inductive pname := NUser (x : nat) | NAnon (k : nat).

(** What is printed, as a list of tokens.  [TFun f] is "p_f"
    ([dump_Use(pfuse,"p_",os)]), [TAnd] is "P_AND", [TWild] is "_",
    [TStar] is "_*", [TIf] is "if".  Simplification: types and expressions
    are single tokens. *)
Inductive tok :=
| TFun (f : pfun) | TAnd | TLp | TRp | TComma
| TVar (n : pname) | TWild | TStar
| TColon | TType (t : nat)
| TIf | TExpr (e : cexpr).

(** Printing is a computation with the global variable [formal_count]
    (dump-scala.cc:300) as its state; it gives tokens and the number of
    errors reported with [aps_error] (analyze/aps-debug.c:10, which counts and
    returns). *)
Definition emission := (list tok * nat * nat)%type.   (* tokens, errors, formal_count *)

Section Args.
  Variable emit : bool -> pat -> nat -> emission.

  (** The loop over actuals in [dump_pattern_call] (dump-scala.cc:321-326):
      a comma, the pattern, then [formal_count++]. *)
  Fixpoint emit_args (ps : list pat) (fc : nat) : emission :=
    match ps with
    | nil => (nil, 0, fc)
    | p :: ps' =>
        let '(t1, e1, fc1) := emit (match ps' with nil => false | _ => true end) p fc in
        let '(t2, e2, fc2) := emit_args ps' (S fc1) in
        (TComma :: t1 ++ t2, e1 + e2, fc2)
    end.

  (** [dump_pattern_call] (dump-scala.cc:301-328), [result] printing the
      first argument. *)
  Definition emit_call (f : option pfun) (result : nat -> emission)
      (ps : list pat) (fc : nat) : emission :=
    match f with
    | None => (nil, 1, fc)                                      (* 306-309 *)
    | Some f =>
        let '(t0, e0, _) := result fc in                        (* 315-319 *)
        let '(t1, e1, fc1) := emit_args ps 0 in                 (* 320-326 *)
        (TFun f :: TLp :: t0 ++ t1 ++ [TRp], e0 + e1, fc1)
    end.
End Args.

(** [dump_Pattern] (dump-scala.cc:330-409).  [next] says whether
    [PAT_NEXT(p)] is non-null. *)
Fixpoint emit (next : bool) (p : pat) (fc : nat) {struct p} : emission :=
  match p with
  | PMatch q t =>                                               (* 337-347 *)
      let err := match q with PVar _ => 0 | _ => 1 end in
      let '(t1, e1, fc1) := emit false q fc in
      (t1 ++ [TColon; TType t], err + e1, fc1)
  | PCall f ps =>                                               (* 349-353 *)
      emit_call emit f (fun fc => ([TWild], 0, fc)) ps fc
  | PRest c =>                                                  (* 355-364 *)
      let e1 := match c with None => 0 | Some _ => 1 end in
      if next then (nil, S e1, fc) else ([TStar], e1, fc)
  | PAnd q1 q2 =>                                               (* 366-387 *)
      match q2 with
      | PCond e =>
          let '(t1, e1, fc1) := emit false q1 fc in
          (t1 ++ [TIf; TExpr e], e1, fc1)
      | PCall f ps => emit_call emit f (emit false q1) ps fc
      | _ =>
          let '(t1, e1, fc1) := emit false q1 fc in
          let '(t2, e2, fc2) := emit false q2 fc1 in
          (TAnd :: TLp :: t1 ++ TComma :: t2 ++ [TRp], e1 + e2, fc2)
      end
  | PVar None => ([TVar (NAnon fc)], 0, fc)                     (* 389-394 *)
  | PVar (Some x) => ([TVar (NUser x)], 0, fc)
  | PCond _ => (nil, 1, fc)                                     (* 333-335 *)
  | POther => (nil, 1, fc)
  end.

Definition toks (e : emission) : list tok := fst (fst e).
Definition errs (e : emission) : nat := snd (fst e).
Definition count_after (e : emission) : nat := snd e.

(** The clause printed for a match: "case " << matcher_pat(m)
    (aps2scala/dyn-impl.cc:140,409; codegen/static-impl.cc:205,473;
    codegen/static-scc-impl.cc:873): the pattern as the top of the match. *)
Definition emit_clause (p : pat) (fc : nat) : emission := emit false p fc.

(** ** The C++ back end *)

(** C++ expressions for the parts of the node being matched
    (dump-cpp.cc:226-247, 340-350): the node itself,
    a cast of the node to V_k followed by "->v_formal", and calls of first, butfirst and last.
    Simplification: fields are given by position instead of by name. *)
Inductive nexp :=
| NRoot
| NField (k i : nat) (n : nexp)
| NFirst (n : nexp) | NButfirst (n : nexp) | NLast (n : nexp).

(** Conjuncts of the condition.  [ACond e refs]: an expression whose pattern
    variables are printed as [refs]; [None] where [dump_Expression] prints the
    plain name (dump-cpp.cc:2122-2127). *)
Inductive atom :=
| ATrue
| AEmpty (n : nexp)                    (* "empty(n)"         251-252 *)
| ANonEmpty (n : nexp)                 (* "!empty(n)"        276-278 *)
| AType (n : nexp) (t : nat)           (* "n->type==t->get_type()" 301-303 *)
| ACons (n : nexp) (k : nat)           (* "n->cons==this->c_k"     338-339 *)
| ACond (e : cexpr) (refs : list (option nexp)).

Inductive ctok := CAtom (a : atom) | CAnd.

(** The strings remembered in [pat_impl] for the variables marked
    [IMPLEMENTED_PATTERN_VAR] (dump-cpp.cc:359-370).  Simplification: keyed
    by the name of the variable. *)
Definition impls := list (nat * nexp).

Fixpoint impl_of (x : nat) (m : impls) : option nexp :=
  match m with
  | nil => None
  | (y, n) :: m' => if Nat.eqb x y then Some n else impl_of x m'
  end.

Definition cemission := (list ctok * nat * impls)%type.

Section CArgs.
  Variable cond : pat -> nexp -> impls -> cemission.

  (** The loop in [dump_Pattern_cond] over actuals and formals together
      (dump-cpp.cc:346-351). *)
  Fixpoint cond_args (k n i : nat) (ps : list pat) (node : nexp) (m : impls)
    : cemission :=
    match ps with
    | nil => (nil, 0, m)
    | p :: ps' =>
        if Nat.ltb i n then
          let '(t1, e1, m1) := cond p (NField k i node) m in
          let '(t2, e2, m2) := cond_args k n (S i) ps' node m1 in
          (CAnd :: t1 ++ t2, e1 + e2, m2)
        else (nil, 0, m)
    end.

  (** [dump_seq_Pattern_cond] (dump-cpp.cc:248-292). *)
  Fixpoint cond_seq (ps : list pat) (node : nexp) (m : impls) : cemission :=
    match ps with
    | nil => ([CAtom (AEmpty node)], 0, m)
    | p :: ps' =>
        match p with
        | PRest c =>
            let e0 := match c with None => 0 | Some _ => 1 end in
            match ps' with
            | nil => ([CAtom ATrue], e0, m)                     (* 270-272 *)
            | q :: nil =>                                       (* 263-268 *)
                let '(t1, e1, m1) := cond q (NLast node) m in
                (t1, e0 + e1, m1)
            | _ => (nil, S e0, m)                               (* 261-262 *)
            end
        | _ =>
            let '(t1, e1, m1) := cond p (NFirst node) m in
            let '(t2, e2, m2) := cond_seq ps' (NButfirst node) m1 in
            (CAtom (ANonEmpty node) :: CAnd :: t1 ++ CAnd :: t2, e1 + e2, m2)
        end
    end.
End CArgs.

(** [dump_Pattern_cond] (dump-cpp.cc:294-376).  Simplification: the names
    append, single and none, which the code lets through besides constructors
    (332-337), are not treated: they are constructors here. *)
Fixpoint cond (p : pat) (node : nexp) (m : impls) {struct p} : cemission :=
  match p with
  | PMatch q t =>                                               (* 300-305 *)
      let '(t1, e1, m1) := cond q node m in
      (CAtom (AType node t) :: CAnd :: t1, e1, m1)
  | PCall None _ => (nil, 1, m)                                 (* 318-320 *)
  | PCall (Some FSeq) ps => cond_seq cond ps node m             (* 327-329 *)
  | PCall (Some (FCons k n)) ps =>                              (* 338-351 *)
      let '(t1, e1, m1) := cond_args cond k n 0 ps node m in
      (CAtom (ACons node k) :: t1, e1, m1)
  | PCall (Some (FUser d)) ps =>
      (* 330-336: the error is reported and printing goes on; what is printed
         does not matter after an error *)
      (nil, 1, m)
  | PAnd q1 q2 =>                                               (* 354-358 *)
      let '(t1, e1, m1) := cond q1 node m in
      let '(t2, e2, m2) := cond q2 node m1 in
      (t1 ++ CAnd :: t2, e1 + e2, m2)
  | PVar None => ([CAtom ATrue], 0, m)                          (* 359-371 *)
  | PVar (Some x) => ([CAtom ATrue], 0, (x, node) :: m)
  | PCond e =>                                                  (* 372-374 *)
      ([CAtom (ACond e (map (fun x => impl_of x m) (ce_vars e)))], 0, m)
  | PRest _ => (nil, 1, m)                                      (* 297-299 *)
  | POther => (nil, 1, m)
  end.

(** [dump_Pattern_bindings] (dump-cpp.cc:380-418): the declarations
    "T v_x = impl;" printed, in order, and what is left in [pat_impl]. *)
Fixpoint unmark (x : nat) (m : impls) : impls :=
  match m with
  | nil => nil
  | (y, n) :: m' => if Nat.eqb x y then unmark x m' else (y, n) :: unmark x m'
  end.

Fixpoint bindings (p : pat) (m : impls) {struct p} : list (nat * nexp) * nat * impls :=
  match p with
  | PMatch q _ => bindings q m
  | PCall _ ps =>
      (fix go (ps : list pat) (m : impls) : list (nat * nexp) * nat * impls :=
         match ps with
         | nil => (nil, 0, m)
         | p :: ps' =>
             let '(b1, e1, m1) := bindings p m in
             let '(b2, e2, m2) := go ps' m1 in
             (b1 ++ b2, e1 + e2, m2)
         end) ps m
  | PRest _ => (nil, 0, m)
  | PAnd q1 q2 =>
      let '(b1, e1, m1) := bindings q1 m in
      let '(b2, e2, m2) := bindings q2 m1 in
      (b1 ++ b2, e1 + e2, m2)
  | PVar None => (nil, 0, m)
  | PVar (Some x) =>
      match impl_of x m with
      | None => (nil, 0, m)
      | Some n => ([(x, n)], 0, unmark x m)
      end
  | PCond _ => (nil, 0, m)
  | POther => (nil, 1, m)
  end.

(** A match in the generated C++: "if (" cond ") {" bindings
    (apscpp/dyn-impl.cc:161-165; apscpp/static-impl.cc:183-187), and
    [matcher_bindings] (dump-cpp.cc:420-429), which prints only the
    bindings. *)
Definition cpp_match (p : pat) : list ctok * list (nat * nexp) * nat :=
  let '(t, e1, m) := cond p NRoot nil in
  let '(b, e2, _) := bindings p m in
  (t, b, e1 + e2).

(** ** Pattern declarations (Scala) *)

(** Body of a pattern declaration (parse/aps.y:645-658): none, or choices. *)
Inductive pbody := BNone | BChoices (cs : list pat) | BOne (p : pat).

(** Tokens of a whole clause of "x match { ... }": [KCase] is "case",
    [KAt] is "x@". *)
Inductive ktok := KCase | KAt | KTok (t : tok).

(** The clauses, before "case _ => None", of the function "u_name" printed by
    [dump_scala_pattern_function] for a pattern declaration
    (dump-scala.cc:1358-1378); also the errors reported and formal_count.
    The result of every clause is Some of "x" and the formals. *)
Fixpoint choice_clauses (cs : list pat) (fc : nat) : list (list ktok) * nat * nat :=
  match cs with
  | nil => (nil, 0, fc)
  | p :: cs' =>
      let '(t1, e1, fc1) :=
        emit (match cs' with nil => false | _ => true end) p fc in
      let '(ks, e2, fc2) := choice_clauses cs' fc1 in
      ((KAt :: KCase :: map KTok t1) :: ks, e1 + e2, fc2)
  end.

Definition pattern_decl_clauses (b : pbody) (fc : nat)
  : list (list ktok) * nat * nat :=
  match b with
  | BNone => (nil, 0, fc)
  | BChoices cs => choice_clauses cs fc
  | BOne p =>
      let '(t, e, fc1) := emit false p fc in
      ([KCase :: map KTok t], e, fc1)
  end.
