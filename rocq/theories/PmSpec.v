(** * What patterns mean, and what the generated code means.

    Three small semantics, independent of how code is generated:
    APS patterns, Scala case clauses, C++ conditions. *)

Require Import List Arith Lia Bool.
Import ListNotations.
Require Import Verif.PmModel.

(** ** Values *)

(** Nodes (made by constructor [k], of type or phylum [t]), sequences (of
    type [t]) and other values.  Sequences are given by their elements: that
    first, butfirst, last and empty of the C++ runtime and toList of the Scala
    runtime agree with this is C16, C52 and C111. *)
Inductive val :=
| VNode (t k : nat) (args : list val)
| VSeq (t : nat) (xs : list val)
| VBase (t n : nat).

Definition type_of (v : val) : nat :=
  match v with VNode t _ _ => t | VSeq t _ => t | VBase t _ => t end.

Definition env := list (nat * val).

Fixpoint look {A} (x : nat) (r : list (nat * A)) : option A :=
  match r with
  | nil => None
  | (y, v) :: r' => if Nat.eqb x y then Some v else look x r'
  end.

(** Conditions see the values of variables through a digest: the value of a
    condition is any function of (codes of) the values of its variables. *)
Section Meaning.
Variable code : val -> nat.

Definition truth (e : cexpr) (vs : list val) : bool := ce_fun e (map code vs).

(** The value of condition [e] where variables are given by [f]; [None] if
    one of its variables has no value. *)
Fixpoint all_some {A} (l : list (option A)) : option (list A) :=
  match l with
  | nil => Some nil
  | None :: _ => None
  | Some a :: l' => match all_some l' with Some r => Some (a :: r) | None => None end
  end.

Definition holds (e : cexpr) (f : nat -> option val) : option bool :=
  match all_some (map f (ce_vars e)) with
  | Some vs => Some (truth e vs)
  | None => None
  end.

(** ** APS patterns

    [Matches r p v r']: where the variables in [r] have been bound, pattern
    [p] matches value [v], after which the variables in [r'] are bound.
    "..." stands for any number of elements. *)
Inductive Matches : env -> pat -> val -> env -> Prop :=
| M_any : forall r v, Matches r (PVar None) v r
| M_var : forall r x v, Matches r (PVar (Some x)) v ((x, v) :: r)
| M_and : forall r p q v r1 r2,
    Matches r p v r1 -> Matches r1 q v r2 -> Matches r (PAnd p q) v r2
| M_cond : forall r e v,
    holds e (fun x => look x r) = Some true -> Matches r (PCond e) v r
| M_type : forall r p t v r',
    type_of v = t -> Matches r p v r' -> Matches r (PMatch p t) v r'
| M_cons : forall r k n ps t args r',
    MatchAll r ps args r' -> Matches r (PCall (Some (FCons k n)) ps) (VNode t k args) r'
| M_seq : forall r ps t xs r',
    MatchSeq r ps xs r' -> Matches r (PCall (Some FSeq) ps) (VSeq t xs) r'
with MatchAll : env -> list pat -> list val -> env -> Prop :=
| MA_nil : forall r, MatchAll r nil nil r
| MA_cons : forall r p ps v vs r1 r2,
    Matches r p v r1 -> MatchAll r1 ps vs r2 -> MatchAll r (p :: ps) (v :: vs) r2
with MatchSeq : env -> list pat -> list val -> env -> Prop :=
| MS_nil : forall r, MatchSeq r nil nil r
| MS_elem : forall r p ps v vs r1 r2,
    Matches r p v r1 -> MatchSeq r1 ps vs r2 -> MatchSeq r (p :: ps) (v :: vs) r2
| MS_rest : forall r ps vs1 vs2 r',
    MatchSeq r ps vs2 r' -> MatchSeq r (PRest None :: ps) (vs1 ++ vs2) r'.

(** ** Scala case clauses *)

(** Patterns of Scala: variables, "_", "_*", typed variables and extractors;
    [None] is the extractor P_AND. *)
Inductive spat :=
| SVar (n : pname)
| SWild
| SStar
| STyped (n : pname) (t : nat)
| SExt (f : option pfun) (ps : list spat).

Definition head_tok (f : option pfun) : tok :=
  match f with Some f => TFun f | None => TAnd end.

(** How Scala patterns are written. *)
Fixpoint written (p : spat) : list tok :=
  match p with
  | SVar n => [TVar n]
  | SWild => [TWild]
  | SStar => [TStar]
  | STyped n t => [TVar n; TColon; TType t]
  | SExt f nil => [head_tok f; TLp; TRp]
  | SExt f (p1 :: ps) =>
      head_tok f :: TLp :: written p1 ++
      flat_map (fun q => TComma :: written q) ps ++ [TRp]
  end.

(** A case clause: a pattern and perhaps a guard. *)
Record clause := { cl_pat : spat; cl_guard : option cexpr }.

Definition written_clause (c : clause) : list tok :=
  written (cl_pat c) ++
  match cl_guard c with None => nil | Some e => [TIf; TExpr e] end.

(** Variables of a pattern. *)
Fixpoint binders (p : spat) : list pname :=
  match p with
  | SVar n => [n]
  | STyped n _ => [n]
  | SWild | SStar => nil
  | SExt _ ps => flat_map binders ps
  end.

(** "_*" is allowed only as last pattern of an extractor of sequences, after
    the one for the whole value; other extractors have a fixed number of
    patterns. *)
Definition no_star (p : spat) : bool :=
  match p with SStar => false | _ => true end.

Fixpoint star_last (ps : list spat) : bool :=
  match ps with
  | nil => true
  | SStar :: nil => true
  | p :: ps' => no_star p && star_last ps'
  end.

Fixpoint shaped (p : spat) : bool :=
  match p with
  | SExt f ps =>
      forallb (fun q => match q with SStar => true | _ => shaped q end) ps &&
      match f, ps with
      | None, [a; b] => no_star a && no_star b
      | Some (FCons k n), r :: args =>
          Nat.eqb (length args) n && forallb no_star ps
      | Some FSeq, r :: args => no_star r && star_last args
      | Some (FUser _), _ => forallb no_star ps
      | _, _ => false
      end
  | SStar => false
  | _ => true
  end.

(** What the Scala compiler accepts: well shaped, and no variable twice. *)
Definition legal (c : clause) : Prop :=
  shaped (cl_pat c) = true /\ NoDup (binders (cl_pat c)).

Definition senv := list (pname * val).

(** Matching in Scala.  [unapply] of "p_k" for a constructor gives the node
    and its arguments (dump-scala.cc:1383-1385: "case x@c_k(..) =>
    Some((x,..))"), [unapplySeq] of "p__op_AC" gives the sequence and its
    elements (base/scala/basic.handcode.scala:651-654) and [unapply] of P_AND
    gives the value twice (base/scala/aps-impl.scala:533-535).  User defined
    pattern functions are not given a meaning. *)
Fixpoint smatch (p : spat) (v : val) : option senv :=
  match p with
  | SVar n => Some [(n, v)]
  | SWild => Some nil
  | SStar => None
  | STyped n t => if Nat.eqb (type_of v) t then Some [(n, v)] else None
  | SExt f ps =>
      let fix all (ps : list spat) (vs : list val) : option senv :=
        match ps, vs with
        | nil, nil => Some nil
        | SStar :: nil, _ => Some nil
        | p :: ps', v :: vs' =>
            match smatch p v, all ps' vs' with
            | Some r1, Some r2 => Some (r1 ++ r2)
            | _, _ => None
            end
        | _, _ => None
        end in
      match f, v with
      | None, _ => all ps [v; v]
      | Some (FCons k _), VNode _ k' args =>
          if Nat.eqb k k' then all ps (v :: args) else None
      | Some FSeq, VSeq _ xs => all ps (v :: xs)
      | _, _ => None
      end
  end.

Fixpoint slook (x : nat) (r : senv) : option val :=
  match r with
  | nil => None
  | (NUser y, v) :: r' => if Nat.eqb x y then Some v else slook x r'
  | (NAnon _, _) :: r' => slook x r'
  end.

(** A clause applies if its pattern matches and its guard holds. *)
Definition applies (c : clause) (v : val) (r : senv) : Prop :=
  smatch (cl_pat c) v = Some r /\
  match cl_guard c with
  | None => True
  | Some e => holds e (fun x => slook x r) = Some true
  end.

(** ** C++ conditions *)

(** A condition: conjuncts separated by "&&". *)
Fixpoint conjunction (l : list atom) : list ctok :=
  match l with
  | nil => nil
  | [a] => [CAtom a]
  | a :: l' => CAtom a :: CAnd :: conjunction l'
  end.

(** The value of an expression where the node is [v]; [None] is a failure: a
    cast to the wrong class (undefined behaviour), or first or last of an
    empty sequence (an exception, base/cpp/basic.handcode.h:152,155). *)
Fixpoint nval (v : val) (n : nexp) : option val :=
  match n with
  | NRoot => Some v
  | NField k i n' =>
      match nval v n' with
      | Some (VNode _ k' args) => if Nat.eqb k k' then nth_error args i else None
      | _ => None
      end
  | NFirst n' =>
      match nval v n' with Some (VSeq _ (x :: _)) => Some x | _ => None end
  | NButfirst n' =>
      match nval v n' with Some (VSeq t xs) => Some (VSeq t (tl xs)) | _ => None end
  | NLast n' =>
      match nval v n' with
      | Some (VSeq _ xs) =>
          match rev xs with x :: _ => Some x | nil => None end
      | _ => None
      end
  end.

(** The value of a conjunct; [None] is a failure. *)
Definition aval (v : val) (a : atom) : option bool :=
  match a with
  | ATrue => Some true
  | AEmpty n =>
      match nval v n with
      | Some (VSeq _ nil) => Some true | Some (VSeq _ (_ :: _)) => Some false
      | _ => None
      end
  | ANonEmpty n =>
      match nval v n with
      | Some (VSeq _ nil) => Some false | Some (VSeq _ (_ :: _)) => Some true
      | _ => None
      end
  | AType n t =>
      match nval v n with Some w => Some (Nat.eqb (type_of w) t) | None => None end
  | ACons n k =>
      match nval v n with
      | Some (VNode _ k' _) => Some (Nat.eqb k' k)
      | _ => None
      end
  | ACond e refs =>
      match all_some (map (fun o => match o with Some n => nval v n | None => None end) refs) with
      | Some vs => Some (truth e vs)
      | None => None
      end
  end.

(** "&&" evaluates its left side first, and the right side only if needed. *)
Fixpoint cval (v : val) (l : list atom) : option bool :=
  match l with
  | nil => Some true
  | a :: l' =>
      match aval v a with
      | Some true => cval v l'
      | Some false => Some false
      | None => None
      end
  end.

(** Declarations "T v_x = n;" executed in order. *)
Fixpoint declared (v : val) (b : list (nat * nexp)) : option env :=
  match b with
  | nil => Some nil
  | (x, n) :: b' =>
      match nval v n, declared v b' with
      | Some w, Some r => Some ((x, w) :: r)
      | _, _ => None
      end
  end.

End Meaning.

(** ** Variables and conditions of a source pattern *)

(** Named variables, in the order of the text. *)
Fixpoint named (p : pat) : list nat :=
  match p with
  | PMatch q _ => named q
  | PCall _ ps => flat_map named ps
  | PRest _ => nil
  | PAnd q1 q2 => named q1 ++ named q2
  | PVar (Some x) => [x]
  | PVar None => nil
  | PCond _ => nil
  | POther => nil
  end.

(** Every condition mentions only variables [b] or variables that occur
    before it. *)
Fixpoint scoped (b : list nat) (p : pat) : Prop :=
  match p with
  | PMatch q _ => scoped b q
  | PCall f ps =>
      (fix go (b : list nat) (ps : list pat) : Prop :=
         match ps with
         | nil => True
         | p :: ps' => scoped b p /\ go (b ++ named p) ps'
         end) b ps
  | PRest _ => True
  | PAnd q1 q2 => scoped b q1 /\ scoped (b ++ named q1) q2
  | PVar _ => True
  | PCond e => incl (ce_vars e) b
  | POther => True
  end.

(** No condition anywhere. *)
Fixpoint unconditional (p : pat) : bool :=
  match p with
  | PMatch q _ => unconditional q
  | PCall _ ps => forallb unconditional ps
  | PRest _ => true
  | PAnd q1 q2 => unconditional q1 && unconditional q2
  | PVar _ => true
  | PCond _ => false
  | POther => true
  end.

(** A condition at most as last thing: "p" or "p if e". *)
Definition condition_last (p : pat) : bool :=
  match p with
  | PAnd q (PCond _) => unconditional q
  | _ => unconditional p
  end.

(** "..." only as the last of the patterns of a call. *)
Fixpoint rest_last (p : pat) : bool :=
  match p with
  | PMatch q _ => rest_last q
  | PCall _ ps =>
      (fix go (ps : list pat) : bool :=
         match ps with
         | nil => true
         | PRest _ :: nil => true
         | PRest _ :: _ => false
         | p :: ps' => rest_last p && go ps'
         end) ps
  | PRest _ => false
  | PAnd q1 q2 => rest_last q1 && rest_last q2
  | PVar _ => true
  | PCond _ => true
  | POther => true
  end.

(** Calls of constructors have as many actuals as formals. *)
Fixpoint arities (p : pat) : Prop :=
  match p with
  | PMatch q _ => arities q
  | PCall f ps =>
      match f with Some (FCons k n) => length ps = n | _ => True end /\
      (fix go (ps : list pat) : Prop :=
         match ps with nil => True | p :: ps' => arities p /\ go ps' end) ps
  | PRest _ => True
  | PAnd q1 q2 => arities q1 /\ arities q2
  | PVar _ => True
  | PCond _ => True
  | POther => True
  end.

(** [suits p v]: the value is of a type for which the pattern makes sense
    (as the type checker and the C++ compiler ensure): constructor patterns
    look at nodes, sequence patterns at sequences, and nodes have as many
    arguments as their constructor has formals. *)
Fixpoint suits (p : pat) (v : val) : Prop :=
  match p with
  | PMatch q _ => suits q v
  | PCall (Some (FCons k n)) ps =>
      match v with
      | VNode _ k' args => k' = k -> length args = n /\
          (fix go (ps : list pat) (vs : list val) : Prop :=
             match ps, vs with
             | p :: ps', v :: vs' => suits p v /\ go ps' vs'
             | _, _ => True
             end) ps args
      | _ => False
      end
  | PCall (Some FSeq) ps =>
      match v with
      | VSeq _ xs =>
          (fix go (ps : list pat) : Prop :=
             match ps with
             | nil => True
             | p :: ps' => (forall x, In x xs -> suits p x) /\ go ps'
             end) ps
      | _ => False
      end
  | PCall _ _ => True
  | PAnd q1 q2 => suits q1 v /\ suits q2 v
  | PRest _ | PVar _ | PCond _ | POther => True
  end.

(** "..." only directly in sequence patterns. *)
Fixpoint rest_in_seq (p : pat) : bool :=
  match p with
  | PMatch q _ => rest_in_seq q
  | PCall f ps =>
      forallb (fun q => match q with
                        | PRest _ => match f with Some FSeq => true | _ => false end
                        | _ => rest_in_seq q
                        end) ps
  | PRest _ => false
  | PAnd q1 q2 => rest_in_seq q1 && rest_in_seq q2
  | PVar _ | PCond _ | POther => true
  end.

(** All variables are named. *)
Fixpoint all_named (p : pat) : bool :=
  match p with
  | PMatch q _ => all_named q
  | PCall _ ps => forallb all_named ps
  | PAnd q1 q2 => all_named q1 && all_named q2
  | PVar None => false
  | PVar (Some _) | PRest _ | PCond _ | POther => true
  end.
