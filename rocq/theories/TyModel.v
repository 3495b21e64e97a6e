(** * The type checker (analyze/aps-type.c): comparison, substitution and
      inference of types, expressions, patterns and statements.

    What is left out (everywhere in this file):
    - types that need a module contour, i.e. qualified types [M$T] and uses of
      services of module instances: every type use here has USE_TYPE_ENV = 0
      and every value use has a chain of polymorphic contours only, which is
      what aps-bind.c:485-497 with 91-115 gives to entities declared in the
      same module or at top level (a qualified value use is modelled as a use
      of a declaration whose type is the substituted one);
    - functions with no or several results: a function type has one result;
    - unbound uses (the binder has reported an error for them already);
    - messages and debugging output: [s_err] says that aps_error was called.

    A type that is the null pointer is [None].  Type_KEY (parse/aps-tree.c:221)
    aborts on a null pointer: [Abort].  A null pointer to a contour is
    dereferenced without a check: [Ub].  Recursion is bounded by fuel; [Fuel]
    says nothing about the program and no theorem uses it. *)
From Coq Require Import List Arith Bool.
Import ListNotations.
Set Implicit Arguments.

Inductive res (A : Type) : Type := Done (a : A) | Abort | Ub | Fuel.
Arguments Done {A} a. Arguments Abort {A}. Arguments Ub {A}. Arguments Fuel {A}.

(** aps-tree.aps, phylum Type: type_use, function_type, remote_type.
    A formal of a function type is marked [true] when it is a seq_formal. *)
Inductive ty : Type :=
| TUse (d : nat)
| TFun (fs : list (bool * ty)) (r : ty)
| TRemote (t : ty).

(** Declarations of types as base_type (aps-type.c:2113-2164) tells them apart.
    - [DAbstract]: no_type or private_type;
    - [DInst el]: a type_inst of a generating module; [el] its first type actual;
    - [DRename t]: a type_renaming, or a type declared to be another type;
    - [DFormal owner i phylum sigs]: a type formal; [owner] is the polymorphic
      that declares it ([None]: a module or class), [i] the instance_index
      (aps-bind.c:70-79), [sigs] its signature: the first type actual of each
      sig_inst of the mult_sig ([None]: no type actuals, or another signature). *)
Inductive tdecl : Type :=
| DAbstract
| DInst (el : option ty)
| DRename (t : ty)
| DFormal (owner : option nat) (i : nat) (phylum : bool) (sigs : list (option ty)).

(** Declarations of values.
    - [VTyped t]: value, attribute, constructor, function or procedure
      declaration, or a formal with a type;
    - [VRename old]: value_renaming of the expression [old];
    - [VElement set]: formal without a type of a for-in or of a controlled
      expression over [set];
    - [VPattern x]: formal without a type of the pattern variable [x]. *)
Inductive vkind : Type :=
| VTyped (t : ty) | VRename (old : nat) | VElement (set : nat) | VPattern (x : nat).

(** [v_var]: not constant (keyword VAR); [v_owner]: the function that contains
    the declaration, for value declarations; [v_kind]. *)
Record vdecl : Type := mkV { v_kind : vkind; v_var : bool; v_owner : option nat }.

(** aps-tree.aps, phylum Expression.  Expressions are nodes in a heap: a node is
    a number, because expr_type is stored per node and nodes are shared (an
    expression renamed, the set of a for-in). [EConst t]: integer, real, string
    and char constants, with their type.  [EUndef]: undefined, no_expr, empty. *)
Inductive enode : Type :=
| EUse (u : nat)
| EConst (t : ty)
| ETyped (e : nat) (t : ty)
| ECall (f : nat) (args : list nat)
| EAppend (a b : nat)
| ERepeat (e : nat)
| EGuarded (e c : nat)
| EControlled (set e : nat)
| EUndef.

(** aps-tree.aps, phylum Pattern.  A pattern is visited once, so patterns are
    trees and pat_type is kept for variables only, where infer_formal_type reads
    it.  [PVar x]: pattern_var, with the formal [x].
    [PUse u]: a use of a constructor or pattern declaration. *)
Inductive pat : Type :=
| PUse (u : nat)
| PTyped (p : pat) (t : ty)
| PCall (f : pat) (args : list pat)
| PRest (p : pat)
| PAnd (p1 p2 : pat)
| PVar (x : nat)
| PCond (e : nat)
| PNo.

(** The bound program: tables for declarations and nodes.
    [p_env u]: the polymorphics of the contour chain of use [u], innermost first;
    [p_nf p]: number of type formals of polymorphic [p];
    [p_pdecl d]: type of constructor or pattern declaration [d];
    [p_vtype x]: type given for the pattern variable [x], if any;
    [p_within e]: the constant function that contains expression [e], if any. *)
Record program : Type := mkProgram {
  p_type : nat -> tdecl;
  p_nf : nat -> nat;
  p_bool : ty;
  p_node : nat -> enode;
  p_value : nat -> vdecl;
  p_use : nat -> nat;
  p_env : nat -> list nat;
  p_pdecl : nat -> ty;
  p_vtype : nat -> option ty;
  p_within : nat -> option nat }.

(** [s_slot u p i]: u.inferred[i] of the contour of [p] in the chain of use [u];
    [s_memo e]: expr_type; [s_pmemo x]: pat_type of a variable. *)
Record state : Type := mkSt {
  s_err : bool;
  s_slot : nat -> nat -> nat -> option ty;
  s_memo : nat -> option ty;
  s_pmemo : nat -> option ty }.

Definition M (A : Type) : Type := state -> res (state * A).
Definition ret {A} (a : A) : M A := fun st => Done (st, a).
Definition bind {A B} (m : M A) (f : A -> M B) : M B := fun st =>
  match m st with
  | Done (st', a) => f a st'
  | Abort => Abort | Ub => Ub | Fuel => Fuel end.
Definition abort {A} : M A := fun _ => Abort.
Definition ub {A} : M A := fun _ => Ub.
Definition out {A} : M A := fun _ => Fuel.
Definition lift {A} (r : res A) : M A := fun st =>
  match r with Done a => Done (st, a) | Abort => Abort | Ub => Ub | Fuel => Fuel end.
(** aps_error *)
Definition err : M unit := fun st => Done (mkSt true (s_slot st) (s_memo st) (s_pmemo st), tt).

Notation "x <- m ;; k" := (bind m (fun x => k)) (at level 61, m at next level, right associativity).
Notation "m ;; k" := (bind m (fun _ => k)) (at level 61, right associativity).

Definition set_slot (u p i : nat) (t : option ty) : M unit := fun st =>
  Done (mkSt (s_err st)
             (fun u' p' i' => if (u' =? u) && (p' =? p) && (i' =? i) then t else s_slot st u' p' i')
             (s_memo st) (s_pmemo st), tt).
Definition set_memo (e : nat) (t : option ty) : M unit := fun st =>
  Done (mkSt (s_err st) (s_slot st)
             (fun e' => if e' =? e then t else s_memo st e') (s_pmemo st), tt).
Definition set_pmemo (x : nat) (t : option ty) : M unit := fun st =>
  Done (mkSt (s_err st) (s_slot st) (s_memo st)
             (fun x' => if x' =? x then t else s_pmemo st x'), tt).

Section Check.
Variable P : program.
(** fuel for the functions on types *)
Variable N : nat.

(** base_type, aps-type.c:2113-2164. *)
Fixpoint base (n : nat) (t : ty) : res ty :=
  match n with
  | 0 => Fuel
  | S n =>
    match t with
    | TFun _ _ => Done t
    | TRemote t' => base n t'
    | TUse d => match p_type P d with
                | DRename t' => base n t'
                | _ => Done t end
    end
  end.

(** declarations_type_equal, aps-type.c:2203-2216, over the comparison [eqf] of
    the types of two declarations. *)
Fixpoint decls_eq (eqf : ty -> ty -> res bool) (l1 l2 : list (bool * ty)) : res bool :=
  match l1, l2 with
  | (k1, t1) :: l1', (k2, t2) :: l2' =>
      if Bool.eqb k1 k2 then
        match eqf t1 t2 with
        | Done true => decls_eq eqf l1' l2'
        | r => r end
      else Done false
  | [], [] => Done true
  | _, _ => Done false
  end.

(** base_type_equal(base_type(t1),base_type(t2)), aps-type.c:2218-2248.  The
    pointer comparison at 2220 is left out: it only saves work. *)
Fixpoint type_eq (n : nat) (t1 t2 : ty) : res bool :=
  match n with
  | 0 => Fuel
  | S n =>
    match base n t1, base n t2 with
    | Done (TUse d1), Done (TUse d2) => Done (d1 =? d2)
    | Done (TFun f1 r1), Done (TFun f2 r2) =>
        match decls_eq (type_eq n) f1 f2 with
        | Done true => type_eq n r1 r2
        | r => r end
    | Done _, Done _ => Done false
    | Fuel, _ | _, Fuel => Fuel
    | Abort, _ | _, Abort => Abort
    | Ub, _ | _, Ub => Ub
    end
  end.

(** check_type_equal, aps-type.c:2250-2271. *)
Definition check_equal (t1 t2 : option ty) : M unit :=
  match t1, t2 with
  | Some t1, Some t2 =>
      b <- lift (type_eq N t1 t2) ;; if b then ret tt else err
  | _, _ => ret tt
  end.

(** is_complete, aps-type.c:1677-1688. *)
Definition complete (st : state) (u : nat) : bool :=
  forallb (fun p => forallb (fun i => match s_slot st u p i with Some _ => true | None => false end)
                            (seq 0 (p_nf P p)))
          (p_env P u).

(** The polymorphic and index of a type formal that a contour of use [u] binds
    (the while loops at aps-type.c:1902 and 2377). *)
Definition bound_in (u d : nat) : option (nat * nat) :=
  match p_type P d with
  | DFormal (Some p) i _ _ => if existsb (Nat.eqb p) (p_env P u) then Some (p, i) else None
  | _ => None
  end.

(** type_subst on a non-null type, aps-type.c:1823-1981.  remote_type, seq_formal,
    normal_formal and value_decl abort when given a null type (aps-tree.c:3295). *)
Fixpoint tsubst (u : nat) (t : ty) : M (option ty) :=
  match t with
  | TUse d =>
      match bound_in u d with
      | Some (p, i) => fun st =>
          match s_slot st u p i with
          | Some t' => Done (st, Some t')
          | None => (err ;; ret None) st end
      | None => ret (Some t)
      end
  | TRemote t' =>
      o <- tsubst u t' ;;
      match o with Some t'' => ret (Some (TRemote t'')) | None => abort end
  | TFun fs r =>
      fs' <- (fix go (l : list (bool * ty)) : M (list (bool * ty)) :=
                match l with
                | [] => ret []
                | (k, t) :: l' =>
                    o <- tsubst u t ;;
                    match o with
                    | Some t' => l'' <- go l' ;; ret ((k, t') :: l'')
                    | None => abort end
                end) fs ;;
      o <- tsubst u r ;;
      match o with Some r' => ret (Some (TFun fs' r')) | None => abort end
  end.

(** type_subst, aps-type.c:1804-1822 and the above; [None] for [u]: no use. *)
Definition type_subst (u : option nat) (t : option ty) : M (option ty) :=
  match u with
  | None => ret t
  | Some u =>
      match p_env P u with
      | [] => ret t
      | _ => match t with Some t => tsubst u t | None => abort end
      end
  end.

(** sig_element_type, aps-type.c:805-822 *)
Fixpoint first_some (l : list (option ty)) : option ty :=
  match l with
  | [] => None
  | Some t :: _ => Some t
  | None :: l' => first_some l'
  end.

(** type_element_type, aps-type.c:874-934; error_type is Boolean_Type.  The
    result type of a module without type actuals is not followed (916-924): such
    an instance is reported as no collection. *)
Fixpoint elem (n : nat) (t : ty) : M ty :=
  match n with
  | 0 => out
  | S n =>
    match t with
    | TUse d =>
        match p_type P d with
        | DRename t' => elem n t'
        | DInst (Some t') => ret t'
        | DFormal _ _ _ sigs =>
            match first_some sigs with
            | Some t' => ret t'
            | None => err ;; ret (p_bool P) end
        | DAbstract | DInst None => err ;; ret (p_bool P)
        end
    | TRemote t' => elem n t'
    | TFun _ _ => err ;; ret (p_bool P)
    end
  end.

(** check_declarations_type_subst, aps-type.c:2273-2289, over check_type_subst of
    the types of two declarations. *)
Fixpoint cdecls (cs : ty -> ty -> M unit) (l1 l2 : list (bool * ty)) : M unit :=
  match l1, l2 with
  | (k1, a1) :: l1', (k2, a2) :: l2' =>
      if Bool.eqb k1 k2 then cs a1 a2 ;; cdecls cs l1' l2' else err
  | [], [] => ret tt
  | _, _ => err
  end.

(** check_type_signatures, aps-type.c:2291-2316: only the element types are
    looked at. *)
Fixpoint csigs (cs : ty -> ty -> M unit) (t : option ty) (sigs : list (option ty)) : M unit :=
  match sigs with
  | [] => ret tt
  | None :: l' => csigs cs t l'
  | Some s :: l' =>
      match t with
      | None => abort
      | Some t => e <- elem N t ;; cs e s
      end ;; csigs cs t l'
  end.

(** check_type_subst for a use [u] with contours, aps-type.c:2318-2432. *)
Fixpoint csubst (n : nat) (t1 : option ty) (u : nat) (t2 : ty) : M unit :=
  match n with
  | 0 => out
  | S n => fun st =>
    (if complete st u then
       o <- type_subst (Some u) (Some t2) ;; check_equal t1 o
     else
       match t2 with
       | TRemote t => csubst n t1 u t
       | TFun fs r =>
           match t1 with
           | None => abort
           | Some t1 =>
               b <- lift (base N t1) ;;
               match b with
               | TFun fs1 r1 =>
                   cdecls (fun a b => csubst n (Some a) u b) fs1 fs ;;
                   csubst n (Some r1) u r
               | _ => err
               end
           end
       | TUse d =>
           match p_type P d with
           | DFormal _ _ _ sigs =>
               match bound_in u d with
               | Some (p, i) =>
                   match s_slot st u p i with
                   | None =>
                       set_slot u p i t1 ;;
                       csigs (fun a b => csubst n (Some a) u b) t1 sigs
                   | Some t => check_equal t1 (Some t)
                   end
               | None => check_equal t1 (Some t2) ;; ub
               end
           | _ => check_equal t1 (Some t2)
           end
       end) st
  end.

(** check_type_subst, aps-type.c:2318-2324, when there may be no use and [t2] may
    be null. *)
Definition check_subst (n : nat) (t1 : option ty) (u : option nat) (t2 : option ty) : M unit :=
  match u, t2 with
  | None, _ => check_equal t1 t2
  | Some u, Some t2 => csubst n t1 u t2
  | Some u, None => fun st =>
      if complete st u then (o <- type_subst (Some u) None ;; check_equal t1 o) st else Abort
  end.

(** The recursive calls, bound by fuel in [run]. *)
Record rec : Type := mkRec {
  r_infer : nat -> M (option ty);
  r_check : nat -> option ty -> M unit;
  r_pinfer : pat -> M (option ty);
  r_pcheck : pat -> option ty -> M unit }.

Variable R : rec.

(** The declared type of a value: the switch at aps-type.c:538-558 (also 741-759,
    1036-1063, 1088-1115) with infer_formal_type (1469-1505). *)
Definition decl_type (d : nat) : M (option ty) :=
  match v_kind (p_value P d) with
  | VTyped t => ret (Some t)
  | VRename old => r_infer R old
  | VElement set =>
      o <- r_infer R set ;;
      match o with
      | Some t => t' <- elem N t ;; ret (Some t')
      | None => abort end
  | VPattern x => fun st =>
      match s_pmemo st x with
      | Some t => Done (st, Some t)
      | None => (err ;; ret None) st end
  end.

Definition is_complete (st : state) (u : option nat) : bool :=
  match u with None => true | Some u => complete st u end.

(** the loop of check_actuals, aps-type.c:994-1013 *)
Fixpoint actuals (u : option nat) (fs : list (bool * ty)) (args : list nat) : M unit :=
  match args with
  | [] => match fs with (false, _) :: _ => err | _ => ret tt end
  | a :: args' =>
      match fs with
      | [] => err
      | (k, t) :: fs' =>
          (fun st =>
             (if is_complete st u then
                t' <- type_subst u (Some t) ;; r_check R a t'
              else
                o <- r_infer R a ;; check_subst N o u (Some t)) st) ;;
          actuals u (if k then fs else fs') args'
      end
  end.

(** check_actuals, aps-type.c:965-1023 *)
Definition check_actuals (args : list nat) (ft : option ty) (u : option nat) : M (option ty) :=
  match ft with
  | None => abort
  | Some ft =>
      b <- lift (base N ft) ;;
      match b with
      | TFun fs r => actuals u fs args ;; type_subst u (Some r)
      | _ => err ;; ret (Some (p_bool P))
      end
  end.

(** infer_function_return_type, aps-type.c:1025-1076 *)
Definition infer_ret (f : nat) (args : list nat) : M (option ty) :=
  match p_node P f with
  | EUse u => t <- decl_type (p_use P u) ;; check_actuals args t (Some u)
  | ETyped _ t => r_check R f (Some t) ;; check_actuals args (Some t) None
  | _ => t <- r_infer R f ;; check_actuals args t None
  end.

(** check_function_return_type, aps-type.c:1078-1143 *)
Definition check_ret (f : nat) (args : list nat) (type : ty) : M unit :=
  match p_node P f with
  | EUse u =>
      t <- decl_type (p_use P u) ;;
      match t with
      | None => abort
      | Some t =>
          b <- lift (base N t) ;;
          match b with
          | TFun fs r =>
              check_subst N (Some type) (Some u) (Some r) ;;
              check_actuals args (Some b) (Some u) ;; ret tt
          | _ => err
          end
      end
  | ETyped _ t =>
      r_check R f (Some t) ;;
      o <- check_actuals args (Some t) None ;; check_equal (Some type) o
  | _ =>
      t <- r_infer R f ;;
      o <- check_actuals args t None ;; check_equal (Some type) o
  end.

(** infer_element_type, aps-type.c:936-940 *)
Definition infer_elem (e : nat) : M ty :=
  o <- r_infer R e ;;
  match o with Some t => elem N t | None => abort end.

(** infer_expr_type, aps-type.c:524-610 *)
Definition infer_body (e : nat) : M (option ty) := fun st =>
  match s_memo st e with
  | Some t => Done (st, Some t)
  | None =>
    (t <- match p_node P e with
          | EUse u => t <- decl_type (p_use P u) ;; type_subst (Some u) t
          | EConst t => ret (Some t)
          | ETyped e' t => r_check R e' (Some t) ;; ret (Some t)
          | ECall f args => infer_ret f args
          | EAppend a b => t <- r_infer R a ;; r_check R b t ;; ret t
          | ERepeat e' => t <- infer_elem e' ;; ret (Some t)
          | EGuarded e' c => t <- r_infer R e' ;; r_check R c (Some (p_bool P)) ;; ret t
          | EControlled s e' => infer_elem s ;; r_infer R e'
          | EUndef => err ;; ret None
          end ;;
     set_memo e t ;; ret t) st
  end.

(** ensure_non_var_use, aps-type.c:640-712, for the constant function [fd]: a use
    of a value declared outside of the function, or of an attribute or function,
    that is not constant.  A renaming is not followed (default at 704). *)
Fixpoint impure (n : nat) (fd : nat) (e : nat) : res bool :=
  match n with
  | 0 => Fuel
  | S n =>
    match p_node P e with
    | ECall f _ => impure n fd f
    | EUse u =>
        let d := p_value P (p_use P u) in
        match v_kind d with
        | VTyped _ => Done (v_var d && negb (match v_owner d with Some o => o =? fd | None => false end))
        | _ => Done false
        end
    | _ => Done false
    end
  end.

(** check_expr_type, aps-type.c:714-803 *)
Definition check_body (e : nat) (type : option ty) : M unit :=
  match type with
  | None => r_infer R e ;; ret tt
  | Some type => fun st =>
    match s_memo st e with
    | Some t => check_equal (Some type) (Some t) st
    | None =>
      (match p_within P e with
       | Some fd => b <- lift (impure N fd e) ;; if b then err else ret tt
       | None => ret tt end ;;
       match p_node P e with
       | EUse u =>
           t <- decl_type (p_use P u) ;; check_subst N (Some type) (Some u) t
       | EConst t => check_equal (Some type) (Some t)
       | ETyped _ _ => t <- r_infer R e ;; check_equal (Some type) t
       | ECall f args => check_ret f args type
       | EAppend a b => r_check R a (Some type) ;; r_check R b (Some type)
       | ERepeat e' => t <- infer_elem e' ;; check_equal (Some type) (Some t)
       | EGuarded e' c => r_check R e' (Some type) ;; r_check R c (Some (p_bool P))
       | EControlled s e' => infer_elem s ;; r_check R e' (Some type)
       | EUndef => ret tt
       end ;;
       set_memo e (Some type)) st
    end
  end.

(** the loop of check_pattern_actuals, aps-type.c:1307-1327 *)
Fixpoint pactuals (u : option nat) (fs : list (bool * ty)) (args : list pat) : M unit :=
  match args with
  | [] => match fs with (false, _) :: _ => err | _ => ret tt end
  | a :: args' =>
      match fs with
      | [] => err
      | (k, t) :: fs' =>
          (fun st =>
             (if is_complete st u then
                t' <- type_subst u (Some t) ;; r_pcheck R a t'
              else
                o <- r_pinfer R a ;; check_subst N o u (Some t)) st) ;;
          pactuals u (if k then fs else fs') args'
      end
  end.

(** check_pattern_actuals, aps-type.c:1288-1332: the function type is not
    expanded. *)
Definition check_pactuals (args : list pat) (ft : option ty) (u : option nat) : M (option ty) :=
  match ft with
  | None => abort
  | Some (TFun fs r) => pactuals u fs args ;; type_subst u (Some r)
  | Some _ => err ;; ret (Some (p_bool P))
  end.

(** infer_pattern_type, aps-type.c:1147-1210, with infer_pfunction_return_type
    (1334-1365).  pattern_renaming is left out. *)
Definition pinfer_body (p : pat) : M (option ty) :=
  match p with
  | PUse u => type_subst (Some u) (Some (p_pdecl P (p_use P u)))
  | PTyped q t => r_pcheck R q (Some t) ;; ret (Some t)
  | PCall f args =>
      match f with
      | PUse u =>
          t <- type_subst (Some u) (Some (p_pdecl P (p_use P u))) ;;
          check_pactuals args t (Some u)
      | _ => t <- r_pinfer R f ;; check_pactuals args t None
      end
  | PRest q => r_pinfer R q
  | PAnd p1 p2 => t <- r_pinfer R p2 ;; r_pcheck R p1 t ;; ret t
  | PVar x => fun st =>
      match s_pmemo st x with
      | Some t' => Done (st, Some t')
      | None => match p_vtype P x with
                | None => (err ;; ret None) st
                | Some _ => Done (st, None) end
      end
  | PCond e => err ;; r_check R e (Some (p_bool P)) ;; ret None
  | PNo => err ;; ret None
  end.

(** check_pattern_type, aps-type.c:1212-1283, with check_pfunction_return_type
    (1367-1412).  For a typed_pattern, 1249 calls infer_pattern_type, which finds
    the pat_type stored at 1223 and returns it. *)
Definition pcheck_body (p : pat) (type : option ty) : M unit :=
  match type with
  | None => r_pinfer R p ;; ret tt
  | Some type =>
      match p with
      | PUse u => check_subst N (Some type) (Some u) (Some (p_pdecl P (p_use P u)))
      | PTyped q t => check_equal (Some type) (Some type)
      | PCall f args =>
          match f with
          | PUse u =>
              b <- lift (base N (p_pdecl P (p_use P u))) ;;
              match b with
              | TFun fs r =>
                  check_subst N (Some type) (Some u) (Some r) ;;
                  check_pactuals args (Some b) (Some u) ;; ret tt
              | _ => err
              end
          | _ =>
              t <- r_pinfer R f ;;
              o <- check_pactuals args t None ;; check_equal (Some type) o
          end
      | PRest q => r_pcheck R q (Some type)
      | PAnd p1 p2 => r_pcheck R p2 (Some type) ;; r_pcheck R p1 (Some type)
      | PVar x => fun st =>
          match s_pmemo st x with
          | Some t' => check_equal (Some type) (Some t') st
          | None =>
              (set_pmemo x (Some type) ;;
               match p_vtype P x with
               | None => ret tt
               | Some t => check_equal (Some t) (Some type) end) st
          end
      | PCond e => r_check R e (Some (p_bool P))
      | PNo => ret tt
      end
  end.

End Check.

(** infer_expr_type, check_expr_type, infer_pattern_type and check_pattern_type *)
Fixpoint run (P : program) (N n : nat) : rec :=
  match n with
  | 0 => mkRec (fun _ => out) (fun _ _ => out) (fun _ => out) (fun _ _ => out)
  | S n =>
      let R := run P N n in
      mkRec (infer_body P N R) (check_body P N R) (pinfer_body P N R) (pcheck_body P N R)
  end.

(** aps-tree.aps, phylum Default *)
Inductive default : Type := NoDefault | Simple (e : nat) | Composite (e c : nat).

(** Statements and declarations that do_typechecking (aps-type.c:33-323) handles.
    - [SValue t d]: value_decl, or attribute_decl with result type [t];
    - [SAssign normal l r]: normal_assign ([normal]) or collect_assign;
    - [SForIn e b]: for_in_stmt; [SMatch p b]: top_level_match;
    - [SFor e ms], [SCase e ms d], [SIf c t f];
    - [SBlock b]: body of a function or procedure. *)
Inductive stmt : Type :=
| SValue (t : ty) (d : default)
| SAssign (normal : bool) (l r : nat)
| SIf (c : nat) (t f : list stmt)
| SFor (e : nat) (ms : list (pat * list stmt))
| SCase (e : nat) (ms : list (pat * list stmt)) (d : list stmt)
| SForIn (e : nat) (b : list stmt)
| SMatch (p : pat) (b : list stmt)
| SBlock (b : list stmt).

Section Statements.
Variable P : program.
Variables N n : nat.
Let R := run P N n.

(** remote_type_p, aps-type.c:2166-2201 *)
Fixpoint remote_p (k : nat) (t : ty) : res bool :=
  match k with
  | 0 => Fuel
  | S k =>
    match t with
    | TRemote _ => Done true
    | TFun _ _ => Done false
    | TUse d => match p_type P d with
                | DFormal _ _ phylum _ => Done (negb phylum)
                | DRename t' => remote_p k t'
                | _ => Done false end
    end
  end.

(** check_default_type, aps-type.c:1416-1452 *)
Definition check_default (d : default) (t : ty) : M unit :=
  match d with
  | NoDefault => ret tt
  | Simple e => r_check R e (Some t)
  | Composite e c => r_check R e (Some t) ;; r_check R c (Some (TFun [(false, t); (false, t)] t))
  end.

(** the checks on the left side of an assignment, aps-type.c:165-205 *)
Definition check_target (normal : bool) (l : nat) : M unit :=
  (if normal then
     match p_node P l with
     | ECall f args =>
         match args with
         | [] => abort
         | a :: _ =>
             o <- r_infer R a ;;
             match o with
             | None => abort
             | Some t => b <- lift (remote_p N t) ;; if b then err else ret tt
             end
         end
     | _ => ret tt
     end
   else ret tt) ;;
  match p_node P l with
  | ECall f _ =>
      match p_node P f with
      | EUse u => if v_var (p_value P (p_use P u)) then ret tt else err
      | _ => abort
      end
  | EUse u => if v_var (p_value P (p_use P u)) then ret tt else err
  | _ => ret tt
  end.

(** do_typechecking, aps-type.c:33-323, with check_matchers_type (1454-1471). *)
Fixpoint check_stmt (s : stmt) : M unit :=
  let fix block (b : list stmt) : M unit :=
    match b with [] => ret tt | s :: b' => check_stmt s ;; block b' end in
  let fix matches (t : option ty) (ms : list (pat * list stmt)) : M unit :=
    match ms with
    | [] => ret tt
    | (p, b) :: ms' => r_pcheck R p t ;; block b ;; matches t ms'
    end in
  match s with
  | SValue t d => check_default d t
  | SAssign normal l r =>
      check_target normal l ;; t <- r_infer R l ;; r_check R r t
  | SIf c t f => r_check R c (Some (p_bool P)) ;; block t ;; block f
  | SFor e ms => t <- r_infer R e ;; matches t ms
  | SCase e ms d => t <- r_infer R e ;; matches t ms ;; block d
  | SForIn e b => r_infer R e ;; block b
  | SMatch p b => r_pinfer R p ;; block b
  | SBlock b => block b
  end.

Fixpoint check_block (b : list stmt) : M unit :=
  match b with [] => ret tt | s :: b' => check_stmt s ;; check_block b' end.

End Statements.

(** The state before type checking: nothing inferred, no error. *)
Definition start : state :=
  mkSt false (fun _ _ _ => None) (fun _ => None) (fun _ => None).
