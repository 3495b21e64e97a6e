(** * Model of the name binder of analyze/aps-bind.c (bind_Program) over the traversals of
    parse/aps-traverse.c.

    The abstract syntax is kept as a skeleton: what matters to the binder are the uses, the
    declarations, and the constructs that open a scope; everything else is a sequence of
    children in the order aps-traverse.c visits them ([Pair]). *)
From Coq Require Import List NArith PeanoNat Bool.
Import ListNotations.

(** What the binder reads of a Declaration: its address; whether it is one with a def at all
    (KEYdeclaration), as opposed to a statement; its name, None for "_" and for a null name
    (aps-bind.c:125-127); decl_namespaces (aps-bind.c:9-35); def_is_public. *)
Record dinfo := mkD { d_id : nat; d_decl : bool; d_name : option nat; d_ns : N; d_public : bool }.

(** Simplifications: a qualified use T$x is the uses in T only (what it denotes comes from
    the services of T, aps-bind.c:258-438, which are not modelled); the declarations an
    extended type formal contributes (add_ext_sig, aps-bind.c:157-206) are given with the
    module as [ext] (the class whose contour they have, and the declarations); [Import p] is
    a with_unit together with the program it names. *)
Inductive node :=
| Nil | Pair (a b : node)
| Use_ (u name : nat) (ns : N)                 (* Class/Module/Signature/Type/Pattern/Expression over a use *)
| Decl (d : dinfo) (kids : node)               (* any Declaration do_bind treats by default *)
| Block_ (body : node)
| Match_ (pat body : node)
| Class_ (d : dinfo) (formals : node) (rd : dinfo) (rkids rest : node)
| Module_ (d : dinfo) (formals parent vformals : node) (rd : dinfo) (rkids : node) (ext : nat * list dinfo) (contents : node)
| Fun_ (d : dinfo) (formals returns rest : node)   (* attribute, function, procedure *)
| Poly (d : dinfo) (formals body : node)
| ForIn (d : dinfo) (formal seq body : node)
| Ctrl (expr formal set : node)                (* comprehension: expr for formal in set *)
| Import (p : node).

(** struct TypeContour (aps-ag.h): the chain of contours by their address and source; the
    empty list is NULL *)
Definition tenv := list (nat * nat).
(** struct env_item (aps-bind.c:37-44); the scope is the linked list, innermost first *)
Record item := mkI { i_decl : dinfo; i_name : nat; i_ns : N; i_env : tenv }.
Definition scope := list item.

(** What the binder changes: the next address for a contour, USE_DECL (with the sources of
    USE_TYPE_ENV) of every use, and the errors it has reported *)
Inductive err := Duplicate (d old : nat) | NoBinding (u : nat).
Record state := mkS { s_next : nat; s_use : nat -> option (dinfo * list nat); s_errs : list err }.
Definition report (e : err) (st : state) : state := mkS (s_next st) (s_use st) (s_errs st ++ [e]).

(** pointer comparison of contours: a contour is its first link (each has its own address) *)
Definition tenv_eqb (a b : tenv) : bool :=
  match a, b with
  | [], [] => true
  | (x, _) :: _, (y, _) :: _ => Nat.eqb x y
  | _, _ => false
  end.

(** aps-bind.c:136-143, the check for an earlier declaration: it walks the items that have
    the current contour, up to the first one that has another *)
Fixpoint check (d : dinfo) (name : nat) (env : tenv) (old : scope) (st : state) : state :=
  match old with
  | [] => st
  | i :: old =>
    if tenv_eqb (i_env i) env then
      let st := if Nat.eqb (i_name i) name && negb (N.eqb (N.land (i_ns i) (d_ns d)) 0)
                then report (Duplicate (d_id d) (d_id (i_decl i))) st else st in
      check d name env old st
    else st
  end.

(** aps-bind.c:117-149 [add_env_item]; [env] is current_type_env *)
Definition add_env_item (env : tenv) (d : dinfo) (sc : scope) (st : state) : state * scope :=
  if d_decl d then
    match d_name d with
    | None => (st, sc)
    | Some name => (check d name env sc st, mkI d name (d_ns d) env :: sc)
    end
  else (st, sc).

(** aps-bind.c:46-69 [push_type_contour] *)
Definition push_type_contour (src : nat) (env : tenv) (st : state) : state * tenv :=
  (mkS (S (s_next st)) (s_use st) (s_errs st), (s_next st, src) :: env).

(** aps-bind.c:532-556 [get_public_bindings] under the traversals; it does not look inside
    with_units *)
Fixpoint get_public_bindings (n : node) (env : tenv) (sc : scope) (st : state) {struct n} : state * scope :=
  let leaf d sc st := if d_public d then add_env_item env d sc st else (st, sc) in
  match n with
  | Nil | Use_ _ _ _ | Import _ => (st, sc)
  | Pair a b | Match_ a b => let '(st, sc) := get_public_bindings a env sc st in get_public_bindings b env sc st
  | Decl d k => if d_decl d then leaf d sc st else get_public_bindings k env sc st
  | Block_ b => get_public_bindings b env sc st
  | Class_ d _ _ _ _ | Module_ d _ _ _ _ _ _ _ | Fun_ d _ _ _ => leaf d sc st
  | Poly d _ b =>
    if d_public d then
      let '(st, sc) := add_env_item env d sc st in
      let '(st, env') := push_type_contour (d_id d) env st in
      get_public_bindings b env' sc st
    else (st, sc)
  | ForIn _ x y z | Ctrl x y z =>
    let '(st, sc) := get_public_bindings x env sc st in
    let '(st, sc) := get_public_bindings y env sc st in
    get_public_bindings z env sc st
  end.

(** aps-bind.c:495-530 [get_bindings] under the traversals *)
Fixpoint get_bindings (n : node) (env : tenv) (sc : scope) (st : state) {struct n} : state * scope :=
  match n with
  | Nil | Use_ _ _ _ => (st, sc)
  | Pair a b | Match_ a b => let '(st, sc) := get_bindings a env sc st in get_bindings b env sc st
  | Block_ b => get_bindings b env sc st
  | Decl d _ | Class_ d _ _ _ _ | Module_ d _ _ _ _ _ _ _ | Fun_ d _ _ _ | ForIn d _ _ _ => add_env_item env d sc st
  | Poly d _ b =>
    let '(st, sc) := add_env_item env d sc st in
    let '(st, env') := push_type_contour (d_id d) env st in
    get_bindings b env' sc st
  | Ctrl x y z =>
    let '(st, sc) := get_bindings x env sc st in
    let '(st, sc) := get_bindings y env sc st in
    get_bindings z env sc st
  | Import p => get_public_bindings p env sc st
  end.

(** aps-bind.c:442-452 [bind_Use_by_name]; instantiate_type_env (aps-bind.c:93-114) copies
    the contours, so what a client sees of them is their sources *)
Fixpoint bind_Use_by_name (u name : nat) (ns : N) (sc : scope) (st : state) : state :=
  match sc with
  | [] => st
  | i :: sc =>
    if Nat.eqb (i_name i) name && negb (N.eqb (N.land (i_ns i) ns) 0)
    then mkS (s_next st) (fun v => if Nat.eqb v u then Some (i_decl i, map snd (i_env i)) else s_use st v) (s_errs st)
    else bind_Use_by_name u name ns sc st
  end.
(** aps-bind.c:454-481 [bind_Use] for a simple use, from the node above it, followed by the
    visit of the Use itself, aps-bind.c:737-747 *)
Definition visit_use (u name : nat) (ns : N) (sc : scope) (st : state) : state :=
  let st := bind_Use_by_name u name ns sc st in
  match s_use st u with None => report (NoBinding u) st | Some _ => st end.

(** add_ext_sig for the given declarations (aps-bind.c:157-206): they are added under a
    contour of the class *)
Fixpoint add_all (env : tenv) (ds : list dinfo) (sc : scope) (st : state) : state * scope :=
  match ds with
  | [] => (st, sc)
  | d :: ds => let '(st, sc) := add_env_item env d sc st in add_all env ds sc st
  end.
Definition add_ext (ext : nat * list dinfo) (sc : scope) (st : state) : state * scope :=
  let '(st, env) := push_type_contour (fst ext) [] st in add_all env (snd ext) sc st.

(** aps-bind.c:558-760 [do_bind] under the traversals.  current_type_env is NULL
    throughout (aps-bind.c:217, and get_bindings pops what it pushes).  do_bind stops at
    a node when the scope is NULL; here that is tested once, in [bind_Program], because a
    scope that is not empty only grows.  bind_Declarations (aps-bind.c:243-248) and
    bind_Declaration (236-241) are get_bindings followed by do_bind in the new scope. *)
Fixpoint do_bind (n : node) (sc : scope) (st : state) {struct n} : state :=
  match n with
  | Nil | Import _ => st
  | Pair a b => let st := do_bind a sc st in do_bind b sc st
  | Use_ u name ns => visit_use u name ns sc st
  | Decl _ k => do_bind k sc st
  | Block_ b => let '(st, sc) := get_bindings b [] sc st in do_bind b sc st
  | Match_ p b =>
    let '(st, sc) := get_bindings p [] sc st in
    let st := do_bind p sc st in do_bind b sc st
  | Class_ _ f rd rk rest =>
    let '(st, sc) := get_bindings f [] sc st in
    let st := do_bind f sc st in
    let '(st, sc) := add_env_item [] rd sc st in
    let st := do_bind f sc st in
    let st := do_bind rk sc st in
    do_bind rest sc st
  | Module_ _ f par vf rd rk ext contents =>
    let '(st, sc) := get_bindings f [] sc st in
    let st := do_bind f sc st in
    let st := do_bind par sc st in
    let '(st, sc) := get_bindings vf [] sc st in
    let st := do_bind vf sc st in
    let '(st, sc) := add_env_item [] rd sc st in
    let st := do_bind rk sc st in
    let '(st, sc) := add_ext ext sc st in
    do_bind contents sc st
  | Fun_ _ f r rest =>
    let '(st, sc) := get_bindings f [] sc st in
    let st := do_bind f sc st in
    let '(st, sc) := get_bindings r [] sc st in
    let st := do_bind r sc st in
    let st := do_bind f sc st in
    let st := do_bind r sc st in
    do_bind rest sc st
  | Poly _ f b =>
    let '(st, sc) := get_bindings f [] sc st in
    let st := do_bind f sc st in
    let st := do_bind f sc st in
    do_bind b sc st
  | ForIn _ x seq b =>
    let st := do_bind seq sc st in
    let '(st, sc) := get_bindings x [] sc st in
    let st := do_bind x sc st in
    do_bind b sc st
  | Ctrl e x set =>
    let st := do_bind set sc st in
    let '(st, sc) := get_bindings x [] sc st in
    let st := do_bind x sc st in
    do_bind e sc st
  end.

(** aps-bind.c:208-234 [bind_Program]: [basic] is Some of the program "basic" unless p is
    that program itself.  Not modelled: the binding of the programs p uses (their own
    bind_Program), the pass of set_next_fields (NextModel) and activate_pragmas. *)
Definition bind_Program (basic : option node) (p : node) : state :=
  let st := mkS 0 (fun _ => None) [] in
  let '(st, sc) := match basic with Some b => get_public_bindings b [] [] st | None => (st, []) end in
  let '(st, sc) := get_bindings p [] sc st in
  match sc with [] => st | _ => do_bind p sc st end.
