(** * DyModel: the dynamic code generator of aps2scala.

    Models /repo/aps2scala/dyn-impl.cc: the Scala functions that compute the value
    of an attribute, a local attribute, a global variable or a function result from
    the assignments in the program.

    Simplifications, for the whole file:
    - expressions, patterns, types, variables are opaque: numbers stand for their
      text; declarations are compared by number (pointers in C++);
    - the text is a list of tokens, one for each line the generator writes;
      indentation, comments and debugging output are left out;
    - after an error was reported ([aps_error]) the generator writes on; the model
      stops with [Exit];
    - [attr_context_depth] is 0 at the start (every push is followed by a pop). *)
From Verif Require Import Base.

Definition expr := nat.
Definition pat := nat.
Definition ty := nat.
Definition var := nat.
Definition decl := nat.

(** ** Programs (/repo/parse/aps-tree.aps, [Declaration]s that are statements) *)

(** The left hand side of an assignment: a variable (or function result), an
    attribute of a node, something else (/repo/aps2scala/dyn-impl.cc:228-247). *)
Inductive lhs := LValue (d : decl) | LAttr (d : decl) (n : expr) | LOther.

Inductive stmt :=
| SAssign (l : lhs) (r : expr)                       (* [:=] and [:>] (/repo/parse/aps-util.h:80) *)
| SIf (c : expr) (t f : list stmt)
| SCase (e : expr) (ms : list (pat * list stmt)) (df : list stmt)
| SFor (e : expr) (ms : list (pat * list stmt))
| SForIn (x : var) (e : expr) (b : list stmt)
| SLocal (x : var) (attr : bool) (init : option expr) (* [attr]: LOCAL_ATTRIBUTE_FLAG *)
| SOther.

(** A top-level match: the type of its pattern, the pattern, the body *)
Record tlm := { t_ty : ty; t_pat : pat; t_body : list stmt }.

(** ** Text *)
Inductive token :=
| KIf (c : expr)               (* { val cond = c; *)
| KThen                        (* if (cond) { *)
| KElse                        (* if (!cond) { *)
| KMatch (e : expr)            (* e match { *)
| KForStmt (e : expr)          (* { T node = e; Constructor* cons = ... (not Scala) *)
| KCase (p : pat)              (* case p => { *)
| KDefault                     (* case _ => { *)
| KForIn (x : var) (e : expr)  (* for (x <- e) { *)
| KNodes (t : ty)              (* for (anchor <- t.nodes) anchor match { *)
| KIfType (t : ty)             (* if (anchorNodes == t.nodes) anchor match { *)
| KAnchor                      (* anchor match { *)
| KSkip                        (* case _ => {} *)
| KClose                       (* } *)
| KReturn (g : option expr) (r : expr)   (* [if (anode eq g)] return r; *)
| KCollect (g : option expr) (r : expr)  (* [if (anode eq g)] collection = combine(collection,r); *)
| KVar (x : var) (e : expr)    (* var x = e; *)
| KDef                         (* def c_name(...) = { *)
| KColl (e : expr)             (* var collection = e; *)
| KSelf                        (* val anchor = anode; *)
| KParent                      (* val anchor = anode.parent; *)
| KIfParent                    (* if (!(anchor eq null)) { val anchorNodes = anchor.myType.nodes; *)
| KRetColl                     (* return collection; *)
| KRetDefault (e : expr)       (* return e; *)
| KThrow.                      (* throw UndefinedAttributeException *)

(** ** Contexts (dyn-impl.cc:37-50): statements, blocks, matches and types *)
Inductive ctx :=
| CIf (c : expr) | CThen | CElse
| CCase (e : expr) | CDefault
| CFor (e : expr)
| CForIn (x : var) (e : expr)
| CMatch (p : pat)
| CTlm (t : ty) | CBody | CType (t : ty).

(** dyn-impl.cc:37 *)
Definition MAXDEPTH : nat := 200.

(** [g_ctx]: [attr_context] up to [attr_context_depth]; [g_started]:
    [attr_context_started]; [g_out]: the text so far *)
Record gst := { g_ctx : list ctx; g_started : nat; g_out : list token }.

(** dyn-impl.cc:43-50 *)
Definition push (c : ctx) (g : gst) : res gst :=
  if MAXDEPTH <=? length (g_ctx g) then Exit
  else Ok {| g_ctx := g_ctx g ++ [c]; g_started := g_started g; g_out := g_out g |}.

(** dyn-impl.cc:52-157 *)
Definition open_ctx (c : ctx) : list token :=
  match c with
  | CIf c => [KIf c]
  | CCase e => [KMatch e]
  | CFor e => [KForStmt e]
  | CForIn x e => [KForIn x e]
  | CTlm t => [KNodes t]
  | CThen => [KThen]
  | CElse => [KElse]
  | CDefault => [KDefault]
  | CBody => [KAnchor]
  | CMatch p => [KCase p]
  | CType t => [KIfType t]
  end.

(** dyn-impl.cc:159-165 *)
Definition activate (g : gst) : gst :=
  {| g_ctx := g_ctx g; g_started := length (g_ctx g);
     g_out := g_out g ++ flat_map open_ctx (skipn (g_started g) (g_ctx g)) |}.

(** dyn-impl.cc:167-202 *)
Definition close_ctx (c : ctx) : list token :=
  match c with
  | CTlm _ | CType _ | CBody => [KSkip; KClose]
  | _ => [KClose]
  end.

(** dyn-impl.cc:204-211 *)
Definition pop (g : gst) : gst :=
  let depth := length (g_ctx g) - 1 in
  {| g_ctx := firstn depth (g_ctx g);
     g_started := Nat.min (g_started g) depth;
     g_out := g_out g ++ flat_map close_ctx (rev (skipn depth (firstn (g_started g) (g_ctx g)))) |}.

Definition put (t : token) (g : gst) : gst :=
  {| g_ctx := g_ctx g; g_started := g_started g; g_out := g_out g ++ [t] |}.

(** dyn-impl.cc:220-268; [d]: [vdecl]; [col]: the direction of [d] is a collection *)
Definition dump_attr_assign (d : decl) (col : bool) (l : lhs) (r : expr) (g : gst) : gst :=
  match l with
  | LValue d' =>
      if negb (d' =? d) then g
      else put (if col then KCollect None r else KReturn None r) (activate g)
  | LAttr d' n =>
      if negb (d' =? d) then g
      else put (if col then KCollect (Some n) r else KReturn (Some n) r) (activate g)
  | LOther => g
  end.

(** dyn-impl.cc:276-292; only locals with a simple default *)
Definition dump_local_decl (x : var) (init : option expr) (g : gst) : res gst :=
  match init with
  | Some e => Ok (put (KVar x e) (activate g))
  | None => Exit
  end.

(** dyn-impl.cc:295-303 ([dump_Matches]), 305-356 ([dump_Block]; [depends_on],
    lines 270-274, is always true) *)
Fixpoint dump_stmt (d : decl) (col : bool) (s : stmt) (g : gst) {struct s} : res gst :=
  let dump_Block := fix dump_Block (b : list stmt) (g : gst) : res gst :=
    match b with
    | [] => Ok g
    | s :: r => g <- dump_stmt d col s g ;; dump_Block r g
    end in
  let dump_Matches := fix dump_Matches (ms : list (pat * list stmt)) (g : gst) : res gst :=
    match ms with
    | [] => Ok g
    | (p, b) :: r =>
        g <- push (CMatch p) g ;;
        g <- dump_Block b g ;;
        dump_Matches r (pop g)
    end in
  match s with
  | SAssign l r => Ok (dump_attr_assign d col l r g)
  | SIf c t f =>
      g <- push (CIf c) g ;;
      g <- push CThen g ;;
      g <- dump_Block t g ;;
      g <- push CElse (pop g) ;;
      g <- dump_Block f g ;;
      Ok (pop (pop g))
  | SCase e ms df =>
      g <- push (CCase e) g ;;
      g <- dump_Matches ms g ;;
      g <- push CDefault g ;;
      g <- dump_Block df g ;;
      Ok (pop (pop g))
  | SFor e ms =>
      g <- push (CFor e) g ;;
      g <- dump_Matches ms g ;;
      Ok (pop g)
  | SLocal x attr init => if negb attr then dump_local_decl x init g else Ok g
  | SForIn x e b =>
      g <- push (CForIn x e) g ;;
      g <- dump_Block b g ;;
      Ok (pop g)
  | SOther => Exit
  end.

Fixpoint dump_Block (d : decl) (col : bool) (b : list stmt) (g : gst) : res gst :=
  match b with
  | [] => Ok g
  | s :: r => g <- dump_stmt d col s g ;; dump_Block d col r g
  end.

(** dyn-impl.cc:358-370; [def]: the value of a simple default *)
Definition dump_default_return (def : option expr) (col : bool) : token :=
  if col then KRetColl
  else match def with Some e => KRetDefault e | None => KThrow end.

(** The body of a match, within the contexts [c] and of the match
    (dyn-impl.cc:508-518, 559-568) *)
Definition dump_tlm (d : decl) (col : bool) (c : ctx) (m : tlm) (g : gst) : res gst :=
  g <- push c g ;;
  g <- push (CMatch (t_pat m)) g ;;
  g <- dump_Block d col (t_body m) g ;;
  Ok (pop (pop g)).
Fixpoint dump_tlms (d : decl) (col : bool) (c : tlm -> ctx) (ms : list tlm) (g : gst) : res gst :=
  match ms with
  | [] => Ok g
  | m :: r => g <- dump_tlm d col (c m) m g ;; dump_tlms d col c r g
  end.

(** What the generator knows about an attribute (or variable): the direction, the
    initial value of a collection (/repo/aps2scala/dump-scala.cc:2207-2230) and the
    default *)
Record attr := { a_decl : decl; a_inh : bool; a_col : bool; a_init : expr; a_default : option expr }.

Definition start : gst := {| g_ctx := []; g_started := 0; g_out := [] |}.

(** dyn-impl.cc:463-534.  The variable that line 485 gives the formal parameter
    the value of [anode] is taken to be known from the start. *)
Definition implement_attribute (a : attr) (tlms : list tlm) : res (list token) :=
  let g := put KDef start in
  let g := if a_col a then put (KColl (a_init a)) g
           else if a_inh a then put KIfParent (put KParent g)
           else put KSelf g in
  g <- dump_tlms (a_decl a) (a_col a)
         (fun m => if a_col a then CTlm (t_ty m) else if a_inh a then CType (t_ty m) else CBody)
         tlms g ;;
  let g := if a_inh a then put KClose g else g in
  let g := put (dump_default_return (a_default a) (a_col a)) g in
  Ok (g_out (put KClose g)).

(** dyn-impl.cc:536-581 *)
Definition implement_var_value_decl (a : attr) (tlms : list tlm) : res (list token) :=
  let g := put KDef start in
  let g := if a_col a then put (KColl (a_init a)) g else g in
  g <- dump_tlms (a_decl a) (a_col a) (fun m => CTlm (t_ty m)) tlms g ;;
  let g := put (dump_default_return (a_default a) (a_col a)) g in
  Ok (g_out (put KClose g)).

(** dyn-impl.cc:656-671; the braces are those of dump-scala.cc:1921-1930 *)
Definition implement_function_body (a : attr) (b : list stmt) : res (list token) :=
  let g := put KDef start in
  let g := if a_col a then put (KColl (a_init a)) g else g in
  g <- dump_Block (a_decl a) (a_col a) b g ;;
  let g := put (dump_default_return (a_default a) (a_col a)) g in
  Ok (g_out (put KClose g)).

(** ** Local attributes.  A step from the body of a top-level match to the block of
    a local attribute. *)
Inductive step := InThen (c : expr) | InElse (c : expr) | InMatch (e : expr) (p : pat) | InDefault (e : expr).

(** dump-scala.cc:796-836 ([dump_local_attributes]: which declarations become
    local attributes), together with the way [tnode_parent] leads from a
    declaration to its top-level match; for each the path, the variable and the
    block (dyn-impl.cc:372-379). *)
Fixpoint locals_stmt (path : list step) (b : list stmt) (s : stmt) {struct s}
    : list (list step * var * list stmt) :=
  let locals_Block := fix locals_Block (path : list step) (b ss : list stmt) :=
    match ss with
    | [] => []
    | s :: r => locals_stmt path b s ++ locals_Block path b r
    end in
  match s with
  | SLocal x _ _ => [(path, x, b)]
  | SIf c t f => locals_Block (path ++ [InThen c]) t t ++ locals_Block (path ++ [InElse c]) f f
  | SCase e ms df =>
      (fix go (ms : list (pat * list stmt)) :=
         match ms with
         | [] => []
         | (p, m) :: r => locals_Block (path ++ [InMatch e p]) m m ++ go r
         end) ms ++ locals_Block (path ++ [InDefault e]) df df
  | _ => []
  end.

(** dyn-impl.cc:381-414: opened for each match on the way *)
Definition step_begin (s : step) : list token :=
  match s with InMatch e p => [KMatch e; KCase p] | _ => [] end.
(** dyn-impl.cc:416-434 *)
Definition step_end (s : step) : list token :=
  match s with InMatch e p => [KClose; KClose] | _ => [] end.

(** dyn-impl.cc:436-461 *)
Definition implement_local_attribute (a : attr) (m : tlm) (path : list step) (b : list stmt)
    : res (list token) :=
  let g := {| g_ctx := []; g_started := 0;
              g_out := KDef :: KAnchor :: KCase (t_pat m) :: flat_map step_begin path |} in
  let g := if a_col a then put (KColl (a_init a)) g else g in
  g <- dump_Block (a_decl a) (a_col a) b g ;;
  let g := put (dump_default_return (a_default a) (a_col a)) g in
  Ok (g_out g ++ flat_map step_end path ++ [KClose; KClose] ++ [KClose]).
