(** * GenModel: the visit procedures made from a total order.

    Models the generation of code in /repo/codegen/static-scc-impl.cc, compiled with
    APS2SCALA defined.
    - The text is a list of tokens, one for each piece of code; indentation and the text
      of expressions and patterns are left out, and so is [debug].
    - An Expression is its address (0 is NULL); std::set<Expression> is the sorted list
      of its elements.  loop_id and chunk_index are [None] for -1.
    - Every instance has an attribute (fibered_attr.attr is not NULL).
    - implement_visit_function returns false in all cases, so its result is left out. *)
From Verif Require Import Base CondModel OagModel ChunkModel.
Open Scope nat_scope.

(** ** The rule *)
(** normal_assign (true) or collect_assign, Expression_info(assign_rhs(d))->value_for
    and assign_rhs(d) *)
Record gassign := mkGA { ga_normal : bool; ga_for : option nat; ga_rhs : Z }.
(** the assignments directly in a Block *)
Definition gblock := list gassign.
(** Expression_KEY(assign_lhs(d)) and field_ref_p *)
Inductive lhs_kind := LValueUse | LFieldRef | LCall | LOther.
(** in->node: NULL, the declarations by their key *)
Inductive node_kind := NNone | NAssign | NPragma | NFunction | NValue | NNode.
(** what is asked about an instance that is neither a test nor a for-in *)
Record place := mkPlace {
  pl_node : node_kind;
  pl_lhs : bool;         (** in->node == aug_graph->lhs_decl *)
  pl_fiber : bool;       (** in->fibered_attr.fiber != NULL *)
  pl_local_attr : bool;  (** LOCAL_ATTRIBUTE_FLAG of the attribute *)
  pl_prefix : nat;       (** LOCAL_UNIQUE_PREFIX *)
  pl_shared : bool;      (** ATTR_DECL_IS_SHARED_INFO *)
  pl_updown : bool       (** ATTR_DECL_IS_UP_DOWN *)
}.
(** The attribute of an instance: an if_stmt with its two blocks; a Match with the
    case_stmt it is in, whether it is the first there, its body and, for the last one, the
    default block; the formal of a for_in_stmt; anything else. *)
Inductive gkind :=
  | GIf (index : nat) (if_true if_false : gblock)
  | GMatch (index header : nat) (first : bool) (if_true : gblock) (if_false : option gblock)
  | GForIn (stmt : nat) (body : gblock)
  | GPlain (p : place).
(** instance_condition, instance_direction(in) == instance_inward; the default that
    make_instance_assignment inserts: None if it inserts nothing, Some 0 for NULL *)
Record ginst := mkGI { gi_cond : condition; gi_inward : bool; gi_default : option Z; gi_kind : gkind }.
(** The augmented dependency graph, the PHY_GRAPHs of lhs_decl and of the children, nch,
    whether syntax_decl is a module, include_comments, and the left hand side of the
    assignment an expression is the right hand side of. *)
Record gen := mkGen { g_insts : list ginst; g_parent : phy; g_children : list (option phy); g_nch : Z; g_mod : bool; g_comments : bool; g_lhs : Z -> lhs_kind }.

(** ** The text *)
Inductive token :=
  | TNote                           (** a comment *)
  | TDo (id : nat)                  (** val prevChanged_id = changed; do { changed = false; *)
  | TWhile (id : nat)               (** } while(changed); changed = prevChanged_id; *)
  | TLet (header : nat)             (** val node = e; *)
  | TIf (i : nat)                   (** if (e) { *)
  | TMatch (i : nat)                (** node match { case p => { *)
  | TElse                           (** } else {, } case _ => { *)
  | TEndIf                          (** }, }} *)
  | TFor (stmt : nat)               (** for (v_x <- e) { *)
  | TEndFor                         (** } *)
  | TRoots (ph : nat)               (** for (root <- roots) { visit_n_ph(root); } *)
  | TVisit (ch ph : nat)            (** visit_n_ph(v_child); *)
  | TSet (i : nat) (rhs : Z).       (** assignment of an instance *)

(** static-scc-impl.cc:33-94 [OutputWriter]: what is written, and the markers of the items
    that are not written yet *)
Record writer := mkW { w_out : list token; w_queue : list nat }.
Definition contains_marker (w : writer) (id : nat) : bool := existsb (Nat.eqb id) (w_queue w).
(** 64-67: get_outstream() and then << *)
Definition put (ts : list token) (w : writer) : writer := mkW (w_out w ++ map TDo (w_queue w) ++ ts) [].
Definition note (G : gen) (w : writer) : writer := if g_comments G then put [TNote] w else w.
(** 69-79 *)
Definition queue_write (id : nat) (w : writer) : res writer :=
  if contains_marker w id then Exit else Ok (mkW (w_out w) (w_queue w ++ [id])).
(** 83-93 *)
Fixpoint until (id : nat) (q : list nat) : list nat :=
  match q with [] => [] | x :: q => if Nat.eqb x id then [] else x :: until id q end.
Definition clear_since (id : nat) (w : writer) : writer := mkW (w_out w) (until id (w_queue w)).
(** 183-202 [dump_loop_end]; 204-229 [dump_loop_start] *)
Definition dump_loop_end (id : nat) (w : writer) : writer :=
  if contains_marker w id then clear_since id w else put [TWhile id] w.
Definition dump_loop_start (id : nat) (w : writer) : res writer := queue_write id w.
(** if (loop_allowed && loop_id != -1) { dump_loop_end(...) } *)
Definition close_loop (allowed : bool) (loop : option nat) (w : writer) : writer :=
  match loop with Some id => if allowed then dump_loop_end id w else w | None => w end.

(** ** The assignments *)
Fixpoint insert (e : Z) (s : list Z) : list Z :=
  match s with [] => [e] | x :: s' => if Z.ltb e x then e :: s else if Z.eqb e x then s else x :: insert e s' end.
(** 117-134: the defaults *)
Definition insert_default (G : gen) (array : list (list Z)) (i : nat) : res (list (list Z)) :=
  gi <- rd (g_insts G) i ;;
  match gi_default gi with
  | None => Ok array
  | Some e => s <- rd array i ;; wr array i (insert e s)
  end.
(** 136-170: one declaration in step 1 (true) or 2 *)
Definition assign_step (G : gen) (step1 : bool) (array : list (list Z)) (d : gassign) : res (list (list Z)) :=
  match ga_for d with
  | None => Ok array
  | Some i =>
    if length (g_insts G) <=? i then Exit else
    if ga_normal d then wr array i [ga_rhs d] else
    if step1 then wr array i [] else s <- rd array i ;; wr array i (insert (ga_rhs d) s)
  end.
(** 109-174 [make_instance_assignment] *)
Definition make_instance_assignment (G : gen) (b : gblock) (from : list (list Z)) : res (list (list Z)) :=
  array <- foldM (insert_default G) (seq 0 (length (g_insts G))) from ;;
  array <- foldM (assign_step G true) b array ;;
  foldM (assign_step G false) b array.

(** 590-748: the code for one right hand side *)
Definition assign_tokens (G : gen) (i : nat) (p : place) (ch : Z) (rhs : Z) (w : writer) : res writer :=
  if Z.eqb rhs 0 then Ok w else
  match pl_node p with
  | NAssign | NPragma => Ok (note G w)
  | nk =>
    if pl_fiber p then
      match g_lhs G rhs with LValueUse | LFieldRef => Ok (put [TSet i rhs] w) | _ => Exit end
    else
    match nk with
    | NNone =>
      if pl_local_attr p then Ok (put [TSet i rhs] w) else
      if pl_prefix p =? 0 then Ok (note G w) else Ok (put [TSet i rhs] w)
    | _ =>
      if Z.ltb ch (g_nch G) || pl_lhs p then
        if pl_shared p && Z.ltb ch (g_nch G) then Ok (note G w) else
        if pl_updown p then Ok (note G w) else Ok (put [TSet i rhs] w)
      else match nk with NValue => Ok (put [TSet i rhs] w) | _ => Ok (put [TNote] w) end
    end
  end.
Definition assigns_tokens (G : gen) (i : nat) (p : place) (ch : Z) (s : list Z) (w : writer) : res writer :=
  foldM (fun w rhs => assign_tokens G i p ch rhs w) s w.

(** ** The procedures *)
(** 274-303: a new chunk begins; the result is loop_id *)
Definition next_chunk (G : gen) (phase : nat) (allowed : bool) (chunk loop : option nat) (ck : nat) (circular : bool) (w : writer) : res (option nat * writer) :=
  match chunk with
  | None => Ok (loop, w)
  | Some c =>
    if g_mod G || (ck =? c) then Ok (loop, w) else
    let w := note G w in
    let w := close_loop allowed loop w in
    let loop := if allowed then None else loop in
    let w := note G w in
    if allowed && circular then
      flag <- rd (cyclic_flags (g_parent G)) phase ;;
      if flag : bool then Ok (loop, note G w) else w <- dump_loop_start ck w ;; Ok (Some ck, w)
    else Ok (loop, w)
  end.
(** 320-372: the end of a visit of the node *)
Definition end_of_visit (G : gen) (allowed : bool) (loop : option nat) (ck : nat) (ph : nat) (w : writer) : res (option nat * writer) :=
  if g_mod G then
    flag <- rd (cyclic_flags (g_parent G)) ph ;;
    w <- (if flag && allowed then dump_loop_start ck w else Ok w) ;;
    let loop := if flag && allowed then Some ck else loop in
    let w := put [TRoots ph] w in
    let w := if flag then close_loop allowed loop w else w in
    let loop := if flag && allowed then None else loop in
    Ok (loop, note G w)
  else
    let w := note G w in
    Ok (if allowed then None else loop, close_loop allowed loop w).
(** 375-427: a visit of a child *)
Definition child_visit (G : gen) (phase : nat) (ch ph : nat) (w : writer) : res writer :=
  child <- rd (g_children G) ch ;;
  match child with
  | None => UB
  | Some pg =>
    pflag <- rd (cyclic_flags (g_parent G)) phase ;;
    (** the fatal error at 408-415 needs chunk_index == -1, and it has just been set *)
    _ <- (if g_comments G || negb pflag then rd (cyclic_flags pg) ph else Ok false) ;;
    Ok (put [TVisit ch ph] w)
  end.
(** 466-468, 491-493: inside a test or for-in loops are allowed unless there is one around it *)
Definition allowed_inside (allowed : bool) (loop : option nat) : bool := allowed && match loop with None => true | Some _ => false end.

(** 235-760 [implement_visit_function]; the CONDITION behind [cond] is threaded *)
Fixpoint implement_visit_function (G : gen) (phase : nat) (skip : bool) (t : cto) (asg : list (list Z)) (chunk : option nat) (allowed : bool) (loop : option nat) (cond : condition) (w : writer) : res (condition * writer) :=
  match t with
  | Null => Ok (cond, close_loop allowed loop w)
  | Node _ _ inst (ph, ch) visit ck circular if_true next =>
    gi <- match inst with Some i => x <- rd (g_insts G) i ;; Ok (Some (i, x)) | None => Ok None end ;;
    let always := match gi with Some (_, x) => match gi_kind x with GPlain _ => false | _ => true end | None => false end in
    '(loop, w) <- next_chunk G phase allowed chunk loop ck circular w ;;
    if skip && negb always && negb (visit =? phase) then implement_visit_function G phase skip next asg (Some ck) allowed loop cond w else
    match gi with
    | None =>
      if Z.eqb ch (-1) then
        if Z.ltb ph 0 then UB else
        '(loop, w) <- end_of_visit G allowed loop ck (Z.to_nat ph) w ;;
        if Z.eqb ph (Z.of_nat phase) then Ok (cond, w) else implement_visit_function G phase skip next asg (Some ck) allowed loop cond w
      else if Z.ltb (-1) ch then
        if Z.ltb ph 0 then UB else
        w <- child_visit G phase (Z.to_nat ch) (Z.to_nat ph) w ;;
        implement_visit_function G phase skip next asg (Some ck) allowed loop cond w
      else Exit
    | Some (i, x) =>
      if impossible (merge_cond cond (gi_cond x)) then implement_visit_function G phase skip next asg (Some ck) allowed loop cond (note G w) else
      match gi_kind x with
      | GForIn stmt body =>
        let w := put [TFor stmt] w in
        asg' <- make_instance_assignment G body asg ;;
        '(cond, w) <- implement_visit_function G phase skip next asg' (Some ck) (allowed_inside allowed loop) loop cond w ;;
        Ok (cond, close_loop allowed loop (put [TEndFor] w))
      | GPlain p =>
        if gi_inward x then implement_visit_function G phase skip next asg (Some ck) allowed loop cond (note G w) else
        s <- rd asg i ;;
        w <- assigns_tokens G i p ch s w ;;
        implement_visit_function G phase skip next asg (Some ck) allowed loop cond w
      | GIf index b1 b2 =>
        let cmask := N.shiftl 1 (N.of_nat index) in
        let w := put [TIf i] w in
        asg1 <- make_instance_assignment G b1 asg ;;
        '(cond, w) <- implement_visit_function G phase skip if_true asg1 (Some ck) (allowed_inside allowed loop) loop (mkCond (N.lor (positive cond) cmask) (negative cond)) w ;;
        let cond := mkCond (N.ldiff (positive cond) cmask) (negative cond) in
        let w := put [TElse] w in
        asg2 <- make_instance_assignment G b2 asg ;;
        '(cond, w) <- implement_visit_function G phase skip next asg2 (Some ck) (allowed_inside allowed loop) loop (mkCond (positive cond) (N.lor (negative cond) cmask)) w ;;
        let cond := mkCond (positive cond) (N.ldiff (negative cond) cmask) in
        Ok (cond, close_loop allowed loop (put [TEndIf] w))
      | GMatch index header first b1 b2 =>
        let cmask := N.shiftl 1 (N.of_nat index) in
        let w := if first then put [TLet header] w else w in
        let w := put [TMatch i] w in
        asg1 <- make_instance_assignment G b1 asg ;;
        '(cond, w) <- implement_visit_function G phase skip if_true asg1 (Some ck) (allowed_inside allowed loop) loop (mkCond (N.lor (positive cond) cmask) (negative cond)) w ;;
        let cond := mkCond (N.ldiff (positive cond) cmask) (negative cond) in
        let w := put [TElse] w in
        asg2 <- match b2 with Some b => make_instance_assignment G b asg | None => Ok asg end ;;
        '(cond, w) <- implement_visit_function G phase skip next asg2 (Some ck) (allowed_inside allowed loop) loop (mkCond (positive cond) (N.lor (negative cond) cmask)) w ;;
        let cond := mkCond (positive cond) (N.ldiff (negative cond) cmask) in
        Ok (cond, close_loop allowed loop (put [TEndIf] w))
      end
    end
  end.

(** the body of a procedure; ~OutputWriter (93) writes what is left *)
Definition generate (G : gen) (block : gblock) (t : cto) (phase : nat) (skip allowed : bool) : res (list token) :=
  asg <- make_instance_assignment G block (repeat [] (length (g_insts G))) ;;
  '(_, w) <- implement_visit_function G phase skip t asg None allowed None (mkCond 0 0) (mkW [] []) ;;
  Ok (w_out (put [] w)).
(** 867-907: the procedure for one phase; loop_required is a field of the STATE *)
Definition visit_procedure (G : gen) (block : gblock) (t : cto) (loop_required : bool) (phase : nat) : res (list token) := generate G block t phase true loop_required.
(** 1045-1114: visit() of the module *)
Definition module_visit (G : gen) (block : gblock) (t : cto) : res (list token) := generate G block t (max_phase (g_parent G)) false true.
(** 1138-1180 [dump_scheduled_function_body], without the return statement *)
Definition function_body (G : gen) (block : gblock) (t : cto) : res (list token) := generate G block t (max_phase (g_parent G)) false false.
