(** * GbModel: how the dependency graph of a rule is built from the text of the rule.

    Models /repo/analyze/aps-dnc.c:441-2014: the numbering of tests and the conditions of
    statements (441-633), the attribute instances (655-920), the edges for expressions,
    conditions, assignments and statements (996-1746) and their use for a rule
    (1835-2014), for top-level matches.  Not modelled: module bodies, function bodies
    (parameters and results), procedure calls, the flags of aps-dnc.c:2018-2110 (whether a
    formal is the left-hand side or a child is part of the rule here), warnings and
    messages.  Declarations, fibers and phyla are numbers. *)
From Verif Require Import Base CondModel.
Open Scope nat_scope.

Notation decl := nat (only parsing).
Notation fiber := nat (only parsing).
(** Expressions as the builder tells them apart (aps-dnc.c:1180-1188).  [EUse] is a use of a
    declaration of the rule (a local, a pattern variable, a node) or of something outside
    that is not shared; [EShared] of a shared declaration of the module (1209-1211);
    [EAttr n a] is attribute a of the node declared by n (attr_ref_p; on anything but a
    use, aps-dnc.c:1157-1169 is fatal); [EField] field_ref_p; [ECall p f l] a call of a
    function of the module, p being its proxy (877-888); [EOther] any other call, and
    [repeat] (1202-1205); the label g is for the reader (which operation). *)
Inductive expr :=
| EConst
| EUse (d : decl)
| EShared (d : decl)
| EAttr (n a : decl)
| EField (fld : decl) (o : expr)
| ECall (p f : decl) (args : exprs)
| EOther (g : nat) (args : exprs)
with exprs := ENil | ECons (e : expr) (es : exprs).
(** Patterns: aps-tree.aps:290-312; a call's function part is no variable or condition. *)
Inductive pat :=
| PVar (d : decl)
| PCond (e : expr)
| PAnd (p q : pat)
| PCall (ps : pats)
| PChoice (ps : pats)
| PNone
with pats := PNil | PCons (p : pat) (ps : pats).
(** aps-tree.aps:165-171; for [simple] the fields of the constructor that is called, if it
    is one (constructor_call_p and the NEXT_FIELD chain, aps-dnc.c:1541-1563). *)
Inductive default := DNone | DSimple (e : expr) (fields : list decl) | DComposite (e : expr).
(** Statements; k is where count_if_rules puts the number of a test (aps-info.h:39,113). *)
Inductive stmt :=
| SAssign (l r : expr)
| SLocal (d : decl) (def : default)
| SIf (k : nat) (e : expr) (t f : block)
| SCase (e : expr) (ms : matches) (d : block)
| SFor (e : expr) (ms : matches)
| SForIn (d : decl) (e : expr) (b : block)
with block := BNil | BCons (s : stmt) (b : block)
with matches := MNil | MCons (k : nat) (p : pat) (b : block) (ms : matches).

(** match ?lhs=?con(?kid, ...) begin ... end *)
Record grule := mkRule { r_lhs : decl; r_phy : decl; r_kids : list (decl * option decl); r_body : block }.
(** What the earlier phases found out. *)
Record genv := mkEnv {
  e_fibers : list fiber;                       (** s->fibers *)
  e_base : fiber;                              (** base_fiber *)
  e_longer : decl -> fiber -> option fiber;    (** assoc(field, f->longer) *)
  e_reverse : fiber -> bool;                   (** fiber_is_reverse *)
  e_normal : decl -> list fiber;               (** FIBERSET_NORMAL_FINAL *)
  e_backward : decl -> list fiber;             (** FIBERSET_REVERSE_FINAL *)
  e_attrs : decl -> list decl;                 (** attrset_for, of a phylum or function *)
  e_circ : decl -> bool;                       (** decl_is_circular *)
  e_shinfo : decl -> decl;                     (** phylum_shared_info_attribute *)
  e_rfield : decl -> decl;                     (** reverse_field *)
  e_result : decl -> decl;                     (** some_function_decl_result *)
  e_formals : decl -> list decl;               (** function_type_formals *)
  e_old : decl -> nat                          (** instance_index left by another rule *)
}.

(** ** Numbering the tests *)
Fixpoint count_matches (ms : matches) : nat := match ms with MNil => 0 | MCons _ _ _ ms => S (count_matches ms) end.
(** aps-dnc.c:441-463 [count_if_rules]: an if, and each match of a case (all of them before
    anything inside the case), gets the next number; the matches of a [for] get none
    (they keep what is there). *)
Fixpoint number_stmt (n : nat) (s : stmt) : stmt * nat :=
  match s with
  | SAssign l r => (SAssign l r, n)
  | SLocal d def => (SLocal d def, n)
  | SIf _ e t f => let '(t', n1) := number_block (S n) t in let '(f', n2) := number_block n1 f in (SIf n e t' f', n2)
  | SCase e ms d => let '(ms', n1) := number_matches (Some n) (n + count_matches ms) ms in let '(d', n2) := number_block n1 d in (SCase e ms' d', n2)
  | SFor e ms => let '(ms', n1) := number_matches None n ms in (SFor e ms', n1)
  | SForIn d e b => let '(b', n1) := number_block n b in (SForIn d e b', n1)
  end
with number_block (n : nat) (b : block) : block * nat :=
  match b with
  | BNil => (BNil, n)
  | BCons s b => let '(s', n1) := number_stmt n s in let '(b', n2) := number_block n1 b in (BCons s' b', n2)
  end
with number_matches (own : option nat) (n : nat) (ms : matches) : matches * nat :=
  match ms with
  | MNil => (MNil, n)
  | MCons k p b ms => let '(b', n1) := number_block n b in let '(ms', n2) := number_matches (option_map S own) n1 ms in
                      (MCons (match own with Some i => i | None => k end) p b' ms', n2)
  end.

(** ** Conditions of statements *)
Definition bit (k : nat) : N := N.shiftl 1 (N.of_nat k).
Definition no_cond : condition := mkCond 0 0.
Definition pos_cond (c : condition) (k : nat) : condition := mkCond (N.lor (positive c) (bit k)) (negative c).
Definition neg_cond (c : condition) (k : nat) : condition := mkCond (positive c) (N.lor (negative c) (bit k)).
(** aps-dnc.c:605-610 and 623-628: after the body of a match the positive bit is cleared;
    for a case the negative one is set *)
Definition past_match (isfor : bool) (c : condition) (k : nat) : condition :=
  mkCond (N.ldiff (N.lor (positive c) (bit k)) (bit k)) (if isfor then negative c else N.lor (negative c) (bit k)).
(** aps-dnc.c:568-633 [init_decl_cond], the conditions of the tests (if_rule_cond, 541-550):
    the decl_cond of an if, the match_cond of a match of a case. *)
Fixpoint past_all (c : condition) (ms : matches) : condition :=
  match ms with MNil => c | MCons k _ _ ms => past_all (past_match false c k) ms end.
Record gtest := mkTest { t_num : nat; t_if : bool; t_cond : condition }.
Fixpoint tests_stmt (c : condition) (s : stmt) : list gtest :=
  match s with
  | SAssign _ _ | SLocal _ _ => []
  | SIf k _ t f => mkTest k true c :: tests_block (pos_cond c k) t ++ tests_block (neg_cond c k) f
  | SCase _ ms d => tests_matches false c ms ++ tests_block (past_all c ms) d
  | SFor _ ms => tests_matches true c ms
  | SForIn _ _ b => tests_block c b
  end
with tests_block (c : condition) (b : block) : list gtest :=
  match b with BNil => [] | BCons s b => tests_stmt c s ++ tests_block c b end
with tests_matches (isfor : bool) (c : condition) (ms : matches) : list gtest :=
  match ms with
  | MNil => []
  | MCons k _ b ms => (if isfor then [] else [mkTest k false c]) ++ tests_block (pos_cond c k) b ++ tests_matches isfor (past_match isfor c k) ms
  end.

(** aps-dnc.c:568-633 [init_decl_cond], the decl_cond of every statement.  (The builder below
    passes the same conditions down instead of reading them from the statements.) *)
Fixpoint conds_stmt (c : condition) (s : stmt) : list (stmt * condition) :=
  (s, c) :: match s with
  | SAssign _ _ | SLocal _ _ => []
  | SIf k _ t f => conds_block (pos_cond c k) t ++ conds_block (neg_cond c k) f
  | SCase _ ms d => conds_matches false c ms ++ conds_block (past_all c ms) d
  | SFor _ ms => conds_matches true c ms
  | SForIn _ _ b => conds_block c b
  end
with conds_block (c : condition) (b : block) : list (stmt * condition) :=
  match b with BNil => [] | BCons s b => conds_stmt c s ++ conds_block c b end
with conds_matches (isfor : bool) (c : condition) (ms : matches) : list (stmt * condition) :=
  match ms with
  | MNil => []
  | MCons k _ b ms => conds_block (pos_cond c k) b ++ conds_matches isfor (past_match isfor c k) ms
  end.

(** ** Instances *)
(** The attribute of an instance is a declaration or a test ("kludge", 1958-1960). *)
Inductive attr := AD (d : decl) | AT (k : nat).
Record ainst := mkInst { i_attr : attr; i_fiber : option fiber; i_node : option decl }.
(** What a traversal with [get_instances] (696-901) does: set the instance_index of a
    declaration to the number of instances so far, or create an instance.  The two
    traversals (counting, then filling the array at the same places) are one list here. *)
Inductive item := Index (d : decl) | Inst (i : ainst).
Section BUILD.
Context (E : genv) (R : grule).
(** aps-dnc.c:673-689 [assign_instances] *)
Definition with_fibers (a : decl) (n : option decl) : list item :=
  Inst (mkInst (AD a) None n) :: map (fun f => Inst (mkInst (AD a) (Some f) n)) (e_normal E a) ++ map (fun f => Inst (mkInst (AD a) (Some f) n)) (e_backward E a).
(** 762-838 with the flags set (a node), 872-894 (a call) *)
Definition node_items (n phy : decl) : list item := Index n :: flat_map (fun a => with_fibers a (Some n)) (e_attrs E phy).
(** 762-804 without the flags *)
Definition local_items (d : decl) : list item := Index d :: with_fibers d None.
Fixpoint items_expr (e : expr) : list item :=
  match e with
  | EConst | EUse _ | EShared _ | EAttr _ _ => []
  | EField _ o => items_expr o
  | ECall p f args => node_items p f ++ items_exprs args
  | EOther _ args => items_exprs args
  end
with items_exprs (es : exprs) : list item := match es with ENil => [] | ECons e es => items_expr e ++ items_exprs es end.
Fixpoint items_pat (p : pat) : list item :=
  match p with
  | PVar d => local_items d
  | PCond e => items_expr e
  | PAnd p q => items_pat p ++ items_pat q
  | PCall ps | PChoice ps => items_pats ps
  | PNone => []
  end
with items_pats (ps : pats) : list item := match ps with PNil => [] | PCons p ps => items_pat p ++ items_pats ps end.
Definition items_default (d : default) : list item := match d with DNone => [] | DSimple e _ | DComposite e => items_expr e end.
Fixpoint items_stmt (s : stmt) : list item :=
  match s with
  | SAssign l r => items_expr l ++ items_expr r
  | SLocal d def => local_items d ++ items_default def
  | SIf _ e t f => items_expr e ++ items_block t ++ items_block f
  | SCase e ms d => items_expr e ++ items_matches ms ++ items_block d
  | SFor e ms => items_expr e ++ items_matches ms
  | SForIn d e b => local_items d ++ items_expr e ++ items_block b
  end
with items_block (b : block) : list item := match b with BNil => [] | BCons s b => items_stmt s ++ items_block b end
with items_matches (ms : matches) : list item := match ms with MNil => [] | MCons _ p b ms => items_pat p ++ items_block b ++ items_matches ms end.
(** The formals of the pattern come first; a child whose type is no phylum has no
    attributes. *)
Definition kid_items (k : decl * option decl) : list item := match snd k with Some phy => node_items (fst k) phy | None => [Index (fst k)] end.

(** From here on the body is numbered and n is the number of tests. *)
Section NUMBERED.
Context (b : block) (n : nat).
Definition items : list item := node_items (r_lhs R) (r_phy R) ++ flat_map kid_items (r_kids R) ++ items_block b.
Definition insts_of (l : list item) : list ainst := flat_map (fun it => match it with Inst i => [i] | Index _ => [] end) l.
(** aps-dnc.c:1950-1965: the tests come first *)
Definition instances : list ainst := map (fun k => mkInst (AT k) None None) (seq 0 n) ++ insts_of items.
Fixpoint index_in (d : decl) (here : nat) (l : list item) : option nat :=
  match l with
  | [] => None
  | Index d' :: l => if d' =? d then Some here else index_in d here l
  | Inst _ :: l => index_in d (S here) l
  end.
Definition tests : list gtest := tests_block no_cond b.
Definition test_of (k : nat) : option gtest := find (fun t => t_num t =? k) tests.
(** instance_index; if_index and instance_index are one slot (aps-info.h:39-40); of a Match
    (aps-info.h:110-117) the slot lies behind what is used, in memory cleared before use *)
Definition start (a : attr) (node : option decl) : nat :=
  match node, a with
  | Some m, _ => match index_in m n items with Some i => i | None => e_old E m end
  | None, AD d => match index_in d n items with Some i => i | None => e_old E d end
  | None, AT k => match test_of k with Some t => if t_if t then k else 0 | None => 0 end
  end.
Definition attr_eqb (a a' : attr) : bool := match a, a' with AD d, AD d' => d =? d' | AT k, AT k' => k =? k' | _, _ => false end.
Definition opt_eqb (x y : option nat) : bool := match x, y with Some a, Some b => a =? b | None, None => true | _, _ => false end.
Definition inst_eqb (i j : ainst) : bool := attr_eqb (i_attr i) (i_attr j) && opt_eqb (i_fiber i) (i_fiber j) && opt_eqb (i_node i) (i_node j).
Fixpoint scan (i : ainst) (here : nat) (l : list ainst) : option nat :=
  match l with [] => None | j :: l => if inst_eqb j i then Some here else scan i (S here) l end.
(** aps-dnc.c:903-920 [get_instance_or_null] *)
Definition get_instance (a : attr) (f : fiber) (node : option decl) : option nat :=
  let st := start a node in
  scan (mkInst a (if f =? e_base E then None else Some f) node) st (skipn st instances).

(** ** Edges *)
(** aps-dnc.c:1018-1022 *)
Record vertex := mkV { v_attr : attr; v_node : option decl; v_mod : list decl }.
(** aps-dnc.c:1006-1014 [dep_modifier_fiber] *)
Fixpoint mod_fiber (m : list decl) (f : fiber) : option fiber :=
  match m with [] => Some f | fld :: m => match mod_fiber m f with Some g => e_longer E fld g | None => None end end.
(** aps-dnc.c:1026-1031 [dep_vertex_instance] *)
Definition vertex_instance (v : vertex) (f : fiber) : option nat :=
  match mod_fiber (v_mod v) f with Some g => get_instance (v_attr v) g (v_node v) | None => None end.
Record gedge := mkEdge { d_src : nat; d_snk : nat; d_cond : condition; d_kind : N }.
Definition dependency : N := 15.
Definition control_dependency : N := 11.
Definition fiber_dependency : N := 13.
Definition carrying (k : N) : bool := negb (N.land k DEPENDENCY_MAYBE_CARRYING =? 0)%N.
Definition edge_if (i j : option nat) (c : condition) (k : N) : list gedge := match i, j with Some i, Some j => [mkEdge i j c k] | _, _ => [] end.
(** aps-dnc.c:1110-1155 [add_edges_to_graph], as the calls of add_edge_to_graph it makes *)
Definition add_edges (v1 v2 : vertex) (c : condition) (k : N) : list gedge :=
  edge_if (vertex_instance v1 (e_base E)) (vertex_instance v2 (e_base E)) c k ++
  if carrying k then
    flat_map (fun f => if f =? e_base E then []
                       else let i1 := vertex_instance v1 f in let i2 := vertex_instance v2 f in
                            if e_reverse E f then edge_if i2 i1 c (N.ldiff k DEPENDENCY_NOT_JUST_FIBER) else edge_if i1 i2 c (N.ldiff k DEPENDENCY_NOT_JUST_FIBER))
             (e_fibers E)
  else [].
Definition simply (d : decl) (k : N) : N := if e_circ E d then k else N.lor k DEPENDENCY_MAYBE_SIMPLE.
Definition not_carrying (k : N) : N := N.ldiff k DEPENDENCY_MAYBE_CARRYING.
Definition shared_info : vertex := mkV (AD (e_shinfo E (r_phy R))) (Some (r_lhs R)) [].
(** aps-dnc.c:1177-1300 [record_expression_dependencies].  A function is not circular for
    decl_is_circular (1059-1072), so the kind for the arguments of a call gets
    MAYBE_SIMPLE; the kind for its result does not. *)
Fixpoint rec_expr (sink : vertex) (c : condition) (k : N) (m : list decl) (e : expr) : list gedge :=
  match e with
  | EConst => []
  | EUse d => add_edges (mkV (AD d) None m) sink c (simply d k)
  | EShared d => add_edges shared_info sink c (not_carrying (simply d k)) ++
                 add_edges (mkV (v_attr shared_info) (v_node shared_info) (d :: m)) sink c (simply d k)
  | EAttr nd a => add_edges (mkV (AD a) (Some nd) m) sink c (simply a k)
  | EField fld o => rec_expr sink c (not_carrying (simply fld k)) [] o ++ rec_expr sink c (simply fld k) (fld :: m) o
  | ECall p f args => (match m with [] => rec_exprs sink c (not_carrying (N.lor k DEPENDENCY_MAYBE_SIMPLE)) [] args | _ => [] end) ++
                      add_edges (mkV (AD (e_result E f)) (Some p) m) sink c k
  | EOther _ args => rec_exprs sink c k m args
  end
with rec_exprs (sink : vertex) (c : condition) (k : N) (m : list decl) (es : exprs) : list gedge :=
  match es with ENil => [] | ECons e es => rec_expr sink c k m e ++ rec_exprs sink c k m es end.
(** aps-dnc.c:1304-1326 [record_condition_dependencies] *)
Definition rec_cond (sink : vertex) (c : condition) : list gedge :=
  flat_map (fun i => if N.testbit (N.lor (positive c) (negative c)) (N.of_nat i) then
                       match test_of i with Some t => add_edges (mkV (AT i) None []) sink (t_cond t) control_dependency | None => [] end
                     else []) (seq 0 n).
Definition assigned (sink : vertex) (c : condition) (k : N) (rhs : expr) : list gedge := rec_expr sink c k [] rhs ++ rec_cond sink c.
(** aps-dnc.c:1342-1465 [record_lhs_dependencies]; [top] is EXPR_IS_LHS, set only on the
    left-hand side itself (aps-fiber.c:877).  A call of a function of the module makes the
    code read the uninitialised [decl] (1445-1447): see [lhs_undefined]. *)
Fixpoint rec_lhs (top : bool) (l : expr) (c : condition) (k : N) (m : list decl) (rhs : expr) : list gedge :=
  match l with
  | EConst => []
  | EUse d => assigned (mkV (AD d) None m) c k rhs
  | EShared d => assigned (mkV (v_attr shared_info) (v_node shared_info) ((if top then e_rfield E d else d) :: m)) c k rhs
  | EAttr nd a => assigned (mkV (AD a) (Some nd) m) c k rhs
  | EField fld o => let m' := (if top then e_rfield E fld else fld) :: m in
                    rec_lhs false o c k m' rhs ++ rec_lhs false o c control_dependency m' o
  | ECall _ _ _ => []
  | EOther _ args => rec_lhss args c k m rhs
  end
with rec_lhss (ls : exprs) (c : condition) (k : N) (m : list decl) (rhs : expr) : list gedge :=
  match ls with ENil => [] | ECons l ls => rec_lhs false l c k m rhs ++ rec_lhss ls c k m rhs end.
Fixpoint lhs_undefined (l : expr) : bool :=
  match l with
  | EField _ o => lhs_undefined o
  | ECall _ _ _ => true
  | EOther _ args => lhss_undefined args
  | _ => false
  end
with lhss_undefined (ls : exprs) : bool := match ls with ENil => false | ECons l ls => lhs_undefined l || lhss_undefined ls end.
(** aps-dnc.c:1687-1742 [get_edges] on the expressions of a declaration with condition c *)
Fixpoint rec_actuals (p : decl) (c : condition) (fs : list decl) (args : exprs) : list gedge :=
  match fs, args with
  | f :: fs, ECons a args => rec_expr (mkV (AD f) (Some p) []) c dependency [] a ++ rec_cond (mkV (AD f) (Some p) []) c ++ rec_actuals p c fs args
  | _, _ => []
  end.
Fixpoint call_edges (c : condition) (e : expr) : list gedge :=
  match e with
  | EConst | EUse _ | EShared _ | EAttr _ _ => []
  | EField _ o => call_edges c o
  | ECall p f args =>
      rec_cond (mkV (AD (e_result E f)) (Some p) []) c ++
      rec_actuals p c (e_formals E f) args ++
      add_edges shared_info (mkV (AD (e_shinfo E f)) (Some p) []) c dependency ++ rec_cond (mkV (AD (e_shinfo E f)) (Some p) []) c ++
      calls_edges c args
  | EOther _ args => calls_edges c args
  end
with calls_edges (c : condition) (es : exprs) : list gedge := match es with ENil => [] | ECons e es => call_edges c e ++ calls_edges c es end.
(** aps-dnc.c:482-511 [get_match_tests]: the conditions of a pattern, last first; what is
    inside a choice is not looked at (Patterns is none of the phyla it knows) *)
Fixpoint pat_conds (p : pat) (acc : list expr) : list expr :=
  match p with
  | PCond e => e :: acc
  | PAnd p q => pat_conds q (pat_conds p acc)
  | PCall ps => pats_conds ps acc
  | PVar _ | PChoice _ | PNone => acc
  end
with pats_conds (ps : pats) (acc : list expr) : list expr := match ps with PNil => acc | PCons p ps => pats_conds ps (pat_conds p acc) end.
(** aps-dnc.c:1639-1655, the loop over the matches of a case (condition c); for a [for] the
    Match is no instance, so that nothing is added *)
Fixpoint match_edges (c : condition) (chain : list expr) (ms : matches) : list gedge :=
  match ms with
  | MNil => []
  | MCons k p _ ms =>
      let chain := pat_conds p chain in let sink := mkV (AT k) None [] in
      rec_cond sink c ++ flat_map (fun e => rec_expr sink c control_dependency [] e) chain ++ match_edges c chain ms
  end.
(** aps-dnc.c:1507-1520 (the variables of a pattern: init_decl_cond does not come here, so
    their decl_cond is empty) and 1687-1742 (the calls in its conditions) *)
Fixpoint pat_edges (c : condition) (e : expr) (p : pat) : list gedge :=
  match p with
  | PVar d => rec_cond (mkV (AD d) None []) no_cond ++ rec_expr (mkV (AD d) None []) no_cond dependency [] e
  | PCond e' => call_edges c e'
  | PAnd p q => pat_edges c e p ++ pat_edges c e q
  | PCall ps | PChoice ps => pats_edges c e ps
  | PNone => []
  end
with pats_edges (c : condition) (e : expr) (ps : pats) : list gedge := match ps with PNil => [] | PCons p ps => pat_edges c e p ++ pats_edges c e ps end.
(** aps-dnc.c:1521-1575, a local declaration *)
Definition local_edges (c : condition) (d : decl) (def : default) : list gedge :=
  let sink := mkV (AD d) (Some (r_lhs R)) [] in
  rec_cond sink c ++
  match def with
  | DNone => []
  | DSimple e fields =>
      rec_expr sink c dependency [] e ++ rec_expr (mkV (AD d) None []) c dependency [] e ++
      flat_map (fun f => add_edges (mkV (AD d) None [e_rfield E f]) (mkV (AD d) None [f]) c
                           (if e_circ E f then N.ldiff fiber_dependency DEPENDENCY_MAYBE_SIMPLE else N.lor fiber_dependency DEPENDENCY_MAYBE_SIMPLE)) fields ++
      call_edges c e
  | DComposite e => rec_expr sink c dependency [] e ++ call_edges c e
  end.
(** aps-dnc.c:1476-1746 [get_edges] *)
Fixpoint edges_stmt (c : condition) (s : stmt) : list gedge :=
  match s with
  | SAssign l r => rec_lhs true l c dependency [] r ++ call_edges c l ++ call_edges c r
  | SLocal d def => local_edges c d def
  | SIf k e t f => rec_cond (mkV (AT k) None []) c ++ rec_expr (mkV (AT k) None []) c control_dependency [] e ++ call_edges c e ++
                   edges_block (pos_cond c k) t ++ edges_block (neg_cond c k) f
  | SCase e ms d => match_edges c [e] ms ++ call_edges c e ++ edges_matches false c e c ms ++ edges_block (past_all c ms) d
  | SFor e ms => call_edges c e ++ edges_matches true c e c ms
  | SForIn d e b => rec_cond (mkV (AD d) None []) c ++ rec_expr (mkV (AD d) None []) c dependency [] e ++ call_edges c e ++ edges_block c b
  end
with edges_block (c : condition) (b : block) : list gedge := match b with BNil => [] | BCons s b => edges_stmt c s ++ edges_block c b end
with edges_matches (isfor : bool) (c0 : condition) (e : expr) (c : condition) (ms : matches) : list gedge :=
  match ms with
  | MNil => []
  | MCons k p b ms => pat_edges c0 e p ++ edges_block (pos_cond c k) b ++ edges_matches isfor c0 e (past_match isfor c k) ms
  end.
(** aps-dnc.c:1992-2012: the shared information goes to every child *)
Definition shared_edges : list gedge :=
  flat_map (fun k => match snd k with Some phy => add_edges shared_info (mkV (AD (e_shinfo E phy)) (Some (fst k)) []) no_cond dependency | None => [] end) (r_kids R).
Definition edges : list gedge := edges_block no_cond b ++ shared_edges.
End NUMBERED.
Fixpoint undefined_stmt (s : stmt) : bool :=
  match s with
  | SAssign l _ => lhs_undefined l
  | SLocal _ _ => false
  | SIf _ _ t f => undefined_block t || undefined_block f
  | SCase _ ms d => undefined_matches ms || undefined_block d
  | SFor _ ms => undefined_matches ms
  | SForIn _ _ b => undefined_block b
  end
with undefined_block (b : block) : bool := match b with BNil => false | BCons s b => undefined_stmt s || undefined_block b end
with undefined_matches (ms : matches) : bool := match ms with MNil => false | MCons _ _ b ms => undefined_block b || undefined_matches ms end.
(** aps-dnc.c:1835-2014 [init_augmented_dependency_graph] of a top-level match: the
    instances and the calls of add_edge_to_graph, in order. *)
Record built := mkBuilt { b_body : block; b_tests : list gtest; b_insts : list ainst; b_edges : list gedge }.
Definition build : res built :=
  let '(b, n) := number_block 0 (r_body R) in
  if 32 <? n then Exit
  else if undefined_block b then UB
  else Ok (mkBuilt b (tests b) (instances b n) (edges b n)).
End BUILD.
