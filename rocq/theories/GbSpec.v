(** * GbSpec: what a rule says, independently of how its dependencies are found. *)
From Verif Require Import Base CondModel PropsCond GbModel.
Open Scope nat_scope.

(** ** Which statements are executed *)
(** Whether test number k comes out true. *)
Definition yes (o : outcome) (k : nat) : bool := o (N.of_nat k).
(** The statements of a body that are executed when the tests come out as o says: a case
    takes the first match that succeeds. *)
Inductive executed (o : outcome) : stmt -> block -> Prop :=
| ex_here s b : executed o s (BCons s b)
| ex_later s s' b : executed o s b -> executed o s (BCons s' b)
| ex_then s k e t f b : yes o k = true -> executed o s t -> executed o s (BCons (SIf k e t f) b)
| ex_else s k e t f b : yes o k = false -> executed o s f -> executed o s (BCons (SIf k e t f) b)
| ex_case s e ms d b : executed_match o s ms d -> executed o s (BCons (SCase e ms d) b)
| ex_in s d e b' b : executed o s b' -> executed o s (BCons (SForIn d e b') b)
with executed_match (o : outcome) : stmt -> matches -> block -> Prop :=
| ex_match s k p b ms d : yes o k = true -> executed o s b -> executed_match o s (MCons k p b ms) d
| ex_next s k p b ms d : yes o k = false -> executed_match o s ms d -> executed_match o s (MCons k p b ms) d
| ex_default s d : executed o s d -> executed_match o s MNil d.

(** Test k is made: an if that is executed; a match of a case that is executed, if those
    before it fail. *)
Inductive comes_to (o : outcome) (k : nat) : matches -> Prop :=
| ct_here p b ms : comes_to o k (MCons k p b ms)
| ct_next k' p b ms : yes o k' = false -> comes_to o k ms -> comes_to o k (MCons k' p b ms).
Inductive made (o : outcome) (k : nat) (b : block) : Prop :=
| made_if e t f : executed o (SIf k e t f) b -> made o k b
| made_match e ms d : executed o (SCase e ms d) b -> comes_to o k ms -> made o k b.

(** ** The values a rule gives *)
(** Any meaning of the operations; [i_none] is the value where no fiber is tracked. *)
Record interp := mkI {
  V : Type;
  i_none : V; i_const : V;
  i_op : nat -> list decl -> list V -> V;      (** an operation; the fields followed from its result *)
  i_field : decl -> V -> V -> V;               (** a field: the object, what is in the field *)
  i_shared : decl -> V -> V -> V;
  i_call : decl -> list V -> V -> V;           (** a call: the arguments, the result *)
  i_store : list V -> V -> V;                  (** what is stored: the objects on the way, the value *)
  i_match : list pat -> V -> list V -> V;      (** does the last of these patterns match, and none before: the value, the conditions *)
  i_bind : decl -> V -> V; i_elem : V -> V;
  i_truth : V -> bool
}.
(** The conditions of a pattern, wherever they are. *)
Fixpoint all_conds (p : pat) : list expr :=
  match p with
  | PCond e => [e]
  | PAnd p q => all_conds p ++ all_conds q
  | PCall ps | PChoice ps => all_condss ps
  | PVar _ | PNone => []
  end
with all_condss (ps : pats) : list expr := match ps with PNil => [] | PCons p ps => all_conds p ++ all_condss ps end.
Fixpoint vars (p : pat) : list decl :=
  match p with
  | PVar d => [d]
  | PAnd p q => vars p ++ vars q
  | PCall ps | PChoice ps => varss ps
  | PCond _ | PNone => []
  end
with varss (ps : pats) : list decl := match ps with PNil => [] | PCons p ps => vars p ++ varss ps end.

Section MEANING.
Context (E : genv) (R : grule) (I : interp).
(** Where the value lies that is reached from an attribute through fields. *)
Definition place (a : attr) (node : option decl) (path : list decl) : option ainst :=
  match fold_right (fun fld acc => match acc with Some f => e_longer E fld f | None => None end) (Some (e_base E)) path with
  | Some f => Some (mkInst a (if f =? e_base E then None else Some f) node)
  | None => None
  end.
Definition read (sg : ainst -> V I) (a : attr) (node : option decl) (path : list decl) : V I :=
  match place a node path with Some p => sg p | None => i_none I end.
Definition info : attr := AD (e_shinfo E (r_phy R)).
(** The value reached from an expression through fields. *)
Fixpoint value (sg : ainst -> V I) (path : list decl) (e : expr) : V I :=
  match e with
  | EConst => i_const I
  | EUse d => read sg (AD d) None path
  | EShared d => i_shared I d (read sg info (Some (r_lhs R)) []) (read sg info (Some (r_lhs R)) (d :: path))
  | EAttr nd a => read sg (AD a) (Some nd) path
  | EField fld o => i_field I fld (value sg [] o) (value sg (fld :: path) o)
  | ECall p f args => i_call I f (match path with [] => values sg [] args | _ => [] end) (read sg (AD (e_result E f)) (Some p) path)
  | EOther g args => i_op I g path (values sg path args)
  end
with values (sg : ainst -> V I) (path : list decl) (es : exprs) : list (V I) :=
  match es with ENil => [] | ECons e es => value sg path e :: values sg path es end.
(** What gets a value. *)
Definition give (a : attr) (node : option decl) (path : list decl) (v : V I) : list (ainst * V I) :=
  match place a node path with Some p => [(p, v)] | None => [] end.
(** The calls in an expression get their arguments and the shared information. *)
Fixpoint give_actuals (sg : ainst -> V I) (p : decl) (fs : list decl) (args : exprs) : list (ainst * V I) :=
  match fs, args with
  | f :: fs, ECons a args => give (AD f) (Some p) [] (value sg [] a) ++ give_actuals sg p fs args
  | _, _ => []
  end.
Fixpoint calls (sg : ainst -> V I) (e : expr) : list (ainst * V I) :=
  match e with
  | EConst | EUse _ | EShared _ | EAttr _ _ => []
  | EField _ o => calls sg o
  | ECall p f args => give_actuals sg p (e_formals E f) args ++ give (AD (e_shinfo E f)) (Some p) [] (read sg info (Some (r_lhs R)) []) ++ callss sg args
  | EOther _ args => callss sg args
  end
with callss (sg : ainst -> V I) (es : exprs) : list (ainst * V I) := match es with ENil => [] | ECons e es => calls sg e ++ callss sg es end.
(** An assignment; assigning to a field is assigning to the reversed field; ps are the
    objects on the way. *)
Fixpoint assign (sg : ainst -> V I) (top : bool) (l : expr) (path : list decl) (ps : list (V I)) (v : V I) : list (ainst * V I) :=
  match l with
  | EConst | ECall _ _ _ => []
  | EUse d => give (AD d) None path (i_store I ps v)
  | EShared d => give info (Some (r_lhs R)) ((if top then e_rfield E d else d) :: path) (i_store I ps v)
  | EAttr nd a => give (AD a) (Some nd) path (i_store I ps v)
  | EField fld o => assign sg false o ((if top then e_rfield E fld else fld) :: path) (value sg [] o :: ps) v
  | EOther _ args => assigns sg args path ps v
  end
with assigns (sg : ainst -> V I) (ls : exprs) (path : list decl) (ps : list (V I)) (v : V I) : list (ainst * V I) :=
  match ls with ENil => [] | ECons l ls => assign sg false l path ps v ++ assigns sg ls path ps v end.
(** The matches of a case are tests. *)
Fixpoint give_tests (sg : ainst -> V I) (e : expr) (before : list pat) (ms : matches) : list (ainst * V I) :=
  match ms with
  | MNil => []
  | MCons k p _ ms => let ps := before ++ [p] in
                      give (AT k) None [] (i_match I ps (value sg [] e) (map (value sg []) (flat_map all_conds ps))) ++ flat_map (calls sg) (all_conds p) ++ give_tests sg e ps ms
  end.
(** Everything the body gives a value to when the tests come out as o says; sg are the
    values that are read.  [for] is left out. *)
Fixpoint run_stmt (o : outcome) (sg : ainst -> V I) (s : stmt) : list (ainst * V I) :=
  match s with
  | SAssign l r => assign sg true l [] [] (value sg [] r) ++ calls sg l ++ calls sg r
  | SLocal d DNone => []
  | SLocal d (DSimple e _) | SLocal d (DComposite e) => give (AD d) None [] (value sg [] e) ++ calls sg e
  | SIf k e t f => give (AT k) None [] (value sg [] e) ++ calls sg e ++ if yes o k then run_block o sg t else run_block o sg f
  | SCase e ms d => give_tests sg e [] ms ++ calls sg e ++ run_matches o sg e ms (run_block o sg d)
  | SFor _ _ => []
  | SForIn d e b => give (AD d) None [] (i_elem I (value sg [] e)) ++ calls sg e ++ run_block o sg b
  end
with run_block (o : outcome) (sg : ainst -> V I) (b : block) : list (ainst * V I) :=
  match b with BNil => [] | BCons s b => run_stmt o sg s ++ run_block o sg b end
with run_matches (o : outcome) (sg : ainst -> V I) (e : expr) (ms : matches) (dflt : list (ainst * V I)) : list (ainst * V I) :=
  match ms with
  | MNil => dflt
  | MCons k p b ms => if yes o k then flat_map (fun d => give (AD d) None [] (i_bind I d (value sg [] e))) (vars p) ++ run_block o sg b
                      else run_matches o sg e ms dflt
  end.
(** The shared information goes down to the children. *)
Definition run_shared (sg : ainst -> V I) : list (ainst * V I) :=
  flat_map (fun k => match snd k with Some phy => give (AD (e_shinfo E phy)) (Some (fst k)) [] (read sg info (Some (r_lhs R)) []) | None => [] end) (r_kids R).
Definition run (o : outcome) (sg : ainst -> V I) (b : block) : list (ainst * V I) := run_block o sg b ++ run_shared sg.
(** The values given to one place. *)
Definition given (s : ainst) (l : list (ainst * V I)) : list (V I) := flat_map (fun x => if inst_eqb (fst x) s then [snd x] else []) l.
(** The tests come out as the values say. *)
Definition outcome_of (sg : ainst -> V I) : outcome := fun b => i_truth I (sg (mkInst (AT (N.to_nat b)) None None)).
End MEANING.

(** ** The dependencies found *)
(** Under o, the graph has an edge from p to s. *)
Definition depends (bt : built) (o : outcome) (p s : ainst) : Prop :=
  exists e, In e (b_edges bt) /\ nth_error (b_insts bt) (d_src e) = Some p /\ nth_error (b_insts bt) (d_snk e) = Some s /\ meets o (d_cond e).
(** Values that differ at most at instances that s does not depend on. *)
Definition alike {A} (bt : built) (o : outcome) (s : ainst) (sg sg' : ainst -> A) : Prop :=
  forall p, (In p (b_insts bt) -> depends bt o p s) -> sg p = sg' p.

(** Operations that lose nothing. *)
Record injective (I : interp) : Prop := {
  inj_op : forall g m vs vs', i_op I g m vs = i_op I g m vs' -> vs = vs';
  inj_field : forall f a b a' b', i_field I f a b = i_field I f a' b' -> a = a' /\ b = b';
  inj_shared : forall d a b a' b', i_shared I d a b = i_shared I d a' b' -> a = a' /\ b = b';
  inj_call : forall f vs r vs' r', i_call I f vs r = i_call I f vs' r' -> vs = vs' /\ r = r';
  inj_store : forall ps v ps' v', i_store I ps v = i_store I ps' v' -> ps = ps' /\ v = v';
  inj_match : forall ps v vs v' vs', i_match I ps v vs = i_match I ps v' vs' -> v = v' /\ vs = vs';
  inj_elem : forall v v', i_elem I v = i_elem I v' -> v = v'
}.

(** ** Rules the builder is meant for *)
(** The calls in an expression: proxy and function. *)
Fixpoint calls_in (e : expr) : list (decl * decl) :=
  match e with
  | EConst | EUse _ | EShared _ | EAttr _ _ => []
  | EField _ o => calls_in o
  | ECall p f args => (p, f) :: callss_in args
  | EOther _ args => callss_in args
  end
with callss_in (es : exprs) : list (decl * decl) := match es with ENil => [] | ECons e es => calls_in e ++ callss_in es end.
Definition def_expr (d : default) : list expr := match d with DNone => [] | DSimple e _ | DComposite e => [e] end.
(** The expressions of a body, and the variables it declares. *)
Fixpoint texts_stmt (s : stmt) : list expr :=
  match s with
  | SAssign l r => [l; r]
  | SLocal _ def => def_expr def
  | SIf _ e t f => e :: texts t ++ texts f
  | SCase e ms d => e :: texts_matches ms ++ texts d
  | SFor e ms => e :: texts_matches ms
  | SForIn _ e b => e :: texts b
  end
with texts (b : block) : list expr := match b with BNil => [] | BCons s b => texts_stmt s ++ texts b end
with texts_matches (ms : matches) : list expr := match ms with MNil => [] | MCons _ p b ms => all_conds p ++ texts b ++ texts_matches ms end.
Fixpoint locals_stmt (s : stmt) : list decl :=
  match s with
  | SAssign _ _ => []
  | SLocal d _ => [d]
  | SIf _ _ t f => locals t ++ locals f
  | SCase _ ms d => locals_matches ms ++ locals d
  | SFor _ ms => locals_matches ms
  | SForIn d _ b => d :: locals b
  end
with locals (b : block) : list decl := match b with BNil => [] | BCons s b => locals_stmt s ++ locals b end
with locals_matches (ms : matches) : list decl := match ms with MNil => [] | MCons _ p b ms => vars p ++ locals b ++ locals_matches ms end.
Definition rule_calls (R : grule) : list (decl * decl) := flat_map calls_in (texts (r_body R)).
(** The declarations of a rule: nodes, variables and calls. *)
Definition names (R : grule) : list decl := r_lhs R :: map fst (r_kids R) ++ locals (r_body R) ++ map fst (rule_calls R).
(** The nodes whose attributes have instances, with their phylum (a call: the function). *)
Definition node_of (R : grule) (m phy : decl) : Prop := (m, phy) = (r_lhs R, r_phy R) \/ In (m, Some phy) (r_kids R) \/ In (m, phy) (rule_calls R).
(** The number of tests: ifs, and matches of cases. *)
Fixpoint tests_in (s : stmt) : nat :=
  match s with
  | SAssign _ _ | SLocal _ _ => 0
  | SIf _ _ t f => 1 + tests_inb t + tests_inb f
  | SCase _ ms d => count_matches ms + tests_inm ms + tests_inb d
  | SFor _ ms => tests_inm ms
  | SForIn _ _ b => tests_inb b
  end
with tests_inb (b : block) : nat := match b with BNil => 0 | BCons s b => tests_in s + tests_inb b end
with tests_inm (ms : matches) : nat := match ms with MNil => 0 | MCons _ _ b ms => tests_inb b + tests_inm ms end.
(** A body without the numbers. *)
Fixpoint strip_stmt (s : stmt) : stmt :=
  match s with
  | SAssign _ _ | SLocal _ _ => s
  | SIf _ e t f => SIf 0 e (strip t) (strip f)
  | SCase e ms d => SCase e (strip_matches ms) (strip d)
  | SFor e ms => SFor e (strip_matches ms)
  | SForIn d e b => SForIn d e (strip b)
  end
with strip (b : block) : block := match b with BNil => BNil | BCons s b => BCons (strip_stmt s) (strip b) end
with strip_matches (ms : matches) : matches := match ms with MNil => MNil | MCons _ p b ms => MCons 0 p (strip b) (strip_matches ms) end.
(** The base value or one of the tracked fibers. *)
Definition fiber_of (E : genv) (a : decl) (f : option fiber) : Prop := f = None \/ exists x, f = Some x /\ In x (e_normal E a ++ e_backward E a).
(** The instances a rule should have. *)
Inductive wanted (E : genv) (R : grule) : ainst -> Prop :=
| w_test k : k < tests_inb (r_body R) -> wanted E R (mkInst (AT k) None None)
| w_node m phy a f : node_of R m phy -> In a (e_attrs E phy) -> fiber_of E a f -> wanted E R (mkInst (AD a) f (Some m))
| w_local d f : In d (locals (r_body R)) -> fiber_of E d f -> wanted E R (mkInst (AD d) f None).
(** Fiber sets without repetition; the base fiber is not listed in them. *)
Record fibers_ok (E : genv) (R : grule) : Prop := {
  fo_sets : forall a, NoDup (e_base E :: e_normal E a ++ e_backward E a);
  fo_attrs : forall phy, NoDup (e_attrs E phy)
}.
(** Variables are not attributes. *)
Definition apart (E : genv) (R : grule) : Prop := forall d phy, In d (locals (r_body R)) -> ~ In d (e_attrs E phy).
(** The variables of patterns. *)
Fixpoint pattern_vars_stmt (s : stmt) : list decl :=
  match s with
  | SAssign _ _ | SLocal _ _ => []
  | SIf _ _ t f => pattern_vars t ++ pattern_vars f
  | SCase _ ms d => pattern_vars_matches ms ++ pattern_vars d
  | SFor _ ms => pattern_vars_matches ms
  | SForIn _ _ b => pattern_vars b
  end
with pattern_vars (b : block) : list decl := match b with BNil => [] | BCons s b => pattern_vars_stmt s ++ pattern_vars b end
with pattern_vars_matches (ms : matches) : list decl := match ms with MNil => [] | MCons _ p b ms => vars p ++ pattern_vars b ++ pattern_vars_matches ms end.
(** No [for]; no composite initial value; no condition within a choice of patterns. *)
Fixpoint plain_pat (p : pat) : Prop :=
  match p with
  | PVar _ | PCond _ | PNone => True
  | PAnd p q => plain_pat p /\ plain_pat q
  | PCall ps => plain_pats ps
  | PChoice ps => all_condss ps = []
  end
with plain_pats (ps : pats) : Prop := match ps with PNil => True | PCons p ps => plain_pat p /\ plain_pats ps end.
Fixpoint plain_stmt (s : stmt) : Prop :=
  match s with
  | SAssign _ _ => True
  | SLocal _ def => match def with DComposite _ => False | _ => True end
  | SIf _ _ t f => plain t /\ plain f
  | SCase _ ms d => plain_matches ms /\ plain d
  | SFor _ _ => False
  | SForIn _ _ b => plain b
  end
with plain (b : block) : Prop := match b with BNil => True | BCons s b => plain_stmt s /\ plain b end
with plain_matches (ms : matches) : Prop := match ms with MNil => True | MCons _ p b ms => plain_pat p /\ plain b /\ plain_matches ms end.
Fixpoint no_for_stmt (s : stmt) : Prop :=
  match s with
  | SAssign _ _ | SLocal _ _ => True
  | SIf _ _ t f => no_for t /\ no_for f
  | SCase _ ms d => no_for_matches ms /\ no_for d
  | SFor _ _ => False
  | SForIn _ _ b => no_for b
  end
with no_for (b : block) : Prop := match b with BNil => True | BCons s b => no_for_stmt s /\ no_for b end
with no_for_matches (ms : matches) : Prop := match ms with MNil => True | MCons _ _ b ms => no_for b /\ no_for_matches ms end.
(** Declarations that bind a value where they are executed only sometimes: pattern variables,
    and locals with an initial value below a test. *)
Fixpoint sometimes_stmt (below : bool) (s : stmt) : list decl :=
  match s with
  | SAssign _ _ => []
  | SLocal d def => match def with DNone => [] | _ => if below then [d] else [] end
  | SIf _ _ t f => sometimes true t ++ sometimes true f
  | SCase _ ms d => sometimes_matches ms ++ sometimes true d
  | SFor _ ms => sometimes_matches ms
  | SForIn _ _ b => sometimes below b
  end
with sometimes (below : bool) (b : block) : list decl := match b with BNil => [] | BCons s b => sometimes_stmt below s ++ sometimes below b end
with sometimes_matches (ms : matches) : list decl := match ms with MNil => [] | MCons _ p b ms => vars p ++ sometimes true b ++ sometimes_matches ms end.
