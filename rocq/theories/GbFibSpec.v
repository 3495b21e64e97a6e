(** * GbFibSpec: which values reach which places, and the edges this gives (C125), in terms of
    the text of a rule. *)
From Verif Require Import Base CondModel PropsCond GbModel GbSpec.
Open Scope nat_scope.

(** A [vertex] is an attribute (or test), the node it belongs to, and the fields followed from
    its value. *)
Fixpoint elems (es : exprs) : list expr := match es with ENil => [] | ECons e es => e :: elems es end.
Section READS.
Context (E : genv) (R : grule).
(** What lies at a vertex if what is followed from there is fiber f. *)
Definition at_fiber (x : vertex) (f : fiber) : option ainst :=
  match fold_right (fun fld acc => match acc with Some g => e_longer E fld g | None => None end) (Some f) (v_mod x) with
  | Some g => Some (mkInst (v_attr x) (if g =? e_base E then None else Some g) (v_node x))
  | None => None
  end.
Definition own_info : vertex := mkV (AD (e_shinfo E (r_phy R))) (Some (r_lhs R)) [].
(** [reads x m v carried simple]: the value reached from expression x through the fields m is
    computed from what is at v.  carried: it may be that value itself (it is not carried
    through a field selection from its object, nor through a call from an argument).  simple:
    some declaration on the way is not circular. *)
Inductive reads : expr -> list decl -> vertex -> bool -> bool -> Prop :=
| rd_use d m : reads (EUse d) m (mkV (AD d) None m) true (negb (e_circ E d))
| rd_attr nd a m : reads (EAttr nd a) m (mkV (AD a) (Some nd) m) true (negb (e_circ E a))
| rd_info d m : reads (EShared d) m own_info false (negb (e_circ E d))
| rd_shared d m : reads (EShared d) m (mkV (AD (e_shinfo E (r_phy R))) (Some (r_lhs R)) (d :: m)) true (negb (e_circ E d))
| rd_object fld o m v ca si : reads o [] v ca si -> reads (EField fld o) m v false (negb (e_circ E fld) || si)
| rd_field fld o m v ca si : reads o (fld :: m) v ca si -> reads (EField fld o) m v ca (negb (e_circ E fld) || si)
| rd_argument p f args x v ca si : In x (elems args) -> reads x [] v ca si -> reads (ECall p f args) [] v false true
| rd_result p f args m : reads (ECall p f args) m (mkV (AD (e_result E f)) (Some p) m) true false
| rd_operand g args x m v ca si : In x (elems args) -> reads x m v ca si -> reads (EOther g args) m v ca si.
(** [target top l m v os]: assigning to l (followed by the fields m) stores at v, going through
    the objects os; the field assigned to is followed backwards. *)
Inductive target : bool -> expr -> list decl -> vertex -> list expr -> Prop :=
| tg_use top d m : target top (EUse d) m (mkV (AD d) None m) []
| tg_attr top nd a m : target top (EAttr nd a) m (mkV (AD a) (Some nd) m) []
| tg_shared (top : bool) d m : target top (EShared d) m (mkV (AD (e_shinfo E (r_phy R))) (Some (r_lhs R)) ((if top then e_rfield E d else d) :: m)) []
| tg_field (top : bool) fld o m v os : target false o ((if top then e_rfield E fld else fld) :: m) v os -> target top (EField fld o) m v (o :: os)
| tg_operand top g args l m v os : In l (elems args) -> target false l m v os -> target top (EOther g args) m v os.
(** The calls in an expression. *)
Fixpoint calls_of (x : expr) : list (decl * decl * list expr) :=
  match x with
  | EConst | EUse _ | EShared _ | EAttr _ _ => []
  | EField _ o => calls_of o
  | ECall p f args => (p, f, elems args) :: callss_of args
  | EOther _ args => callss_of args
  end
with callss_of (es : exprs) : list (decl * decl * list expr) := match es with ENil => [] | ECons x es => calls_of x ++ callss_of es end.
Fixpoint patterns (ms : matches) : list (nat * pat) := match ms with MNil => [] | MCons k p _ ms => (k, p) :: patterns ms end.
(** The conditions of a pattern that are not within a choice. *)
Fixpoint outer_conds (p : pat) : list expr :=
  match p with
  | PCond e => [e]
  | PAnd p q => outer_conds p ++ outer_conds q
  | PCall ps => outer_condss ps
  | PVar _ | PChoice _ | PNone => []
  end
with outer_condss (ps : pats) : list expr := match ps with PNil => [] | PCons p ps => outer_conds p ++ outer_condss ps end.
(** The expressions of a statement itself. *)
Definition own_texts (s : stmt) : list expr :=
  match s with
  | SAssign l r => [l; r]
  | SLocal _ def => def_expr def
  | SIf _ e _ _ => [e]
  | SCase e ms _ | SFor e ms => e :: flat_map (fun q => all_conds (snd q)) (patterns ms)
  | SForIn _ e _ => [e]
  end.
Definition variable (d : decl) : vertex := mkV (AD d) None [].
Definition test (k : nat) : vertex := mkV (AT k) None [].
Definition of_node (nd a : decl) : vertex := mkV (AD a) (Some nd) [].
(** [passes s c x v val c']: statement s, with condition c, puts the value of expression x at v
    (val) or uses it to decide what is put there, under condition c'. *)
Inductive passes : stmt -> condition -> expr -> vertex -> bool -> condition -> Prop :=
| ps_assign l r c v os : target true l [] v os -> passes (SAssign l r) c r v true c
| ps_object l r c v os x : target true l [] v os -> In x os -> passes (SAssign l r) c x v false c
| ps_initial d x fs c : passes (SLocal d (DSimple x fs)) c x (variable d) true c
| ps_if k x t f c : passes (SIf k x t f) c x (test k) false c
| ps_case x ms d c k p l l' : patterns ms = l ++ (k, p) :: l' -> passes (SCase x ms d) c x (test k) false c
| ps_condition x ms d c k p l l' y : patterns ms = l ++ (k, p) :: l' -> In y (flat_map (fun q => outer_conds (snd q)) l ++ outer_conds p) -> passes (SCase x ms d) c y (test k) false c
| ps_bind x ms d c k p b : In (k, p) (patterns ms) -> In d (vars p) -> passes (SCase x ms b) c x (variable d) true no_cond
| ps_for x ms d c k p : In (k, p) (patterns ms) -> In d (vars p) -> passes (SFor x ms) c x (variable d) true no_cond
| ps_element d x b c : passes (SForIn d x b) c x (variable d) true c
| ps_argument s c x p f args a y : In x (own_texts s) -> In (p, f, args) (calls_of x) -> In (a, y) (combine (e_formals E f) args) -> passes s c y (of_node p a) true c.
(** A dependency that carries (or not) a value from v to w. *)
Definition kind_of (carried simple : bool) : N := N.lor 11 (N.lor (if carried then DEPENDENCY_MAYBE_CARRYING else 0) (if simple then DEPENDENCY_MAYBE_SIMPLE else 0)).
Inductive flows : stmt -> condition -> vertex -> vertex -> N -> condition -> Prop :=
| fl_value s c x w val c' v ca si : passes s c x w val c' -> reads x [] v ca si -> flows s c v w (kind_of (val && ca) si) c'
| fl_info s c x p f args : In x (own_texts s) -> In (p, f, args) (calls_of x) -> flows s c own_info (of_node p (e_shinfo E f)) (kind_of true false) c
| fl_object d x fs f c : In f fs -> flows (SLocal d (DSimple x fs)) c (mkV (AD d) None [e_rfield E f]) (mkV (AD d) None [f]) (N.ldiff (kind_of true (negb (e_circ E f))) DEPENDENCY_NOT_JUST_FIBER) c.
(** The places whose value is put there only under the condition of the statement. *)
Inductive decided : stmt -> vertex -> Prop :=
| dc_assign l r v os : target true l [] v os -> decided (SAssign l r) v
| dc_if k x t f : decided (SIf k x t f) (test k)
| dc_case x ms d k p : In (k, p) (patterns ms) -> decided (SCase x ms d) (test k)
| dc_element d x b : decided (SForIn d x b) (variable d)
| dc_result s x p f args : In x (own_texts s) -> In (p, f, args) (calls_of x) -> decided s (of_node p (e_result E f))
| dc_argument s x p f args a y : In x (own_texts s) -> In (p, f, args) (calls_of x) -> In (a, y) (combine (e_formals E f) args) -> decided s (of_node p a)
| dc_info s x p f args : In x (own_texts s) -> In (p, f, args) (calls_of x) -> decided s (of_node p (e_shinfo E f)).
(** The edges for a dependency of w on v: one between what is there itself; if values are
    carried also, for each fiber, one between what is followed from there, the other way round
    for fibers that are followed backwards. *)
Definition is_at (bt : built) (j : nat) (v : vertex) (f : fiber) : Prop := exists i, at_fiber v f = Some i /\ nth_error (b_insts bt) j = Some i.
Definition links (bt : built) (v w : vertex) (k : N) (c : condition) (e : gedge) : Prop :=
  d_cond e = c /\
  ((is_at bt (d_src e) v (e_base E) /\ is_at bt (d_snk e) w (e_base E) /\ d_kind e = k) \/
   (N.land k DEPENDENCY_MAYBE_CARRYING <> 0%N /\ d_kind e = N.ldiff k DEPENDENCY_NOT_JUST_FIBER /\
    exists f, In f (e_fibers E) /\ f <> e_base E /\
      if e_reverse E f then is_at bt (d_src e) w f /\ is_at bt (d_snk e) v f else is_at bt (d_src e) v f /\ is_at bt (d_snk e) w f)).
(** All dependencies other than on tests. *)
Definition data_edge (bt : built) (e : gedge) : Prop :=
  (exists s c v w k c', In (s, c) (conds_block no_cond (b_body bt)) /\ flows s c v w k c' /\ links bt v w k c' e) \/
  (exists nd phy, In (nd, Some phy) (r_kids R) /\ links bt own_info (of_node nd (e_shinfo E phy)) (kind_of true false) no_cond e).
(** The dependencies on tests. *)
Definition test_edge (bt : built) (e : gedge) : Prop :=
  exists s c v t, In (s, c) (conds_block no_cond (b_body bt)) /\ decided s v /\ In t (b_tests bt) /\
    N.testbit (N.lor (positive c) (negative c)) (N.of_nat (t_num t)) = true /\ links bt (test (t_num t)) v control_dependency (t_cond t) e.
End READS.
