(** * StSpec: trees, what the visit procedures do, and what a total order says.
    No code of /repo is modelled here. *)
From Verif Require Import Base OagModel StModel.
Open Scope Z_scope.

(** ** Running the procedures *)
(** A tree: the constructor of each node.  A node is known by the way from it up to
    the root. *)
Inductive tree := Tree (con : nat) (cs : list tree).
Definition addr := list nat.
Fixpoint subtree (t : tree) (a : addr) : option tree :=
  match a with
  | [] => Some t
  | c :: a => match subtree t a with Some (Tree _ cs) => nth_error cs c | None => None end
  end.

(** What is observed: at node [a], instance [i] of its rule is given the value of [e];
    a procedure is called that does not exist. *)
Inductive event := Set_ (a : addr) (i : nat) (e : expr) | Missing (a : addr) (ph : Z).

(** The outcomes of the tests of a rule at a node *)
Definition outcome := nat -> bool.
Definition truth (insts : list ginst) (o : outcome) (i : nat) : bool :=
  match nth_error insts i with
  | Some g => match g_test g with Some (k, _) => o k | None => false end
  | None => false
  end.
Definition header_of (insts : list ginst) (i : nat) : option nat :=
  match nth_error insts i with
  | Some g => match g_test g with Some (_, TMatch h _ _ _) => Some h | _ => None end
  | None => None
  end.

Section RUN.
(** [insts]: the instances of the rule of a constructor; [F]: the procedures generated
    for it; [o]: how the tests come out at each node; [wrong]: how a match comes out if
    the value is that of another case statement. *)
Context (insts : nat -> list ginst) (F : nat -> list code) (o : addr -> outcome) (wrong : addr -> nat -> nat -> bool).

Fixpoint exec (con : nat) (a : addr) (vs : list (Z -> list event)) (node : option nat) (c : code) : list event :=
  match c with
  | Done => []
  | Visit c ph k => (match nth_error vs c with Some v => v ph | None => [Missing (c :: a) ph] end) ++ exec con a vs node k
  | Assign i e k => Set_ a i e :: exec con a vs node k
  | LetNode h k => exec con a vs (Some h) k
  | If i t f => if truth (insts con) (o a) i then exec con a vs node t else exec con a vs node f
  | Match i t f =>
      if (match node, header_of (insts con) i with
          | Some h, Some h' => if (h =? h')%nat then truth (insts con) (o a) i else wrong a i h
          | _, _ => wrong a i 0%nat
          end)
      then exec con a vs node t else exec con a vs node f
  end.

(** A call of visit_n_ph at a node *)
Fixpoint visit (t : tree) (a : addr) (ph : Z) : list event :=
  match t with
  | Tree con cs =>
    match nth_error (F con) (Z.to_nat (ph - 1)) with
    | Some c =>
      exec con a ((fix kids (n : nat) (cs : list tree) : list (Z -> list event) :=
                     match cs with [] => [] | c :: cs => visit c (n :: a) :: kids (S n) cs end) 0%nat cs) None c
    | None => [Missing a ph]
    end
  end.
(** All visits of the root, one after the other *)
Definition phases (m : Z) : list Z := map Z.of_nat (seq 1 (Z.to_nat m)).
Definition evaluate (t : tree) (m : Z) : list event := flat_map (visit t []) (phases m).
End RUN.

(** ** What the order says *)
(** The instances met on the way through the order *)
Fixpoint path (insts : list ginst) (o : outcome) (t : cto) : list nat :=
  match t with
  | CDone => []
  | CNext i t => i :: path insts o t
  | CIf i f t => i :: if truth insts o i then path insts o t else path insts o f
  end.
(** The block entered at a test, and the right-hand side in effect after [pre]: the
    last assignment to [i] in the blocks that were entered, or the default *)
Definition taken (insts : list ginst) (o : outcome) (i : nat) : block :=
  match nth_error insts i with
  | Some g => match g_test g with
              | Some (k, TIf t f) => if o k then t else f
              | Some (k, TMatch _ _ body default) => if o k then body else match default with Some b => b | None => [] end
              | None => []
              end
  | None => []
  end.
Definition last_def (i : nat) (b : block) : option expr :=
  fold_left (fun r s => if (fst s =? i)%nat then Some (snd s) else r) b None.
Definition in_effect (r : rule) (o : outcome) (pre : list nat) (i : nat) : option expr :=
  match last_def i (r_block r ++ flat_map (taken (r_insts r) o) pre) with
  | Some e => Some e
  | None => match nth_error (r_defaults r) i with Some d => d | None => None end
  end.

(** the case statement whose value is [node] after [pre]: the one whose first match came last *)
Fixpoint in_scope (insts : list ginst) (node : option nat) (pre : list nat) : option nat :=
  match pre with
  | [] => node
  | i :: pre =>
    in_scope insts (match nth_error insts i with
                    | Some g => match g_test g with Some (_, TMatch h true _ _) => Some h | _ => node end
                    | None => node
                    end) pre
  end.

(** ** Legal orders *)
(** the position of a phase in -1, +1, -2, +2, ... *)
Definition rank (ph : Z) : Z := if ph <? 0 then - 2 * ph - 1 else 2 * ph.
Definition is_test (insts : list ginst) (i : nat) : Prop := exists g x, nth_error insts i = Some g /\ g_test g = Some x.
(** the instance belongs to the left-hand side, or to a child *)
Inductive whose := Lhs | Child (c : nat).
Definition belongs (g : ginst) (w : whose) : Prop := match w with Lhs => g_lhs g = true | Child c => g_ch g = Some c end.

(** [M]: the number of phases of each phylum.  The attributes of the node and of the
    children have phases of their phyla; tests belong to neither. *)
Record wf (M : phylum -> Z) (r : rule) : Prop := {
  wf_lhs : forall g, In g (r_insts r) -> g_lhs g = true -> 1 <= Z.abs (g_ph g) <= M (r_lhs r) /\ g_ch g = None;
  wf_child : forall g c, In g (r_insts r) -> g_ch g = Some c -> exists X, nth_error (r_children r) c = Some X /\ 1 <= Z.abs (g_ph g) <= M X;
  wf_test : forall g x, In g (r_insts r) -> g_test g = Some x -> g_lhs g = false /\ g_ch g = None;
  (** different tests are told apart *)
  wf_conds : forall i j g g' k x x', nth_error (r_insts r) i = Some g -> nth_error (r_insts r) j = Some g' -> g_test g = Some (k, x) -> g_test g' = Some (k, x') -> i = j;
  wf_blocks : forall b i e, (b = r_block r \/ exists o j, b = taken (r_insts r) o j) -> In (i, e) b -> (i < length (r_insts r))%nat;
  wf_defaults : length (r_defaults r) = length (r_insts r);
  wf_some : 1 <= M (r_lhs r)
}.
(** A legal order of the instances *)
Record good (M : phylum -> Z) (r : rule) (p : list nat) : Prop := {
  gd_once : NoDup p;
  (** the attributes of a node are in the order of their phases *)
  gd_order : forall l1 i l2 j l3 g g' w, p = l1 ++ i :: l2 ++ j :: l3 ->
    nth_error (r_insts r) i = Some g -> nth_error (r_insts r) j = Some g' -> belongs g w -> belongs g' w ->
    rank (g_ph g) <= rank (g_ph g');
  (** and in each phase there is a synthesized one *)
  gd_lhs : forall ph, 1 <= ph <= M (r_lhs r) -> exists i g, In i p /\ nth_error (r_insts r) i = Some g /\ g_lhs g = true /\ g_ph g = ph;
  gd_child : forall c X ph, nth_error (r_children r) c = Some X -> 1 <= ph <= M X ->
    exists i g, In i p /\ nth_error (r_insts r) i = Some g /\ g_ch g = Some c /\ g_ph g = ph;
  (** the first one that is no test is an inherited attribute of the node *)
  gd_first : forall l1 i l2, p = l1 ++ i :: l2 -> (forall j, In j l1 -> is_test (r_insts r) j) -> ~ is_test (r_insts r) i ->
    exists g, nth_error (r_insts r) i = Some g /\ g_lhs g = true /\ g_ph g = -1;
  (** the last first match of a case before a match, or at it, is of the same case *)
  gd_scope : forall l1 i l2 h, p = l1 ++ i :: l2 -> header_of (r_insts r) i = Some h -> in_scope (r_insts r) None (l1 ++ [i]) = Some h
}.
(** Tests are where the order has branches *)
Fixpoint branches_right (insts : list ginst) (t : cto) : Prop :=
  match t with
  | CDone => True
  | CNext i t => (exists g, nth_error insts i = Some g /\ g_test g = None) /\ branches_right insts t
  | CIf i f t => is_test insts i /\ branches_right insts f /\ branches_right insts t
  end.
Record legal (M : phylum -> Z) (r : rule) : Prop := {
  lg_wf : wf M r;
  lg_branches : branches_right (r_insts r) (r_cto r);
  lg_order : forall o, good M r (path (r_insts r) o (r_cto r))
}.

(** ** What is expected *)
(** Assignments for such instances are executed where they are in the order *)
Definition assigned_here (scala : bool) (k : kind) : bool :=
  match k with KFiber | KLocal | KAttr | KField => true | KVariable => negb scala | _ => false end.
(** What happens at node [a] when [p] is gone through after [pre] *)
Definition action (scala : bool) (r : rule) (o : outcome) (a : addr) (pre : list nat) (i : nat) : list event :=
  match nth_error (r_insts r) i with
  | Some g => match g_test g, assigned_here scala (g_kind g), in_effect r o pre i with
              | None, true, Some e => [Set_ a i e]
              | _, _, _ => []
              end
  | None => []
  end.
Fixpoint actions (scala : bool) (r : rule) (o : outcome) (a : addr) (pre p : list nat) : list event :=
  match p with
  | [] => []
  | i :: p => action scala r o a pre i ++ actions scala r o a (pre ++ [i]) p
  end.
Definition node_actions (scala : bool) (r : rule) (o : outcome) (a : addr) : list event :=
  actions scala r o a [] (path (r_insts r) o (r_cto r)).

Definition node_of (e : event) : addr := match e with Set_ a _ _ => a | Missing a _ => a end.
Fixpoint addr_eqb (a b : addr) : bool :=
  match a, b with [], [] => true | x :: a, y :: b => (x =? y)%nat && addr_eqb a b | _, _ => false end.
(** the events at one node, in their order *)
Definition events_at (b : addr) (evs : list event) : list event := filter (fun e => addr_eqb (node_of e) b) evs.

(** The tree belongs to the grammar: [G] gives the rules *)
Inductive typed (G : nat -> rule) : phylum -> tree -> Prop :=
| Typed con cs : Forall2 (typed G) (r_children (G con)) cs -> typed G (r_lhs (G con)) (Tree con cs).

(** [x] is earlier than [y] wherever both occur *)
Definition earlier {A} (x y : A) (l : list A) : Prop := forall l1 l2, l = l1 ++ y :: l2 -> In x l -> In x l1.
(** [i] before [j] *)
Definition precedes (i j : nat) (p : list nat) : Prop := exists l1 l2 l3, p = l1 ++ i :: l2 ++ j :: l3.

(** The same attribute of the same node, in the rule of the node and in the rule of its
    parent: the attribute instance [i] at node [a] may get its value by the assignment to
    [i'] at [b].  [ph] is the schedule of each phylum: negative for inherited attributes. *)
Inductive gives (G : nat -> rule) (t : tree) (ph : phylum -> nat -> Z) : addr -> nat -> addr -> nat -> Prop :=
| Gives_own a i : gives G t ph a i a i
| Gives_child a c i i' con cs con' cs' g g' :
    subtree t a = Some (Tree con cs) -> subtree t (c :: a) = Some (Tree con' cs') ->
    nth_error (r_insts (G con)) i = Some g -> nth_error (r_insts (G con')) i' = Some g' ->
    g_ch g = Some c -> g_lhs g' = true -> g_attr g = g_attr g' -> 0 < ph (r_lhs (G con')) (g_attr g) ->
    gives G t ph a i (c :: a) i'
| Gives_parent a c i i' con cs con' cs' g g' :
    subtree t a = Some (Tree con cs) -> subtree t (c :: a) = Some (Tree con' cs') ->
    nth_error (r_insts (G con)) i' = Some g -> nth_error (r_insts (G con')) i = Some g' ->
    g_ch g = Some c -> g_lhs g' = true -> g_attr g = g_attr g' -> ph (r_lhs (G con')) (g_attr g) < 0 ->
    gives G t ph (c :: a) i a i'.
(** the phases of the instances are those of the phyla *)
Definition scheduled_by (ph : phylum -> nat -> Z) (r : rule) : Prop :=
  (forall g, In g (r_insts r) -> g_lhs g = true -> g_ph g = ph (r_lhs r) (g_attr g)) /\
  (forall g c X, In g (r_insts r) -> g_ch g = Some c -> nth_error (r_children r) c = Some X -> g_ph g = ph X (g_attr g)).
