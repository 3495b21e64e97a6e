(** * GenSpec: what the code of a visit procedure does. *)
From Coq Require Import Sorted.
From Verif Require Import Base CondModel OagModel PropsCond ChunkModel SchedSpec GenModel.
Open Scope nat_scope.

(** ** Programs *)
Inductive stmt :=
  | SNote | SLet (header : nat) | SSet (i : nat) (e : Z) | SCall (c q : nat) | SRoots (q : nat)
  | SIf (i : nat) (yes no : list stmt) | SMatch (i : nat) (yes no : list stmt)
  | SFor (s : nat) (body : list stmt) | SLoop (id : nat) (body : list stmt).
(** their text *)
Fixpoint text (s : stmt) : list token :=
  match s with
  | SNote => [TNote]
  | SLet h => [TLet h]
  | SSet i e => [TSet i e]
  | SCall c q => [TVisit c q]
  | SRoots q => [TRoots q]
  | SIf i a b => TIf i :: flat_map text a ++ TElse :: flat_map text b ++ [TEndIf]
  | SMatch i a b => TMatch i :: flat_map text a ++ TElse :: flat_map text b ++ [TEndIf]
  | SFor s a => TFor s :: flat_map text a ++ [TEndFor]
  | SLoop id a => TDo id :: flat_map text a ++ [TWhile id]
  end.

(** What a program does: instances are assigned, children visited, all roots visited. *)
Inductive action := ASet (i : nat) (e : Z) | ACall (c q : nat) | ARoots (q : nat).
(** Running a program when the tests come out as in [yes] and the sequence of for-in s has
    [times s] elements; a loop is repeated any number of times, at least once. *)
Section Exec.
Variables (yes : nat -> bool) (times : nat -> nat).
Inductive exec : list stmt -> list action -> Prop :=
  | ex_nil : exec [] []
  | ex_note l L : exec l L -> exec (SNote :: l) L
  | ex_let h l L : exec l L -> exec (SLet h :: l) L
  | ex_set i e l L : exec l L -> exec (SSet i e :: l) (ASet i e :: L)
  | ex_call c q l L : exec l L -> exec (SCall c q :: l) (ACall c q :: L)
  | ex_roots q l L : exec l L -> exec (SRoots q :: l) (ARoots q :: L)
  | ex_if i a b l L1 L2 : exec (if yes i then a else b) L1 -> exec l L2 -> exec (SIf i a b :: l) (L1 ++ L2)
  | ex_match i a b l L1 L2 : exec (if yes i then a else b) L1 -> exec l L2 -> exec (SMatch i a b :: l) (L1 ++ L2)
  | ex_for s a l L1 L2 : execs a (times s) L1 -> exec l L2 -> exec (SFor s a :: l) (L1 ++ L2)
  | ex_loop id a l n L1 L2 : execs a (S n) L1 -> exec l L2 -> exec (SLoop id a :: l) (L1 ++ L2)
with execs : list stmt -> nat -> list action -> Prop :=
  | exs_0 a : execs a 0 []
  | exs_S a n L1 L2 : exec a L1 -> execs a n L2 -> execs a (S n) (L1 ++ L2).
(** ... and when no loop is repeated *)
Fixpoint once1 (s : stmt) : list action :=
  match s with
  | SNote | SLet _ => []
  | SSet i e => [ASet i e]
  | SCall c q => [ACall c q]
  | SRoots q => [ARoots q]
  | SIf i a b | SMatch i a b => if yes i then flat_map once1 a else flat_map once1 b
  | SFor s a => concat (repeat (flat_map once1 a) (times s))
  | SLoop _ a => flat_map once1 a
  end.
Definition once (l : list stmt) : list action := flat_map once1 l.
(** what is done outside of all loops *)
Fixpoint bare1 (s : stmt) : list action :=
  match s with
  | SNote | SLet _ => []
  | SSet i e => [ASet i e]
  | SCall c q => [ACall c q]
  | SRoots q => [ARoots q]
  | SIf i a b | SMatch i a b => if yes i then flat_map bare1 a else flat_map bare1 b
  | SFor s a => concat (repeat (flat_map bare1 a) (times s))
  | SLoop _ _ => []
  end.
Definition bare (l : list stmt) : list action := flat_map bare1 l.
End Exec.
Definition action_eqb (a b : action) : bool :=
  match a, b with
  | ASet i e, ASet j f => (i =? j) && Z.eqb e f
  | ACall c q, ACall d r => (c =? d) && (q =? r)
  | ARoots q, ARoots r => q =? r
  | _, _ => false
  end.
(** each action where it is done first *)
Fixpoint firsts (L : list action) : list action :=
  match L with [] => [] | a :: L => a :: filter (fun b => negb (action_eqb a b)) (firsts L) end.

(** ** What has to be done *)
(** The right hand sides of an instance, in the order of their addresses *)
Fixpoint put_in (e : Z) (l : list Z) : list Z :=
  match l with [] => [e] | x :: l' => match Z.compare e x with Lt => e :: l | Eq => l | Gt => x :: put_in e l' end end.
Definition in_order (l : list Z) : list Z := fold_left (fun s e => put_in e s) l [].
(** The assignments of i in a block; those that count: from the last normal one on *)
Definition of_inst (i : nat) (b : gblock) : gblock := filter (fun d => match ga_for d with Some j => j =? i | None => false end) b.
Fixpoint that_count (l : gblock) : gblock :=
  match l with [] => [] | d :: l' => if existsb ga_normal l' then that_count l' else d :: l' end.
(** A table of right hand sides, and the one inside a block *)
Definition table := nat -> list Z.
Definition default_of (G : gen) (i : nat) : option Z := match nth_error (g_insts G) i with Some x => gi_default x | None => None end.
Definition inside (G : gen) (b : gblock) (tab : table) : table := fun i =>
  match of_inst i b with
  | [] => match default_of G i with Some e => put_in e (tab i) | None => tab i end
  | l => in_order (map ga_rhs (that_count l))
  end.
(** Is there code for an assignment of this instance (of group (_, ch))? *)
Definition has_code (G : gen) (p : place) (ch : Z) : bool :=
  match pl_node p with
  | NAssign | NPragma => false
  | nk => pl_fiber p ||
    match nk with
    | NNone => pl_local_attr p || negb (pl_prefix p =? 0)
    | _ => if Z.ltb ch (g_nch G) || pl_lhs p then negb (pl_shared p && Z.ltb ch (g_nch G)) && negb (pl_updown p) else match nk with NValue => true | _ => false end
    end
  end.
Definition sets (G : gen) (i : nat) (p : place) (ch : Z) (l : list Z) : list action :=
  if has_code G p ch then map (ASet i) (filter (fun e => negb (Z.eqb e 0)) l) else [].
(** Going along an order: a test says which block we are in. *)
Section Performed.
Variables (G : gen) (r : rule) (o : outcome).
Definition branch (x : ginst) (tab : table) : table :=
  match gi_kind x with
  | GIf k a b => inside G (if o (N.of_nat k) then a else b) tab
  | GMatch k _ _ a b => if o (N.of_nat k) then inside G a tab else match b with Some b => inside G b tab | None => tab end
  | GForIn _ a => inside G a tab
  | GPlain _ => tab
  end.
Definition channel (i : nat) : Z := match nth_error (r_insts r) i with Some s => snd (si_group s) | None => 0%Z end.
Fixpoint performed (tab : table) (L : list event) : list action :=
  match L with
  | [] => []
  | Compute i :: L =>
    match nth_error (g_insts G) i with
    | None => performed tab L
    | Some x => match gi_kind x with
                | GPlain p => (if gi_inward x then [] else sets G i p (channel i) (tab i)) ++ performed tab L
                | _ => performed (branch x tab) L
                end
    end
  | VisitChild c q :: L => ACall c q :: performed tab L
  | EndVisit q :: L => (if g_mod G then [ARoots q] else []) ++ performed tab L
  end.
End Performed.

(** The outcome of the test that instance i is *)
Definition test_index (x : ginst) : option nat := match gi_kind x with GIf k _ _ | GMatch k _ _ _ _ => Some k | _ => None end.
Definition verdict (G : gen) (o : outcome) (i : nat) : bool :=
  match nth_error (g_insts G) i with Some x => match test_index x with Some k => o (N.of_nat k) | None => false end | None => false end.
(** G is about the same rule as r. *)
Record describes (G : gen) (r : rule) : Prop := {
  ds_insts : Forall2 (fun x s => gi_cond x = si_cond s /\ test_index x = si_if s) (g_insts G) (r_insts r);
  ds_parent : g_parent G = r_parent r;
  ds_children : g_children G = r_children r
}.
(** No test is another one's. *)
Definition own_tests (r : rule) : Prop := forall i s j s' b, instance r i s -> instance r j s' -> si_if s = Some b -> si_if s' = Some b -> i = j.
(** Tests are locals. *)
Definition local_tests (r : rule) : Prop := forall i s b, instance r i s -> si_if s = Some b -> si_group s = (0, 0)%Z.
Definition no_for_in (G : gen) : Prop := forall i x s b, nth_error (g_insts G) i = Some x -> gi_kind x <> GForIn s b.

(** ** Loops *)
(** The fixed-point loops of a program, those inside others too *)
Fixpoint loops1 (s : stmt) : list (nat * list stmt) :=
  match s with
  | SIf _ a b | SMatch _ a b => flat_map loops1 a ++ flat_map loops1 b
  | SFor _ a => flat_map loops1 a
  | SLoop id a => (id, a) :: flat_map loops1 a
  | _ => []
  end.
Definition loops (l : list stmt) : list (nat * list stmt) := flat_map loops1 l.
(** What is circular: visits of children in circular phases, the attributes of these phases,
    and locals that depend on themselves *)
Definition circular_visit (r : rule) (c q : nat) : Prop := 1 <= q /\ exists ph, nth_error (r_children r) c = Some (Some ph) /\ nth_error (cyclic_flags ph) q = Some true.
Definition circular_inst (r : rule) (i : nat) : Prop := exists s, instance r i s /\
  ((si_group s = (0, 0)%Z /\ depends r i i) \/ exists c q, circular_visit r c q /\ (si_group s = (Z.of_nat q, Z.of_nat c) \/ si_group s = (- Z.of_nat q, Z.of_nat c))%Z).
Definition circular_event (r : rule) (e : event) : Prop := match e with Compute i => circular_inst r i | VisitChild c q => circular_visit r c q | EndVisit _ => False end.
Definition circular_action (r : rule) (a : action) : Prop := match a with ASet i _ => circular_inst r i | ACall c q => circular_visit r c q | ARoots _ => False end.
(** The nodes of a total order: what it is for, its group, the visit it is made in, its
    chunk and whether that is circular *)
Fixpoint nodes (t : cto) : list (option nat * group * nat * nat * bool) :=
  match t with Null => [] | Node _ _ inst g visit ck circ t1 t2 => (inst, g, visit, ck, circ) :: nodes t1 ++ nodes t2 end.

(** ** Values *)
(** Running a program that has no tests and no for-ins, when an assignment joins the value
    of its right hand side to that of the instance (a set of numbers, as the bits of a
    number): a loop is repeated until it changes nothing. *)
Section Values.
Variable value : Z -> list N -> N.
Inductive settles : list stmt -> list N -> list N -> Prop :=
  | se_nil s : settles [] s s
  | se_note l s s' : settles l s s' -> settles (SNote :: l) s s'
  | se_set i e l s v s' : nth_error s i = Some v -> settles l (upd s i (N.lor v (value e s))) s' -> settles (SSet i e :: l) s s'
  | se_loop_end id a l s s' : settles a s s -> settles l s s' -> settles (SLoop id a :: l) s s'
  | se_loop id a l s s1 s' : settles a s s1 -> s1 <> s -> settles (SLoop id a :: l) s1 s' -> settles (SLoop id a :: l) s s'.
(** every assignment is satisfied *)
Definition fixed (assigns : list (nat * Z)) (s : list N) : Prop := forall i e, In (i, e) assigns -> exists v, nth_error s i = Some v /\ N.lor v (value e s) = v.
End Values.

(** ** The scrutinee of a match *)
(** [scoped header now l]: when [node] stands for the value of case statement [now], every
    match in l finds in [node] the value of its own case statement. *)
Section Scope.
Variable header : nat -> option nat.
Fixpoint scoped1 (now : option nat) (s : stmt) : Prop :=
  let all := fix all (now : option nat) (l : list stmt) : Prop :=
    match l with [] => True | SLet h :: l => all (Some h) l | s :: l => scoped1 now s /\ all now l end in
  match s with
  | SIf _ a b => all now a /\ all now b
  | SMatch i a b => now <> None /\ now = header i /\ all now a /\ all now b
  | SFor _ a | SLoop _ a => all now a
  | _ => True
  end.
Fixpoint scoped (now : option nat) (l : list stmt) : Prop :=
  match l with [] => True | SLet h :: l => scoped (Some h) l | s :: l => scoped1 now s /\ scoped now l end.
End Scope.
Definition header_of (G : gen) (i : nat) : option nat :=
  match nth_error (g_insts G) i with Some x => match gi_kind x with GMatch _ h _ _ _ => Some h | _ => None end | None => None end.
(** On every way through a total order: a match of a case statement comes after its first
    one, and the first one of no other statement is between them. *)
Fixpoint in_turn (G : gen) (now : option nat) (t : cto) : Prop :=
  match t with
  | Null => True
  | Node _ _ inst _ _ _ _ t1 t2 =>
    match inst with
    | Some i => match nth_error (g_insts G) i with
                | Some x => match gi_kind x with
                            | GMatch _ h first _ _ => (first = true \/ now = Some h) /\ in_turn G (Some h) t1 /\ in_turn G (Some h) t2
                            | _ => in_turn G now t1 /\ in_turn G now t2
                            end
                | None => in_turn G now t1 /\ in_turn G now t2
                end
    | None => in_turn G now t1 /\ in_turn G now t2
    end
  end.

(** ** Blocks entered *)
Fixpoint entered (G : gen) (o : outcome) (L : list event) : list gblock :=
  match L with
  | [] => []
  | Compute i :: L =>
    match nth_error (g_insts G) i with
    | Some x => match gi_kind x with
                | GIf k a b => (if o (N.of_nat k) then [a] else [b]) ++ entered G o L
                | GMatch k _ _ a b => (if o (N.of_nat k) then [a] else match b with Some b => [b] | None => [] end) ++ entered G o L
                | GForIn _ a => a :: entered G o L
                | GPlain _ => entered G o L
                end
    | None => entered G o L
    end
  | _ :: L => entered G o L
  end.
