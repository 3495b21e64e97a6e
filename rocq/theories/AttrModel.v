(** * AttrModel: the C++ run-time's attributes.

    Models class [Attribute], [Circular], [TypedCircular],
    [CircularAttributeHelper], [CircularAttribute] and [Collection]
    (/repo/base/cpp/aps-impl.h:156-394) and the static members of [Circular]
    (/repo/base/cpp/aps-impl.cpp:228-249).

    - An attribute is a number [a]; its C++ class and template arguments are
      given by a declaration [decl a].  A node is its phylum (the type of its
      constructor) and its index.  An attribute instance is an attribute and a
      node.
    - The generated function [compute(n)] (virtual, aps-impl.h:260) is a
      demand program [comp]: it returns a value, or evaluates another instance
      and continues with the value, or throws.  Simplification: it has no
      effects besides calling [evaluate].
    - All calls are in the state-and-exception monad [M]: a C++ exception leaves
      the state changes made before it.
    - Ghost fields [log] and [calls] record every run of compute and every call
      of Attribute::evaluate; no definition reads them.
    - Debug output is dropped. *)
From Verif Require Import Base.

(** aps-impl.h:119 [enum EvalStatus] *)
Inductive status := UNINITIALIZED | UNEVALUATED | CYCLE | EVALUATED | ASSIGNED.

(** aps-impl.h:121-148: the exceptions; [Other] stands for those thrown by
    generated code. *)
Inductive exn := TooLate | Undefined | Cyclic | InvalidArgument | Other (n : nat).

Inductive out (A : Type) := Val (a : A) | Thrown (e : exn) | Undef | NoFuel.
Arguments Val {A} _. Arguments Thrown {A} _. Arguments Undef {A}. Arguments NoFuel {A}.

(** aps-impl.h:72-79: of a node only its type ([cons->get_type()]) and index matter. *)
Record node := mkNode { phylum_of : nat; index_of : nat }.
Definition inst : Type := nat * node.

Section Attr.
Variable V : Type.
Variable vdef : V.   (** the value-initialised element that [resize] adds *)

Inductive comp := Ret (v : V) | Demand (x : inst) (k : V -> comp) | Raise (e : exn).

(** The operations [CircularAttribute] uses of its value type: [v_bottom],
    [v_join], [v_equal]. *)
Record lattice := mkLat { bottom : V; join : V -> V -> V; equal : V -> V -> bool }.

(** How an attribute is declared: its phylum; [Some lat] if its class derives
    from CircularAttribute; [Some (initial, combine)] if from Collection. *)
Record attr_decl := mkDecl { dphylum : nat; circ : option lattice; coll : option (V * (V -> V -> V)) }.

Variable decl : nat -> attr_decl.
Variable P : inst -> comp.          (** compute *)
Variable psize : nat -> nat.        (** number of nodes of each phylum *)

(** aps-impl.h:166-172: the fields of an Attribute. *)
Record astate := mkA { started : bool; complete : bool; values : list V; stats : list status }.

(** The whole state: all attributes, [Circular::pending] (with the vector's
    capacity and a count of its reallocations), [CheckPending::num_checks]. *)
Record state := mkS {
  attrs : nat -> astate;
  pending : list inst; cap : nat; epoch : nat;
  num_checks : nat;
  log : list inst; calls : list inst }.

Definition M (A : Type) := state -> state * out A.
Definition ret {A} (a : A) : M A := fun s => (s, Val a).
Definition throw {A} (e : exn) : M A := fun s => (s, Thrown e).
Definition mbind {A B} (m : M A) (f : A -> M B) : M B := fun s =>
  match m s with
  | (s', Val a) => f a s'
  | (s', Thrown e) => (s', Thrown e)
  | (s', Undef) => (s', Undef)
  | (s', NoFuel) => (s', NoFuel)
  end.
Notation "x <~ e1 ;; e2" := (mbind e1 (fun x => e2)) (at level 61, e1 at next level, right associativity).

Definition fupd {B} (f : nat -> B) (i : nat) (b : B) : nat -> B := fun j => if Nat.eqb i j then b else f j.
Definition set_attr (s : state) (a : nat) (t : astate) : state :=
  mkS (fupd (attrs s) a t) (pending s) (cap s) (epoch s) (num_checks s) (log s) (calls s).

(** [std::vector::resize(n)] *)
Definition resize {B} (l : list B) (n : nat) (d : B) : list B := firstn n l ++ repeat d (n - length l).

(** Reading the arrays; an entry beyond the end has not been created yet. *)
Definition stat (s : state) (x : inst) : status := nth (index_of (snd x)) (stats (attrs s (fst x))) UNINITIALIZED.
Definition value (s : state) (x : inst) : V := nth (index_of (snd x)) (values (attrs s (fst x))) vdef.

(** [value_array[n->index] = v] and [status_array[n->index] = st]; only used
    after [check_phylum], so the index is in bounds. *)
Definition put_value (x : inst) (v : V) : M unit := fun s =>
  let t := attrs s (fst x) in
  (set_attr s (fst x) (mkA (started t) (complete t) (upd (values t) (index_of (snd x)) v) (stats t)), Val tt).
Definition put_status (x : inst) (st : status) : M unit := fun s =>
  let t := attrs s (fst x) in
  (set_attr s (fst x) (mkA (started t) (complete t) (values t) (upd (stats t) (index_of (snd x)) st)), Val tt).
Definition get_status (x : inst) : M status := fun s => (s, Val (stat s x)).
Definition get_value (x : inst) : M V := fun s => (s, Val (value s x)).

(** aps-impl.h:231-238 [check_phylum] *)
Definition check_phylum (x : inst) : M unit := fun s =>
  let t := attrs s (fst x) in
  let n := snd x in
  if negb (Nat.eqb (phylum_of n) (dphylum (decl (fst x)))) then (s, Thrown InvalidArgument)
  else if length (values t) <=? index_of n then
    (set_attr s (fst x) (mkA (started t) (complete t) (resize (values t) (index_of n + 1) vdef)
                             (resize (stats t) (index_of n + 1) UNINITIALIZED)), Val tt)
  else (s, Val tt).

(** aps-impl.h:255-257 [Attribute::get_default] and 388-390 [Collection::get_default] *)
Definition get_default (x : inst) : M V :=
  match coll (decl (fst x)) with None => throw Undefined | Some (initial, _) => ret initial end.

(** aps-impl.h:245-252 [Attribute::get] *)
Definition get (x : inst) : M V :=
  _ <~ check_phylum x ;;
  st <~ get_status x ;;
  _ <~ (match st with
        | UNINITIALIZED => d <~ get_default x ;; _ <~ put_value x d ;; put_status x UNEVALUATED
        | _ => ret tt
        end) ;;
  get_value x.

(** aps-impl.h:239-244 [Attribute::set] *)
Definition attribute_set (x : inst) (v : V) : M unit :=
  _ <~ check_phylum x ;; _ <~ put_value x v ;; put_status x ASSIGNED.

(** The virtual [set]: aps-impl.h:239 or 383-385 [Collection::set]. *)
Definition set (x : inst) (v : V) : M unit :=
  match coll (decl (fst x)) with
  | None => attribute_set x v
  | Some (_, combine) => old <~ get x ;; attribute_set x (combine old v)
  end.

Definition set_started (a : nat) : M unit := fun s =>
  let t := attrs s a in (set_attr s a (mkA true (complete t) (values t) (stats t)), Val tt).
Definition set_complete (a : nat) : M unit := fun s =>
  let t := attrs s a in (set_attr s a (mkA (started t) true (values t) (stats t)), Val tt).

(** aps-impl.h:180-184 [assign] *)
Definition assign (x : inst) (v : V) : M unit := fun s =>
  if started (attrs s (fst x)) then (s, Thrown TooLate) else set x v s.

(** aps-impl.cpp:232-234 [add_pending]: [push_back] reallocates (doubling, as
    libstdc++ does) when size = capacity. *)
Definition add_pending (x : inst) : M unit := fun s =>
  let full := Nat.eqb (length (pending s)) (cap s) in
  (mkS (attrs s) (pending s ++ [x]) (if full then Nat.max 1 (2 * cap s) else cap s)
       (if full then S (epoch s) else epoch s) (num_checks s) (log s) (calls s), Val tt).

(** aps-impl.h:227-229 [Attribute::cycle_evaluate] and 351-357
    [CircularAttribute::cycle_evaluate] *)
Definition cycle_evaluate (x : inst) : M V :=
  match circ (decl (fst x)) with
  | None => throw Cyclic
  | Some lat => _ <~ add_pending x ;; _ <~ attribute_set x (bottom lat) ;; ret (bottom lat)
  end.

Definition note_call (x : inst) : M unit := fun s =>
  (mkS (attrs s) (pending s) (cap s) (epoch s) (num_checks s) (log s) (calls s ++ [x]), Val tt).
Definition note_compute (x : inst) : M unit := fun s =>
  (mkS (attrs s) (pending s) (cap s) (epoch s) (num_checks s) (log s ++ [x]) (calls s), Val tt).

(** Running [compute], given [evaluate]. *)
Fixpoint run (ev : inst -> M V) (c : comp) : M V :=
  match c with
  | Ret v => ret v
  | Demand x k => fun s => match ev x s with
                           | (s', Val v) => run ev (k v) s'
                           | (s', Thrown e) => (s', Thrown e)
                           | (s', Undef) => (s', Undef)
                           | (s', NoFuel) => (s', NoFuel)
                           end
  | Raise e => throw e
  end.
Definition compute (ev : inst -> M V) (x : inst) : M V := _ <~ note_compute x ;; run ev (P x).

(** aps-impl.h:198-225 [Attribute::evaluate], given the (virtual) evaluate that
    compute calls. *)
Definition attribute_evaluate (ev : inst -> M V) (x : inst) : M V :=
  _ <~ check_phylum x ;;
  _ <~ note_call x ;;
  _ <~ set_started (fst x) ;;
  st <~ get_status x ;;
  match st with
  | CYCLE => cycle_evaluate x
  | UNINITIALIZED | UNEVALUATED =>
      _ <~ put_status x CYCLE ;;
      v <~ compute ev x ;;
      _ <~ put_value x v ;;
      _ <~ put_status x EVALUATED ;;
      get x
  | _ => get x
  end.

(** aps-impl.h:305-314 [TypedCircular::eval_changed] for a
    [CircularAttributeHelper] (335-337) of instance [x]. *)
Definition eval_changed (ev : inst -> M V) (x : inst) : M bool :=
  match circ (decl (fst x)) with
  | None => throw (Other 0)    (* only circular instances are ever pending *)
  | Some lat =>
      old <~ get x ;;
      e <~ compute ev x ;;
      let new := join lat old e in
      if equal lat old new then ret false
      else _ <~ set x new ;; ret true
  end.

(** aps-impl.cpp:236-246 [clear_pending].  [pass] is the [for] loop: [i] the
    iterator's position, [ep] the epoch in which it was obtained (using it after
    a reallocation is UB), [n] the counter.  [fuel] bounds both loops. *)
Fixpoint pass (fuel : nat) (ev : inst -> M V) (i ep n : nat) : M nat := fun s =>
  match fuel with
  | O => (s, NoFuel)
  | S fuel =>
      if negb (Nat.eqb (epoch s) ep) then (s, Undef)
      else match nth_error (pending s) i with
           | None => (s, Val n)
           | Some x => (c <~ eval_changed ev x ;; pass fuel ev (S i) ep (if c : bool then n else S n)) s
           end
  end.
Fixpoint clear_loop (fuel : nat) (ev : inst -> M V) : M unit := fun s =>
  match fuel with
  | O => (s, NoFuel)
  | S fuel' =>
      (n <~ pass fuel ev 0 (epoch s) 0 ;; (fun s' =>
       if n <? length (pending s') then clear_loop fuel' ev s'
       else (mkS (attrs s') [] (cap s') (epoch s') (num_checks s') (log s') (calls s'), Val tt))) s
  end.
Definition clear_pending (fuel : nat) (ev : inst -> M V) : M unit := clear_loop fuel ev.

(** aps-impl.h:280-293: the constructor and destructor of [CheckPending]. *)
Definition checks_add (s : state) : state :=
  mkS (attrs s) (pending s) (cap s) (epoch s) (S (num_checks s)) (log s) (calls s).
Definition checks_sub (s : state) : state :=
  mkS (attrs s) (pending s) (cap s) (epoch s) (num_checks s - 1) (log s) (calls s).

(** The virtual [evaluate]: aps-impl.h:198 or, for circular attributes, 359-367.
    [fuel] bounds the recursion depth (and the iterations of clear_pending). *)
Fixpoint evaluate (fuel : nat) (x : inst) : M V := fun s =>
  match fuel with
  | O => (s, NoFuel)
  | S fuel =>
      match circ (decl (fst x)) with
      | None => attribute_evaluate (evaluate fuel) x s
      | Some lat =>
          let '(s1, o) :=
            (v <~ attribute_evaluate (evaluate fuel) x ;;
             (fun s' => if Nat.eqb (num_checks s') 1
                        then (_ <~ clear_pending fuel (evaluate fuel) ;; get x) s'
                        else (s', Val v))) (checks_add s) in
          (checks_sub s1, o)
      end
  end.

(** aps-impl.h:186-196 [finish] *)
Definition resize_arrays (a n : nat) : M unit := fun s =>
  let t := attrs s a in
  (set_attr s a (mkA (started t) (complete t) (resize (values t) n vdef) (resize (stats t) n UNINITIALIZED)), Val tt).
Fixpoint evaluate_all (fuel : nat) (a p : nat) (is : list nat) : M unit :=
  match is with
  | [] => ret tt
  | i :: is => _ <~ evaluate fuel (a, mkNode p i) ;; evaluate_all fuel a p is
  end.
Definition finish (fuel a : nat) : M unit := fun s =>
  if complete (attrs s a) then set_complete a s
  else (let p := dphylum (decl a) in
        _ <~ resize_arrays a (psize p) ;;
        _ <~ evaluate_all fuel a p (seq 0 (psize p)) ;;
        set_complete a) s.

(** The initial state: constructors at aps-impl.h:174-177, aps-impl.cpp:248-249. *)
Definition initial_state : state := mkS (fun _ => mkA false false [] []) [] 0 0 0 [] [].

(** A client's calls and what they answer. *)
Inductive op := Assign (x : inst) (v : V) | Evaluate (x : inst) | Finish (a : nat) | Set_ (x : inst) (v : V) | Get (x : inst).
Inductive answer := Unit (o : out unit) | Value (o : out V).
Definition step (fuel : nat) (s : state) (o : op) : state * answer :=
  match o with
  | Assign x v => let '(s', r) := assign x v s in (s', Unit r)
  | Evaluate x => let '(s', r) := evaluate fuel x s in (s', Value r)
  | Finish a => let '(s', r) := finish fuel a s in (s', Unit r)
  | Set_ x v => let '(s', r) := set x v s in (s', Unit r)
  | Get x => let '(s', r) := get x s in (s', Value r)
  end.
(** All calls in order, each with its answer (a client catches exceptions). *)
Fixpoint history (fuel : nat) (ops : list op) (s : state) : state * list answer :=
  match ops with
  | [] => (s, [])
  | o :: ops => let '(s1, a) := step fuel s o in let '(s2, l) := history fuel ops s1 in (s2, a :: l)
  end.
End Attr.
