(** * ScModel: demand-driven evaluation of attributes in the Scala runtime.

    Models /repo/base/scala/aps-impl.scala, lines 180-293 (object [Evaluation],
    class [Evaluation]), 356-386 ([CollectionEvaluation]), 388-423
    ([CircularHelper]) and 425-522 ([CircularEvaluation]), for the classes that
    /repo/aps2scala/dump-scala.cc:709-718 generates: [Evaluation], possibly
    [with CircularEvaluation], possibly [with CollectionEvaluation] (in this
    order; the static variant [StaticCircularEvaluation] is not modelled).

    Simplifications, for the whole file:
    - the objects of class [Evaluation] are numbered; a reference is a number
      and [null] is [None];
    - all attributes have values of one type [V], of which [s_null] is the
      value [null.asInstanceOf[ValueType]] of line 227;
    - the method [compute] of an attribute is a program ([prog]) that reads
      other attributes one after the other, with what is read next depending on
      what was read before, and gives a value or throws.  It neither assigns
      attributes nor catches exceptions;
    - the output for debugging is not modelled (lines 256-263, 267, 392, 396,
      404-411, 461, 474); the loop of lines 407-410 has no effect but this;
    - an object of class [CircularHelper] is only created in line 464, when
      [cycleParent] of an attribute is [null], and [cycleParent] is set right
      after it: every attribute creates at most one.  It is therefore identified
      with the attribute that created it. *)
From Verif Require Import Base.

(** Exceptions: line 192 (and whatever else [compute] throws), 193, 190 and
    line 507, which is also a [CyclicAttributeException]. *)
Inductive exn := Failed | Cyclic | TooLate | NonMonotonic.

(** Outcome of a method called in a state: returns, throws an exception, or
    stops with an internal failure: a failed [assert] or a [null] pointer
    (which are exceptions for Scala, too), or [pop] of an empty stack.
    [OutOfFuel] is not an outcome of the code. *)
Inductive out (St A : Type) : Type :=
| Done (a : A) (s : St)
| Throws (e : exn) (s : St)
| Crash (s : St)
| OutOfFuel.
Arguments Done {St A} _ _.
Arguments Throws {St A} _ _.
Arguments Crash {St A} _.
Arguments OutOfFuel {St A}.

Definition M (St A : Type) : Type := St -> out St A.

Definition ret {St A} (a : A) : M St A := fun s => Done a s.
Definition throw {St A} (e : exn) : M St A := fun s => Throws e s.
Definition crash {St A} : M St A := fun s => Crash s.
Definition nofuel {St A} : M St A := fun _ => OutOfFuel.
Definition get_st {St A} (f : St -> A) : M St A := fun s => Done (f s) s.
Definition put_st {St} (f : St -> St) : M St unit := fun s => Done tt (f s).

Definition bnd {St A B} (m : M St A) (k : A -> M St B) : M St B :=
  fun s => match m s with
           | Done a s' => k a s'
           | Throws e s' => Throws e s'
           | Crash s' => Crash s'
           | OutOfFuel => OutOfFuel
           end.

Declare Scope ev_scope.
Delimit Scope ev_scope with ev.
Notation "x <- e1 ;; e2" := (bnd e1 (fun x => e2))
  (at level 61, e1 at next level, right associativity) : ev_scope.
Notation "e1 ;;; e2" := (bnd e1 (fun _ => e2))
  (at level 61, right associativity) : ev_scope.

(** Lines 181-187. *)
Inductive status := UNINITIALIZED | UNEVALUATED | CYCLE | EVALUATED | ASSIGNED.

(** [compute]: reads attributes, then gives a value or throws. *)
Inductive prog (V : Type) : Type :=
| Give (v : V)
| Read (b : nat) (k : V -> prog V)
| Fail.
Arguments Give {V} _.
Arguments Read {V} _ _.
Arguments Fail {V}.

(** What the generated classes define for each attribute (dump-scala.cc:709-760):
    - [s_circular]: [with CircularEvaluation];
    - [s_initial]: [Some] of [initial] for [with CollectionEvaluation];
    - [s_default]: [getDefault] of the class, for circular attributes (lines 458
      and 363: [v_bottom] of the lattice, or [initial]);
    - [s_equal], [s_compare]: [v_equal] and [v_compare] of [lattice];
    - [s_combine]: [combine] of collections;
    - [s_compute]: [compute];
    - [s_null]: the value of line 227. *)
Record system (V : Type) : Type := mkSystem {
  s_circular : nat -> bool;
  s_initial : nat -> option V;
  s_default : nat -> V;
  s_equal : nat -> V -> V -> bool;
  s_compare : nat -> V -> V -> bool;
  s_combine : nat -> V -> V -> V;
  s_compute : nat -> prog V;
  s_null : V
}.
Arguments s_circular {V} _ _.
Arguments s_initial {V} _ _.
Arguments s_default {V} _ _.
Arguments s_equal {V} _ _ _ _.
Arguments s_compare {V} _ _ _ _.
Arguments s_combine {V} _ _ _ _.
Arguments s_compute {V} _ _.
Arguments s_null {V} _.

(** The fields of [CircularHelper], lines 388-389. *)
Record helper := mkHelper { cycleLast : option nat; modified : bool }.

(** The fields of [Evaluation] (226-227) and [CircularEvaluation] (431-437). *)
Record evaluation (V : Type) : Type := mkEvaluation {
  e_status : status;
  e_value : V;
  e_parent : option nat;
  e_next : option nat;
  e_helper : option helper
}.
Arguments mkEvaluation {V} _ _ _ _ _.
Arguments e_status {V} _.
Arguments e_value {V} _.
Arguments e_parent {V} _.
Arguments e_next {V} _.
Arguments e_helper {V} _.

(** The objects, and [pending] (215; the head is the top of the stack). *)
Record state (V : Type) : Type := mkState {
  at_ : nat -> evaluation V;
  pending : list nat
}.
Arguments mkState {V} _ _.
Arguments at_ {V} _ _.
Arguments pending {V} _.

Definition set_fun {A} (f : nat -> A) (i : nat) (x : A) : nat -> A :=
  fun j => if j =? i then x else f j.

Definition eq_ref (x y : option nat) : bool :=
  match x, y with
  | Some a, Some b => a =? b
  | None, None => true
  | _, _ => false
  end.

Section Evaluation.
Context {V : Type} (Y : system V).
Local Open Scope ev_scope.

Notation St := (state V).

(** Assignments to fields. *)
Definition edit (a : nat) (f : evaluation V -> evaluation V) : M St unit :=
  put_st (fun s => mkState (set_fun (at_ s) a (f (at_ s a))) (pending s)).
Definition set_status (a : nat) (x : status) : M St unit :=
  edit a (fun e => mkEvaluation x (e_value e) (e_parent e) (e_next e) (e_helper e)).
Definition set_value (a : nat) (v : V) : M St unit :=
  edit a (fun e => mkEvaluation (e_status e) v (e_parent e) (e_next e) (e_helper e)).
Definition set_parent (a : nat) (p : option nat) : M St unit :=
  edit a (fun e => mkEvaluation (e_status e) (e_value e) p (e_next e) (e_helper e)).
Definition set_next (a : nat) (p : option nat) : M St unit :=
  edit a (fun e => mkEvaluation (e_status e) (e_value e) (e_parent e) p (e_helper e)).
Definition set_helper (a : nat) (h : helper) : M St unit :=
  edit a (fun e => mkEvaluation (e_status e) (e_value e) (e_parent e) (e_next e) (Some h)).

(** Lines 197-200. *)
Definition push (a : nat) : M St unit :=
  put_st (fun s => mkState (at_ s) (a :: pending s)).

(** Lines 202-210. *)
Definition pop : M St unit :=
  fun s => match pending s with
           | [] => Crash s
           | _ :: r => Done tt (mkState (at_ s) r)
           end.

(** A reference that must not be [null]. *)
Definition not_null {A} (x : option A) : M St A :=
  match x with Some a => ret a | None => crash end.

(** [assert], e.g. line 397. *)
Definition assert_ (b : bool) : M St unit := if b then ret tt else crash.

(** [CircularEvaluation.inCycle], lines 439-445. *)
Fixpoint in_cycle_ (n : nat) (a : nat) : M St (option nat) :=
  match n with
  | O => nofuel
  | S n' =>
    p <- get_st (fun s => e_parent (at_ s a)) ;;
    match p with
    | None => ret None
    | Some p =>
      q <- (if p =? a then ret (Some p) else in_cycle_ n' p) ;;
      old <- get_st (fun s => e_parent (at_ s a)) ;;
      (if eq_ref q old then ret tt else set_parent a q) ;;;
      ret q
    end
  end.

(** [inCycle]: line 231 for attributes that are not circular, lines 439-445. *)
Definition in_cycle (n : nat) (a : nat) : M St (option nat) :=
  if s_circular Y a then in_cycle_ n a else ret None.

(** [CircularHelper.add], lines 395-401, for the helper of [ce]. *)
Definition helper_add (ce c : nat) : M St unit :=
  h <- get_st (fun s => e_helper (at_ s ce)) ;;
  h <- not_null h ;;
  last <- not_null (cycleLast h) ;;
  nx <- get_st (fun s => e_next (at_ s c)) ;;
  assert_ (eq_ref nx None) ;;;
  set_next last (Some c) ;;;
  set_helper ce (mkHelper (Some c) (modified h)).

(** [CircularHelper.addAll], lines 403-422, for the helper of [ce].  Line 413
    compares helpers: those of different attributes are different, and if that of
    [c] is [null] it is not the one of [ce]. *)
Definition helper_add_all (ce c : nat) : M St unit :=
  h <- get_st (fun s => e_helper (at_ s ce)) ;;
  h <- not_null h ;;
  if c =? ce then ret tt else
  other <- get_st (fun s => e_helper (at_ s c)) ;;
  other <- not_null other ;;
  last <- not_null (cycleLast h) ;;
  nx <- get_st (fun s => e_next (at_ s last)) ;;
  assert_ (eq_ref nx None) ;;;
  olast <- not_null (cycleLast other) ;;
  set_next last (Some c) ;;;
  set_helper ce (mkHelper (Some olast) (if modified other then true else modified h)) ;;;
  set_helper c (mkHelper None (modified other)).

(** [setInCycle]: lines 232-234 (not circular), 447-456. *)
Definition set_in_cycle (n : nat) (e ce : nat) : M St unit :=
  if s_circular Y e then
    p <- get_st (fun s => e_parent (at_ s e)) ;;
    match p with
    | None =>
      set_parent e (Some ce) ;;;
      helper_add ce e
    | Some _ =>
      p <- in_cycle n e ;;
      p <- not_null p ;;
      helper_add_all ce p ;;;
      set_parent p (Some ce)
    end
  else throw Cyclic.

(** The loop of [markPending], lines 473-477. *)
Fixpoint mark_loop (n : nat) (cycle : nat) (l : list nat) : M St unit :=
  match l with
  | [] => ret tt
  | e :: l' =>
    c <- in_cycle n e ;;
    if eq_ref c (Some cycle) then ret tt else
    set_in_cycle n e cycle ;;;
    mark_loop n cycle l'
  end.

(** [markPending], lines 471-478.  It is called when [cycleParent] is not
    [null]; then [inCycle] is not [null], either. *)
Definition mark_pending (n : nat) (a : nat) : M St unit :=
  c <- in_cycle n a ;;
  c <- not_null c ;;
  l <- get_st pending ;;
  mark_loop n c l.

(** [detectedCycle]: lines 284-286 (not circular), 460-469. *)
Definition detected_cycle (n : nat) (a : nat) : M St V :=
  if s_circular Y a then
    p <- get_st (fun s => e_parent (at_ s a)) ;;
    (match p with
     | None =>
       set_value a (s_default Y a) ;;;
       set_helper a (mkHelper (Some a) false) ;;;
       set_parent a (Some a)
     | Some _ => ret tt
     end) ;;;
    mark_pending n a ;;;
    get_st (fun s => e_value (at_ s a))
  else throw Cyclic.

(** [check], lines 503-510. *)
Definition check (n : nat) (c : nat) (v : V) : M St unit :=
  old <- get_st (fun s => e_value (at_ s c)) ;;
  if s_equal Y c old v then ret tt else
  l <- in_cycle n c ;;
  l <- not_null l ;;
  h <- get_st (fun s => e_helper (at_ s l)) ;;
  h <- not_null h ;;
  set_helper l (mkHelper (cycleLast h) true) ;;;
  if s_compare Y c old v then ret tt else throw NonMonotonic.

(** [compute], where [g] is the method [get] of the attributes that are read. *)
Fixpoint run {St' : Type} (g : nat -> M St' V) (p : prog V) : M St' V :=
  match p with
  | Give v => ret v
  | Read b k => v <- g b ;; run g (k v)
  | Fail => throw Failed
  end.

(** [recompute], lines 517-521. *)
Definition recompute (n : nat) (g : nat -> M St V) (c : nat) : M St unit :=
  v <- run g (s_compute Y c) ;;
  check n c v ;;;
  set_value c v.

(** The inner loop of [evaluateCycle] of [a], lines 486-492, from [c] on;
    [true]: returned in line 490. *)
Fixpoint pass (n : nat) (m : nat) (g : nat -> M St V) (a c : nat) : M St bool :=
  match n with
  | O => nofuel
  | S n' =>
    push c ;;;
    recompute m g c ;;;
    pop ;;;
    p <- get_st (fun s => e_parent (at_ s a)) ;;
    if negb (eq_ref p (Some a)) then ret true else
    nx <- get_st (fun s => e_next (at_ s c)) ;;
    match nx with
    | None => ret false
    | Some c' => pass n' m g a c'
    end
  end.

(** The loop that freezes values, lines 496-499. *)
Fixpoint freeze (n : nat) (c : nat) : M St unit :=
  match n with
  | O => nofuel
  | S n' =>
    set_status c EVALUATED ;;;
    nx <- get_st (fun s => e_next (at_ s c)) ;;
    match nx with
    | None => ret tt
    | Some c' => freeze n' c'
    end
  end.

(** The outer loop, lines 483-499. *)
Fixpoint passes (n : nat) (m : nat) (g : nat -> M St V) (a : nat) : M St unit :=
  match n with
  | O => nofuel
  | S n' =>
    h <- get_st (fun s => e_helper (at_ s a)) ;;
    h <- not_null h ;;
    set_helper a (mkHelper (cycleLast h) false) ;;;
    early <- pass m m g a a ;;
    if early : bool then ret tt else
    h <- get_st (fun s => e_helper (at_ s a)) ;;
    h <- not_null h ;;
    if modified h then passes n' m g a else freeze m a
  end.

(** [evaluateCycle]: lines 280-282 (not circular), 480-501. *)
Definition evaluate_cycle (n : nat) (g : nat -> M St V) (a : nat) : M St unit :=
  if s_circular Y a then
    p <- get_st (fun s => e_parent (at_ s a)) ;;
    if eq_ref p (Some a) then passes n n g a else ret tt
  else throw Cyclic.

(** [CollectionEvaluation.initialize], lines 365-370; nothing for attributes
    that are no collections. *)
Definition initialize (a : nat) : M St unit :=
  match s_initial Y a with
  | None => ret tt
  | Some v =>
    st <- get_st (fun s => e_status (at_ s a)) ;;
    match st with
    | UNINITIALIZED => set_status a UNEVALUATED ;;; set_value a v
    | _ => ret tt
    end
  end.

(** [get], lines 255-264 and 372-375, with [doEvaluate], lines 236-253. *)
Fixpoint get (n : nat) (a : nat) : M St V :=
  match n with
  | O => nofuel
  | S n' =>
    initialize a ;;;
    st <- get_st (fun s => e_status (at_ s a)) ;;
    match st with
    | CYCLE => detected_cycle n' a
    | UNINITIALIZED | UNEVALUATED =>
      set_status a CYCLE ;;;
      push a ;;;
      v <- run (get n') (s_compute Y a) ;;
      set_value a v ;;;
      pop ;;;
      c <- in_cycle n' a ;;
      (match c with
       | Some _ => evaluate_cycle n' (get n') a
       | None => set_status a EVALUATED
       end) ;;;
      get_st (fun s => e_value (at_ s a))
    | EVALUATED | ASSIGNED => get_st (fun s => e_value (at_ s a))
    end
  end.

(** [Evaluation.set], lines 271-278, for [checkForLateUpdate] (line 229). *)
Definition set_plain (a : nat) (v : V) : M St unit :=
  st <- get_st (fun s => e_status (at_ s a)) ;;
  match st with
  | EVALUATED => throw TooLate
  | _ => set_value a v ;;; set_status a ASSIGNED
  end.

(** [set] of [CircularEvaluation], lines 512-515, or of [Evaluation]. *)
Definition set_circular (n : nat) (a : nat) (v : V) : M St unit :=
  (if s_circular Y a then check n a v else ret tt) ;;;
  set_plain a v.

(** [set]: lines 382-385 for collections.  [Attribute.assign] (308-313) calls
    it: its own test is of a variable (line 306) that is never assigned. *)
Definition set (n : nat) (a : nat) (v : V) : M St unit :=
  match s_initial Y a with
  | None => set_circular n a v
  | Some _ =>
    initialize a ;;;
    old <- get_st (fun s => e_value (at_ s a)) ;;
    set_circular n a (s_combine Y a old v)
  end.

(** Before anything is called: lines 226-227, 431-437, 215. *)
Definition start : St :=
  mkState (fun _ => mkEvaluation UNINITIALIZED (s_null Y) None None None) [].

End Evaluation.

(** What a user of a module does, with the outcome: demands an attribute
    ([get]), or assigns one. *)
Inductive event (V : Type) : Type :=
| Demand (a : nat) (v : V)
| Assign (a : nat) (v : V).
Arguments Demand {V} _ _.
Arguments Assign {V} _ _.

(** A step: some call that returned. *)
Inductive step {V} (Y : system V) : state V -> event V -> state V -> Prop :=
| step_demand n s a v s' :
    get Y n a s = Done v s' -> step Y s (Demand a v) s'
| step_assign n s a v s' :
    set Y n a v s = Done tt s' -> step Y s (Assign a v) s'.

(** Histories of calls that returned, from the start. *)
Inductive history {V} (Y : system V) : list (event V) -> state V -> Prop :=
| history_nil : history Y [] (start Y)
| history_snoc h s e s' :
    history Y h s -> step Y s e s' -> history Y (h ++ [e]) s'.
