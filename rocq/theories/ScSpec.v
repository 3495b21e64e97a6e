(** * ScSpec: what demand-driven evaluation should do (specification).

    Independent of the evaluator: only about the programs ([prog]) that compute
    attributes, and what a state shows: statuses, values, [pending]. *)
From Verif Require Import Base ScModel.

(** [runs p L v]: the program [p] reads the attributes in [L], one after the
    other, is given the values in [L], and gives [v]. *)
Inductive runs {V} : prog V -> list (nat * V) -> V -> Prop :=
| runs_give v : runs (Give v) [] v
| runs_read b k w L v : runs (k w) L v -> runs (Read b k) ((b, w) :: L) v.

(** The value is final for the user. *)
Definition settled {V} (s : state V) (a : nat) : Prop :=
  e_status (at_ s a) = EVALUATED \/ e_status (at_ s a) = ASSIGNED.

(** No evaluation is in progress. *)
Definition idle {V} (s : state V) : Prop :=
  pending s = [] /\ forall a, e_status (at_ s a) <> CYCLE.

(** The value of an evaluated attribute is what its program gives for the values
    that are there for the attributes it reads, and these are final. *)
Definition equation_holds {V} (Y : system V) (s : state V) (a : nat) : Prop :=
  exists L, runs (s_compute Y a) L (e_value (at_ s a)) /\
    forall b w, In (b, w) L -> settled s b /\ e_value (at_ s b) = w.

(** Bounds of attributes that the programs respect: e.g. [B a v] says that [v] is
    at most the value of [a] in some solution of monotone equations. *)
Record respected {V} (Y : system V) (B : nat -> V -> Prop) : Prop := {
  re_compute : forall a L v, runs (s_compute Y a) L v ->
     (forall b w, In (b, w) L -> B b w) -> B a v;
  re_default : forall a, s_circular Y a = true -> B a (s_default Y a);
  re_initial : forall a v, s_initial Y a = Some v -> B a v;
  re_null : forall a, s_circular Y a = true -> s_initial Y a = None -> B a (s_null Y)
}.

(** The assignments of a history respect the bounds. *)
Definition assignments_respect {V} (Y : system V) (B : nat -> V -> Prop) (h : list (event V)) : Prop :=
  forall a v, In (Assign a v) h ->
    match s_initial Y a with
    | None => B a v
    | Some _ => forall old, B a old -> B a (s_combine Y a old v)
    end.

(** Lives of the objects: as [history], but calls may have thrown exceptions,
    which the user caught. *)
Inductive life {V} (Y : system V) : state V -> Prop :=
| life_start : life Y (start Y)
| life_get n s a : life Y s ->
    forall s', (exists v, get Y n a s = Done v s') \/ (exists e, get Y n a s = Throws e s') ->
    life Y s'
| life_set n s a v : life Y s ->
    forall s', set Y n a v s = Done tt s' \/ (exists e, set Y n a v s = Throws e s') ->
    life Y s'.

(** Histories where everything is assigned before anything is demanded. *)
Definition only_assigns {V} (h : list (event V)) : Prop :=
  forall e, In e h -> exists a v, e = Assign a v.
Definition only_demands {V} (h : list (event V)) : Prop :=
  forall e, In e h -> exists a v, e = Demand a v.

(** No attribute is circular. *)
Definition plain {V} (Y : system V) : Prop := forall a, s_circular Y a = false.

(** The values of attributes, without circularity: [known] are the assigned ones. *)
Inductive value_of {V} (Y : system V) (known : nat -> option V) : nat -> V -> Prop :=
| value_known a v : known a = Some v -> value_of Y known a v
| value_computed a L v : known a = None -> runs (s_compute Y a) L v ->
    (forall b w, In (b, w) L -> value_of Y known b w) -> value_of Y known a v.

(** The program [p] reads the attributes in [L], is given the values in [L], and
    then reads [b]. *)
Inductive reads_next {V} : prog V -> list (nat * V) -> nat -> Prop :=
| reads_now b k : reads_next (Read b k) [] b
| reads_later b k w L c : reads_next (k w) L c -> reads_next (Read b k) ((b, w) :: L) c.

(** Attribute [a] needs attribute [b]. *)
Definition needs {V} (Y : system V) (known : nat -> option V) (a b : nat) : Prop :=
  known a = None /\ exists L, reads_next (s_compute Y a) L b /\
    forall c w, In (c, w) L -> value_of Y known c w.

(** What was assigned. *)
Definition assigned {V} (s : state V) (a : nat) : option V :=
  match e_status (at_ s a) with ASSIGNED => Some (e_value (at_ s a)) | _ => None end.

(** No cycle was merged with another one (the field [cycleLast] of a helper is
    set to [null] by [CircularHelper.addAll], line 420, only). *)
Definition unmerged {V} (s : state V) : Prop :=
  forall a h, e_helper (at_ s a) = Some h -> cycleLast h <> None.

(** In the state [s], the program of the evaluated attribute [a] reads [b], when
    it is given the values of [s]. *)
Definition depends {V} (Y : system V) (s : state V) (a b : nat) : Prop :=
  e_status (at_ s a) = EVALUATED /\
  exists L, reads_next (s_compute Y a) L b /\
    forall c w, In (c, w) L -> e_value (at_ s c) = w.

(** Equality of values is decided by [v_equal]. *)
Definition equal_sound {V} (Y : system V) : Prop :=
  forall a u v, s_equal Y a u v = true -> u = v.

(** Each program reads the same attributes, whatever their values are. *)
Definition fixed_reads {V} (Y : system V) : Prop :=
  forall a L v L' v', runs (s_compute Y a) L v -> runs (s_compute Y a) L' v' ->
    map fst L = map fst L'.

(** The programs are monotone for the order [le]. *)
Definition monotone {V} (Y : system V) (le : V -> V -> Prop) : Prop :=
  forall a L v L' v', runs (s_compute Y a) L v -> runs (s_compute Y a) L' v' ->
    Forall2 (fun x y => fst x = fst y /\ le (snd x) (snd y)) L L' -> le v v'.

(** [sigma] gives a value to each attribute that is no less than what the
    programs compute from smaller values, nor than the values to start with. *)
Record upper {V} (Y : system V) (le : V -> V -> Prop) (sigma : nat -> V) : Prop := {
  up_compute : forall a L v, runs (s_compute Y a) L v ->
     (forall b w, In (b, w) L -> le w (sigma b)) -> le v (sigma a);
  up_default : forall a, s_circular Y a = true -> le (s_default Y a) (sigma a);
  up_initial : forall a v, s_initial Y a = Some v -> le v (sigma a);
  up_null : forall a, s_circular Y a = true -> s_initial Y a = None -> le (s_null Y) (sigma a)
}.

(** The values to start with are least. *)
Record least_start {V} (Y : system V) (le : V -> V -> Prop) : Prop := {
  ls_default : forall a v, s_circular Y a = true -> le (s_default Y a) v;
  ls_initial : forall a w v, s_initial Y a = Some w -> le w v;
  ls_null : forall a v, s_circular Y a = true -> s_initial Y a = None -> le (s_null Y) v
}.
