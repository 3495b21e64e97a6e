(** * What it means for APS expressions, patterns and statements to be well typed:
      a declarative account, independent of the checker. *)
From Coq Require Import List Arith Bool.
From Verif Require Import TyModel.
Import ListNotations.
Set Implicit Arguments.

Section Spec.
Variable P : program.

(** Two types are the same when they differ in renamings and remoteness only: the
    least congruence that identifies a renaming with what it renames and a remote
    type with its node type. *)
Inductive same : ty -> ty -> Prop :=
| same_refl t : same t t
| same_sym t1 t2 : same t1 t2 -> same t2 t1
| same_trans t1 t2 t3 : same t1 t2 -> same t2 t3 -> same t1 t3
| same_rename d t : p_type P d = DRename t -> same (TUse d) t
| same_remote t : same (TRemote t) t
| same_fun fs1 fs2 r1 r2 :
    Forall2 (fun f1 f2 => fst f1 = fst f2 /\ same (snd f1) (snd f2)) fs1 fs2 ->
    same r1 r2 -> same (TFun fs1 r1) (TFun fs2 r2).

(** The type of the elements of a collection type: the first type argument of the
    module it is an instance of, or of a signature of the type formal it is. *)
Inductive element : ty -> ty -> Prop :=
| el_inst d t : p_type P d = DInst (Some t) -> element (TUse d) t
| el_formal d o i ph sigs t :
    p_type P d = DFormal o i ph sigs -> In (Some t) sigs -> element (TUse d) t
| el_rename d t' t : p_type P d = DRename t' -> element t' t -> element (TUse d) t
| el_remote t' t : element t' t -> element (TRemote t') t.

(** An instantiation gives, for each use, a type to each type formal of each
    polymorphic declaration around the entity used. *)
Definition instantiation := nat -> nat -> nat -> ty.

(** The type [t] with the type formals that use [u] instantiates replaced. *)
Fixpoint inst (s : instantiation) (u : nat) (t : ty) : ty :=
  match t with
  | TUse d =>
      match p_type P d with
      | DFormal (Some p) i _ _ => if existsb (Nat.eqb p) (p_env P u) then s u p i else t
      | _ => t
      end
  | TFun fs r => TFun (map (fun f => (fst f, inst s u (snd f))) fs) (inst s u r)
  | TRemote t' => TRemote (inst s u t')
  end.

Variable s : instantiation.
(** types of the pattern variables that are declared without one *)
Variable v : nat -> ty.

Inductive has_type : nat -> ty -> Prop :=
| ht_same e t t' : has_type e t -> same t t' -> has_type e t'
| ht_use e u t :
    p_node P e = EUse u -> value_type (p_use P u) t -> has_type e (inst s u t)
| ht_const e t : p_node P e = EConst t -> has_type e t
| ht_typed e e' t : p_node P e = ETyped e' t -> has_type e' t -> has_type e t
| ht_call e f args fs r :
    p_node P e = ECall f args -> has_type f (TFun fs r) -> fits fs args -> has_type e r
| ht_append e a b t : p_node P e = EAppend a b -> has_type a t -> has_type b t -> has_type e t
| ht_repeat e e' c t :
    p_node P e = ERepeat e' -> has_type e' c -> element c t -> has_type e t
| ht_guarded e e' c t :
    p_node P e = EGuarded e' c -> has_type e' t -> has_type c (p_bool P) -> has_type e t
| ht_controlled e set e' c c' t :
    p_node P e = EControlled set e' -> has_type set c -> element c c' ->
    has_type e' t -> has_type e t
| ht_undefined e t : p_node P e = EUndef -> has_type e t
(** the type of a declared value *)
with value_type : nat -> ty -> Prop :=
| vt_typed d t : v_kind (p_value P d) = VTyped t -> value_type d t
| vt_rename d old t : v_kind (p_value P d) = VRename old -> has_type old t -> value_type d t
| vt_element d set c t :
    v_kind (p_value P d) = VElement set -> has_type set c -> element c t -> value_type d t
| vt_pattern d x : v_kind (p_value P d) = VPattern x -> value_type d (v x)
(** arguments fit formals: one each, but any number for a last sequence formal *)
with fits : list (bool * ty) -> list nat -> Prop :=
| fits_nil : fits [] []
| fits_cons t fs a args : has_type a t -> fits fs args -> fits ((false, t) :: fs) (a :: args)
| fits_seq_nil t fs : fits ((true, t) :: fs) []
| fits_seq_cons t fs a args :
    has_type a t -> fits ((true, t) :: fs) args -> fits ((true, t) :: fs) (a :: args).

Inductive has_ptype : pat -> ty -> Prop :=
| hp_same p t t' : has_ptype p t -> same t t' -> has_ptype p t'
| hp_use u : has_ptype (PUse u) (inst s u (p_pdecl P (p_use P u)))
| hp_typed p t : has_ptype p t -> has_ptype (PTyped p t) t
| hp_call f args fs r : has_ptype f (TFun fs r) -> pfits fs args -> has_ptype (PCall f args) r
| hp_rest p t : has_ptype p t -> has_ptype (PRest p) t
| hp_and p1 p2 t : has_ptype p1 t -> has_ptype p2 t -> has_ptype (PAnd p1 p2) t
| hp_var x : p_vtype P x = None -> has_ptype (PVar x) (v x)
| hp_tvar x t : p_vtype P x = Some t -> has_ptype (PVar x) t
| hp_cond e t : has_type e (p_bool P) -> has_ptype (PCond e) t
| hp_no t : has_ptype PNo t
with pfits : list (bool * ty) -> list pat -> Prop :=
| pfits_nil : pfits [] []
| pfits_cons t fs a args : has_ptype a t -> pfits fs args -> pfits ((false, t) :: fs) (a :: args)
| pfits_seq_nil t fs : pfits ((true, t) :: fs) []
| pfits_seq_cons t fs a args :
    has_ptype a t -> pfits ((true, t) :: fs) args -> pfits ((true, t) :: fs) (a :: args).

(** a thing assigned is declared VAR *)
Definition assignable (l : nat) : Prop :=
  match p_node P l with
  | EUse u => v_var (p_value P (p_use P u)) = true
  | ECall f _ => exists u, p_node P f = EUse u /\ v_var (p_value P (p_use P u)) = true
  | _ => True
  end.

Inductive ok_default : ty -> default -> Prop :=
| od_none t : ok_default t NoDefault
| od_simple t e : has_type e t -> ok_default t (Simple e)
| od_composite t e c :
    has_type e t -> has_type c (TFun [(false, t); (false, t)] t) -> ok_default t (Composite e c).

(** Well typed statements.  [pp chk p] selects the patterns that must be well
    typed; [chk] tells whether the pattern is matched against a known type. *)
Variable pp : bool -> pat -> Prop.
Inductive ok_stmt : stmt -> Prop :=
| os_value t d : ok_default t d -> ok_stmt (SValue t d)
| os_assign n l r t : has_type l t -> has_type r t -> assignable l -> ok_stmt (SAssign n l r)
| os_if c t f :
    has_type c (p_bool P) -> Forall ok_stmt t -> Forall ok_stmt f -> ok_stmt (SIf c t f)
| os_for e ms t :
    has_type e t -> Forall (fun m => (pp true (fst m) -> has_ptype (fst m) t) /\ Forall ok_stmt (snd m)) ms ->
    ok_stmt (SFor e ms)
| os_case e ms d t :
    has_type e t -> Forall (fun m => (pp true (fst m) -> has_ptype (fst m) t) /\ Forall ok_stmt (snd m)) ms ->
    Forall ok_stmt d -> ok_stmt (SCase e ms d)
| os_forin e b t : has_type e t -> Forall ok_stmt b -> ok_stmt (SForIn e b)
| os_match p b : (pp false p -> exists t, has_ptype p t) -> Forall ok_stmt b -> ok_stmt (SMatch p b)
| os_block b : Forall ok_stmt b -> ok_stmt (SBlock b).

End Spec.

(** all patterns *)
Definition every (chk : bool) (p : pat) : Prop := True.

(** The instantiation and the variable types found by the checker: [s] and [v]
    agree with what state [st] holds. *)
Definition agrees (st : state) (s : instantiation) (v : nat -> ty) : Prop :=
  (forall u p i t, s_slot st u p i = Some t -> s u p i = t) /\
  (forall x t, s_pmemo st x = Some t -> v x = t).

(** Conditions the binder guarantees: a type that renames another does not mention
    type formals of polymorphics (it is declared outside of them), and two type
    formals of a polymorphic have different indices. *)
Fixpoint no_poly (P : program) (t : ty) : Prop :=
  match t with
  | TUse d => match p_type P d with DFormal (Some _) _ _ _ => False | _ => True end
  | TFun fs r => (fix go (l : list (bool * ty)) : Prop :=
                    match l with [] => True | f :: l' => no_poly P (snd f) /\ go l' end) fs
                 /\ no_poly P r
  | TRemote t' => no_poly P t'
  end.

Record wf_types (P : program) : Prop := mkWf {
  wf_rename : forall d t, p_type P d = DRename t -> no_poly P t;
  wf_index : forall d d' p i ph ph' sg sg',
      p_type P d = DFormal (Some p) i ph sg -> p_type P d' = DFormal (Some p) i ph' sg' -> d = d' }.

(** Renamings are not recursive: a rank goes down from a renaming to every type
    mentioned in what it renames. *)
Fixpoint below (rank : nat -> nat) (k : nat) (t : ty) : Prop :=
  match t with
  | TUse d => rank d < k
  | TFun fs r => (fix go (l : list (bool * ty)) : Prop :=
                    match l with [] => True | f :: l' => below rank k (snd f) /\ go l' end) fs
                 /\ below rank k r
  | TRemote t' => below rank k t'
  end.
Definition acyclic (P : program) : Prop :=
  exists rank, forall d t, p_type P d = DRename t -> below rank (rank d) t.

(** The constructors in patterns are not polymorphic and type annotations in
    patterns are where the checker looks at them: a typed pattern [p : t] only
    where a type is inferred ([chk = false]), a typed variable only where a type is
    given ([chk = true]). *)
Fixpoint plain (P : program) (chk : bool) (p : pat) : Prop :=
  match p with
  | PUse u => p_env P u = []
  | PTyped q _ => chk = false /\ plain P true q
  | PCall f args => plain P false f /\
                    (fix go (l : list pat) : Prop :=
                       match l with [] => True | a :: l' => plain P true a /\ go l' end) args
  | PRest q => plain P chk q
  | PAnd p1 p2 => plain P true p1 /\ plain P chk p2
  | PVar x => match p_vtype P x with Some _ => chk = true | None => True end
  | PCond _ => True
  | PNo => True
  end.
Fixpoint plain_stmt (P : program) (s : stmt) : Prop :=
  let fix block (b : list stmt) : Prop :=
    match b with [] => True | s :: b' => plain_stmt P s /\ block b' end in
  let fix matches (ms : list (pat * list stmt)) : Prop :=
    match ms with [] => True | (p, b) :: ms' => plain P true p /\ block b /\ matches ms' end in
  match s with
  | SValue _ _ | SAssign _ _ _ => True
  | SIf _ t f => block t /\ block f
  | SFor _ ms => matches ms
  | SCase _ ms d => matches ms /\ block d
  | SForIn _ b => block b
  | SMatch p b => plain P false p /\ block b
  | SBlock b => block b
  end.
