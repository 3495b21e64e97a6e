(** * Reading programs.

    Models analyze/aps-read.c, the names made in parse/aps.y:30-76, how
    programs named by "with" are read and bound (analyze/aps-bind.c:212-237,
    485-541) and the names under which generated Scala code refers to other
    programs (aps2scala/dump-scala.cc:85-95,134-190). *)

Require Import List Arith Lia Bool Ascii String.
Import ListNotations.
Require Import Verif.LxModel.
Local Open Scope list_scope.

(** ** C strings *)

(** strchr and strrchr: the place of the first and of the last [c] (which is
    not NUL). *)
Fixpoint strchr (s : text) (c : ascii) : option nat :=
  match s with
  | nil => None
  | d :: s' => if Ascii.eqb d c then Some 0 else option_map S (strchr s' c)
  end.
Fixpoint strrchr (s : text) (c : ascii) : option nat :=
  match s with
  | nil => None
  | d :: s' =>
      match strrchr s' c with
      | Some i => Some (S i)
      | None => if Ascii.eqb d c then Some 0 else None
      end
  end.

(** ** The search path *)

(** The first loop of [set_aps_path] (aps-read.c:31-33). *)
Fixpoint count_colons (p : text) : nat :=
  match p with nil => 0 | c :: p' => (if Ascii.eqb c ":" then 1 else 0) + count_colons p' end.

(** Its second loop (35-42).  The pointer [p] is [None] once it has been
    computed from a null [q]; using it then would be a wild access, and gives
    [None] here. *)
Fixpoint cut (n : nat) (p : option text) : option (list text) :=
  match n with
  | 0 => Some nil
  | S n' =>
      match p with
      | None => None
      | Some s =>
          match strchr s ":" with
          | None => option_map (cons s) (cut n' None)
          | Some i => option_map (cons (firstn i s)) (cut n' (Some (skipn (S i) s)))
          end
      end
  end.
Definition set_aps_path (path : text) : option (list text) := cut (1 + count_colons path) (Some path).

(** ** Files *)

(** A top-level declaration: its name ([None] if it has none, or "_"), whether
    it is public, and the declarations in its body if it is polymorphic.  The
    name stands for the declaration. *)
Inductive decl := Decl (name : option nat) (public : bool) (body : list decl).

(** Units (parse/aps-tree.aps): with "..." (the constant with its quotes) and
    declarations. *)
Inductive unit_ := UWith (s : text) | UDecl (d : decl).

(** A file as the parser sees it: with a syntax error, or its units. *)
Inductive file := Syntax | File (us : list unit_).

(** Where programs are read: MAXPATHLEN, the search path and the files, which
    do not change. *)
Record env := { e_max : nat; e_path : list text; e_fs : text -> option file }.

(** The ways to stop: [exit(1)] with a message, or a write beyond the end of
    [buf] in [aps_open]. *)
Inductive stop := NoBuiltins | BadBuiltins | TooMany | CannotOpen (f : text) | SyntaxError | Overflow.

Inductive opened := NotFound | Opened (path : text) (f : file) | Smashed.

(** [aps_open] (aps-read.c:45-64): buf has MAXPATHLEN+1 characters. *)
Fixpoint aps_open (e : env) (dirs : list text) (filename : text) : opened :=
  match dirs with
  | nil => NotFound
  | d :: ds =>
      if e_max e <=? List.length d + List.length filename then aps_open e ds filename
      else
        let path := d ++ "/"%char :: filename in
        if e_max e + 1 <? List.length path + 1 then Smashed
        else
          match e_fs e path with
          | Some f => Opened path f
          | None => aps_open e ds filename
          end
  end.

(** [init_parser] (aps.y:42-57): the name of a program is its file name
    without directories and without the last extension. *)
Definition filebase (filename : text) : text :=
  let root := match strrchr filename "/" with None => filename | Some i => skipn (S i) filename end in
  match strrchr root "." with None => root | Some i => firstn i root end.

(** A program that has been read.  [p_id]: its address. *)
Record prog := { p_id : nat; p_name : text; p_units : list unit_ }.

(** [initialized], [programs], the number of trees made, and the files that
    were opened (latest first). *)
Record rst := { r_init : bool; r_progs : list prog; r_trees : nat; r_log : list text }.

Definition fresh : rst := {| r_init := false; r_progs := nil; r_trees := 0; r_log := nil |}.

Inductive res (A : Type) := Ok (a : A) (st : rst) | Stop (s : stop).
Arguments Ok {A}. Arguments Stop {A}.

Definition max_programs : nat := 100.

(** [initialize] (aps-read.c:67-83). *)
Definition initialize (e : env) (st : rst) : res unit :=
  if r_init st then Ok tt st
  else
    match aps_open e (e_path e) (chars "aps-builtin.aps") with
    | NotFound => Stop NoBuiltins
    | Smashed => Stop Overflow
    | Opened path Syntax => Stop BadBuiltins
    | Opened path (File us) =>
        Ok tt {| r_init := true; r_progs := r_progs st; r_trees := S (r_trees st); r_log := path :: r_log st |}
    end.

(** The part of [find_Program] that reads a file (99-115). *)
Definition read_program (e : env) (st : rst) (name : text) : res prog :=
  if List.length (r_progs st) =? max_programs then Stop TooMany
  else
    let filename := name ++ chars ".aps" in
    match aps_open e (e_path e) filename with
    | NotFound => Stop (CannotOpen filename)
    | Smashed => Stop Overflow
    | Opened path Syntax => Stop SyntaxError
    | Opened path (File us) =>
        let p := {| p_id := r_trees st; p_name := filebase filename; p_units := us |} in
        Ok p {| r_init := r_init st; r_progs := r_progs st ++ [p]; r_trees := S (r_trees st);
                r_log := path :: r_log st |}
    end.

Definition same_text (a b : text) : bool := if list_eq_dec ascii_dec a b then true else false.

(** [find_Program] (85-117). *)
Definition find_program (e : env) (st : rst) (name : text) : res prog :=
  match initialize e st with
  | Stop s => Stop s
  | Ok _ st1 =>
      match find (fun p => same_text name (p_name p)) (r_progs st1) with
      | Some p => Ok p st1
      | None => read_program e st1 name
      end
  end.

(** Several calls. *)
Fixpoint find_programs (e : env) (st : rst) (names : list text) : res (list prog) :=
  match names with
  | nil => Ok nil st
  | n :: ns =>
      match find_program e st n with
      | Stop s => Stop s
      | Ok p st1 =>
          match find_programs e st1 ns with
          | Stop s => Stop s
          | Ok ps st2 => Ok (p :: ps) st2
          end
      end
  end.

(** ** Binding *)

(** An entry of a scope: the program and the declaration. *)
Definition scope := list (nat * nat).

(** [get_bindings] and [get_public_bindings] for a declaration
    (aps-bind.c:485-494,518-541); [add_env_item] leaves out declarations
    without a name (121-127) and otherwise puts a new entry in front.
    Duplicates are reported by add_env_item; see C68. *)
Fixpoint own (p : nat) (d : decl) (sc : scope) : scope :=
  let '(Decl nm _ body) := d in
  let sc1 := match nm with Some k => (p, k) :: sc | None => sc end in
  (fix owns (ds : list decl) (sc : scope) : scope :=
     match ds with nil => sc | x :: xs => owns xs (own p x sc) end) body sc1.
Fixpoint pub (p : nat) (d : decl) (sc : scope) : scope :=
  let '(Decl nm pb body) := d in
  if pb then
    let sc1 := match nm with Some k => (p, k) :: sc | None => sc end in
    (fix pubs (ds : list decl) (sc : scope) : scope :=
       match ds with nil => sc | x :: xs => pubs xs (pub p x sc) end) body sc1
  else sc.

(** traverse_Program(get_public_bindings,...): units with "with" add
    nothing. *)
Fixpoint public_bindings (p : nat) (us : list unit_) (sc : scope) : scope :=
  match us with
  | nil => sc
  | UWith _ :: us' => public_bindings p us' sc
  | UDecl d :: us' => public_bindings p us' (pub p d sc)
  end.

(** The name in a with unit: the constant without its quotes (502-504). *)
Definition with_name (s : text) : text := removelast (tl s).

(** The state of binding: the programs read, those with PROGRAM_BOUND_FLAG
    and, for each program whose uses have been bound ([do_bind], 232), the
    scope in which this was done, latest first. *)
Record bst := { b_read : rst; b_bound : list nat; b_done : list (nat * scope) }.

Inductive bres (A : Type) := BOk (a : A) (st : bst) | BStop (s : stop) | BFuel.
Arguments BOk {A}. Arguments BStop {A}. Arguments BFuel {A}.

Definition bfind (e : env) (st : bst) (name : text) : bres prog :=
  match find_program e (b_read st) name with
  | Stop s => BStop s
  | Ok p r => BOk p {| b_read := r; b_bound := b_bound st; b_done := b_done st |}
  end.

(** traverse_Program(get_bindings,&scope,p), where [bind] is bind_Program. *)
Fixpoint bindings (bind : bst -> prog -> bres unit) (e : env) (p : nat) (us : list unit_)
    (st : bst) (sc : scope) : bres scope :=
  match us with
  | nil => BOk sc st
  | UDecl d :: us' => bindings bind e p us' st (own p d sc)
  | UWith s :: us' =>
      match bfind e st (with_name s) with
      | BStop x => BStop x | BFuel => BFuel
      | BOk q st1 =>
          match bind st1 q with
          | BStop x => BStop x | BFuel => BFuel
          | BOk _ st2 => bindings bind e p us' st2 (public_bindings (p_id q) (p_units q) sc)
          end
      end
  end.

(** [bind_Program] (aps-bind.c:212-237).  [fuel] bounds the depth of calls. *)
Fixpoint bind_program (fuel : nat) (e : env) (st : bst) (p : prog) : bres unit :=
  match fuel with
  | 0 => BFuel
  | S f =>
      match bfind e st (chars "basic") with
      | BStop x => BStop x | BFuel => BFuel
      | BOk basic st1 =>
          if existsb (Nat.eqb (p_id p)) (b_bound st1) then BOk tt st1
          else
            let st2 := {| b_read := b_read st1; b_bound := p_id p :: b_bound st1; b_done := b_done st1 |} in
            let after (st : bst) (sc : scope) :=
              match bindings (bind_program f e) e (p_id p) (p_units p) st sc with
              | BStop x => BStop x | BFuel => BFuel
              | BOk sc' st' =>
                  BOk tt {| b_read := b_read st'; b_bound := b_bound st'; b_done := (p_id p, sc') :: b_done st' |}
              end in
            if p_id basic =? p_id p then after st2 nil
            else
              match bind_program f e st2 basic with
              | BStop x => BStop x | BFuel => BFuel
              | BOk _ st3 => after st3 (public_bindings (p_id basic) (p_units basic) nil)
              end
      end
  end.

(** A run for one program: find it and bind it (analyze/apsc.c:31-32,
    apscpp/apscpp.cc:78-85, aps2scala/aps2scala.cc:80-87). *)
Definition run (fuel : nat) (e : env) (name : text) : bres unit :=
  match bfind e {| b_read := fresh; b_bound := nil; b_done := nil |} name with
  | BStop x => BStop x | BFuel => BFuel
  | BOk p st => bind_program fuel e st p
  end.

(** ** Names in generated code *)

(** [program_id] (dump-scala.cc:85-95). *)
Definition id_char (c : ascii) : text :=
  if alnum c then [c] else if one_of (chars "-_.") c then ["_"%char] else nil.
Definition program_id (s : text) : text := flat_map id_char s.

(** The object that the code for a program defines (138-146), and the one
    that code with [with s] imports (155,183). *)
Definition object_name (p : prog) : text := program_id (p_name p) ++ chars "_implicit".
Definition import_name (s : text) : text := program_id s ++ chars "_implicit".

(** [make_implicit_name] (aps.y:63-76) with counter [k]. *)
Definition clean (c : ascii) : ascii := if alnum c then c else "_"%char.
Definition implicit_name (base : text) (k : nat) : text :=
  map clean ("_"%char :: base ++ "_"%char :: decimal (S k)).
