(** * Reading programs: what should happen. *)

Require Import List Arith Lia Bool Ascii String.
Import ListNotations.
Require Import Verif.LxModel Verif.RdModel.
Local Open Scope list_scope.

(** Texts joined by [c]. *)
Fixpoint join (c : ascii) (l : list text) : text :=
  match l with nil => nil | [s] => s | s :: l' => s ++ c :: join c l' end.

(** A name without directories. *)
Definition plain (n : text) : Prop := ~ In "/"%char n.

(** [dir]/[filename] can be looked for, and is there. *)
Definition is_file (e : env) (dir filename : text) (f : file) : Prop :=
  List.length dir + List.length filename < e_max e /\ e_fs e (dir ++ "/"%char :: filename) = Some f.

(** The file [filename] in the first directory of the search path that has
    it. *)
Definition first_on_path (e : env) (filename path : text) (f : file) : Prop :=
  exists before dir after, e_path e = before ++ dir :: after /\
    path = dir ++ "/"%char :: filename /\ is_file e dir filename f /\
    forall d g, In d before -> ~ is_file e d filename g.

(** The program [n] has the units [us]. *)
Definition contents (e : env) (n : text) (us : list unit_) : Prop :=
  exists path, first_on_path e (n ++ chars ".aps") path (File us).

(** The programs needed for [n0]. *)
Inductive needed (e : env) (n0 : text) : text -> Prop :=
| Needed_self : needed e n0 n0
| Needed_basic : needed e n0 (chars "basic")
| Needed_with : forall n us s, needed e n0 n -> contents e n us -> In (UWith s) us ->
    needed e n0 (with_name s).

(** All named declarations in a declaration, and the public ones, in order. *)
Fixpoint all_names (d : decl) : list nat :=
  let '(Decl nm _ body) := d in
  match nm with Some k => [k] | None => nil end ++ flat_map all_names body.
Fixpoint public_names (d : decl) : list nat :=
  let '(Decl nm pb body) := d in
  if pb then match nm with Some k => [k] | None => nil end ++ flat_map public_names body else nil.

Definition exported (us : list unit_) : list nat :=
  flat_map (fun u => match u with UDecl d => public_names d | UWith _ => nil end) us.

(** What a unit of program [n] brings into scope: declarations with the name
    of the program they are from. *)
Inductive brings (e : env) (n : text) : unit_ -> list (text * nat) -> Prop :=
| Br_decl : forall d, brings e n (UDecl d) (map (pair n) (all_names d))
| Br_with : forall s us, contents e (with_name s) us ->
    brings e n (UWith s) (map (pair (with_name s)) (exported us)).

(** What is in scope in program [n]: the public declarations of "basic", the
    declarations of the program, and the public ones of the programs it names,
    in the order of the units. *)
Definition in_scope (e : env) (n : text) (items : list (text * nat)) : Prop :=
  exists us bs basics, contents e n us /\ Forall2 (brings e n) us bs /\
    (n = chars "basic" /\ basics = nil \/
     n <> chars "basic" /\ exists bus, contents e (chars "basic") bus /\
       basics = map (pair (chars "basic")) (exported bus)) /\
    items = basics ++ List.concat bs.

(** An entry of a scope is the declaration [k] of the program called [n]. *)
Definition entry (progs : list prog) (it : text * nat) (en : nat * nat) : Prop :=
  snd it = snd en /\ exists q, In q progs /\ p_name q = fst it /\ p_id q = fst en.
