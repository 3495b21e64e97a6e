(** * SlModel: the library of types of the Scala runtime.

    Models parts of /repo/base/scala/basic.handcode.scala,
    /repo/base/scala/table.handcode.scala, /repo/base/scala/symbol.handcode.scala
    and /repo/base/flat.aps.

    Simplifications, for the whole file:
    - the classes of the Scala and Java libraries ([List], [ListSet], [TreeMap],
      [String]) are modelled by what their documentation says: lists, lists
      without repetitions, lists of entries in the order of their keys, and
      lists of character codes;
    - an exception of these libraries ([IndexOutOfBoundsException] and the like)
      and [UnsupportedOperationException] are [Exit];
    - [null] is not a value;
    - the length of a list and a number of occurrences are natural numbers
      (an [Int] in Scala). *)
From Verif Require Import Base.
From Coq Require Import ZArith.
Open Scope Z_scope.

(** ** Integers: [Int] of Scala wraps around at 32 bits; [/] truncates.
    basic.handcode.scala:210-230. *)
Definition wrap (z : Z) : Z := (z + 2147483648) mod 4294967296 - 2147483648.

(** basic.handcode.scala:215 *)
Definition i_plus (x y : Z) : Z := wrap (x + y).
(** basic.handcode.scala:217 *)
Definition i_minus (x y : Z) : Z := wrap (x - y).
(** basic.handcode.scala:219 *)
Definition i_times (x y : Z) : Z := wrap (x * y).
(** basic.handcode.scala:221; division by zero throws *)
Definition i_divide (x y : Z) : res Z := if y =? 0 then Exit else Ok (wrap (Z.quot x y)).
(** basic.handcode.scala:225 *)
Definition i_unary_minus (x : Z) : Z := wrap (- x).

(** basic.handcode.scala:38 [((v & 1) == 0)] *)
Definition scala_odd (v : Z) : bool := Z.land v 1 =? 0.
(** /repo/base/cpp/basic.handcode.h:52 [x & 1] *)
Definition cpp_odd (v : Z) : bool := negb (Z.land v 1 =? 0).

(** basic.handcode.scala:235-262 (function [^]; also /repo/base/basic.aps:142-154,
    which C++ code is generated from).  [one], [times], [divide]: the operations
    of the type of [x]; [odd]: line 38 or that of C++.  The integers are those of
    Scala.  [fuel] bounds the recursion. *)
Fixpoint power {T} (one : T) (times : T -> T -> T) (divide : T -> T -> res T)
    (odd : Z -> bool) (fuel : nat) (x : T) (y : Z) : res T :=
  match fuel with
  | O => Fuel
  | S fuel =>
      if y =? 0 then Ok one
      else if y <? 0 then
        r <- power one times divide odd fuel x (i_unary_minus y) ;;
        divide one r
      else if y =? 1 then Ok x
      else if odd y then
        r <- power one times divide odd fuel x (i_minus y 1) ;;
        Ok (times x r)
      else
        h <- i_divide y 2 ;;
        power one times divide odd fuel (times x x) h
  end.

(** basic.handcode.scala:101-122 (function [..]) *)
Fixpoint srange (fuel : nat) (x y : Z) : res (list Z) :=
  match fuel with
  | O => Fuel
  | S fuel =>
      if x =? y then Ok [x]
      else if y <? x then Ok []
      else
        mid <- i_divide (i_plus x y) 2 ;;
        a <- srange fuel x mid ;;
        b <- srange fuel (i_plus mid 1) y ;;
        Ok (a ++ b)
  end.

(** ** Lists *)

(** The values lists can hold and be compared with: [indexOf] and [contains]
    accept every value.  Atoms stand for all values that are not lists. *)
Inductive val := VAtom (z : Z) | VList (l : list val).

(** [==] of Scala *)
Fixpoint val_eq (v w : val) {struct v} : bool :=
  match v, w with
  | VAtom a, VAtom b => a =? b
  | VList l, VList m =>
      (fix go (l m : list val) : bool :=
         match l, m with
         | [], [] => true
         | x :: l', y :: m' => val_eq x y && go l' m'
         | _, _ => false
         end) l m
  | _, _ => false
  end.

(** [List.indexOf]: the first position of an element that [test] accepts, or -1 *)
Fixpoint index_from {E} (test : E -> bool) (i : Z) (l : list E) : Z :=
  match l with
  | [] => -1
  | x :: r => if test x then i else index_from test (i + 1) r
  end.
Definition index_where {E} (test : E -> bool) (l : list E) : Z := index_from test 0 l.

(** [List.apply], [String.charAt] *)
Definition at_index {E} (i : Z) (l : list E) : res E :=
  if i <? 0 then Exit
  else match nth_error l (Z.to_nat i) with Some x => Ok x | None => Exit end.

(** [List.drop], [List.slice]: negative positions count as 0 ([Z.to_nat]) *)
Definition s_drop {E} (n : Z) (l : list E) : list E := skipn (Z.to_nat n) l.
Definition s_slice {E} (from until : Z) (l : list E) : list E :=
  firstn (Z.to_nat until - Z.to_nat from) (skipn (Z.to_nat from) l).

(** basic.handcode.scala:754-755 *)
Definition list_member (e : val) (l : list val) : bool := existsb (val_eq e) l.
(** basic.handcode.scala:758 *)
Definition list_append {E} (l1 l2 : list E) : list E := l1 ++ l2.
(** basic.handcode.scala:812 *)
Definition list_nth (i : Z) (l : list val) : res val := at_index i l.
(** basic.handcode.scala:814-815 *)
Definition list_nth_from_end (i : Z) (l : list val) : res val := at_index i (rev l).
(** basic.handcode.scala:817-818 *)
Definition list_position (x : val) (l : list val) : Z := index_where (val_eq x) l.
(** basic.handcode.scala:820-821: [v_l.reverse.indexOf(v_l)] *)
Definition list_position_from_end (x : val) (l : list val) : Z :=
  index_where (val_eq (VList l)) (rev l).
(** basic.handcode.scala:823-824 *)
Definition list_subseq {E} (l : list E) (start finish : Z) : list E := s_slice start finish l.
(** basic.handcode.scala:826-827 *)
Definition list_subseq_from_end {E} (l : list E) (start finish : Z) : res (list E) := Exit.
(** basic.handcode.scala:829-830 *)
Definition list_butsubseq {E} (l : list E) (start finish : Z) : list E :=
  s_slice 0 start l ++ s_drop finish l.
(** basic.handcode.scala:832-833 *)
Definition list_butsubseq_from_end {E} (l : list E) (start finish : Z) : res (list E) := Exit.

(** ** Strings *)

(** [String.startsWith] *)
Fixpoint prefix_of (p s : list Z) : bool :=
  match p, s with
  | [], _ => true
  | a :: p', b :: s' => (a =? b) && prefix_of p' s'
  | _ :: _, [] => false
  end.

(** [String.indexOf(String)] *)
Fixpoint index_of_string (i : Z) (p s : list Z) : Z :=
  if prefix_of p s then i
  else match s with [] => -1 | _ :: s' => index_of_string (i + 1) p s' end.

(** [String.substring] *)
Definition substring (start finish : Z) (s : list Z) : res (list Z) :=
  if (start <? 0) || (Z.of_nat (length s) <? finish) || (finish <? start) then Exit
  else Ok (firstn (Z.to_nat (finish - start)) (skipn (Z.to_nat start) s)).

(** basic.handcode.scala:1315-1316 *)
Definition string_member (c : Z) (s : list Z) : bool := negb (index_where (Z.eqb c) s =? -1).
(** basic.handcode.scala:1351 *)
Definition string_nth (i : Z) (s : list Z) : res Z := at_index i s.
(** basic.handcode.scala:1353-1354 *)
Definition string_nth_from_end (i : Z) (s : list Z) : res Z :=
  at_index (i_minus (i_minus (Z.of_nat (length s)) 1) i) s.
(** basic.handcode.scala:1356-1357: [v_l.indexOf(v_l)] *)
Definition string_position (c : Z) (s : list Z) : Z := index_of_string 0 s s.
(** basic.handcode.scala:1359-1360: [v_l.reverse.indexOf(v_l)] *)
Definition string_position_from_end (c : Z) (s : list Z) : Z := index_of_string 0 s (rev s).
(** basic.handcode.scala:1362-1363 *)
Definition string_subseq (s : list Z) (start finish : Z) : res (list Z) := substring start finish s.
(** basic.handcode.scala:1368-1369 *)
Definition string_butsubseq (s : list Z) (start finish : Z) : res (list Z) :=
  a <- substring 0 start s ;;
  b <- substring finish (Z.of_nat (length s)) s ;;
  Ok (a ++ b).

(** [String.compareTo]: the difference of the first characters that differ, or of
    the lengths *)
Fixpoint compare_to (x y : list Z) : Z :=
  match x, y with
  | a :: x', b :: y' => if a =? b then compare_to x' y' else a - b
  | _, _ => Z.of_nat (length x) - Z.of_nat (length y)
  end.
(** basic.handcode.scala:1375-1376 *)
Definition string_less (x y : list Z) : bool := compare_to x y <? 0.
(** basic.handcode.scala:1378-1379 *)
Definition string_less_equal (x y : list Z) : bool := compare_to x y <=? 0.

Close Scope Z_scope.

(** ** Multisets (basic.handcode.scala:950-1016).  [veq] is [t_ElemType.v_equal],
    [seq] the equality [==] of Scala on the elements. *)
Section MULTISET.
Context {E : Type} (veq seq : E -> E -> bool).

(** basic.handcode.scala:977-983 *)
Fixpoint ms_count (v : E) (l : list E) : nat :=
  match l with
  | [] => 0
  | x :: r => (if veq v x then 1 else 0) + ms_count v r
  end.

(** basic.handcode.scala:968-974 *)
Fixpoint ms_less_equal (l1 l2 : list E) : bool :=
  match l1 with
  | [] => true
  | x :: r => (ms_count x l1 <=? ms_count x l2) && ms_less_equal r l2
  end.

(** basic.handcode.scala:960-961 *)
Definition ms_equal (x y : list E) : bool := ms_less_equal x y && ms_less_equal y x.
(** basic.handcode.scala:964-965 *)
Definition ms_less (x y : list E) : bool := ms_less_equal x y && negb (ms_less_equal y x).

(** basic.handcode.scala:986-994 *)
Fixpoint ms_union (l1 l2 : list E) : list E :=
  match l1 with
  | x :: r =>
      let rp := ms_union r l2 in
      if ms_count x l2 <=? ms_count x r then x :: rp else rp
  | [] => l2
  end.

(** basic.handcode.scala:997-1005 *)
Fixpoint ms_intersect (l1 l2 : list E) : list E :=
  match l1 with
  | x :: r =>
      let rp := ms_intersect r l2 in
      if ms_count x r <? ms_count x l2 then x :: rp else rp
  | [] => []
  end.

(** basic.handcode.scala:1008-1016 *)
Fixpoint ms_difference (l1 l2 : list E) : list E :=
  match l1 with
  | x :: r =>
      let rp := ms_difference r l2 in
      if ms_count x l2 <=? ms_count x r then x :: rp else rp
  | [] => []
  end.

(** basic.handcode.scala:785-786, 758 (inherited) *)
Definition ms_combine (l1 l2 : list E) : list E := l1 ++ l2.
(** basic.handcode.scala:754-755 (inherited): [v_l.contains(v_e)] *)
Definition ms_member (v : E) (l : list E) : bool := existsb (seq v) l.
End MULTISET.

(** ** Sets (basic.handcode.scala:863-934), as [ListSet]s: lists without
    repetitions in the order of iteration.  [seq] is [==] of Scala: the equality
    of the element type is not used. *)
Section SET.
Context {E : Type} (seq : E -> E -> bool).

(** [Set.contains]; basic.handcode.scala:879-880 *)
Definition set_member (e : E) (s : list E) : bool := existsb (seq e) s.
(** [Set.+] *)
Definition set_add (s : list E) (e : E) : list E := if set_member e s then s else s ++ [e].
(** [Set.++]; basic.handcode.scala:883-884, 924-925 *)
Definition set_union (s t : list E) : list E := fold_left set_add t s.
(** basic.handcode.scala:868-869 *)
Definition set_of (l : list E) : list E := fold_left set_add l [].
(** basic.handcode.scala:906 *)
Definition set_none : list E := [].
(** basic.handcode.scala:898 *)
Definition set_single (e : E) : list E := [e].
(** [Set.intersect]; basic.handcode.scala:927-928 *)
Definition set_intersect (s t : list E) : list E := filter (fun e => set_member e t) s.
(** [Set.--]; basic.handcode.scala:930-931 *)
Definition set_difference (s t : list E) : list E := filter (fun e => negb (set_member e t)) s.
(** [Set.subsetOf]; basic.handcode.scala:920-921 *)
Definition set_less_equal (s t : list E) : bool := forallb (fun e => set_member e t) s.
(** [Set.equals], through /repo/base/scala/aps-impl.scala:93-94 *)
Definition set_equal (s t : list E) : bool :=
  (length s =? length t) && set_less_equal s t.
(** basic.handcode.scala:917-918 *)
Definition set_less (s t : list E) : bool := set_less_equal s t && negb (set_equal s t).
(** basic.handcode.scala:853-854 (function [\]) *)
Definition set_remove (s : list E) (e : E) : list E := set_difference s (set_single e).

(** The patterns [none], [single] and [append] (basic.handcode.scala:885-892,
    899-902, 907-911). *)
Inductive set_view := IsNone | IsSingle (e : E) | IsAppend (s t : list E) | NoMatch.
Definition set_match (s : list E) : set_view :=
  if length s =? 0 then IsNone
  else if length s =? 1 then match s with x :: _ => IsSingle x | [] => NoMatch end
  else if 1 <? length s
       then match s with x :: _ => IsAppend [x] (filter (fun e => negb (seq x e)) s) | [] => NoMatch end
       else NoMatch.

(** basic.handcode.scala:1389-1393 ([length], for sets) *)
Fixpoint set_length (fuel : nat) (s : list E) : res nat :=
  match fuel with
  | O => Fuel
  | S fuel =>
      match set_match s with
      | IsNone => Ok 0
      | IsSingle _ => Ok 1
      | IsAppend l1 l2 =>
          a <- set_length fuel l1 ;;
          b <- set_length fuel l2 ;;
          Ok (a + b)
      | NoMatch => Exit
      end
  end.
End SET.
Arguments IsNone {E}.
Arguments IsSingle {E} _.
Arguments IsAppend {E} _ _.
Arguments NoMatch {E}.

(** ** Lattices *)

(** The members of a [C_LATTICE] (basic.handcode.scala:428-446) *)
Record lat (T : Type) := {
  v_equal : T -> T -> bool;
  v_bottom : T;
  v_compare : T -> T -> bool;
  v_compare_equal : T -> T -> bool;
  v_join : T -> T -> T;
  v_meet : T -> T -> T
}.
Arguments v_equal {T} _ _ _.
Arguments v_bottom {T} _.
Arguments v_compare {T} _ _ _.
Arguments v_compare_equal {T} _ _ _.
Arguments v_join {T} _ _ _.
Arguments v_meet {T} _ _ _.

(** basic.handcode.scala:456-467 *)
Definition make_lattice {T} (equal : T -> T -> bool) (default : T)
    (comparef compare_equalf : T -> T -> bool) (joinf meetf : T -> T -> T) : lat T :=
  {| v_equal := equal; v_bottom := default; v_compare := comparef;
     v_compare_equal := compare_equalf; v_join := joinf; v_meet := meetf |}.

(** basic.handcode.scala:50, 52, 54, 56 *)
Definition f_cand (x y : bool) : bool := negb x && y.
Definition f_implies (x y : bool) : bool := negb x || y.
Definition f_andc (x y : bool) : bool := x && negb y.
Definition f_revimplies (x y : bool) : bool := x || negb y.

(** basic.handcode.scala:60, 70 *)
Definition or_lattice : lat bool := make_lattice Bool.eqb false f_cand f_implies orb andb.
Definition and_lattice : lat bool := make_lattice Bool.eqb true f_andc f_revimplies andb orb.

Section ORDERED.
Context {T : Type} (eq lt le : T -> T -> bool).
(** basic.handcode.scala:151, 153 ([>] and [>=]) *)
Definition op_gt (x y : T) : bool := lt y x.
Definition op_ge (x y : T) : bool := le y x.
(** basic.handcode.scala:471-481 *)
Definition f_max (x y : T) : T := if op_gt x y then x else y.
(** basic.handcode.scala:485-495 *)
Definition f_min (x y : T) : T := if lt x y then x else y.
(** basic.handcode.scala:505-515 *)
Definition max_lattice (min_element : T) : lat T := make_lattice eq min_element lt le f_max f_min.
(** basic.handcode.scala:523-533 *)
Definition min_lattice (max_element : T) : lat T :=
  make_lattice eq max_element op_gt op_ge f_min f_max.
End ORDERED.

(** basic.handcode.scala:1172-1181 *)
Definition union_lattice {E} (seq : E -> E -> bool) : lat (list E) :=
  make_lattice (set_equal seq) set_none (set_less seq) (set_less_equal seq)
    (set_union seq) (set_intersect seq).
(** basic.handcode.scala:1207-1215 *)
Definition intersection_lattice {E} (seq : E -> E -> bool) (universe : list E) : lat (list E) :=
  make_lattice (set_equal seq) universe (op_gt (set_less seq)) (op_ge (set_less_equal seq))
    (set_intersect seq) (set_union seq).

(** ** Tuples (basic.handcode.scala:1411-1484), for [LIST]s.  [seq] is [==] of
    Scala on elements. *)
Section TUPLE.
Context {E : Type} (L : lat E) (seq : E -> E -> bool).

(** [List.==] *)
Fixpoint list_eq (l m : list E) : bool :=
  match l, m with
  | [], [] => true
  | x :: l', y :: m' => seq x y && list_eq l' m'
  | _, _ => false
  end.

(** basic.handcode.scala:1447-1461; the patterns of lists are those of
    basic.handcode.scala:759-783 *)
Fixpoint tuple_combine (fuel : nat) (t1 t2 : list E) : res (list E) :=
  match fuel with
  | O => Fuel
  | S fuel =>
      match t1 with
      | [] => Ok t2
      | [x] =>
          match t2 with
          | [] => Ok t1
          | [y] => Ok [v_join L x y]
          | y :: ly2 => a <- tuple_combine fuel t1 [y] ;; Ok (a ++ ly2)
          end
      | x :: lx2 =>
          match t2 with
          | [] => Ok t1
          | [y] => a <- tuple_combine fuel [x] t2 ;; Ok (a ++ lx2)
          | y :: ly2 =>
              a <- tuple_combine fuel [x] [y] ;;
              b <- tuple_combine fuel lx2 ly2 ;;
              Ok (a ++ b)
          end
      end
  end.

(** basic.handcode.scala:1463-1477 *)
Fixpoint tuple_meet (fuel : nat) (t1 t2 : list E) : res (list E) :=
  match fuel with
  | O => Fuel
  | S fuel =>
      match t1 with
      | [] => Ok t1
      | [x] =>
          match t2 with
          | [] => Ok t2
          | [y] => Ok [v_meet L x y]
          | y :: ly2 => tuple_meet fuel t1 [y]
          end
      | x :: lx2 =>
          match t2 with
          | [] => Ok t2
          | [y] => tuple_meet fuel [x] t2
          | y :: ly2 =>
              a <- tuple_meet fuel [x] [y] ;;
              b <- tuple_meet fuel lx2 ly2 ;;
              Ok (a ++ b)
          end
      end
  end.

(** basic.handcode.scala:1483 *)
Definition tuple_compare_equal (fuel : nat) (x y : list E) : res bool :=
  j <- tuple_combine fuel x y ;; Ok (list_eq j y).
(** basic.handcode.scala:1480 *)
Definition tuple_compare (fuel : nat) (x y : list E) : res bool :=
  b <- tuple_compare_equal fuel x y ;; Ok (b && negb (list_eq x y)).
End TUPLE.

(** ** Flat lattices (/repo/base/flat.aps).  A value is an object [o] built by a
    constructor; [eq] is [Result$equal], which flat.aps does not define: it is
    that of /repo/base/basic.aps:83 ([node_equivalent]).  In Scala this is
    [equals] of case classes (/repo/base/scala/aps-impl.scala:93-94,
    /repo/aps2scala/dump-scala.cc:1773-1776), in C++ it is equality of pointers
    (/repo/base/cpp/basic.handcode.h:11). *)
Inductive flat (E : Type) := Fbottom | Ftop | Normal (value : E).
Arguments Fbottom {E}.
Arguments Ftop {E}.
Arguments Normal {E} _.

Section FLAT.
(** [obj]: the objects; [con]: by which constructor (and from what) one was
    built; [bot], [top]: the objects of flat.aps:8-9. *)
Context {E obj : Type} (con : obj -> flat E) (eq : obj -> obj -> bool) (bot top : obj).

(** flat.aps:25-36 *)
Definition flat_compare (v1 v2 : obj) : bool :=
  match con v1 with
  | Fbottom => negb (eq v2 v1)
  | Normal _ => eq v2 top
  | Ftop => false
  end.
(** flat.aps:38-49 *)
Definition flat_compare_equal (v1 v2 : obj) : bool :=
  match con v1 with
  | Ftop => eq v1 v2
  | Normal _ => eq v1 v2 || eq v2 top
  | Fbottom => true
  end.
(** flat.aps:51-66 *)
Definition flat_join (v1 v2 : obj) : obj :=
  match con v1 with
  | Fbottom => v2
  | Normal _ => if eq v2 bot || eq v2 v1 then v1 else top
  | Ftop => top
  end.
(** flat.aps:68-83 *)
Definition flat_meet (v1 v2 : obj) : obj :=
  match con v1 with
  | Ftop => v2
  | Normal _ => if eq v2 top || eq v2 v1 then v1 else bot
  | Fbottom => bot
  end.
Definition flat_lattice : lat obj :=
  {| v_equal := eq; v_bottom := bot; v_compare := flat_compare;
     v_compare_equal := flat_compare_equal; v_join := flat_join; v_meet := flat_meet |}.

(** flat.aps:101-109; [normal]: creating an object *)
Definition flat_applyf1 (normal : E -> obj) (base : E -> E) (x : obj) : obj :=
  match con x with Normal v => normal (base v) | _ => x end.
(** flat.aps:111-128 *)
Definition flat_applyf2 (normal : E -> obj) (base : E -> E -> E) (x1 x2 : obj) : obj :=
  match con x1 with
  | Normal v1 =>
      match con x2 with
      | Normal v2 => normal (base v1 v2)
      | _ => x2
      end
  | _ => if eq x2 bot then x2 else x1
  end.
End FLAT.

(** In Scala objects are equal if they were built in the same way, from equal
    values ([seq]: [==] of Scala on [E]); they can be identified with how they
    were built. *)
Definition flat_eq {E} (seq : E -> E -> bool) (x y : flat E) : bool :=
  match x, y with
  | Fbottom, Fbottom => true
  | Ftop, Ftop => true
  | Normal v, Normal w => seq v w
  | _, _ => false
  end.
Definition scala_flat_lattice {E} (seq : E -> E -> bool) : lat (flat E) :=
  flat_lattice (fun x => x) (flat_eq seq) Fbottom Ftop.

(** ** Tables (table.handcode.scala).  A [TreeMap] is the list of its entries in
    the order of iteration. *)
Section TABLE.
Context {K V : Type} (keq klt : K -> K -> bool).

(** table.handcode.scala:34-38 *)
Definition key_compare (x y : K) : comparison :=
  if keq x y then Eq else if klt x y then Lt else Gt.

Definition table : Type := list (K * V).

(** [TreeMap.get], [isDefinedAt], [apply] *)
Fixpoint table_get (t : table) (k : K) : option V :=
  match t with
  | [] => None
  | (k', v) :: r =>
      match key_compare k k' with
      | Eq => Some v
      | Lt => None
      | Gt => table_get r k
      end
  end.

(** [TreeMap.insert], [updated] *)
Fixpoint table_put (t : table) (k : K) (v : V) : table :=
  match t with
  | [] => [(k, v)]
  | (k', v') :: r =>
      match key_compare k k' with
      | Eq => (k, v) :: r
      | Lt => (k, v) :: t
      | Gt => (k', v') :: table_put r k v
      end
  end.

(** table.handcode.scala:43, 60 *)
Definition table_initial : table := [].
(** table.handcode.scala:46-47 *)
Definition table_entry (k : K) (v : V) : table := table_put [] k v.

(** table.handcode.scala:63-73; [combine]: [t_ValueType.v_combine] *)
Definition table_combine (combine : V -> V -> V) (t1 t2 : table) : table :=
  fold_left (fun result e =>
    match table_get result (fst e) with
    | Some old => table_put result (fst e) (combine old (snd e))
    | None => table_put result (fst e) (snd e)
    end) t2 t1.

(** table.handcode.scala:76-81; [initial]: [t_ValueType.v_initial] *)
Definition table_select (initial : V) (t : table) (k : K) : table :=
  match table_get t k with
  | Some v => table_entry k v
  | None => table_entry k initial
  end.

(** table.handcode.scala:99-107 *)
Definition table_meet (meet : V -> V -> V) (t1 t2 : table) : table :=
  fold_left (fun result e =>
    match table_get t1 (fst e) with
    | Some v1 => table_put result (fst e) (meet v1 (snd e))
    | None => result
    end) t2 [].

(** [TreeMap.equals], through aps-impl.scala:93-94: as many entries, and the same
    value ([==] of Scala) for each key *)
Definition table_equal (seq : V -> V -> bool) (x y : table) : bool :=
  (length x =? length y) &&
  forallb (fun e => match table_get y (fst e) with Some w => seq (snd e) w | None => false end) x.

(** table.handcode.scala:114 *)
Definition table_compare_equal (le : V -> V -> bool) (x y : table) : bool :=
  forallb (fun e => match table_get y (fst e) with Some _ => true | None => false end) x &&
  forallb (fun e =>
    match table_get x (fst e), table_get y (fst e) with
    | Some v, Some w => le v w
    | _, _ => false
    end)
    (filter (fun e => match table_get y (fst e) with Some _ => true | None => false end) x).
(** table.handcode.scala:112 *)
Definition table_compare (seq le : V -> V -> bool) (x y : table) : bool :=
  table_compare_equal le x y && negb (table_equal seq x y).

(** table.handcode.scala:88-114 *)
Definition table_lattice (seq : V -> V -> bool) (L : lat V) : lat table :=
  {| v_equal := table_equal seq; v_bottom := table_initial;
     v_compare := table_compare seq (v_compare_equal L);
     v_compare_equal := table_compare_equal (v_compare_equal L);
     v_join := table_combine (v_join L); v_meet := table_meet (v_meet L) |}.
End TABLE.

(** ** Symbols (symbol.handcode.scala:15-32): a symbol is its name; [hashCode] of
    a symbol is that of its name, which Java defines to be this. *)
Definition string_hash (s : list Z) : Z :=
  fold_left (fun h c => wrap (31 * h + c)%Z) s 0%Z.
(** symbol.handcode.scala:19 (symbols are unique, so [eq] compares names) *)
Fixpoint symbol_equal (x y : list Z) : bool :=
  match x, y with
  | [], [] => true
  | a :: x', b :: y' => Z.eqb a b && symbol_equal x' y'
  | _, _ => false
  end.
(** symbol.handcode.scala:27-28 *)
Definition symbol_less (x y : list Z) : bool := Z.ltb (string_hash x) (string_hash y).
(** symbol.handcode.scala:30-31 *)
Definition symbol_less_equal (x y : list Z) : bool := Z.leb (string_hash x) (string_hash y).

(** A binary search tree, which [TreeMap] is; how it is kept balanced is not
    modelled. *)
Inductive tree (K V : Type) := TLeaf | TNode (l : tree K V) (k : K) (v : V) (r : tree K V).
Arguments TLeaf {K V}.
Arguments TNode {K V} _ _ _ _.

Fixpoint tree_get {K V} (cmp : K -> K -> comparison) (t : tree K V) (k : K) : option V :=
  match t with
  | TLeaf => None
  | TNode l k' v r =>
      match cmp k k' with
      | Eq => Some v
      | Lt => tree_get cmp l k
      | Gt => tree_get cmp r k
      end
  end.
Fixpoint tree_entries {K V} (t : tree K V) : list (K * V) :=
  match t with TLeaf => [] | TNode l k v r => tree_entries l ++ (k, v) :: tree_entries r end.
Fixpoint tree_height {K V} (t : tree K V) : nat :=
  match t with TLeaf => 0 | TNode l _ _ r => S (Nat.max (tree_height l) (tree_height r)) end.
