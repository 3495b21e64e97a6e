(** * CollModel: the C++ run-time's collections.

    Models the helper class [COLL] (/repo/base/cpp/basic.handcode.h:70-258), which
    SEQUENCE, LIST, BAG and SET share, the list functions of
    /repo/base/basic.aps:404-427, the SET functions
    (basic.handcode.h:383-492), [BAG$member] (basic.aps:457-469) and the
    integer ranges of basic.aps:681-692.

    Simplifications, all definitions: a C++ [int] is a [Z] without overflow
    (faithful while the number of leaves of the tree is at most INT_MAX and the
    indices are ints); nodes are values, not pointers (no function here mutates
    a node; the pointer test [rem1 == n->v_l1 && rem2 == n->v_l2] of [subseq],
    line 192, only decides whether to return the old node or an equal new one);
    [std::out_of_range] is [Exit]; Debug output is dropped. *)
From Verif Require Import Base.
From Coq Require Import String.
Local Open Scope Z_scope.
Local Open Scope list_scope.

Section Coll.
Variable A : Type.
(** [element_type->v_equal] *)
Variable eqb : A -> A -> bool.
(** [element_type->v_string] *)
Variable show : A -> string.

(** The three constructors of a collection: basic.aps:470-472
    ([constructor append], [single], [none]; also 446-448 and 487-489). *)
Inductive coll : Type :=
| Append (l1 l2 : coll)
| Single (x : A)
| None_.

(** basic.handcode.h:234-245 [COLL::length] *)
Fixpoint length (l : coll) : Z :=
  match l with
  | Append l1 l2 => length l1 + length l2
  | Single _ => 1
  | None_ => 0
  end.

(** basic.handcode.h:247-257 [COLL::empty] *)
Fixpoint empty (l : coll) : bool :=
  match l with
  | Append l1 l2 => empty l1 && empty l2
  | Single _ => false
  | None_ => true
  end.

(** basic.handcode.h:122-139 [COLL::nth] *)
Fixpoint nth (i : Z) (l : coll) : res A :=
  match l with
  | Append l1 l2 =>
      let n1 := length l1 in
      if n1 >? i then nth i l1 else nth (i - n1) l2
  | Single x => if i =? 0 then Ok x else Exit
  | None_ => Exit
  end.

(** basic.handcode.h:140-157 [COLL::nth_from_end] *)
Fixpoint nth_from_end (i : Z) (l : coll) : res A :=
  match l with
  | Append l1 l2 =>
      let n2 := length l2 in
      if n2 >? i then nth_from_end i l2 else nth_from_end (i - n2) l1
  | Single x => if i =? 0 then Ok x else Exit
  | None_ => Exit
  end.

(** basic.handcode.h:158-168 [COLL::position] *)
Fixpoint position (x : A) (l : coll) : Z :=
  match l with
  | Append l1 l2 =>
      let p1 := position x l1 in
      if p1 >=? 0 then p1 else
      let p2 := position x l2 in
      if p2 >=? 0 then p2 + length l1 else -1
  | Single y => if eqb x y then 0 else -1
  | None_ => -1
  end.

(** basic.handcode.h:169-173 [COLL::position_from_end] *)
Definition position_from_end (x : A) (l : coll) : Z :=
  let i := position x l in
  if i =? -1 then -1 else length l - 1 - i.

(** basic.handcode.h:174-176 [COLL::member] *)
Definition member (x : A) (l : coll) : bool := position x l >=? 0.

(** basic.handcode.h:177-199 [COLL::subseq] and 204-228 [COLL::butsubseq] *)
Fixpoint subseq (l : coll) (start finish : Z) : coll :=
  if start =? finish then None_ else
  match l with
  | Append l1 l2 =>
      let n1 := length l1 in
      if start >=? n1 then subseq l2 (start - n1) (finish - n1)
      else if finish <=? n1 then
        if finish =? n1 then butsubseq l1 0 start else subseq l1 start finish
      else Append (butsubseq l1 0 start) (subseq l2 0 (finish - n1))
  | _ => if start =? 0 then l else None_
  end
with butsubseq (l : coll) (start finish : Z) : coll :=
  if start >=? finish then l else
  match l with
  | Append l1 l2 =>
      let n1 := length l1 in
      if start >=? n1 then Append l1 (butsubseq l2 (start - n1) (finish - n1))
      else if finish <=? n1 then
        if (start =? 0) && (finish =? n1) then l2
        else Append (butsubseq l1 start finish) l2
      else Append (subseq l1 0 start) (butsubseq l2 0 (finish - n1))
  | Single _ => if start =? 0 then None_ else l
  | None_ => l
  end.

(** basic.handcode.h:229-232 [COLL::butsubseq_from_end].  [subseq_from_end]
    (200-203) subtracts an int from a pointer and cannot be instantiated: not
    modelled. *)
Definition butsubseq_from_end (l : coll) (start finish : Z) : coll :=
  let n := length l in butsubseq l (n - finish) (n - start).

(** basic.handcode.h:107-121 [COLL::equal] *)
Fixpoint equal (l1 l2 : coll) : bool :=
  match l1 with
  | Append a1 a2 =>
      let n1 := length a1 in
      equal a1 (subseq l2 0 n1) && equal a2 (butsubseq l2 0 n1)
  | Single x =>
      (length l2 =? 1) && match nth 0 l2 with Ok y => eqb x y | _ => false end
  | None_ => length l2 =? 0
  end.

(** basic.aps:410-411, 418-426: [first], [last], [firstn], [butfirst],
    [butlast], [butfirstn], [butlastn], [butnth], [butnth_from_end] ([lastn]
    needs [subseq_from_end]); basic.aps:486 [cons]. *)
Definition first (l : coll) := nth 0 l.
Definition last (l : coll) := nth_from_end 0 l.
Definition firstn_ (n : Z) (l : coll) := subseq l 0 n.
Definition butfirst (l : coll) := butsubseq l 0 1.
Definition butlast (l : coll) := butsubseq_from_end l 0 1.
Definition butfirstn (n : Z) (l : coll) := butsubseq l 0 n.
Definition butlastn (n : Z) (l : coll) := butsubseq_from_end l 0 n.
Definition butnth (n : Z) (l : coll) := butsubseq l n (n + 1).
Definition butnth_from_end (n : Z) (l : coll) := butsubseq_from_end l n (n + 1).
Definition cons (x : A) (l : coll) := Append (Single x) l.

(** basic.handcode.h:83-105 [COLL::to_string]; [max_print] is 5.  The loop pops
    one node per iteration; [fuel] bounds the iterations (Fuel if exhausted). *)
Definition max_print : Z := 5.
Fixpoint to_string_loop (fuel : nat) (stack : list coll) (printed : Z) (out : string)
  : res (list coll * string) :=
  match fuel with
  | O => Fuel
  | S fuel =>
      match stack with
      | [] => Ok (stack, out)
      | l :: stack' =>
          if printed <? max_print then
            match l with
            | Append l1 l2 => to_string_loop fuel (l1 :: l2 :: stack') printed out
            | Single x =>
                let out := (if negb (printed =? 0) then (out ++ ",")%string else out) in
                to_string_loop fuel stack' (printed + 1) (out ++ show x)%string
            | None_ => to_string_loop fuel stack' printed out
            end
          else Ok (stack, out)
      end
  end.
Definition to_string (fuel : nat) (l : coll) : res string :=
  '(stack, out) <- to_string_loop fuel [l] 0 "{"%string ;;
  let out := match stack with [] => out | _ => (out ++ "...")%string end in
  Ok (out ++ "}")%string.

(** ** BAG and SET *)

(** basic.aps:457-469 [BAG$member]: [v = e] calls [equal(v,e)]; [or] is
    basic.handcode.h:20 (both operands evaluated). *)
Fixpoint bag_member (e : A) (l : coll) : bool :=
  match l with
  | None_ => false
  | Single v => eqb v e
  | Append l1 l2 => bag_member e l1 || bag_member e l2
  end.

(** basic.handcode.h:391-405 [C_SET::v_less_equal] *)
Fixpoint set_less_equal (s1 s2 : coll) : bool :=
  match s1 with
  | Append l1 l2 => set_less_equal l1 s2 && set_less_equal l2 s2
  | Single x => bag_member x s2
  | None_ => true
  end.

(** basic.handcode.h:383-389 [v_equal], [v_less] *)
Definition set_equal (s1 s2 : coll) := set_less_equal s1 s2 && set_less_equal s2 s1.
Definition set_less (s1 s2 : coll) := set_less_equal s1 s2 && negb (set_less_equal s2 s1).

(** basic.handcode.h:419-442 [v_union] *)
Fixpoint set_union (s1 s2 : coll) : coll :=
  match s1 with
  | Append l1 l2 => set_union l1 (set_union l2 s2)
  | Single x => if bag_member x s2 then s2 else Append s1 s2
  | None_ => s2
  end.

(** basic.handcode.h:444-467 [v_intersect] *)
Fixpoint set_intersect (s1 s2 : coll) : coll :=
  match s1 with
  | Append l1 l2 => Append (set_intersect l1 s2) (set_intersect l2 s2)
  | Single x => if bag_member x s2 then s1 else None_
  | None_ => s1
  end.

(** basic.handcode.h:469-492 [v_difference] *)
Fixpoint set_difference (s1 s2 : coll) : coll :=
  match s1 with
  | Append l1 l2 => Append (set_difference l1 s2) (set_difference l2 s2)
  | Single x => if bag_member x s2 then None_ else s1
  | None_ => s1
  end.

(** basic.aps:521-523 [(\)]: removing one element. *)
Definition set_remove (s : coll) (x : A) := set_difference s (Single x).

End Coll.
Arguments Append {A} _ _.
Arguments Single {A} _.
Arguments None_ {A}.
Arguments length {A} _.
Arguments empty {A} _.
Arguments nth {A} _ _.
Arguments nth_from_end {A} _ _.
Arguments position {A} _ _ _.
Arguments position_from_end {A} _ _ _.
Arguments member {A} _ _ _.
Arguments subseq {A} _ _ _.
Arguments butsubseq {A} _ _ _.
Arguments butsubseq_from_end {A} _ _ _.
Arguments equal {A} _ _ _.
Arguments first {A} _.
Arguments last {A} _.
Arguments firstn_ {A} _ _.
Arguments butfirst {A} _.
Arguments butlast {A} _.
Arguments butfirstn {A} _ _.
Arguments butlastn {A} _ _.
Arguments butnth {A} _ _.
Arguments butnth_from_end {A} _ _.
Arguments cons {A} _ _.
Arguments to_string {A} _ _ _.
Arguments to_string_loop {A} _ _ _ _ _.
Arguments bag_member {A} _ _ _.
Arguments set_less_equal {A} _ _ _.
Arguments set_equal {A} _ _ _.
Arguments set_less {A} _ _ _.
Arguments set_union {A} _ _ _.
Arguments set_intersect {A} _ _ _.
Arguments set_difference {A} _ _ _.
Arguments set_remove {A} _ _ _.

(** ** Ranges: basic.aps:681-692 [x..y]; [/] on Integer is C++ [int] division
    (basic.handcode.h:30), which truncates toward zero ([Z.quot]).  [x+y]
    overflowing is UB.  [fuel] bounds the recursion depth. *)
Definition INT_MAX : Z := 2147483647.
Definition INT_MIN : Z := -2147483648.
Definition int_ok (x : Z) : bool := (INT_MIN <=? x) && (x <=? INT_MAX).

Fixpoint range (fuel : nat) (x y : Z) : res (coll Z) :=
  match fuel with
  | O => Fuel
  | S fuel =>
      if x =? y then Ok (Single x)
      else if x >? y then Ok None_
      else if negb (int_ok (x + y)) then UB
      else
        let mid := Z.quot (x + y) 2 in
        a <- range fuel x mid ;;
        b <- range fuel (mid + 1) y ;;
        Ok (Append a b)
  end.

(** ** INTEGER$string: basic.handcode.cpp:16-30.  A string is a list of digits
    (least significant first while reversed); here characters are [Ascii]. *)
From Coq Require Import Ascii.

(** ['0' + (x % 10)] as a char *)
Definition digit_char (d : Z) : ascii := ascii_of_nat (Z.to_nat (48 + d)).

(** The loop of lines 21-25, collecting [rev]; [fuel] bounds the iterations. *)
Fixpoint int_rev (fuel : nat) (x : Z) (rev : list ascii) : res (list ascii) :=
  match fuel with
  | O => Fuel
  | S fuel =>
      if x =? 0 then Ok rev
      else int_rev fuel (Z.quot x 10) (rev ++ [digit_char (Z.rem x 10)])
  end.

(** The positive branch, lines 20-29. *)
Definition int_string_pos (fuel : nat) (x : Z) : res (list ascii) :=
  r <- int_rev fuel x [] ;; Ok (rev r).

(** [v_string]; the recursive call's argument is positive, or [-x] overflowed
    (UB for INT_MIN). *)
Definition int_string (fuel : nat) (x : Z) : res (list ascii) :=
  if x =? 0 then Ok ["0"%char]
  else if x <? 0 then
    if negb (int_ok (- x)) then UB
    else r <- int_string_pos fuel (- x) ;; Ok ("-"%char :: r)
  else int_string_pos fuel x.

(** ** C_STRING: a [std::string] is a [list ascii]. *)

(** [std::string::substr(pos,n)] with [int] arguments converted to [size_t]:
    pos > size() throws out_of_range; the count is clipped; a negative [int]
    becomes a huge [size_t]. *)
Definition size_t (i : Z) : Z := Z.modulo i (2 ^ 64).
Definition substr (l : list ascii) (pos n : Z) : res (list ascii) :=
  if size_t pos >? Z.of_nat (List.length l) then Exit
  else Ok (firstn (Z.to_nat (Z.min (size_t n) (Z.of_nat (List.length l)))) (skipn (Z.to_nat (size_t pos)) l)).

(** aps-impl.h:410 *)
Definition string_subseq (l : list ascii) (s f : Z) : res (list ascii) := substr l s f.
(** basic.handcode.cpp:55-58 *)
Definition string_subseq_from_end (l : list ascii) (s f : Z) : res (list ascii) :=
  let n := Z.of_nat (List.length l) in substr l (n - f - 1) (n - s - 1).
(** basic.handcode.cpp:59-61 *)
Definition string_butsubseq (l : list ascii) (start finish : Z) : res (list ascii) :=
  a <- substr l 0 start ;; b <- substr l finish (Z.of_nat (List.length l)) ;; Ok (a ++ b).
(** basic.handcode.cpp:62-65 *)
Definition string_butsubseq_from_end (l : list ascii) (start finish : Z) : res (list ascii) :=
  let n := Z.of_nat (List.length l) in
  a <- substr l 0 (n - finish - 1) ;; b <- substr l (n - start - 1) n ;; Ok (a ++ b).

(** [std::string::find] / [rfind] of a character: the first / last index, or
    npos, which converted to [int] is -1. *)
Fixpoint string_find (x : ascii) (l : list ascii) (i : Z) : Z :=
  match l with
  | [] => -1
  | c :: l => if Ascii.eqb c x then i else string_find x l (i + 1)
  end.
Fixpoint string_rfind (x : ascii) (l : list ascii) (i : Z) : Z :=
  match l with
  | [] => -1
  | c :: l => let r := string_rfind x l (i + 1) in
      if r >=? 0 then r else if Ascii.eqb c x then i else -1
  end.
(** aps-impl.h:408-409, 405-407.  [l.at(i)] throws out_of_range unless the
    converted index is below size(). *)
Definition string_position (x : ascii) (l : list ascii) : Z := string_find x l 0.
Definition string_position_from_end (x : ascii) (l : list ascii) : Z := string_rfind x l 0.
Definition string_member (x : ascii) (l : list ascii) : bool :=
  size_t (string_find x l 0) <? Z.of_nat (List.length l).
Definition string_at (l : list ascii) (i : Z) : res ascii :=
  if size_t i <? Z.of_nat (List.length l) then rd l (Z.to_nat (size_t i)) else Exit.
Definition string_nth (i : Z) (l : list ascii) : res ascii := string_at l i.
Definition string_nth_from_end (i : Z) (l : list ascii) : res ascii :=
  string_at l (Z.of_nat (List.length l) - i - 1).
