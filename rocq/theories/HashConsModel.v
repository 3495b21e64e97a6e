(** * Model of utilities/hashcons.c.

    Objects: an object is its contents, a value of type [A] (for sets: the
    element list).  The heap is the list of objects ever allocated by
    [hash_cons_get] on this table; pointer p >= 1 denotes the p-th one, 0 is
    NULL.  [malloc]+[memcpy] append a copy of the item's contents.  The client's
    [hashf]/[equalf] depend on the contents only.  [malloc]/[calloc]/[alloca]
    never fail.  The sieve of prime.c is threaded as [primes]. *)
From Verif Require Import Base PrimeModel HashTableModel.
Open Scope Z_scope.

(** hashcons.h:10-16 [struct hash_cons_table]; [hinit = false] means that
    [table] is still NULL (static initialisation). *)
Record hc (A : Type) := { hslots : list nat; hsize : Z; hcap : Z; hinit : bool; objs : list A }.
Arguments hslots {A}. Arguments hsize {A}. Arguments hcap {A}. Arguments hinit {A}. Arguments objs {A}.

Section Client.
Context {A : Type}.
Variable hashf : A -> Z.
Variable equalf : A -> A -> bool.

(** A statically initialised table: hashcons.c:187 and the like. *)
Definition hc_static : hc A := {| hslots := []; hsize := 0; hcap := 0; hinit := false; objs := [] |}.

(** Dereferencing a pointer. *)
Definition deref (objs : list A) (p : nat) : res A :=
  match p with O => UB | S i => rd objs i end.

(** [hc->table[i]] *)
Definition hslot (h : hc A) (i : Z) : res nat :=
  if i <? 0 then UB else rd (hslots h) (Z.to_nat i).

(** hashcons.c:16-21 [hc_initialize]; the objects are not part of the C struct
    and survive. *)
Definition hc_initialize (h : hc A) (capacity : Z) : hc A :=
  {| hslots := repeat 0%nat (Z.to_nat capacity); hsize := 0; hcap := capacity; hinit := true; objs := objs h |}.

(** hashcons.c:35-43: the probe loop; fuel as in HashTableModel. *)
Fixpoint hc_probe (fuel : nat) (h : hc A) (item : A) (index step : Z) : res Z :=
  match fuel with
  | O => Fuel
  | S fuel =>
    p <- hslot h index ;;
    b <- (match p with O => Ok true | _ => x <- deref (objs h) p ;; Ok (equalf x item) end) ;;
    if (b : bool) then Ok index
    else
      s <- int_add index step ;;
      hc_probe fuel h item (Z.rem s (hcap h)) step
  end.

(** hashcons.c:29-44 [hc_candidate_index] (and :77-82 [hc_search]). *)
Definition hc_candidate_index (h : hc A) (item : A) : res Z :=
  let hash := Z.land (hashf item) LONG_MAX in
  if (hcap h =? 0) || (hcap h - 2 =? 0) then UB
  else
    let index := Z.rem hash (hcap h) in
    let step := Z.rem hash (hcap h - 2) + 1 in
    hc_probe (S (Z.to_nat (hcap h))) h item index step.

(** hashcons.c:51-55 [hc_insert_at]. *)
Definition hc_insert_at (h : hc A) (p : nat) (index : Z) : res (hc A) :=
  if index <? 0 then UB else
  s <- wr (hslots h) (Z.to_nat index) p ;;
  Ok {| hslots := s; hsize := hsize h + 1; hcap := hcap h; hinit := hinit h; objs := objs h |}.

(** hashcons.c:62-67 [hc_insert]. *)
Definition hc_insert (h : hc A) (p : nat) : res (hc A) :=
  x <- deref (objs h) p ;;
  i <- hc_candidate_index h x ;;
  hc_insert_at h p i.

(** hashcons.c:95-102: the re-insertion loop of [hc_resize]. *)
Fixpoint hc_reinsert (l : list nat) (h : hc A) : res (hc A) :=
  match l with
  | [] => Ok h
  | p :: l => h' <- (match p with O => Ok h | _ => hc_insert h p end) ;; hc_reinsert l h'
  end.

(** hashcons.c:89-105 [hc_resize]. *)
Definition hc_resize (h : hc A) (capacity : Z) : res (hc A) :=
  hc_reinsert (firstn (Z.to_nat (hcap h)) (hslots h)) (hc_initialize h capacity).

(** hashcons.c:7 *)
Definition HC_INITIAL_BASE_SIZE : Z := 61.

(** hashcons.c:114-141 [hash_cons_get]. *)
Definition hash_cons_get (st : primes) (h : hc A) (item : A) : res (primes * hc A * nat) :=
  let h := if hinit h then h else hc_initialize h HC_INITIAL_BASE_SIZE in
  i <- hc_candidate_index h item ;;
  p <- hslot h i ;;
  match p with
  | S _ => Ok (st, h, p)
  | O =>
    let result := S (length (objs h)) in
    let h := {| hslots := hslots h; hsize := hsize h; hcap := hcap h; hinit := hinit h; objs := objs h ++ [item] |} in
    h <- hc_insert_at h result i ;;
    if hcap h <? 2 * hsize h then          (* size > capacity * 0.5 *)
      c2 <- double_int (hcap h) ;;
      '(st, new_capacity) <- next_twin_prime st c2 ;;
      h <- hc_resize h new_capacity ;;
      Ok (st, h, result)
    else Ok (st, h, result)
  end.

(** A history of calls; the results in order. *)
Fixpoint gets (st : primes) (h : hc A) (items : list A) : res (primes * hc A * list nat) :=
  match items with
  | [] => Ok (st, h, [])
  | x :: items =>
    '(st1, h1, p) <- hash_cons_get st h x ;;
    '(st2, h2, ps) <- gets st1 h1 items ;;
    Ok (st2, h2, p :: ps)
  end.
End Client.

(** ** Hash-consed sets.  The contents of a [struct hash_cons_set] is its
    element array up to [num_elements]; elements are 64-bit addresses
    0 <= x < 2^64. *)

(** (long) cast of an address. *)
Definition to_long (v : Z) : Z := if v <=? LONG_MAX then v else v - 18446744073709551616.

(** hashcons.c:148-157 [hashcons_set_hash]. *)
Definition set_hash (s : list Z) : Z := fold_left (fun h e => Z.lor h (to_long e)) s 17.

(** hashcons.c:165-179 [hashcons_set_equal]. *)
Fixpoint elements_equal (a b : list Z) : bool :=
  match a, b with
  | [], _ => true
  | x :: a, y :: b => (x =? y) && elements_equal a b
  | _, [] => false
  end.
Definition set_equal (a b : list Z) : bool :=
  Nat.eqb (length a) (length b) && elements_equal a b.

(** hashcons.c:199-213: insertion of the i-th element into the sorted prefix;
    the prefix is kept reversed (last element first) because the C loop walks
    from its end, shifting elements that are greater (as longs) than the key. *)
Fixpoint insert_rev (key : Z) (rev_prefix : list Z) : list Z :=
  match rev_prefix with
  | [] => [key]
  | x :: rest => if to_long key <? to_long x then x :: insert_rev key rest else key :: x :: rest
  end.
Definition sort_elements (l : list Z) : list Z := rev (fold_left (fun p x => insert_rev x p) l []).

Definition sets := hc (list Z).
Definition set_get (st : primes) (h : sets) (s : list Z) := hash_cons_get set_hash set_equal st h s.

(** hashcons.c:194-217 [new_hash_cons_set]; the argument is a temporary. *)
Definition new_hash_cons_set (st : primes) (h : sets) (l : list Z) := set_get st h (sort_elements l).

(** hashcons.c:223-229 [get_hash_cons_empty_set]. *)
Definition get_hash_cons_empty_set (st : primes) (h : sets) := set_get st h [].

(** hashcons.c:261-287: the merge loops of [union_hash_const_set]; pointers
    are compared as addresses.  Result: the array written so far (in order)
    and the number of coinciding elements, by which [num_elements] was
    decremented. *)
Fixpoint merge (fuel : nat) (a b : list Z) : res (list Z * nat) :=
  match fuel with
  | O => Fuel
  | S fuel =>
    match a, b with
    | x :: a', y :: b' =>
      if x =? y then '(r, d) <- merge fuel a' b' ;; Ok (x :: r, S d)
      else if x <? y then '(r, d) <- merge fuel a' b ;; Ok (x :: r, d)
      else '(r, d) <- merge fuel a b' ;; Ok (y :: r, d)
    | _, _ => Ok (a ++ b, 0%nat)           (* the two copy loops *)
    end
  end.

(** hashcons.c:253-292 [union_hash_const_set] on the contents of its
    arguments.  The item passed on has [num_elements] = total - coinciding;
    if fewer elements than that were written the rest is uninitialised. *)
Definition union_contents (st : primes) (h : sets) (a b : list Z) :=
  '(r, d) <- merge (S (length a + length b)) a b ;;
  let n := (length a + length b - d)%nat in
  if (length r <? n)%nat then UB else set_get st h (firstn n r).

Definition union_hash_const_set (st : primes) (h : sets) (pa pb : nat) :=
  a <- deref (objs h) pa ;;
  b <- deref (objs h) pb ;;
  union_contents st h a b.

(** hashcons.c:237-245 [add_hash_cons_set]: the singleton is a temporary. *)
Definition add_hash_cons_set (st : primes) (h : sets) (item : Z) (pset : nat) :=
  s <- deref (objs h) pset ;;
  union_contents st h [item] s.

(** Client programs over sets; arguments refer to earlier results by number. *)
Inductive set_op := SEmpty | SNew (l : list Z) | SAdd (x : Z) (i : nat) | SUnion (i j : nat).

Definition set_step (st : primes) (h : sets) (rs : list nat) (o : set_op) : res (primes * sets * nat) :=
  match o with
  | SEmpty => get_hash_cons_empty_set st h
  | SNew l => new_hash_cons_set st h l
  | SAdd x i => p <- rd rs i ;; add_hash_cons_set st h x p
  | SUnion i j => p <- rd rs i ;; q <- rd rs j ;; union_hash_const_set st h p q
  end.

Fixpoint set_run (st : primes) (h : sets) (rs : list nat) (ops : list set_op) : res (primes * sets * list nat) :=
  match ops with
  | [] => Ok (st, h, rs)
  | o :: ops =>
    '(st1, h1, p) <- set_step st h rs o ;;
    set_run st1 h1 (rs ++ [p]) ops
  end.

(** ** Hash functions for strings and pairs *)
Definition LONG_MIN : Z := -9223372036854775808.
Definition long (x : Z) : res Z := if (LONG_MIN <=? x) && (x <=? LONG_MAX) then Ok x else UB.

(** hashcons.c:300-311 [hash_string]: the string is the list of its (signed)
    chars before the terminator.  [hash << 5] on a negative value is UB. *)
Fixpoint hash_string_loop (hash : Z) (str : list Z) : res Z :=
  match str with
  | [] => Ok hash
  | c :: str =>
    if hash <? 0 then UB else
    sh <- long (hash * 32) ;;
    s <- long (sh + hash) ;;
    hash' <- long (s + c) ;;
    hash_string_loop hash' str
  end.
Definition hash_string (str : list Z) : res Z := hash_string_loop 5381 str.

(** hashcons.c:319-325 [hash_mix]. *)
Definition hash_mix (h1 h2 : Z) : res Z :=
  a <- long (17 * 31 + h1) ;;
  b <- long (a * 31) ;;
  long (b + h2).
