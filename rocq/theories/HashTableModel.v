(** * Model of utilities/hashtable.c.

    Keys and values are machine words ([void*] as Z, 0 = NULL).  The client's
    [hashf] and [equalf] are Coq functions: they do not depend on, or change,
    memory.  The static sieve of prime.c is threaded through as [primes].
    [calloc] never fails.  The entry array is a list of (key,value) pairs; the
    flag [freed] says that the memory behind [table->table] was freed (it is
    only ever true after [hash_table_clear]). *)
From Verif Require Import Base PrimeModel.
Open Scope Z_scope.

(** limits.h *)
Definition LONG_MAX : Z := 9223372036854775807.

(** hashtable.h:15-27: [struct hash_table].  The two function pointers are
    parameters of the functions below. *)
Record table := { slots : list (Z * Z); tsize : Z; capacity : Z; freed : bool }.

(** int addition, hashtable.c:27 [index + step_size]. *)
Definition int_add (a b : Z) : res Z := if a + b <=? INT_MAX then Ok (a + b) else UB.

(** hashtable.c:9  [DOUBLE_SIZE(table->capacity)] on an int. *)
Definition double_int (c : Z) : res Z :=
  if 2 * c + 1 <=? INT_MAX then Ok (2 * c + 1) else UB.

(** Conversion of the [unsigned int] parameter of [hash_table_initialize] to
    the [int] parameter of [next_twin_prime] (hashtable.c:126). *)
Definition to_int (u : Z) : Z := if u <=? INT_MAX then u else u - 4294967296.

(** [table->table[i]] *)
Definition slot (t : table) (i : Z) : res (Z * Z) :=
  if freed t then UB else if i <? 0 then UB else rd (slots t) (Z.to_nat i).

Section Client.
Variable hashf : Z -> Z.
Variable equalf : Z -> Z -> bool.

(** hashtable.c:22-29: the probe loop.  It runs at most [capacity] times
    before it repeats an index, so [Fuel] (capacity+1 rounds) means that the C
    loop never ends. *)
Fixpoint probe (fuel : nat) (t : table) (key index step : Z) : res Z :=
  match fuel with
  | O => Fuel
  | S fuel =>
    e <- slot t index ;;
    if (fst e =? 0) || equalf (fst e) key then Ok index
    else
      s <- int_add index step ;;
      probe fuel t key (Z.rem s (capacity t)) step
  end.

(** hashtable.c:17-30 [hash_table_candidate_index] (and :52-57
    [hash_table_search], which only calls it). *)
Definition candidate_index (t : table) (key : Z) : res Z :=
  let hash := Z.land (hashf key) LONG_MAX in
  if (capacity t =? 0) || (capacity t - 2 =? 0) then UB (* division by zero *)
  else
    let index := Z.rem hash (capacity t) in
    let step := Z.rem hash (capacity t - 2) + 1 in
    probe (S (Z.to_nat (capacity t))) t key index step.

(** hashtable.c:84-92 [hash_table_get]. *)
Definition hash_table_get (t : table) (key : Z) : res Z :=
  i <- candidate_index t key ;;
  e <- slot t i ;;
  if equalf (fst e) key then Ok (snd e) else Ok 0.

(** hashtable.c:122-132 [hash_table_initialize]. *)
Definition hash_table_initialize (st : primes) (initial_capacity : Z) : res (primes * table) :=
  '(st', c) <- next_twin_prime st (to_int initial_capacity) ;;
  Ok (st', {| slots := repeat (0, 0) (Z.to_nat c); tsize := 0; capacity := c; freed := false |}).

(** hashtable.c:39-46 [hash_table_insert_at]. *)
Definition insert_at (t : table) (key value index : Z) : res table :=
  if freed t then UB else
  if index <? 0 then UB else
  s <- wr (slots t) (Z.to_nat index) (key, value) ;;
  Ok {| slots := s; tsize := tsize t + 1; capacity := capacity t; freed := false |}.

(** hashtable.c:101-120 [hash_table_add_or_update] and :64-77
    [hash_table_resize] are mutually recursive; [depth] bounds the nesting of
    resizes (theorems show nesting 2 suffices).  In [resize] the old array is
    read for i = 0 .. old_capacity-1 and then freed; freeing an array that is
    already freed is UB. *)
Fixpoint add_or_update (depth : nat) (st : primes) (t : table) (key value : Z)
  {struct depth} : res (primes * table) :=
  match depth with
  | O => Fuel
  | S depth =>
    if key =? 0 then Exit else
    '(st1, t1) <-
      (if capacity t <? 2 * (tsize t + 1) then       (* size + 1 > capacity * 0.5 *)
         c2 <- double_int (capacity t) ;;
         '(st0, new_capacity) <- next_twin_prime st c2 ;;
         (* hash_table_resize(table, new_capacity) *)
         '(st1, fresh) <- hash_table_initialize st0 new_capacity ;;
         (if freed t && (0 <? capacity t) then UB else
          '(st2, t2) <-
            (fix readd (l : list (Z * Z)) (st : primes) (t' : table) : res (primes * table) :=
               match l with
               | [] => Ok (st, t')
               | e :: l =>
                 '(st', t'') <- (if fst e =? 0 then Ok (st, t')
                                 else add_or_update depth st t' (fst e) (snd e)) ;;
                 readd l st' t''
               end) (firstn (Z.to_nat (capacity t)) (slots t)) st1 fresh ;;
          if freed t then UB (* double free *) else Ok (st2, t2))
       else Ok (st, t)) ;;
    i <- candidate_index t1 key ;;
    e <- slot t1 i ;;
    if equalf (fst e) key then
      s <- wr (slots t1) (Z.to_nat i) (fst e, value) ;;
      Ok (st1, {| slots := s; tsize := tsize t1; capacity := capacity t1; freed := freed t1 |})
    else
      t2 <- insert_at t1 key value i ;;
      Ok (st1, t2)
  end.

Definition hash_table_add_or_update := add_or_update 2.

(** hashtable.c:141-151 [hash_table_remove]. *)
Definition hash_table_remove (t : table) (key : Z) : res (table * bool) :=
  i <- candidate_index t key ;;
  e <- slot t i ;;
  if equalf (fst e) key then
    s <- wr (slots t) (Z.to_nat i) (0, snd e) ;;
    Ok ({| slots := s; tsize := tsize t - 1; capacity := capacity t; freed := freed t |}, true)
  else Ok (t, false).

(** hashtable.c:158-162 [hash_table_clear]. *)
Definition hash_table_clear (t : table) : res table :=
  if freed t then UB
  else Ok {| slots := slots t; tsize := 0; capacity := 0; freed := true |}.

(** hashtable.c:170-178 [hash_table_contains]. *)
Definition hash_table_contains (t : table) (key : Z) : res bool :=
  i <- candidate_index t key ;;
  e <- slot t i ;;
  Ok (equalf (fst e) key).

(** A client history: a table is initialised and then used. *)
Inductive op := Add (k v : Z) | Remove (k : Z).

Definition step (s : primes * table) (o : op) : res (primes * table) :=
  match o with
  | Add k v => hash_table_add_or_update (fst s) (snd s) k v
  | Remove k => '(t, _) <- hash_table_remove (snd s) k ;; Ok (fst s, t)
  end.

Fixpoint steps (s : primes * table) (ops : list op) : res (primes * table) :=
  match ops with
  | [] => Ok s
  | o :: ops => s' <- step s o ;; steps s' ops
  end.

Definition history (st : primes) (initial_capacity : Z) (ops : list op) : res (primes * table) :=
  s <- hash_table_initialize st initial_capacity ;; steps s ops.

End Client.

(** hashtable.c:185-187 [ptr_hashf]: (long)v of a 64-bit address. *)
Definition ptr_hashf (v : Z) : Z := if v <=? LONG_MAX then v else v - 18446744073709551616.
(** hashtable.c:195-197 [ptr_equalf]. *)
Definition ptr_equalf (a b : Z) : bool := a =? b.
