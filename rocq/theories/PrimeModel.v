(** * Model of utilities/prime.c (and prime.h).

    Simplifications: [malloc]/[realloc] never fail; the realloc'ed array is
    immediately overwritten by [memset], so its old contents do not matter. *)
From Coq Require Import FMapPositive.
From Verif Require Import Base.
Open Scope Z_scope.

(** prime.c:6  [#define INITIAL_TABLE_SIZE 4973] *)
Definition INITIAL_TABLE_SIZE : Z := 4973.
(** prime.c:7  [#define DOUBLE_SIZE(x) (((x) << 1) + 1)] *)
Definition DOUBLE_SIZE (x : Z) : Z := 2 * x + 1.

(** The largest [n] for which no int expression of the sieve overflows: the
    outer loop test [i * i < n] (prime.c:46) is evaluated with [i] up to the
    first [i] with [i*i >= n]; 46341 * 46341 > 2^31-1 >= 46340 * 46340.
    The increment [j += i] (prime.c:52) stays below 46340^2 + 46340 < 2^31. *)
Definition SIEVE_MAX : Z := 46340 * 46340.
Definition INT_MAX : Z := 2147483647.

(** prime.c:9-18: the static [primes] struct.  The bool array is a finite map
    from the indices holding [false]; every other index below [size] holds
    [true] (this is what [memset(..., true, ...)] establishes).  The initial
    state {NULL,0} has size 0, so nothing can be read from it. *)
Record primes := { cleared : PositiveMap.t unit; size : Z }.
Definition primes_init : primes := {| cleared := PositiveMap.empty unit; size := 0 |}.

(** Keys of the finite map are positive, index i is stored under i+1. *)
Definition key (i : Z) : positive := Z.to_pos (i + 1).

(** prime.c: read of [primes.array[i]]; out of bounds is UB. *)
Definition get (p : primes) (i : Z) : res bool :=
  if (0 <=? i) && (i <? size p) then
    Ok (match PositiveMap.find (key i) (cleared p) with Some _ => false | None => true end)
  else UB.

(** prime.c: [primes.array[i] = false]. *)
Definition clear (p : primes) (i : Z) : res primes :=
  if (0 <=? i) && (i <? size p) then
    Ok {| cleared := PositiveMap.add (key i) tt (cleared p); size := size p |}
  else UB.

(** prime.c:52-55: [for (j = ...; j < n; j += i) primes.array[j] = false]. *)
Fixpoint mark (fuel : nat) (p : primes) (i j n : Z) : res primes :=
  match fuel with
  | O => Fuel
  | S fuel =>
    if j <? n then
      p' <- clear p j ;; mark fuel p' i (j + i) n
    else Ok p
  end.

(** prime.c:46-57: the outer loop.  The fuel of the inner loop is n+1. *)
Fixpoint sieve_loop (fuel : nat) (p : primes) (i n : Z) : res primes :=
  match fuel with
  | O => Fuel
  | S fuel =>
    if i * i <? n then
      b <- get p i ;;
      p' <- (if b then mark (S (Z.to_nat n)) p i (i * i) n else Ok p) ;;
      sieve_loop fuel p' (i + 1) n
    else Ok p
  end.

(** prime.c:26-58 [sieve_of_eratosthenes(n)].  Parameter [n] is a C int.
    UB for n > SIEVE_MAX (signed overflow, see above) and for n < 2 (the
    writes to index 0 and 1 leave the array). *)
Definition sieve (n : Z) : res primes :=
  if n <=? SIEVE_MAX then
    let p0 := {| cleared := PositiveMap.empty unit; size := n |} in
    p1 <- clear p0 0 ;;
    p2 <- clear p1 1 ;;
    sieve_loop (S (Z.to_nat n)) p2 2 n
  else UB.

(** prime.c:83-91: the search loop [for (i = p; i < primes.size; i++)]; the
    comparison is unsigned, so a negative [i] makes the loop end at once. *)
Fixpoint search (fuel : nat) (st : primes) (i : Z) : res (option Z) :=
  match fuel with
  | O => Fuel
  | S fuel =>
    if (0 <=? i) && (i <? size st) then
      b <- get st i ;;
      (** short-circuit [&&]: [primes.array[i-2]] is read only if needed *)
      c <- (if (b : bool) then get st (i - 2) else Ok false) ;;
      if (c : bool) then Ok (Some i) else search fuel st (i + 1)
    else Ok None
  end.

(** prime.c:80-95: [while (true)].  Each round doubles the sieve; the fuel
    counts rounds.  [DOUBLE_SIZE(primes.size)] is an unsigned expression
    converted to int: above INT_MAX the conversion gives a negative or wrapped
    size; the model reports UB because [sieve] is UB there already
    (n > SIEVE_MAX) or the negative size makes the array writes invalid. *)
Fixpoint rounds (fuel : nat) (st : primes) (p : Z) : res (primes * Z) :=
  match fuel with
  | O => Fuel
  | S fuel =>
    r <- search (S (Z.to_nat (size st - p))) st p ;;
    match r with
    | Some i => Ok (st, i)
    | None =>
      st' <- sieve (DOUBLE_SIZE (size st)) ;;
      rounds fuel st' p
    end
  end.

(** prime.c:66-96 [next_twin_prime(p)], [p] a C int.  The test
    [p >= primes.size] converts [p] to unsigned: a negative [p] compares as a
    large number.  [new_size <= p] is an int comparison. 40 rounds always
    suffice because the size at least doubles each round (see PrimeProofs). *)
Definition next_twin_prime (st : primes) (p : Z) : res (primes * Z) :=
  st1 <-
    (if (p <? 0) || (size st <=? p) then
       let new_size := DOUBLE_SIZE (size st + INITIAL_TABLE_SIZE) in
       let new_size := if new_size <=? p then DOUBLE_SIZE p else new_size in
       sieve new_size
     else Ok st) ;;
  rounds 40 st1 p.
