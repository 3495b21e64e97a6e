(** * AllocModel: the permanent heap and the temporary stack of the parser.

    Models /repo/parse/alloc.c and the macros of /repo/parse/jbb-alloc.h.
    Addresses are unbounded integers (the code compares addresses of different
    blocks, which ISO C leaves undefined but every flat address space orders).
    malloc is an arbitrary oracle. *)
From Verif Require Import Base.
Open Scope Z_scope.

Definition BLOCKSIZE : Z := 10000000.           (** alloc.c:6 *)
Definition INT_MAX : Z := 2147483647.
(** jbb-alloc.h:10 [ALIGN(size)]: [((size)+7)&~7] *)
Definition align (size : Z) : Z := Z.land (size + 7) (Z.lnot 7).

(** alloc.c:7-14, 55-61: one [heap_struct] with its two global pointers.  A block
    is the address of its [contents]; [blocks] lists the chain from [first];
    [next]/[prev] are the neighbours in it; [current] is an index in it. *)
Record arena := mkArena { blocks : list Z; current : option nat; ptr : Z; top : Z }.
Definition empty_arena : arena := mkArena [] None 0 0.

Section Alloc.
(** The i-th malloc of a block: address of its contents, or NULL. *)
Variable malloc : nat -> option Z.

(** alloc.c:19-39 [add_block]; [m] counts the mallocs so far. *)
Definition add_block (a : arena) (m : nat) : res (arena * nat) :=
  let new := match malloc m with
             | None => Exit                                            (** out of memory *)
             | Some b => Ok (mkArena (blocks a ++ [b]) (Some (length (blocks a))) (ptr a) (top a), S m)
             end in
  match blocks a, current a with
  | _ :: _, None => Ok (mkArena (blocks a) (Some 0%nat) (ptr a) (top a), m)
  | [], _ => new
  | _ :: _, Some c => if (S c =? length (blocks a))%nat then new
                      else Ok (mkArena (blocks a) (Some (S c)) (ptr a) (top a), m)
  end.
(** alloc.c:16-17 *)
Definition hs_bottom (a : arena) : res Z := match current a with None => UB | Some c => rd (blocks a) c end.
Definition hs_top (a : arena) : res Z := b <- hs_bottom a ;; Ok (b + BLOCKSIZE).

(** alloc.c:63-73, 75-84 [more_heap], [more_stack]; [again] is the HALLOC/SALLOC it ends with. *)
Definition more (again : Z -> arena -> nat -> res (arena * nat * Z)) (n : Z) (a : arena) (m : nat) : res (arena * nat * Z) :=
  if n >=? BLOCKSIZE then Exit
  else
    '(a, m) <- add_block a m ;;
    b <- hs_bottom a ;;
    t <- hs_top a ;;
    again n (mkArena (blocks a) (current a) b t) m.
(** jbb-alloc.h:11-15 [ALLOC]: bump, and get more if the top is passed.
    [n + 7] is computed in int.  Fuel bounds the mutual recursion with [more]. *)
Fixpoint ALLOC (fuel : nat) (n : Z) (a : arena) (m : nat) : res (arena * nat * Z) :=
  match fuel with
  | O => Fuel
  | S fuel =>
    if n + 7 >? INT_MAX then UB
    else
      let temp := ptr a in
      let p := temp + align n in
      let a := mkArena (blocks a) (current a) p (top a) in
      if p >? top a then more (ALLOC fuel) n a m else Ok (a, m, temp)
  end.

(** alloc.c:46-48: the loop of [release_to_block], [current] being block [i]. *)
Fixpoint release_loop (bl : list Z) (i : nat) (mark : Z) : res nat :=
  b <- rd bl i ;;
  if (mark <? b) || (mark >? b + BLOCKSIZE) then
    match i with
    | O => UB                         (** current is now NULL and hs_top dereferences it *)
    | S i => release_loop bl i mark
    end
  else Ok i.
(** alloc.c:86-94 [release], with 41-53 [release_to_block]; NULL is 0. *)
Definition release (mark : Z) (a : arena) : res arena :=
  if mark =? 0 then Ok (mkArena (blocks a) None 0 0)
  else
    match current a with
    | None => UB
    | Some c =>
      i <- release_loop (blocks a) c mark ;;
      b <- rd (blocks a) i ;;
      Ok (mkArena (blocks a) (Some i) mark (b + BLOCKSIZE))
    end.

(** ** Programs using the allocator *)
(** [Release k]: release the mark returned by the k-th (oldest first) live SALLOC. *)
Inductive aop := HAlloc (n : Z) | SAlloc (n : Z) | Release (k : nat).
(** The two arenas, the malloc count, and the allocations (address, size) a
    program considers live, oldest first. *)
Record world := mkWorld { the_heap : arena; the_stack : arena; mallocs : nat; hlive : list (Z * Z); slive : list (Z * Z) }.
Definition world0 : world := mkWorld empty_arena empty_arena 0 [] [].
Definition fuel_alloc : nat := 3.
Definition astep (w : world) (o : aop) : res world :=
  match o with
  | HAlloc n =>
    '(a, m, p) <- ALLOC fuel_alloc n (the_heap w) (mallocs w) ;;
    Ok (mkWorld a (the_stack w) m (hlive w ++ [(p, n)]) (slive w))
  | SAlloc n =>
    '(a, m, p) <- ALLOC fuel_alloc n (the_stack w) (mallocs w) ;;
    Ok (mkWorld (the_heap w) a m (hlive w) (slive w ++ [(p, n)]))
  | Release k =>
    match nth_error (slive w) k with
    | None => Ok w                                          (** no such mark: no call *)
    | Some (p, _) =>
      a <- release p (the_stack w) ;;
      Ok (mkWorld (the_heap w) a (mallocs w) (hlive w) (firstn k (slive w)))
    end
  end.
Definition arun (ops : list aop) : res world := foldM astep ops world0.
End Alloc.
