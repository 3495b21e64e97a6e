(** * Model of the canonical types and signatures of analyze/canonical-type.c and
    analyze/canonical-signature.c.

    Canonical types are objects of a hash-cons table (HashConsModel): pointer p >= 1 is
    the p-th object, 0 is NULL.  Declarations are their addresses. *)
From Verif Require Import Base PrimeModel HashConsModel.
Open Scope Z_scope.

(** canonical-type.h:14-36: the contents of the three kinds of objects; num_formals is the
    length of param_types *)
Inductive shape := SUse (decl : Z) | SQual (decl : Z) (source : nat) | SFunc (params : list nat) (ret : nat).
Definition theap := list shape.
(** canonical-type.h:4-6 *)
Definition KEY_FUNC : Z := 0.
Definition KEY_USE : Z := 1.
Definition KEY_QUAL : Z := 2.
Definition key (x : shape) : Z := match x with SUse _ => KEY_USE | SQual _ _ => KEY_QUAL | SFunc _ _ => KEY_FUNC end.

(** canonical-type.c:21-58 [canonical_type_hash]; [rec] is the call for a pointer *)
Definition shape_hash (rec : nat -> res Z) (x : shape) : res Z :=
  match x with
  | SUse d => hash_mix KEY_USE (to_long d)
  | SQual d source => s <- rec source ;; a <- hash_mix (to_long d) s ;; hash_mix KEY_QUAL a
  | SFunc params ret =>
    ph <- foldM (fun h p => v <- rec p ;; hash_mix h v) params 0 ;;
    r <- rec ret ;;
    a <- hash_mix ph r ;;
    b <- hash_mix (Z.of_nat (length params)) a ;;
    hash_mix KEY_FUNC b
  end.
Fixpoint type_hash (fuel : nat) (o : theap) (p : nat) : res Z :=
  match fuel with
  | O => Fuel
  | S f => match p with O => Ok 0 | _ => x <- deref o p ;; shape_hash (type_hash f o) x end
  end.
(** canonical-type.c:66-121 [canonical_type_equal]; reading through a dangling pointer
    answers false here (it does not happen: every pointer is one that hash_cons_get
    returned) *)
Definition shape_equal (rec : nat -> nat -> bool) (x y : shape) : bool :=
  match x, y with
  | SUse d, SUse d' => d =? d'
  | SQual d s, SQual d' s' => (d =? d') && Nat.eqb s s'
  | SFunc ps r, SFunc ps' r' => Nat.eqb (length ps) (length ps') && forallb (fun pq => rec (fst pq) (snd pq)) (combine ps ps') && Nat.eqb r r'
  | _, _ => false
  end.
Fixpoint type_equal (fuel : nat) (o : theap) (p q : nat) : bool :=
  match fuel with
  | O => false
  | S f =>
    match p, q with
    | O, _ | _, O => false
    | _, _ => match deref o p, deref o q with Ok x, Ok y => shape_equal (type_equal f o) x y | _, _ => false end
    end
  end.
(** The recursion goes to older objects, so it is at most as deep as their number. *)
Definition item_hash (o : theap) (x : shape) : res Z := shape_hash (type_hash (S (length o)) o) x.
Definition item_equal (o : theap) (x y : shape) : bool := shape_equal (type_equal (S (length o)) o) x y.
Definition value (z : res Z) : Z := match z with Ok v => v | _ => 0 end.

(** hash_cons_get on canonical_type_table (canonical-type.c:190): the item is hashed first;
    all objects of the table have been hashed before. *)
Definition new_type (st : primes) (h : hc shape) (x : shape) : res (primes * hc shape * nat) :=
  _ <- item_hash (objs h) x ;;
  hash_cons_get (fun y => value (item_hash (objs h) y)) (item_equal (objs h)) st h x.

(** canonical-signature.h:4-11 *)
Record sig := mkSig { is_input : bool; is_var : bool; source_class : Z; actuals : list nat }.
Definition bool_int (b : bool) : Z := if b then 1 else 0.
(** canonical-signature.c:121-131 [hash_canonical_types] *)
Definition hash_canonical_types (o : theap) (ps : list nat) : res Z :=
  foldM (fun h p => v <- type_hash (S (length o)) o p ;; hash_mix h v) ps 17.
(** canonical-signature.c:148-153 [canonical_signature_hash] *)
Definition signature_hash (o : theap) (s : sig) : res Z :=
  t <- hash_canonical_types o (actuals s) ;;
  a <- hash_mix (to_long (source_class s)) t ;;
  b <- hash_mix (bool_int (is_var s)) a ;;
  hash_mix (bool_int (is_input s)) b.
(** canonical-signature.c:161-179 [canonical_signature_equal] *)
Definition signature_equal (a b : sig) : bool :=
  Nat.eqb (length (actuals a)) (length (actuals b)) && forallb (fun pq => Nat.eqb (fst pq) (snd pq)) (combine (actuals a) (actuals b)) &&
  Bool.eqb (is_input a) (is_input b) && Bool.eqb (is_var a) (is_var b) && (source_class a =? source_class b).
(** canonical-signature.c:191-211 [new_canonical_signature] *)
Definition new_canonical_signature (st : primes) (o : theap) (h : hc sig) (x : sig) : res (primes * hc sig * nat) :=
  _ <- signature_hash o x ;;
  hash_cons_get (fun y => value (signature_hash o y)) signature_equal st h x.

(** ** Clients: a history of constructions; arguments are earlier results by number *)
Inductive canon_op := OUse (decl : Z) | OQual (i : nat) (decl : Z) | OFunc (is : list nat) (r : nat) | OSig (inp var : bool) (cls : Z) (is : list nat).
Record cstate := mkCst { c_primes : primes; c_types : hc shape; c_sigs : hc sig; c_rt : list nat; c_rs : list nat }.
Definition mapM_rd (l : list nat) (is : list nat) : res (list nat) := foldM (fun a i => p <- rd l i ;; Ok (a ++ [p])) is [].
(** canonical-type.c:215-220 [new_canonical_type_use], 228-233 [new_canonical_type_qual];
    454-476 (the hash_cons_get of [canonical_type_function], as of 612-623 and 673-690) *)
Definition canon_step (s : cstate) (o : canon_op) : res cstate :=
  let ty x := '(st, h, p) <- new_type (c_primes s) (c_types s) x ;; Ok (mkCst st h (c_sigs s) (c_rt s ++ [p]) (c_rs s)) in
  match o with
  | OUse d => ty (SUse d)
  | OQual i d => p <- rd (c_rt s) i ;; ty (SQual d p)
  | OFunc is r => ps <- mapM_rd (c_rt s) is ;; p <- rd (c_rt s) r ;; ty (SFunc ps p)
  | OSig inp var cls is =>
    ps <- mapM_rd (c_rt s) is ;;
    '(st, h, p) <- new_canonical_signature (c_primes s) (objs (c_types s)) (c_sigs s) (mkSig inp var cls ps) ;;
    Ok (mkCst st (c_types s) h (c_rt s) (c_rs s ++ [p]))
  end.
Definition canon_run (st : primes) (ops : list canon_op) : res cstate := foldM canon_step ops (mkCst st hc_static hc_static [] []).

(** ** Order *)
(** canonical-type.c:1009-1069 [canonical_type_compare]; line gives tnode_line_number of
    a declaration; lines are not negative, so the differences are in range *)
Section Compare.
Variable line : Z -> Z.
Definition shape_compare (rec : nat -> nat -> res Z) (x y : shape) : res Z :=
  if negb (key x =? key y) then Ok (key x - key y) else
  match x, y with
  | SUse d, SUse d' => Ok (line d - line d')
  | SQual d s, SQual d' s' => if negb (line d =? line d') then Ok (line d - line d') else rec s s'
  | SFunc ps r, SFunc ps' r' =>
    if negb (Nat.eqb (length ps) (length ps')) then Ok (if Nat.ltb (length ps') (length ps) then 1 else -1) else
    c <- rec r r' ;;
    if negb (c =? 0) then Ok c else
    foldM (fun c pq => if negb (c =? 0) then Ok c else rec (fst pq) (snd pq)) (combine ps ps') 0
  | _, _ => Exit
  end.
Fixpoint type_compare (fuel : nat) (o : theap) (p q : nat) : res Z :=
  match fuel with
  | O => Fuel
  | S f => x <- deref o p ;; y <- deref o q ;; shape_compare (type_compare f o) x y
  end.
(** canonical-signature.c:344-375 [canonical_signature_compare] *)
Definition signature_compare (o : theap) (a b : sig) : res Z :=
  if negb (Bool.eqb (is_input a) (is_input b)) then Ok (bool_int (is_input a) - bool_int (is_input b)) else
  if negb (Bool.eqb (is_var a) (is_var b)) then Ok (bool_int (is_var a) - bool_int (is_var b)) else
  if negb (line (source_class a) =? line (source_class b)) then Ok (line (source_class a) - line (source_class b)) else
  if negb (Nat.eqb (length (actuals a)) (length (actuals b))) then Ok (Z.of_nat (length (actuals a)) - Z.of_nat (length (actuals b))) else
  foldM (fun c pq => if negb (c =? 0) then Ok c else type_compare (S (length o)) o (fst pq) (snd pq)) (combine (actuals a) (actuals b)) 0.
(** canonical-signature.c:85-99: one step of the insertion sort of
    [print_canonical_signature_set]; the sorted prefix, last element first *)
Fixpoint insert_sig (o : theap) (hs : list sig) (item : nat) (sorted : list nat) : res (list nat) :=
  match sorted with
  | [] => Ok [item]
  | p :: rest =>
    a <- deref hs p ;; b <- deref hs item ;;
    c <- signature_compare o a b ;;
    if 0 <? c then r <- insert_sig o hs item rest ;; Ok (p :: r) else Ok (item :: sorted)
  end.
(** canonical-signature.c:62-117 [print_canonical_signature_set]: the elements in the order
    in which they are printed *)
Definition printed (o : theap) (hs : list sig) (set : list nat) : res (list nat) :=
  r <- foldM (fun sorted item => insert_sig o hs item sorted) set [] ;; Ok (rev r).
End Compare.

(** ** Substitution of the actuals of a signature *)
(** canonical-type.c:284-307 [canonical_type_decl]; Exit: the error for function types
    (canonical-type.c:304), which is reported at something that is not a tree node *)
Definition type_decl (o : theap) (p : nat) : res Z :=
  match p with
  | O => Ok 0
  | _ => x <- deref o p ;; match x with SUse d | SQual d _ => Ok d | SFunc _ _ => Exit end
  end.
(** [alloca(bytes)] as an array of pointers: a store beyond the bytes is UB; what has not
    been stored is None *)
Definition store (bytes : Z) (buf : list (option nat)) (i : nat) (v : nat) : res (list (option nat)) :=
  if 8 * (Z.of_nat i + 1) <=? bytes then wr buf i (Some v) else UB.
Definition load (bytes : Z) (buf : list (option nat)) (i : nat) : res nat :=
  if 8 * (Z.of_nat i + 1) <=? bytes then x <- rd buf i ;; match x with Some v => Ok v | None => UB end else UB.
(** canonical-signature.c:496-518, 572-594: the loops over the formals of the module and the
    actuals of the instance for one actual of the signature, from j on; [bases] are the
    canonical base types of the actuals of the instance (canonical-signature.c:508, 584;
    computed beforehand here) *)
Fixpoint pick_k (j k : nat) (bases : list nat) (v : nat) : nat :=
  match bases with [] => v | b :: bases => pick_k j (S k) bases (if Nat.eqb j k then b else v) end.
Fixpoint pick_j (f1 : Z) (j : nat) (formals : list Z) (bases : list nat) (v : nat) : nat :=
  match formals with
  | [] => v
  | f2 :: formals => pick_j f1 (S j) formals bases (if f1 =? f2 then pick_k j 0 bases v else v)
  end.
(** canonical-signature.c:480-527 and 556-603: the case KEY_CANONICAL_USE of
    [join_canonical_signature_actuals] ([other] is the join with the source) and of
    [substitute_canonical_signature_actuals] ([other] is the identity); [bytes] is what is
    asked of alloca for n actuals. *)
Definition subst_actuals (bytes : Z -> Z) (o : theap) (formals : list Z) (bases : list nat) (other : nat -> nat) (acts : list nat) : res (list nat) :=
  let n := Z.of_nat (length acts) in
  buf <- foldM (fun buf i =>
      a <- rd acts i ;;
      buf <- store (bytes n) buf i (other a) ;;
      f1 <- type_decl o a ;;
      store (bytes n) buf i (pick_j f1 0 formals bases (other a))) (seq 0 (length acts)) (repeat None (length acts)) ;;
  foldM (fun r i => v <- load (bytes n) buf i ;; Ok (r ++ [v])) (seq 0 (length acts)) [].
(** canonical-signature.c:490, 567: alloca(canonical_sig->num_actuals) *)
Definition alloca_bytes (n : Z) : Z := n.
Definition subst_signature (st : primes) (o : theap) (h : hc sig) (formals : list Z) (bases : list nat) (other : nat -> nat) (s : sig) : res (primes * hc sig * nat) :=
  acts <- subst_actuals alloca_bytes o formals bases other (actuals s) ;;
  new_canonical_signature st o h (mkSig (is_input s) (is_var s) (source_class s) acts).
