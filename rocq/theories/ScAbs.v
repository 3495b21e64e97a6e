(** * ScAbs: an abstract machine for the proofs about [ScModel].

    It is no model of code: the evaluator of [ScModel] with the union-find
    links, the linked lists and the helpers replaced by what they stand for.
    [ScRep] proves that [ScModel] does what this machine does. *)
From Verif Require Import Base ScModel.

Record astate (V : Type) : Type := mkAstate {
  a_st : nat -> status;
  a_val : nat -> V;
  a_cyc : nat -> option nat;     (* the root of the cycle *)
  a_mem : nat -> list nat;       (* the members of the cycle of a root, in order *)
  a_mod : nat -> bool;           (* [modified] of the cycle of a root *)
  a_merged : bool;               (* whether some cycle was merged with another *)
  a_pend : list nat
}.
Arguments mkAstate {V} _ _ _ _ _ _ _.
Arguments a_st {V} _ _.
Arguments a_val {V} _ _.
Arguments a_cyc {V} _ _.
Arguments a_mem {V} _ _.
Arguments a_mod {V} _ _.
Arguments a_merged {V} _.
Arguments a_pend {V} _.

Definition inb (x : nat) (l : list nat) : bool := existsb (Nat.eqb x) l.

Lemma set_fun_eq {A} (f : nat -> A) i x : set_fun f i x i = x.
Proof. unfold set_fun. now rewrite Nat.eqb_refl. Qed.
Lemma set_fun_neq {A} (f : nat -> A) i x j : j <> i -> set_fun f i x j = f j.
Proof. intros H. unfold set_fun. destruct (Nat.eqb_spec j i); congruence. Qed.
Lemma eq_ref_spec x y : reflect (x = y) (eq_ref x y).
Proof.
  destruct x as [a|], y as [b|]; simpl; try (constructor; congruence).
  destruct (Nat.eqb_spec a b); constructor; congruence.
Qed.
Lemma eq_ref_refl x : eq_ref x x = true.
Proof. destruct (eq_ref_spec x x); congruence. Qed.
Lemma inb_spec x l : reflect (In x l) (inb x l).
Proof.
  unfold inb. destruct (existsb (Nat.eqb x) l) eqn:E; constructor.
  - apply existsb_exists in E. destruct E as (y & H & E). apply Nat.eqb_eq in E. now subst.
  - intros H. enough (existsb (Nat.eqb x) l = true) by congruence.
    apply existsb_exists. exists x. split; auto. apply Nat.eqb_refl.
Qed.


Section Machine.
Context {V : Type} (Y : system V).
Local Open Scope ev_scope.
Notation St := (astate V).

Definition w_st (f : nat -> status) (t : St) : St :=
  mkAstate f (a_val t) (a_cyc t) (a_mem t) (a_mod t) (a_merged t) (a_pend t).
Definition w_val (f : nat -> V) (t : St) : St :=
  mkAstate (a_st t) f (a_cyc t) (a_mem t) (a_mod t) (a_merged t) (a_pend t).
Definition w_mod (f : nat -> bool) (t : St) : St :=
  mkAstate (a_st t) (a_val t) (a_cyc t) (a_mem t) f (a_merged t) (a_pend t).
Definition w_pend (l : list nat) (t : St) : St :=
  mkAstate (a_st t) (a_val t) (a_cyc t) (a_mem t) (a_mod t) (a_merged t) l.

Definition set_st (a : nat) (x : status) (t : St) : St := w_st (set_fun (a_st t) a x) t.
Definition set_val (a : nat) (v : V) (t : St) : St := w_val (set_fun (a_val t) a v) t.
Definition set_mod (a : nat) (b : bool) (t : St) : St := w_mod (set_fun (a_mod t) a b) t.

(** A new cycle with root [b]. *)
Definition new_cycle (b : nat) (t : St) : St :=
  mkAstate (a_st t) (set_fun (a_val t) b (s_default Y b)) (set_fun (a_cyc t) b (Some b))
           (set_fun (a_mem t) b [b]) (set_fun (a_mod t) b false) (a_merged t) (a_pend t).

(** [e], which is in no cycle, joins that of [l]. *)
Definition join (e l : nat) (t : St) : St :=
  mkAstate (a_st t) (a_val t) (set_fun (a_cyc t) e (Some l))
           (set_fun (a_mem t) l (a_mem t l ++ [e])) (a_mod t) (a_merged t) (a_pend t).

(** The cycle of [p] is merged with that of [l]. *)
Definition merge (p l : nat) (t : St) : St :=
  mkAstate (a_st t) (a_val t)
           (fun x => if inb x (a_mem t p) then Some l else a_cyc t x)
           (set_fun (a_mem t) l (a_mem t l ++ a_mem t p))
           (set_fun (a_mod t) l (if a_mod t p then true else a_mod t l)) true (a_pend t).

Definition a_push (a : nat) : M St unit := put_st (fun t => w_pend (a :: a_pend t) t).
Definition a_pop : M St unit :=
  fun t => match a_pend t with [] => Crash t | _ :: r => Done tt (w_pend r t) end.

Definition a_join (e l : nat) : M St unit :=
  if s_circular Y e then
    c <- get_st (fun t => a_cyc t e) ;;
    match c with
    | None => put_st (join e l)
    | Some p => put_st (merge p l)
    end
  else throw Cyclic.

Fixpoint a_mark (cycle : nat) (l : list nat) : M St unit :=
  match l with
  | [] => ret tt
  | e :: l' =>
    c <- get_st (fun t => a_cyc t e) ;;
    if eq_ref c (Some cycle) then ret tt else
    a_join e cycle ;;;
    a_mark cycle l'
  end.

Definition a_mark_pending (a : nat) : M St unit :=
  c <- get_st (fun t => a_cyc t a) ;;
  match c with
  | None => crash
  | Some c => l <- get_st a_pend ;; a_mark c l
  end.

Definition a_detected (a : nat) : M St V :=
  if s_circular Y a then
    c <- get_st (fun t => a_cyc t a) ;;
    (match c with None => put_st (new_cycle a) | Some _ => ret tt end) ;;;
    a_mark_pending a ;;;
    get_st (fun t => a_val t a)
  else throw Cyclic.

Definition a_check (c : nat) (v : V) : M St unit :=
  old <- get_st (fun t => a_val t c) ;;
  if s_equal Y c old v then ret tt else
  l <- get_st (fun t => a_cyc t c) ;;
  match l with
  | None => crash
  | Some l =>
    put_st (set_mod l true) ;;;
    if s_compare Y c old v then ret tt else throw NonMonotonic
  end.

Definition a_recompute (g : nat -> M St V) (c : nat) : M St unit :=
  v <- run g (s_compute Y c) ;;
  a_check c v ;;;
  put_st (set_val c v).

(** The pass of root [a] from the member with index [i]. *)
Fixpoint a_pass (n : nat) (g : nat -> M St V) (a i : nat) : M St bool :=
  match n with
  | O => nofuel
  | S n' =>
    c <- get_st (fun t => nth_error (a_mem t a) i) ;;
    match c with
    | None => crash
    | Some c =>
      a_push c ;;;
      a_recompute g c ;;;
      a_pop ;;;
      l <- get_st (fun t => a_cyc t a) ;;
      if negb (eq_ref l (Some a)) then ret true else
      nx <- get_st (fun t => nth_error (a_mem t a) (S i)) ;;
      match nx with
      | None => ret false
      | Some _ => a_pass n' g a (S i)
      end
    end
  end.

Definition freeze_mem (a : nat) (t : St) : St :=
  w_st (fun x => if inb x (a_mem t a) then EVALUATED else a_st t x) t.

Fixpoint a_passes (n : nat) (m : nat) (g : nat -> M St V) (a : nat) : M St unit :=
  match n with
  | O => nofuel
  | S n' =>
    put_st (set_mod a false) ;;;
    early <- a_pass m g a 0 ;;
    if early : bool then ret tt else
    b <- get_st (fun t => a_mod t a) ;;
    if b : bool then a_passes n' m g a else put_st (freeze_mem a)
  end.

Definition a_evaluate (n : nat) (g : nat -> M St V) (a : nat) : M St unit :=
  if s_circular Y a then
    c <- get_st (fun t => a_cyc t a) ;;
    if eq_ref c (Some a) then a_passes n n g a else ret tt
  else throw Cyclic.

Definition a_initialize (a : nat) : M St unit :=
  match s_initial Y a with
  | None => ret tt
  | Some v =>
    st <- get_st (fun t => a_st t a) ;;
    match st with
    | UNINITIALIZED => put_st (set_st a UNEVALUATED) ;;; put_st (set_val a v)
    | _ => ret tt
    end
  end.

Fixpoint a_get (n : nat) (a : nat) : M St V :=
  match n with
  | O => nofuel
  | S n' =>
    a_initialize a ;;;
    st <- get_st (fun t => a_st t a) ;;
    match st with
    | CYCLE => a_detected a
    | UNINITIALIZED | UNEVALUATED =>
      put_st (set_st a CYCLE) ;;;
      a_push a ;;;
      v <- run (a_get n') (s_compute Y a) ;;
      put_st (set_val a v) ;;;
      a_pop ;;;
      c <- get_st (fun t => a_cyc t a) ;;
      (match c with
       | Some _ => a_evaluate n' (a_get n') a
       | None => put_st (set_st a EVALUATED)
       end) ;;;
      get_st (fun t => a_val t a)
    | EVALUATED | ASSIGNED => get_st (fun t => a_val t a)
    end
  end.

Definition a_set_plain (a : nat) (v : V) : M St unit :=
  st <- get_st (fun t => a_st t a) ;;
  match st with
  | EVALUATED => throw TooLate
  | _ => put_st (set_val a v) ;;; put_st (set_st a ASSIGNED)
  end.

Definition a_set_circular (a : nat) (v : V) : M St unit :=
  (if s_circular Y a then a_check a v else ret tt) ;;;
  a_set_plain a v.

Definition a_set (a : nat) (v : V) : M St unit :=
  match s_initial Y a with
  | None => a_set_circular a v
  | Some _ =>
    a_initialize a ;;;
    old <- get_st (fun t => a_val t a) ;;
    a_set_circular a (s_combine Y a old v)
  end.

Definition a_start : St :=
  mkAstate (fun _ => UNINITIALIZED) (fun _ => s_null Y) (fun _ => None) (fun _ => [])
           (fun _ => false) false [].

End Machine.
