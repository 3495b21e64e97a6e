(** * Base: outcome monad and C-array helpers shared by all models.

    No code of /repo is modelled here.  [res] is the outcome of a C call:
    - [Ok v]  : normal return;
    - [Exit]  : the code deliberately stops ([exit(1)], [fatal_error], or a C++
                exception when a file says so);
    - [UB]    : undefined behaviour (out-of-bounds access, use of uninitialised
                or freed memory, signed overflow, division by zero, ...);
    - [Fuel]  : the model's explicit recursion budget was exhausted.  It is not
                an outcome of the code; theorems exclude it explicitly. *)
From Coq Require Export List Arith ZArith Lia Bool.
Export ListNotations.

Inductive res (A : Type) : Type :=
| Ok (a : A)
| Exit
| UB
| Fuel.
Arguments Ok {A} _.
Arguments Exit {A}.
Arguments UB {A}.
Arguments Fuel {A}.

Definition bind {A B} (r : res A) (f : A -> res B) : res B :=
  match r with Ok a => f a | Exit => Exit | UB => UB | Fuel => Fuel end.

Declare Scope res_scope.
Delimit Scope res_scope with res.
Notation "x <- e1 ;; e2" := (bind e1 (fun x => e2))
  (at level 61, e1 at next level, right associativity) : res_scope.
Notation "' p <- e1 ;; e2" := (bind e1 (fun p => e2))
  (at level 61, p pattern, e1 at next level, right associativity) : res_scope.
Open Scope res_scope.

Lemma bind_Ok {A B} (r : res A) (f : A -> res B) b :
  bind r f = Ok b -> exists a, r = Ok a /\ f a = Ok b.
Proof. destruct r; simpl; intros H; try discriminate; eauto. Qed.

(** C arrays as lists: [rd a i] reads [a[i]], out of bounds is UB;
    [wr a i x] writes. *)
Fixpoint upd {A} (l : list A) (i : nat) (x : A) : list A :=
  match l, i with
  | [], _ => []
  | _ :: t, O => x :: t
  | h :: t, S i' => h :: upd t i' x
  end.

Definition rd {A} (l : list A) (i : nat) : res A :=
  match nth_error l i with Some x => Ok x | None => UB end.

Definition wr {A} (l : list A) (i : nat) (x : A) : res (list A) :=
  if i <? length l then Ok (upd l i x) else UB.

Lemma upd_length {A} (l : list A) i x : length (upd l i x) = length l.
Proof. revert i; induction l as [|h t IH]; intros [|i]; simpl; auto. Qed.

Lemma nth_error_upd_eq {A} (l : list A) i x :
  i < length l -> nth_error (upd l i x) i = Some x.
Proof.
  revert i; induction l as [|h t IH]; intros [|i]; simpl; intros H; try lia; auto.
  apply IH; lia.
Qed.

Lemma nth_error_upd_neq {A} (l : list A) i j x :
  i <> j -> nth_error (upd l i x) j = nth_error l j.
Proof.
  revert i j; induction l as [|h t IH]; intros [|i] [|j]; simpl; intros H; auto; try lia.
Qed.

Lemma nth_error_upd {A} (l : list A) i j x :
  nth_error (upd l i x) j =
  if Nat.eqb i j then (if j <? length l then Some x else None) else nth_error l j.
Proof.
  destruct (Nat.eqb_spec i j) as [->|Hn].
  - destruct (Nat.ltb_spec j (length l)).
    + now apply nth_error_upd_eq.
    + apply nth_error_None. rewrite upd_length. lia.
  - now apply nth_error_upd_neq.
Qed.

Lemma upd_out {A} (l : list A) i x : length l <= i -> upd l i x = l.
Proof.
  revert i; induction l as [|h t IH]; intros [|i]; simpl; intros H; auto; try lia.
  f_equal. apply IH. lia.
Qed.

Lemma rd_Ok {A} (l : list A) i x : rd l i = Ok x <-> nth_error l i = Some x.
Proof. unfold rd. destruct (nth_error l i); split; intros H; inversion H; auto. Qed.

Lemma rd_inb {A} (l : list A) i : i < length l -> exists x, rd l i = Ok x.
Proof.
  intros H. unfold rd. destruct (nth_error l i) eqn:E; eauto.
  apply nth_error_None in E. lia.
Qed.

Lemma wr_Ok {A} (l : list A) i x : i < length l -> wr l i x = Ok (upd l i x).
Proof. intros H. unfold wr. apply Nat.ltb_lt in H. now rewrite H. Qed.

Lemma nth_error_ext {A} (l1 l2 : list A) :
  (forall i, nth_error l1 i = nth_error l2 i) -> l1 = l2.
Proof.
  revert l2; induction l1 as [|a t IH]; intros [|b t2] H; auto.
  - specialize (H 0); discriminate.
  - specialize (H 0); discriminate.
  - f_equal; [specialize (H 0); simpl in H; congruence | apply IH; intros i; apply (H (S i))].
Qed.

Lemma nth_error_repeat {A} (x : A) n i :
  nth_error (repeat x n) i = if i <? n then Some x else None.
Proof.
  revert i; induction n as [|n IH]; intros [|i]; simpl; auto.
  rewrite IH. destruct (Nat.ltb_spec i n), (Nat.ltb_spec (S i) (S n)); auto; lia.
Qed.

(** A C [for] loop over the elements of [l] with loop-carried state. *)
Fixpoint foldM {A B} (f : B -> A -> res B) (l : list A) (b : B) : res B :=
  match l with
  | [] => Ok b
  | a :: l => b' <- f b a ;; foldM f l b'
  end.

(** Loop rule: [I done b] relates the elements already processed to the state. *)
Lemma foldM_inv {A B} (f : B -> A -> res B) (l : list A) (I : list A -> B -> Prop) b :
  I [] b ->
  (forall done x rest b, l = done ++ x :: rest -> I done b -> exists b', f b x = Ok b' /\ I (done ++ [x]) b') ->
  exists b', foldM f l b = Ok b' /\ I l b'.
Proof.
  intros H0 Hs.
  assert (G : forall rest done b, l = done ++ rest -> I done b -> exists b', foldM f rest b = Ok b' /\ I l b').
  { induction rest as [|x rest IH]; intros done b1 E Hi; cbn [foldM].
    - exists b1. rewrite app_nil_r in E. subst; auto.
    - destruct (Hs done x rest b1 E Hi) as (b2 & E2 & H2). rewrite E2. cbn [bind].
      apply (IH (done ++ [x])); auto. rewrite <- app_assoc. auto. }
  apply (G l [] b); auto.
Qed.

Lemma foldM_app {A B} (f : B -> A -> res B) l1 l2 b :
  foldM f (l1 ++ l2) b = b' <- foldM f l1 b ;; foldM f l2 b'.
Proof. revert b; induction l1 as [|x l1 IH]; intros b; cbn [foldM app bind]; auto. destruct (f b x); cbn [bind]; auto. Qed.

Ltac ands := repeat match goal with |- _ /\ _ => split end.

Global Arguments Z.add : simpl never.
Global Arguments Z.sub : simpl never.
Global Arguments Z.mul : simpl never.
