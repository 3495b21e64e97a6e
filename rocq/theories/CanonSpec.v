(** * CanonSpec: what canonical types and signatures stand for. *)
From Verif Require Import Base HashConsModel CanonModel.
Open Scope Z_scope.

(** Types as terms *)
Inductive ctype := TUse (decl : Z) | TQual (from : ctype) (decl : Z) | TFunc (params : list ctype) (ret : ctype).
Record csig := mkCsig { t_input : bool; t_var : bool; t_class : Z; t_actuals : list ctype }.

(** The terms that a history constructs: those of the earlier results are given. *)
Definition term_of (ts : list ctype) (o : canon_op) : option ctype :=
  match o with
  | OUse d => Some (TUse d)
  | OQual i d => Some (TQual (nth i ts (TUse 0)) d)
  | OFunc is r => Some (TFunc (map (fun i => nth i ts (TUse 0)) is) (nth r ts (TUse 0)))
  | OSig _ _ _ _ => None
  end.
Definition sig_of (ts : list ctype) (o : canon_op) : option csig :=
  match o with OSig inp var cls is => Some (mkCsig inp var cls (map (fun i => nth i ts (TUse 0)) is)) | _ => None end.
Definition add {A} (l : list A) (x : option A) : list A := match x with Some a => l ++ [a] | None => l end.
Definition terms_step (d : list ctype * list csig) (o : canon_op) : list ctype * list csig := (add (fst d) (term_of (fst d) o), add (snd d) (sig_of (fst d) o)).
Definition terms (ops : list canon_op) : list ctype * list csig := fold_left terms_step ops ([], []).
(** Arguments exist already. *)
Fixpoint canon_wf (n : nat) (ops : list canon_op) : Prop :=
  match ops with
  | [] => True
  | OUse d :: ops => canon_wf (S n) ops
  | OQual i d :: ops => (i < n)%nat /\ canon_wf (S n) ops
  | OFunc is r :: ops => (forall i, In i is -> (i < n)%nat) /\ (r < n)%nat /\ canon_wf (S n) ops
  | OSig _ _ _ is :: ops => (forall i, In i is -> (i < n)%nat) /\ canon_wf n ops
  end.
(** The hash of a term; UB if a long overflows. *)
Fixpoint term_hash (t : ctype) : res Z :=
  match t with
  | TUse d => hash_mix 1 (to_long d)
  | TQual t d => s <- term_hash t ;; a <- hash_mix (to_long d) s ;; hash_mix 2 a
  | TFunc ts t =>
    ph <- (fix params l h := match l with [] => Ok h | t :: l => v <- term_hash t ;; h' <- hash_mix h v ;; params l h' end) ts 0 ;;
    r <- term_hash t ;; a <- hash_mix ph r ;; b <- hash_mix (Z.of_nat (length ts)) a ;; hash_mix 0 b
  end.
Definition csig_hash (s : csig) : res Z :=
  t <- foldM (fun h t => v <- term_hash t ;; hash_mix h v) (t_actuals s) 17 ;;
  a <- hash_mix (to_long (t_class s)) t ;; b <- hash_mix (bool_int (t_var s)) a ;; hash_mix (bool_int (t_input s)) b.
Definition no_overflow (r : res Z) : Prop := exists v, r = Ok v.

(** What is stored behind a pointer. *)
Inductive unfolds (o : theap) : nat -> ctype -> Prop :=
| U_use p d : deref o p = Ok (SUse d) -> unfolds o p (TUse d)
| U_qual p d s t : deref o p = Ok (SQual d s) -> unfolds o s t -> unfolds o p (TQual t d)
| U_func p ps r ts t : deref o p = Ok (SFunc ps r) -> Forall2 (unfolds o) ps ts -> unfolds o r t -> unfolds o p (TFunc ts t).
Definition sig_unfolds (o : theap) (hs : list sig) (p : nat) (s : csig) : Prop :=
  exists y, deref hs p = Ok y /\ is_input y = t_input s /\ is_var y = t_var s /\ source_class y = t_class s /\ Forall2 (unfolds o) (actuals y) (t_actuals s).

(** ** Order *)
(** Forget declarations, keep their line numbers. *)
Fixpoint at_lines (line : Z -> Z) (t : ctype) : ctype :=
  match t with
  | TUse d => TUse (line d)
  | TQual t d => TQual (at_lines line t) (line d)
  | TFunc ts r => TFunc (map (at_lines line) ts) (at_lines line r)
  end.
Definition sig_at_lines (line : Z -> Z) (s : csig) : csig := mkCsig (t_input s) (t_var s) (line (t_class s)) (map (at_lines line) (t_actuals s)).
(** Types in Polish notation: functions before uses before qualified types *)
Fixpoint polish (t : ctype) : list Z :=
  match t with
  | TUse d => [1; d]
  | TQual t d => 2 :: d :: polish t
  | TFunc ts r => 0 :: Z.of_nat (length ts) :: polish r ++ concat (map polish ts)
  end.
Definition sig_polish (s : csig) : list Z :=
  bool_int (t_input s) :: bool_int (t_var s) :: t_class s :: Z.of_nat (length (t_actuals s)) :: concat (map polish (t_actuals s)).
(** Lexicographic comparison *)
Fixpoint lex (a b : list Z) : Z :=
  match a, b with
  | [], [] => 0
  | [], _ :: _ => -1
  | _ :: _, [] => 1
  | x :: a, y :: b => if x <? y then -1 else if y <? x then 1 else lex a b
  end.
