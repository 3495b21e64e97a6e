(** * AlistModel: /repo/analyze/alist.c and /repo/analyze/table.c.

    Pointers are numbers, NULL is 0.  Alist nodes live in an append-only heap
    (HALLOC, C31): address p >= 1 is index p-1. *)
From Verif Require Import Base.

Definition word := nat.                                   (** void* *)
Record anode := mkNode { a_next : word; a_key : word; a_value : word }.   (** alist.c:5-8 *)
(** All alist nodes, and the tables (table.c:8-10): the alist pointer of each. *)
Record tstate := mkT { nodes : list anode; tables : list word }.
Definition tstate0 : tstate := mkT [] [].
Definition node (h : list anode) (p : word) : res anode := match p with 0 => UB | S i => rd h i end.

(** alist.c:10-16 [acons] *)
Definition acons (h : list anode) (key value rest : word) : list anode * word :=
  (h ++ [mkNode rest key value], S (length h)).
(** alist.c:18-24 [assoc]; fuel bounds the length of the list *)
Fixpoint assoc (fuel : nat) (h : list anode) (key a : word) : res word :=
  match a with
  | 0 => Ok 0
  | _ => match fuel with
         | O => Fuel
         | S f => n <- node h a ;; if a_key n =? key then Ok (a_value n) else assoc f h key (a_next n)
         end
  end.
(** alist.c:26-32 [rassoc] *)
Fixpoint rassoc (fuel : nat) (h : list anode) (value a : word) : res word :=
  match a with
  | 0 => Ok 0
  | _ => match fuel with
         | O => Fuel
         | S f => n <- node h a ;; if a_value n =? value then Ok (a_key n) else rassoc f h value (a_next n)
         end
  end.
(** alist.c:34-43 [setassoc]: the heap after, and whether it returned OK *)
Fixpoint setassoc (fuel : nat) (h : list anode) (key value a : word) : res (list anode * bool) :=
  match a with
  | 0 => Ok (h, false)
  | S i => match fuel with
           | O => Fuel
           | S f =>
             n <- node h a ;;
             if a_key n =? key then h <- wr h i (mkNode (a_next n) (a_key n) value) ;; Ok (h, true)
             else setassoc f h key value (a_next n)
           end
  end.
Definition fuel_of (s : tstate) : nat := S (length (nodes s)).

(** table.c:12-16 [new_table]: the new table is the last one *)
Definition new_table (s : tstate) : tstate := mkT (nodes s) (tables s ++ [0]).
(** table.c:18-23 [get], [table_get] *)
Definition table_get (s : tstate) (t key : word) : res word :=
  a <- rd (tables s) t ;; assoc (fuel_of s) (nodes s) key a.
(** table.c:25-32 [set], [table_set] *)
Definition table_set (s : tstate) (t key value : word) : res tstate :=
  a <- rd (tables s) t ;;
  '(h, ok) <- setassoc (fuel_of s) (nodes s) key value a ;;
  if ok : bool then Ok (mkT h (tables s))
  else let '(h, a) := acons h key value a in ts <- wr (tables s) t a ;; Ok (mkT h ts).
(** [rassoc] of a table's list *)
Definition table_rassoc (s : tstate) (t value : word) : res word :=
  a <- rd (tables s) t ;; rassoc (fuel_of s) (nodes s) value a.

(** Programs: any interleaving of calls on any number of tables. *)
Inductive top := NewTable | Set_ (t key value : word) | Get (t key : word) | Rassoc (t value : word).
Definition tstep (s : tstate) (o : top) : res (tstate * word) :=
  match o with
  | NewTable => Ok (new_table s, 0)
  | Set_ t k v => s' <- table_set s t k v ;; Ok (s', 0)
  | Get t k => v <- table_get s t k ;; Ok (s, v)
  | Rassoc t v => k <- table_rassoc s t v ;; Ok (s, k)
  end.
(** The calls' answers, in order. *)
Fixpoint trun (s : tstate) (ops : list top) : res (tstate * list word) :=
  match ops with
  | [] => Ok (s, [])
  | o :: ops => '(s1, a) <- tstep s o ;; '(s2, l) <- trun s1 ops ;; Ok (s2, a :: l)
  end.
