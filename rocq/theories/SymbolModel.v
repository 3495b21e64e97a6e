(** * SymbolModel: /repo/parse/symbol.c.

    A C string is its list of (nonzero) bytes; [streq] (jbb.h:30) is equality of
    C strings and [strsave] (jbb.h:36) copies one, so names are values.  A SYMBOL is
    an address.  The per-symbol [info] is not modelled beyond its size. *)
From Verif Require Import Base.
Open Scope Z_scope.

Definition bytes := list nat.
Definition beq (s t : bytes) : bool := if list_eq_dec Nat.eq_dec s t then true else false.
Definition MAX_SYMBOL : nat := Z.to_nat 4000.         (** symbol.c:19 *)

(** symbol.c:21-24, 84-85: the globals; [names] lists the names of symbols
    0..num_symbols-1, [unique] is gensym's static counter. *)
Record symtab := mkSymtab { initialised : bool; names : list bytes; unique : Z }.
Definition symtab0 : symtab := mkSymtab false [] 0.

Section Symbol.
Variables symbols symbol_size : Z.         (** calloc's result and symbol.c:28, both positive *)
(** symbol.c:23 [&SYMBOL_NUM(i)] *)
Definition SYMBOL_NUM (i : Z) : Z := symbols + i * symbol_size.

(** symbol.c:26-31 [init_symbols] *)
Definition init_symbols (t : symtab) : symtab := mkSymtab true (names t) (unique t).
(** symbol.c:33-39 [find_symbol]; NULL is 0. *)
Fixpoint find_loop (i : Z) (l : list bytes) (s : bytes) : Z :=
  match l with
  | [] => 0
  | n :: l => if beq n s then SYMBOL_NUM i else find_loop (i + 1) l s
  end.
Definition find_symbol (t : symtab) (s : bytes) : Z := find_loop 0 (names t) s.
(** symbol.c:41-56 [add_symbol]; before init_symbols it writes through NULL. *)
Definition add_symbol (t : symtab) (s : bytes) : res (symtab * Z) :=
  if (length (names t) =? MAX_SYMBOL)%nat then Exit
  else if initialised t then
    Ok (mkSymtab true (names t ++ [s]) (unique t), SYMBOL_NUM (Z.of_nat (length (names t))))
  else UB.
(** symbol.c:58-65 [intern_symbol] *)
Definition intern_symbol (t : symtab) (s : bytes) : res (symtab * Z) :=
  let sym := find_symbol t s in
  if sym =? 0 then add_symbol t s else Ok (t, sym).
(** symbol.c:71-77 [symbol_id], [id_symbol] *)
Definition symbol_id (s : Z) : Z := Z.quot (s - symbols) symbol_size.
Definition id_symbol (i : Z) : Z := SYMBOL_NUM i.
(** symbol.c:67-69 [symbol_name]: only the slots of the table hold names
    (a fresh slot is zeroed: NULL; outside the array it is undefined). *)
Definition symbol_name (t : symtab) (s : Z) : res bytes :=
  if initialised t && (Z.rem (s - symbols) symbol_size =? 0) && (symbols <=? s) then rd (names t) (Z.to_nat (symbol_id s)) else UB.

(** sprintf "%06d" of a positive int: at least six digits, as bytes. *)
Fixpoint decimal (fuel : nat) (n : Z) : bytes :=
  match fuel with
  | O => []
  | S f => (if n <? 10 then [] else decimal f (n / 10)) ++ [Z.to_nat (48 + n mod 10)]
  end.
Definition pad6 (s : bytes) : bytes := repeat 48%nat (6 - length s) ++ s.
(** "G%06d": 'G' is 71.  Ten digits suffice for an int. *)
Definition gname (n : Z) : bytes := 71%nat :: pad6 (decimal 10 n).
(** symbol.c:83-90 [gensym]: [name] is 10 bytes; a longer result overruns it.
    ++unique overflowing int is undefined. *)
Fixpoint gensym (fuel : nat) (t : symtab) : res (symtab * Z) :=
  match fuel with
  | O => Fuel
  | S fuel =>
    let u := unique t + 1 in
    if u >? 2147483647 then UB
    else
      let t := mkSymtab (initialised t) (names t) u in
      if (10 <? length (gname u) + 1)%nat then UB
      else if negb (find_symbol t (gname u) =? 0) then gensym fuel t
      else add_symbol t (gname u)
  end.

Inductive sop := Init | Intern (s : bytes) | Find (s : bytes) | Gensym.
(** One call; answers are the symbols returned.  Gensym's loop is given one more
    round than there can be symbols. *)
Definition sstep (t : symtab) (o : sop) : res (symtab * Z) :=
  match o with
  | Init => Ok (init_symbols t, 0)
  | Intern s => intern_symbol t s
  | Find s => Ok (t, find_symbol t s)
  | Gensym => gensym (S MAX_SYMBOL) t
  end.
Fixpoint srun (t : symtab) (ops : list sop) : res (symtab * list Z) :=
  match ops with
  | [] => Ok (t, [])
  | o :: ops => '(t, a) <- sstep t o ;; '(t, l) <- srun t ops ;; Ok (t, a :: l)
  end.
End Symbol.
