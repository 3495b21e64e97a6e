(** * RopeModel: /repo/parse/string.c.

    Strings are addresses of objects: character arrays, or the three kinds of
    "special string" structures.  Objects live in an append-only heap (HALLOC,
    C31); address 0 is NULL.  Character arrays are lists of nonzero bytes (a C
    string up to its NUL) and are never written by this file.
    [dump_string] (debugging output) is not modelled. *)
From Verif Require Import Base.
Open Scope Z_scope.

Definition byte := Z.
Definition cstr := list byte.
Definition CONSTANT_STRING : byte := 171.      (** string.c:29: 128+'+' *)
Definition CONC_STRING : byte := 169.          (** string.c:37 *)
Definition INTEGER_STRING : byte := 165.       (** string.c:44 *)

(** string.c:16-49: the objects. [IntObj type base integer]: its type byte is
    whatever make_integer_string stored. *)
Inductive obj :=
| Chars (s : cstr)
| Constant (value : nat)                 (** value: address of a Chars *)
| Conc (str1 str2 : nat)
| IntObj (type : byte) (special : byte) (integer : Z).
Definition heap := list obj.             (** address p >= 1 is index p-1 *)
Definition load (h : heap) (p : nat) : res obj := match p with O => UB | S i => rd h i end.
Definition new (h : heap) (o : obj) : heap * nat := (h ++ [o], S (length h)).

(** [str->type]: the first byte of the object; an empty array starts with NUL. *)
Definition type_of (h : heap) (p : nat) : res byte :=
  o <- load h p ;;
  Ok (match o with
      | Chars s => hd 0 s
      | Constant _ => CONSTANT_STRING
      | Conc _ _ => CONC_STRING
      | IntObj t _ _ => t
      end).
(** reading a [char*] as a C string *)
Definition chars (h : heap) (p : nat) : res cstr :=
  o <- load h p ;; match o with Chars s => Ok s | _ => UB end.
(** [((struct constant_string* )p)->value]: an integer_string is 8 bytes long
    while [value] is at offset 8, so for it the read is out of bounds. *)
Definition constant_value (h : heap) (p : nat) : res cstr :=
  o <- load h p ;; match o with Constant v => chars h v | _ => UB end.

Section Rope.
Variable char_signed : bool.             (** is plain char signed (x86: yes) *)
(** string.c:83: [(unsigned int)*s > 128] for a byte 0..255. *)
Definition high (b : byte) : bool := if char_signed then (b >=? 128) else (b >? 128).

(** the literal "<null>" *)
Definition null_text : cstr := [60; 110; 117; 108; 108; 62].
(** string.c:57-58: the global strings; [empty_string] etc. are addresses. *)
Definition heap0 : heap := [Chars []; Constant 1; Chars [83; 84; 82; 73; 78; 71; 45; 69; 82; 82; 79; 82]; Constant 3; Chars null_text].
Definition empty_string : nat := 2.
Definition error_string : nat := 4.
Definition null_literal : nat := 5.

(** string.c:71-79 [force_make_string] *)
Definition force_make_string (h : heap) (s : nat) : heap * nat :=
  new h (Constant (if (s =? 0)%nat then null_literal else s)).
(** string.c:81-88 [make_string] *)
Definition make_string (h : heap) (s : nat) : res (heap * nat) :=
  if (s =? 0)%nat then Ok (h, null_literal)
  else
    l <- chars h s ;;
    if high (hd 0 l) then Ok (force_make_string h s) else Ok (h, s).
(** string.c:90-92 [make_saved_string] *)
Definition make_saved_string (h : heap) (s : nat) : res (heap * nat) :=
  l <- chars h s ;;
  let '(h, p) := new h (Chars l) in make_string h p.
(** string.c:107-122 [make_integer_string]: stores the type CONSTANT_STRING. *)
Definition make_integer_string (h : heap) (n base : Z) : heap * nat :=
  if (2 <=? base) && (base <=? 36) then new h (IntObj CONSTANT_STRING base n) else (h, error_string).

(** string.c:124-133 [AUDIT_STRING] *)
Definition audit (h : heap) (p : nat) : res bool :=
  match p with
  | O => Ok false
  | _ => t <- type_of h p ;; Ok ((t <? 128) || (t =? CONSTANT_STRING) || (t =? INTEGER_STRING) || (t =? CONC_STRING))
  end.
(** string.c:135-150 [conc_string] *)
Definition conc_string (h : heap) (s1 s2 : nat) : res (heap * nat) :=
  a1 <- audit h s1 ;; if negb a1 then Ok (h, error_string) else
  a2 <- audit h s2 ;; if negb a2 then Ok (h, error_string) else
  t1 <- type_of h s1 ;; if t1 =? 0 then Ok (h, s2) else
  t2 <- type_of h s2 ;; if t2 =? 0 then Ok (h, s1) else
  Ok (new h (Conc s1 s2)).

(** string.c:94-105 [digits]; C int arithmetic, negating INT_MIN is undefined. *)
Definition INT_MAX : Z := 2147483647.
Fixpoint digits_loop (fuel : nat) (n base acc : Z) : res Z :=
  match fuel with
  | O => Fuel
  | S fuel => if n >? 0 then digits_loop fuel (Z.quot n base) base (acc + 1) else Ok acc
  end.
Definition digits (n base : Z) : res Z :=
  if n <? 0 then (if - n >? INT_MAX then UB else digits_loop 64 (- n) base 1) else digits_loop 64 n base 0.

(** int addition *)
Definition add_int (a b : Z) : res Z := if a + b >? INT_MAX then UB else Ok (a + b).
(** [strlen] converted to int: implementation-defined when too long; treated as undefined. *)
Definition strlen (s : cstr) : res Z := add_int (Z.of_nat (length s)) 0.
(** string.c:152-170 [string_length]; fuel bounds the recursion depth. *)
Fixpoint string_length (fuel : nat) (h : heap) (p : nat) : res Z :=
  match fuel with
  | O => Fuel
  | S fuel =>
    a <- audit h p ;; if negb a then Ok 0 else
    t <- type_of h p ;;
    if t <? 128 then s <- chars h p ;; strlen s
    else if t =? CONSTANT_STRING then s <- constant_value h p ;; strlen s
    else if t =? INTEGER_STRING then
      o <- load h p ;; match o with IntObj _ b n => digits n b | _ => UB end
    else if t =? CONC_STRING then
      o <- load h p ;;
      match o with
      | Conc s1 s2 => a <- string_length fuel h s1 ;; b <- string_length fuel h s2 ;; add_int a b
      | _ => UB
      end
    else Exit
  end.

(** A caller's character buffer; writing outside it is undefined. *)
Definition buffer := list byte.
(** [strcpy(s,...)] to offset [pos], terminator included *)
Fixpoint store (b : buffer) (pos : nat) (l : cstr) : res buffer :=
  match l with
  | [] => Ok b
  | c :: l => b <- wr b pos c ;; store b (S pos) l
  end.
Definition strcpy (b : buffer) (pos : nat) (l : cstr) : res buffer := store b pos (l ++ [0]).
(** string.c:185-206 [realize_integer_string] *)
Fixpoint int_loop (fuel : nat) (n base : Z) (b : buffer) (pos : nat) : res (buffer * nat) :=
  match fuel with
  | O => Fuel
  | S fuel =>
    if n >? 0 then
      let d := Z.rem n base in
      b <- wr b pos (if d <=? 9 then d + 48 else d + 97) ;;
      int_loop fuel (Z.quot n base) base b (S pos)
    else Ok (b, pos)
  end.
Definition realize_integer (b : buffer) (pos : nat) (base n : Z) : res (buffer * nat) :=
  if n <? 0 then
    b <- wr b pos 45 ;;
    if - n >? INT_MAX then UB else int_loop 64 (- n) base b (S pos)
  else int_loop 64 n base b pos.
(** string.c:172-183, 208-225 [realize_string_aux], [realize_constant_string];
    the offset returned stands for the pointer. *)
Fixpoint realize_aux (fuel : nat) (h : heap) (b : buffer) (pos : nat) (p : nat) : res (buffer * nat) :=
  match fuel with
  | O => Fuel
  | S fuel =>
    t <- type_of h p ;;
    if t <? 128 then s <- chars h p ;; b <- strcpy b pos s ;; Ok (b, (pos + length s)%nat)
    else if t =? CONSTANT_STRING then s <- constant_value h p ;; b <- strcpy b pos s ;; Ok (b, (pos + length s)%nat)
    else if t =? INTEGER_STRING then
      o <- load h p ;; match o with IntObj _ base n => realize_integer b pos base n | _ => UB end
    else if t =? CONC_STRING then
      o <- load h p ;;
      match o with
      | Conc s1 s2 => '(b, pos) <- realize_aux fuel h b pos s1 ;; realize_aux fuel h b pos s2
      | _ => UB
      end
    else Exit
  end.
(** string.c:227-232 [realize_string] *)
Definition realize_string (fuel : nat) (h : heap) (b : buffer) (p : nat) : res buffer :=
  b <- wr b 0 0 ;;
  a <- audit h p ;; if negb a then Ok b else
  '(b, pos) <- realize_aux fuel h b 0 p ;; wr b pos 0.

(** string.c:234-262 [print_string]: the bytes written to the file.  For an
    integer string a temporary of string_length+1 bytes is filled by
    realize_string and printed up to its NUL. *)
Fixpoint until_nul (b : buffer) : cstr :=
  match b with [] => [] | c :: b => if c =? 0 then [] else c :: until_nul b end.
Fixpoint print_aux (fuel : nat) (h : heap) (p : nat) : res cstr :=
  match fuel with
  | O => Fuel
  | S fuel =>
    t <- type_of h p ;;
    if t <? 128 then chars h p
    else if t =? CONSTANT_STRING then constant_value h p
    else if t =? INTEGER_STRING then
      n <- string_length fuel h p ;;
      b <- realize_string fuel h (repeat 0 (Z.to_nat (n + 1))) p ;;
      Ok (until_nul b)
    else if t =? CONC_STRING then
      o <- load h p ;;
      match o with
      | Conc s1 s2 => a <- print_aux fuel h s1 ;; b <- print_aux fuel h s2 ;; Ok (a ++ b)
      | _ => UB
      end
    else Ok []
  end.
Definition print_string (fuel : nat) (h : heap) (p : nat) : res cstr :=
  a <- audit h p ;; if negb a then Ok [] else print_aux fuel h p.

(** string.c:290-295 [make_stub_string] *)
Definition make_stub_string (h : heap) (s : nat) : heap * nat := force_make_string h s.
(** string.c:297-314 [subst_string] *)
Fixpoint subst_string (fuel : nat) (h : heap) (sub stub subject : nat) : res (heap * nat) :=
  match fuel with
  | O => Fuel
  | S fuel =>
    if (subject =? stub)%nat then Ok (h, sub)
    else
      t <- type_of h subject ;;
      if t =? CONC_STRING then
        o <- load h subject ;;
        match o with
        | Conc a b =>
          '(h, s1) <- subst_string fuel h sub stub a ;;
          '(h, s2) <- subst_string fuel h sub stub b ;;
          if (s1 =? a)%nat && (s2 =? b)%nat then Ok (h, subject) else conc_string h s1 s2
        | _ => UB
        end
      else Ok (h, subject)
  end.
(** string.c:316-322 [substitute_string] *)
Definition substitute_string (fuel : nat) (h : heap) (sub stub subject : nat) : res (heap * nat) :=
  a <- audit h sub ;; if negb a then Ok (h, error_string) else
  a <- audit h stub ;; if negb a then Ok (h, error_string) else
  a <- audit h subject ;; if negb a then Ok (h, error_string) else
  subst_string fuel h sub stub subject.
End Rope.
