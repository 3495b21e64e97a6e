(** * What the scanner should do.

    The lexical structure of APS, said without regular expressions, and what
    regular expressions denote. *)

Require Import List Arith Lia Bool Ascii String.
Import ListNotations.
Require Import Verif.LxModel.
Local Open Scope list_scope.

(** ** Regular expressions *)
Inductive L : re -> text -> Prop :=
| L_eps : L REps nil
| L_chr : forall k c, inC k c = true -> L (RChr k) [c]
| L_seq : forall a b u v, L a u -> L b v -> L (RSeq a b) (u ++ v)
| L_left : forall a b u, L a u -> L (RAlt a b) u
| L_right : forall a b u, L b u -> L (RAlt a b) u
| L_star0 : forall a, L (RStar a) nil
| L_star1 : forall a u v, L a u -> L (RStar a) v -> L (RStar a) (u ++ v).

(** Rule number [i] matches [u]. *)
Definition matched (i : nat) (u : text) : Prop :=
  i < List.length rules /\ L (fst (nth i rules (RNone, 0))) u.

(** The rule of flex: the longest match, and of several rules that match it
    the first. *)
Definition flex_choice (w : text) (n i : nat) : Prop :=
  n <= List.length w /\ matched i (firstn n w) /\
  (forall j, matched j (firstn n w) -> i <= j) /\
  (forall m j, n < m <= List.length w -> ~ matched j (firstn m w)).

(** ** The words of the language *)

Definition all (p : ascii -> bool) (s : text) : Prop := forall c, In c s -> p c = true.

Definition opchar (c : ascii) : bool := special c || Ascii.eqb c "-".

(** Operators: made of special characters and hyphens, not of hyphens only,
    with no two hyphens in a row. *)
Definition operator (s : text) : Prop :=
  all opchar s /\ (exists c, In c s /\ special c = true) /\
  ~ exists a b, s = a ++ "-"%char :: "-"%char :: b.

(** What may be inside a constant delimited by [q]. *)
Inductive inside (q : ascii) : text -> Prop :=
| In_nil : inside q nil
| In_plain : forall c s, c <> nl -> c <> backslash -> c <> q -> inside q s -> inside q (c :: s)
| In_escape : forall c s, inside q s -> inside q (backslash :: c :: s).

(** [Writes t s]: token [t] is written [s]. *)
Inductive Writes : token -> text -> Prop :=
| W_punct : forall c, one_of (chars "[](){}:;.,?!-=$") c = true -> Writes (TPunct c) [c]
| W_arrow : Writes TArrow (chars "->")
| W_coloneq : Writes TColonEq (chars ":=")
| W_colongr : Writes TColonGr (chars ":>")
| W_dotdot : Writes TDotDot (chars "..")
| W_coloncolon : Writes TDoubleColon (chars "::")
| W_dots : Writes TDotDotDot (chars "...")
| W_colons : Writes TTripleColon (chars ":::")
| W_match : Writes TMatch (chars ":?")
| W_op : forall s, operator s -> List.length s < 16 ->
    s <> chars "=" -> s <> chars "$" -> s <> chars "->" -> Writes (TOp s) s
| W_quoted : forall c s, (letter c = true \/ c = "_"%char) -> all idchar s ->
    Writes (TOp (c :: s)) (backquote :: c :: s ++ [backquote])
| W_word : forall c s, letter c = true -> all idchar s -> Writes (TWord (c :: s)) (c :: s)
| W_int : forall c s, digit c = true -> all idchar s -> Writes (TInt (c :: s)) (c :: s)
| W_real : forall c s d s', digit c = true -> all idchar s -> digit d = true -> all alnum s' ->
    Writes (TReal (c :: s ++ "."%char :: d :: s')) (c :: s ++ "."%char :: d :: s')
| W_char : forall s, inside squote s -> ~ In "000"%char s ->
    Writes (TChar (squote :: s ++ [squote])) (squote :: s ++ [squote])
| W_string : forall s, inside dquote s -> ~ In "000"%char s ->
    Writes (TString (dquote :: s ++ [dquote])) (dquote :: s ++ [dquote]).

(** ** What may come directly after a token *)

Definition next_not (p : ascii -> bool) (w : text) : Prop :=
  match w with nil => True | c :: _ => p c = false end.

(** After an operator (and "-", "=", "$", "->") there must be something, and
    it must not go on like an operator. *)
Definition after_operator (w : text) : Prop := w <> nil /\ next_not opchar w.

Definition may_follow (t : token) (s : text) (w : text) : Prop :=
  match t with
  | TPunct c =>
      if one_of (chars "-=$") c then after_operator w
      else if Ascii.eqb c ":" then next_not (one_of (chars ":=>?")) w
      else if Ascii.eqb c "." then next_not (Ascii.eqb ".") w
      else True
  | TArrow => after_operator w
  | TOp _ => match s with c :: _ => if Ascii.eqb c backquote then True else after_operator w | nil => True end
  | TDotDot => next_not (Ascii.eqb ".") w
  | TDoubleColon => next_not (Ascii.eqb ":") w
  | TWord _ => next_not idchar w
  | TInt _ => next_not idchar w /\ (forall c w', w = "."%char :: c :: w' -> digit c = false)
  | TReal _ => next_not alnum w
  | _ => True
  end.

(** ** Source texts

    [Spelled w ts]: the text [w] consists of the tokens [ts], blanks,
    newlines and comments. *)
Inductive Spelled : text -> list token -> Prop :=
| Sp_nil : Spelled nil nil
| Sp_blank : forall c w ts, blank c = true \/ c = nl -> Spelled w ts -> Spelled (c :: w) ts
| Sp_comment : forall b w ts, ~ In nl b -> (w = nil \/ exists w', w = nl :: w') ->
    Spelled w ts -> Spelled ("-"%char :: "-"%char :: b ++ w) ts
| Sp_token : forall t s w ts, Writes t s -> may_follow t s w ->
    Spelled w ts -> Spelled (s ++ w) (t :: ts).

(** Number of newlines. *)
Definition newlines (w : text) : nat := count_occ ascii_dec w nl.
