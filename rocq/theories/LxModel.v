(** * The scanner.

    Models parse/aps.lex: the rules, what a scanner made by flex does with
    them, and the actions. *)

Require Import List Arith Lia Bool Ascii String.
Import ListNotations.
Local Open Scope list_scope.

Definition text := list ascii.
Definition chars (s : string) : text := list_ascii_of_string s.

(** ** Character classes *)

Definition code (c : ascii) : nat := nat_of_ascii c.
Definition nl : ascii := ascii_of_nat 10.
Definition tab : ascii := ascii_of_nat 9.
Definition cr : ascii := ascii_of_nat 13.
Definition ff : ascii := ascii_of_nat 12.
Definition dquote : ascii := ascii_of_nat 34.
Definition squote : ascii := ascii_of_nat 39.
Definition backslash : ascii := ascii_of_nat 92.
Definition backquote : ascii := ascii_of_nat 96.

Definition one_of (s : text) (c : ascii) : bool := existsb (Ascii.eqb c) s.
Definition between (lo hi c : ascii) : bool := (code lo <=? code c) && (code c <=? code hi).
Definition letter (c : ascii) : bool := between "A" "Z" c || between "a" "z" c.
Definition digit (c : ascii) : bool := between "0" "9" c.
Definition alnum (c : ascii) : bool := letter c || digit c.
Definition idchar (c : ascii) : bool := alnum c || Ascii.eqb c "_".

(** The bracket expressions in the rules. *)
Inductive cclass :=
| CIs (c : ascii)         (* the character [c] *)
| CBlank                  (* [ \t\r\f]          aps.lex:48 *)
| CAnyButNl               (* .                            *)
| CAny                    (* .|\n               aps.lex:68 *)
| CPunct                  (* [[\](){}:;.,?!]    aps.lex:51 *)
| CNotMinus               (* [^\-]              aps.lex:53 *)
| CSpecial                (* [~@#$%^&*+=<>/\\|] aps.lex:42 *)
| CPlain (q : ascii)      (* [^\n\\q]           aps.lex:68,74 *)
| CLetter | CLetter_ | CDigit | CAlnum | CIdchar.

Definition special (c : ascii) : bool := one_of (chars "~@#$%^&*+=<>/|" ++ [backslash]) c.
Definition punct (c : ascii) : bool := one_of (chars "[](){}:;.,?!") c.
Definition blank (c : ascii) : bool := one_of [" "%char; tab; cr; ff] c.

Definition inC (k : cclass) (c : ascii) : bool :=
  match k with
  | CIs d => Ascii.eqb c d
  | CBlank => blank c
  | CAnyButNl => negb (Ascii.eqb c nl)
  | CAny => true
  | CPunct => punct c
  | CNotMinus => negb (Ascii.eqb c "-")
  | CSpecial => special c
  | CPlain q => negb (one_of [nl; backslash; q] c)
  | CLetter => letter c
  | CLetter_ => letter c || Ascii.eqb c "_"
  | CDigit => digit c
  | CAlnum => alnum c
  | CIdchar => idchar c
  end.

(** ** Regular expressions *)

Inductive re := RNone | REps | RChr (k : cclass) | RSeq (a b : re) | RAlt (a b : re) | RStar (a : re).

Definition RIs (c : ascii) : re := RChr (CIs c).
Fixpoint RWord (w : text) : re :=
  match w with nil => REps | [c] => RIs c | c :: w' => RSeq (RIs c) (RWord w') end.
Definition RPlus (a : re) : re := RSeq a (RStar a).
Definition ROpt (a : re) : re := RAlt a REps.

(** {operator}, aps.lex:44 *)
Definition r_operator : re :=
  RSeq (RPlus (RAlt (RChr CSpecial) (RSeq (RIs "-") (RChr CSpecial)))) (ROpt (RIs "-")).
(** the inside of a constant, aps.lex:68: (\\(.|\n)|[^\n\\'])* *)
Definition r_body (q : ascii) : re :=
  RStar (RAlt (RSeq (RIs backslash) (RChr CAny)) (RChr (CPlain q))).
Definition r_ahead (a : re) : re := RSeq a (RChr CNotMinus).

(** The rules in order: what is matched, including the trailing context, and
    the length of the trailing context (flex gives the action the text
    without it and goes on scanning there). *)
Definition rules : list (re * nat) :=
  [ (RIs nl, 0);                                                  (* 0: 47 *)
    (RChr CBlank, 0);                                             (* 1: 48 *)
    (RSeq (RIs "-") (RSeq (RIs "-") (RStar (RChr CAnyButNl))), 0);(* 2: 49 *)
    (RChr CPunct, 0);                                             (* 3: 51 *)
    (r_ahead (RIs "-"), 1);                                       (* 4: 53 *)
    (r_ahead (RIs "="), 1);                                       (* 5: 54 *)
    (r_ahead (RIs "$"), 1);                                       (* 6: 55 *)
    (r_ahead (RWord (chars "->")), 1);                                    (* 7: 56 *)
    (RWord (chars ":="), 0);                                              (* 8: 57 *)
    (RWord (chars ":>"), 0);                                              (* 9: 58 *)
    (RWord (chars ".."), 0);                                              (* 10: 59 *)
    (RWord (chars "::"), 0);                                              (* 11: 60 *)
    (RWord (chars "..."), 0);                                             (* 12: 61 *)
    (RWord (chars ":::"), 0);                                             (* 13: 62 *)
    (RWord (chars ":?"), 0);                                              (* 14: 63 *)
    (r_ahead r_operator, 1);                                      (* 15: 64 *)
    (RSeq (RIs squote) (RSeq (r_body squote) (RIs squote)), 0);   (* 16: 68 *)
    (RSeq (RIs squote) (r_body squote), 0);                       (* 17: 70 *)
    (RSeq (RIs dquote) (RSeq (r_body dquote) (RIs dquote)), 0);   (* 18: 74 *)
    (RSeq (RIs dquote) (r_body dquote), 0);                       (* 19: 76 *)
    (RSeq (RChr CLetter) (RStar (RChr CIdchar)), 0);              (* 20: 80 *)
    (RIs "_", 0);                                                 (* 21: 82 *)
    (RSeq (RChr CDigit) (RStar (RChr CIdchar)), 0);               (* 22: 88 *)
    (RSeq (RChr CDigit) (RSeq (RStar (RChr CIdchar))
       (RSeq (RIs ".") (RSeq (RChr CDigit) (RStar (RChr CAlnum))))), 0);(* 23: 90 *)
    (RSeq (RIs "_") (RStar (RChr CIdchar)), 0);                   (* 24: 92 *)
    (RSeq (RIs backquote) (RSeq (RChr CLetter_)
       (RSeq (RStar (RChr CIdchar)) (RIs backquote))), 0);        (* 25: 99 *)
    (RChr CAnyButNl, 0)                                           (* 26: 104 *)
  ].

(** ** The generated scanner *)

(** The automaton flex makes of the rules, as derivatives of the rules: a
    state is what is left to match of the rules that can still match. *)
Fixpoint nullable (r : re) : bool :=
  match r with
  | RNone => false | REps => true | RChr _ => false
  | RSeq a b => nullable a && nullable b
  | RAlt a b => nullable a || nullable b
  | RStar _ => true
  end.

Definition mkseq (a b : re) : re :=
  match a with RNone => RNone | REps => b | _ => match b with RNone => RNone | _ => RSeq a b end end.
Definition mkalt (a b : re) : re :=
  match a, b with RNone, _ => b | _, RNone => a | _, _ => RAlt a b end.

Fixpoint deriv (r : re) (c : ascii) : re :=
  match r with
  | RNone => RNone | REps => RNone
  | RChr k => if inC k c then REps else RNone
  | RSeq a b => if nullable a then mkalt (mkseq (deriv a c) b) (deriv b c) else mkseq (deriv a c) b
  | RAlt a b => mkalt (deriv a c) (deriv b c)
  | RStar a => mkseq (deriv a c) (RStar a)
  end.

Definition state := list (nat * re).

Definition start : state := combine (seq 0 (List.length rules)) (map fst rules).

Fixpoint step (st : state) (c : ascii) : state :=
  match st with
  | nil => nil
  | (i, r) :: st' =>
      match deriv r c with RNone => step st' c | r' => (i, r') :: step st' c end
  end.

(** The rule a state accepts: the first one. *)
Fixpoint accepts (st : state) : option nat :=
  match st with
  | nil => None
  | (i, r) :: st' => if nullable r then Some i else accepts st'
  end.

(** The main loop of the scanner: read on as long as some rule can still
    match, and remember the last place where a rule was matched.  Gives the
    number of characters and the rule. *)
Fixpoint munch (st : state) (w : text) (n : nat) (best : option (nat * nat)) : option (nat * nat) :=
  let best' := match accepts st with Some i => Some (n, i) | None => best end in
  match w with
  | nil => best'
  | c :: w' =>
      match step st c with
      | nil => best'
      | st' => munch st' w' (S n) best'
      end
  end.

Definition longest (w : text) : option (nat * nat) := munch start w 0 None.

(** ** Tokens and actions *)

(** Tokens as given to the parser.  Operators carry their symbol; whether
    their token is OPERATOR or one of OPL0..OPR9 depends on the fixity
    declarations read so far ([get_infix], aps.lex:65-66) and is left out.
    [TWord]: a symbol; [symbol_token] (aps.lex:228-239) tells keywords from
    identifiers; that is left out here.  [TPunct] also are '-', '=' and '$'. *)
Inductive token :=
| TPunct (c : ascii)
| TArrow | TColonEq | TColonGr | TDotDot | TDoubleColon | TDotDotDot | TTripleColon | TMatch
| TOp (s : text)
| TChar (s : text) | TString (s : text)
| TWord (s : text)
| TInt (s : text) | TReal (s : text).

Inductive error :=
| UnterminatedChar | UnterminatedString | Underscore | Ignored (c : ascii).

(** What an action does: skip, return a token, report an error and perhaps
    return a token, or write beyond the end of a buffer. *)
Inductive outcome :=
| OSkip | OTok (t : token) | OErr (e : error) (t : option token) | OFault.

(** The variables of the scanner: yylineno, unique (aps.lex:83) and
    warned_about_underline (aps.lex:38). *)
Record vars := { line : nat; unique : nat; warned : bool }.

(** yytext as a C string: it ends at the first NUL. *)
Fixpoint cstr (s : text) : text :=
  match s with
  | nil => nil
  | c :: s' => if Ascii.eqb c "000" then nil else c :: cstr s'
  end.

(** Decimal digits of a number, as printed by %d. *)
Fixpoint digits (fuel n : nat) (acc : text) : text :=
  match fuel with
  | 0 => acc
  | S f =>
      let acc' := ascii_of_nat (48 + n mod 10) :: acc in
      if n / 10 =? 0 then acc' else digits f (n / 10) acc'
  end.
Definition decimal (n : nat) : text := digits (S n) n nil.

(** The action of the rule for "_" (aps.lex:82-87).  The buffer has 10
    characters, one of which is for the final NUL. *)
Definition act_underscore (v : vars) : vars * outcome :=
  let u := S (unique v) in
  let s := ("_"%char) :: decimal u in
  ({| line := line v; unique := u; warned := warned v |},
   if List.length s <? 10 then OTok (TWord s) else OFault).

(** [make_code_name] for an operator (aps.lex:261-271): a buffer of 20
    characters, the first 4 of which are "_op_". *)
Definition code_name_fits (s : text) : bool := 4 + List.length s <? 20.

Definition act (i : nat) (s : text) (v : vars) : vars * outcome :=
  match i with
  | 0 => ({| line := S (line v); unique := unique v; warned := warned v |}, OSkip)
  | 1 => (v, OSkip)
  | 2 => (v, OSkip)
  | 3 => (v, OTok (TPunct (hd " "%char s)))
  | 4 => (v, OTok (TPunct "-"))
  | 5 => (v, OTok (TPunct "="))
  | 6 => (v, OTok (TPunct "$"))
  | 7 => (v, OTok TArrow)
  | 8 => (v, OTok TColonEq)
  | 9 => (v, OTok TColonGr)
  | 10 => (v, OTok TDotDot)
  | 11 => (v, OTok TDoubleColon)
  | 12 => (v, OTok TDotDotDot)
  | 13 => (v, OTok TTripleColon)
  | 14 => (v, OTok TMatch)
  | 15 => (v, if code_name_fits s then OTok (TOp s) else OFault)
  | 16 => (v, OTok (TChar (cstr s)))
  | 17 => (v, OErr UnterminatedChar (Some (TChar (cstr s))))
  | 18 => (v, OTok (TString (cstr s)))
  | 19 => (v, OErr UnterminatedString (Some (TString (cstr s))))
  | 20 => (v, OTok (TWord s))
  | 21 => act_underscore v
  | 22 => (v, OTok (TInt s))
  | 23 => (v, OTok (TReal s))
  | 24 => ({| line := line v; unique := unique v; warned := true |},
           if warned v then OTok (TWord s) else OErr Underscore (Some (TWord s)))
  | 25 => (v, OTok (TOp (removelast (tl s))))          (* intern_symbol_np, 287-290 *)
  | _ => (v, OErr (Ignored (hd " "%char s)) None)
  end.

(** One lexeme: its text, the value of yylineno when its action begins, and
    what the action does. *)
Record lexeme := { lx_text : text; lx_line : nat; lx_out : outcome }.

(** One round of the scanner: match, cut off the trailing context, act. *)
Definition lex1 (w : text) (v : vars) : option (lexeme * text * vars) :=
  match longest w with
  | None => None
  | Some (n, i) =>
      let k := n - snd (nth i rules (RNone, 0)) in
      let s := firstn k w in
      let '(v', o) := act i s v in
      Some ({| lx_text := s; lx_line := line v; lx_out := o |}, skipn k w, v')
  end.

(** Calls of yylex until the end of the file.  [fuel]: at most this many
    lexemes. *)
Fixpoint scan (fuel : nat) (w : text) (v : vars) : list lexeme * vars :=
  match fuel, w with
  | 0, _ => (nil, v)
  | _, nil => (nil, v)
  | S f, _ =>
      match lex1 w v with
      | None => (nil, v)
      | Some (x, w', v') =>
          match lx_out x with
          | OFault => ([x], v')
          | _ => let '(xs, v'') := scan f w' v' in (x :: xs, v'')
          end
      end
  end.

Definition init : vars := {| line := 1; unique := 0; warned := false |}.
Definition scan_all (w : text) (v : vars) : list lexeme * vars := scan (List.length w) w v.

(** The tokens that the parser gets, and the errors reported. *)
Definition out_tokens (o : outcome) : list token :=
  match o with OTok t => [t] | OErr _ (Some t) => [t] | _ => nil end.
Definition out_errors (o : outcome) : list error :=
  match o with OErr e _ => [e] | _ => nil end.
Definition tokens (xs : list lexeme) : list token := flat_map (fun x => out_tokens (lx_out x)) xs.
Definition errors (xs : list lexeme) : list error := flat_map (fun x => out_errors (lx_out x)) xs.

(** ** Names in generated code *)

(** [translate], as filled by [init_lexer_tables] (aps.lex:292-310). *)
Definition code_char (k : nat) : ascii :=
  if k <? 26 then ascii_of_nat (k + 65)
  else if k <? 52 then ascii_of_nat (k + 97 - 26)
  else ascii_of_nat (k + 48 - 52).
Fixpoint fill (n i k : nat) : list ascii :=
  match n with
  | 0 => nil
  | S n' =>
      if alnum (ascii_of_nat i) then ascii_of_nat i :: fill n' (S i) k
      else let k' := (k + 1) mod 62 in code_char k' :: fill n' (S i) k'
  end.
Definition translate_table : list ascii := fill 256 0 0.
Definition translate (c : ascii) : ascii := nth (code c) translate_table "000"%char.

(** The name [make_code_name] gives to an operator. *)
Definition code_name (s : text) : text := chars "_op_" ++ map translate s.
