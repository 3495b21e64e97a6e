(** * The scanner: C141-C146 *)

Require Import List Arith Lia Bool Ascii String.
Import ListNotations.
Require Import Verif.LxModel Verif.LxSpec Verif.LxGen Verif.LxTok Verif.LxLines.
Local Open Scope list_scope.

(** ** C141: lexemes cover the text, by longest match *)
Theorem scanner_covers : forall w v,
  (forall x, In x (fst (scan_all w v)) -> lx_text x <> nil) /\
  exists rest, flat_map lx_text (fst (scan_all w v)) ++ rest = w /\
    ((forall x, In x (fst (scan_all w v)) -> lx_out x <> OFault) -> rest = nil).
Proof. intros w v. exact (scan_covers (List.length w) w v (le_n _)). Qed.

(** The length of what a rule looks at beyond its lexeme. *)
Definition lookahead (i : nat) : nat := snd (nth i rules (RNone, 0)).

Theorem scanner_longest_match : forall w v pre x post,
  fst (scan_all w v) = pre ++ x :: post ->
  exists here n i, flat_map lx_text pre ++ here = w /\ flex_choice here n i /\
    lx_text x = firstn (n - lookahead i) here /\
    exists v', lx_out x = snd (act i (lx_text x) v').
Proof.
  intros w v pre x post H. unfold scan_all in H.
  destruct (scan_rounds _ _ _ _ _ _ H) as [w1 [v1 [w2 [v2 [E [N A]]]]]].
  destruct w1 as [|c w1]; [congruence|].
  destruct (longest_choice c w1) as [n [i [H1 [_ H2]]]].
  rewrite (lex1_at c w1 v1 n i H1) in E. injection E as <- _ _. cbn [lx_text lx_out].
  exists (c :: w1), n, i. split; [exact A|]. split; [exact H2|]. split; [reflexivity|].
  exists v1. reflexivity.
Qed.

(** ** C142: tokens are found as they are written *)
Lemma lex1_tok : forall s w v n i o, s <> nil -> longest (s ++ w) = Some (n, i) ->
  n - ctx i = List.length s -> act i s v = (v, o) ->
  lex1 (s ++ w) v = Some ({| lx_text := s; lx_line := line v; lx_out := o |}, w, v).
Proof.
  intros s w v n i o HN HL HC HA. destruct s as [|c s]; [congruence|]. cbn [app] in *.
  rewrite (lex1_at c (s ++ w) v n i HL), HC.
  change (c :: s ++ w) with ((c :: s) ++ w).
  rewrite firstn_app, Nat.sub_diag, firstn_all. cbn [firstn]. rewrite app_nil_r.
  rewrite skipn_app, Nat.sub_diag, skipn_all. cbn [skipn app]. rewrite HA. reflexivity.
Qed.

Lemma cstr_id : forall s, ~ In "000"%char s -> cstr s = s.
Proof.
  induction s as [|c s IH]; intro H; [reflexivity|]. cbn [cstr].
  destruct (Ascii.eqb_spec c "000") as [->|N]; [exfalso; apply H; left; reflexivity|].
  rewrite IH; [reflexivity|]. intro X. apply H. right. exact X.
Qed.

Lemma cstr_const : forall q s, (q = squote \/ q = dquote) -> ~ In "000"%char s ->
  cstr (q :: s ++ [q]) = q :: s ++ [q].
Proof.
  intros q s Hq H. apply cstr_id. intros [E|E].
  - destruct Hq as [-> | ->]; discriminate E.
  - apply in_app_or in E. destruct E as [E|[E|[]]]; [exact (H E)|].
    destruct Hq as [-> | ->]; discriminate E.
Qed.

Lemma punct_cases : forall c, one_of (chars "[](){}:;.,?!-=$") c = true ->
  c = "-"%char \/ c = "="%char \/ c = "$"%char \/ c = ":"%char \/ c = "."%char \/
  (one_of (chars "[](){};,?!") c = true /\ one_of (chars "-=$") c = false /\
   Ascii.eqb c ":" = false /\ Ascii.eqb c "." = false).
Proof.
  intros c H. chr c; vm_compute in H; try discriminate H;
    first [left; reflexivity | right; left; reflexivity | right; right; left; reflexivity
          | right; right; right; left; reflexivity | right; right; right; right; left; reflexivity
          | right; right; right; right; right; repeat split; reflexivity].
Qed.

Lemma writes_lex1 : forall t s w v, Writes t s -> may_follow t s w ->
  s <> nil /\ lex1 (s ++ w) v = Some ({| lx_text := s; lx_line := line v; lx_out := OTok t |}, w, v).
Proof.
  intros t s w v HW HF.
  inversion HW as [c Hc| | | | | | | | |s0 Ho Hl N1 N2 N3|c s0 Hc Hs|c s0 Hc Hs|c s0 Hc Hs|c s0 d s1 Hc Hs Hd Hs1|s0 HI HZ|s0 HI HZ];
    subst t s; (split; [discriminate || (intros ->; destruct Ho as [_ [[y [[] _]] _]])|]).
  - cbn [may_follow] in HF. destruct (punct_cases c Hc) as [->|[->|[->|[->|[->|[H1 [H2 [H3 H4]]]]]]]].
    + apply (lex1_tok _ _ _ 2 4); [discriminate|apply longest_minus; exact HF|reflexivity|reflexivity].
    + apply (lex1_tok _ _ _ 2 5); [discriminate|apply longest_equals; exact HF|reflexivity|reflexivity].
    + apply (lex1_tok _ _ _ 2 6); [discriminate|apply longest_dollar; exact HF|reflexivity|reflexivity].
    + apply (lex1_tok _ _ _ 1 3); [discriminate|apply longest_colon; exact HF|reflexivity|reflexivity].
    + apply (lex1_tok _ _ _ 1 3); [discriminate|apply longest_dot; exact HF|reflexivity|reflexivity].
    + apply (lex1_tok _ _ _ 1 3); [discriminate|apply longest_plain_punct; exact H1|reflexivity|reflexivity].
  - apply (lex1_tok _ _ _ 3 7); [discriminate|apply longest_arrow; exact HF|reflexivity|reflexivity].
  - apply (lex1_tok _ _ _ 2 8); [discriminate|apply longest_coloneq|reflexivity|reflexivity].
  - apply (lex1_tok _ _ _ 2 9); [discriminate|apply longest_colongr|reflexivity|reflexivity].
  - apply (lex1_tok _ _ _ 2 10); [discriminate|apply longest_dotdot; exact HF|reflexivity|reflexivity].
  - apply (lex1_tok _ _ _ 2 11); [discriminate|apply longest_coloncolon; exact HF|reflexivity|reflexivity].
  - apply (lex1_tok _ _ _ 3 12); [discriminate|apply longest_dots|reflexivity|reflexivity].
  - apply (lex1_tok _ _ _ 3 13); [discriminate|apply longest_colons|reflexivity|reflexivity].
  - apply (lex1_tok _ _ _ 2 14); [discriminate|apply longest_match|reflexivity|reflexivity].
  - assert (HN : s0 <> nil) by (intros ->; destruct Ho as [_ [[y [[] _]] _]]).
    assert (HF' : after_operator w).
    { destruct s0 as [|c s0]; [congruence|]. cbn [may_follow] in HF.
      destruct (Ascii.eqb_spec c backquote) as [->|_]; [|exact HF].
      destruct Ho as [Ho _]. specialize (Ho backquote (or_introl eq_refl)). vm_compute in Ho. discriminate Ho. }
    apply (lex1_tok _ _ _ (S (List.length s0)) 15); [exact HN|apply longest_op; assumption| |].
    + change (ctx 15) with 1. lia.
    + cbn [act]. unfold code_name_fits. destruct (Nat.ltb_spec (4 + List.length s0) 20); [reflexivity|lia].
  - apply (lex1_tok _ _ _ (3 + List.length s0) 25); [discriminate|apply longest_quoted; assumption| |].
    + change (ctx 25) with 0. cbn [List.length]. rewrite app_length. cbn [List.length]. lia.
    + cbn [act tl]. change (c :: s0 ++ [backquote]) with ((c :: s0) ++ [backquote]).
      rewrite removelast_last. reflexivity.
  - apply (lex1_tok _ _ _ (S (List.length s0)) 20); [discriminate|apply longest_word; assumption|reflexivity|reflexivity].
  - cbn [may_follow] in HF. destruct HF as [HF1 HF2].
    apply (lex1_tok _ _ _ (S (List.length s0)) 22); [discriminate|apply longest_int; assumption|reflexivity|reflexivity].
  - apply (lex1_tok _ _ _ (S (List.length (s0 ++ "."%char :: d :: s1))) 23);
      [discriminate|apply longest_real; assumption|reflexivity|reflexivity].
  - apply (lex1_tok _ _ _ (S (List.length (s0 ++ [squote]))) 16);
      [discriminate|apply longest_char; assumption|reflexivity|].
    cbn [act]. rewrite (cstr_const squote s0 (or_introl eq_refl) HZ). reflexivity.
  - apply (lex1_tok _ _ _ (S (List.length (s0 ++ [dquote]))) 18);
      [discriminate|apply longest_string; assumption|reflexivity|].
    cbn [act]. rewrite (cstr_const dquote s0 (or_intror eq_refl) HZ). reflexivity.
Qed.

Lemma scan_all_first : forall s w v v' o, s <> nil -> o <> OFault ->
  lex1 (s ++ w) v = Some ({| lx_text := s; lx_line := line v; lx_out := o |}, w, v') ->
  scan_all (s ++ w) v =
  ({| lx_text := s; lx_line := line v; lx_out := o |} :: fst (scan_all w v'), snd (scan_all w v')).
Proof.
  intros s w v v' o HN HO H. destruct s as [|c s]; [congruence|]. cbn [app] in *.
  apply scan_all_cons; [exact H|exact HO|discriminate|reflexivity].
Qed.

Theorem spelled_tokens : forall w ts v, Spelled w ts ->
  tokens (fst (scan_all w v)) = ts /\ errors (fst (scan_all w v)) = nil /\
  (forall x, In x (fst (scan_all w v)) -> lx_out x <> OFault).
Proof.
  intros w ts v H. revert v.
  induction H as [|c w ts Hc H IH|b w ts Hb Hw H IH|t s w ts HW HF H IH]; intro v.
  - split; [reflexivity|]. split; [reflexivity|intros x []].
  - assert (E : exists v', lex1 ([c] ++ w) v = Some ({| lx_text := [c]; lx_line := line v; lx_out := OSkip |}, w, v')).
    { destruct Hc as [Hc| ->].
      - exists v. apply (lex1_tok _ _ _ 1 1); [discriminate|apply longest_blank; exact Hc|reflexivity|reflexivity].
      - eexists. cbn [app]. rewrite (lex1_at nl w v 1 0 (longest_newline w)). reflexivity. }
    destruct E as [v' E].
    change (c :: w) with ([c] ++ w). rewrite (scan_all_first [c] w v v' OSkip); [|discriminate|discriminate|exact E].
    destruct (IH v') as [I1 [I2 I3]]. cbn [fst tokens errors flat_map lx_out out_tokens out_errors app].
    split; [exact I1|]. split; [exact I2|].
    intros x [<-|Hx]; [discriminate|exact (I3 x Hx)].
  - assert (E : lex1 (("-"%char :: "-"%char :: b) ++ w) v =
      Some ({| lx_text := "-"%char :: "-"%char :: b; lx_line := line v; lx_out := OSkip |}, w, v)).
    { apply (lex1_tok _ _ _ (2 + List.length b) 2); [discriminate|apply longest_comment; assumption|reflexivity|reflexivity]. }
    change ("-"%char :: "-"%char :: b ++ w) with (("-"%char :: "-"%char :: b) ++ w).
    rewrite (scan_all_first _ w v v OSkip); [|discriminate|discriminate|exact E].
    destruct (IH v) as [I1 [I2 I3]]. cbn [fst tokens errors flat_map lx_out out_tokens out_errors app].
    split; [exact I1|]. split; [exact I2|].
    intros x [<-|Hx]; [discriminate|exact (I3 x Hx)].
  - destruct (writes_lex1 t s w v HW HF) as [HN E].
    rewrite (scan_all_first s w v v (OTok t)); [|exact HN|discriminate|exact E].
    destruct (IH v) as [I1 [I2 I3]]. cbn [fst tokens errors flat_map lx_out out_tokens out_errors app].
    split; [f_equal; exact I1|]. split; [exact I2|].
    intros x [<-|Hx]; [discriminate|exact (I3 x Hx)].
Qed.

(** Comments and the end of the text are not like blanks: an operator
    directly before them is not recognised. *)
Lemma tokens_cons : forall x xs, tokens (x :: xs) = out_tokens (lx_out x) ++ tokens xs.
Proof. reflexivity. Qed.
Lemma errors_cons : forall x xs, errors (x :: xs) = out_errors (lx_out x) ++ errors xs.
Proof. reflexivity. Qed.

Theorem operator_before_comment_refuted : forall b, ~ In nl b ->
  (let w := chars "x +" ++ chars "--" ++ b ++ nl :: chars "y" in
   tokens (fst (scan_all w init)) = [TWord (chars "x"); TWord (chars "y")] /\
   errors (fst (scan_all w init)) = [Ignored "+"]) /\
  Spelled (chars "x + " ++ chars "--" ++ b ++ nl :: chars "y")
    [TWord (chars "x"); TOp (chars "+"); TWord (chars "y")].
Proof.
  intros b Hb.
  assert (HC : Spelled (chars "--" ++ b ++ nl :: chars "y") [TWord (chars "y")]).
  { cbn [chars list_ascii_of_string app]. apply Sp_comment; [exact Hb|right; eexists; reflexivity|].
    apply Sp_blank; [right; reflexivity|].
    change ["y"%char] with (["y"%char] ++ nil). apply Sp_token; [|exact I|constructor].
    apply W_word; [reflexivity|intros c []]. }
  split.
  - intro w.
    assert (H1 : scan_all w init =
      ({| lx_text := ["x"%char]; lx_line := 1; lx_out := OTok (TWord ["x"%char]) |} ::
       fst (scan_all (chars " +" ++ chars "--" ++ b ++ nl :: chars "y") init),
       snd (scan_all (chars " +" ++ chars "--" ++ b ++ nl :: chars "y") init))).
    { unfold w. apply (scan_all_first ["x"%char] (chars " +" ++ chars "--" ++ b ++ nl :: chars "y") init init
        (OTok (TWord ["x"%char]))); [discriminate|discriminate|].
      apply (lex1_tok _ _ _ 1 20); [discriminate| |reflexivity|reflexivity].
      apply (longest_word "x" nil); [reflexivity|intros c []|reflexivity]. }
    assert (H2 : scan_all (chars " +" ++ chars "--" ++ b ++ nl :: chars "y") init =
      ({| lx_text := [" "%char]; lx_line := 1; lx_out := OSkip |} ::
       fst (scan_all (chars "+" ++ chars "--" ++ b ++ nl :: chars "y") init),
       snd (scan_all (chars "+" ++ chars "--" ++ b ++ nl :: chars "y") init))).
    { apply (scan_all_first [" "%char] (chars "+" ++ chars "--" ++ b ++ nl :: chars "y") init init
        OSkip); [discriminate|discriminate|].
      apply (lex1_tok _ _ _ 1 1); [discriminate|apply longest_blank; reflexivity|reflexivity|reflexivity]. }
    assert (H3 : scan_all (chars "+" ++ chars "--" ++ b ++ nl :: chars "y") init =
      ({| lx_text := ["+"%char]; lx_line := 1; lx_out := OErr (Ignored "+") None |} ::
       fst (scan_all (chars "--" ++ b ++ nl :: chars "y") init),
       snd (scan_all (chars "--" ++ b ++ nl :: chars "y") init))).
    { apply (scan_all_first ["+"%char] (chars "--" ++ b ++ nl :: chars "y") init init
        (OErr (Ignored "+") None)); [discriminate|discriminate|].
      apply (lex1_tok _ _ _ 1 26); [discriminate| |reflexivity|reflexivity].
      cbn [app chars list_ascii_of_string]. rewrite longest_cons, munch_cons, munch_cons.
      change (step (step (step start "+"%char) "-"%char) "-"%char) with (@nil (nat * re)).
      rewrite munch_nil. reflexivity. }
    destruct (spelled_tokens _ _ init HC) as [T [E _]].
    rewrite H1. cbn [fst]. rewrite H2. cbn [fst]. rewrite H3. cbn [fst].
    rewrite !tokens_cons, !errors_cons. cbn [lx_out out_tokens out_errors app].
    rewrite T, E. split; reflexivity.
  - apply (Sp_token (TWord (chars "x")) (chars "x")); [apply W_word; [reflexivity|intros c []]|reflexivity|].
    apply Sp_blank; [left; reflexivity|].
    apply (Sp_token (TOp (chars "+")) (chars "+") (" "%char :: chars "--" ++ b ++ nl :: chars "y")).
    + apply W_op; try discriminate; [|cbn; lia]. split; [intros c [<-|[]]; reflexivity|].
      split; [exists "+"%char; split; [left; reflexivity|reflexivity]|].
      intros [a [a' E]]. destruct a as [|? [|? ?]]; discriminate E.
    + split; [discriminate|reflexivity].
    + apply Sp_blank; [left; reflexivity|exact HC].
Qed.

Theorem operator_at_end_refuted :
  tokens (fst (scan_all (chars "x =") init)) = [TWord (chars "x")] /\
  errors (fst (scan_all (chars "x =") init)) = [Ignored "="].
Proof. vm_compute. split; reflexivity. Qed.

(** ** C143: operators and comments *)
Theorem operator_lexemes : forall w v x s,
  In x (fst (scan_all w v)) -> lx_out x = OTok (TOp s) ->
  (lx_text x = s /\ operator s) \/ lx_text x = backquote :: s ++ [backquote].
Proof.
  intros w v x s HI HO. apply in_split in HI. destruct HI as [pre [post HI]].
  destruct (scanner_longest_match w v pre x post HI) as [here [n [i [_ [HC [HT [v' HA]]]]]]].
  rewrite HA in HO. destruct HC as [Hn [HM _]].
  assert (Hi : i = 15 \/ i = 25).
  { destruct HM as [Hi _]. clear - HO.
    do 27 (destruct i as [|i]; [try (left; reflexivity); try (right; reflexivity);
      exfalso; cbn [act act_underscore snd] in HO;
      repeat match type of HO with context[if ?b then _ else _] => destruct b end; discriminate HO|]).
    discriminate HO. }
  destruct Hi as [-> | ->].
  - left. cbn [act snd] in HO. destruct (code_name_fits (lx_text x)); [|discriminate HO].
    injection HO as HO. split; [exact HO|]. rewrite <- HO, HT. change (lookahead 15) with 1.
    destruct HM as [_ HM]. change (fst (nth 15 rules (RNone, 0))) with (r_ahead r_operator) in HM.
    apply L_seq_chr in HM. destruct HM as [o [c [E [Ho _]]]].
    assert (EL : List.length (firstn n here) = n) by (apply firstn_length_le; exact Hn).
    rewrite E, app_length in EL. cbn [List.length] in EL.
    assert (EO : firstn (n - 1) here = o).
    { replace (firstn (n - 1) here) with (firstn (n - 1) (firstn n here)) by (rewrite firstn_firstn; f_equal; lia).
      rewrite E, firstn_app. replace (n - 1 - List.length o) with 0 by lia.
      rewrite firstn_all2 by lia. cbn [firstn]. apply app_nil_r. }
    rewrite EO. apply operator_iff. exact Ho.
  - right. cbn [act snd] in HO. injection HO as HO. rewrite HT in HO |- *. change (lookahead 25) with 0 in *.
    rewrite Nat.sub_0_r in *. destruct HM as [_ HM]. cbn [nth rules fst] in HM.
    apply L_is_seq in HM. destruct HM as [u [E HM]]. rewrite E in *.
    inversion HM as [| |a0 b0 p q H1 H2| | | |]; subst.
    inversion H2 as [| |a0 b0 p' q' H3 H4| | | |]; subst. apply L_is in H4. subst q'.
    cbn [tl]. rewrite app_assoc, removelast_last, <- app_assoc. reflexivity.
Qed.

(** In an operator there is no "--". *)
Corollary no_comment_in_operator : forall w v x s a b,
  In x (fst (scan_all w v)) -> lx_out x = OTok (TOp s) -> s = a ++ chars "--" ++ b ->
  lx_text x = backquote :: s ++ [backquote].
Proof.
  intros w v x s a b HI HO E. destruct (operator_lexemes w v x s HI HO) as [[_ [_ [_ H]]]|H]; [|exact H].
  exfalso. apply H. exists a, b. exact E.
Qed.

(** Where a lexeme begins with two hyphens, the rest of the line is
    skipped. *)
Theorem comment_skipped : forall b w v, ~ In nl b -> (w = nil \/ exists w', w = nl :: w') ->
  let t := chars "--" ++ b in
  scan_all (t ++ w) v =
  ({| lx_text := t; lx_line := line v; lx_out := OSkip |} :: fst (scan_all w v), snd (scan_all w v)).
Proof.
  intros b w v Hb Hw t. apply (scan_all_first t w v v OSkip); [discriminate|discriminate|].
  apply (lex1_tok _ _ _ (2 + List.length b) 2); [discriminate|apply longest_comment; assumption|reflexivity|reflexivity].
Qed.

(** ** C144: line numbers *)
Theorem line_numbers_exact : forall w v pre x post, fst (scan_all w v) = pre ++ x :: post ->
  lx_line x + hidden_in pre = line v + newlines (flat_map lx_text pre).
Proof. intros w v pre x post H. exact (scan_line _ _ _ _ _ _ H). Qed.

Theorem line_numbers_partial : forall w v pre x post, fst (scan_all w v) = pre ++ x :: post ->
  (forall y, In y pre -> constant (lx_text y) = true -> ~ In nl (lx_text y)) ->
  lx_line x = line v + newlines (flat_map lx_text pre).
Proof.
  intros w v pre x post H HN. pose proof (line_numbers_exact w v pre x post H) as E.
  assert (Z : hidden_in pre = 0).
  { clear - HN. unfold hidden_in. induction pre as [|y pre IH]; [reflexivity|].
    cbn [map list_sum fold_right]. fold (list_sum (map (fun z => hidden (lx_text z)) pre)).
    rewrite IH by (intros z Hz; apply HN; right; exact Hz).
    unfold hidden. destruct (constant (lx_text y)) eqn:C; [|reflexivity].
    rewrite (newlines_none _ (HN y (or_introl eq_refl) C)). reflexivity. }
  lia.
Qed.

(** A constant with an escaped newline makes all later line numbers wrong. *)
Theorem line_numbers_refuted :
  let w := [dquote; backslash; nl; dquote; " "%char; "x"%char] in
  exists pre x, fst (scan_all w init) = pre ++ [x] /\ errors (fst (scan_all w init)) = nil /\
    lx_out x = OTok (TWord (chars "x")) /\ lx_line x = 1 /\ 1 + newlines (flat_map lx_text pre) = 2.
Proof.
  intro w.
  exists [{| lx_text := [dquote; backslash; nl; dquote]; lx_line := 1; lx_out := OTok (TString [dquote; backslash; nl; dquote]) |};
          {| lx_text := [" "%char]; lx_line := 1; lx_out := OSkip |}],
         {| lx_text := ["x"%char]; lx_line := 1; lx_out := OTok (TWord ["x"%char]) |}.
  vm_compute. repeat split; reflexivity.
Qed.

(** ** C145: names of operators in generated code *)

(** The symbols that get such names: operators, and "{}" and ".."
    (aps.lex:325-328). *)
Definition named_operator (s : text) : Prop :=
  operator s \/ s = chars "-" \/ s = chars "{}" \/ s = chars "..".

Lemma named_chars : forall s, named_operator s -> forall c, In c s -> In c name_chars.
Proof.
  intros s [[H _]|[->|[->| ->]]] c Hc.
  - apply in_name_chars, H. exact Hc.
  - destruct Hc as [<-|[]]. vm_compute. tauto.
  - destruct Hc as [<-|[<-|[]]]; vm_compute; tauto.
  - destruct Hc as [<-|[<-|[]]]; vm_compute; tauto.
Qed.

Theorem code_names_distinct_partial : forall s s', named_operator s -> named_operator s' ->
  code_name s = code_name s' -> s = s'.
Proof.
  intros s s' H H' E. unfold code_name in E. apply app_inv_head in E.
  apply map_translate_inj; [apply named_chars; exact H|apply named_chars; exact H'|exact E].
Qed.

Theorem code_names_are_identifiers : forall s, named_operator s ->
  exists u, code_name s = chars "_op_" ++ u /\ u <> nil /\ all alnum u.
Proof.
  intros s H. exists (map translate s). split; [reflexivity|]. split.
  - destruct H as [[_ [[c [Hc _]] _]]|[->|[->| ->]]]; [destruct s; [destruct Hc|discriminate]| | |]; discriminate.
  - intros c Hc. apply in_map_iff in Hc. destruct Hc as [d [<- Hd]]. apply translate_alnum.
    exact (named_chars s H d Hd).
Qed.

(** Operators of 16 characters or more overflow the buffer. *)
Theorem long_operator_refuted : forall s c w v, operator s -> 16 <= List.length s -> opchar c = false ->
  exists x, fst (scan_all (s ++ c :: w) v) = [x] /\ lx_text x = s /\ lx_out x = OFault.
Proof.
  intros s c w v Ho Hl Hc.
  assert (HN : s <> nil) by (intros ->; cbn in Hl; lia).
  assert (E : lex1 (s ++ c :: w) v = Some ({| lx_text := s; lx_line := line v; lx_out := OFault |}, c :: w, v)).
  { apply (lex1_tok _ _ _ (S (List.length s)) 15); [exact HN| |change (ctx 15) with 1; lia|].
    - apply longest_op; [exact Ho| | | |split; [discriminate|exact Hc]]; intros ->; cbn in Hl; lia.
    - cbn [act]. unfold code_name_fits. destruct (Nat.ltb_spec (4 + List.length s) 20); [lia|reflexivity]. }
  exists {| lx_text := s; lx_line := line v; lx_out := OFault |}.
  split; [|split; reflexivity].
  destruct s as [|d s]; [congruence|]. cbn [app] in *. unfold scan_all. cbn [List.length].
  rewrite (scan_step _ _ _ _ _ _ _ E). reflexivity.
Qed.

Example long_operator_case : operator (repeat "="%char 16) /\ 16 <= List.length (repeat "="%char 16).
Proof.
  split; [|cbn; lia]. split; [intros c H; apply repeat_spec in H; subst c; reflexivity|].
  split; [exists "="%char; split; [left; reflexivity|reflexivity]|].
  intros [a [b E]]. assert (H : In "-"%char (repeat "="%char 16)) by (rewrite E; apply in_or_app; right; left; reflexivity).
  apply repeat_spec in H. discriminate H.
Qed.

(** ** C146: the names made for "_" *)
Definition words (xs : list lexeme) : list text :=
  flat_map (fun x => match lx_out x with OTok (TWord s) => [s] | _ => nil end) xs.
Definition starts_with (c : ascii) (s : text) : bool := match s with d :: _ => Ascii.eqb d c | nil => false end.
Definition anonymous (k : nat) : text := "_"%char :: decimal k.

Lemma lex1_words : forall c w v x w' v', lex1 (c :: w) v = Some (x, w', v') ->
  warned v = false -> out_errors (lx_out x) = nil ->
  warned v' = false /\
  ((unique v' = S (unique v) /\ (lx_out x = OTok (TWord (anonymous (unique v'))) \/ lx_out x = OFault)) \/
   (unique v' = unique v /\ forall s, lx_out x = OTok (TWord s) -> starts_with "_" s = false /\ lx_text x = s /\
      exists d s', s = d :: s' /\ letter d = true)).
Proof.
  intros c w v x w' v' H HW HE.
  destruct (longest_choice c w) as [n [i [H1 [_ [H2 [H3 _]]]]]].
  rewrite (lex1_at c w v n i H1) in H. injection H as <- _ <-. cbn [lx_out lx_text] in *.
  set (s := firstn (n - ctx i) (c :: w)) in *.
  assert (Hi : i = 20 \/ i = 21 \/ i = 24 \/
    (warned (fst (act i s v)) = false /\ unique (fst (act i s v)) = unique v /\
     forall s', snd (act i s v) <> OTok (TWord s'))).
  { clear - HW.
    do 27 (destruct i as [|i]; [first [left; reflexivity|right; left; reflexivity|right; right; left; reflexivity|
       right; right; right; cbn [act fst snd warned unique]; split; [exact HW|]; split; [reflexivity|];
       intros s' E; repeat match type of E with context[if ?b then _ else _] => destruct b end; discriminate E]|]).
    right. right. right. cbn [act fst snd]. split; [exact HW|]. split; [reflexivity|]. intros s' E. discriminate E. }
  destruct Hi as [->|[->|[->|[A1 [A2 A3]]]]].
  - cbn [act fst snd] in *. split; [exact HW|]. right. split; [reflexivity|].
    intros s' E. injection E as <-. destruct H3 as [_ H3].
    cbn [nth rules fst] in H3. inversion H3 as [| |a0 b0 p q L1 L2 X1 X2| | | |]; subst.
    inversion L1; subst. cbn [inC] in *.
    assert (Es : s = firstn n (c :: w)) by (unfold s; change (ctx 20) with 0; rewrite Nat.sub_0_r; reflexivity).
    match goal with X : [?d] ++ q = firstn n (c :: w), Hl : letter ?d = true |- _ =>
      rewrite Es, <- X; cbn [app]; split; [|split; [reflexivity|exists d, q; split; [reflexivity|exact Hl]]];
      cbn [starts_with]; clear - Hl; chr d; vm_compute in Hl |- *; (discriminate Hl || reflexivity) end.
  - cbn [act] in *. unfold act_underscore in *. cbn [fst snd warned unique] in *. split; [exact HW|].
    left. split; [reflexivity|]. unfold anonymous.
    match goal with |- context[if ?b then _ else _] => destruct b end; [left; reflexivity|right; reflexivity].
  - exfalso. cbn [act snd] in HE. rewrite HW in HE. discriminate HE.
  - split; [exact A1|]. right. split; [exact A2|]. intros s' E. exfalso. exact (A3 s' E).
Qed.

Lemma scan_words : forall f w v, warned v = false -> errors (fst (scan f w v)) = nil ->
  exists k, filter (starts_with "_") (words (fst (scan f w v))) = map anonymous (seq (S (unique v)) k) /\
  forall s, In s (words (fst (scan f w v))) -> starts_with "_" s = false ->
    exists d s', s = d :: s' /\ letter d = true.
Proof.
  induction f as [|f IH]; intros w v HW HE.
  - exists 0. split; [reflexivity|intros s []].
  - destruct w as [|c w]; [exists 0; split; [reflexivity|intros s []]|].
    destruct (lex1_total c w v) as [x [w' [v' [E [_ [_ _]]]]]].
    rewrite (scan_step f c w v x w' v' E) in *. cbn [errors words flat_map] in *.
    apply app_eq_nil in HE. destruct HE as [HE1 HE2].
    destruct (lex1_words c w v x w' v' E HW HE1) as [HW' HC].
    assert (HR : lx_out x <> OFault ->
      exists k, filter (starts_with "_") (words (fst (scan f w' v'))) = map anonymous (seq (S (unique v')) k) /\
      forall s, In s (words (fst (scan f w' v'))) -> starts_with "_" s = false ->
        exists d s', s = d :: s' /\ letter d = true).
    { intro NF. apply IH; [exact HW'|]. destruct (lx_out x); try exact HE2. congruence. }
    destruct HC as [[HU [HO|HO]]|[HU HO]].
    + rewrite HO in *. destruct (HR ltac:(discriminate)) as [k [K1 K2]].
      exists (S k). cbn [app filter]. fold (words (fst (scan f w' v'))).
      change (starts_with "_" (anonymous (unique v'))) with true. cbv iota.
      rewrite K1, HU. split; [reflexivity|].
      intros s [<-|Hs] Hu; [discriminate Hu|exact (K2 s Hs Hu)].
    + rewrite HO. exists 0. split; [reflexivity|intros s []].
    + rewrite <- HU.
      destruct (lx_out x) as [|t|e o|] eqn:EO.
      * destruct (HR ltac:(discriminate)) as [k [K1 K2]]. exists k. split; [exact K1|exact K2].
      * destruct (HR ltac:(discriminate)) as [k [K1 K2]]. exists k.
        destruct t; try (split; [exact K1|exact K2]).
        destruct (HO s eq_refl) as [B1 [B2 B3]].
        cbn [app filter]. rewrite B1. split; [exact K1|].
        intros s0 [<-|Hs] Hu; [exact B3|exact (K2 s0 Hs Hu)].
      * destruct (HR ltac:(discriminate)) as [k [K1 K2]]. exists k. split; [exact K1|exact K2].
      * exists 0. split; [reflexivity|intros s []].
Qed.

(** In a text scanned without errors, the names made for "_" are different
    from each other, from those made before, and from all other words. *)
Theorem anonymous_names_partial : forall w v, warned v = false -> errors (fst (scan_all w v)) = nil ->
  exists k, filter (starts_with "_") (words (fst (scan_all w v))) = map anonymous (seq (S (unique v)) k) /\
    NoDup (map anonymous (seq 1 (unique v + k))) /\
    forall s, In s (words (fst (scan_all w v))) ->
      In s (map anonymous (seq (S (unique v)) k)) \/
      (forall m, s <> anonymous m).
Proof.
  intros w v HW HE. destruct (scan_words (List.length w) w v HW HE) as [k [K1 K2]].
  exists k. split; [exact K1|]. split.
  - assert (G : forall l, NoDup l -> NoDup (map anonymous l)).
    { induction l as [|a l IH]; intro H; [constructor|]. inversion H as [|? ? N1 N2]; subst.
      cbn [map]. constructor; [|exact (IH N2)]. intro X. apply in_map_iff in X.
      destruct X as [b [Eb Hb]]. apply N1. unfold anonymous in Eb. injection Eb as Eb.
      apply decimal_inj in Eb. subst b. exact Hb. }
    apply G, seq_NoDup.
  - intros s Hs. destruct (starts_with "_" s) eqn:E.
    + left. rewrite <- K1. apply filter_In. split; [exact Hs|exact E].
    + right. intros m ->. cbn in E. discriminate E.
Qed.

(** But an operator in backquotes may have the same symbol, ... *)
Theorem anonymous_clash_refuted :
  let w := backquote :: chars "_1" ++ backquote :: chars " _" in
  errors (fst (scan_all w init)) = nil /\
  tokens (fst (scan_all w init)) = [TOp (anonymous 1); TWord (anonymous 1)].
Proof. vm_compute. split; reflexivity. Qed.

Definition out_anonymous (k : nat) : outcome :=
  if List.length (anonymous k) <? 10 then OTok (TWord (anonymous k)) else OFault.

Lemma act_anonymous : forall s v,
  act 21 s v = ({| line := line v; unique := S (unique v); warned := warned v |}, out_anonymous (S (unique v))).
Proof. intros s v. reflexivity. Qed.

Lemma firstn_cons1 : forall (c : ascii) w, firstn 1 (c :: w) = [c].
Proof. reflexivity. Qed.
Lemma skipn_cons1 : forall (c : ascii) w, skipn 1 (c :: w) = w.
Proof. reflexivity. Qed.
Lemma ctx21 : 1 - ctx 21 = 1.
Proof. reflexivity. Qed.

Lemma lex1_anonymous : forall rest v, lex1 ("_"%char :: " "%char :: rest) v =
  Some ({| lx_text := ["_"%char]; lx_line := line v; lx_out := out_anonymous (S (unique v)) |}, " "%char :: rest,
        {| line := line v; unique := S (unique v); warned := warned v |}).
Proof.
  intros rest v. rewrite (lex1_at "_" (" "%char :: rest) v 1 21) by (apply longest_underscore; reflexivity).
  rewrite ctx21, firstn_cons1, skipn_cons1, act_anonymous. reflexivity.
Qed.

Lemma out_anonymous_fits : forall k, out_anonymous k <> OFault -> List.length (anonymous k) < 10.
Proof.
  intros k H. unfold out_anonymous in H.
  destruct (Nat.ltb_spec (List.length (anonymous k)) 10); [assumption|congruence].
Qed.

Fixpoint blanked (n : nat) : text :=
  match n with 0 => nil | S n' => "_"%char :: " "%char :: blanked n' end.

Lemma scan_here : forall c s v x w' v', lex1 (c :: s) v = Some (x, w', v') ->
  In x (fst (scan_all (c :: s) v)).
Proof.
  intros c s v x w' v' E. unfold scan_all. cbn [List.length].
  rewrite (scan_step _ _ _ _ _ _ _ E). left. reflexivity.
Qed.

Lemma scan_later : forall s rest v v1 o, s <> nil -> o <> OFault ->
  lex1 (s ++ rest) v = Some ({| lx_text := s; lx_line := line v; lx_out := o |}, rest, v1) ->
  forall x, In x (fst (scan_all rest v1)) -> In x (fst (scan_all (s ++ rest) v)).
Proof.
  intros s rest v v1 o H1 H2 H3 x Hx. rewrite (scan_all_first s rest v v1 o H1 H2 H3). right. exact Hx.
Qed.

Lemma scan_after : forall rest v v1 o, o <> OFault ->
  lex1 ("_"%char :: " "%char :: rest) v =
    Some ({| lx_text := ["_"%char]; lx_line := line v; lx_out := o |}, " "%char :: rest, v1) ->
  forall x, In x (fst (scan_all rest v1)) -> In x (fst (scan_all ("_"%char :: " "%char :: rest) v)).
Proof.
  intros rest v v1 o NF E x Hx.
  apply (scan_later ["_"%char] (" "%char :: rest) v v1 o); [discriminate|exact NF|exact E|].
  apply (scan_later [" "%char] rest v1 v1 OSkip); [discriminate|discriminate| |exact Hx].
  apply (lex1_tok _ _ _ 1 1); [discriminate|apply longest_blank; reflexivity|reflexivity|reflexivity].
Qed.

Lemma underscores : forall n v,
  (forall x, In x (fst (scan_all (blanked n) v)) -> lx_out x <> OFault) ->
  forall k, unique v < k <= unique v + n -> List.length (anonymous k) < 10.
Proof.
  induction n as [|n IH]; intros v H k Hk; [lia|].
  cbn [blanked] in H. pose proof (lex1_anonymous (blanked n) v) as E.
  generalize dependent (blanked n). intros rest IH H E.
  remember {| line := line v; unique := S (unique v); warned := warned v |} as v1 eqn:EV.
  assert (HU : unique v1 = S (unique v)) by (rewrite EV; reflexivity). clear EV.
  pose proof (out_anonymous_fits (S (unique v))) as HF.
  remember (out_anonymous (S (unique v))) as o eqn:EO. clear EO.
  pose proof (H _ (scan_here _ _ _ _ _ _ E)) as NF. cbn [lx_out] in NF.
  destruct (Nat.eq_dec k (S (unique v))) as [->|Nk]; [exact (HF NF)|].
  apply (IH v1); [|lia].
  intros x Hx. exact (H x (scan_after rest v v1 o NF E x Hx)).
Qed.

Lemma long_name : forall e, exists N, S e <= List.length (anonymous N) /\ 0 < N.
Proof.
  intro e. exists (10 ^ e). split; [|apply Nat.neq_0_lt_0, Nat.pow_nonzero; lia].
  unfold anonymous. cbn [List.length]. pose proof (decimal_length e (10 ^ e) (le_n _)). lia.
Qed.

(** ... and with enough of them the buffer for the name overflows. *)
Theorem many_underscores_refuted :
  exists n x, In x (fst (scan_all (blanked n) init)) /\ lx_out x = OFault.
Proof.
  destruct (long_name 9) as [N [HD H0]]. exists N.
  destruct (Exists_dec (fun x => lx_out x = OFault) (fst (scan_all (blanked N) init)))
    as [H|H].
  - intro x. destruct (lx_out x); [right; discriminate|right; discriminate|right; discriminate|left; reflexivity].
  - apply Exists_exists in H. exact H.
  - exfalso.
    assert (G : forall x, In x (fst (scan_all (blanked N) init)) -> lx_out x <> OFault).
    { intros x Hx E. apply H. apply Exists_exists. exists x. tauto. }
    pose proof (underscores N init G N ltac:(cbn [init unique]; lia)). lia.
Qed.

(** A text with most kinds of tokens. *)
Example spelled_case :
  let w := chars "f(x):=x+-1.5..y -- c" ++ [nl] ++ chars "a->b" in
  tokens (fst (scan_all w init)) =
  [TWord (chars "f"); TPunct "("; TWord (chars "x"); TPunct ")"; TColonEq; TWord (chars "x");
   TOp (chars "+-"); TReal (chars "1.5"); TDotDot; TWord (chars "y");
   TWord (chars "a"); TArrow; TWord (chars "b")].
Proof. vm_compute. reflexivity. Qed.

(** The characters the specification speaks of. *)
Theorem character_classes : forall c,
  (letter c = true <-> In c (chars "ABCDEFGHIJKLMNOPQRSTUVWXYZabcdefghijklmnopqrstuvwxyz")) /\
  (digit c = true <-> In c (chars "0123456789")) /\
  (alnum c = true <-> letter c = true \/ digit c = true) /\
  (idchar c = true <-> alnum c = true \/ c = "_"%char) /\
  (blank c = true <-> In (nat_of_ascii c) [9; 12; 13; 32]) /\
  (opchar c = true <-> In c (chars "-~@#$%^&*+=<>/\|")) /\
  nat_of_ascii nl = 10 /\ nat_of_ascii dquote = 34 /\ nat_of_ascii squote = 39 /\
  nat_of_ascii backslash = 92 /\ nat_of_ascii backquote = 96.
Proof.
  assert (O : forall s c, one_of s c = true <-> In c s).
  { intros s c. unfold one_of. rewrite existsb_exists. split.
    - intros [x [Hx E]]. apply Ascii.eqb_eq in E. subst x. exact Hx.
    - intro H. exists c. split; [exact H|apply Ascii.eqb_refl]. }
  intro c. rewrite <- !O.
  assert (ON : forall k l, In k l <-> existsb (Nat.eqb k) l = true).
  { intros k l. rewrite existsb_exists. split.
    - intro H. exists k. split; [exact H|apply Nat.eqb_refl].
    - intros [x [Hx E]]. apply Nat.eqb_eq in E. subst x. exact Hx. }
  rewrite (ON (nat_of_ascii c)).
  assert (B : forall a b : bool, a = b -> (a = true <-> b = true)) by (intros a b ->; tauto).
  split; [apply B; revert c; intros [[] [] [] [] [] [] [] []]; vm_compute; reflexivity|].
  split; [apply B; revert c; intros [[] [] [] [] [] [] [] []]; vm_compute; reflexivity|].
  split; [unfold alnum; apply orb_true_iff|].
  split; [unfold idchar; rewrite orb_true_iff, Ascii.eqb_eq; tauto|].
  split; [apply B; revert c; intros [[] [] [] [] [] [] [] []]; vm_compute; reflexivity|].
  split; [apply B; revert c; intros [[] [] [] [] [] [] [] []]; vm_compute; reflexivity|].
  vm_compute. repeat split; reflexivity.
Qed.

Print Assumptions character_classes.
Print Assumptions scanner_covers.
Print Assumptions scanner_longest_match.
Print Assumptions spelled_tokens.
Print Assumptions operator_before_comment_refuted.
Print Assumptions operator_at_end_refuted.
Print Assumptions operator_lexemes.
Print Assumptions no_comment_in_operator.
Print Assumptions comment_skipped.
Print Assumptions line_numbers_exact.
Print Assumptions line_numbers_partial.
Print Assumptions line_numbers_refuted.
Print Assumptions code_names_distinct_partial.
Print Assumptions code_names_are_identifiers.
Print Assumptions long_operator_refuted.
Print Assumptions anonymous_names_partial.
Print Assumptions anonymous_clash_refuted.
Print Assumptions many_underscores_refuted.
