(** * C154: constants that are not closed are reported. *)

Require Import List Arith Lia Bool Ascii String.
Import ListNotations.
Require Import Verif.LxModel Verif.LxSpec Verif.LxGen Verif.LxTok Verif.LxLines Verif.PropsScanner.
Local Open Scope list_scope.

(** The text after an opening quote that is not closed ends here: at the end of
    the file or the line, or at a backslash with nothing after it. *)
Definition broken_off (w : text) : Prop := w = nil \/ (exists w', w = nl :: w') \/ w = [backslash].
Definition const_token (q : ascii) (s : text) : token := if Ascii.eqb q squote then TChar (cstr s) else TString (cstr s).
Definition const_error (q : ascii) : error := if Ascii.eqb q squote then UnterminatedChar else UnterminatedString.

(** Every text after a quote: what is inside, and then the closing quote or not. *)
Lemma constant_split : forall q k w, List.length w <= k -> exists s w', w = s ++ w' /\ inside q s /\ ((exists w'', w' = q :: w'') \/ broken_off w').
Proof.
  intros q k. induction k as [|k IH]; intros w H.
  - destruct w; [|cbn in H; lia]. exists nil, nil. split; [reflexivity|]. split; [constructor|]. right. left. reflexivity.
  - destruct w as [|c w]; [exists nil, nil; split; [reflexivity|]; split; [constructor|]; right; left; reflexivity|].
    cbn [List.length] in H.
    destruct (ascii_dec c q) as [->|Nq]; [exists nil, (q :: w); split; [reflexivity|]; split; [constructor|]; left; exists w; reflexivity|].
    destruct (ascii_dec c nl) as [->|Nn]; [exists nil, (nl :: w); split; [reflexivity|]; split; [constructor|]; right; right; left; exists w; reflexivity|].
    destruct (ascii_dec c backslash) as [->|Nb].
    + destruct w as [|d w]; [exists nil, [backslash]; split; [reflexivity|]; split; [constructor|]; right; right; right; reflexivity|].
      cbn [List.length] in H. destruct (IH w ltac:(lia)) as (s & w' & -> & I & T). exists (backslash :: d :: s), w'. split; [reflexivity|]. split; [now constructor|exact T].
    + destruct (IH w ltac:(lia)) as (s & w' & -> & I & T). exists (c :: s), w'. split; [reflexivity|]. split; [now constructor|exact T].
Qed.

Lemma munch_broken : forall q i s, (q = squote \/ q = dquote) -> inside q s -> forall w n best, broken_off w ->
  munch (const_state i q) (s ++ w) n best = Some (n + List.length s, S i).
Proof.
  intros q i s Hq HI. induction HI as [|c s H1 H2 H3 HI IH|c s HI IH]; intros w n best B.
  - cbn [app List.length]. rewrite Nat.add_0_r. destruct B as [-> | [(w' & ->) | ->]]; destruct Hq as [-> | ->]; reflexivity.
  - cbn [app]. rewrite munch_cons, (body_plain i q c Hq H1 H2 H3), IH by exact B. cbn [List.length]. f_equal. f_equal. lia.
  - cbn [app]. rewrite munch_cons, munch_cons, (body_escape i q c Hq), IH by exact B. cbn [List.length]. f_equal. f_equal. lia.
Qed.

Lemma longest_broken : forall q s w, (q = squote \/ q = dquote) -> inside q s -> broken_off w ->
  longest (q :: s ++ w) = Some (S (List.length s), if Ascii.eqb q squote then 17 else 19).
Proof.
  intros q s w Hq H B. rewrite longest_cons. destruct Hq as [-> | ->].
  - change (step start squote) with (const_state 16 squote ++ [(26, REps)]).
    rewrite (proj2 (const_tail 16 squote _ _ _ (or_introl eq_refl))), munch_broken; auto.
  - change (step start dquote) with (const_state 18 dquote ++ [(26, REps)]).
    rewrite (proj2 (const_tail 18 dquote _ _ _ (or_intror eq_refl))), munch_broken; auto.
Qed.

(** From a quote on the scanner either finds a constant as specified, or reports
    that the constant is not closed, at the line of the quote, and goes on where the
    text breaks off. *)
Theorem constant_or_reported : forall q w v, q = squote \/ q = dquote ->
  exists s w', w = s ++ w' /\ inside q s /\
   ((exists w'', w' = q :: w'' /\ lex1 (q :: w) v = Some ({| lx_text := q :: s ++ [q]; lx_line := line v; lx_out := OTok (const_token q (q :: s ++ [q])) |}, w'', v)) \/
    (broken_off w' /\ lex1 (q :: w) v = Some ({| lx_text := q :: s; lx_line := line v; lx_out := OErr (const_error q) (Some (const_token q (q :: s))) |}, w', v))).
Proof.
  intros q w v Hq. destruct (constant_split q (List.length w) w (le_n _)) as (s & w' & -> & I & [(w'' & ->)|B]); exists s; eexists; (split; [reflexivity|]); (split; [exact I|]).
  - left. exists w''. split; [reflexivity|]. replace (q :: s ++ q :: w'') with ((q :: s ++ [q]) ++ w'') by (cbn [app]; now rewrite <- app_assoc).
    destruct Hq as [-> | ->].
    + apply lex1_tok with (n := S (List.length (s ++ [squote]))) (i := 16); [discriminate|cbn [app]; apply longest_char; exact I|cbn [List.length]; apply Nat.sub_0_r|reflexivity].
    + apply lex1_tok with (n := S (List.length (s ++ [dquote]))) (i := 18); [discriminate|cbn [app]; apply longest_string; exact I|cbn [List.length]; apply Nat.sub_0_r|reflexivity].
  - right. split; [exact B|]. replace (q :: s ++ w') with ((q :: s) ++ w') by reflexivity. pose proof (longest_broken q s w' Hq I B) as L.
    destruct Hq as [-> | ->].
    + apply lex1_tok with (n := S (List.length s)) (i := 17); [discriminate|cbn [app]; exact L|cbn [List.length]; apply Nat.sub_0_r|reflexivity].
    + apply lex1_tok with (n := S (List.length s)) (i := 19); [discriminate|cbn [app]; exact L|cbn [List.length]; apply Nat.sub_0_r|reflexivity].
Qed.

Lemma lex1_head : forall c w v x w2 v2 q u, lex1 (c :: w) v = Some (x, w2, v2) -> lx_text x = q :: u -> c = q.
Proof.
  intros c w v x w2 v2 q u E Hx. destruct (longest_choice c w) as (n & i & H1 & _). rewrite (lex1_at c w v n i H1) in E. injection E as E _ _. rewrite <- E in Hx. cbn [lx_text] in Hx.
  destruct (n - ctx i); [discriminate Hx|]. cbn [firstn] in Hx. now injection Hx as -> _.
Qed.
(** In a whole file: every lexeme that begins with a quote is a proper constant or
    is reported.  In the second case the file, the line, or the backslash ends there. *)
Theorem constants_reported : forall w v pre x post q u, fst (scan_all w v) = pre ++ x :: post -> q = squote \/ q = dquote -> lx_text x = q :: u ->
  (exists s, u = s ++ [q] /\ inside q s /\ lx_out x = OTok (const_token q (q :: u)) /\ ~ inside q u) \/
  (inside q u /\ lx_out x = OErr (const_error q) (Some (const_token q (q :: u))) /\ In (const_error q) (errors (fst (scan_all w v))) /\
   exists rest, w = flat_map lx_text pre ++ lx_text x ++ rest /\ broken_off rest).
Proof.
  intros w v pre x post q u H Hq Hx. pose proof H as H'. unfold scan_all in H'. destruct (scan_rounds _ _ _ _ _ _ H') as (w1 & v1 & w2 & v2 & E & N & A).
  destruct w1 as [|c w1]; [congruence|].
  assert (c = q).
  { exact (lex1_head _ _ _ _ _ _ _ _ E Hx). }
  subst c. destruct (constant_or_reported q w1 v1 Hq) as (s & w' & -> & I & [(w'' & -> & L)|[B L]]); rewrite L in E; injection E as E _ _; subst x; cbn [lx_text lx_out] in *; injection Hx as Hx; subst u.
  - left. exists s. split; [reflexivity|]. split; [exact I|]. split; [reflexivity|]. clear - I Hq. intro J.
    assert (G : forall t, inside q t -> t = s ++ [q] -> False); [|exact (G _ J eq_refl)].
    induction I as [|c s H1 H2 H3 I IH|c s I IH]; intros t J' E; cbn [app] in E; subst t.
    + inversion J'; subst; try congruence; destruct Hq; congruence.
    + inversion J'; subst; try congruence; match goal with X : inside q _ |- _ => exact (IH X _ X eq_refl) end.
    + inversion J'; subst; try congruence; match goal with X : inside q _ |- _ => exact (IH X _ X eq_refl) end.
  - right. split; [exact I|]. split; [reflexivity|]. split.
    + unfold errors. apply in_flat_map. eexists. split; [rewrite H; apply in_or_app; right; left; reflexivity|]. cbn [lx_out out_errors]. left. reflexivity.
    + exists w'. split; [|exact B]. rewrite <- A. reflexivity.
Qed.

Example constants_case : map (fun x => (lx_text x, lx_line x, out_errors (lx_out x))) (fst (scan_all ([dquote] ++ chars "ab" ++ [nl; squote] ++ chars "c" ++ [squote; dquote; backslash]) init)) =
  [(dquote :: chars "ab", 1, [UnterminatedString]); ([nl], 1, []); (squote :: chars "c" ++ [squote], 2, []); ([dquote], 2, [UnterminatedString]); ([backslash], 2, [Ignored backslash])].
Proof. vm_compute. reflexivity. Qed.

Print Assumptions constant_or_reported.
Print Assumptions constants_reported.
