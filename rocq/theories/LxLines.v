(** * Lines, operators and generated names *)

Require Import List Arith Lia Bool Ascii String.
Import ListNotations.
Require Import Verif.LxModel Verif.LxSpec Verif.LxGen Verif.LxTok.
Local Open Scope list_scope.

Definition ctx (i : nat) : nat := snd (nth i rules (RNone, 0)).

(** ** Rounds *)

(** What one round does, in terms of the choice. *)
Lemma lex1_at : forall c w v n i, longest (c :: w) = Some (n, i) ->
  lex1 (c :: w) v =
  Some ({| lx_text := firstn (n - ctx i) (c :: w); lx_line := line v;
           lx_out := snd (act i (firstn (n - ctx i) (c :: w)) v) |},
        skipn (n - ctx i) (c :: w), fst (act i (firstn (n - ctx i) (c :: w)) v)).
Proof.
  intros c w v n i H. unfold lex1. rewrite H. fold (ctx i).
  destruct (act i (firstn (n - ctx i) (c :: w)) v) as [v' o]. reflexivity.
Qed.

(** Scanning does not depend on the fuel. *)
Lemma scan_fuel : forall f f' w v, List.length w <= f -> List.length w <= f' -> scan f w v = scan f' w v.
Proof.
  induction f as [|f IH]; intros f' w v H1 H2.
  - destruct w; [|cbn in H1; lia]. destruct f'; reflexivity.
  - destruct w as [|c w]; [destruct f'; reflexivity|]. destruct f' as [|f']; [cbn in H2; lia|].
    cbn [scan]. destruct (lex1_total c w v) as [x [w' [v' [E [N [A _]]]]]]. rewrite E.
    assert (HL : List.length w' <= f /\ List.length w' <= f').
    { apply (f_equal (@List.length ascii)) in A. rewrite app_length in A. cbn in A, H1, H2.
      destruct (lx_text x); [congruence|cbn in A; lia]. }
    rewrite (IH f' w' v') by tauto. reflexivity.
Qed.

Lemma scan_all_cons : forall c w v x w' v', lex1 (c :: w) v = Some (x, w', v') -> lx_out x <> OFault ->
  lx_text x <> nil -> lx_text x ++ w' = c :: w ->
  scan_all (c :: w) v = (x :: fst (scan_all w' v'), snd (scan_all w' v')).
Proof.
  intros c w v x w' v' E NF NT A. unfold scan_all.
  assert (HL : List.length w' <= List.length w).
  { apply (f_equal (@List.length ascii)) in A. rewrite app_length in A. cbn in A.
    destruct (lx_text x); [congruence|cbn in A; lia]. }
  cbn [List.length scan]. rewrite E.
  rewrite (scan_fuel (List.length w) (List.length w') w' v' HL (le_n _)).
  destruct (scan (List.length w') w' v') as [xs v'']. cbn [fst snd].
  destruct (lx_out x); try reflexivity. congruence.
Qed.

Lemma scan_step : forall f c w v x w' v', lex1 (c :: w) v = Some (x, w', v') ->
  fst (scan (S f) (c :: w) v) = x :: match lx_out x with OFault => nil | _ => fst (scan f w' v') end.
Proof.
  intros f c w v x w' v' E. cbn [scan]. rewrite E.
  destruct (scan f w' v') as [xs v'']. destruct (lx_out x); reflexivity.
Qed.

Lemma scan_uncons : forall f c w v y w' v' p pre x post, lex1 (c :: w) v = Some (y, w', v') ->
  fst (scan (S f) (c :: w) v) = (p :: pre) ++ x :: post ->
  p = y /\ fst (scan f w' v') = pre ++ x :: post.
Proof.
  intros f c w v y w' v' p pre x post E H. rewrite (scan_step f c w v y w' v' E) in H.
  rewrite <- app_comm_cons in H. injection H as H1 H2. split; [symmetry; exact H1|].
  destruct (lx_out y); try exact H2. destruct pre; discriminate H2.
Qed.

Lemma scan_unhead : forall f c w v y w' v' x post, lex1 (c :: w) v = Some (y, w', v') ->
  fst (scan (S f) (c :: w) v) = nil ++ x :: post -> y = x.
Proof.
  intros f c w v y w' v' x post E H. rewrite (scan_step f c w v y w' v' E) in H.
  cbn [app] in H. injection H as H1 _. exact H1.
Qed.

(** Every lexeme comes about in some round. *)
Lemma scan_rounds : forall f w v pre x post, fst (scan f w v) = pre ++ x :: post ->
  exists w1 v1 w2 v2, lex1 w1 v1 = Some (x, w2, v2) /\ w1 <> nil /\
    flat_map lx_text pre ++ w1 = w.
Proof.
  induction f as [|f IH]; intros w v pre x post H; [destruct pre; discriminate H|].
  destruct w as [|c w]; [destruct pre; discriminate H|].
  destruct (lex1_total c w v) as [y [w' [v' [E [N [A _]]]]]].
  destruct pre as [|p pre].
  - apply (scan_unhead f c w v y w' v' x post E) in H.
    subst y. exists (c :: w), v, w', v'. split; [exact E|]. split; [discriminate|reflexivity].
  - apply (scan_uncons f c w v y w' v' p pre x post E) in H. destruct H as [-> X].
    destruct (IH w' v' pre x post X) as [w1 [v1 [w2 [v2 [B1 [B2 B3]]]]]].
    exists w1, v1, w2, v2. split; [exact B1|]. split; [exact B2|].
    cbn [flat_map]. rewrite <- app_assoc, B3. exact A.
Qed.

(** ** Newlines in lexemes *)
Fixpoint nonl (r : re) : bool :=
  match r with
  | RNone => true | REps => true
  | RChr k => negb (inC k nl)
  | RSeq a b => nonl a && nonl b
  | RAlt a b => nonl a && nonl b
  | RStar a => nonl a
  end.

Lemma nonl_L : forall r u, L r u -> nonl r = true -> ~ In nl u.
Proof.
  intros r u H. induction H as [|k c Hk|a b u v H1 IH1 H2 IH2|a b u H IH|a b u H IH|a|a u v H1 IH1 H2 IH2];
    cbn [nonl]; intro N.
  - intros [].
  - intros [->|[]]. rewrite Hk in N. discriminate N.
  - apply andb_true_iff in N. intro I. apply in_app_or in I. tauto.
  - apply andb_true_iff in N. tauto.
  - apply andb_true_iff in N. tauto.
  - intros [].
  - intro I. apply in_app_or in I. cbn [nonl] in IH2. tauto.
Qed.

Lemma lexeme_newlines : forall i u, matched i u -> i = 0 \/ (16 <= i <= 19) \/
  ~ In nl (firstn (List.length u - ctx i) u).
Proof.
  intros i u H. pose proof (trailing_shorter i u H) as HT. destruct H as [Hi HL].
  destruct (Nat.eq_dec i 0) as [E0|N0]; [left; exact E0|right].
  destruct (le_lt_dec 16 i) as [H1|H1]; [destruct (le_lt_dec i 19) as [H2|H2]; [left; lia|]|]; right.
  - assert (C : ctx i = 0 /\ nonl (fst (nth i rules (RNone, 0))) = true).
    { cbn in Hi. assert (X : i = 20 \/ i = 21 \/ i = 22 \/ i = 23 \/ i = 24 \/ i = 25 \/ i = 26) by lia.
      destruct X as [->|[->|[->|[->|[->|[->| ->]]]]]]; split; reflexivity. }
    destruct C as [C1 C2]. rewrite C1, Nat.sub_0_r, firstn_all. exact (nonl_L _ _ HL C2).
  - assert (C : (ctx i = 0 /\ nonl (fst (nth i rules (RNone, 0))) = true) \/
      (ctx i = 1 /\ exists a, fst (nth i rules (RNone, 0)) = r_ahead a /\ nonl a = true)).
    { do 16 (destruct i as [|i]; [first [lia | left; split; reflexivity |
         right; split; [reflexivity|eexists; split; [reflexivity|reflexivity]]]|]). lia. }
    destruct C as [[C1 C2]|[C1 [a [C2 C3]]]].
    + rewrite C1, Nat.sub_0_r, firstn_all. exact (nonl_L _ _ HL C2).
    + rewrite C2 in HL. apply L_seq_chr in HL. destruct HL as [v [c [-> [Hv _]]]].
      rewrite C1, app_length. cbn [List.length]. rewrite Nat.add_sub, firstn_app, Nat.sub_diag, firstn_all.
      cbn [firstn]. rewrite app_nil_r. exact (nonl_L _ _ Hv C3).
Qed.

Lemma newlines_none : forall u, ~ In nl u -> newlines u = 0.
Proof. intros u H. apply count_occ_not_In. exact H. Qed.

Lemma newlines_app : forall u v, newlines (u ++ v) = newlines u + newlines v.
Proof. intros u v. apply count_occ_app. Qed.

(** Is the lexeme a character or string constant (or the beginning of one)? *)
Definition constant (s : text) : bool :=
  match s with c :: _ => Ascii.eqb c squote || Ascii.eqb c dquote | nil => false end.

(** Newlines inside constants. *)
Definition hidden (s : text) : nat := if constant s then newlines s else 0.

Lemma matched_first : forall i u, matched i u -> 16 <= i <= 19 -> constant u = true.
Proof.
  intros i u [_ H] Hi.
  assert (X : i = 16 \/ i = 17 \/ i = 18 \/ i = 19) by lia.
  destruct X as [->|[->|[->| ->]]]; cbn [nth rules fst] in H; apply L_is_seq in H;
    destruct H as [v [-> _]]; reflexivity.
Qed.

Lemma act_line : forall i s v, line (fst (act i s v)) = line v + (if i =? 0 then 1 else 0).
Proof.
  intros i s v. do 27 (destruct i as [|i]; [cbn; lia|]). cbn. lia.
Qed.

(** The line number after a round. *)
Lemma lex1_line : forall w v x w' v', lex1 w v = Some (x, w', v') ->
  lx_line x = line v /\ line v' + hidden (lx_text x) = line v + newlines (lx_text x).
Proof.
  intros [|c w] v x w' v' H; [discriminate H|].
  destruct (longest_choice c w) as [n [i [H1 [H2 [H3 [H4 _]]]]]].
  rewrite (lex1_at c w v n i H1) in H. injection H as <- _ <-. cbn [lx_text lx_line].
  split; [reflexivity|]. rewrite act_line.
  assert (HN := lexeme_newlines i _ H4). rewrite firstn_length_le, firstn_firstn in HN by exact H3.
  rewrite Nat.min_l in HN by lia.
  destruct HN as [->|[HN|HN]].
  - assert (E : firstn n (c :: w) = [nl]) by (destruct H4 as [_ H4]; apply L_is in H4; exact H4).
    change (ctx 0) with 0. rewrite Nat.sub_0_r, E.
    change (hidden [nl]) with 0. change (newlines [nl]) with 1. change (0 =? 0) with true. cbv iota. lia.
  - assert (C : ctx i = 0) by (assert (X : i = 16 \/ i = 17 \/ i = 18 \/ i = 19) by lia;
      destruct X as [->|[->|[->| ->]]]; reflexivity).
    rewrite C, Nat.sub_0_r. unfold hidden. rewrite (matched_first i _ H4 HN).
    destruct (Nat.eqb_spec i 0); lia.
  - rewrite (newlines_none _ HN). unfold hidden. rewrite (newlines_none _ HN).
    destruct (Nat.eqb_spec i 0) as [->|_].
    + exfalso. apply HN. destruct H4 as [_ H4]. apply L_is in H4.
      change (ctx 0) with 0. rewrite Nat.sub_0_r, H4. left. reflexivity.
    + destruct (constant (firstn (n - ctx i) (c :: w))); lia.
Qed.

Definition hidden_in (xs : list lexeme) : nat := list_sum (map (fun x => hidden (lx_text x)) xs).

Lemma scan_line : forall f w v pre x post, fst (scan f w v) = pre ++ x :: post ->
  lx_line x + hidden_in pre = line v + newlines (flat_map lx_text pre).
Proof.
  induction f as [|f IH]; intros w v pre x post H; [destruct pre; discriminate H|].
  destruct w as [|c w]; [destruct pre; discriminate H|].
  destruct (lex1_total c w v) as [y [w' [v' [E [N [A B]]]]]].
  destruct (lex1_line _ _ _ _ _ E) as [C1 C2].
  destruct pre as [|p pre].
  - apply (scan_unhead f c w v y w' v' x post E) in H. subst y. cbn [hidden_in map list_sum flat_map].
    rewrite C1. reflexivity.
  - apply (scan_uncons f c w v y w' v' p pre x post E) in H. destruct H as [-> X].
    specialize (IH w' v' pre x post X).
    cbn [flat_map]. rewrite newlines_app. unfold hidden_in in *. cbn [map list_sum fold_right].
    fold (list_sum (map (fun z => hidden (lx_text z)) pre)). lia.
Qed.

(** ** Generated code names *)
Definition name_chars : list ascii := (chars "~@#$%^&*+=<>/|-{}.") ++ [backslash].

Lemma in_name_chars : forall c, opchar c = true -> In c name_chars.
Proof.
  intros c H. unfold name_chars.
  chr c; vm_compute in H; try discriminate H; vm_compute; tauto.
Qed.

Lemma translate_inj : forall c d, In c name_chars -> In d name_chars -> translate c = translate d -> c = d.
Proof.
  assert (T : forallb (fun c => forallb (fun d => implb (Ascii.eqb (translate c) (translate d)) (Ascii.eqb c d))
                name_chars) name_chars = true) by (vm_compute; reflexivity).
  intros c d Hc Hd E. rewrite forallb_forall in T. specialize (T c Hc). rewrite forallb_forall in T.
  specialize (T d Hd). rewrite E, Ascii.eqb_refl in T. cbn in T. apply Ascii.eqb_eq. exact T.
Qed.

Lemma translate_alnum : forall c, In c name_chars -> alnum (translate c) = true.
Proof.
  assert (T : forallb (fun c => alnum (translate c)) name_chars = true) by (vm_compute; reflexivity).
  rewrite forallb_forall in T. exact T.
Qed.

Lemma map_inj_on : forall (g : ascii -> ascii) (P : ascii -> Prop),
  (forall c d, P c -> P d -> g c = g d -> c = d) ->
  forall s s', (forall c, In c s -> P c) -> (forall c, In c s' -> P c) -> map g s = map g s' -> s = s'.
Proof.
  intros g P HI. induction s as [|c s IH]; intros [|d s'] H H' E; try discriminate E; [reflexivity|].
  cbn [map] in E. injection E as E1 E2. f_equal.
  - apply HI; [apply H; left; reflexivity|apply H'; left; reflexivity|exact E1].
  - apply IH; [intros x Hx; apply H; right; exact Hx|intros x Hx; apply H'; right; exact Hx|exact E2].
Qed.

Lemma map_translate_inj : forall s s', (forall c, In c s -> In c name_chars) ->
  (forall c, In c s' -> In c name_chars) -> map translate s = map translate s' -> s = s'.
Proof. exact (map_inj_on translate (fun c => In c name_chars) translate_inj). Qed.

(** ** Decimal numerals *)
Definition dval (c : ascii) : nat := code c - 48.
Definition eval (a : nat) (l : text) : nat := fold_left (fun a c => 10 * a + dval c) l a.

Lemma dval_digit : forall d, d < 10 -> dval (ascii_of_nat (48 + d)) = d.
Proof. intros d H. do 10 (destruct d as [|d]; [reflexivity|]). lia. Qed.

Lemma eval_digits : forall f n acc, n < f -> eval 0 (digits f n acc) = eval n acc.
Proof.
  induction f as [|f IH]; intros n acc H; [lia|]. cbn [digits].
  assert (D := Nat.div_mod n 10 ltac:(lia)).
  assert (M := Nat.mod_upper_bound n 10 ltac:(lia)).
  destruct (Nat.eqb_spec (n / 10) 0) as [E|E].
  - unfold eval. cbn [fold_left]. rewrite (dval_digit _ M). f_equal. lia.
  - rewrite IH.
    + unfold eval. cbn [fold_left]. rewrite (dval_digit _ M). f_equal. lia.
    + assert (n / 10 < n) by (apply Nat.div_lt; [|lia]; destruct n; [exfalso; apply E; reflexivity|lia]). lia.
Qed.

Lemma decimal_inj : forall n m, decimal n = decimal m -> n = m.
Proof.
  intros n m H. unfold decimal in H. apply (f_equal (eval 0)) in H.
  rewrite !eval_digits in H by lia. exact H.
Qed.

Lemma digits_length : forall k f n acc, 10 ^ k <= n -> n < f -> k < f ->
  S k + List.length acc <= List.length (digits f n acc).
Proof.
  assert (G : forall f n acc, n < f -> 1 + List.length acc <= List.length (digits f n acc)).
  { induction f as [|f IH]; intros n acc H; [lia|]. cbn [digits]. destruct (Nat.eqb_spec (n / 10) 0) as [E|E].
    - cbn. lia.
    - assert (n / 10 < n) by (apply Nat.div_lt; [|lia]; destruct n; [exfalso; apply E; reflexivity|lia]).
      specialize (IH (n / 10) (ascii_of_nat (48 + n mod 10) :: acc) ltac:(lia)). cbn [List.length] in IH. lia. }
  induction k as [|k IH]; intros f n acc H1 H2 H3; [exact (G f n acc H2)|].
  destruct f as [|f]; [lia|]. cbn [digits].
  assert (P : 10 ^ k <= n / 10).
  { apply Nat.div_le_lower_bound; [lia|]. rewrite <- Nat.pow_succ_r'. exact H1. }
  assert (0 < 10 ^ k) by (apply Nat.neq_0_lt_0, Nat.pow_nonzero; lia).
  destruct (Nat.eqb_spec (n / 10) 0) as [E|E]; [lia|].
  assert (n / 10 < n) by (apply Nat.div_lt; [|lia]; destruct n; [exfalso; apply E; reflexivity|lia]).
  specialize (IH f (n / 10) (ascii_of_nat (48 + n mod 10) :: acc) P ltac:(lia) ltac:(lia)).
  cbn [List.length] in IH. lia.
Qed.

Lemma decimal_length : forall k n, 10 ^ k <= n -> S k <= List.length (decimal n).
Proof.
  intros k n H. unfold decimal.
  assert (k < 10 ^ k) by (apply Nat.pow_gt_lin_r; lia).
  pose proof (digits_length k (S n) n nil H ltac:(lia) ltac:(lia)) as X. cbn [List.length] in X. lia.
Qed.
