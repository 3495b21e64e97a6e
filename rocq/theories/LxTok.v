(** * Tokens are recognised *)

Require Import List Arith Lia Bool Ascii String.
Import ListNotations.
Require Import Verif.LxModel Verif.LxSpec Verif.LxGen.
Local Open Scope list_scope.

Ltac chr c := destruct c as [[] [] [] [] [] [] [] []].

Lemma munch_nil : forall w n best, munch nil w n best = best.
Proof. intros [|c w] n best; reflexivity. Qed.

Lemma munch_cons : forall st c w n best,
  munch st (c :: w) n best =
  munch (step st c) w (S n) (match accepts st with Some i => Some (n, i) | None => best end).
Proof.
  intros st c w n best. cbn [munch]. destruct (step st c) as [|p st']; [|reflexivity].
  rewrite munch_nil. reflexivity.
Qed.

Lemma munch_end : forall st n best,
  munch st nil n best = match accepts st with Some i => Some (n, i) | None => best end.
Proof. reflexivity. Qed.

(** A state in which nothing more can come. *)
Lemma munch_done : forall st w n best i, accepts st = Some i ->
  (forall c w', w = c :: w' -> step st c = nil) -> munch st w n best = Some (n, i).
Proof.
  intros st w n best i HA HS. destruct w as [|c w].
  - rewrite munch_end, HA. reflexivity.
  - rewrite munch_cons, HA, (HS c w eq_refl), munch_nil. reflexivity.
Qed.

Lemma longest_cons : forall c w, longest (c :: w) = munch (step start c) w 1 None.
Proof. intros c w. unfold longest. rewrite munch_cons. reflexivity. Qed.

Ltac close := apply munch_done; [reflexivity|intros ?c ?w' _; reflexivity].

Lemma longest_plain_punct : forall c w, one_of (chars "[](){};,?!") c = true ->
  longest (c :: w) = Some (1, 3).
Proof.
  intros c w H. rewrite longest_cons.
  assert (E : step start c = [(3, REps); (26, REps)])
    by (chr c; vm_compute in H |- *; (discriminate H || reflexivity)).
  rewrite E. close.
Qed.

Lemma longest_colon : forall w, next_not (one_of (chars ":=>?")) w -> longest (":"%char :: w) = Some (1, 3).
Proof.
  intros w H. rewrite longest_cons. apply munch_done; [reflexivity|].
  intros c w' ->. cbn [next_not] in H. chr c; vm_compute in H |- *; (discriminate H || reflexivity).
Qed.

Lemma longest_dot : forall w, next_not (Ascii.eqb ".") w -> longest ("."%char :: w) = Some (1, 3).
Proof.
  intros w H. rewrite longest_cons. apply munch_done; [reflexivity|].
  intros c w' ->. cbn [next_not] in H. chr c; vm_compute in H |- *; (discriminate H || reflexivity).
Qed.

Lemma longest_minus : forall w, after_operator w -> longest ("-"%char :: w) = Some (2, 4).
Proof.
  intros [|c w] [H1 H2]; [congruence|]. cbn [next_not] in H2.
  rewrite longest_cons, munch_cons.
  assert (E : step (step start "-"%char) c = [(4, REps)])
    by (chr c; vm_compute in H2 |- *; (discriminate H2 || reflexivity)).
  rewrite E. close.
Qed.

Lemma longest_equals : forall w, after_operator w -> longest ("="%char :: w) = Some (2, 5).
Proof.
  intros [|c w] [H1 H2]; [congruence|]. cbn [next_not] in H2.
  rewrite longest_cons, munch_cons.
  assert (E : step (step start "="%char) c = [(5, REps); (15, REps)])
    by (chr c; vm_compute in H2 |- *; (discriminate H2 || reflexivity)).
  rewrite E. close.
Qed.

Lemma longest_dollar : forall w, after_operator w -> longest ("$"%char :: w) = Some (2, 6).
Proof.
  intros [|c w] [H1 H2]; [congruence|]. cbn [next_not] in H2.
  rewrite longest_cons, munch_cons.
  assert (E : step (step start "$"%char) c = [(6, REps); (15, REps)])
    by (chr c; vm_compute in H2 |- *; (discriminate H2 || reflexivity)).
  rewrite E. close.
Qed.

Lemma longest_arrow : forall w, after_operator w -> longest ("-"%char :: ">"%char :: w) = Some (3, 7).
Proof.
  intros [|c w] [H1 H2]; [congruence|]. cbn [next_not] in H2.
  rewrite longest_cons, munch_cons, munch_cons.
  assert (E : step (step (step start "-"%char) ">"%char) c = [(7, REps); (15, REps)])
    by (chr c; vm_compute in H2 |- *; (discriminate H2 || reflexivity)).
  rewrite E. close.
Qed.

Lemma longest_coloneq : forall w, longest (":"%char :: "="%char :: w) = Some (2, 8).
Proof. intro w. rewrite longest_cons, munch_cons. close. Qed.
Lemma longest_colongr : forall w, longest (":"%char :: ">"%char :: w) = Some (2, 9).
Proof. intro w. rewrite longest_cons, munch_cons. close. Qed.
Lemma longest_match : forall w, longest (":"%char :: "?"%char :: w) = Some (2, 14).
Proof. intro w. rewrite longest_cons, munch_cons. close. Qed.
Lemma longest_dots : forall w, longest ("."%char :: "."%char :: "."%char :: w) = Some (3, 12).
Proof. intro w. rewrite longest_cons, munch_cons, munch_cons. close. Qed.
Lemma longest_colons : forall w, longest (":"%char :: ":"%char :: ":"%char :: w) = Some (3, 13).
Proof. intro w. rewrite longest_cons, munch_cons, munch_cons. close. Qed.
Lemma longest_dotdot : forall w, next_not (Ascii.eqb ".") w ->
  longest ("."%char :: "."%char :: w) = Some (2, 10).
Proof.
  intros w H. rewrite longest_cons, munch_cons. apply munch_done; [reflexivity|].
  intros c w' ->. cbn [next_not] in H. chr c; vm_compute in H |- *; (discriminate H || reflexivity).
Qed.
Lemma longest_coloncolon : forall w, next_not (Ascii.eqb ":") w ->
  longest (":"%char :: ":"%char :: w) = Some (2, 11).
Proof.
  intros w H. rewrite longest_cons, munch_cons. apply munch_done; [reflexivity|].
  intros c w' ->. cbn [next_not] in H. chr c; vm_compute in H |- *; (discriminate H || reflexivity).
Qed.

Lemma longest_blank : forall c w, blank c = true -> longest (c :: w) = Some (1, 1).
Proof.
  intros c w H. rewrite longest_cons.
  assert (E : step start c = [(1, REps); (26, REps)])
    by (chr c; vm_compute in H |- *; (discriminate H || reflexivity)).
  rewrite E. close.
Qed.

Lemma longest_newline : forall w, longest (nl :: w) = Some (1, 0).
Proof. intro w. rewrite longest_cons. close. Qed.

Lemma longest_underscore : forall w, next_not idchar w -> longest ("_"%char :: w) = Some (1, 21).
Proof.
  intros w H. rewrite longest_cons. apply munch_done; [reflexivity|].
  intros c w' ->. cbn [next_not] in H. chr c; vm_compute in H |- *; (discriminate H || reflexivity).
Qed.

(** ** Comments *)
Lemma munch_comment : forall b w n best, ~ In nl b -> (w = nil \/ exists w', w = nl :: w') ->
  munch [(2, RStar (RChr CAnyButNl))] (b ++ w) n best = Some (n + List.length b, 2).
Proof.
  induction b as [|c b IH]; intros w n best Hb Hw.
  - cbn [app List.length]. rewrite Nat.add_0_r. apply munch_done; [reflexivity|].
    intros c w' ->. destruct Hw as [Hw|[w1 Hw]]; [discriminate|]. injection Hw as -> _. reflexivity.
  - cbn [app]. rewrite munch_cons.
    assert (E : step [(2, RStar (RChr CAnyButNl))] c = [(2, RStar (RChr CAnyButNl))]).
    { cbn [step deriv inC]. destruct (Ascii.eqb c nl) eqn:E; [|reflexivity].
      apply Ascii.eqb_eq in E. exfalso. apply Hb. left. exact E. }
    rewrite E, IH; [cbn [List.length]; f_equal; f_equal; lia| |exact Hw].
    intro H. apply Hb. right. exact H.
Qed.

Lemma longest_comment : forall b w, ~ In nl b -> (w = nil \/ exists w', w = nl :: w') ->
  longest ("-"%char :: "-"%char :: b ++ w) = Some (2 + List.length b, 2).
Proof.
  intros b w Hb Hw. rewrite longest_cons, munch_cons.
  change (step (step start "-"%char) "-"%char) with [(2, RStar (RChr CAnyButNl))].
  apply munch_comment; assumption.
Qed.

(** ** Words and numbers *)
Lemma munch_star : forall i k s w n best, all (inC k) s -> next_not (inC k) w ->
  munch [(i, RStar (RChr k))] (s ++ w) n best = Some (n + List.length s, i).
Proof.
  intros i k. induction s as [|c s IH]; intros w n best Hs Hw.
  - cbn [app List.length]. rewrite Nat.add_0_r. apply munch_done; [reflexivity|].
    intros c w' ->. cbn [next_not] in Hw. cbn [step deriv]. rewrite Hw. reflexivity.
  - cbn [app]. rewrite munch_cons.
    assert (E : step [(i, RStar (RChr k))] c = [(i, RStar (RChr k))]).
    { cbn [step deriv]. rewrite (Hs c (or_introl eq_refl)). reflexivity. }
    rewrite E, IH; [cbn [List.length]; f_equal; f_equal; lia| |exact Hw].
    intros d Hd. apply Hs. right. exact Hd.
Qed.

Lemma longest_word : forall c s w, letter c = true -> all idchar s -> next_not idchar w ->
  longest (c :: s ++ w) = Some (S (List.length s), 20).
Proof.
  intros c s w Hc Hs Hw. rewrite longest_cons.
  assert (E : step start c = [(20, RStar (RChr CIdchar)); (26, REps)])
    by (chr c; vm_compute in Hc |- *; (discriminate Hc || reflexivity)).
  rewrite E. destruct s as [|d s].
  - cbn [app List.length]. apply munch_done; [reflexivity|].
    intros d w' ->. cbn [next_not] in Hw. cbn [step deriv inC]. rewrite Hw. reflexivity.
  - cbn [app]. rewrite munch_cons.
    assert (E2 : step [(20, RStar (RChr CIdchar)); (26, REps)] d = [(20, RStar (RChr CIdchar))]).
    { cbn [step deriv inC]. rewrite (Hs d (or_introl eq_refl)). reflexivity. }
    rewrite E2, munch_star; [cbn [List.length]; f_equal; f_equal; lia| |exact Hw].
    intros x Hx. apply Hs. right. exact Hx.
Qed.

Definition r_fraction : re := RSeq (RIs ".") (RSeq (RChr CDigit) (RStar (RChr CAlnum))).
Definition num_state : state :=
  [(22, RStar (RChr CIdchar)); (23, RSeq (RStar (RChr CIdchar)) r_fraction)].

Lemma num_step : forall c, idchar c = true -> step num_state c = num_state.
Proof. intros c H. chr c; vm_compute in H |- *; (discriminate H || reflexivity). Qed.

Lemma num_dot : step num_state "."%char = [(23, RSeq (RChr CDigit) (RStar (RChr CAlnum)))].
Proof. reflexivity. Qed.

Lemma num_other : forall c, idchar c = false -> c <> "."%char -> step num_state c = nil.
Proof. intros c H N. chr c; try (vm_compute in H; discriminate H); try reflexivity. exfalso. apply N. reflexivity. Qed.

Lemma munch_num : forall s w n best, all idchar s ->
  exists best', munch num_state (s ++ w) n best = munch num_state w (n + List.length s) best'.
Proof.
  induction s as [|c s IH]; intros w n best H.
  - exists best. cbn. rewrite Nat.add_0_r. reflexivity.
  - cbn [app]. rewrite munch_cons, (num_step c (H c (or_introl eq_refl))).
    destruct (IH w (S n) (match accepts num_state with Some i => Some (n, i) | None => best end)
      (fun x Hx => H x (or_intror Hx))) as [b' Hb].
    exists b'. rewrite Hb. cbn [List.length]. f_equal. lia.
Qed.

Lemma start_digit : forall c, digit c = true -> step start c = num_state ++ [(26, REps)].
Proof. intros c H. chr c; vm_compute in H |- *; (discriminate H || reflexivity). Qed.

Lemma num_tail : forall w n best, munch (num_state ++ [(26, REps)]) w n best = munch num_state w n best.
Proof.
  intros [|c w] n best; [reflexivity|]. rewrite !munch_cons.
  assert (E : step (num_state ++ [(26, REps)]) c = step num_state c).
  { unfold num_state, step, app. change (deriv REps c) with RNone.
    destruct (deriv (RStar (RChr CIdchar)) c), (deriv (RSeq (RStar (RChr CIdchar)) r_fraction) c); reflexivity. }
  rewrite E. reflexivity.
Qed.

Lemma longest_int : forall c s w, digit c = true -> all idchar s -> next_not idchar w ->
  (forall d w', w = "."%char :: d :: w' -> digit d = false) ->
  longest (c :: s ++ w) = Some (S (List.length s), 22).
Proof.
  intros c s w Hc Hs Hw Hd. rewrite longest_cons, (start_digit c Hc), num_tail.
  destruct (munch_num s w 1 None Hs) as [b' ->].
  change (1 + List.length s) with (S (List.length s)).
  destruct w as [|x w]; [reflexivity|]. cbn [next_not] in Hw. rewrite munch_cons.
  change (accepts num_state) with (Some 22). cbv iota.
  destruct (ascii_dec x ".") as [->|N].
  - rewrite num_dot. destruct w as [|d w]; [reflexivity|]. rewrite munch_cons.
    cbn [step deriv nullable inC]. rewrite (Hd d w eq_refl). cbn [mkseq]. apply munch_nil.
  - rewrite (num_other x Hw N). apply munch_nil.
Qed.

Lemma longest_real : forall c s d s' w, digit c = true -> all idchar s -> digit d = true -> all alnum s' ->
  next_not alnum w ->
  longest (c :: (s ++ "."%char :: d :: s') ++ w) = Some (S (List.length (s ++ "."%char :: d :: s')), 23).
Proof.
  intros c s d s' w Hc Hs Hd Hs' Hw. rewrite longest_cons, (start_digit c Hc), num_tail.
  rewrite <- app_assoc. destruct (munch_num s (("."%char :: d :: s') ++ w) 1 None Hs) as [b' ->].
  cbn [app]. rewrite munch_cons, num_dot, munch_cons.
  assert (E : step [(23, RSeq (RChr CDigit) (RStar (RChr CAlnum)))] d = [(23, RStar (RChr CAlnum))]).
  { cbn [step deriv nullable inC]. rewrite Hd. reflexivity. }
  rewrite E. rewrite munch_star; [|exact Hs'|exact Hw].
  f_equal. f_equal. rewrite app_length. cbn [List.length]. lia.
Qed.

(** ** Quoted names *)
Definition r_quoted : re := RSeq (RStar (RChr CIdchar)) (RIs backquote).

Lemma munch_quoted : forall s w n best, all idchar s ->
  munch [(25, r_quoted)] (s ++ backquote :: w) n best = Some (n + List.length s + 1, 25).
Proof.
  induction s as [|c s IH]; intros w n best H.
  - cbn [app List.length]. rewrite munch_cons. change (step [(25, r_quoted)] backquote) with [(25, REps)].
    rewrite Nat.add_0_r, Nat.add_1_r. close.
  - cbn [app]. rewrite munch_cons.
    assert (E : step [(25, r_quoted)] c = [(25, r_quoted)]).
    { assert (Hc := H c (or_introl eq_refl)). chr c; vm_compute in Hc |- *; (discriminate Hc || reflexivity). }
    rewrite E, IH; [cbn [List.length]; f_equal; f_equal; lia|].
    intros x Hx. apply H. right. exact Hx.
Qed.

Lemma longest_quoted : forall c s w, letter c = true \/ c = "_"%char -> all idchar s ->
  longest (backquote :: c :: (s ++ [backquote]) ++ w) = Some (3 + List.length s, 25).
Proof.
  intros c s w Hc Hs. rewrite longest_cons, munch_cons.
  assert (E : step (step start backquote) c = [(25, r_quoted)]).
  { destruct Hc as [Hc|Hc]; [chr c; vm_compute in Hc |- *; (discriminate Hc || reflexivity)|subst c; reflexivity]. }
  rewrite E. rewrite <- app_assoc. cbn [app]. rewrite munch_quoted; [f_equal; f_equal; lia|exact Hs].
Qed.

(** ** Constants *)
Definition const_state (i : nat) (q : ascii) : state :=
  [(i, RSeq (r_body q) (RIs q)); (S i, r_body q)].

Lemma body_plain : forall i q c, (q = squote \/ q = dquote) -> c <> nl -> c <> backslash -> c <> q ->
  step (const_state i q) c = const_state i q.
Proof.
  intros i q c Hq H1 H2 H3. apply Ascii.eqb_neq in H1, H2, H3.
  assert (E : deriv (r_body q) c = r_body q).
  { unfold r_body. cbn [deriv nullable inC one_of existsb RIs]. unfold one_of. cbn [existsb].
    rewrite H1, H2, H3. reflexivity. }
  unfold const_state. cbn [step deriv]. change (nullable (r_body q)) with true. cbv iota.
  rewrite E. cbn [inC]. unfold RIs. cbn [deriv inC]. rewrite H3. reflexivity.
Qed.

Lemma body_escape : forall i q c, (q = squote \/ q = dquote) ->
  step (step (const_state i q) backslash) c = const_state i q.
Proof. intros i q c [-> | ->]; reflexivity. Qed.

Lemma body_close : forall i q, (q = squote \/ q = dquote) -> step (const_state i q) q = [(i, REps)].
Proof. intros i q [-> | ->]; reflexivity. Qed.

Lemma munch_body : forall q i s, (q = squote \/ q = dquote) -> inside q s -> forall w n best,
  munch (const_state i q) (s ++ q :: w) n best = Some (n + List.length s + 1, i).
Proof.
  intros q i s Hq HI. induction HI as [|c s H1 H2 H3 HI IH|c s HI IH]; intros w n best.
  - cbn [app List.length]. rewrite munch_cons, (body_close i q Hq).
    rewrite Nat.add_0_r, Nat.add_1_r. close.
  - cbn [app]. rewrite munch_cons, (body_plain i q c Hq H1 H2 H3), IH.
    cbn [List.length]. f_equal. f_equal. lia.
  - cbn [app]. rewrite munch_cons, munch_cons, (body_escape i q c Hq), IH.
    cbn [List.length]. f_equal. f_equal. lia.
Qed.

Lemma const_tail : forall i q w n best, (q = squote \/ q = dquote) ->
  (forall c, step (const_state i q ++ [(26, REps)]) c = step (const_state i q) c) /\
  munch (const_state i q ++ [(26, REps)]) w n best = munch (const_state i q) w n best.
Proof.
  intros i q w n best Hq.
  assert (E : forall c, step (const_state i q ++ [(26, REps)]) c = step (const_state i q) c).
  { intro c. unfold const_state, app. cbn [step]. change (deriv REps c) with RNone.
    destruct (deriv (RSeq (r_body q) (RIs q)) c), (deriv (r_body q) c); reflexivity. }
  split; [exact E|]. destruct w as [|c w].
  - destruct Hq as [-> | ->]; reflexivity.
  - rewrite !munch_cons, E. destruct Hq as [-> | ->]; reflexivity.
Qed.

Lemma longest_char : forall s w, inside squote s ->
  longest (squote :: (s ++ [squote]) ++ w) = Some (S (List.length (s ++ [squote])), 16).
Proof.
  intros s w H. rewrite longest_cons.
  change (step start squote) with (const_state 16 squote ++ [(26, REps)]).
  rewrite (proj2 (const_tail 16 squote _ _ _ (or_introl eq_refl))).
  rewrite <- app_assoc. cbn [app]. rewrite munch_body; [|left; reflexivity|exact H].
  rewrite app_length. reflexivity.
Qed.

Lemma longest_string : forall s w, inside dquote s ->
  longest (dquote :: (s ++ [dquote]) ++ w) = Some (S (List.length (s ++ [dquote])), 18).
Proof.
  intros s w H. rewrite longest_cons.
  change (step start dquote) with (const_state 18 dquote ++ [(26, REps)]).
  rewrite (proj2 (const_tail 18 dquote _ _ _ (or_intror eq_refl))).
  rewrite <- app_assoc. cbn [app]. rewrite munch_body; [|right; reflexivity|exact H].
  rewrite app_length. reflexivity.
Qed.

(** ** Operators *)
Fixpoint okops (s : text) : bool :=
  match s with
  | nil => true
  | c :: s' =>
      if special c then okops s'
      else Ascii.eqb c "-" &&
           match s' with nil => true | d :: s'' => special d && okops s'' end
  end.

Lemma special_not_minus : forall c, special c = true -> c <> "-"%char.
Proof. intros c H ->. vm_compute in H. discriminate H. Qed.

Definition nodd (s : text) : Prop := ~ exists a b, s = a ++ "-"%char :: "-"%char :: b.

Lemma nodd_cons : forall c s, nodd (c :: s) -> nodd s.
Proof. intros c s H [a [b E]]. apply H. exists (c :: a), b. rewrite E. reflexivity. Qed.

Lemma nodd_special : forall c s, c <> "-"%char -> nodd s -> nodd (c :: s).
Proof.
  intros c s Hc H [a [b E]]. destruct a as [|x a]; cbn in E.
  - injection E as -> _. congruence.
  - injection E as -> ->. apply H. exists a, b. reflexivity.
Qed.

Lemma nodd_minus : forall d s, d <> "-"%char -> nodd (d :: s) -> nodd ("-"%char :: d :: s).
Proof.
  intros d s Hd H [a [b E]]. destruct a as [|x a]; cbn in E.
  - injection E as -> _. congruence.
  - injection E as _ E. apply H. exists a, b. exact E.
Qed.

Lemma opchar_special : forall c, special c = true -> opchar c = true.
Proof. intros c H. unfold opchar. rewrite H. reflexivity. Qed.

Lemma okops_iff : forall n s, List.length s <= n -> (okops s = true <-> all opchar s /\ nodd s).
Proof.
  induction n as [|n IH]; intros s Hn.
  - destruct s; [|cbn in Hn; lia]. cbn. split; [|reflexivity]. intros _. split; [intros c []|].
    intros [a [b E]]. destruct a; discriminate E.
  - destruct s as [|c s].
    { cbn. split; [|reflexivity]. intros _. split; [intros c []|]. intros [a [b E]]. destruct a; discriminate E. }
    cbn [List.length] in Hn. cbn [okops]. destruct (special c) eqn:Ec.
    + rewrite (IH s) by lia. split.
      * intros [H1 H2]. split; [intros x [<-|Hx]; [apply opchar_special; exact Ec|apply H1; exact Hx]|].
        apply nodd_special; [apply special_not_minus; exact Ec|exact H2].
      * intros [H1 H2]. split; [intros x Hx; apply H1; right; exact Hx|exact (nodd_cons c s H2)].
    + rewrite andb_true_iff. split.
      * intros [H1 H2]. apply Ascii.eqb_eq in H1. subst c. destruct s as [|d s].
        -- split; [intros x [<-|[]]; reflexivity|]. intros [a [b E]].
           destruct a as [|x [|y a]]; discriminate E.
        -- apply andb_true_iff in H2. destruct H2 as [Hd Hs].
           assert (HD : okops (d :: s) = true) by (cbn [okops]; rewrite Hd; exact Hs).
           apply (IH (d :: s)) in HD; [|cbn in *; lia]. destruct HD as [H1 H2].
           split; [intros x [<-|Hx]; [reflexivity|apply H1; exact Hx]|].
           apply nodd_minus; [apply special_not_minus; exact Hd|exact H2].
      * intros [H1 H2]. assert (Hc := H1 c (or_introl eq_refl)). unfold opchar in Hc. rewrite Ec in Hc.
        cbn [orb] in Hc. split; [exact Hc|]. apply Ascii.eqb_eq in Hc. subst c.
        destruct s as [|d s]; [reflexivity|].
        assert (Hd : special d = true).
        { assert (X := H1 d (or_intror (or_introl eq_refl))). unfold opchar in X.
          apply orb_true_iff in X. destruct X as [X|X]; [exact X|]. apply Ascii.eqb_eq in X. subst d.
          exfalso. apply H2. exists nil, s. reflexivity. }
        rewrite Hd. cbn [andb].
        apply (IH s); [cbn in *; lia|]. split; [intros x Hx; apply H1; right; right; exact Hx|].
        apply (nodd_cons d), (nodd_cons "-"%char). exact H2.
Qed.

Definition r_opitem : re := RAlt (RChr CSpecial) (RSeq (RIs "-") (RChr CSpecial)).

Lemma opitem : forall u, L r_opitem u <->
  (exists c, u = [c] /\ special c = true) \/ (exists c, u = ["-"%char; c] /\ special c = true).
Proof.
  intro u. split.
  - intro H. inversion H as [| | |? ? ? H1|? ? ? H1| |]; subst.
    + inversion H1; subst. left. exists c. split; [reflexivity|assumption].
    + inversion H1 as [| |a0 b0 x y H2 H3| | | |]; subst. inversion H2; subst. inversion H3; subst.
      right. cbn [inC] in *. match goal with X : Ascii.eqb _ _ = true |- _ => apply Ascii.eqb_eq in X; subst end.
      eexists. split; [reflexivity|assumption].
  - intros [[c [-> H]]|[c [-> H]]].
    + apply L_left. constructor. exact H.
    + apply L_right. change ["-"%char; c] with (["-"%char] ++ [c]). constructor; constructor; [reflexivity|exact H].
Qed.

Definition r_oprest : re := RSeq (RStar r_opitem) (ROpt (RIs "-")).

Lemma oprest_inv : forall u, L r_oprest u ->
  u = nil \/ u = ["-"%char] \/ (exists c v, u = c :: v /\ special c = true /\ L r_oprest v) \/
  (exists c v, u = "-"%char :: c :: v /\ special c = true /\ L r_oprest v).
Proof.
  intros u H. inversion H as [| |a0 b0 x y H1 H2| | | |]; subst.
  destruct x as [|c x].
  - cbn [app]. inversion H2 as [| | |? ? ? H3|? ? ? H3| |]; subst; inversion H3; subst; [|left; reflexivity].
    right. left. cbn [inC] in *. match goal with X : Ascii.eqb _ _ = true |- _ => apply Ascii.eqb_eq in X; subst end. reflexivity.
  - apply star_cons in H1. destruct H1 as [p [v [-> [H3 H4]]]]. apply opitem in H3.
    assert (HV : L r_oprest (v ++ y)) by (constructor; assumption).
    destruct H3 as [[d [E Hd]]|[d [E Hd]]].
    + injection E as -> ->. right. right. left. exists d, (v ++ y). tauto.
    + injection E as -> ->. right. right. right. exists d, (v ++ y). tauto.
Qed.

Lemma oprest_item : forall u v, L r_opitem u -> L r_oprest v -> L r_oprest (u ++ v).
Proof.
  intros u v H1 H2. inversion H2 as [| |a0 b0 x y H3 H4| | | |]; subst. rewrite app_assoc.
  constructor; [constructor; assumption|exact H4].
Qed.

Lemma oprest_iff : forall n s, List.length s <= n -> (L r_oprest s <-> okops s = true).
Proof.
  assert (N : L r_oprest nil)
    by (change (@nil ascii) with (@nil ascii ++ nil); constructor; [constructor|apply L_right; constructor]).
  assert (M : L r_oprest ["-"%char])
    by (change ["-"%char] with (nil ++ ["-"%char]); constructor; [constructor|apply L_left; constructor; reflexivity]).
  induction n as [|n IH]; intros s Hn.
  - destruct s; [|cbn in Hn; lia]. split; [reflexivity|intros _; exact N].
  - split.
    + intro H. apply oprest_inv in H. destruct H as [->|[->|[[c [v [-> [Hc Hv]]]]|[c [v [-> [Hc Hv]]]]]]].
      * reflexivity.
      * reflexivity.
      * cbn [okops]. rewrite Hc. apply IH; [cbn in Hn; lia|exact Hv].
      * cbn [okops]. rewrite Hc. change (special "-"%char) with false. cbn [andb].
        change (Ascii.eqb "-" "-") with true. cbn [andb]. apply IH; [cbn in Hn; lia|exact Hv].
    + destruct s as [|c s]; [intros _; exact N|]. cbn [okops]. destruct (special c) eqn:Ec.
      * intro H. change (c :: s) with ([c] ++ s). apply oprest_item; [apply opitem; left; exists c; tauto|].
        apply IH; [cbn in Hn; lia|exact H].
      * intro H. apply andb_true_iff in H. destruct H as [H1 H2]. apply Ascii.eqb_eq in H1. subst c.
        destruct s as [|d s]; [exact M|]. apply andb_true_iff in H2. destruct H2 as [Hd Hs].
        change ("-"%char :: d :: s) with (["-"%char; d] ++ s).
        apply oprest_item; [apply opitem; right; exists d; tauto|]. apply IH; [cbn in Hn; lia|exact Hs].
Qed.

(** The pattern for operators says what operators are. *)
Lemma operator_iff : forall s, L r_operator s <-> operator s.
Proof.
  intro s. unfold operator.
  assert (F : L r_operator s <-> exists u v, s = u ++ v /\ L r_opitem u /\ L r_oprest v).
  { split.
    - intro H. inversion H as [| |a0 b0 x y H1 H2| | | |]; subst.
      inversion H1 as [| |a1 b1 p q H3 H4| | | |]; subst.
      exists p, (q ++ y). rewrite app_assoc. split; [reflexivity|]. split; [exact H3|constructor; assumption].
    - intros [u [v [-> [H1 H2]]]]. inversion H2 as [| |a0 b0 x y H3 H4| | | |]; subst.
      rewrite app_assoc. constructor; [constructor; assumption|exact H4]. }
  rewrite F. split.
  - intros [u [v [-> [Hu Hv]]]].
    assert (HR : L r_oprest (u ++ v)) by (apply oprest_item; assumption).
    apply (oprest_iff _ _ (le_n _)) in HR. apply (okops_iff _ _ (le_n _)) in HR. destruct HR as [H1 H2].
    split; [exact H1|]. split; [|exact H2]. apply opitem in Hu.
    destruct Hu as [[c [-> Hc]]|[c [-> Hc]]]; exists c; (split; [|exact Hc]); cbn; tauto.
  - intros [H1 [[c [Hc1 Hc2]] H2]].
    assert (HR : okops s = true) by (apply (okops_iff _ _ (le_n _)); split; assumption).
    destruct s as [|d s]; [destruct Hc1|]. cbn [okops] in HR. destruct (special d) eqn:Ed.
    + exists [d], s. split; [reflexivity|]. split; [apply opitem; left; exists d; tauto|].
      apply (oprest_iff _ _ (le_n _)). exact HR.
    + apply andb_true_iff in HR. destruct HR as [E HR]. apply Ascii.eqb_eq in E. subst d.
      destruct s as [|d s].
      * destruct Hc1 as [<-|[]]. congruence.
      * apply andb_true_iff in HR. destruct HR as [Hd Hs].
        exists ["-"%char; d], s. split; [reflexivity|]. split; [apply opitem; right; exists d; tauto|].
        apply (oprest_iff _ _ (le_n _)). exact Hs.
Qed.

Lemma op_rules : forall c u j, opchar c = true -> matched j (c :: u) -> In j [2; 4; 5; 6; 7; 15; 26].
Proof.
  intros c u j Hc H. apply start_smatch, step_smatch in H. destruct H as [r [H _]].
  assert (E : forallb (fun p => existsb (Nat.eqb (fst p)) [2; 4; 5; 6; 7; 15; 26]) (step start c) = true)
    by (chr c; vm_compute in Hc |- *; (discriminate Hc || reflexivity)).
  rewrite forallb_forall in E. specialize (E _ H). apply existsb_exists in E.
  destruct E as [x [Hx E]]. apply Nat.eqb_eq in E. cbn [fst] in E. subst x. exact Hx.
Qed.

Lemma L_is : forall c u, L (RIs c) u -> u = [c].
Proof. intros c u H. inversion H; subst. cbn [inC] in *. match goal with X : Ascii.eqb _ _ = true |- _ => apply Ascii.eqb_eq in X; subst end. reflexivity. Qed.

Lemma L_is_seq : forall c r u, L (RSeq (RIs c) r) u -> exists v, u = c :: v /\ L r v.
Proof.
  intros c r u H. inversion H as [| |a0 b0 x y H1 H2| | | |]; subst. apply L_is in H1. subst x.
  exists y. split; [reflexivity|exact H2].
Qed.

Lemma longest_op : forall s w, operator s -> s <> chars "=" -> s <> chars "$" -> s <> chars "->" ->
  after_operator w -> longest (s ++ w) = Some (S (List.length s), 15).
Proof.
  intros s w Ho N1 N2 N3 [Hw1 Hw2]. destruct w as [|c w]; [congruence|]. clear Hw1. cbn [next_not] in Hw2.
  destruct s as [|x s]; [destruct Ho as [_ [[y [[] _]] _]]|].
  cbn [app].
  assert (HOP := Ho). destruct Ho as [HA [HS HD]].
  assert (Hx : opchar x = true) by (apply HA; left; reflexivity).
  assert (HF : firstn (S (List.length (x :: s))) (x :: s ++ c :: w) = (x :: s) ++ [c]).
  { change (x :: s ++ c :: w) with ((x :: s) ++ c :: w). rewrite firstn_app.
    replace (S (List.length (x :: s)) - List.length (x :: s)) with 1 by lia.
    rewrite firstn_all2 by lia. reflexivity. }
  assert (HL : List.length (x :: s ++ c :: w) = List.length (x :: s) + S (List.length w))
    by (cbn; rewrite app_length; cbn; lia).
  assert (Hc : c <> "-"%char) by (intros ->; vm_compute in Hw2; discriminate Hw2).
  apply longest_is. split; [rewrite HL; lia|]. rewrite HF. split; [|split].
  - split; [cbn; lia|]. change (fst (nth 15 rules (RNone, 0))) with (r_ahead r_operator).
    constructor; [apply operator_iff; exact HOP|]. constructor. cbn [inC].
    apply Ascii.eqb_neq in Hc. rewrite Hc. reflexivity.
  - intros j Hj. assert (HJ := op_rules x (s ++ [c]) j Hx Hj). destruct Hj as [_ Hj].
    destruct HJ as [<-|[<-|[<-|[<-|[<-|[<-|[<-|[]]]]]]]]; try lia; exfalso; cbn [nth rules fst] in Hj.
    + apply L_is_seq in Hj. destruct Hj as [v [E Hv]]. apply L_is_seq in Hv. destruct Hv as [v' [E' _]].
      injection E as -> E. destruct s as [|y s]; cbn in E.
      * destruct HS as [z [[<-|[]] Hz]]. vm_compute in Hz. discriminate Hz.
      * subst v. injection E' as -> _. apply HD. exists nil, s. reflexivity.
    + apply L_seq_chr in Hj. destruct Hj as [v [d [E [Hv _]]]]. apply L_is in Hv. subst v.
      apply app_inj_tail in E. destruct E as [E _]. rewrite E in HS.
      destruct HS as [z [[<-|[]] Hz]]. vm_compute in Hz. discriminate Hz.
    + apply L_seq_chr in Hj. destruct Hj as [v [d [E [Hv _]]]]. apply L_is in Hv. subst v.
      apply app_inj_tail in E. destruct E as [E _]. apply N1. exact E.
    + apply L_seq_chr in Hj. destruct Hj as [v [d [E [Hv _]]]]. apply L_is in Hv. subst v.
      apply app_inj_tail in E. destruct E as [E _]. apply N2. exact E.
    + apply L_seq_chr in Hj. destruct Hj as [v [d [E [Hv _]]]]. cbn [RWord chars list_ascii_of_string] in Hv.
      apply L_is_seq in Hv. destruct Hv as [v' [-> Hv]]. apply L_is in Hv. subst v'.
      apply app_inj_tail in E. destruct E as [E _]. apply N3. exact E.
  - intros m j Hm Hj. destruct m as [|m]; [lia|].
    assert (Hj' := Hj). cbn [firstn] in Hj.
    assert (HJ := op_rules x _ j Hx Hj). destruct Hj' as [_ Hj'].
    assert (HFL : List.length (firstn (S m) (x :: s ++ c :: w)) = S m) by (apply firstn_length_le; lia).
    remember (firstn (S m) (x :: s ++ c :: w)) as p eqn:Ep.
    cbn [List.length] in Hm.
    destruct HJ as [<-|[<-|[<-|[<-|[<-|[<-|[<-|[]]]]]]]]; cbn [nth rules fst] in Hj'.
    + apply L_is_seq in Hj'. destruct Hj' as [v [E Hv]]. apply L_is_seq in Hv. destruct Hv as [v' [E' _]].
      rewrite E in Ep. cbn [firstn] in Ep. injection Ep as Ex Ep. rewrite E' in Ep.
      destruct s as [|y s].
      * destruct HS as [z [[<-|[]] Hz]]. rewrite <- Ex in Hz. vm_compute in Hz. discriminate Hz.
      * destruct m as [|m]; [lia|]. cbn [app firstn] in Ep. injection Ep as Ey _.
        apply HD. exists nil, s. rewrite <- Ex, <- Ey. reflexivity.
    + apply L_seq_chr in Hj'. destruct Hj' as [v [d [E [Hv _]]]]. apply L_is in Hv. subst v.
      rewrite E in HFL. cbn in HFL. cbn in Hm. lia.
    + apply L_seq_chr in Hj'. destruct Hj' as [v [d [E [Hv _]]]]. apply L_is in Hv. subst v.
      rewrite E in HFL. cbn in HFL. cbn in Hm. lia.
    + apply L_seq_chr in Hj'. destruct Hj' as [v [d [E [Hv _]]]]. apply L_is in Hv. subst v.
      rewrite E in HFL. cbn in HFL. cbn in Hm. lia.
    + apply L_seq_chr in Hj'. destruct Hj' as [v [d [E [Hv _]]]]. cbn [RWord chars list_ascii_of_string] in Hv.
      apply L_is_seq in Hv. destruct Hv as [v' [-> Hv]]. apply L_is in Hv. subst v'.
      rewrite E in HFL. cbn in HFL. destruct s as [|y s]; [|cbn in Hm; lia].
      destruct m as [|[|m]]; cbn in Hm; [lia|lia|]. rewrite E in Ep. cbn [app firstn] in Ep.
      injection Ep as Ex _. destruct HS as [z [[<-|[]] Hz]]. rewrite <- Ex in Hz. vm_compute in Hz. discriminate Hz.
    + apply L_seq_chr in Hj'. destruct Hj' as [v [d [E [Hv _]]]]. apply operator_iff in Hv.
      destruct Hv as [HV _]. assert (HI : In c v).
      { assert (Ev : v = firstn m (x :: s ++ c :: w)).
        { rewrite E in Ep, HFL. rewrite app_length in HFL. cbn [List.length] in HFL.
          assert (X := f_equal (firstn m) Ep). rewrite firstn_app in X.
          replace (m - List.length v) with 0 in X by lia. change (firstn 0 [d]) with (@nil ascii) in X.
          rewrite app_nil_r, (firstn_all2 v) in X by lia.
          rewrite firstn_firstn in X. rewrite Nat.min_l in X by lia. exact X. }
        rewrite Ev. change (x :: s ++ c :: w) with ((x :: s) ++ c :: w). rewrite firstn_app.
        apply in_or_app. right. cbn [List.length].
        destruct (m - S (List.length s)) as [|k] eqn:Ek; [lia|]. left. reflexivity. }
      specialize (HV c HI). congruence.
    + assert (HP : List.length p = 1) by (clear - Hj'; inversion Hj'; reflexivity). lia.
Qed.
