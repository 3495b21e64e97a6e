(** * The scanner does what flex promises *)

Require Import List Arith Lia Bool Ascii String Sorting.Sorted.
Import ListNotations.
Require Import Verif.LxModel Verif.LxSpec.
Local Open Scope list_scope.

Lemma L_none : forall w, ~ L RNone w.
Proof. intros w H. inversion H. Qed.

Lemma L_mkseq : forall a b w, L (mkseq a b) w <-> L (RSeq a b) w.
Proof.
  intros a b w. unfold mkseq.
  assert (N1 : forall x y, L (RSeq RNone x) y -> False)
    by (intros x y H; inversion H as [| |a0 b0 u v H1 H2| | | |]; subst; inversion H1).
  assert (N2 : forall x y, L (RSeq x RNone) y -> False)
    by (intros x y H; inversion H as [| |a0 b0 u v H1 H2| | | |]; subst; inversion H2).
  assert (D : L (match b with RNone => RNone | _ => RSeq a b end) w <-> L (RSeq a b) w).
  { destruct b; try tauto. split; intro H; [inversion H|exfalso; exact (N2 _ _ H)]. }
  destruct a; try exact D.
  - split; intro H; [inversion H|exfalso; exact (N1 _ _ H)].
  - split; intro H.
    + change w with (nil ++ w). constructor; [constructor|exact H].
    + inversion H as [| |a0 b0 u v H1 H2| | | |]; subst. inversion H1; subst. exact H2.
Qed.

Lemma L_mkalt : forall a b w, L (mkalt a b) w <-> L (RAlt a b) w.
Proof.
  intros a b w. unfold mkalt.
  assert (D : L (match b with RNone => a | _ => RAlt a b end) w <-> L (RAlt a b) w).
  { destruct b; try tauto.
    split; intro H; [apply L_left; exact H|inversion H as [| | |? ? ? H1|? ? ? H1| |]; subst; [exact H1|inversion H1]]. }
  destruct a; try exact D.
  split; intro H; [apply L_right; exact H|inversion H as [| | |? ? ? H1|? ? ? H1| |]; subst; [inversion H1|exact H1]].
Qed.

Lemma nullable_L : forall r, nullable r = true <-> L r nil.
Proof.
  induction r as [| |k|a IHa b IHb|a IHa b IHb|a IHa]; cbn [nullable].
  - split; [discriminate|intro H; inversion H].
  - split; [constructor|reflexivity].
  - split; [discriminate|intro H; inversion H].
  - rewrite andb_true_iff, IHa, IHb. split.
    + intros [H1 H2]. change (@nil ascii) with (@nil ascii ++ nil). constructor; assumption.
    + intro H. inversion H as [| |a0 b0 u v H1 H2 E1 E2| | | |]; subst.
      match goal with X : _ ++ _ = nil |- _ => apply app_eq_nil in X; destruct X as [-> ->] end. tauto.
  - rewrite orb_true_iff, IHa, IHb. split.
    + intros [H|H]; [apply L_left|apply L_right]; exact H.
    + intro H. inversion H; subst; tauto.
  - split; [constructor|reflexivity].
Qed.

Lemma star_cons : forall a c w, L (RStar a) (c :: w) ->
  exists u v, w = u ++ v /\ L a (c :: u) /\ L (RStar a) v.
Proof.
  intros a c w H. remember (RStar a) as r eqn:Hr. remember (c :: w) as x eqn:Hx.
  revert c w Hx. induction H as [| | | | | |a0 u v H1 IH1 H2 IH2]; intros c1 w1 Hx; try discriminate.
  injection Hr as ->. destruct u as [|d u].
  - exact (IH2 eq_refl c1 w1 Hx).
  - cbn in Hx. injection Hx as -> <-. exists u, v. tauto.
Qed.

Lemma deriv_L : forall r c w, L (deriv r c) w <-> L r (c :: w).
Proof.
  induction r as [| |k|a IHa b IHb|a IHa b IHb|a IHa]; intros c w; cbn [deriv].
  - split; intro H; inversion H.
  - split; intro H; inversion H.
  - destruct (inC k c) eqn:E.
    + split; intro H; inversion H; subst; constructor; assumption.
    + split; intro H; [inversion H|inversion H; subst; congruence].
  - assert (S : L (mkseq (deriv a c) b) w <-> exists u v, w = u ++ v /\ L a (c :: u) /\ L b v).
    { rewrite L_mkseq. split.
      - intro H. inversion H as [| |a0 b0 u v H1 H2| | | |]; subst. exists u, v.
        split; [reflexivity|]. split; [apply IHa; exact H1|exact H2].
      - intros [u [v [-> [H1 H2]]]]. constructor; [apply IHa; exact H1|exact H2]. }
    assert (T : L (RSeq a b) (c :: w) <->
       (exists u v, w = u ++ v /\ L a (c :: u) /\ L b v) \/ (L a nil /\ L b (c :: w))).
    { split.
      - intro H. inversion H as [| |a0 b0 u v H1 H2| | | |]; subst.
        destruct u as [|d u]; cbn in *.
        + right. subst v. tauto.
        + left. match goal with X : _ :: _ = _ :: _ |- _ => injection X as -> <- end.
          exists u, v. tauto.
      - intros [[u [v [-> [H1 H2]]]]|[H1 H2]].
        + change (c :: u ++ v) with ((c :: u) ++ v). constructor; assumption.
        + change (c :: w) with (nil ++ c :: w). constructor; assumption. }
    destruct (nullable a) eqn:E.
    + rewrite L_mkalt. rewrite T. apply nullable_L in E. split.
      * intro H. inversion H as [| | |? ? ? H1|? ? ? H1| |]; subst; [left; apply S; exact H1|right; split; [exact E|apply IHb; exact H1]].
      * intros [H|[_ H]]; [apply L_left; apply S; exact H|apply L_right; apply IHb; exact H].
    + rewrite S, T. split; [tauto|]. intros [H|[H _]]; [exact H|]. apply nullable_L in H. congruence.
  - rewrite L_mkalt. split; intro H.
    + inversion H as [| | |? ? ? H1|? ? ? H1| |]; subst; [apply L_left; apply IHa|apply L_right; apply IHb]; exact H1.
    + inversion H as [| | |? ? ? H1|? ? ? H1| |]; subst; [apply L_left; apply IHa|apply L_right; apply IHb]; exact H1.
  - rewrite L_mkseq. split; intro H.
    + inversion H as [| |a0 b0 u v H1 H2| | | |]; subst. apply IHa in H1.
      change (c :: u ++ v) with ((c :: u) ++ v). constructor; assumption.
    + apply star_cons in H. destruct H as [u [v [-> [H1 H2]]]]. constructor; [apply IHa; exact H1|exact H2].
Qed.

(** Matching from a state. *)
Definition smatch (st : state) (i : nat) (u : text) : Prop := exists r, In (i, r) st /\ L r u.

Definition ordered (st : state) : Prop := StronglySorted lt (map fst st).

Lemma step_in : forall st c i, (exists r, In (i, r) (step st c)) -> exists r, In (i, r) st.
Proof.
  induction st as [|[j r] st IH]; intros c i [x H]; [destruct H|]. cbn [step] in H.
  assert (D : In (i, x) (step st c) \/ (i, x) = (j, deriv r c)).
  { destruct (deriv r c); cbn in H; (left; assumption) || (destruct H as [H|H]; [right; symmetry; exact H|left; exact H]). }
  destruct D as [D|D].
  - destruct (IH c i (ex_intro _ x D)) as [y Hy]. exists y. right. exact Hy.
  - injection D as -> _. exists r. left. reflexivity.
Qed.

Lemma step_smatch : forall st c i u, smatch (step st c) i u <-> smatch st i (c :: u).
Proof.
  unfold smatch. induction st as [|[j r] st IH]; intros c i u.
  - cbn. split; intros [x [[] _]].
  - cbn [step].
    assert (D : (exists x, In (i, x) (match deriv r c with RNone => step st c | r' => (j, r') :: step st c end) /\ L x u) <->
      (i = j /\ L (deriv r c) u) \/ (exists x, In (i, x) (step st c) /\ L x u)).
    { assert (G : forall r', (exists x, In (i, x) ((j, r') :: step st c) /\ L x u) <->
         (i = j /\ L r' u) \/ (exists x, In (i, x) (step st c) /\ L x u)).
      { intro r'. split.
        - intros [x [[H|H] HL]]; [injection H as -> ->; left; tauto|right; exists x; tauto].
        - intros [[-> H]|[x [H HL]]]; [exists r'; split; [left; reflexivity|exact H]|exists x; split; [right; exact H|exact HL]]. }
      destruct (deriv r c) eqn:E; try apply G.
      split; [intro H; right; exact H|intros [[_ H]|H]; [inversion H|exact H]]. }
    rewrite D, deriv_L, IH. split.
    + intros [[-> H]|[x [H HL]]]; [exists r; split; [left; reflexivity|exact H]|exists x; split; [right; exact H|exact HL]].
    + intros [x [[H|H] HL]]; [injection H as -> ->; left; tauto|right; exists x; tauto].
Qed.

Lemma step_ordered : forall st c, ordered st -> ordered (step st c).
Proof.
  unfold ordered. induction st as [|[j r] st IH]; intros c H; [exact H|].
  cbn [step]. inversion H as [|? ? H1 H2]; subst. specialize (IH c H1).
  assert (G : StronglySorted lt (j :: map fst (step st c))).
  { constructor; [exact IH|]. rewrite Forall_forall in *. intros i Hi. apply in_map_iff in Hi.
    destruct Hi as [[i' x] [E Hi]]. cbn in E. subst i'.
    destruct (step_in st c i (ex_intro _ x Hi)) as [y Hy]. apply H2. apply in_map_iff. exists (i, y). tauto. }
  destruct (deriv r c); try exact G. exact IH.
Qed.

Lemma accepts_some : forall st i, ordered st -> accepts st = Some i ->
  smatch st i nil /\ forall j, smatch st j nil -> i <= j.
Proof.
  unfold smatch, ordered. induction st as [|[k r] st IH]; intros i HO H; [discriminate|].
  cbn in H. inversion HO as [|? ? H1 H2]; subst. destruct (nullable r) eqn:E.
  - injection H as <-. split; [exists r; split; [left; reflexivity|apply nullable_L; exact E]|].
    intros j [x [[Hx|Hx] _]]; [injection Hx as -> _; lia|].
    rewrite Forall_forall in H2. specialize (H2 j). apply Nat.lt_le_incl, H2. apply in_map_iff. exists (j, x). tauto.
  - destruct (IH i H1 H) as [[x [Hx HL]] Hm]. split; [exists x; split; [right; exact Hx|exact HL]|].
    intros j [y [[Hy|Hy] HLy]].
    + injection Hy as -> ->. apply nullable_L in HLy. congruence.
    + apply Hm. exists y. tauto.
Qed.

Lemma accepts_none : forall st, accepts st = None -> forall j, ~ smatch st j nil.
Proof.
  unfold smatch. induction st as [|[k r] st IH]; intros H j [x [Hx HL]]; [destruct Hx|].
  cbn in H. destruct (nullable r) eqn:E; [discriminate|].
  destruct Hx as [Hx|Hx]; [injection Hx as -> ->; apply nullable_L in HL; congruence|].
  apply (IH H j). exists x. tauto.
Qed.

Lemma munch_spec : forall w st n best, ordered st ->
  (exists k i, munch st w n best = Some (n + k, i) /\ k <= List.length w /\
     smatch st i (firstn k w) /\ (forall j, smatch st j (firstn k w) -> i <= j) /\
     (forall m j, k < m <= List.length w -> ~ smatch st j (firstn m w))) \/
  (munch st w n best = best /\ forall m j, m <= List.length w -> ~ smatch st j (firstn m w)).
Proof.
  induction w as [|c w IH]; intros st n best HO.
  - cbn [munch]. destruct (accepts st) as [i|] eqn:E.
    + left. exists 0, i. rewrite Nat.add_0_r. destruct (accepts_some st i HO E) as [H1 H2].
      split; [reflexivity|]. split; [cbn; lia|]. split; [exact H1|]. split; [exact H2|].
      intros m j H. cbn in H. lia.
    + right. split; [reflexivity|]. intros m j Hm. cbn in Hm. replace m with 0 by lia.
      apply accepts_none. exact E.
  - cbn [munch].
    set (best' := match accepts st with Some i => Some (n, i) | None => best end).
    assert (HB : match step st c with nil => best' | st' => munch st' w (S n) best' end =
      munch (step st c) w (S n) best').
    { destruct (step st c) as [|p st'] eqn:E; [|reflexivity].
      destruct w; reflexivity. }
    rewrite HB.
    destruct (IH (step st c) (S n) best' (step_ordered st c HO)) as
      [[k [i [H1 [H2 [H3 [H4 H5]]]]]]|[H1 H2]].
    + left. exists (S k), i. rewrite H1. split; [f_equal; f_equal; lia|]. split; [cbn; lia|].
      cbn [firstn]. split; [apply step_smatch; exact H3|].
      split; [intros j Hj; apply H4, step_smatch; exact Hj|].
      intros m j Hm HS. destruct m as [|m]; [lia|]. cbn [firstn] in HS. apply step_smatch in HS.
      cbn in Hm. apply (H5 m j); [lia|exact HS].
    + assert (No : forall m j, 0 < m <= List.length (c :: w) -> ~ smatch st j (firstn m (c :: w))).
      { intros m j Hm HS. destruct m as [|m]; [lia|]. cbn [firstn] in HS. apply step_smatch in HS.
        cbn in Hm. apply (H2 m j); [lia|exact HS]. }
      rewrite H1. unfold best'. destruct (accepts st) as [i|] eqn:E.
      * left. exists 0, i. destruct (accepts_some st i HO E) as [A1 A2].
        split; [f_equal; f_equal; lia|]. split; [cbn; lia|]. split; [exact A1|]. split; [exact A2|].
        intros m j Hm. apply No. exact Hm.
      * right. split; [reflexivity|]. intros m j Hm. destruct m as [|m].
        -- apply accepts_none. exact E.
        -- apply No. lia.
Qed.

Lemma start_ordered : ordered start.
Proof. unfold ordered. vm_compute. repeat (constructor; [|repeat constructor]). constructor. Qed.

Lemma in_combine_seq : forall (l : list re) k i r,
  In (i, r) (combine (seq k (List.length l)) l) <-> k <= i < k + List.length l /\ nth (i - k) l RNone = r.
Proof.
  induction l as [|a l IH]; intros k i r; cbn [List.length seq combine].
  - split; [intros []|intros [H _]; lia].
  - cbn [In]. rewrite IH. split.
    + intros [H|[H1 H2]].
      * injection H as -> ->. split; [lia|]. rewrite Nat.sub_diag. reflexivity.
      * split; [lia|]. replace (i - k) with (S (i - S k)) by lia. exact H2.
    + intros [H1 H2]. destruct (Nat.eq_dec i k) as [->|N].
      * left. rewrite Nat.sub_diag in H2. cbn in H2. subst a. reflexivity.
      * right. split; [lia|]. replace (i - k) with (S (i - S k)) in H2 by lia. exact H2.
Qed.

Lemma start_smatch : forall i u, smatch start i u <-> matched i u.
Proof.
  intros i u. unfold smatch, matched, start.
  replace (seq 0 (List.length rules)) with (seq 0 (List.length (map fst rules))) by (rewrite map_length; reflexivity).
  assert (E : nth i (map fst rules) RNone = fst (nth i rules (RNone, 0)))
    by exact (map_nth fst rules (RNone, 0) i).
  split.
  - intros [r [H HL]]. apply in_combine_seq in H. rewrite map_length in H. destruct H as [H1 H2].
    rewrite Nat.sub_0_r in H2. rewrite E in H2. rewrite H2. split; [lia|exact HL].
  - intros [H HL]. exists (fst (nth i rules (RNone, 0))). split; [|exact HL].
    apply in_combine_seq. rewrite map_length, Nat.sub_0_r. split; [lia|exact E].
Qed.

(** No rule matches the empty text. *)
Lemma not_empty : forall i, ~ matched i nil.
Proof.
  intros i [H HL]. apply nullable_L in HL.
  do 27 (destruct i as [|i]; [vm_compute in HL; discriminate HL|]).
  cbn in H. lia.
Qed.

(** Every character is matched by some rule. *)
Lemma some_rule : forall c, exists i, matched i [c].
Proof.
  intro c. destruct (Ascii.eqb c nl) eqn:E.
  - exists 0. split; [cbn; lia|]. constructor. exact E.
  - exists 26. split; [cbn; lia|]. constructor. cbn [inC]. rewrite E. reflexivity.
Qed.

Theorem longest_choice : forall c w, exists n i,
  longest (c :: w) = Some (n, i) /\ 0 < n /\ flex_choice (c :: w) n i.
Proof.
  intros c w. unfold longest.
  destruct (munch_spec (c :: w) start 0 None start_ordered) as
      [[k [i [H1 [H2 [H3 [H4 H5]]]]]]|[H1 H2]].
  - exists k, i. split; [exact H1|]. apply start_smatch in H3. split.
    + destruct k; [exfalso; apply (not_empty i); exact H3|lia].
    + split; [exact H2|]. split; [exact H3|]. split.
      * intros j Hj. apply H4, start_smatch. exact Hj.
      * intros m j Hm HM. apply (H5 m j Hm). apply start_smatch. exact HM.
  - exfalso. destruct (some_rule c) as [i Hi]. apply (H2 1 i); [cbn; lia|]. apply start_smatch. exact Hi.
Qed.

Lemma choice_unique : forall w n i n' i', flex_choice w n i -> flex_choice w n' i' -> n = n' /\ i = i'.
Proof.
  intros w n i n' i' [A1 [A2 [A3 A4]]] [B1 [B2 [B3 B4]]].
  assert (n = n').
  { destruct (lt_eq_lt_dec n n') as [[H|H]|H]; [|exact H|].
    - exfalso. apply (A4 n' i'); [lia|exact B2].
    - exfalso. apply (B4 n i); [lia|exact A2]. }
  subst n'. split; [reflexivity|]. apply Nat.le_antisymm; [apply A3; exact B2|apply B3; exact A2].
Qed.

Lemma longest_is : forall c w n i, flex_choice (c :: w) n i -> longest (c :: w) = Some (n, i).
Proof.
  intros c w n i H. destruct (longest_choice c w) as [n' [i' [H1 [_ H2]]]].
  destruct (choice_unique _ _ _ _ _ H H2) as [-> ->]. exact H1.
Qed.

(** The trailing context is shorter than the match. *)
Lemma L_seq_chr : forall a k u, L (RSeq a (RChr k)) u -> exists v c, u = v ++ [c] /\ L a v /\ inC k c = true.
Proof.
  intros a k u H. inversion H as [| |a0 b0 v x H1 H2| | | |]; subst. inversion H2; subst.
  exists v, c. tauto.
Qed.

Lemma trailing_shorter : forall i u, matched i u -> snd (nth i rules (RNone, 0)) < List.length u.
Proof.
  intros i u [H HL]. assert (HN : u <> nil).
  { intros ->. apply (not_empty i). split; assumption. }
  assert (P : forall a, L (r_ahead a) u -> nullable a = false -> 1 < List.length u).
  { intros a Ha Hn. apply L_seq_chr in Ha. destruct Ha as [v [c [-> [Hv _]]]].
    rewrite app_length. cbn. destruct v; [apply nullable_L in Hv; congruence|cbn; lia]. }
  do 27 (destruct i as [|i];
    [cbn [nth rules snd fst] in *;
     first [apply (P _ HL); reflexivity | destruct u; [congruence|cbn; lia]]|]).
  cbn in H. lia.
Qed.

(** One round always finds a lexeme, which is not empty. *)
Lemma lex1_total : forall c w v, exists x w' v',
  lex1 (c :: w) v = Some (x, w', v') /\ lx_text x <> nil /\ lx_text x ++ w' = c :: w /\
  lx_line x = line v.
Proof.
  intros c w v. destruct (longest_choice c w) as [n [i [H1 [H2 [H3 [H4 _]]]]]].
  unfold lex1. rewrite H1. pose proof (trailing_shorter i _ H4) as HT.
  rewrite firstn_length_le in HT by exact H3.
  set (k := n - snd (nth i rules (RNone, 0))).
  destruct (act i (firstn k (c :: w)) v) as [v' o] eqn:EA.
  eexists. eexists. eexists. split; [reflexivity|]. cbn [lx_text lx_line].
  split; [|split; [apply firstn_skipn|reflexivity]].
  destruct k as [|k1] eqn:Ek; [unfold k in Ek; lia|]. discriminate.
Qed.

(** ** Scanning covers the text *)
Lemma scan_covers : forall f w v, List.length w <= f ->
  (forall x, In x (fst (scan f w v)) -> lx_text x <> nil) /\
  (exists rest, flat_map lx_text (fst (scan f w v)) ++ rest = w /\
     ((forall x, In x (fst (scan f w v)) -> lx_out x <> OFault) -> rest = nil)).
Proof.
  induction f as [|f IH]; intros w v Hf.
  - destruct w; [|cbn in Hf; lia]. cbn. split; [intros x []|]. exists nil. tauto.
  - destruct w as [|c w]; [cbn; split; [intros x []|]; exists nil; tauto|].
    cbn [scan]. destruct (lex1_total c w v) as [x [w' [v' [H1 [H2 [H3 _]]]]]]. rewrite H1.
    assert (Hl : List.length w' <= f).
    { apply (f_equal (@List.length ascii)) in H3. rewrite app_length in H3. cbn in H3, Hf.
      destruct (lx_text x); [congruence|cbn in H3; lia]. }
    specialize (IH w' v' Hl). destruct (scan f w' v') as [xs v''] eqn:ES. cbn [fst] in IH.
    destruct IH as [IH1 [rest [IH2 IH3]]].
    assert (G : (forall y, In y (x :: xs) -> lx_text y <> nil) /\
      exists rest, flat_map lx_text (x :: xs) ++ rest = c :: w /\
        ((forall y, In y (x :: xs) -> lx_out y <> OFault) -> rest = nil)).
    { split; [intros y [<-|Hy]; [exact H2|exact (IH1 y Hy)]|]. exists rest. split.
      - cbn [flat_map]. rewrite <- app_assoc, IH2. exact H3.
      - intro H. apply IH3. intros y Hy. apply H. right. exact Hy. }
    destruct (lx_out x) eqn:EO; try exact G.
    cbn [fst]. split; [intros y [<-|[]]; exact H2|]. exists w'. split.
    + cbn [flat_map]. rewrite app_nil_r. exact H3.
    + intro H. exfalso. apply (H x); [left; reflexivity|exact EO].
Qed.
