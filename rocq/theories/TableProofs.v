From Verif Require Import Base TableModel TableSpec.
From Coq Require Import Sorted.

Section P.
Context {K V : Type} (less : K -> K -> bool) (kequal : K -> K -> bool) (initial : V) (combine : V -> V -> V).
Hypothesis KO : key_order less kequal.
Hypothesis NE : neutral initial combine.
Notation same := (same_key K less). Notation find_ := (find_ K V less). Notation put := (put K V less).
Notation meaning := (meaning less initial). Notation lookup := (lookup less initial).
Notation entries := (entries K V). Notation heap := (heap K V).
Notation get := (get K V less initial). Notation add := (add K V less initial combine).
Notation add_to := (add_to K V less initial combine). Notation add_entries := (add_entries K V less initial combine).
Notation entries_of := (entries_of K V).

Lemma same_refl k : same k k = true.
Proof. unfold same_key. now rewrite (ko_irrefl _ _ KO). Qed.
Lemma same_sym a b : same a b = same b a.
Proof. unfold same_key. apply andb_comm. Qed.
Lemma less_same a b c : less a b = true -> same b c = true -> less a c = true.
Proof.
  intros L S. destruct (less a c) eqn:E; auto. exfalso.
  destruct (less c a) eqn:E2.
  - pose proof (ko_trans _ _ KO _ _ _ E2 L) as X. unfold same_key in S. rewrite X in S. apply andb_true_iff in S. destruct S; discriminate.
  - assert (Q : same a c = true) by (unfold same_key; now rewrite E, E2). rewrite same_sym in S.
    pose proof (ko_weak _ _ KO _ _ _ Q S) as X. unfold same_key in X. rewrite L in X. discriminate.
Qed.
Lemma same_less a b c : same a b = true -> less b c = true -> less a c = true.
Proof.
  intros S L. destruct (less a c) eqn:E; auto. exfalso.
  destruct (less c a) eqn:E2.
  - pose proof (ko_trans _ _ KO _ _ _ L E2) as X. unfold same_key in S. rewrite X in S. apply andb_true_iff in S. destruct S; discriminate.
  - assert (Q : same a c = true) by (unfold same_key; now rewrite E, E2). rewrite same_sym in S.
    pose proof (ko_weak _ _ KO _ _ _ S Q) as X. unfold same_key in X. rewrite L in X. discriminate.
Qed.
Lemma less_not_same a b : less a b = true -> same a b = false /\ same b a = false.
Proof. intros L. unfold same_key. rewrite L. cbn. rewrite andb_false_r. auto. Qed.
Lemma same_cases a b : less a b = true \/ same a b = true \/ less b a = true.
Proof. unfold same_key. destruct (less a b), (less b a); auto. Qed.

Definition below (k : K) (p : K * V) : Prop := less k (fst p) = true.
Inductive sorted : entries -> Prop :=
| so_nil : sorted []
| so_cons k v e : Forall (below k) e -> sorted e -> sorted ((k, v) :: e).

Lemma find_below k e : Forall (below k) e -> find_ k e = None.
Proof.
  induction 1 as [|[k' v] e B F IH]; cbn; auto. unfold below in B. cbn in B. destruct (less_not_same _ _ B) as [-> _]. auto.
Qed.
Lemma below_same k k' e : same k k' = true -> Forall (below k') e -> Forall (below k) e.
Proof. intros S F. eapply Forall_impl; [|exact F]. intros [c v] B. unfold below in *. cbn in *. eapply same_less; eauto. Qed.
Lemma below_less k k' e : less k k' = true -> Forall (below k') e -> Forall (below k) e.
Proof. intros S F. eapply Forall_impl; [|exact F]. intros [c v] B. unfold below in *. cbn in *. eapply (ko_trans _ _ KO); eauto. Qed.
Lemma same_trans_eq a b c : same a b = true -> same a c = same b c.
Proof.
  intros S. destruct (same b c) eqn:E; [eapply (ko_weak _ _ KO); eauto|]. destruct (same a c) eqn:E2; auto.
  rewrite same_sym in S. rewrite (ko_weak _ _ KO _ _ _ S E2) in E. discriminate.
Qed.
Lemma find_same a b e : same a b = true -> find_ a e = find_ b e.
Proof. intros S. induction e as [|[k v] e IH]; cbn; auto. rewrite (same_trans_eq _ _ k S). now rewrite IH. Qed.
Lemma lookup_find k e : lookup k e = match find_ k e with Some v => v | None => initial end.
Proof. induction e as [|[k' v] e IH]; cbn; auto. destruct (same k k'); auto. Qed.

Lemma find_put k v e : sorted e -> forall k', find_ k' (put k v e) = if same k' k then Some v else find_ k' e.
Proof.
  induction 1 as [|k0 v0 e B S IH]; intros k'; cbn.
  - auto.
  - destruct (less k k0) eqn:L; cbn; auto. destruct (same k k0) eqn:Sk; cbn.
    + rewrite (same_sym k' k), (same_trans_eq _ _ k' Sk), (same_sym k0 k'). destruct (same k' k0); auto.
    + destruct (same k' k0) eqn:S0.
      * destruct (same k' k) eqn:S1; auto. rewrite same_sym in S1. rewrite (ko_weak _ _ KO _ _ _ S1 S0) in Sk. discriminate.
      * apply IH.
Qed.
Lemma put_forall k v e (Q : K * V -> Prop) : (forall a w u, Q (a, w) -> Q (a, u)) -> Q (k, v) -> Forall Q e -> Forall Q (put k v e).
Proof.
  intros HQ Hk. induction 1 as [|[k0 v0] e B F IH]; cbn; [auto|]. destruct (less k k0); [auto|]. destruct (same k k0); constructor; eauto.
Qed.
Lemma sorted_put k v e : sorted e -> sorted (put k v e).
Proof.
  induction 1 as [|k0 v0 e B S IH]; cbn; [repeat constructor|].
  destruct (less k k0) eqn:L; [|destruct (same k k0) eqn:Sk].
  - constructor; [|constructor; auto]. constructor; [exact L|]. eapply below_less; eauto.
  - constructor; auto.
  - constructor; auto. apply put_forall; auto. unfold below. cbn. destruct (same_cases k k0) as [?|[?|?]]; congruence.
Qed.
Lemma put_present e : sorted e -> forall i k v w, nth_error e i = Some (k, v) -> put k w e = upd e i (k, w).
Proof.
  induction 1 as [|k0 v0 e B S IH]; intros [|i] k v w E; cbn in *; try discriminate.
  - injection E as <- <-. rewrite (ko_irrefl _ _ KO), same_refl. auto.
  - assert (L : less k0 k = true). { apply nth_error_In in E. rewrite Forall_forall in B. apply (B _ E). }
    destruct (less k k0) eqn:L2. { pose proof (ko_trans _ _ KO _ _ _ L L2). rewrite (ko_irrefl _ _ KO) in H. discriminate. }
    destruct (less_not_same _ _ L) as [_ ->]. f_equal. eapply IH; eauto.
Qed.
Lemma find_present e : sorted e -> forall i k v, nth_error e i = Some (k, v) -> find_ k e = Some v.
Proof.
  induction 1 as [|k0 v0 e B S IH]; intros [|i] k v E; cbn in *; try discriminate.
  - injection E as <- <-. now rewrite same_refl.
  - assert (L : less k0 k = true). { apply nth_error_In in E. rewrite Forall_forall in B. apply (B _ E). }
    destruct (less_not_same _ _ L) as [_ ->]. eauto.
Qed.

Definition heapok (h : heap) : Prop := forall t e, nth_error h t = Some (Full K V e) -> sorted e.
Lemma nth_upd_eq {A} (l : list A) i x : i < length l -> nth_error (upd l i x) i = Some x.
Proof. revert i; induction l as [|a l IH]; intros [|i] L; cbn in *; try lia; auto. apply IH; lia. Qed.
Lemma nth_upd_ne {A} (l : list A) i j x : i <> j -> nth_error (upd l i x) j = nth_error l j.
Proof. revert i j; induction l as [|a l IH]; intros [|i] [|j] N; cbn in *; auto; try congruence. Qed.
Lemma full_lt h t e : nth_error h t = Some (Full K V e) -> t < length h.
Proof. intros E. apply nth_error_Some. congruence. Qed.
Lemma heapok_upd h t e : heapok h -> sorted e -> heapok (upd h t (Full K V e)).
Proof.
  intros H S t' e' E. destruct (Nat.eq_dec t t') as [<-|N].
  - destruct (Nat.lt_ge_cases t (length h)) as [L|L].
    + rewrite nth_upd_eq in E by auto. congruence.
    + rewrite (proj2 (nth_error_None _ _)) in E; [discriminate|]. rewrite upd_length. auto.
  - rewrite nth_upd_ne in E by auto. eapply H; eauto.
Qed.

Lemma get_spec h t e k : heapok h -> nth_error h t = Some (Full K V e) -> exists h' e', get h t k = (h', lookup k e) /\ heapok h' /\
  nth_error h' t = Some (Full K V e') /\ (forall r, r <> t -> nth_error h' r = nth_error h r) /\ length h' = length h /\
  (forall k', lookup k' e' = lookup k' e) /\ (forall v, find_ k e = Some v -> h' = h /\ e' = e).
Proof.
  intros H E. unfold TableModel.get. unfold TableModel.entries_of. rewrite E. rewrite lookup_find. destruct (find_ k e) as [v|] eqn:F.
  - exists h, e. ands; auto.
  - eexists _, (put k initial e). split; [reflexivity|]. pose proof (H _ _ E) as S. ands.
    + apply heapok_upd; auto. now apply sorted_put.
    + apply nth_upd_eq. eapply full_lt; eauto.
    + intros r N. apply nth_upd_ne; auto.
    + apply upd_length.
    + intros k'. rewrite !lookup_find, find_put by auto. destruct (same k' k) eqn:Sk; auto. now rewrite (find_same _ _ e Sk), F.
    + discriminate.
Qed.

Lemma add_spec h t e k v : heapok h -> nth_error h t = Some (Full K V e) -> exists e', heapok (add h t k v) /\
  nth_error (add h t k v) t = Some (Full K V e') /\ (forall r, r <> t -> nth_error (add h t k v) r = nth_error h r) /\ length (add h t k v) = length h /\
  (forall k', lookup k' e' = if same k' k then combine (lookup k e) v else lookup k' e) /\
  (forall i w, nth_error e i = Some (k, w) -> e' = upd e i (k, combine w v)).
Proof.
  intros H E. destruct (get_spec h t e k H E) as (h1 & e1 & Eg & H1 & E1 & O1 & L1 & M1 & P1).
  unfold TableModel.add. rewrite Eg. unfold TableModel.entries_of. rewrite E1. exists (put k (combine (lookup k e) v) e1).
  pose proof (H1 _ _ E1) as S1. ands.
  - apply heapok_upd; auto. now apply sorted_put.
  - apply nth_upd_eq. eapply full_lt; eauto.
  - intros r N. rewrite nth_upd_ne by auto. auto.
  - now rewrite upd_length.
  - intros k'. rewrite lookup_find, find_put by auto. destruct (same k' k); auto. rewrite <- M1, lookup_find. auto.
  - intros i w Ei. pose proof (find_present e (H _ _ E) i k w Ei) as F. destruct (P1 _ F) as [_ ->].
    rewrite (put_present e (H _ _ E) i k w _ Ei), lookup_find, F. auto.
Qed.

Lemma find_skip e : sorted e -> forall i k v, nth_error e i = Some (k, v) -> forall k', find_ k' (skipn i e) = if same k' k then Some v else find_ k' (skipn (S i) e).
Proof.
  intros _. revert e. assert (G : forall i (e : entries) k v, nth_error e i = Some (k, v) -> forall k', find_ k' (skipn i e) = if same k' k then Some v else find_ k' (skipn (S i) e)).
  { induction i as [|i IH]; intros [|[k0 v0] e] k v E k'; cbn in *; try discriminate; auto. injection E as <- <-. auto. }
  intros e i k v E. now apply G.
Qed.
Lemma find_skip_none e : sorted e -> forall i k v, nth_error e i = Some (k, v) -> find_ k (skipn (S i) e) = None.
Proof.
  induction 1 as [|k0 v0 e B S IH]; intros [|i] k v E; cbn in *; try discriminate.
  - injection E as <- <-. now apply find_below.
  - apply (IH i k v E).
Qed.

Lemma add_entries_spec src dst e0 : sorted e0 -> forall m i h ed, heapok h -> nth_error h dst = Some (Full K V ed) ->
  (src <> dst -> nth_error h src = Some (Full K V e0)) ->
  (src = dst -> forall j, i <= j -> nth_error ed j = nth_error e0 j) -> i + m = length e0 ->
  exists ed', heapok (add_entries h src dst (seq i m)) /\ nth_error (add_entries h src dst (seq i m)) dst = Some (Full K V ed') /\
    (forall r, r <> dst -> nth_error (add_entries h src dst (seq i m)) r = nth_error h r) /\ length (add_entries h src dst (seq i m)) = length h /\
    (forall k, lookup k ed' = match find_ k (skipn i e0) with Some v => combine (lookup k ed) v | None => lookup k ed end).
Proof.
  intros S0. induction m as [|m IH]; intros i h ed H Ed Hne Heq Hl; cbn [seq TableModel.add_entries].
  - exists ed. ands; auto. intros k. rewrite skipn_all2 by lia. auto.
  - assert (Es : nth_error (entries_of h src) i = nth_error e0 i).
    { unfold TableModel.entries_of. destruct (Nat.eq_dec src dst) as [->|N]; [rewrite Ed; apply Heq; auto|rewrite (Hne N); auto]. }
    rewrite Es. destruct (nth_error e0 i) as [[k v]|] eqn:Ei; [|apply nth_error_None in Ei; lia].
    destruct (add_spec h dst ed k v H Ed) as (e1 & H1 & E1 & O1 & L1 & M1 & P1).
    destruct (IH (S i) (add h dst k v) e1 H1 E1) as (ed' & H2 & E2 & O2 & L2 & M2).
    + intros N. rewrite O1 by auto. auto.
    + intros -> j Lj. assert (Q : nth_error ed i = Some (k, v)) by (rewrite Heq by auto; auto). rewrite (P1 _ _ Q). rewrite nth_upd_ne by lia. apply Heq; auto. lia.
    + lia.
    + exists ed'. ands; auto.
      * intros r N. rewrite O2 by auto. auto.
      * rewrite L2. auto.
      * intros k'. rewrite M2, (find_skip e0 S0 i k v Ei k'), M1. destruct (same k' k) eqn:Sk; auto.
        rewrite (find_same k' k _ Sk), (find_skip_none e0 S0 i k v Ei). rewrite !lookup_find, (find_same k' k ed Sk). auto.
Qed.

Lemma add_to_spec h src dst ed : heapok h -> nth_error h dst = Some (Full K V ed) ->
  exists ed', heapok (add_to h src dst) /\ nth_error (add_to h src dst) dst = Some (Full K V ed') /\
    (forall r, r <> dst -> nth_error (add_to h src dst) r = nth_error h r) /\ length (add_to h src dst) = length h /\
    (forall k, lookup k ed' = combine (lookup k ed) (meaning h src k)).
Proof.
  intros H Ed. unfold TableModel.add_to, TableSpec.meaning. destruct (nth_error h src) as [[es| |k v]|] eqn:Es.
  - destruct (add_entries_spec src dst es (H _ _ Es) (length es) 0 h ed H Ed) as (ed' & H2 & E2 & O2 & L2 & M2); auto.
    + intros -> j _. congruence.
    + exists ed'. ands; auto. intros k. rewrite M2. cbn. rewrite (lookup_find k es). destruct (find_ k es); auto. symmetry. apply NE.
  - exists ed. ands; auto. intros k. symmetry. apply NE.
  - destruct (add_spec h dst ed k v H Ed) as (e1 & H1 & E1 & O1 & L1 & M1 & _). exists e1. ands; auto.
    intros k'. rewrite M1. destruct (same k' k) eqn:Sk; [|symmetry; apply NE]. rewrite !lookup_find, (find_same _ _ ed Sk). auto.
  - exists ed. ands; auto. intros k. symmetry. apply NE.
Qed.

Lemma heapok_app h n : heapok h -> (forall e, n = Full K V e -> sorted e) -> heapok (h ++ [n]).
Proof.
  intros H Hn t e E. destruct (Nat.lt_ge_cases t (length h)).
  - rewrite nth_error_app1 in E by auto. eapply H; eauto.
  - rewrite nth_error_app2 in E by auto. destruct (t - length h) as [|[|]]; cbn in E; try discriminate. injection E as E. eauto.
Qed.
Lemma meaning_app h n r k : r < length h -> meaning (h ++ [n]) r k = meaning h r k.
Proof. intros L. unfold TableSpec.meaning. now rewrite nth_error_app1. Qed.
Lemma meaning_at h t e k : nth_error h t = Some (Full K V e) -> meaning h t k = lookup k e.
Proof. intros E. unfold TableSpec.meaning. now rewrite E. Qed.
Lemma meaning_eq h h' r k : nth_error h' r = nth_error h r -> meaning h' r k = meaning h r k.
Proof. intros E. unfold TableSpec.meaning. now rewrite E. Qed.

Lemma combine_spec h t1 t2 h' t : heapok h -> t1 < length h -> t2 < length h ->
  table_combine K V less initial combine h t1 t2 = (h', t) ->
  heapok h' /\ is_full h' t /\ t < length h' /\ length h <= length h' /\
  (forall k, meaning h' t k = combine (meaning h t1 k) (meaning h t2 k)) /\
  (forall r, r < length h -> r <> t1 \/ ~ is_full h t1 -> r <> t /\ nth_error h' r = nth_error h r) /\ (~ is_full h t1 -> t = length h) /\ (is_full h t1 -> t = t1).
Proof.
  intros H L1 L2 E. unfold table_combine in E. destruct (nth_error h t1) as [n1|] eqn:E1; [|apply nth_error_None in E1; lia].
  assert (D : (exists e, n1 = Full K V e) \/ (forall e, n1 <> Full K V e)) by (destruct n1; [left; eauto|right; congruence|right; congruence]).
  destruct D as [[e ->]|NF].
  - inversion E; subst. destruct (add_to_spec h t2 t e H E1) as (e' & H' & E' & O' & L' & M'). ands; auto; try lia.
    + exists e'. auto.
    + intros k. rewrite (meaning_at _ _ _ k E'), M', (meaning_at _ _ _ k E1). auto.
    + intros r Lr [N|N]; [split; auto|]. exfalso. apply N. exists e. auto.
    + intros N. exfalso. apply N. exists e. auto.
  - assert (E' : (add_to (add_to (h ++ [Full K V []]) t1 (length h)) t2 (length h), length h) = (h', t)).
    { destruct n1; [exfalso; eapply NF; eauto|exact E|exact E]. }
    inversion E'; subst. clear E E'. set (h0 := h ++ [Full K V []]).
    assert (H0 : heapok h0) by (apply heapok_app; auto; intros e Q; injection Q as <-; constructor).
    assert (E0 : nth_error h0 (length h) = Some (Full K V [])) by (unfold h0; rewrite nth_error_app2, Nat.sub_diag; auto).
    destruct (add_to_spec h0 t1 (length h) [] H0 E0) as (ea & Ha & Ea & Oa & La & Ma).
    destruct (add_to_spec (add_to h0 t1 (length h)) t2 (length h) ea Ha Ea) as (eb & Hb & Eb & Ob & Lb & Mb).
    assert (Lh : length h0 = length h + 1) by (unfold h0; rewrite app_length; auto).
    assert (NFull : ~ is_full h t1). { intros [e Q]. rewrite E1 in Q. injection Q as ->. eapply NF; eauto. }
    ands; auto; try lia.
    + exists eb. auto.
    + intros k. rewrite (meaning_at _ _ _ k Eb), Mb, Ma. cbn. rewrite (proj1 (NE _)). f_equal.
      * unfold h0. now apply meaning_app.
      * rewrite (meaning_eq h0); [unfold h0; now apply meaning_app|]. apply Oa. lia.
    + intros r Lr _. split; [lia|]. rewrite Ob, Oa by lia. unfold h0. now rewrite nth_error_app1.
    + intros Q. contradiction.
Qed.

Lemma select_spec h t k h' r : heapok h -> t < length h -> select K V less kequal initial h t k = (h', r) ->
  heapok h' /\ length h <= length h' /\ (exists k', same k k' = true /\ nth_error h' r = Some (Entry K V k' (meaning h t k))) /\
  (forall q, q < length h -> (forall k', meaning h' q k' = meaning h q k') /\ (is_full h q <-> is_full h' q)).
Proof.
  intros H L E. unfold select in E.
  assert (NEW : forall h0 v, heapok h0 -> heapok (h0 ++ [Entry K V k v]) /\ nth_error (h0 ++ [Entry K V k v]) (length h0) = Some (Entry K V k v)).
  { intros h0 v H0. split; [apply heapok_app; auto; discriminate|]. rewrite nth_error_app2, Nat.sub_diag; auto. }
  assert (OLD : forall n q, q < length h -> (forall k', meaning (h ++ [n]) q k' = meaning h q k') /\ (is_full h q <-> is_full (h ++ [n]) q)).
  { intros n q Lq. split; [intros; now apply meaning_app|]. unfold is_full. now rewrite nth_error_app1. }
  unfold TableSpec.meaning at 1. destruct (nth_error h t) as [[e| |k0 v]|] eqn:Et.
  - destruct (get_spec h t e k H Et) as (h1 & e1 & Eg & H1 & E1 & O1 & L1 & M1 & _). rewrite Eg in E. unfold table_entry, alloc in E. inversion E; subst.
    destruct (NEW h1 (lookup k e) H1) as [A B]. rewrite app_length, L1. ands; auto; try (cbn; lia).
    + exists k. split; [apply same_refl|]. rewrite <- L1. auto.
    + intros q Lq. destruct (Nat.eq_dec q t) as [->|N].
      * split; [intros k'; rewrite meaning_app by lia; rewrite (meaning_at _ _ _ k' E1), (meaning_at _ _ _ k' Et); auto|].
        unfold is_full. rewrite nth_error_app1 by lia. rewrite E1, Et. split; intros; eexists; eauto.
      * split; [intros k'; rewrite meaning_app by lia; apply meaning_eq; auto|]. unfold is_full. rewrite nth_error_app1 by lia. now rewrite O1.
  - unfold table_entry, alloc in E. inversion E; subst. destruct (NEW h initial H) as [A B]. rewrite app_length. ands; auto; try lia. exists k. split; auto. apply same_refl.
  - destruct (kequal k k0) eqn:Q; rewrite (ko_equal _ _ KO) in Q.
    + inversion E; subst. ands; auto. exists k0. rewrite Q, Et. auto.  intros q Lq. tauto.
    + unfold table_entry, alloc in E. inversion E; subst. destruct (NEW h initial H) as [A B]. rewrite app_length. ands; auto; try lia. exists k. rewrite Q. split; auto. apply same_refl.
  - apply nth_error_None in Et. lia.
Qed.

Lemma reached_ok h : reached less kequal initial combine h -> heapok h.
Proof.
  induction 1 as [|h R IH|h R IH|h k v R IH|h t1 t2 R IH L1 L2|h t k R IH L].
  - intros [|t] e E; discriminate.
  - apply heapok_app; auto; discriminate.
  - apply heapok_app; auto. intros e Q. injection Q as <-. constructor.
  - apply heapok_app; auto; discriminate.
  - destruct (table_combine K V less initial combine h t1 t2) as [h' t] eqn:E. destruct (combine_spec _ _ _ _ _ IH L1 L2 E); auto.
  - destruct (select K V less kequal initial h t k) as [h' r] eqn:E. destruct (select_spec _ _ _ _ _ IH L E); auto.
Qed.

Hypothesis AS : forall a b c, combine (combine a b) c = combine a (combine b c).
Lemma fold_split l : forall a, fold_left combine l a = combine a (fold_left combine l initial).
Proof.
  induction l as [|b l IH]; intros a; cbn; [symmetry; apply NE|]. rewrite IH, (IH (combine initial b)), AS. f_equal. f_equal. symmetry. apply NE.
Qed.
Lemma build_spec e : forall h h' t, heapok h -> build K V less initial combine e h = (h', t) ->
  heapok h' /\ length h <= t /\ t < length h' /\ (forall r, r < length h -> nth_error h' r = nth_error h r) /\
  forall k, meaning h' t k = fold_left combine (tree_contributions less e k) initial.
Proof.
  induction e as [|k v|a IHa b IHb]; intros h h' t H E; cbn [build] in E.
  - inversion E; subst. rewrite app_length. ands; cbn; auto; try lia.
    + apply heapok_app; auto; discriminate.
    + intros r L. now rewrite nth_error_app1.
    + intros k. unfold TableSpec.meaning. now rewrite nth_error_app2, Nat.sub_diag.
  - inversion E; subst. rewrite app_length. ands; cbn; auto; try lia.
    + apply heapok_app; auto; discriminate.
    + intros r L. now rewrite nth_error_app1.
    + intros k'. unfold TableSpec.meaning. rewrite nth_error_app2, Nat.sub_diag by auto. cbn. destruct (same k' k); cbn; auto. symmetry. apply NE.
  - destruct (build K V less initial combine a h) as [h1 t1] eqn:E1. destruct (IHa _ _ _ H E1) as (H1 & L1 & T1 & O1 & M1).
    destruct (build K V less initial combine b h1) as [h2 t2] eqn:E2. destruct (IHb _ _ _ H1 E2) as (H2 & L2 & T2 & O2 & M2).
    destruct (combine_spec h2 t1 t2 h' t H2 ltac:(lia) T2 E) as (H3 & F3 & T3 & L3 & M3 & O3 & N3 & Y3).
    assert (Lt : length h <= t).
    { destruct (nth_error h2 t1) as [n|] eqn:En; [|apply nth_error_None in En; lia]. destruct n; [rewrite Y3; [lia|eexists; eauto]| |];
      (rewrite N3; [lia|intros [e' Q]; congruence]). }
    ands; auto.
    + intros r L. destruct (O3 r ltac:(lia)) as [_ ->]; [left; lia|]. rewrite O2 by lia. apply O1. auto.
    + intros k. rewrite M3, M2. rewrite (meaning_eq h1 h2 t1 k) by (apply O2; lia). rewrite M1. cbn [tree_contributions]. rewrite fold_left_app. symmetry. apply fold_split.
Qed.
End P.
