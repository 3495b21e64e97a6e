(** * PropsFiber: C54-C57 (the automata of the fiber analysis). *)
From Verif Require Import Base FiberModel FiberSpec FiberProofs FiberDfaProofs.

(** ** C54: the nondeterministic automaton *)
Definition is_new (o : fop) : bool := match o with NewDecl | NewExpr => true | _ => false end.
(** the number given by the k-th operation *)
Definition number (ops : list fop) (k : nat) : nat := 4 + 2 * length (filter is_new (firstn k ops)).
Definition in_omega (ops : list fop) (q : nat) : Prop :=
  (exists k, nth_error ops k = Some NewDecl /\ (q = number ops k \/ q = number ops k + 1)) \/ (In Default ops /\ (q = 2 \/ q = 3)).
(** the program has no more declarations and expressions than there is room for *)
Definition fits (a : fsa) : Prop := next_index a <= MAX_FSA_NUMBER.

Lemma same_label_spec l l' : same_label l l' = true <-> l = l'.
Proof. destruct l, l'; cbn; try (split; congruence). rewrite Nat.eqb_eq. split; congruence. Qed.
Record FI (ops : list fop) (a : fsa) : Prop := {
  fi_len : length (fgraph a) = MAX_FSA_NUMBER;
  fi_next : next_index a = 4 + 2 * length (filter is_new ops);
  fi_edge : forall q l r, fsa_edge (fgraph a) q l r <-> In (Edge q r l) ops;
  fi_rng : forall q r l, In (Edge q r l) ops -> 2 <= q < next_index a /\ 2 <= r < next_index a;
  fi_dup : forall r es, nth_error (fgraph a) r = Some es -> NoDup es;
  fi_om : forall q, In q (omega a) <-> in_omega ops q;
  fi_nd : NoDup (omega a) }.
Lemma in_omega_app ops o q : in_omega (ops ++ [o]) q <-> in_omega ops q \/ (o = NewDecl /\ (q = 4 + 2 * length (filter is_new ops) \/ q = 4 + 2 * length (filter is_new ops) + 1)) \/ (o = Default /\ (q = 2 \/ q = 3)).
Proof.
  unfold in_omega, number. split.
  - intros [(k & E & H)|[H1 H2]].
    + destruct (Nat.lt_ge_cases k (length ops)) as [Hk|Hk].
      * left. left. exists k. rewrite nth_error_app1 in E by auto. split; auto. rewrite firstn_app in H. replace (k - length ops) with 0 in H by lia. rewrite firstn_O, app_nil_r in H. exact H.
      * rewrite nth_error_app2 in E by auto. destruct (k - length ops) as [|m] eqn:Em; [|destruct m; discriminate]. injection E as ->. right. left. split; auto. assert (k = length ops) by lia. subst. rewrite firstn_app, firstn_all, Nat.sub_diag, firstn_O, app_nil_r in H. exact H.
    + apply in_app_iff in H1. destruct H1 as [H1|[ -> |[]]]; auto.
  - intros [[(k & E & H)|[H1 H2]]|[[ -> H]|[ -> H]]].
    + left. exists k. assert (k < length ops) by (apply nth_error_Some; congruence). rewrite nth_error_app1 by auto. split; auto. rewrite firstn_app. replace (k - length ops) with 0 by lia. rewrite firstn_O, app_nil_r. exact H.
    + right. split; auto. apply in_app_iff; auto.
    + left. exists (length ops). rewrite nth_error_app2, Nat.sub_diag by lia. split; auto. rewrite firstn_app, firstn_all, Nat.sub_diag, firstn_O, app_nil_r. exact H.
    + right. split; auto. apply in_app_iff. cbn; auto.
Qed.
Lemma filter_snoc {A} (p : A -> bool) l x : filter p (l ++ [x]) = filter p l ++ if p x then [x] else [].
Proof. rewrite filter_app. cbn. destruct (p x); auto. Qed.
Lemma omega_lt ops a q : FI ops a -> In q (omega a) -> 2 <= q < next_index a.
Proof.
  intros F H. apply (fi_om _ _ F) in H. rewrite (fi_next _ _ F). destruct H as [(k & E & H)|[_ H]]; [|lia]. unfold number in H.
  assert (length (filter is_new (firstn k ops)) < length (filter is_new ops)); [|lia].
  rewrite <- (firstn_skipn k ops) at 2. rewrite filter_app, app_length. assert (In NewDecl (filter is_new (skipn k ops))). { apply filter_In. split; auto. rewrite <- (firstn_skipn k ops) in E. assert (k < length ops) by (rewrite <- (firstn_skipn k ops); apply nth_error_Some; congruence). rewrite nth_error_app2 in E by (rewrite firstn_length; lia). apply nth_error_In in E. exact E. }
  destruct (filter is_new (skipn k ops)); [contradiction|cbn; lia].
Qed.
Lemma add_set_nodup l x : NoDup l -> ~ In x l -> NoDup (add_to_nodeset l x).
Proof. intros. rewrite add_fresh by auto. now constructor. Qed.
Lemma fstep_ok ops a o a' : FI ops a -> fstep a o = Ok a' -> FI (ops ++ [o]) a'.
Proof.
  intros F E. pose proof F as F0. destruct F0 as [F1 F2 F3 F4 F5 F6 F7]. destruct o as [| | |from to l]; cbn [fstep] in E.
  - injection E as <-. cbn. assert (Hn : forall q, In q (omega a) -> q < next_index a) by (intros q Hq; apply (omega_lt ops a q F Hq)).
    assert (M : ~ In (next_index a) (omega a)) by (intros X; apply Hn in X; lia).
    assert (M2 : ~ In (next_index a + 1) (next_index a :: omega a)) by (intros [X|X]; [lia|apply Hn in X; lia]).
    constructor; cbn; auto.
    + rewrite filter_snoc, app_length. cbn. lia.
    + intros. rewrite F3, in_app_iff. cbn. split; [auto|]. intros [?|[X|[]]]; auto. discriminate.
    + intros q r l H. apply in_app_iff in H. destruct H as [H|[X|[]]]; [|discriminate]. specialize (F4 _ _ _ H). lia.
    + intros q. rewrite in_omega_app, <- F6. rewrite (add_fresh (omega a)) by auto. rewrite add_fresh by auto. cbn [In]. rewrite F2. split; [intros [?|[?|?]]; auto 7|]. intros [?|[[_ [?|?]]|[X _]]]; auto; discriminate.
    + rewrite (add_fresh (omega a)) by auto. rewrite add_fresh by auto. constructor; auto. now constructor.
  - injection E as <-. constructor; cbn; auto.
    + rewrite filter_snoc, app_length. cbn. lia.
    + intros. rewrite F3, in_app_iff. cbn. split; [auto|]. intros [?|[X|[]]]; auto. discriminate.
    + intros q r l H. apply in_app_iff in H. destruct H as [H|[X|[]]]; [|discriminate]. specialize (F4 _ _ _ H). lia.
    + intros q. rewrite in_omega_app, <- F6. split; auto. intros [?|[[X _]|[X _]]]; auto; discriminate.
  - destruct (node_in_set (omega a) FSA_default_node) eqn:Ed; injection E as <-.
    + apply node_in_set_spec in Ed. assert (Hd : In Default ops). { apply F6 in Ed. destruct Ed as [(k & Ek & H)|[H _]]; auto. unfold number, FSA_default_node in H. lia. }
      constructor; auto.
      * rewrite filter_snoc, app_length. cbn. lia.
      * intros. rewrite F3, in_app_iff. cbn. split; [auto|]. intros [?|[X|[]]]; auto. discriminate.
      * intros q r l H. apply in_app_iff in H. destruct H as [H|[X|[]]]; [|discriminate]. eauto.
      * intros q. rewrite in_omega_app, <- F6. split; auto. intros [?|[[X _]|[_ X]]]; auto; [discriminate|]. apply F6. right. auto.
    + apply node_in_set_false in Ed. assert (E3 : ~ In 3 (omega a)). { intros X. apply F6 in X. destruct X as [(k & Ek & H)|[H _]]; [unfold number in H; lia|]. apply Ed. apply F6. right. auto. }
      assert (E3' : ~ In 3 (2 :: omega a)) by (intros [X|X]; [lia|auto]). unfold default_node, FSA_default_node in *. constructor; cbn [fgraph next_index omega]; auto.
      * rewrite filter_snoc, app_length. cbn. lia.
      * intros. rewrite F3, in_app_iff. cbn. split; [auto|]. intros [?|[X|[]]]; auto. discriminate.
      * intros q r l H. apply in_app_iff in H. destruct H as [H|[X|[]]]; [|discriminate]. eauto.
      * intros q. rewrite in_omega_app, <- F6. rewrite (add_fresh (omega a)) by auto. change (2 + 1) with 3. rewrite add_fresh by auto. cbn [In]. split; [intros [?|[?|?]]; auto 6|]. intros [?|[[X _]|[_ [?|?]]]]; auto. discriminate.
      * rewrite (add_fresh (omega a)) by auto. change (2 + 1) with 3. rewrite add_fresh by auto. constructor; auto. now constructor.
  - destruct (Nat.ltb_spec from (next_index a)) as [Hfr|]; [|discriminate]. destruct (Nat.ltb_spec to (next_index a)) as [Hto|]; [|discriminate]. cbn [andb] in E. unfold add_FSA_edge in E. unfold rd in E. destruct (nth_error (fgraph a) to) as [es|] eqn:Et; [|discriminate]. cbn [bind] in E.
    destruct (Nat.leb_spec from 1) as [|Hf]; [discriminate|]. destruct (Nat.leb_spec to 1) as [|Ht]; [discriminate|]. cbn [orb] in E.
    assert (Len : length (filter is_new (ops ++ [Edge from to l])) = length (filter is_new ops)) by (rewrite filter_snoc, app_nil_r; auto).
    assert (Om : forall q, in_omega (ops ++ [Edge from to l]) q <-> in_omega ops q). { intros q. rewrite in_omega_app. split; auto. intros [?|[[X _]|[X _]]]; auto; discriminate. }
    assert (Rng : forall q r x, In (Edge q r x) (ops ++ [Edge from to l]) -> 2 <= q < next_index a /\ 2 <= r < next_index a). { intros q r x H. apply in_app_iff in H. destruct H as [H|[X|[]]]; [eauto|]. injection X as <- <- <-. lia. }
    destruct (existsb _ es) eqn:Ex.
    + injection E as <-. apply existsb_exists in Ex. destruct Ex as ([l' f'] & Hin & Hx). cbn in Hx. apply andb_true_iff in Hx. destruct Hx as [X1 X2]. apply Nat.eqb_eq in X1. apply same_label_spec in X2. subst f' l'.
      constructor; auto; [rewrite Len; auto| |intros q; rewrite Om; auto]. intros q x r. rewrite F3, in_app_iff. cbn. split; auto. intros [?|[X|[]]]; auto. injection X as <- <- <-. apply F3. exists es; auto.
    + apply bind_Ok in E. destruct E as (g' & Ew & E). injection E as <-. unfold wr in Ew. destruct (Nat.ltb_spec to (length (fgraph a))) as [Hlt|]; [|discriminate]. injection Ew as <-.
      assert (Hnew : ~ In (mkFedge l from) es). { intros X. assert (existsb (fun e => (efrom e =? from) && same_label (label e) l) es = true); [|congruence]. apply existsb_exists. eexists. split; [exact X|]. cbn. rewrite Nat.eqb_refl. now apply same_label_spec. }
      constructor; cbn [fgraph next_index omega]; auto.
      * now rewrite upd_length.
      * rewrite Len. auto.
      * intros q x r. rewrite in_app_iff, <- F3. cbn. unfold fsa_edge. rewrite nth_error_upd. destruct (Nat.eqb_spec to r) as [Heq|Hne].
        -- subst r. destruct (Nat.ltb_spec to (length (fgraph a))); [|lia]. split.
           ++ intros (es' & E' & Hin). injection E' as <-. destruct Hin as [X|Hin]; [injection X as -> ->; auto|left; exists es; auto].
           ++ intros [(es' & E' & Hin)|[X|[]]]; eexists; (split; [reflexivity|]); [right; congruence|injection X as -> ->; now left].
        -- split; [auto|]. intros [?|[X|[]]]; auto. injection X as X. congruence.
      * intros r es' Er. rewrite nth_error_upd in Er. destruct (Nat.eqb_spec to r) as [Heq|Hne]; [|eauto]. destruct (Nat.ltb_spec r (length (fgraph a))); [|discriminate]. injection Er as <-. constructor; eauto.
      * intros q. rewrite Om. auto.
Qed.
Lemma fsa_ok ops a : built_fsa ops a -> FI ops a.
Proof.
  assert (G : forall l done s, FI done s -> foldM fstep l s = Ok a -> FI (done ++ l) a).
  { induction l as [|o l IH]; intros done s F E; cbn [foldM] in E; [injection E as <-; now rewrite app_nil_r|]. apply bind_Ok in E. destruct E as (s' & E1 & E2). replace (done ++ o :: l) with ((done ++ [o]) ++ l) by (now rewrite <- app_assoc). apply IH with s'; auto. eapply fstep_ok; eauto. }
  apply (G ops [] fsa0). assert (Em : forall r es, nth_error (fgraph fsa0) r = Some es -> es = []). { intros r es H. apply nth_error_In in H. apply repeat_spec in H. auto. }
  constructor.
  - apply repeat_length.
  - reflexivity.
  - intros q l r. split; [|intros []]. intros (es & H & Hin). apply Em in H. subst. destruct Hin.
  - intros q r l [].
  - intros r es H. apply Em in H. subst. constructor.
  - intros q. split; [intros []|]. intros [(k & E & _)|[[] _]]. destruct k; discriminate.
  - constructor.
Qed.
Lemma fits_inb ops a : FI ops a -> fits a -> inb (fgraph a) /\ inside (fgraph a) (omega a).
Proof.
  intros F H. unfold fits in H. split.
  - intros q l r He. apply (fi_edge _ _ F) in He. apply (fi_rng _ _ F) in He. rewrite (fi_len _ _ F). lia.
  - intros q Hq. apply (omega_lt _ _ _ F) in Hq. rewrite (fi_len _ _ F). lia.
Qed.
Lemma eps_reads g q r : eps g q r <-> reads g q [] r.
Proof. split; [induction 1; [constructor|eapply reads_eps; eauto]|]. intros H. remember [] as w. induction H; subst; try discriminate; [constructor|econstructor; eauto]. Qed.

Theorem C54_automaton : forall ops a, built_fsa ops a ->
  (forall q l r, fsa_edge (fgraph a) q l r <-> In (Edge q r l) ops) /\ (forall r es, nth_error (fgraph a) r = Some es -> NoDup es) /\
  (forall q, In q (omega a) <-> in_omega ops q) /\ NoDup (omega a) /\ next_index a = number ops (length ops).
Proof. intros ops a H. apply fsa_ok in H. destruct H. ands; auto. unfold number. rewrite firstn_all. auto. Qed.
Theorem C54_closure : forall ops a N, built_fsa ops a -> fits a -> (forall q, In q N -> q < MAX_FSA_NUMBER) ->
  exists R, (forall fuel, MAX_FSA_NUMBER < fuel -> beclose fuel (fgraph a) N = Ok R) /\ (forall q, In q R <-> exists r, In r N /\ reads (fgraph a) q [] r) /\ (NoDup N -> NoDup R).
Proof.
  intros ops a N B H HN. apply fsa_ok in B. destruct (fits_inb _ _ B H) as [I1 I2]. destruct (beclose_ok (fgraph a) I1 N) as (R & E & S & ND & _); [intros q Hq; rewrite (fi_len _ _ B); auto|].
  exists R. rewrite (fi_len _ _ B) in E. ands; auto. intros q. rewrite S. split; intros (r & Hr & X); exists r; split; auto; now apply eps_reads.
Qed.

(** ** C55: the states of the deterministic automaton *)
(** the fields and their reverses are all different *)
Definition different (fields : list nat) (dual : nat -> nat) : Prop := NoDup (flat_map (fun f => [f; dual f]) fields).
Definition same_set (l l' : list nat) : Prop := forall q, In q l <-> In q l'.
(** P are the nodes from which the state is entered: for l.w those with an edge l to
    a node with w; for the base state, all *)
Definition entry (a : fsa) (d : dfa) (i : nat) (P : list nat) : Prop := NoDup P /\ exists w, spells d i w /\
  match w with [] => forall q, In q P <-> has_fiber (fgraph a) (omega a) [] q | l :: v => forall q, In q P <-> exists r, fsa_edge (fgraph a) q (Some l) r /\ has_fiber (fgraph a) (omega a) v r end.
Definition states_right (a : fsa) (fields : list nat) (dual : nat -> nat) (d : dfa) : Prop :=
  let has := has_fiber (fgraph a) (omega a) in
  1 <= length (states d) < 1000 /\
  (** each state is a different fiber, and consists of the nodes that have this fiber *)
  (forall i, 1 <= i <= length (states d) -> exists t w, state_at d i = Ok t /\ spells d i w /\ (forall q, In q (ns t) <-> has w q) /\ directed fields dual w (forward t) /\ (w = [] <-> i = 1) /\ (w = [] \/ paired (fgraph a) (omega a) w)) /\
  (forall i j w, spells d i w -> spells d j w -> i = j) /\
  (** no fiber is lengthened into a state it has gone through already *)
  (forall i j ti tj Pi Pj, above d j i -> state_at d i = Ok ti -> state_at d j = Ok tj -> forward ti = forward tj -> same_set (ns ti) (ns tj) -> entry a d i Pi -> entry a d j Pj -> list_sum Pi <> list_sum Pj).
(** a thousand different fibers of declarations or expressions *)
Definition too_many (a : fsa) (fields : list nat) (dual : nat -> nat) : Prop := exists ws, NoDup ws /\ 1000 <= length ws /\
  forall w, In w ws -> (exists b, directed fields dual w b) /\ (w = [] \/ paired (fgraph a) (omega a) w).

Lemma directed_fun fields dual w b b' : different fields dual -> directed fields dual w b -> directed fields dual w b' -> b = b'.
Proof.
  intros N H. assert (X : forall f f', In f fields -> In f' fields -> f = dual f' -> False).
  { unfold different in N. intros f f' Hf Hf' E. revert N Hf Hf'. clear H. induction fields as [|x fs IH]; cbn [flat_map app In]; intros N Hf Hf'; auto. inversion N as [|? ? N1 N2]; subst. inversion N2 as [|? ? N3 N4]; subst.
    assert (A : forall y, In y fs -> In y (flat_map (fun f => [f; dual f]) fs) /\ In (dual y) (flat_map (fun f => [f; dual f]) fs)). { intros y Hy. split; apply in_flat_map; exists y; cbn; auto. }
    destruct Hf as [Hf|Hf], Hf' as [Hf'|Hf']; try subst x; auto.
    - apply N1. left. now rewrite Hf'.
    - apply N1. right. apply A; auto.
    - apply N3. exact (proj1 (A _ Hf)). }
  revert b'. induction H as [|f w b Hf H IH|f w b Hf H IH]; intros b' Hb; inversion Hb; subst; auto.
  - exfalso. eapply X; [exact Hf|eassumption|reflexivity].
  - exfalso. eapply X; [eassumption|exact Hf|reflexivity].
  - f_equal. auto.
Qed.
Lemma base_ok ops a fields dual : FI ops a -> fits a -> exists n, (forall fuel, MAX_FSA_NUMBER < fuel -> beclose fuel (fgraph a) (omega a) = Ok n) /\
  DI (fgraph a) (omega a) fields dual (mkDfa [mkDnode n true (nodeset_hash n) None None] []).
Proof.
  intros F H. destruct (fits_inb _ _ F H) as [I1 I2]. destruct (beclose_ok (fgraph a) I1 (omega a) I2) as (n & E & Hs & ND & _). rewrite (fi_len _ _ F) in E. exists n. split; auto.
  set (d := mkDfa [mkDnode n true (nodeset_hash n) None None] []).
  assert (One : forall i t, state_at d i = Ok t -> i = 1 /\ t = mkDnode n true (nodeset_hash n) None None). { intros i t Ei. destruct i as [|[|[|i]]]; cbn in Ei; try discriminate. injection Ei as <-. auto. }
  constructor.
  - cbn. unfold MAX_DFA_NUMBER. lia.
  - eexists. ands; reflexivity.
  - intros i t Ei Hne. destruct (One i t Ei). contradiction.
  - intros t Et. destruct (One 1 t Et) as [_ ->]. cbn. apply sum_hash.
  - intros i t Ei. destruct (One i t Ei) as [-> ->]. exists []. ands.
    + eapply spells_base; [exact Ei|reflexivity].
    + now apply means_nil.
    + constructor.
    + apply ND. apply (fi_nd _ _ F).
  - intros j i l [].
  - intros i j ti tj p l Ei _ Si. destruct (One i ti Ei) as [-> ->]. discriminate.
  - intros i j ti tj Ha. exfalso. inversion Ha as [? t p Ei Si|? t p ? Ei Si]; subst; destruct (One i t Ei) as [-> ->]; discriminate.
Qed.
Definition enough : nat := MAX_FSA_NUMBER + 2 * MAX_DFA_NUMBER + 1.
Lemma make_ok ops a fields dual fuel : FI ops a -> fits a -> different fields dual -> enough <= fuel ->
  (makeDFA fuel a dual fields = Exit /\ too_many a fields dual) \/ exists d, makeDFA fuel a dual fields = Ok d /\ Done (fgraph a) (omega a) fields dual d.
Proof.
  intros F H N Hf. destruct (base_ok ops a fields dual F H) as (n & E & D). destruct (fits_inb _ _ F H) as [I1 I2]. assert (Hb : MAX_FSA_NUMBER < fuel /\ MAX_FSA_NUMBER + MAX_DFA_NUMBER + 1 + (MAX_DFA_NUMBER - 1) < fuel). { unfold enough in Hf. assert (1 <= MAX_DFA_NUMBER) by (unfold MAX_DFA_NUMBER; lia). lia. }
  unfold makeDFA. rewrite E by lia. cbn [bind].
  destruct (loop_ok (fgraph a) (omega a) fields dual I1 I2 N fuel _ [1] D) as [[E' C]|(d & E' & D' & _)].
  - constructor; [intros []|constructor].
  - intros i [ <- |[]]. cbn. lia.
  - intros i l Hi Hn. cbn in Hi. exfalso. apply Hn. left. lia.
  - intros i l [ <- |[]] j t Ej Sj _. assert (j = 1 /\ t = mkDnode n true (nodeset_hash n) None None) as [-> ->]; [|discriminate]. destruct j as [|[|[|j]]]; cbn in Ej; try discriminate. injection Ej as <-. auto.
  - cbn [length states]. rewrite (fi_len _ _ F). lia.
  - left. rewrite E'. split; auto.
  - right. exists d. rewrite E'. split; auto.
Qed.
Theorem C55_states : forall ops a fields dual fuel, built_fsa ops a -> fits a -> different fields dual -> enough <= fuel ->
  (makeDFA fuel a dual fields = Exit /\ too_many a fields dual) \/ exists d, makeDFA fuel a dual fields = Ok d /\ states_right a fields dual d.
Proof.
  intros ops a fields dual fuel B H N Hf. apply fsa_ok in B. destruct (make_ok ops a fields dual fuel B H N Hf) as [?|(d & E & D & _)]; auto. right. exists d. split; auto. unfold states_right. ands; try apply (di_len _ _ _ _ _ D).
  - intros i Hi. destruct (state_at_ok d i Hi) as (t & Et). destruct (di_sem _ _ _ _ _ D i t Et) as (w & A1 & A2 & A3 & A4). exists t, w. ands; auto.
    + split; intros X.
      * subst w. destruct (di_base _ _ _ _ _ D) as (t1 & E1 & S1 & _). apply (spells_inj _ _ _ _ d i 1 [] D A1). eapply spells_base; eauto.
      * subst i. destruct (di_base _ _ _ _ _ D) as (t1 & E1 & S1 & _). inversion A1; auto. congruence.
    + apply (word_ok _ _ _ _ d i w D A1).
  - intros i j w. apply (spells_inj _ _ _ _ d i j w D).
  - intros i j ti tj Pi Pj Ha Ei Ej Hd Hs (Ni & wi & Si & Hi) (Nj & wj & Sj & Hj) X.
    assert (Hh : forall k tk P, state_at d k = Ok tk -> entry a d k P -> hash tk = list_sum P).
    { intros k tk P Ek (Nk & w & Sk & Hk). destruct (di_sem _ _ _ _ _ D k tk Ek) as (w' & A1 & A2 & _ & A4). assert (w' = w) by (eapply spells_fun; eauto). subst w'. destruct (Nat.eq_dec k 1) as [Heq|Hne].
      - subst k. rewrite (di_hash _ _ _ _ _ D tk Ek). destruct (di_base _ _ _ _ _ D) as (t1 & E1 & S1 & _). assert (w = []) by (inversion Sk; auto; congruence). subst w. apply same_sum; auto. intros q. rewrite Hk. apply A2.
      - destruct (di_more _ _ _ _ _ D k tk Ek Hne) as (l & p & v & P' & B1 & B2 & B3 & B4 & _ & (B5 & B6) & B7). rewrite B7. inversion Sk as [|? ? l' p' v' C1 C2 C3 C4]; subst; [congruence|]. assert (l' = l) by congruence. assert (p' = p) by congruence. subst. assert (v' = v) by (eapply spells_fun; eauto). subst. apply same_sum; auto. intros q. rewrite B6. symmetry. apply Hk. }
    pose proof (di_chain _ _ _ _ _ D i j ti tj Ha Ei Ej) as Hc. assert (same_DFA_node ti tj = true); [|congruence]. apply same_node_spec.
    assert (i <> 1). { intros ->. destruct (di_base _ _ _ _ _ D) as (t1 & E1 & S1 & _). inversion Ha; congruence. }
    assert (Hne : ns ti <> []). { destruct (di_more _ _ _ _ _ D i ti Ei H0) as (l & p & v & P' & B1 & B2 & B3 & B4 & (q & B5 & _) & _). destruct (di_sem _ _ _ _ _ D i ti Ei) as (w' & A1 & A2 & _). assert (w' = l :: v) by (eapply spells_fun; eauto; eapply spells_longer; eauto). subst w'. intros Hnil. apply A2 in B5. rewrite Hnil in B5. destruct B5. }
    ands; auto.
    + rewrite (Hh i ti Pi), (Hh j tj Pj); auto; [split; eauto|split; eauto].
    + intros Hnil. destruct (ns ti) as [|q l] eqn:En; auto. assert (X2 : In q (ns tj)) by (apply Hs; now left). rewrite Hnil in X2. destruct X2.
Qed.
Print Assumptions C54_automaton.
Print Assumptions C54_closure.
Print Assumptions C55_states.

(** ** C56: lengthening fibers *)
Definition state_is (a : fsa) (fields : list nat) (dual : nat -> nat) (d : dfa) (i : nat) (w : list nat) : Prop := exists t, state_at d i = Ok t /\ (forall q, In q (ns t) <-> has_fiber (fgraph a) (omega a) w q) /\ directed fields dual w (forward t).
(** Two letters never lead to the same nodes. *)
Definition distinguished (a : fsa) (fields : list nat) (dual : nat -> nat) : Prop := forall w l l' q, In l (flat_map (fun f => [f; dual f]) fields) -> In l' (flat_map (fun f => [f; dual f]) fields) ->
  has_fiber (fgraph a) (omega a) (l :: w) q -> (forall q, has_fiber (fgraph a) (omega a) (l :: w) q <-> has_fiber (fgraph a) (omega a) (l' :: w) q) -> l = l'.
(** Every fiber on the way from v to dm.v is one of both nodes of something. *)
Definition all_paired (a : fsa) (dm v : list nat) : Prop := forall u s, dm = u ++ s -> s <> [] -> paired (fgraph a) (omega a) (s ++ v).
Definition word_over (fields : list nat) (dual : nat -> nat) (w : list nat) : Prop := forall l, In l w -> In l (flat_map (fun f => [f; dual f]) fields).

Lemma longer_in d i l j : In (l, j) (longer d i) <-> 1 <= j <= length (states d) /\ tree_at d j i = Some l.
Proof.
  unfold longer. assert (G : forall js p, In (l, j) (fold_left (fun p j => match tree_at d j i with Some f => (f, j) :: p | None => p end) js p) <-> In (l, j) p \/ (In j js /\ tree_at d j i = Some l)).
  { induction js as [|x js IH]; intros p; cbn [fold_left In]; [tauto|]. rewrite IH. destruct (tree_at d x i) as [f|] eqn:E; cbn [In].
    - split; [intros [[X|?]|[? ?]]; auto|intros [?|[[X|?] ?]]; auto]. + injection X as -> ->. auto. + subst x. left. left. congruence.
    - split; [intros [?|[? ?]]; auto|intros [?|[[X|?] ?]]; auto]. subst x. congruence. }
  rewrite G. cbn [In]. rewrite in_seq. split; [intros [[]|[? ?]]; split; auto; lia|intros [? ?]; right; split; auto; lia].
Qed.
Lemma lengthen_some d l i j : lengthen d l i = Some j -> tree_at d j i = Some l.
Proof.
  unfold lengthen. destruct (find _ _) as [[l' j']|] eqn:E; [|discriminate]. cbn. intros X. injection X as ->. apply find_some in E. destruct E as [E1 E2]. cbn in E2. apply Nat.eqb_eq in E2. subst. now apply longer_in in E1.
Qed.
Lemma lengthen_ex d l i j : 1 <= j <= length (states d) -> tree_at d j i = Some l -> exists j', lengthen d l i = Some j'.
Proof.
  intros Hj Ht. unfold lengthen. destruct (find _ _) as [x|] eqn:E; [eexists; reflexivity|]. exfalso. assert (Hin : In (l, j) (longer d i)) by (now apply longer_in). apply (find_none _ _ E) in Hin. cbn in Hin. rewrite Nat.eqb_refl in Hin. discriminate.
Qed.
Lemma fiber_cong a l w w' : (forall q, has_fiber (fgraph a) (omega a) w q <-> has_fiber (fgraph a) (omega a) w' q) -> forall q, has_fiber (fgraph a) (omega a) (l :: w) q <-> has_fiber (fgraph a) (omega a) (l :: w') q.
Proof. intros H q. rewrite !fiber_cons. split; intros (p & He & r & Hf & Hr); exists p; split; auto; exists r; split; auto; now apply H. Qed.
Lemma directed_cons fields dual l w w' b b' : different fields dual -> directed fields dual w b -> directed fields dual w' b -> directed fields dual (l :: w) b' -> directed fields dual (l :: w') b'.
Proof.
  intros N Hw Hw' H. inversion H as [|f v c Hf Hd|f v c Hf Hd]; subst.
  - assert (b' = b) by (eapply directed_fun; eauto). subst. now constructor.
  - assert (c = b) by (eapply directed_fun; eauto). subst. now constructor.
Qed.
(** the letter in the tree leads from i to j *)
Lemma tree_leads a fields dual d i j l w : different fields dual -> DI (fgraph a) (omega a) fields dual d -> tree_at d j i = Some l -> state_is a fields dual d i w -> state_is a fields dual d j (l :: w).
Proof.
  intros N D Ht (t & Et & Hw & Dw). apply tree_at_in in Ht. apply (di_tree _ _ _ _ _ D) in Ht. destruct Ht as [_ (tj & v & Ej & Sv & Mv & Dv)]. destruct (di_sem _ _ _ _ _ D i t Et) as (v' & A1 & A2 & A3 & _). assert (v' = v) by (eapply spells_fun; eauto). subst v'.
  exists tj. ands; auto.
  - intros q. rewrite (Mv q). apply fiber_cong. intros q'. rewrite <- (Hw q'). symmetry. apply A2.
  - eapply directed_cons; [exact N|exact A3|exact Dw|exact Dv].
Qed.
Lemma modifier_sound a fields dual d : different fields dual -> DI (fgraph a) (omega a) fields dual d -> forall dm i v j, state_is a fields dual d i v -> dep_modifier_fiber d dm i = Some j -> state_is a fields dual d j (dm ++ v).
Proof.
  intros N D. induction dm as [|x dm IH]; intros i v j Hi E; cbn [dep_modifier_fiber] in E; [injection E as <-; auto|]. destruct (dep_modifier_fiber d dm i) as [k|] eqn:Ek; [|discriminate]. apply lengthen_some in E. cbn [app]. eapply tree_leads; eauto.
Qed.
(** whatever was stored, there is a state for the longer fiber *)
Lemma step_exists a fields dual d i l w : different fields dual -> Done (fgraph a) (omega a) fields dual d -> state_is a fields dual d i w -> In l (flat_map (fun f => [f; dual f]) fields) -> paired (fgraph a) (omega a) (l :: w) ->
  exists j l', state_is a fields dual d j (l :: w) /\ tree_at d j i = Some l' /\ In l' (flat_map (fun f => [f; dual f]) fields).
Proof.
  intros N [D H] (t & Et & Hw & Dw) Hl (q & P1 & P2). destruct (di_sem _ _ _ _ _ D i t Et) as (v & A1 & A2 & A3 & _). assert (Heq : forall q, has_fiber (fgraph a) (omega a) v q <-> has_fiber (fgraph a) (omega a) w q). { intros q'. rewrite <- (Hw q'). symmetry. apply A2. }
  assert (Hi : 1 <= i <= length (states d)) by (eapply state_at_valid; eauto). destruct (H i l Hi Hl v A1) as (j & (tj & v' & Ej & Sv & Mv & Dv) & l' & Ht). { exists q. split; now apply (fiber_cong a l v w Heq). }
  assert (v' = v) by (eapply spells_fun; eauto). subst v'. exists j, l'. ands; auto.
  - exists tj. ands; auto; [intros q'; rewrite (Mv q'); now apply fiber_cong|]. eapply directed_cons; [exact N|exact A3|exact Dw|exact Dv].
  - apply tree_at_in in Ht. now apply (di_tree _ _ _ _ _ D) in Ht.
Qed.
Lemma state_of_spells a fields dual d i v : DI (fgraph a) (omega a) fields dual d -> spells d i v -> state_is a fields dual d i v.
Proof. intros D S. assert (V : exists t, state_at d i = Ok t) by (inversion S; eauto). destruct V as (t & Et). destruct (di_sem _ _ _ _ _ D i t Et) as (w & A1 & A2 & A3 & _). assert (w = v) by (eapply spells_fun; eauto). subst. exists t. auto. Qed.

Theorem C56_modifiers_partial : forall ops a fields dual fuel d, built_fsa ops a -> fits a -> different fields dual -> enough <= fuel -> makeDFA fuel a dual fields = Ok d ->
  (** a fiber found is the right one *)
  (forall dm i v j, spells d i v -> dep_modifier_fiber d dm i = Some j -> state_is a fields dual d j (dm ++ v)) /\
  (** and, if no two letters lead to the same nodes, every fiber is found *)
  (distinguished a fields dual -> forall dm i v, spells d i v -> word_over fields dual dm -> all_paired a dm v -> exists j, dep_modifier_fiber d dm i = Some j).
Proof.
  intros ops a fields dual fuel d B H N Hf E. apply fsa_ok in B. destruct (make_ok ops a fields dual fuel B H N Hf) as [[E' _]|(d' & E' & Dn)]; [congruence|]. assert (d' = d) by congruence. subst d'. pose proof (proj1 Dn) as D. split.
  - intros dm i v j Sv. apply (modifier_sound a fields dual d N D). now apply state_of_spells.
  - intros Hd. induction dm as [|x dm IH]; intros i v Sv Hw Hp; cbn [dep_modifier_fiber]; [eauto|]. destruct (IH i v Sv) as (k & Ek). { intros l Hl. apply Hw. now right. } { intros u s -> Hs. apply (Hp (x :: u) s); auto. }
    rewrite Ek. assert (Sk : state_is a fields dual d k (dm ++ v)) by (eapply modifier_sound; eauto; now apply state_of_spells).
    assert (Px : paired (fgraph a) (omega a) (x :: dm ++ v)) by (apply (Hp [] (x :: dm)); [reflexivity|discriminate]).
    destruct (step_exists a fields dual d k x (dm ++ v) N Dn Sk) as (j & l' & Sj & Ht & Hl'); auto. { apply Hw. now left. }
    pose proof (tree_leads a fields dual d k j l' (dm ++ v) N D Ht Sk) as (tj & Ej & Mj & _). destruct Sj as (tj' & Ej' & Mj' & _). assert (tj' = tj) by congruence. subst tj'.
    assert (x = l'). { destruct Px as (q & P1 & _). apply (Hd (dm ++ v) x l' (2 * q)); auto; [apply Hw; now left|]. intros q'. now rewrite <- Mj, <- Mj'. } subst l'.
    apply (lengthen_ex d x k j); auto. eapply state_at_valid; eauto.
Qed.

(** ** C57: the fiber sets of declarations *)
Lemma fiber_set_ok d index : (forall i, 1 <= i <= length (states d) -> exists t, state_at d i = Ok t) -> exists fwd rev, DFA_fiber_set d index = Ok (fwd, rev) /\ NoDup fwd /\ NoDup rev /\
  forall i, (In i fwd \/ In i rev <-> 2 <= i <= length (states d) /\ exists t, state_at d i = Ok t /\ In index (ns t) /\ In (index + 1) (ns t)) /\ (forall t, state_at d i = Ok t -> (In i fwd -> forward t = true) /\ (In i rev -> forward t = false)).
Proof.
  intros V. set (J := fun (done : list nat) (st : list nat * list nat) => NoDup (fst st) /\ NoDup (snd st) /\ forall i, (In i (fst st) \/ In i (snd st) <-> In i done /\ exists t, state_at d i = Ok t /\ In index (ns t) /\ In (index + 1) (ns t)) /\ (forall t, state_at d i = Ok t -> (In i (fst st) -> forward t = true) /\ (In i (snd st) -> forward t = false))).
  unfold DFA_fiber_set. match goal with |- exists fwd rev, foldM ?F ?l ?b = _ /\ _ => destruct (foldM_inv F l J b) as ([fwd rev] & E & J1 & J2 & J3) end.
  - split; [constructor|]. split; [constructor|]. intros i. cbn. split; [tauto|]. intros; tauto.
  - intros done i rest [fwd rev] El (J1 & J2 & J3). cbn [fst snd] in *. assert (Hi : In i (seq 2 (length (states d) - 1))) by (rewrite El; apply in_app_iff; right; now left). apply in_seq in Hi. assert (Hnd : ~ In i done). { pose proof (seq_NoDup (length (states d) - 1) 2) as N. rewrite El in N. apply NoDup_remove_2 in N. intros X. apply N. apply in_app_iff. auto. }
    destruct (V i ltac:(lia)) as (t & Et). rewrite Et. cbn [bind]. assert (Nf : ~ In i fwd /\ ~ In i rev) by (split; intros X; apply Hnd; apply J3; auto). destruct Nf as [Nf Nr].
    destruct (node_in_set (ns t) index && node_in_set (ns t) (index + 1)) eqn:Eb.
    + apply andb_true_iff in Eb. destruct Eb as [B1 B2]. apply node_in_set_spec in B1, B2. destruct (forward t) eqn:Ef; eexists; (split; [reflexivity|]); unfold J; cbn [fst snd]; (split; [try constructor; auto|]); (split; [try constructor; auto|]); intros k; destruct (J3 k) as [K1 K2]; (split; [|intros tk Ek; destruct (K2 tk Ek) as [K3 K4]; split; cbn [In]; auto; intros [ <- |X]; auto; congruence]); rewrite in_app_iff; cbn [In]; split.
      * intros [[ <- |X]|X]; [split; eauto| |]; (assert (X' : In k fwd \/ In k rev) by auto; apply K1 in X'; tauto).
      * intros [[X|[ <- |[]]] Y]; auto. assert (X' : In k fwd \/ In k rev) by (apply K1; auto). tauto.
      * intros [X|[ <- |X]]; [|split; eauto|]; (assert (X' : In k fwd \/ In k rev) by auto; apply K1 in X'; tauto).
      * intros [[X|[ <- |[]]] Y]; auto. assert (X' : In k fwd \/ In k rev) by (apply K1; auto). tauto.
    + eexists. split; [reflexivity|]. unfold J. cbn [fst snd]. split; auto. split; auto. intros k. destruct (J3 k) as [K1 K2]. split; auto. rewrite K1, in_app_iff. cbn [In]. split; [tauto|]. intros [[X|[ <- |[]]] Y]; auto. exfalso. destruct Y as (t' & Et' & Y1 & Y2). assert (t' = t) by congruence. subst. apply andb_false_iff in Eb. rewrite !node_in_set_false in Eb. tauto.
  - exists fwd, rev. split; [exact E|]. split; auto. split; auto. intros i. destruct (J3 i) as [K1 K2]. cbn [fst snd] in *. split; auto. rewrite K1, in_seq. split; intros [X Y]; split; auto; lia.
Qed.
(** The final fiber sets of a declaration with number x: fwd and rev are exactly the
    fibers of the automaton that both nodes x and x+1 have; and no such fiber is left
    out, except those going through fibers that are not in any set and those that
    behave like the base fiber. *)
Theorem C57_fiber_set : forall ops a fields dual fuel d x, built_fsa ops a -> fits a -> different fields dual -> enough <= fuel -> makeDFA fuel a dual fields = Ok d ->
  exists fwd rev, DFA_fiber_set d x = Ok (fwd, rev) /\ NoDup fwd /\ NoDup rev /\
  (forall i w b, spells d i w -> directed fields dual w b -> In i (if b : bool then fwd else rev) <-> w <> [] /\ has_fiber (fgraph a) (omega a) w x /\ has_fiber (fgraph a) (omega a) w (x + 1)) /\
  (forall i, In i fwd \/ In i rev -> exists w, spells d i w) /\
  (forall w b, directed fields dual w b -> all_paired a w [] -> has_fiber (fgraph a) (omega a) w x -> has_fiber (fgraph a) (omega a) w (x + 1) ->
     exists i, state_is a fields dual d i w /\ (i = 1 \/ In i (if b : bool then fwd else rev))).
Proof.
  intros ops a fields dual fuel d x B H N Hf E. apply fsa_ok in B. destruct (make_ok ops a fields dual fuel B H N Hf) as [[E' _]|(d' & E' & Dn)]; [congruence|]. assert (d' = d) by congruence. subst d'. pose proof (proj1 Dn) as D.
  destruct (fiber_set_ok d x (state_at_ok d)) as (fwd & rev & Es & N1 & N2 & Hs). exists fwd, rev. do 3 (split; [assumption|]).
  assert (Base : forall w, spells d 1 w -> w = []). { intros w Sw. destruct (di_base _ _ _ _ _ D) as (t1 & E1 & S1 & _). inversion Sw; auto; congruence. }
  assert (Pick : forall i t w b, state_at d i = Ok t -> 2 <= i -> (forall q, In q (ns t) <-> has_fiber (fgraph a) (omega a) w q) -> forward t = b -> has_fiber (fgraph a) (omega a) w x -> has_fiber (fgraph a) (omega a) w (x + 1) -> In i (if b : bool then fwd else rev)).
  { intros i t w b Et Hi Mt Hb H1 H2. destruct (Hs i) as [K1 K2]. destruct (K2 t Et) as [K3 K4]. pose proof (state_at_valid _ _ _ Et). assert (X : In i fwd \/ In i rev). { apply K1. split; [lia|]. exists t. ands; auto; now apply Mt. } destruct X as [X|X]; [rewrite (K3 X) in Hb|rewrite (K4 X) in Hb]; subst b; auto. }
  split; [|split].
  - intros i w b Sw Db. destruct (state_of_spells a fields dual d i w D Sw) as (t & Et & Mt & Dt). assert (forward t = b) by (eapply directed_fun; eauto). split.
    + intros X. assert (X' : In i fwd \/ In i rev) by (destruct b; auto). destruct (Hs i) as [K1 _]. apply K1 in X'. destruct X' as (Hi & t' & Et' & X1 & X2). assert (t' = t) by congruence. subst t'. ands; try (now apply Mt). intros ->. destruct (di_base _ _ _ _ _ D) as (t1 & E1 & S1 & _). assert (i = 1) by (eapply spells_inj; [exact D|exact Sw|eapply spells_base; eauto]). lia.
    + intros (Hne & H1 & H2). eapply Pick; eauto. pose proof (state_at_valid _ _ _ Et). destruct (Nat.eq_dec i 1) as [Heq|]; [|lia]. subst i. apply Base in Sw. contradiction.
  - intros i X. destruct (Hs i) as [K1 _]. apply K1 in X. destruct X as (_ & t & Et & _). destruct (di_sem _ _ _ _ _ D i t Et) as (w & Sw & _). eauto.
  - intros w b Db Hp H1 H2. assert (Ex : exists i, state_is a fields dual d i w).
    { clear H1 H2. revert b Db Hp. induction w as [|l w IH]; intros b Db Hp.
      - exists 1. destruct (di_base _ _ _ _ _ D) as (t1 & E1 & S1 & _). apply state_of_spells; auto. eapply spells_base; eauto.
      - assert (Dw : exists c, directed fields dual w c) by (inversion Db; eauto). destruct Dw as (c & Dw). destruct (IH c Dw) as (i & Hi). { intros u s -> Hne. apply (Hp (l :: u) s); auto. }
        destruct (step_exists a fields dual d i l w N Dn Hi) as (j & l' & Hj & _); eauto.
        + inversion Db as [|f v c' Hin|f v c' Hin]; subst; apply in_flat_map; eexists; (split; [exact Hin|]); cbn; auto.
        + specialize (Hp [] (l :: w) eq_refl ltac:(discriminate)). rewrite app_nil_r in Hp. exact Hp. }
    destruct Ex as (i & t & Et & Mt & Dt). exists i. split; [exists t; auto|]. pose proof (state_at_valid _ _ _ Et). destruct (Nat.eq_dec i 1) as [Heq|Hne]; auto. right. eapply Pick; eauto; [lia|]. eapply directed_fun; eauto.
Qed.
Print Assumptions C56_modifiers_partial.
Print Assumptions C57_fiber_set.

(** ** Examples and refutations *)
Definition exf_dual (f : nat) : nat := f + 100.
Definition build_fsa (ops : list fop) : fsa := match foldM fstep ops fsa0 with Ok a => a | _ => fsa0 end.
Definition pair_edges (from to l : nat) : list fop := [Edge from to (Some l); Edge (from + 1) (to + 1) (Some l)].
(** A list with links next (10) and prev (11): what 6,7 stands for has both. *)
Definition exf_ops : list fop := [NewDecl; NewDecl; NewExpr] ++ pair_edges 4 6 10 ++ pair_edges 6 6 10 ++ pair_edges 6 6 11 ++ [Edge 8 4 None; Edge 9 5 None; Edge 9 5 None].
Definition exf : fsa := build_fsa exf_ops.
Definition exf_fields : list nat := [10; 11].
Lemma exf_built : built_fsa exf_ops exf.
Proof. vm_compute. reflexivity. Qed.
Lemma exf_different : different exf_fields exf_dual.
Proof. unfold different. vm_compute. repeat (constructor; [cbn; lia|]). constructor. Qed.
(** The hypotheses of C54-C57 are met, with this result: *)
Definition exf_dfa : dfa := match makeDFA enough exf exf_dual exf_fields with Ok d => d | _ => mkDfa [] [] end.
Example C55_example : built_fsa exf_ops exf /\ fits exf /\ different exf_fields exf_dual /\ makeDFA enough exf exf_dual exf_fields = Ok exf_dfa /\
  map (fun t => (ns t, forward t, field t, shorter t)) (states exf_dfa) = [([8; 9; 7; 6; 5; 4], true, None, None); ([9; 8; 4; 6; 5; 7], true, Some 10, Some 1); ([6; 7], true, Some 11, Some 1); ([8; 9; 5; 7; 4; 6], true, Some 10, Some 3); ([7; 6], true, Some 11, Some 2)] /\
  DFA_fiber_set exf_dfa 6 = Ok ([5; 4; 3; 2], []).
Proof. split; [exact exf_built|]. split; [unfold fits; apply Nat.leb_le; vm_compute; reflexivity|]. split; [exact exf_different|]. split; [vm_compute; reflexivity|]. split; vm_compute; reflexivity. Qed.
(** Without [distinguished], fibers are lost: in a list linked both ways, next and
    prev lead from next to the same state, and the one stored last wins.  So the
    modifier next.next finds no fiber, although 6 and 7 have it. *)
Definition exg_ops : list fop := [NewDecl; NewDecl] ++ pair_edges 6 6 10 ++ pair_edges 6 6 11.
Definition exg : fsa := build_fsa exg_ops.
Definition exg_dfa : dfa := match makeDFA enough exg exf_dual exf_fields with Ok d => d | _ => mkDfa [] [] end.
Theorem C56_modifiers_refuted : built_fsa exg_ops exg /\ fits exg /\ different exf_fields exf_dual /\ makeDFA enough exg exf_dual exf_fields = Ok exg_dfa /\
  spells exg_dfa 1 [] /\ all_paired exg [10; 10] [] /\ directed exf_fields exf_dual [10; 10] true /\ dep_modifier_fiber exg_dfa [10; 10] 1 = None.
Proof.
  split; [vm_compute; reflexivity|]. split; [unfold fits; apply Nat.leb_le; vm_compute; reflexivity|]. split; [exact exf_different|]. split; [vm_compute; reflexivity|]. split.
  { assert (E : exists t, state_at exg_dfa 1 = Ok t /\ shorter t = None) by (eexists; split; vm_compute; reflexivity). destruct E as (t & E1 & E2). eapply spells_base; eauto. }
  assert (F : FI exg_ops exg) by (apply fsa_ok; vm_compute; reflexivity). split.
  { assert (St : forall q, q = 6 \/ q = 7 -> forall w, (forall l, In l w -> l = 10) -> has_fiber (fgraph exg) (omega exg) w q).
    { intros q Hq w Hw. exists q. split.
      - apply (fi_om _ _ F). left. exists 1. split; [reflexivity|]. unfold number. cbn. lia.
      - induction w as [|l w IH]; [constructor|]. assert (l = 10) by (apply Hw; now left). subst l. eapply reads_field; [|apply IH; intros l Hl; apply Hw; now right]. apply (fi_edge _ _ F). destruct Hq; subst q; unfold exg_ops, pair_edges; cbn; auto 8. }
    intros u s E Hs. exists 3. assert (Hw : forall l, In l (s ++ []) -> l = 10). { intros l Hl. rewrite app_nil_r in Hl. assert (Hin : In l [10; 10]) by (rewrite E; apply in_app_iff; auto). cbn in Hin. lia. } split; apply St; auto. }
  split; [|vm_compute; reflexivity]. constructor; [now left|]. constructor; [now left|]. constructor.
Qed.
(** A chain can go through the same nodes in the same direction twice, when they are
    entered differently before the closure: states 2 and 3 here. *)
Definition exh_ops : list fop := [NewDecl; NewDecl; NewDecl] ++ pair_edges 6 8 10 ++ pair_edges 4 4 10 ++ [Edge 4 6 None; Edge 6 4 None; Edge 5 7 None; Edge 7 5 None].
Definition exh : fsa := build_fsa exh_ops.
Example C55_repeated_example : exists d t2 t3, built_fsa exh_ops exh /\ makeDFA enough exh exf_dual [10] = Ok d /\ above d 2 3 /\ state_at d 2 = Ok t2 /\ state_at d 3 = Ok t3 /\ same_set (ns t2) (ns t3) /\ forward t2 = forward t3.
Proof.
  assert (E : exists d t2 t3, built_fsa exh_ops exh /\ makeDFA enough exh exf_dual [10] = Ok d /\ state_at d 2 = Ok t2 /\ state_at d 3 = Ok t3 /\ shorter t3 = Some 2 /\ forward t2 = forward t3 /\ forallb (node_in_set (ns t2)) (ns t3) = true /\ forallb (node_in_set (ns t3)) (ns t2) = true).
  { eexists _, _, _. split; [vm_compute; reflexivity|]. split; [vm_compute; reflexivity|]. split; [vm_compute; reflexivity|]. split; [vm_compute; reflexivity|]. split; [vm_compute; reflexivity|]. split; [vm_compute; reflexivity|]. split; vm_compute; reflexivity. }
  destruct E as (d & t2 & t3 & E1 & E2 & E3 & E4 & E5 & E6 & E7 & E8). exists d, t2, t3. split; [exact E1|]. split; [exact E2|]. split; [eapply above_one; eauto|]. split; [exact E3|]. split; [exact E4|]. split; [|exact E6].
  rewrite forallb_forall in E7, E8. intros q. split; intros Hq; apply node_in_set_spec; auto.
Qed.
(** A fiber that goes through one that no declaration has both ways is not found:
    4 and 5 have 10.11, but no state stands for it. *)
Definition exi_ops : list fop := [NewDecl; NewDecl; NewDecl; Edge 4 6 (Some 10); Edge 5 8 (Some 10); Edge 6 6 (Some 11); Edge 8 8 (Some 11)].
Definition exi : fsa := build_fsa exi_ops.
Example C57_gap_example : exists d, built_fsa exi_ops exi /\ makeDFA enough exi exf_dual exf_fields = Ok d /\ has_fiber (fgraph exi) (omega exi) [10; 11] 4 /\ has_fiber (fgraph exi) (omega exi) [10; 11] 5 /\
  directed exf_fields exf_dual [10; 11] true /\ forall i, ~ spells d i [10; 11].
Proof.
  assert (E : exists d, built_fsa exi_ops exi /\ makeDFA enough exi exf_dual exf_fields = Ok d /\ forallb (fun t => negb (match field t with Some 11 => true | _ => false end)) (states d) = true).
  { eexists. split; [vm_compute; reflexivity|]. split; vm_compute; reflexivity. }
  destruct E as (d & E1 & E2 & E3). exists d. split; [exact E1|]. split; [exact E2|]. pose proof (fsa_ok _ _ E1) as F.
  assert (Om : forall k q, (k < 3 /\ (q = 4 + 2 * k \/ q = 5 + 2 * k)) -> In q (omega exi)). { intros k q [Hk Hq]. apply (fi_om _ _ F). left. exists k. destruct k as [|[|[|k]]]; [| | |lia]; (split; [reflexivity|unfold number; cbn; lia]). }
  assert (Ed : forall q r l, In (Edge q r (Some l)) exi_ops -> fsa_edge (fgraph exi) q (Some l) r) by (intros; now apply (fi_edge _ _ F)).
  split. { exists 6. split; [apply (Om 1); lia|]. apply reads_field with 6; [apply Ed; cbn; auto 8|]. apply reads_field with 6; [apply Ed; cbn; auto 8|constructor]. }
  split. { exists 8. split; [apply (Om 2); lia|]. apply reads_field with 8; [apply Ed; cbn; auto 8|]. apply reads_field with 8; [apply Ed; cbn; auto 8|constructor]. }
  split. { constructor; [cbn; auto|]. constructor; [cbn; auto|]. constructor. }
  intros i S. inversion S as [|? t l p w A1 A2 A3 A4]; subst. inversion A4 as [|? t' l' p' w' B1 B2 B3 B4]; subst. rewrite forallb_forall in E3. assert (Hin : In t' (states d)). { destruct p as [|k]; [discriminate|]. cbn in B1. unfold rd in B1. destruct (nth_error (states d) k) eqn:En; [|discriminate]. injection B1 as ->. eapply nth_error_In; eauto. }
  apply E3 in Hin. rewrite B2 in Hin. discriminate.
Qed.
(** The tables have a fixed size that is not checked: with 899 or more declarations
    the construction reads outside FSA_graph. *)
Lemma decls_built : forall n s, exists a, foldM fstep (repeat NewDecl n) s = Ok a /\ fgraph a = fgraph s /\ next_index a = next_index s + 2 * n /\ (0 < n -> exists r, omega a = (next_index s + 2 * n - 1) :: r).
Proof.
  induction n as [|n IH]; intros s; cbn [repeat foldM]; [exists s; ands; auto; intros; lia|]. cbn [fstep id_decl_node fst bind].
  set (s' := mkFsa _ _ _). destruct (IH s') as (a & E & G & N & O). exists a. ands; auto; [rewrite N; cbn; lia|]. intros _. destruct n as [|n].
  - cbn in E. injection E as <-. cbn [omega s']. replace (next_index s + 2 * 1 - 1) with (next_index s + 1) by lia.
    assert (H : exists r, add_to_nodeset (omega s) (next_index s) = next_index s :: r). { unfold add_to_nodeset. destruct (omega s) as [|x l]; [eauto|]. destruct (Nat.eqb_spec x (next_index s)) as [Heq|]; [subst; eauto|eauto]. }
    destruct H as (r & ->). cbn [add_to_nodeset]. destruct (Nat.eqb_spec (next_index s) (next_index s + 1)); [lia|eauto].
  - destruct (O ltac:(lia)) as (r & ->). exists r. f_equal. cbn [next_index s']. lia.
Qed.
Theorem C54_size_refuted : forall n, 899 <= n -> exists a, built_fsa (repeat NewDecl n) a /\ forall fuel dual fields, 0 < fuel -> makeDFA fuel a dual fields = UB.
Proof.
  intros n Hn. destruct (decls_built n fsa0) as (a & E & G & N & O). exists a. split; [exact E|]. intros fuel dual fields Hf. destruct fuel as [|fuel]; [lia|]. destruct (O ltac:(lia)) as (r & Eo).
  unfold makeDFA, beclose. cbn [beclose_loop]. rewrite Eo. cbn [foldM]. unfold beclose_node at 1, rd. rewrite (proj2 (nth_error_None (fgraph a) _)); [reflexivity|].
  rewrite G. unfold fsa0. cbn [fgraph next_index]. rewrite repeat_length. unfold MAX_FSA_NUMBER. lia.
Qed.
Print Assumptions C56_modifiers_refuted.
Print Assumptions C54_size_refuted.
