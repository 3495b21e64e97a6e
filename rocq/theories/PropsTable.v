(** * PropsTable: C23 (TABLE) and C24 (Phylum numbering). *)
From Verif Require Import Base TableModel TableSpec TableProofs.

Section C23.
Context {K V : Type} (less : K -> K -> bool) (kequal : K -> K -> bool) (initial : V) (combine : V -> V -> V).
Notation reached := (reached less kequal initial combine).
Notation meaning := (meaning less initial).

(** ** C23: for every program of table operations, combining two existing tables
    yields a table that maps each key to the combination of what the arguments
    mapped it to; every other table keeps its meaning, except that the first
    argument becomes the result when it is itself the result of a combination. *)
Theorem C23_combine : key_order less kequal -> neutral initial combine ->
  forall h t1 t2 h' t, reached h -> t1 < length h -> t2 < length h ->
  table_combine K V less initial combine h t1 t2 = (h', t) ->
  (forall k, meaning h' t k = combine (meaning h t1 k) (meaning h t2 k)) /\
  (forall r k, r < length h -> r <> t1 \/ ~ is_full h t1 -> meaning h' r k = meaning h r k) /\
  (is_full h t1 -> t = t1) /\ (~ is_full h t1 -> length h <= t) /\ t < length h'.
Proof.
  intros KO NE h t1 t2 h' t R L1 L2 E. pose proof (reached_ok less kequal initial combine KO NE h R) as H.
  destruct (combine_spec less kequal initial combine KO NE h t1 t2 h' t H L1 L2 E) as (_ & F & T & L & M & O & N & Y). ands; auto.
  - intros r k Lr D. apply meaning_eq. now apply O.
  - intros Q. rewrite (N Q). auto.
Qed.

(** Selecting a key yields the single-entry table with that key (or one equal to
    it) and the value held, and changes the meaning of no table. *)
Theorem C23_select : key_order less kequal -> neutral initial combine ->
  forall h t k h' r, reached h -> t < length h -> select K V less kequal initial h t k = (h', r) ->
  (exists k', kequal k k' = true /\ nth_error h' r = Some (Entry K V k' (meaning h t k))) /\
  (forall q k', q < length h -> meaning h' q k' = meaning h q k').
Proof.
  intros KO NE h t k h' r R L E. pose proof (reached_ok less kequal initial combine KO NE h R) as H.
  destruct (select_spec less kequal initial KO h t k h' r H L E) as (_ & _ & (k' & S & N) & M). split.
  - exists k'. split; auto. now rewrite (ko_equal _ _ KO).
  - intros q k0 Lq. now apply M.
Qed.

(** Building a table by any tree of combinations from entries and empty tables,
    in any existing heap, then selecting [k]: the value is the fold, left to
    right, of exactly the values entered under keys equal to [k]; and no table
    that existed before is changed. *)
Theorem C23_tree : key_order less kequal -> neutral initial combine ->
  (forall a b c, combine (combine a b) c = combine a (combine b c)) ->
  forall e h h1 t k h2 r, reached h ->
  build K V less initial combine e h = (h1, t) -> select K V less kequal initial h1 t k = (h2, r) ->
  (exists k', kequal k k' = true /\
     nth_error h2 r = Some (Entry K V k' (fold_left combine (tree_contributions less e k) initial))) /\
  (forall q k', q < length h -> meaning h2 q k' = meaning h q k').
Proof.
  intros KO NE AS e h h1 t k h2 r R E1 E2. pose proof (reached_ok less kequal initial combine KO NE h R) as H.
  destruct (build_spec less kequal initial combine KO NE AS e h h1 t H E1) as (H1 & L1 & T1 & O1 & M1).
  destruct (select_spec less kequal initial KO h1 t k h2 r H1 T1 E2) as (_ & _ & (k' & S & N) & M). split.
  - exists k'. rewrite (ko_equal _ _ KO). split; auto. now rewrite <- M1.
  - intros q k0 Lq. destruct (M q ltac:(lia)) as [Mq _]. rewrite Mq. apply meaning_eq. auto.
Qed.
End C23.
Print Assumptions C23_combine.
Print Assumptions C23_select.
Print Assumptions C23_tree.

Definition nat_sum_combine := table_combine nat nat Nat.ltb 0 Nat.add.
Lemma nat_key_order : key_order Nat.ltb Nat.eqb.
Proof.
  split.
  - intros k. apply Nat.ltb_irrefl.
  - intros a b c. rewrite !Nat.ltb_lt. lia.
  - unfold same_key. intros a b c. rewrite !andb_true_iff, !negb_true_iff, !Nat.ltb_ge. lia.
  - unfold same_key. intros a b. apply eq_true_iff_eq. rewrite andb_true_iff, !negb_true_iff, !Nat.ltb_ge, Nat.eqb_eq. lia.
Qed.
Lemma nat_sum_neutral : neutral 0 Nat.add. Proof. intros v. split; cbn; auto. Qed.

(** Tables are not immutable values: combining with a combination as first
    argument changes the table that argument denotes. *)
Theorem C23_persistent_refuted :
  exists (h : heap nat nat) t1 t2 h' t k, reached Nat.ltb Nat.eqb 0 Nat.add h /\ t1 < length h /\ t2 < length h /\
  nat_sum_combine h t1 t2 = (h', t) /\ meaning Nat.ltb 0 h' t1 k <> meaning Nat.ltb 0 h t1 k.
Proof.
  exists [Entry nat nat 1 5; Entry nat nat 2 7; Full nat nat [(1, 5); (2, 7)]], 2, 1. eexists _, _, 2. ands.
  - pose proof (re_nil Nat.ltb Nat.eqb 0 Nat.add) as R0. apply re_entry with (k := 1) (v := 5) in R0. apply re_entry with (k := 2) (v := 7) in R0.
    apply re_combine with (t1 := 0) (t2 := 1) in R0; cbn; auto.
  - cbn; lia.
  - cbn; lia.
  - vm_compute. reflexivity.
  - vm_compute. discriminate.
Qed.
Print Assumptions C23_persistent_refuted.

(** A tree with repeated keys on both sides. *)
Example C23_case : let e := TCombine _ _ (TCombine _ _ (TEntry _ _ 3 10) (TEmpty _ _)) (TCombine _ _ (TEntry _ _ 1 4) (TCombine _ _ (TEntry _ _ 3 5) (TEntry _ _ 3 100))) in
  key_order Nat.ltb Nat.eqb /\ neutral 0 Nat.add /\
  tree_contributions Nat.ltb e 3 = [10; 5; 100] /\
  (let '(h1, t) := build nat nat Nat.ltb 0 Nat.add e [] in let '(h2, r) := select nat nat Nat.ltb Nat.eqb 0 h1 t 3 in nth_error h2 r = Some (Entry nat nat 3 115)).
Proof. intros e. ands; [apply nat_key_order|apply nat_sum_neutral|reflexivity|vm_compute; reflexivity]. Qed.

(** ** C24 *)
(** The nodes that were accepted, in creation order, and the number of constructors made. *)
Fixpoint accepted (ops : list pop) (ans : list pans) : list nat :=
  match ops, ans with
  | NewNode n :: ops, Index (POk _) :: ans => n :: accepted ops ans
  | _ :: ops, _ :: ans => accepted ops ans
  | _, _ => []
  end.
Definition closes (o : pop) : Prop := o = Size \/ o = FinishP.
Definition constructors (ops : list pop) : nat := length (filter (fun o => match o with NewConstructor _ => true | _ => false end) ops).

Definition nth_pans (ops : list pop) (i : nat) : option pans := nth_error (snd (phistory new_phylum ops)) i.

Lemma phistory_app ops1 : forall p ops2, phistory p (ops1 ++ ops2) =
  let '(p1, a1) := phistory p ops1 in let '(p2, a2) := phistory p1 ops2 in (p2, a1 ++ a2).
Proof.
  induction ops1 as [|o ops1 IH]; intros p ops2; cbn [phistory app].
  - destruct (phistory p ops2); auto.
  - destruct (pstep p o) as [p1 a]. rewrite IH. destruct (phistory p1 ops1) as [p2 a1]. destruct (phistory p2 ops2). auto.
Qed.
Lemma phistory_length ops : forall p p' a, phistory p ops = (p', a) -> length a = length ops.
Proof.
  induction ops as [|o ops IH]; intros p p' a E; cbn in E; [now injection E as <- <-|].
  destruct (pstep p o). destruct (phistory p0 ops) eqn:E2. injection E as <- <-. cbn. f_equal. eauto.
Qed.
Lemma accepted_app ops1 : forall a1 ops2 a2, length a1 = length ops1 -> accepted (ops1 ++ ops2) (a1 ++ a2) = accepted ops1 a1 ++ accepted ops2 a2.
Proof.
  induction ops1 as [|o ops1 IH]; intros [|a a1] ops2 a2 L; cbn in L; try discriminate; auto.
  injection L as L. cbn [app accepted]. destruct o, a as [[]|?| |?|?]; cbn; rewrite IH by auto; auto.
Qed.

Record pinv (ops : list pop) (ans : list pans) (p : phylum) : Prop := {
  pi_nodes : pnodes p = accepted ops ans;
  pi_complete : pcomplete p = true <-> exists o, In o ops /\ closes o;
  pi_cons : num_constructors p = constructors ops }.

Lemma constructors_app a b : constructors (a ++ b) = constructors a + constructors b.
Proof. unfold constructors. now rewrite filter_app, app_length. Qed.
Lemma phistory_inv ops : forall p ans, phistory new_phylum ops = (p, ans) -> pinv ops ans p.
Proof.
  induction ops as [|o ops IH] using rev_ind; intros p ans E.
  - cbn in E. injection E as <- <-. split; cbn; auto. split; [discriminate|intros (o & [] & _)].
  - rewrite phistory_app in E. destruct (phistory new_phylum ops) as [p1 a1] eqn:E1. specialize (IH _ _ eq_refl). destruct IH as [N C K].
    pose proof (phistory_length _ _ _ _ E1) as L1.
    cbn in E. destruct (pstep p1 o) as [p2 a] eqn:E2. injection E as <- <-.
    assert (NC : ~ closes o -> forall P : Prop, (P <-> exists q, In q ops /\ closes q) -> (P <-> exists q, In q (ops ++ [o]) /\ closes q)).
    { intros NQ P HP. rewrite HP. split; intros (q & Hq & Cq); exists q; rewrite in_app_iff in *; cbn in *; intuition (subst; tauto). }
    assert (YC : closes o -> (true = true <-> exists q, In q (ops ++ [o]) /\ closes q)).
    { intros Q. split; auto. intros _. exists o. rewrite in_app_iff. cbn. auto. }
    split; rewrite ?accepted_app, ?constructors_app by auto; rewrite <- ?N, <- ?K; destruct o; cbn in E2;
      unfold phylum_install in E2; try (destruct (pcomplete p1) eqn:Pc); injection E2 as <- <-; cbn; rewrite ?app_nil_r, ?Nat.add_0_r, ?Pc; auto;
      try (apply NC; [intros [Q|Q]; discriminate|exact C]); try (apply YC; unfold closes; auto); lia.
Qed.
Lemma phistory_nth ops ops1 o ops2 : ops = ops1 ++ o :: ops2 ->
  exists p a, phistory new_phylum ops1 = (p, a) /\ pinv ops1 a p /\ length a = length ops1 /\
  nth_pans ops (length ops1) = Some (snd (pstep p o)).
Proof.
  intros ->. unfold nth_pans. rewrite phistory_app. destruct (phistory new_phylum ops1) as [p1 a1] eqn:E1. exists p1, a1.
  pose proof (phistory_length _ _ _ _ E1) as L1. ands; auto; [now apply phistory_inv|].
  cbn. destruct (pstep p1 o) as [p2 a]. destruct (phistory p2 ops2). cbn. rewrite <- L1, nth_error_app2, Nat.sub_diag; auto.
Qed.

(** Nodes already accepted before the operation at position [i]. *)
Definition nodes_before (ops1 : list pop) : list nat := accepted ops1 (snd (phistory new_phylum ops1)).

(** For every history of one phylum: nodes are numbered 0, 1, 2, ... in creation
    order until the phylum is finished or its size is asked; afterwards every
    node creation throws; [size] counts the accepted nodes; [node(i)] returns the
    i-th accepted one and throws for any other index; a constructor is accepted
    exactly when its tag is the number of constructors made before it. *)
Theorem C24_phylum_numbering : forall ops1 o ops2,
  let ops := ops1 ++ o :: ops2 in let answer := nth_pans ops (length ops1) in
  let nodes := nodes_before ops1 in let closed := exists q, In q ops1 /\ closes q in
  match o with
  | NewNode n => (closed /\ answer = Some (Index (PThrow CannotAddNode)) \/ ~ closed /\ answer = Some (Index (POk (length nodes)))) /\
                 nodes_before (ops1 ++ [o]) = nodes ++ (match answer with Some (Index (POk _)) => [n] | _ => [] end)
  | Size => answer = Some (SizeIs (length nodes)) /\ nodes_before (ops1 ++ [o]) = nodes
  | FinishP => nodes_before (ops1 ++ [o]) = nodes
  | NodeAt i => (answer = Some (NodeIs (match nth_error nodes (Z.to_nat i) with Some n => if (i <? 0)%Z then PThrow NegativeIndex else POk n
                                       | None => if (i <? 0)%Z then PThrow NegativeIndex else PThrow IndexTooLarge end))) /\ nodes_before (ops1 ++ [o]) = nodes
  | NewConstructor tag => answer = Some (Constructed (if Nat.eqb tag (constructors ops1) then POk tt else PThrow TagMismatch)) /\ nodes_before (ops1 ++ [o]) = nodes
  end.
Proof.
  intros ops1 o ops2 ops answer nodes closed. destruct (phistory_nth ops ops1 o ops2 eq_refl) as (p & a & E & [N C K] & L & A).
  assert (NB : nodes_before (ops1 ++ [o]) = nodes ++ accepted [o] [snd (pstep p o)]).
  { unfold nodes, nodes_before. rewrite phistory_app, E. cbn. destruct (pstep p o) as [p2 r]. cbn [snd]. now rewrite accepted_app. }
  fold answer in A. unfold nodes, nodes_before in *. rewrite E in *. cbn [snd] in *. rewrite <- N in *. rewrite NB, A. clear NB.
  destruct o; cbn -[Z.ltb Z.geb]; unfold phylum_install, phylum_node; rewrite ?app_nil_r; auto.
  - destruct (pcomplete p) eqn:Pc; cbn; split; auto.
    + left. split; auto. apply C. auto.
    + right. split; [intros Q; apply C in Q; discriminate|]. rewrite app_length. cbn. repeat f_equal. lia.
  - split; auto. do 2 f_equal. destruct (Z.ltb_spec i 0); [destruct (nth_error (pnodes p) (Z.to_nat i)); auto|].
    destruct (Z.geb_spec i (Z.of_nat (length (pnodes p)))).
    + rewrite (proj2 (nth_error_None _ _)); auto. lia.
    + destruct (nth_error (pnodes p) (Z.to_nat i)); auto.
  - rewrite Nat.sub_0_r, <- K. auto.
Qed.
Print Assumptions C24_phylum_numbering.

(** A created node keeps its number forever. *)
Theorem C24_numbers_stable : forall ops1 n ops2 i j,
  nth_pans (ops1 ++ NewNode n :: ops2) (length ops1) = Some (Index (POk i)) ->
  j = length (ops1 ++ NewNode n :: ops2) ->
  nth_pans ((ops1 ++ NewNode n :: ops2) ++ [NodeAt (Z.of_nat i)]) j = Some (NodeIs (POk n)).
Proof.
  intros ops1 n ops2 i j E ->. destruct (phistory_nth _ ops1 (NewNode n) ops2 eq_refl) as (p & a & E1 & [N C K] & L & A). rewrite E in A.
  cbn in A. unfold phylum_install in A. destruct (pcomplete p); [discriminate|]. cbn in A. injection A as ->.
  destruct (phistory_nth _ (ops1 ++ NewNode n :: ops2) (NodeAt (Z.of_nat (length (pnodes p ++ [n]) - 1))) [] eq_refl) as (p2 & a2 & E2 & [N2 C2 K2] & L2 & A2).
  rewrite A2. cbn -[Z.ltb Z.geb]. rewrite phistory_app, E1 in E2. cbn [phistory] in E2. destruct (pstep p (NewNode n)) as [p3 r] eqn:Es. destruct (phistory p3 ops2) as [p4 a4] eqn:E4.
  injection E2 as <- <-. rewrite accepted_app in N2 by auto. rewrite <- N in N2.
  destruct (phistory_nth _ ops1 (NewNode n) ops2 eq_refl) as (q & b & E5 & _ & _ & A5). rewrite E1 in E5. injection E5 as <- <-. rewrite E, Es in A5. cbn in A5. injection A5 as <-.
  cbn [accepted] in N2. rewrite app_length. cbn [length]. replace (length (pnodes p) + 1 - 1) with (length (pnodes p)) by lia.
  unfold phylum_node. destruct (Z.ltb_spec (Z.of_nat (length (pnodes p))) 0); [lia|]. rewrite N2, app_length. cbn [length].
  destruct (Z.geb_spec (Z.of_nat (length (pnodes p))) (Z.of_nat (length (pnodes p) + S (length (accepted ops2 a4))))); [lia|].
  rewrite Nat2Z.id, nth_error_app2, Nat.sub_diag by auto. auto.
Qed.
Print Assumptions C24_numbers_stable.

Example C24_case : snd (phistory new_phylum [NewConstructor 0; NewNode 40; NewNode 41; NewConstructor 1; NodeAt 1; NodeAt 2; Size; NewNode 42; NodeAt (-1); NewConstructor 7; NewConstructor 3]) =
  [Constructed (POk tt); Index (POk 0); Index (POk 1); Constructed (POk tt); NodeIs (POk 41); NodeIs (PThrow IndexTooLarge); SizeIs 2;
   Index (PThrow CannotAddNode); NodeIs (PThrow NegativeIndex); Constructed (PThrow TagMismatch); Constructed (POk tt)].
Proof. reflexivity. Qed.
