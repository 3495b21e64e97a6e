(** * UpDownAugProofs: what the up/down construction does to one production graph. *)
From Verif Require Import Base CondModel EdgeModel DncModel PropsCond EdgeProofs EdgeAddProofs EdgeGraph EdgeSem SummaryProofs CycleModel UpDownModel UpDownProofs.
Open Scope nat_scope.

Definition allm (o : outcome) (l : list aedge) : Prop := forall a c k, In (a, c, k) l -> meets o c.
Definition some_bit (l : list aedge) (b : N) : Prop := exists a c k, In (a, c, k) l /\ tb k b = true.
Lemma addR_allm c k l wl l' wl' : addR c k l wl l' wl' -> consistent c -> good l -> forall o, meets o c -> allm o l -> allm o l'.
Proof.
  induction 1; intros Hc Hg o M Al; try (pose proof (good_tl _ _ Hg) as Hg'; pose proof (good_hd _ _ _ _ Hg) as [Hc' Hk']).
  - intros b cb kb [E|[]]. injection E as <- <- <-. auto.
  - auto.
  - apply IHaddR; auto. intros b cb kb Hb. eapply Al. right. eauto.
  - destruct (merge_facts c c' Hc Hc' H) as (M1 & _ & _ & _ & M2). apply IHaddR; auto. { apply M2. auto. } intros b cb kb Hb. eapply Al. right. eauto.
  - intros b cb kb [E|Hb].
    + injection E as <- <- <-. eapply Al. now left.
    + eapply (IHaddR Hc Hg' o M); eauto. intros b' cb' kb' Hb'. eapply Al. right. eauto.
Qed.
Lemma meets_and o c1 c2 : meets o (mkCond (N.lor (positive c1) (positive c2)) (N.lor (negative c1) (negative c2))) <-> meets o c1 /\ meets o c2.
Proof.
  unfold meets. cbn [positive negative]. split.
  - intros H. split; intros i; destruct (H i) as [H1 H2]; rewrite N.lor_spec, orb_true_iff in H1, H2; split; auto.
  - intros [H1 H2] i. rewrite !N.lor_spec, !orb_true_iff. destruct (H1 i), (H2 i). intuition.
Qed.
Lemma meets_none o : meets o (mkCond 0 0).
Proof. intros i. cbn. split; discriminate. Qed.
Lemma combine_spec l : forall acc, (forall o, meets o (snd (combine acc (pairs l))) <-> meets o (snd acc) /\ allm o l) /\ (forall b, tb (fst (combine acc (pairs l))) b = true <-> tb (fst acc) b = true \/ some_bit l b).
Proof.
  induction l as [|[[a c] k] l IH]; intros acc.
  - cbn. split; [intros o|intros b]; split; try tauto.
    + intros H. split; auto. intros ? ? ? [].
    + intros [H|(? & ? & ? & [] & _)]; auto.
  - unfold combine. cbn [pairs map fold_left cond_of kind_of fst snd]. fold (pairs l). match goal with |- context [fold_left ?f (pairs l) ?x] => change (fold_left f (pairs l) x) with (combine x (pairs l)) end.
    destruct (IH (N.lor (fst acc) k, mkCond (N.lor (positive (snd acc)) (positive c)) (N.lor (negative (snd acc)) (negative c)))) as [I1 I2]. cbn [fst snd] in I1, I2. split.
    + intros o. rewrite I1, meets_and. unfold allm. split.
      * intros [[H1 H2] H3]. split; auto. intros a' c' k' [E|Hin]; [injection E as <- <- <-; auto|eauto].
      * intros [H1 H2]. ands; auto; intros; eapply H2; [now left|right; eauto].
    + intros b. rewrite I2. unfold tb at 1. rewrite N.lor_spec, orb_true_iff. unfold some_bit. split.
      * intros [[H|H]|(a' & c' & k' & Hin & H)]; auto; right; [exists a, c, k|exists a', c', k']; split; auto; [now left|now right].
      * intros [H|(a' & c' & k' & [E|Hin] & H)]; auto; [injection E as <- <- <-; auto|]. right. exists a', c', k'. auto.
Qed.

Section Aug.
Variables (par : list (option nat)) (root start n : nat) (direction : bool) (ups : list bool).
Hypothesis Hpar : forall l, l < n -> l + start < length par.
Hypothesis Hups : length ups = n.
Notation cls := (insd par root start).
Variable foreign : list addr.
(** A graph state that represents A and has not touched the other graphs' edges since m0. *)
Definition isg (m0 : mem) (mg : mem * aug) (A : agraph) : Prop :=
  an A = n /\ (exists fl, ginv (fst mg) (snd mg) A foreign fl) /\ forall a, In a foreign -> edge_at (fst mg) a = edge_at m0 a.
Definition eq_cells (A A' : agraph) (P : nat -> nat -> Prop) : Prop := forall i j, i < n -> j < n -> P i j -> cell A' i j = cell A i j.

Lemma combine_ok m0 mg A ci cj : isg m0 mg A -> (forall l, l < n -> ci l < n /\ cj l < n) ->
  exists acc c, combine_cycle par root start n (fun l => ci l * n + cj l) (fst mg) (snd mg) = Ok (acc, c) /\
    (forall o, meets o c <-> forall l, l < n -> cls l = true -> allm o (cell A (ci l) (cj l))) /\
    (forall b, tb acc b = true <-> exists l, l < n /\ cls l = true /\ some_bit (cell A (ci l) (cj l)) b).
Proof.
  intros (Hn & (fl & G) & _) Hc. unfold combine_cycle.
  destruct (foldM_inv (fun acc l => b <- in_cycle par (l + start) root ;; if b : bool then p <- rd (graph (snd mg)) (ci l * n + cj l) ;; es <- set_at (fst mg) p ;; Ok (combine acc es) else Ok acc) (seq 0 n)
    (fun done acc => (forall o, meets o (snd acc) <-> forall l, In l done -> cls l = true -> allm o (cell A (ci l) (cj l))) /\ (forall b, tb (fst acc) b = true <-> exists l, In l done /\ cls l = true /\ some_bit (cell A (ci l) (cj l)) b)) (no_dependency, mkCond 0 0)) as ([acc c] & E & R1 & R2).
  - split.
    + intros o. cbn [snd]. split; [intros _ l []|intros _; apply meets_none].
    + intros b. cbn [fst]. unfold tb, no_dependency. rewrite N.bits_0. split; [discriminate|intros (l & [] & _)].
  - intros done l rest acc El (R1 & R2). destruct (seq_mid _ _ _ _ El) as (Hl & _ & _). rewrite in_cycle_ok by (now apply Hpar). cbn [bind]. destruct (cls l) eqn:Ec.
    + destruct (Hc l Hl) as [Hi Hj]. rewrite <- Hn in Hi, Hj. destruct (read_cell _ _ _ _ _ (ci l) (cj l) G Hi Hj) as (p & E1 & E2). rewrite (gp_n _ _ _ (gi_part _ _ _ _ _ G)), Hn in E1. rewrite E1. cbn [bind]. rewrite E2. cbn [bind]. eexists. split; [reflexivity|].
      destruct (combine_spec (cell A (ci l) (cj l)) acc) as [C1 C2]. split.
      * intros o. rewrite C1, R1. split.
        { intros [H1 H2] l' Hl' Ec'. apply in_app_or in Hl'. destruct Hl' as [Hl'|[Hl'|[]]]; [auto|subst; auto]. }
        { intros H. split; [intros l' Hl' Ec'|]; apply H; auto; apply in_or_app; [now left|right; now left]. }
      * intros b. rewrite C2, R2. split.
        { intros [(l' & Hl' & Ec' & H)|H]; [exists l'|exists l]; ands; auto; apply in_or_app; [now left|right; now left]. }
        { intros (l' & Hl' & Ec' & H). apply in_app_or in Hl'. destruct Hl' as [Hl'|[Hl'|[]]]; [left; eauto|subst; auto]. }
    + eexists. split; [reflexivity|]. split.
      * intros o. rewrite R1. split.
        { intros H1 l' Hl' Ec'. apply in_app_or in Hl'. destruct Hl' as [Hl'|[Hl'|[]]]; [auto|subst; congruence]. }
        { intros H l' Hl' Ec'. apply H; auto. apply in_or_app. now left. }
      * intros b. rewrite R2. split.
        { intros (l' & Hl' & Ec' & H). exists l'. ands; auto. apply in_or_app. now left. }
        { intros (l' & Hl' & Ec' & H). apply in_app_or in Hl'. destruct Hl' as [Hl'|[Hl'|[]]]; [eauto|subst; congruence]. }
  - rewrite E. exists acc, c. cbn [fst snd] in R1, R2. ands; auto.
    + intros o. rewrite R1. split; intros H l Hl; apply H; auto; [apply in_seq; lia|apply in_seq in Hl; lia].
    + intros b. rewrite R2. split; intros (l & Hl & H); exists l; split; auto; [apply in_seq in Hl; lia|apply in_seq; lia].
Qed.

Lemma upk l : l < n -> rd ups l = Ok (up ups l).
Proof. intros H. unfold up. apply rd_Ok. apply nth_error_nth'. lia. Qed.
(** An operation on the edge set of one pair. *)
Definition cell_op (i j : nat) (f : mem * aug -> res (mem * aug)) (R : list aedge -> list aedge -> Prop) : Prop :=
  forall m0 mg A, isg m0 mg A -> exists mg' A', f mg = Ok mg' /\ isg m0 mg' A' /\ R (cell A i j) (cell A' i j) /\ eq_cells A A' (fun i' j' => ~ (i' = i /\ j' = j)).
Definition added (c : condition) (k : N) (old new : list aedge) : Prop :=
  (forall o b, sees o new b <-> sees o old b \/ (meets o c /\ tb k b = true)) /\ forall o, meets o c -> allm o old -> allm o new.
Lemma add_op i j c k : i < n -> j < n -> k <> no_dependency -> satisfiable c -> cell_op i j (fun mg => add_edge_to_graph i j c k (fst mg) (snd mg)) (added c k).
Proof.
  intros Hi Hj Hk Hs m0 [m g] A (Hn & (fl & G) & Fr). apply sat_consistent in Hs. cbn [fst snd] in *. assert (Hi' : i < an A) by lia. assert (Hj' : j < an A) by lia.
  destruct (add_graph_ok m g A foreign fl i j c k G Hi' Hj' Hk Hs) as (m' & g' & A' & fl' & E & G' & (l' & wl' & AR & ->) & Fr'). pose proof (gp_clen _ _ _ (gi_part _ _ _ _ _ G)) as Lc.
  assert (Gd : good (cell A i j)) by (apply (gp_good _ _ _ (gi_part _ _ _ _ _ G)); now apply cell_in).
  exists (m', g'), (with_cell A i j l' wl'). rewrite E. ands; auto.
  - split; [exact Hn|]. split; [exists fl'; exact G'|]. intros a Ha. cbn [fst]. rewrite Fr' by auto. auto.
  - rewrite cell_with by auto. rewrite !Nat.eqb_refl. cbn [andb]. split; [intros o b; now apply (addR_sees _ _ _ _ _ _ AR)|]. intros o. now apply (addR_allm _ _ _ _ _ _ AR).
  - intros i' j' Hi2 Hj2 Hne. rewrite cell_with by (auto; lia). destruct (Nat.eqb_spec i i'), (Nat.eqb_spec j j'); subst; auto. exfalso; auto.
Qed.
Lemma remove_op i j : i < n -> j < n -> cell_op i j (fun mg => remove_edgeset i j (fst mg) (snd mg)) (fun _ new => new = []).
Proof.
  intros Hi Hj m0 [m g] A (Hn & (fl & G) & Fr). cbn [fst snd] in *. assert (Hi' : i < an A) by lia. assert (Hj' : j < an A) by lia.
  destruct (remove_graph_ok m g A foreign fl i j G Hi' Hj') as (m' & g' & fl' & E & G' & Fr'). pose proof (gp_clen _ _ _ (gi_part _ _ _ _ _ G)) as Lc.
  eexists (m', g'), _. rewrite E. ands; [reflexivity| | |].
  - split; [|split; [exists fl'; exact G'|]]; [exact Hn|]. intros a Ha. cbn [fst]. rewrite Fr' by auto. auto.
  - rewrite cell_with by auto. now rewrite !Nat.eqb_refl.
  - intros i' j' Hi2 Hj2 Hne. rewrite cell_with by (auto; lia). destruct (Nat.eqb_spec i i'), (Nat.eqb_spec j j'); subst; auto. exfalso; auto.
Qed.
Lemma for_ok f ci cj R m0 mg A : isg m0 mg A -> (forall l, l < n -> ci l < n /\ cj l < n) -> (forall l l', l < n -> l' < n -> ci l = ci l' -> cj l = cj l' -> l = l') ->
  (forall l, l < n -> cls l = true -> cell_op (ci l) (cj l) (f l) (R l)) ->
  exists mg' A', for_cycle par root start n f mg = Ok mg' /\ isg m0 mg' A' /\ (forall l, l < n -> cls l = true -> R l (cell A (ci l) (cj l)) (cell A' (ci l) (cj l))) /\
    eq_cells A A' (fun i j => forall l, l < n -> cls l = true -> ~ (i = ci l /\ j = cj l)).
Proof.
  intros H Hc Inj Hf. unfold for_cycle.
  destruct (foldM_inv (fun mg l => b <- in_cycle par (l + start) root ;; if b : bool then f l mg else Ok mg) (seq 0 n)
    (fun done mg' => exists A', isg m0 mg' A' /\ (forall l, In l done -> cls l = true -> R l (cell A (ci l) (cj l)) (cell A' (ci l) (cj l))) /\
    eq_cells A A' (fun i j => forall l, In l done -> cls l = true -> ~ (i = ci l /\ j = cj l))) mg) as (mg' & E & A' & H' & R1 & R2).
  - exists A. ands; auto. { intros l []. } intros i j _ _ _. reflexivity.
  - intros done l rest mg' El (A' & H' & R1 & R2). destruct (seq_mid _ _ _ _ El) as (Hl & Hnd & Hd). rewrite in_cycle_ok by (now apply Hpar). cbn [bind]. destruct (Hc l Hl) as [Hi Hj]. destruct (cls l) eqn:Ec.
    + destruct (Hf l Hl Ec m0 mg' A' H') as (mg2 & A2 & E2 & H2 & S2 & Q2). exists mg2. split; auto. exists A2. split; auto.
      assert (Old : cell A' (ci l) (cj l) = cell A (ci l) (cj l)). { apply R2; auto. intros l' Hl' Ec' [X1 X2]. apply Hnd. rewrite (Inj l l'); auto. } rewrite Old in S2. split.
      * intros l' Hl' Ec'. apply in_app_or in Hl'. destruct Hl' as [Hl'|[Hl'|[]]]; [|now subst]. destruct (Hc l' (Hd l' Hl')) as [Hi' Hj']. rewrite Q2; auto. intros [X1 X2]. apply Hnd. rewrite (Inj l l'); auto.
      * intros i j Hi' Hj' Hq. rewrite Q2; auto. { apply R2; auto. intros l' Hl'. apply Hq. apply in_or_app. now left. } apply Hq; auto. apply in_or_app. right. now left.
    + eexists. split; [reflexivity|]. exists A'. ands; auto.
      * intros l' Hl' Ec'. apply in_app_or in Hl'. destruct Hl' as [Hl'|[Hl'|[]]]; [auto|subst; congruence].
      * intros i j Hi' Hj' Hq. apply R2; auto. intros l' Hl'. apply Hq. apply in_or_app. now left.
  - rewrite E. exists mg', A'. ands; auto.
    + intros l Hl. apply R1. apply in_seq. lia.
    + intros i j Hi Hj Hq. apply R2; auto. intros l Hl. apply in_seq in Hl. apply Hq. lia.
Qed.

(** The pairs whose edges are combined for (i, j). *)
Definition line (i j i' j' : nat) : Prop := i' < n /\ j' < n /\ if cls j then i' = i /\ cls j' = true else j' = j /\ cls i' = true.
Definition linem (A : agraph) (o : outcome) (i j : nat) : Prop := forall i' j', line i j i' j' -> allm o (cell A i' j').
Definition sup (l : nat) : bool := if direction then up ups l else negb (up ups l).
Definition gained (A : agraph) (new : list aedge) (i j : nat) : Prop :=
  (forall o b, sees o new b <-> sees o (cell A i j) b \/ (linem A o i j /\ exists i' j', line i j i' j' /\ some_bit (cell A i' j') b)) /\
  (forall o, linem A o i j -> allm o (cell A i j) -> allm o new).
Definition out (A A' : agraph) (i j : nat) : Prop :=
  if cls i || cls j then if cls i && cls j && negb (sup i && negb (sup j)) then cell A' i j = [] else gained A (cell A' i j) i j
  else cell A' i j = cell A i j.
Notation owner := (owner par root start).
Lemma tb0 b : tb no_dependency b = true -> False.
Proof. unfold tb, no_dependency. rewrite N.bits_0. discriminate. Qed.
Lemma same_gained A i j : (forall b, ~ exists i' j', line i j i' j' /\ some_bit (cell A i' j') b) -> gained A (cell A i j) i j.
Proof. intros H. split; auto. intros o b. split; [auto|intros [X|[_ X]]; auto]. exfalso. eapply H; eauto. Qed.
Lemma eqb0 acc : N.eqb acc no_dependency = true -> forall b, tb acc b = true -> False.
Proof. intros H b. apply N.eqb_eq in H. subst. apply tb0. Qed.

(** Combining a line and adding the result at every member. *)
Lemma gain_line m0 mg A ci cj i0 j0 : isg m0 mg A -> (forall l, l < n -> ci l < n /\ cj l < n) -> (forall l l', l < n -> l' < n -> ci l = ci l' -> cj l = cj l' -> l = l') ->
  (forall l i' j', l < n -> cls l = true -> line (ci l) (cj l) i' j' <-> exists l', l' < n /\ cls l' = true /\ i' = ci l' /\ j' = cj l') -> (forall l, l < n -> cls l = true -> line (ci l) (cj l) i0 j0 -> True) ->
  (exists o, forall l, l < n -> cls l = true -> allm o (cell A (ci l) (cj l))) ->
  exists acc c, combine_cycle par root start n (fun l => ci l * n + cj l) (fst mg) (snd mg) = Ok (acc, c) /\
  exists mg' A', (if negb (N.eqb acc no_dependency) then for_cycle par root start n (fun l mg => add_edge_to_graph (ci l) (cj l) c acc (fst mg) (snd mg)) mg else Ok mg) = Ok mg' /\ isg m0 mg' A' /\
    (forall l, l < n -> cls l = true -> gained A (cell A' (ci l) (cj l)) (ci l) (cj l)) /\ eq_cells A A' (fun i j => forall l, l < n -> cls l = true -> ~ (i = ci l /\ j = cj l)).
Proof.
  intros H Hc Inj Hline _ (o0 & Ho0). destruct (combine_ok m0 mg A ci cj H Hc) as (acc & c & E & C1 & C2). exists acc, c. split; auto.
  assert (L1 : forall l o, l < n -> cls l = true -> linem A o (ci l) (cj l) <-> meets o c).
  { intros l o Hl Ec. rewrite C1. unfold linem. split.
    - intros X l' Hl' Ec'. apply X. apply Hline; eauto.
    - intros X i' j' Li. apply Hline in Li; auto. destruct Li as (l' & Hl' & Ec' & -> & ->). auto. }
  assert (L2 : forall l b, l < n -> cls l = true -> (exists i' j', line (ci l) (cj l) i' j' /\ some_bit (cell A i' j') b) <-> tb acc b = true).
  { intros l b Hl Ec. rewrite C2. split.
    - intros (i' & j' & Li & X). apply Hline in Li; auto. destruct Li as (l' & Hl' & Ec' & -> & ->). eauto.
    - intros (l' & Hl' & Ec' & X). exists (ci l'), (cj l'). split; auto. apply Hline; eauto. }
  destruct (N.eqb acc no_dependency) eqn:Z; cbn [negb].
  - exists mg, A. ands; auto. { intros l Hl Ec. apply same_gained. intros b X. apply L2 in X; auto. eapply eqb0; eauto. } intros i j _ _ _. reflexivity.
  - apply N.eqb_neq in Z. destruct (for_ok (fun l mg => add_edge_to_graph (ci l) (cj l) c acc (fst mg) (snd mg)) ci cj (fun _ => added c acc) m0 mg A H Hc Inj) as (mg' & A' & E' & H' & R1 & R2).
    { intros l Hl Ec. destruct (Hc l Hl). apply add_op; auto. exists o0. apply C1. auto. }
    exists mg', A'. ands; auto. intros l Hl Ec. destruct (R1 l Hl Ec) as [A1 A2]. split.
    + intros o b. rewrite A1, L1 by auto. rewrite L2 by auto. tauto.
    + intros o. rewrite L1 by auto. auto.
Qed.

Definition jointly (A : agraph) : Prop := forall i j, i < n -> j < n -> cls i || cls j = true -> exists o, linem A o i j.
Lemma aug_row_ok m0 mg A k : isg m0 mg A -> k < n -> (forall i j, i < n -> j < n -> owner i j = k -> cls i || cls j = true -> exists o, linem A o i j) ->
  exists mg' A', up_down_aug_row direction par root start ups mg k = Ok mg' /\ isg m0 mg' A' /\
    (forall i j, i < n -> j < n -> owner i j = k -> out A A' i j) /\ eq_cells A A' (fun i j => owner i j <> k).
Proof.
  intros H Hk Jo. unfold up_down_aug_row. pose proof H as (Hn & (fl & G) & Fr). rewrite (gp_n _ _ _ (gi_part _ _ _ _ _ G)), Hn. rewrite in_cycle_ok by (now apply Hpar). cbn [bind].
  assert (C1 : forall l, l < n -> k < n /\ l < n) by auto. assert (C2 : forall l, l < n -> l < n /\ k < n) by auto.
  assert (Inj1 : forall l l', l < n -> l' < n -> k = k -> l = l' -> l = l') by auto. assert (Inj2 : forall l l', l < n -> l' < n -> l = l' -> k = k -> l = l') by auto.
  assert (Li1 : forall l i' j', l < n -> cls l = true -> line k l i' j' <-> exists l', l' < n /\ cls l' = true /\ i' = k /\ j' = l').
  { intros l i' j' Hl Ec. unfold line. rewrite Ec. split; [intros (? & ? & -> & ?); exists j'; auto|intros (l' & ? & ? & -> & ->); auto]. }
  assert (Li2 : forall l i' j', cls k = false -> l < n -> cls l = true -> line l k i' j' <-> exists l', l' < n /\ cls l' = true /\ i' = l' /\ j' = k).
  { intros l i' j' Ek Hl Ec. unfold line. rewrite Ek. split; [intros (? & ? & -> & ?); exists i'; auto|intros (l' & ? & ? & -> & ->); auto]. }
  assert (Ex : (exists l, l < n /\ cls l = true) \/ forall l, l < n -> cls l = false).
  { destruct (existsb cls (seq 0 n)) eqn:X. { apply existsb_exists in X. destruct X as (l & Hl & X). apply in_seq in Hl. left. exists l. split; auto. lia. }
    right. intros l Hl. destruct (cls l) eqn:Y; auto. assert (Z : existsb cls (seq 0 n) = true); [|congruence]. apply existsb_exists. exists l. split; auto. apply in_seq. lia. }
  assert (J1 : exists o, forall l, l < n -> cls l = true -> allm o (cell A k l)).
  { destruct Ex as [(l0 & Hl0 & E0)|Ex]. 2:{ exists (fun _ => false). intros l Hl Ec. rewrite Ex in Ec; auto. discriminate. }
    destruct (Jo k l0 Hk Hl0) as (o & Ho). { unfold owner. now rewrite E0. } { rewrite E0. apply orb_true_r. } exists o. intros l Hl Ec. apply Ho. apply Li1; auto. exists l. auto. }
  destruct (cls k) eqn:Ek; cbn [negb].
  - rewrite (upk k Hk). cbn [bind]. change (up_down_direction (up ups k) direction) with (sup k).
    assert (Main : exists mg' A', (if sup k then '(acc, c) <- combine_cycle par root start n (fun l => k * n + l) (fst mg) (snd mg) ;; for_cycle par root start n (fun l mg => upl <- rd ups l ;; if negb (N.eqb acc no_dependency) && up_down_direction (negb upl) direction then add_edge_to_graph k l c acc (fst mg) (snd mg) else remove_edgeset k l (fst mg) (snd mg)) mg
       else for_cycle par root start n (fun l mg => remove_edgeset k l (fst mg) (snd mg)) mg) = Ok mg' /\ isg m0 mg' A' /\ (forall l, l < n -> cls l = true -> if sup k && negb (sup l) then gained A (cell A' k l) k l else cell A' k l = []) /\ eq_cells A A' (fun i j => forall l, l < n -> cls l = true -> ~ (i = k /\ j = l))).
    { destruct (sup k) eqn:Es; cbn [andb].
      - destruct (combine_ok m0 mg A (fun _ => k) (fun l => l) H C1) as (acc & c & E & M1 & M2). rewrite E. cbn [bind].
        destruct (for_ok (fun l mg => upl <- rd ups l ;; if negb (N.eqb acc no_dependency) && up_down_direction (negb upl) direction then add_edge_to_graph k l c acc (fst mg) (snd mg) else remove_edgeset k l (fst mg) (snd mg)) (fun _ => k) (fun l => l)
          (fun l => if negb (N.eqb acc no_dependency) && negb (sup l) then added c acc else fun _ new => new = []) m0 mg A H C1 Inj1) as (mg' & A' & E' & H' & R1 & R2).
        { intros l Hl Ec m1 mg1 A1 H1. rewrite (upk l Hl). cbn [bind]. replace (up_down_direction (negb (up ups l)) direction) with (negb (sup l)) by (unfold sup, up_down_direction; destruct direction; auto).
          destruct (negb (N.eqb acc no_dependency) && negb (sup l)) eqn:Z.
          - apply andb_true_iff in Z. destruct Z as [Z _]. apply negb_true_iff, N.eqb_neq in Z. destruct J1 as (o & Ho). apply (add_op k l c acc Hk Hl Z); auto. exists o. apply M1. auto.
          - apply (remove_op k l Hk Hl); auto. }
        exists mg', A'. ands; auto. intros l Hl Ec. specialize (R1 l Hl Ec). destruct (sup l) eqn:Esl; cbn [negb andb] in R1 |- *; rewrite ?andb_false_r, ?andb_true_r in R1; auto.
        destruct (N.eqb acc no_dependency) eqn:Z; cbn [negb] in R1.
        + assert (Nb : forall l' b, l' < n -> cls l' = true -> ~ some_bit (cell A k l') b). { intros l' b Hl' Ec' X. eapply (eqb0 acc Z b). apply M2. eauto. }
          rewrite R1. split.
          * intros o b. split.
            { intros (? & ? & ? & [] & _). }
            { intros [(a & c' & k' & Hin & _ & X)|(_ & i' & j' & Li & X)]; exfalso.
              - apply (Nb l b Hl Ec). exists a, c', k'. auto.
              - apply Li1 in Li; auto. destruct Li as (l' & Hl' & Ec' & -> & ->). apply (Nb l' b Hl' Ec' X). }
          * intros o _ _ a c' k' [].
        + destruct R1 as [A1 A2]. assert (L1 : forall o, linem A o k l <-> meets o c).
          { intros o. rewrite M1. unfold linem. split; [intros X l' Hl' Ec'; apply X, Li1; eauto|]. intros X i' j' Li. apply Li1 in Li; auto. destruct Li as (l' & Hl' & Ec' & -> & ->). auto. }
          split; [|intros o; rewrite L1; auto]. intros o b. rewrite A1, L1, M2. split.
          * intros [X|[X (l' & Hl' & Ec' & Y)]]; auto. right. split; auto. exists k, l'. split; auto. apply Li1; eauto.
          * intros [X|[X (i' & j' & Li & Y)]]; auto. right. split; auto. apply Li1 in Li; auto. destruct Li as (l' & Hl' & Ec' & -> & ->). eauto.
      - destruct (for_ok (fun l mg => remove_edgeset k l (fst mg) (snd mg)) (fun _ => k) (fun l => l) (fun _ _ new => new = []) m0 mg A H C1 Inj1) as (mg' & A' & E' & H' & R1 & R2).
        { intros l Hl Ec. apply (remove_op k l Hk Hl). }
        exists mg', A'. ands; auto. }
    destruct Main as (mg' & A' & E & H' & R1 & R2). exists mg', A'. ands; auto.
    + intros i j Hi Hj Ho. unfold owner in Ho. unfold out. destruct (cls j) eqn:Ej.
      * subst i. rewrite Ek. cbn [orb andb]. specialize (R1 j Hj Ej). destruct (sup k && negb (sup j)); cbn [negb]; auto.
      * subst j. congruence.
    + intros i j Hi Hj Ho. apply R2; auto. intros l Hl Ec [X1 X2]. subst i j. apply Ho. unfold owner. now rewrite Ec.
  - assert (J2 : exists o, forall l, l < n -> cls l = true -> allm o (cell A l k)).
    { destruct Ex as [(l0 & Hl0 & E0)|Ex]. 2:{ exists (fun _ => false). intros l Hl Ec. rewrite Ex in Ec; auto. discriminate. }
      destruct (Jo l0 k Hl0 Hk) as (o & Ho). { unfold owner. now rewrite Ek. } { now rewrite E0. } exists o. intros l Hl Ec. apply Ho. apply Li2; auto. exists l. auto. }
    destruct (gain_line m0 mg A (fun _ => k) (fun l => l) 0 0 H C1 Inj1 Li1) as (acc & c & E & mg1 & A1 & E1 & H1 & R1 & Q1); auto.
    rewrite E. cbn [bind]. rewrite E1. cbn [bind].
    assert (Sm : forall l, l < n -> cell A1 l k = cell A l k). { intros l Hl. apply Q1; auto. intros l' Hl' Ec' [X1 X2]. subst. congruence. }
    destruct (gain_line m0 mg1 A1 (fun l => l) (fun _ => k) 0 0 H1 C2 Inj2) as (acc2 & c2 & E2 & mg2 & A2 & E3 & H2 & R2 & Q2); auto.
    { destruct J2 as (o & Ho). exists o. intros l Hl Ec. rewrite Sm by auto. auto. }
    rewrite E2. cbn [bind]. exists mg2, A2. ands; auto.
    + intros i j Hi Hj Ho. unfold owner in Ho. unfold out. destruct (cls j) eqn:Ej.
      * subst i. rewrite Ek. cbn [orb andb]. rewrite Q2; auto. intros l Hl Ec [X1 X2]. subst. congruence.
      * subst j. rewrite orb_false_r, andb_false_r. cbn [andb]. destruct (cls i) eqn:Ei.
        { destruct (R2 i Hi Ei) as [B1 B2].
          assert (Lm : forall o, linem A1 o i k <-> linem A o i k). { intros o. unfold linem. split; intros X i' j' Li; pose proof Li as Li'; apply Li2 in Li'; auto; destruct Li' as (l' & Hl' & Ec' & -> & ->); [rewrite <- Sm by auto|rewrite Sm by auto]; auto. }
          split.
          - intros o b. rewrite B1, Lm, Sm by auto. split; (intros [X|[X (i' & j' & Li & Y)]]; [auto|right; split; auto; exists i', j'; split; auto; apply Li2 in Li; auto; destruct Li as (l' & Hl' & Ec' & -> & ->)]); [rewrite <- Sm by auto|rewrite Sm by auto]; auto.
          - intros o. rewrite <- Lm, <- Sm by auto. apply B2. }
        { rewrite Q2; auto. intros l Hl Ec [X1 X2]. subst. congruence. }
    + intros i j Hi Hj Ho. unfold owner in Ho. rewrite Q2; auto.
      * apply Q1; auto. intros l Hl Ec [X1 X2]. subst i j. rewrite Ec in Ho. congruence.
      * intros l Hl Ec [X1 X2]. subst i j. rewrite Ek in Ho. congruence.
Qed.
Lemma line_owner i j i' j' : line i j i' j' -> cls i || cls j = true -> owner i' j' = owner i j.
Proof. unfold line, owner. intros (_ & _ & H) Hor. destruct (cls j) eqn:Ej; destruct H as [-> H]; rewrite ?H, ?Ej; auto. Qed.
Lemma aug_ok m0 mg A : isg m0 mg A -> jointly A ->
  exists mg' A', up_down_aug direction par root start ups mg = Ok mg' /\ isg m0 mg' A' /\ forall i j, i < n -> j < n -> out A A' i j.
Proof.
  intros H Jo. unfold up_down_aug. pose proof H as (Hn & (fl & G) & Fr). rewrite (gp_n _ _ _ (gi_part _ _ _ _ _ G)), Hn.
  destruct (foldM_inv (up_down_aug_row direction par root start ups) (seq 0 n)
    (fun done mg' => exists A', isg m0 mg' A' /\ (forall i j, i < n -> j < n -> In (owner i j) done -> out A A' i j) /\ eq_cells A A' (fun i j => ~ In (owner i j) done)) mg) as (mg' & E & A' & H' & R1 & R2).
  - exists A. ands; auto. { intros i j _ _ []. } intros i j _ _ _. reflexivity.
  - intros done k rest mg1 El (A1 & H1 & R1 & R2). destruct (seq_mid _ _ _ _ El) as (Hk & Hnd & Hd).
    assert (Lc : forall i j o, i < n -> j < n -> owner i j = k -> cls i || cls j = true -> linem A1 o i j <-> linem A o i j).
    { intros i j o Hi Hj Ho Hor. unfold linem. assert (S1 : forall i' j', line i j i' j' -> cell A1 i' j' = cell A i' j'); [|split; intros X i' j' Li; [rewrite <- S1 by auto|rewrite S1 by auto]; auto].
      intros i' j' Li. pose proof (line_owner _ _ _ _ Li Hor) as Lo. destruct Li as (Hi' & Hj' & _). apply R2; auto. rewrite Lo, Ho. auto. }
    destruct (aug_row_ok m0 mg1 A1 k H1 Hk) as (mg2 & A2 & E2 & H2 & S1 & S2).
    { intros i j Hi Hj Ho Hor. destruct (Jo i j Hi Hj Hor) as (o & X). exists o. apply Lc; auto. }
    exists mg2. split; auto. exists A2. split; auto. split.
    + intros i j Hi Hj Ho. apply in_app_or in Ho. destruct (Nat.eq_dec (owner i j) k) as [Eo|No].
      * assert (O := S1 i j Hi Hj Eo). assert (C0 : cell A1 i j = cell A i j) by (apply R2; auto; rewrite Eo; auto). unfold out in O |- *. destruct (cls i || cls j) eqn:Hor; [|congruence].
        destruct (cls i && cls j && negb (sup i && negb (sup j))); auto. destruct O as [O1 O2]. split.
        { assert (Sl : forall i' j', line i j i' j' -> cell A1 i' j' = cell A i' j').
          { intros i' j' Li. pose proof (line_owner _ _ _ _ Li Hor) as Lo. destruct Li as (Hi' & Hj' & _). apply R2; auto. rewrite Lo, Eo. auto. }
          intros o b. rewrite O1, C0, Lc by auto. split; (intros [X|[X (i' & j' & Li & Y)]]; [auto|right; split; auto; exists i', j'; split; auto]); [rewrite <- Sl by auto|rewrite Sl by auto]; auto. }
        { intros o. rewrite <- Lc, <- C0 by auto. apply O2. }
      * destruct Ho as [Ho|[Ho|[]]]; [|exfalso; auto]. specialize (R1 i j Hi Hj Ho). unfold out in R1 |- *. rewrite (S2 i j Hi Hj No). auto.
    + intros i j Hi Hj Ho. rewrite S2; auto. { apply R2; auto. intros X. apply Ho, in_or_app. now left. } intros X. apply Ho, in_or_app. right. now left.
  - rewrite E. exists mg', A'. ands; auto. intros i j Hi Hj. apply R1; auto. apply in_seq. unfold owner. destruct (cls j); lia.
Qed.
End Aug.
