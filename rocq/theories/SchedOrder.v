(** * SchedOrder: the tree that the scheduler builds is a right order and passes the checks. *)
From Coq Require Import Relations.
From Verif Require Import Base CondModel EdgeModel EdgeSem DncModel CycleModel OagModel PropsCond PropsCto ChunkModel OrderModel SchedSpec ChunkProofs SchedProofs.
Open Scope nat_scope.

(** ** Lists *)
Ltac apps := repeat (first [progress rewrite <- !app_assoc|progress cbn [app]]); reflexivity.
Lemma before_in {X} (L : list X) x y : before L x y -> In x L /\ In y L.
Proof. intros (l1 & l2 & l3 & ->). split; apply in_app_iff; right; [now left|right; apply in_app_iff; right; now left]. Qed.
Lemma before_antisym {X} (L : list X) x y : NoDup L -> before L x y -> before L y x -> False.
Proof.
  intros Nd (l1 & l2 & l3 & E) (k1 & k2 & k3 & E'). subst L. pose proof Nd as Nx. apply NoDup_remove_2 in Nx.
  assert (G : forall a b c d : list X, a ++ x :: b = c ++ x :: d -> ~ In x (a ++ b) -> a = c /\ b = d).
  { clear. induction a as [|z a IH]; intros b [|w c] d E H; cbn [app] in *; inversion E; subst; auto.
    - exfalso. apply H. apply in_app_iff. right. now left.
    - exfalso. apply H. now left.
    - destruct (IH b c d); auto; [intros I; apply H; now right|now subst]. }
  assert (E2 : l1 ++ x :: (l2 ++ y :: l3) = (k1 ++ y :: k2) ++ x :: k3) by now rewrite E', <- app_assoc. apply G in E2; auto. destruct E2 as [E3 E4]. subst l1 k3. clear -Nd. rewrite <- app_assoc in Nd. cbn [app] in Nd. apply NoDup_remove_2 in Nd. apply Nd. apply in_app_iff. right. apply in_app_iff. right. right. apply in_app_iff. right. now left.
Qed.
Lemma before_total {X} (L : list X) x y : In x L -> In y L -> x <> y -> before L x y \/ before L y x.
Proof.
  intros Hx Hy Ne. apply in_split in Hx. destruct Hx as (l1 & l2 & ->). apply in_app_iff in Hy. destruct Hy as [Hy|[Hy|Hy]]; [|congruence|]; apply in_split in Hy; destruct Hy as (k1 & k2 & ->).
  - right. exists k1, k2, l2. now rewrite <- app_assoc.
  - left. now exists l1, k1, k2.
Qed.
Lemma before_flat {X Y} (f : X -> list Y) (B : list X) a b x y : before B a b -> In x (f a) -> In y (f b) -> before (flat_map f B) x y.
Proof.
  intros (l1 & l2 & l3 & ->) Hx Hy. apply in_split in Hx, Hy. destruct Hx as (x1 & x2 & Ex), Hy as (y1 & y2 & Ey). rewrite flat_map_app. cbn [flat_map]. rewrite flat_map_app. cbn [flat_map]. rewrite Ex, Ey. exists (flat_map f l1 ++ x1), (x2 ++ flat_map f l2 ++ y1), (y2 ++ flat_map f l3). apps.
Qed.
Lemma before_within {X Y} (f : X -> list Y) (B : list X) a x y : In a B -> before (f a) x y -> before (flat_map f B) x y.
Proof.
  intros Ha (l1 & l2 & l3 & E). apply in_split in Ha. destruct Ha as (k1 & k2 & ->). rewrite flat_map_app. cbn [flat_map]. rewrite E. exists (flat_map f k1 ++ l1), l2, (l3 ++ flat_map f k2). apps.
Qed.
Lemma before_filter {X} (f : X -> bool) (L : list X) x y : before L x y -> f x = true -> f y = true -> before (filter f L) x y.
Proof.
  intros (l1 & l2 & l3 & ->) Hx Hy. exists (filter f l1), (filter f l2), (filter f l3). rewrite filter_app. cbn [filter]. rewrite Hx, filter_app. cbn [filter]. now rewrite Hy.
Qed.
Lemma before_app_l {X} (l k : list X) x y : before l x y -> before (l ++ k) x y.
Proof. intros (l1 & l2 & l3 & ->). exists l1, l2, (l3 ++ k). apps. Qed.
Lemma before_app_r {X} (l k : list X) x y : before k x y -> before (l ++ k) x y.
Proof. intros (l1 & l2 & l3 & ->). exists (l ++ l1), l2, l3. apps. Qed.
Lemma before_app {X} (l k : list X) x y : In x l -> In y k -> before (l ++ k) x y.
Proof. intros Hx Hy. apply in_split in Hx, Hy. destruct Hx as (l1 & l2 & ->), Hy as (k1 & k2 & ->). exists l1, (l2 ++ k1), k2. apps. Qed.
Lemma before_map {X Y} (f : X -> Y) (L : list X) x y : before L x y -> before (map f L) (f x) (f y).
Proof. intros (l1 & l2 & l3 & ->). exists (map f l1), (map f l2), (map f l3). rewrite map_app. cbn [map]. now rewrite map_app. Qed.
Lemma before_seq n : forall a x y, a <= x -> x < y -> y < a + n -> before (seq a n) x y.
Proof.
  intros a x y H1 H2 H3. exists (seq a (x - a)), (seq (S x) (y - S x)), (seq (S y) (a + n - S y)).
  replace n with ((x - a) + S ((y - S x) + S (a + n - S y))) at 1 by lia. rewrite seq_app. f_equal. cbn [seq]. f_equal; [lia|]. rewrite seq_app. f_equal; [f_equal; lia|]. cbn [seq]. f_equal; [|f_equal]; lia.
Qed.
Lemma before_members r w x y : In x (members r w) -> In y (members r w) -> x < y -> before (members r w) x y.
Proof.
  unfold members. intros Hx Hy L. apply filter_In in Hx, Hy. destruct Hx as [Sx Fx], Hy as [Sy Fy]. apply in_seq in Sx, Sy. apply before_filter; auto. apply before_seq; lia.
Qed.
Lemma sorted_seq : forall n a (l : list nat), NoDup l -> (forall p, In p l <-> a <= p < a + n) -> (forall p q, a <= p -> p < q -> q < a + n -> before l p q) -> l = seq a n.
Proof.
  induction n as [|n IH]; intros a l Nd Hin Hs; cbn [seq].
  - destruct l as [|p l]; auto. assert (In p (p :: l)) by now left. rewrite Hin in H. lia.
  - destruct l as [|x l]; [assert (In a []) by (apply Hin; lia); contradiction|]. assert (x = a).
    { destruct (Nat.eq_dec x a) as [|Ne]; auto. exfalso. assert (Hx : In x (x :: l)) by now left. apply Hin in Hx. assert (Ha : In a (x :: l)) by (apply Hin; lia). destruct Ha as [|Ha]; [congruence|]. apply (before_antisym (x :: l) a x); auto; [apply Hs; lia|]. apply (before_app [x] l); auto. now left. }
    subst x. f_equal. inversion Nd as [|? ? N1 N2]; subst. apply IH; auto.
    + intros p. split.
      * intros Hp. assert (p <> a) by congruence. assert (In p (a :: l)) by now right. rewrite Hin in H0. lia.
      * intros Hp. assert (H : In p (a :: l)) by (apply Hin; lia). destruct H; [lia|auto].
    + intros p q H1 H2 H3. destruct (Hs p q) as (l1 & l2 & l3 & E); try lia. destruct l1 as [|z l1]; cbn [app] in E; injection E as E1 E2; [lia|]. now exists l1, l2, l3.
Qed.
Lemma flat_filter {X Y} (f : X -> list Y) (k : X -> bool) L : (forall x, k x = false -> f x = []) -> flat_map f (filter k L) = flat_map f L.
Proof. intros H. induction L as [|x L IH]; cbn [filter flat_map]; auto. destruct (k x) eqn:E; cbn [flat_map]; rewrite IH; auto. now rewrite (H x E). Qed.

(** ** The events of the blocks *)
Section E.
Variable r : rule.
Notation gm := (gmem r).
Definition evs (b : block) : list event :=
  match b with
  | Inherited p => map Compute (gm (- Z.of_nat p, -1)%Z)
  | Synthesized p => map Compute (gm (Z.of_nat p, -1)%Z) ++ [EndVisit p]
  | ChildVisit c p => map Compute (gm (- Z.of_nat p, Z.of_nat c)%Z) ++ [VisitChild c p] ++ map Compute (gm (Z.of_nat p, Z.of_nat c))
  | Single i => [Compute i]
  end.
Variable B : list block.
Hypothesis Hlegal : legal_rule r.
Hypothesis Hod : orderly r.
Hypothesis HBn : NoDup B.
Hypothesis HBin : forall b, In b B <-> is_block r b.
Hypothesis HBord : forall b1 b2, clos_trans block (precedes r) b1 b2 -> b1 <> b2 -> before B b1 b2.
Notation A := (flat_map evs B).

Lemma in_map_compute i l : In (Compute i) (map Compute l) <-> In i l.
Proof. rewrite in_map_iff. split; [intros (x & E & H); congruence|eauto]. Qed.
Lemma not_compute e l : (forall i, e <> Compute i) -> ~ In e (map Compute l).
Proof. intros H I. apply in_map_iff in I. destruct I as (x & E & _). now apply (H x). Qed.
Lemma in_evs i b : is_block r b -> In (Compute i) (evs b) <-> in_block r i b.
Proof.
  intros Hb. unfold in_block. destruct b as [p|p|c p|j]; cbn [evs is_block] in *.
  - rewrite in_map_compute, in_gmem. split; intros (s & Es & H); exists s; (split; [exact Es|]); [split; [lia|auto]|tauto].
  - rewrite in_app_iff, in_map_compute, in_gmem. split.
    + intros [(s & Es & H)|[H|[]]]; [|discriminate]. exists s. split; auto. split; [lia|auto].
    + intros (s & Es & _ & H). left. eauto.
  - rewrite !in_app_iff, !in_map_compute, !in_gmem. split.
    + intros [(s & Es & H)|[[H|[]]|(s & Es & H)]]; [|discriminate|]; exists s; split; auto; (split; [lia|auto]).
    + intros (s & Es & _ & [H|H]); [left|right; right]; eauto.
  - cbn [In]. destruct Hb as (s & Es & G). split.
    + intros [E|[]]. injection E as ->. eauto.
    + intros (s' & _ & -> & _). auto.
Qed.
Lemma in_end p b : In (EndVisit p) (evs b) <-> b = Synthesized p.
Proof.
  destruct b as [q|q|c q|j]; cbn [evs]; rewrite ?in_app_iff.
  - split; [intros H; now apply not_compute in H|discriminate].
  - split; [intros [H|[H|[]]]; [now apply not_compute in H|congruence]|]. intros H. injection H as ->. right. now left.
  - split; [intros [H|[[H|[]]|H]]; [now apply not_compute in H|discriminate|now apply not_compute in H]|discriminate].
  - split; [intros [H|[]]; discriminate|discriminate].
Qed.
Lemma in_visit c p b : In (VisitChild c p) (evs b) <-> b = ChildVisit c p.
Proof.
  destruct b as [q|q|c' q|j]; cbn [evs]; rewrite ?in_app_iff.
  - split; [intros H; now apply not_compute in H|discriminate].
  - split; [intros [H|[H|[]]]; [now apply not_compute in H|discriminate]|discriminate].
  - split; [intros [H|[[H|[]]|H]]; [now apply not_compute in H|congruence|now apply not_compute in H]|]. intros H. injection H as -> ->. right. left. now left.
  - split; [intros [H|[]]; discriminate|discriminate].
Qed.
Lemma NoDup_computes l : NoDup l -> NoDup (map Compute l).
Proof. intros H. induction H; cbn [map]; constructor; auto. rewrite in_map_compute. auto. Qed.
Lemma NoDup_app_intro {X} (l k : list X) : NoDup l -> NoDup k -> (forall x, In x l -> In x k -> False) -> NoDup (l ++ k).
Proof. induction l as [|x l IH]; intros Hl Hk H; cbn [app]; auto. inversion Hl; subst. constructor; [rewrite in_app_iff; intros [I|I]; [auto|eapply H; eauto; now left]|apply IH; auto; intros y; intros; eapply H; eauto; now right]. Qed.
Lemma NoDup_evs b : is_block r b -> NoDup (evs b).
Proof.
  assert (Ng : forall g, NoDup (map Compute (gm g))) by (intros; apply NoDup_computes, NoDup_members).
  destruct b as [p|p|c p|j]; intros Hb; cbn [evs is_block] in *; auto.
  - apply NoDup_app_intro; auto; [repeat constructor; intros []|]. intros x H [<-|[]]. now apply not_compute in H.
  - apply NoDup_app_intro; auto.
    + constructor; auto. now apply not_compute.
    + intros x H [<-|H2]; [now apply not_compute in H|]. apply in_map_iff in H. destruct H as (i & <- & Hi). apply (proj1 (in_map_compute i _)) in H2. apply in_gmem in Hi, H2. destruct Hi as (s & Es & Gs), H2 as (s' & Es' & Gs'). unfold instance in *. assert (s' = s) by congruence. subst s'. rewrite Gs in Gs'. injection Gs' as E. lia.
  - repeat constructor. intros [].
Qed.
Lemma NoDup_A : NoDup A.
Proof.
  apply NoDup_flat_map; auto.
  - intros b Hb. apply NoDup_evs. now apply HBin.
  - intros b b' e Hb Hb' H H'. apply HBin in Hb, Hb'. destruct e as [i|c p|p].
    + apply in_evs in H, H'; auto. eapply block_unique; eauto.
    + apply in_visit in H, H'. congruence.
    + apply in_end in H, H'. congruence.
Qed.
Lemma in_A_compute i : In (Compute i) A <-> exists s, instance r i s.
Proof.
  rewrite in_flat_map. split.
  - intros (b & Hb & H). apply HBin in Hb. apply in_evs in H; auto. destruct H as (s & Es & _). eauto.
  - intros (s & Es). destruct (block_of r Hlegal i s Es) as (b & Hb & Hi). exists b. split; [now apply HBin|]. now apply in_evs.
Qed.
Lemma in_A_end p : In (EndVisit p) A <-> 1 <= p <= last_phase r.
Proof. rewrite in_flat_map. split; [intros (b & Hb & H); apply in_end in H; subst; now apply HBin in Hb|]. intros H. exists (Synthesized p). split; [now apply HBin|now apply in_end]. Qed.
Lemma in_A_visit c p : In (VisitChild c p) A <-> 1 <= p <= phases_of r c.
Proof. rewrite in_flat_map. split; [intros (b & Hb & H); apply in_visit in H; subst; now apply HBin in Hb|]. intros H. exists (ChildVisit c p). split; [now apply HBin|now apply in_visit]. Qed.
(** order between and within blocks *)
Lemma blocks_A b1 b2 x y : clos_trans block (precedes r) b1 b2 -> b1 <> b2 -> In x (evs b1) -> In y (evs b2) -> before A x y.
Proof. intros T Ne. apply before_flat. auto. Qed.
Lemma needs_A j i : needs r j i -> before A (Compute j) (Compute i).
Proof.
  intros Hn. pose proof Hn as [(k & Lj & Li & _ & _) _]. destruct (nth_error (r_insts r) j) as [s|] eqn:Es; [|apply nth_error_None in Es; lia]. destruct (nth_error (r_insts r) i) as [s'|] eqn:Es'; [|apply nth_error_None in Es'; lia].
  destruct (block_of r Hlegal j s Es) as (b1 & Hb1 & H1), (block_of r Hlegal i s' Es') as (b2 & Hb2 & H2). pose proof (proj2 (in_evs j b1 Hb1) H1) as I1. pose proof (proj2 (in_evs i b2 Hb2) H2) as I2.
  assert (Dec : {b1 = b2} + {b1 <> b2}) by (repeat decide equality). destruct Dec as [<-|Ne]; [|apply (blocks_A b1 b2); auto; apply t_step; now apply (by_need r b1 b2 j i)].
  apply (before_within evs B b1); [now apply HBin|]. destruct H1 as (z & Ez & G1). assert (z = s) by (unfold instance in Ez; congruence). subst z. destruct H2 as (z & Ez' & G2). assert (z = s') by (unfold instance in Ez'; congruence). subst z.
  assert (Same : si_group s = si_group s' -> si_group s <> (0, 0)%Z -> before (map Compute (gm (si_group s))) (Compute j) (Compute i)).
  { intros G Nl. destruct (od_same r Hod j i s s' Hn Es Es' G) as [Lt|[C _]]; [|contradiction]. apply before_map. apply before_members; auto; apply in_gmem; eauto. }
  destruct b1 as [p|p|c p|x]; cbn [evs].
  - destruct G1 as [P1 G1], G2 as [_ G2]. rewrite <- G1. apply Same; [congruence|]. rewrite G1. intros E. injection E. lia.
  - destruct G1 as [P1 G1], G2 as [_ G2]. apply before_app_l. rewrite <- G1. apply Same; [congruence|]. rewrite G1. intros E. injection E. lia.
  - destruct G1 as [P1 G1], G2 as [_ G2]. destruct G1 as [G1|G1], G2 as [G2|G2].
    + apply before_app_l. rewrite <- G1. apply Same; [congruence|]. rewrite G1. intros E. injection E. lia.
    + apply before_app; [apply in_map_compute, in_gmem; eauto|]. apply in_app_iff. right. apply in_map_compute, in_gmem; eauto.
    + exfalso. apply (od_visit r Hod j i s s' p (Z.of_nat c) Hn); auto.
    + do 2 apply before_app_r. rewrite <- G1. apply Same; [congruence|]. rewrite G1. intros E. injection E. lia.
  - exfalso. destruct G1 as [-> G1], G2 as [-> G2]. destruct (od_same r Hod x x s s' Hn Es Es') as [L|[_ C]]; [congruence|lia|congruence].
Qed.
(** the phases of the node *)
Lemma half p : 1 <= p <= last_phase r -> clos_trans block (precedes r) (Inherited p) (Synthesized p).
Proof. intros H. apply t_step. now apply by_halves. Qed.
Lemma phases p q : 1 <= p -> p < q -> q <= last_phase r -> clos_trans block (precedes r) (Synthesized p) (Inherited q).
Proof.
  intros H1 H2. induction H2 as [|q H2 IH]; intros H3; [apply t_step; now apply by_phases|]. eapply t_trans; [apply IH; lia|]. eapply t_trans; [apply half; lia|]. apply t_step. apply by_phases; lia.
Qed.
Lemma before_end i s p q : instance r i s -> (si_group s = (Z.of_nat p, -1)%Z \/ si_group s = (- Z.of_nat p, -1)%Z) -> 1 <= p -> p <= last_phase r -> 1 <= q <= last_phase r ->
  if p <=? q then before A (Compute i) (EndVisit q) else before A (EndVisit q) (Compute i).
Proof.
  intros Es G P1 Pl Hq. assert (Hs : si_group s = (Z.of_nat p, -1)%Z -> In (Compute i) (evs (Synthesized p))) by (intros; apply in_evs; [now split|exists s; auto]). assert (Hi : si_group s = (- Z.of_nat p, -1)%Z -> In (Compute i) (evs (Inherited p))) by (intros; apply in_evs; [now split|exists s; auto]). assert (He : In (EndVisit q) (evs (Synthesized q))) by now apply in_end.
  destruct (Nat.leb_spec p q) as [L|L].
  - destruct G as [G|G].
    + destruct (Nat.eq_dec p q) as [->|Ne].
      * apply (before_within evs B (Synthesized q)); [now apply HBin|]. cbn [evs]. apply before_app; [apply in_map_compute, in_gmem; eauto|now left].
      * apply (blocks_A (Synthesized p) (Synthesized q)); auto; [eapply t_trans; [apply (phases p q); lia|now apply half]|congruence].
    + destruct (Nat.eq_dec p q) as [->|Ne]; [apply (blocks_A (Inherited q) (Synthesized q)); auto; [now apply half|congruence]|].
      apply (blocks_A (Inherited p) (Synthesized q)); auto; [|congruence]. eapply t_trans; [apply half; lia|]. eapply t_trans; [apply (phases p q); lia|now apply half].
  - destruct G as [G|G].
    + apply (blocks_A (Synthesized q) (Synthesized p)); auto; [eapply t_trans; [apply (phases q p); lia|now apply half]|assert (q <> p) by lia; congruence].
    + apply (blocks_A (Synthesized q) (Inherited p)); auto; [apply phases; lia|congruence].
Qed.
Lemma visits_A c p q x y : 1 <= p -> p < q -> q <= phases_of r c -> In x (evs (ChildVisit c p)) -> In y (evs (ChildVisit c q)) -> before A x y.
Proof. intros H1 H2 H3. apply blocks_A; [apply t_step; now apply by_visits|]. assert (p <> q) by lia. congruence. Qed.
Lemma in_evs_child i s c p : instance r i s -> 1 <= p <= phases_of r c -> (si_group s = (- Z.of_nat p, Z.of_nat c)%Z \/ si_group s = (Z.of_nat p, Z.of_nat c)%Z) -> In (Compute i) (evs (ChildVisit c p)).
Proof. intros Es Hp G. apply in_evs; auto. exists s. split; auto. split; [lia|auto]. Qed.
Lemma before_visit i s c p q : instance r i s -> si_group s = (- Z.of_nat p, Z.of_nat c)%Z -> 1 <= p <= phases_of r c -> 1 <= q <= phases_of r c ->
  if p <=? q then before A (Compute i) (VisitChild c q) else before A (VisitChild c q) (Compute i).
Proof.
  intros Es G Hp Hq. assert (I : In (Compute i) (evs (ChildVisit c p))) by (eapply in_evs_child; eauto). assert (V : In (VisitChild c q) (evs (ChildVisit c q))) by now apply in_visit.
  destruct (Nat.leb_spec p q) as [L|L]; [|apply (visits_A c q p); auto; lia]. destruct (Nat.eq_dec p q) as [->|Ne]; [|apply (visits_A c p q); auto; lia].
  apply (before_within evs B (ChildVisit c q)); [now apply HBin|]. cbn [evs]. apply before_app; [apply in_map_compute, in_gmem; eauto|]. now left.
Qed.
Lemma after_visit i s c p q : instance r i s -> si_group s = (Z.of_nat p, Z.of_nat c)%Z -> 1 <= p <= phases_of r c -> 1 <= q <= phases_of r c ->
  if q <=? p then before A (VisitChild c q) (Compute i) else before A (Compute i) (VisitChild c q).
Proof.
  intros Es G Hp Hq. assert (I : In (Compute i) (evs (ChildVisit c p))) by (eapply in_evs_child; eauto). assert (V : In (VisitChild c q) (evs (ChildVisit c q))) by now apply in_visit.
  destruct (Nat.leb_spec q p) as [L|L]; [|apply (visits_A c p q); auto; lia]. destruct (Nat.eq_dec p q) as [->|Ne]; [|apply (visits_A c q p); auto; lia].
  apply (before_within evs B (ChildVisit c q)); [now apply HBin|]. cbn [evs]. apply before_app_r. apply (before_app [VisitChild c q]); [now left|apply in_map_compute, in_gmem; eauto].
Qed.
(** visits in order *)
Lemma own_A : flat_map own_phase A = seq 1 (last_phase r).
Proof.
  apply sorted_seq.
  - apply NoDup_flat_map; [apply NoDup_A|intros [ | | ] _; cbn [own_phase]; repeat constructor; intros []|]. intros [ | |p] [ | |q] y _ _ H H'; cbn in H, H'; try tauto. destruct H as [<-|[]], H' as [<-|[]]. auto.
  - intros p. rewrite in_flat_map. split.
    + intros ([ | |q] & He & H); cbn in H; try tauto. destruct H as [<-|[]]. apply in_A_end in He. lia.
    + intros H. exists (EndVisit p). split; [apply in_A_end; lia|now left].
  - intros p q H1 H2 H3. apply (before_flat own_phase A (EndVisit p) (EndVisit q)); [|now left|now left]. apply (blocks_A (Synthesized p) (Synthesized q)); [eapply t_trans; [apply (phases p q); lia|apply half; lia]|assert (p <> q) by lia; congruence|now apply in_end|now apply in_end].
Qed.
Lemma child_A c : flat_map (child_phase c) A = seq 1 (phases_of r c).
Proof.
  assert (Hc : forall e p, In p (child_phase c e) <-> e = VisitChild c p). { intros [i|c' q|q] p; cbn [child_phase]; try (split; [intros []|discriminate]). destruct (Nat.eqb_spec c c') as [<-|Ne]; [|split; [intros []|congruence]]. split; [intros [->|[]]; auto|]. intros E. injection E as ->. now left. }
  apply sorted_seq.
  - apply NoDup_flat_map; [apply NoDup_A| |]. + intros [ |c' q| ] _; cbn [child_phase]; try constructor. destruct (c =? c'); repeat constructor; intros []. + intros e e' p _ _ H H'. apply Hc in H, H'. congruence.
  - intros p. rewrite in_flat_map. split.
    + intros (e & He & H). apply Hc in H. subst e. apply in_A_visit in He. lia.
    + intros H. exists (VisitChild c p). split; [apply in_A_visit; lia|now apply Hc].
  - intros p q H1 H2 H3. apply (before_flat (child_phase c) A (VisitChild c p) (VisitChild c q)); try now apply Hc. apply (visits_A c p q); try lia; now apply in_visit.
Qed.

(** ** Right orders *)
Variable o : outcome.
Definition kept (e : event) : bool := match e with Compute i => meetsb o (icond r i) | _ => true end.
Hypothesis Hlast : exists B', B = B' ++ [Synthesized (last_phase r)].
Lemma kept_wanted i : In (Compute i) A -> (kept (Compute i) = true <-> wanted r o i).
Proof.
  intros H. apply in_A_compute in H. destruct H as (s & Es). unfold kept, wanted. rewrite meetsb_spec. unfold icond. unfold instance in *. rewrite Es. split; [eauto|]. intros (s' & Es' & M). injection Es' as <-. exact M.
Qed.
Lemma right_A : right_order r o (filter kept A).
Proof.
  assert (Nf : NoDup (filter kept A)) by (apply NoDup_filter, NoDup_A).
  assert (Iff : forall (b : bool) x y, (if b then before A x y else before A y x) -> kept x = true -> kept y = true -> (b = true <-> before (filter kept A) x y)).
  { intros [|] x y H Kx Ky; split; auto; try discriminate; intros H'; [now apply before_filter|]. exfalso. apply (before_antisym _ x y Nf H'). now apply before_filter. }
  constructor.
  - exact Nf.
  - intros i. rewrite filter_In. split; [intros [H K]; now apply kept_wanted|]. intros W. assert (H : In (Compute i) A) by (apply in_A_compute; destruct W as (s & Es & _); eauto). split; auto. now apply kept_wanted.
  - intros j i D Wj Wi. assert (Kj : kept (Compute j) = true) by (apply kept_wanted; auto; apply in_A_compute; destruct Wj as (s & Es & _); eauto). assert (Ki : kept (Compute i) = true) by (apply kept_wanted; auto; apply in_A_compute; destruct Wi as (s & Es & _); eauto). apply before_filter; auto. apply needs_A. split; eauto.
  - rewrite flat_filter; [apply own_A|]. intros [ | | ]; auto; discriminate.
  - destruct Hlast as (B' & ->). rewrite flat_map_app, filter_app. cbn [flat_map evs]. rewrite app_nil_r, filter_app. cbn [filter kept]. rewrite app_assoc. eauto.
  - intros c. rewrite flat_filter; [apply child_A|]. intros [ | | ]; auto; discriminate.
  - intros i s p q Es Hi Hq G P1. apply filter_In in Hi. rewrite <- Nat.leb_le. assert (Lp : p <= last_phase r). { destruct (lr_groups r Hlegal i s Es) as [E|[(p' & Hp' & [E|E])|(c & p' & Hp' & [E|E])]]; destruct G as [G|G]; rewrite G in E; injection E as E1; lia. }
    apply Iff; [now apply (before_end i s p q)|tauto|reflexivity].
  - intros i s c p q Es Hi G P1 Hq. apply filter_In in Hi. rewrite <- Nat.leb_le. assert (Lp : p <= phases_of r c). { destruct (lr_groups r Hlegal i s Es) as [E|[(p' & Hp' & [E|E])|(c' & p' & Hp' & [E|E])]]; rewrite G in E; injection E as E1 E2; try lia; replace c with c' by lia; lia. }
    apply Iff; [now apply (before_visit i s)|tauto|reflexivity].
  - intros i s c p q Es Hi G P1 Hq. apply filter_In in Hi. rewrite <- Nat.leb_le. assert (Lp : p <= phases_of r c). { destruct (lr_groups r Hlegal i s Es) as [E|[(p' & Hp' & [E|E])|(c' & p' & Hp' & [E|E])]]; rewrite G in E; injection E as E1 E2; try lia; replace c with c' by lia; lia. }
    apply Iff; [now apply (after_visit i s)|reflexivity|tauto].
Qed.
End E.
