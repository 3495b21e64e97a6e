(** * SchedSane: the scheduler's tree passes the sanity check, and all the checks. *)
From Coq Require Import Relations.
From Verif Require Import Base CondModel EdgeModel EdgeSem DncModel CycleModel OagModel PropsCond PropsCto ChunkModel OrderModel SchedSpec ChunkProofs SchedProofs SchedOrder SchedTree.
Open Scope nat_scope.

Section Sane.
Variable r : rule.
Hypothesis Htests : tests_ok r.
Hypothesis Hlegal : legal_rule r.
Notation build := (build r).
Notation icond := (icond r).
Definition items_of (L : list (nat * nat * block)) : list item := flat_map (fun '(a, q, b) => chunk_items r a q b) L.
Definition possible_in (cond : condition) (l : list nat) : bool := existsb (fun i => negb (impossible (merge_cond cond (icond i)))) l.

Lemma merge_swap a b : impossible (merge_cond a b) = impossible (merge_cond b a).
Proof.
  assert (G : forall a b, impossible (merge_cond a b) = false -> impossible (merge_cond b a) = false) by (intros x y H; apply possible_spec in H; destruct H as (o & H1 & H2); apply possible_spec; eauto).
  destruct (impossible (merge_cond a b)) eqn:E1, (impossible (merge_cond b a)) eqn:E2; auto; [apply G in E2|apply G in E1]; congruence.
Qed.
Lemma contains_spec cond g : aug_graph_contains_phase r cond g = true -> possible_in cond (gmem r g) = true.
Proof.
  unfold aug_graph_contains_phase, possible_in. rewrite !existsb_exists. intros (s & Hs & H). apply andb_true_iff in H. destruct H as [G P]. apply In_nth_error in Hs. destruct Hs as (i & Es). exists i. split; [apply in_gmem; exists s; split; auto; now apply group_eqb_spec|]. unfold SchedProofs.icond. rewrite Es, merge_swap. exact P.
Qed.
Lemma no_test g i : g <> (0, 0)%Z -> In i (gmem r g) -> test_of r i = None.
Proof.
  intros Ng H. apply in_gmem in H. destruct H as (s & Es & G). unfold test_of. unfold instance in Es. rewrite Es. destruct (si_if s) as [k|] eqn:E; auto. exfalso. apply Ng. rewrite <- G. apply (tk_local r Htests i s k); auto.
Qed.
(** the instances of one group *)
Lemma sane_insts g ph ck rest : g <> (0, 0)%Z -> forall l cond prev cnt pg pp, (forall i, In i l -> test_of r i = None) ->
  exists prev' cnt', total_order_sanity_check r (snd (build (inst_items l g ph ck ++ rest) cond prev cnt)) cond pg pp =
    total_order_sanity_check r (snd (build rest cond prev' cnt')) cond (if possible_in cond l then g else pg) (if possible_in cond l && Z.eqb (snd g) (-1) then g else pp).
Proof.
  intros Ng. assert (Nl : group_is_local g = false) by (destruct (group_is_local g) eqn:E; auto; apply group_eqb_spec in E; contradiction).
  induction l as [|i l IH]; intros cond prev cnt pg pp Ht; [exists prev, cnt; reflexivity|]. cbn [inst_items map app SchedProofs.build it_inst it_group it_ph it_ck]. fold (inst_items l g ph ck). unfold possible_in. cbn [existsb]. fold (possible_in cond l). assert (Ht' : forall i, In i l -> test_of r i = None) by (intros; apply Ht; now right). destruct (impossible (merge_cond cond (icond i))); cbn [negb orb]; [apply IH; auto|].
  rewrite (Ht i) by now left. destruct (IH cond (S cnt) (S cnt) g (if Z.eqb (snd g) (-1) then g else pp) Ht') as (prev' & cnt' & E). exists prev', cnt'. destruct (build (inst_items l g ph ck ++ rest) cond (S cnt) (S cnt)) as [c1 t]. cbn [snd] in *. cbn [total_order_sanity_check bind]. rewrite Nl, E. cbn [andb]. f_equal; destruct (possible_in cond l); auto; destruct (Z.eqb (snd g) (-1)); auto.
Qed.
Lemma head_insts g ph ck rest : forall l cond prev cnt, (forall i, In i l -> test_of r i = None) -> possible_in cond l = true -> exists a p i c b t, snd (build (inst_items l g ph ck ++ rest) cond prev cnt) = Node a p (Some i) g ph c b Null t.
Proof.
  induction l as [|i l IH]; intros cond prev cnt Ht H; [discriminate|]. cbn [inst_items map app SchedProofs.build it_inst it_group it_ph it_ck]. fold (inst_items l g ph ck). unfold possible_in in H. cbn [existsb] in H. fold (possible_in cond l) in H. destruct (impossible (merge_cond cond (icond i))); cbn [negb orb] in H; [apply IH; auto; intros; apply Ht; now right|]. rewrite (Ht i) by now left. destruct (build (inst_items l g ph ck ++ rest) cond (S cnt) (S cnt)) as [c1 t]. cbn [snd]. repeat eexists.
Qed.
Lemma items_wf a q b : is_block r b -> forall it, In it (chunk_items r a q b) -> wf_item r it /\ child_group r (it_group it).
Proof.
  assert (Gi : forall g l ph ck it, l = gmem r g -> child_group r g -> In it (inst_items l g ph ck) -> wf_item r it /\ child_group r (it_group it)).
  { intros g l ph ck it -> Hg H. apply in_map_iff in H. destruct H as (i & <- & Hi). apply in_gmem in Hi. split; [exact Hi|exact Hg]. }
  intros Hb it H. destruct b as [p|p|c p|i]; cbn [chunk_items is_block] in *; rewrite ?in_app_iff in H.
  - eapply Gi; eauto. right. now left.
  - destruct H as [H|[<-|[]]]; [eapply Gi; eauto; right; now left|]. split; [|right; now left]. intros E. injection E. lia.
  - assert (Lc : c < length (r_children r)) by (unfold phases_of in Hb; destruct (nth_error (r_children r) c) eqn:E; [apply nth_error_Some; congruence|lia]). destruct H as [H|[[<-|[]]|H]].
    + eapply Gi; eauto. right. right. exists c. auto.
    + split; [|right; right; exists c; auto]. intros E. cbn [it_group] in E. injection E. lia.
    + eapply Gi; eauto. right. right. exists c. auto.
  - destruct H as [<-|[]]. split; [exact Hb|now left].
Qed.
Lemma all_wf L : (forall b, In b (map snd L) -> is_block r b) -> forall it, In it (items_of L) -> wf_item r it /\ child_group r (it_group it).
Proof. intros H it Hi. apply in_flat_map in Hi. destruct Hi as ([[a q] b] & Hx & Hi). eapply items_wf; eauto. apply H. apply in_map_iff. now exists (a, q, b). Qed.
Lemma sane_build : forall L, (forall b, In b (map snd L) -> is_block r b) -> forall cond prev cnt pg pp, total_order_sanity_check r (snd (build (items_of L) cond prev cnt)) cond pg pp = Ok tt.
Proof.
  induction L as [|[[a q] b] L IH]; intros Hb cond prev cnt pg pp; [reflexivity|]. assert (Hb' : forall b, In b (map snd L) -> is_block r b) by (intros; apply Hb; now right). assert (B : is_block r b) by (apply Hb; now left). specialize (IH Hb'). pose proof (all_wf L Hb') as Hwf. unfold items_of. cbn [flat_map]. fold (items_of L).
  destruct b as [p|p|c p|i]; cbn [chunk_items is_block] in *.
  - assert (Ng : (- Z.of_nat p, -1)%Z <> (0, 0)%Z) by (intros E; injection E; lia). destruct (sane_insts (- Z.of_nat p, -1)%Z q a (items_of L) Ng (gmem r (- Z.of_nat p, -1)%Z) cond prev cnt pg pp) as (prev' & cnt' & ->); [intros; eapply no_test; eauto|]. apply IH.
  - assert (Ng : (Z.of_nat p, -1)%Z <> (0, 0)%Z) by (intros E; injection E; lia). rewrite <- app_assoc. destruct (sane_insts (Z.of_nat p, -1)%Z q a ([mkItem None (Z.of_nat p, -1)%Z q a] ++ items_of L) Ng (gmem r (Z.of_nat p, -1)%Z) cond prev cnt pg pp) as (prev' & cnt' & ->); [intros; eapply no_test; eauto|].
    cbn [app SchedProofs.build it_inst it_group it_ph it_ck]. pose proof (IH cond (S cnt') (S cnt')) as IHn. pose proof (followed_build r (- (Z.of_nat p + 1), -1)%Z false false (items_of L) cond (S cnt') (S cnt')) as Fb. destruct Fb as (fb & Ef & _); [intros; now apply Hwf|]. destruct (build (items_of L) cond (S cnt') (S cnt')) as [c1 t]. cbn [snd] in *. cbn [total_order_sanity_check fst snd]. rewrite Z.eqb_refl. rewrite andb_true_r.
    match goal with |- context [if ?b then Exit else _] => replace b with false end.
    2:{ symmetry. destruct (aug_graph_contains_phase r cond (Z.of_nat p, -1)%Z) eqn:C; auto. apply contains_spec in C. rewrite C. cbn [fst snd]. rewrite (proj2 (Z.ltb_lt _ _)) by lia. reflexivity. }
    assert (Nl : group_is_local (Z.of_nat p, -1)%Z = false) by (destruct (group_is_local (Z.of_nat p, -1)%Z) eqn:E; auto; apply group_eqb_spec in E; contradiction).
    destruct t; [reflexivity|]. rewrite Ef. cbn [bind]. rewrite Nl. apply IHn.
  - set (gi := (- Z.of_nat p, Z.of_nat c)%Z). set (gs := (Z.of_nat p, Z.of_nat c)). assert (Ng : gi <> (0, 0)%Z) by (unfold gi; intros E; injection E; lia). assert (Ngs : gs <> (0, 0)%Z) by (unfold gs; intros E; injection E; lia). rewrite <- !app_assoc. destruct (sane_insts gi q a ([mkItem None gs q a] ++ inst_items (gmem r gs) gs q a ++ items_of L) Ng (gmem r gi) cond prev cnt pg pp) as (prev' & cnt' & ->); [intros i Hi; now apply (no_test gi)|].
    cbn [app SchedProofs.build it_inst it_group it_ph it_ck]. pose proof (head_insts gs q a (items_of L) (gmem r gs) cond (S cnt') (S cnt')) as Hh. pose proof (followed_build r gs true false (inst_items (gmem r gs) gs q a ++ items_of L) cond (S cnt') (S cnt')) as Fb. destruct Fb as (fb & Ef & _).
    { intros it Hit. apply in_app_iff in Hit. destruct Hit as [Hit|Hit]; [|now apply Hwf]. apply in_map_iff in Hit. destruct Hit as (i & <- & Hi). now apply in_gmem in Hi. }
    pose proof (fun pg pp => sane_insts gs q a (items_of L) Ngs (gmem r gs) cond (S cnt') (S cnt') pg pp) as Hs. destruct (build (inst_items (gmem r gs) gs q a ++ items_of L) cond (S cnt') (S cnt')) as [c1 t]. cbn [snd] in *.
    assert (Nc : Z.eqb (Z.of_nat c) (-1) = false) by (apply Z.eqb_neq; lia).
    cbn [total_order_sanity_check]. change (snd gs) with (Z.of_nat c). change (fst gs) with (Z.of_nat p). rewrite Nc. rewrite Ef. cbn [bind].
    replace (aug_graph_contains_phase r cond gs && negb fb) with false.
    2:{ symmetry. destruct (aug_graph_contains_phase r cond gs) eqn:C; auto. apply contains_spec in C. destruct Hh as (a1 & p1 & i1 & k1 & b1 & t1 & ->); [intros i Hi; now apply (no_test gs)|auto|]. cbn [followed_by] in Ef. rewrite (proj2 (group_eqb_spec gs gs) eq_refl) in Ef. cbn [negb andb orb] in Ef. destruct (local_if r (Some i1) gs) as [lb| | |]; [|discriminate..]. cbn [bind] in Ef. destruct lb; cbn [followed_by bind] in Ef; (destruct (followed_by r t1 gs true false) as [x| | |]; [|discriminate..]); cbn [bind] in Ef; injection Ef as <-; reflexivity. }
    fold gi. match goal with |- context [if ?b then Exit else Ok false] => replace b with false end.
    2:{ symmetry. destruct (aug_graph_contains_phase r cond gi) eqn:C; auto. apply contains_spec in C. rewrite C. unfold gi. cbn [fst snd]. rewrite !Z.eqb_refl. reflexivity. }
    assert (Nl : group_is_local gs = false) by (destruct (group_is_local gs) eqn:E; auto; apply group_eqb_spec in E; contradiction). rewrite Nl. edestruct Hs as (prev2 & cnt2 & ->); [intros i Hi; now apply (no_test gs)|]. apply IH.
  - cbn [app]. refine (build_cases r (fun t => total_order_sanity_check r t cond pg pp = Ok tt) _ _ _ _ _ _ _ _); cbn [it_inst it_group it_ph it_ck]; [intros; apply IH| |].
    + intros i' k c1 c2 E _ Ek. injection E as <-. cbn [total_order_sanity_check bind]. change (group_is_local (0, 0)%Z) with true. cbn [fst snd]. destruct B as (s & Es & G). unfold test_of in Ek. unfold rd. unfold instance in Es. rewrite Es in *. cbn [bind]. rewrite Ek. change (Z.eqb 0 (-1)) with false. cbv iota. rewrite (IH (tcond cond k) (S cnt) c1 (0, 0)%Z pp : total_order_sanity_check r (snd (build (items_of L) (tcond cond k) (S cnt) c1)) (mkCond (N.lor (positive cond) (N.shiftl 1 (N.of_nat k))) (negative cond)) (0, 0)%Z pp = Ok tt). cbn [bind]. apply (IH (fcond cond k)).
    + intros c1 Hn. destruct (Hn i eq_refl) as [Hn1 _]. cbn [total_order_sanity_check bind]. change (group_is_local (0, 0)%Z) with true. cbn [fst snd]. destruct B as (s & Es & G). unfold test_of in Hn1. unfold rd. unfold instance in Es. rewrite Es in *. cbn [bind]. rewrite Hn1. apply IH.
Qed.

(** ** All checks *)
Lemma items_iev o a q b : flat_map (iev r o) (chunk_items r a q b) = filter (kept r o) (evs r b).
Proof.
  assert (G : forall l g, flat_map (iev r o) (inst_items l g q a) = filter (kept r o) (map Compute l)) by (induction l as [|i l IH]; intros g; auto; cbn [inst_items map flat_map filter kept]; fold (inst_items l g q a); rewrite IH; unfold iev; cbn [it_inst]; destruct (meetsb o (icond i)); reflexivity).
  destruct b as [p|p|c p|i]; cbn [chunk_items evs]; rewrite ?flat_map_app, ?filter_app, ?G; auto.
  - f_equal. cbn [flat_map filter kept app]. unfold iev. cbn [it_inst it_group event_of fst snd]. rewrite Z.eqb_refl, Nat2Z.id. reflexivity.
  - f_equal. cbn [flat_map filter kept app]. unfold iev. cbn [it_inst it_group event_of fst snd]. rewrite (proj2 (Z.eqb_neq _ _)) by lia. rewrite !Nat2Z.id. reflexivity.
  - cbn [flat_map filter kept]. unfold iev. cbn [it_inst]. destruct (meetsb o (icond i)); reflexivity.
Qed.
Lemma flat_map_flat {X Y Z0} (f : Y -> list Z0) (g : X -> list Y) l : flat_map f (flat_map g l) = flat_map (fun x => flat_map f (g x)) l.
Proof. induction l as [|x l IH]; cbn [flat_map]; auto. now rewrite flat_map_app, IH. Qed.
Lemma filter_flat {X Y} (f : Y -> bool) (g : X -> list Y) l : filter f (flat_map g l) = flat_map (fun x => filter f (g x)) l.
Proof. induction l as [|x l IH]; cbn [flat_map]; auto. now rewrite filter_app, IH. Qed.
Lemma flat_map_blocks {Y} (f : nat * nat * block -> list Y) (g : block -> list Y) L : (forall a q b, f (a, q, b) = g b) -> flat_map f L = flat_map g (map snd L).
Proof. intros H. induction L as [|[[a q] b] L IH]; cbn [flat_map map snd]; auto. now rewrite IH, H. Qed.
Lemma items_events o L : flat_map (iev r o) (items_of L) = filter (kept r o) (flat_map (evs r) (map snd L)).
Proof. unfold items_of. rewrite flat_map_flat, filter_flat. apply flat_map_blocks. intros a q b. apply items_iev. Qed.
(** a view of the items that does not depend on the conditions *)
Definition comp1 (e : event) : list nat := match e with Compute i => [i] | _ => [] end.
Lemma items_insts L : flat_map inst1 (items_of L) = flat_map comp1 (flat_map (evs r) (map snd L)).
Proof.
  unfold items_of. rewrite !flat_map_flat. apply flat_map_blocks. intros a q b.
  assert (G : forall l g, flat_map inst1 (inst_items l g q a) = flat_map comp1 (map Compute l)) by (induction l as [|i l IH]; intros g; auto; cbn [inst_items map flat_map]; fold (inst_items l g q a); now rewrite IH).
  destruct b as [p|p|c p|i]; cbn [chunk_items evs]; rewrite ?flat_map_app, ?G; auto.
Qed.
Lemma items_cmarks c L : (forall b, In b (map snd L) -> is_block r b) -> flat_map (cmarks c) (items_of L) = map Z.of_nat (flat_map (child_phase c) (flat_map (evs r) (map snd L))).
Proof.
  intros Hb. assert (Gi : forall l g q a, flat_map (cmarks c) (inst_items l g q a) = []) by (induction l as [|i l IH]; intros; auto; cbn [inst_items map flat_map]; fold (inst_items l g q a); now rewrite IH).
  assert (Gc : forall l, flat_map (child_phase c) (map Compute l) = []) by (induction l as [|i l IH]; intros; auto; cbn [map flat_map]; now rewrite IH).
  induction L as [|[[a q] b] L IH]; auto. unfold items_of. cbn [flat_map map snd]. fold (items_of L). rewrite flat_map_app, flat_map_app, map_app, IH by (intros; apply Hb; now right). f_equal. destruct b as [p|p|c' p|i]; cbn [chunk_items evs]; rewrite ?flat_map_app, ?Gi, ?Gc; auto.
  { cbn [app flat_map child_phase]. unfold cmarks. cbn [it_inst it_group fst snd]. rewrite (proj2 (Z.eqb_neq _ _)) by lia. reflexivity. }
  cbn [app flat_map child_phase]. unfold cmarks. cbn [it_inst it_group fst snd]. rewrite !app_nil_r. destruct (Nat.eqb_spec c c') as [->|Ne]; [now rewrite Z.eqb_refl|]. rewrite (proj2 (Z.eqb_neq _ _)) by lia. reflexivity.
Qed.
Lemma items_own L : length (filter own_marker (items_of L)) = length (flat_map own_phase (flat_map (evs r) (map snd L))).
Proof.
  assert (Gi : forall l g q a, filter own_marker (inst_items l g q a) = []) by (induction l as [|i l IH]; intros; auto; cbn [inst_items map filter own_marker it_inst]; fold (inst_items l g q a); now rewrite IH).
  assert (Gc : forall l, flat_map own_phase (map Compute l) = []) by (induction l as [|i l IH]; intros; auto; cbn [map flat_map]; now rewrite IH).
  induction L as [|[[a q] b] L IH]; auto. unfold items_of. cbn [flat_map map snd]. fold (items_of L). rewrite filter_app, flat_map_app, !app_length, IH. f_equal. destruct b as [p|p|c' p|i]; cbn [chunk_items evs]; rewrite ?filter_app, ?flat_map_app, ?Gi, ?Gc; auto.
  cbn [app filter own_marker it_inst it_group snd flat_map own_phase]. rewrite (proj2 (Z.eqb_neq _ _)) by lia. reflexivity.
Qed.
Lemma before_split {X} (L : list X) x y l1 l2 : NoDup L -> L = l1 ++ y :: l2 -> before L x y -> In x l1.
Proof.
  intros Nd E H. pose proof (before_in L x y H) as [Hx _]. rewrite E in Hx. apply in_app_iff in Hx. destruct Hx as [Hx|Hx]; auto. exfalso. destruct Hx as [->|Hx].
  - destruct H as (k1 & k2 & k3 & E'). rewrite E' in Nd. apply NoDup_remove_2 in Nd. apply Nd. apply in_app_iff. right. apply in_app_iff. right. now left.
  - apply (before_antisym L x y Nd H). rewrite E. apply before_app_r. apply (before_app [y]); auto. now left.
Qed.

Variable L : list (nat * nat * block).
Notation B := (map snd L).
Hypothesis Hod : orderly r.
Hypothesis HBn : NoDup B.
Hypothesis HBin : forall b, In b B <-> is_block r b.
Hypothesis HBord : forall b1 b2, clos_trans block (precedes r) b1 b2 -> b1 <> b2 -> before B b1 b2.
Hypothesis Hlast : exists B', B = B' ++ [Synthesized (last_phase r)].
Notation A := (flat_map (evs r) B).
Notation c0 := (mkCond 0 0).
Lemma insts_nodup : NoDup (flat_map inst1 (items_of L)).
Proof.
  rewrite items_insts. apply NoDup_flat_map.
  - now apply (NoDup_A r B).
  - intros [i| | ] _; cbn; repeat constructor; intros [].
  - intros [i| | ] [j| | ] y _ _ H H'; cbn in *; try tauto. destruct H as [<-|[]], H' as [<-|[]]. auto.
Qed.
Lemma insts_order : in_order r (flat_map inst1 (items_of L)).
Proof.
  intros l1 i l2 E t Hn. eapply before_split; [apply insts_nodup|exact E|]. rewrite items_insts. apply (before_flat comp1 A (Compute t) (Compute i)); [|now left|now left]. now apply needs_A.
Qed.
Lemma tests_nodup : NoDup (tests r (items_of L)).
Proof.
  assert (E : tests r (items_of L) = flat_map (fun i => match test_of r i with Some k => [k] | None => [] end) (flat_map inst1 (items_of L))). { unfold tests. rewrite flat_map_flat. apply flat_map_ext. intros it. unfold inst1. destruct (it_inst it) as [i|]; auto. cbn [flat_map]. now rewrite app_nil_r. }
  rewrite E. apply NoDup_flat_map; [apply insts_nodup|intros i _; destruct (test_of r i); repeat constructor; intros []|].
  intros i j k _ _ Hi Hj. unfold test_of in *. destruct (nth_error (r_insts r) i) as [s|] eqn:Es; [|destruct Hi]. destruct (nth_error (r_insts r) j) as [s'|] eqn:Es'; [|destruct Hj]. destruct (si_if s) as [k1|] eqn:E1; [|destruct Hi]. destruct (si_if s') as [k2|] eqn:E2; [|destruct Hj]. destruct Hi as [->|[]], Hj as [->|[]]. apply (tk_distinct r Htests i s j s' k); auto.
Qed.
Lemma start_fresh : fresh r c0 (items_of L).
Proof. unfold fresh. split; [reflexivity|]. split; [apply tests_nodup|]. intros k _ [H|H]; cbn [positive negative] in H; rewrite N.bits_0 in H; discriminate. Qed.
Theorem built_right o prev cnt : right_order r o (run r o (snd (build (items_of L) c0 prev cnt))).
Proof.
  rewrite (run_build r Htests o (items_of L) [] c0 prev cnt).
  - rewrite items_events. now apply right_A.
  - intros it Hi. apply (all_wf L); auto. intros; now apply HBin.
  - apply insts_order.
  - intros t k [].
  - apply start_fresh.
  - intros b. cbn [positive negative]. rewrite !N.bits_0. split; discriminate.
Qed.
Lemma built_not_null prev cnt : snd (build (items_of L) c0 prev cnt) <> Null.
Proof. intros E. pose proof (built_right (fun _ => true) prev cnt) as H. rewrite E in H. destruct (ro_last _ _ _ H) as (L' & E'). cbn [run] in E'. destruct L'; discriminate. Qed.
Lemma foldM_all {X} (f : unit -> X -> res unit) l : (forall x, In x l -> f tt x = Ok tt) -> foldM f l tt = Ok tt.
Proof. induction l as [|x l IH]; intros H; cbn [foldM]; auto. rewrite H by now left. cbn [bind]. apply IH. intros; apply H; now right. Qed.
Theorem built_passes cg cnt : assert_total_order r cg (snd (build (items_of L) c0 0 cnt)) = Ok tt.
Proof.
  assert (Hb : forall b, In b B -> is_block r b) by (intros; now apply HBin). pose proof (all_wf L Hb) as Hwf.
  assert (Hch : forall c, flat_map (cmarks c) (items_of L) = map Z.of_nat (seq 1 (phases_of r c))) by (intros c; rewrite items_cmarks by auto; f_equal; now apply child_A).
  unfold assert_total_order. rewrite validate_build. cbn [bind].
  assert (E1 : child_visit_completeness r (snd (build (items_of L) c0 0 cnt)) = Ok tt).
  { unfold child_visit_completeness. apply foldM_all. intros c Hc. apply in_seq in Hc. unfold rd. destruct (nth_error (r_children r) c) as [ch|] eqn:Ec; [|apply nth_error_None in Ec; lia]. cbn [bind]. destruct ch as [phy|]; auto. apply foldM_all. intros p Hp. apply in_seq in Hp. destruct (followed_build r (Z.of_nat p, Z.of_nat c) false true (items_of L) c0 0 cnt) as (b & E & Hm); [intros; now apply Hwf|]. rewrite E. cbn [bind]. rewrite (Hm eq_refl eq_refl).
    replace (existsb (marker (Z.of_nat p, Z.of_nat c)) (items_of L)) with true; auto. symmetry. apply existsb_exists. assert (Hz : In (Z.of_nat p) (flat_map (cmarks c) (items_of L))) by (rewrite Hch; apply in_map; apply in_seq; unfold phases_of; rewrite Ec; lia). apply in_flat_map in Hz. destruct Hz as (it & Hit & Hz). exists it. split; auto. unfold cmarks in Hz. unfold marker. destruct (it_inst it); [destruct Hz|]. destruct (Z.eqb_spec (snd (it_group it)) (Z.of_nat c)) as [Ez|]; [|destruct Hz]. destruct Hz as [Hz|[]]. rewrite andb_true_r. apply group_eqb_spec. destruct (it_group it). cbn in *. congruence. }
  rewrite E1. cbn [bind]. rewrite sane_build by auto. cbn [bind].
  assert (E2 : child_visit_consecutive r cg (snd (build (items_of L) c0 0 cnt)) = Ok tt) by (unfold child_visit_consecutive; apply foldM_all; intros c _; eapply consecutive_build; apply Hch). rewrite E2. cbn [bind].
  rewrite circular_build; cbn [bind].
  - apply duplicates_build; [now rewrite repeat_length|intros; now apply Hwf|apply insts_nodup|]. intros i Hi. rewrite items_insts in Hi. apply in_flat_map in Hi. destruct Hi as ([j| | ] & Hj & Hi); cbn in Hi; try tauto. destruct Hi as [->|[]]. apply (in_A_compute r B Hlegal HBin) in Hj. destruct Hj as (s & Es). assert (Li : i < length (r_insts r)) by (apply nth_error_Some; unfold instance in Es; congruence). rewrite nth_error_repeat. now rewrite (proj2 (Nat.ltb_lt _ _) Li).
  - apply (od_flags r Hod).
  - apply (lr_flags r Hlegal).
  - intros it Hi. destruct (Hwf it Hi). auto.
  - right. destruct Hlast as (B' & EB). destruct L as [|x0 L0] eqn:EL using rev_ind; [destruct B'; discriminate|]. clear IHL0. rewrite map_app in EB. cbn [map] in EB. apply app_inj_tail in EB. destruct EB as [_ EB]. destruct x0 as [[a q] b]. cbn [snd] in EB. subst b. unfold items_of. rewrite flat_map_app. cbn [flat_map chunk_items]. rewrite app_nil_r, app_assoc. eexists; eexists; split; [reflexivity|reflexivity].
  - rewrite items_own. rewrite own_A by auto. rewrite seq_length. lia.
Qed.
End Sane.
