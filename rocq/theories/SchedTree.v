(** * SchedTree: running the tree of a list of items, and checking it. *)
From Coq Require Import Relations.
From Verif Require Import Base CondModel EdgeModel EdgeSem DncModel CycleModel OagModel PropsCond PropsCto ChunkModel OrderModel SchedSpec ChunkProofs SchedProofs SchedOrder.
Open Scope nat_scope.

Section T.
Variable r : rule.
Hypothesis Htests : tests_ok r.
Notation build := (build r).
Notation icond := (icond r).
Definition inst1 (it : item) : list nat := match it_inst it with Some i => [i] | None => [] end.
Definition iev (o : outcome) (it : item) : list event := match it_inst it with Some i => if meetsb o (icond i) then [Compute i] else [] | None => [event_of None (it_group it)] end.
Definition wf_item (it : item) : Prop := match it_inst it with Some i => exists s, instance r i s /\ si_group s = it_group it | None => it_group it <> (0, 0)%Z end.

(** ** Running it *)
Definition settled (dn : list nat) (cond : condition) : Prop := forall t k, In t dn -> test_of r t = Some k -> mbit cond (N.of_nat k) \/ forall o, meets o cond -> ~ wanted r o t.
Definition in_order (l : list nat) : Prop := forall l1 i l2, l = l1 ++ i :: l2 -> forall t, needs r t i -> In t l1.
Lemma wanted_at o i s : instance r i s -> wanted r o i <-> meets o (si_cond s).
Proof. intros Es. split; [intros (s' & Es' & M); assert (s' = s) by (unfold instance in *; congruence); now subst|intros M; now exists s]. Qed.
Lemma run_build o : forall items dn cond prev cnt, (forall it, In it items -> wf_item it) -> in_order (dn ++ flat_map inst1 items) -> settled dn cond -> fresh r cond items -> meets o cond ->
  run r o (snd (build items cond prev cnt)) = flat_map (iev o) items.
Proof.
  induction items as [|it items IH]; intros dn cond prev cnt Hwf Ho Hs Hf Hm; cbn [SchedProofs.build flat_map]; auto. pose proof (fresh_rest r cond it items Hf) as Hf'. assert (Hwf' : forall it, In it items -> wf_item it) by (intros; apply Hwf; now right). assert (W : wf_item it) by (apply Hwf; now left). unfold wf_item in W. unfold iev at 1. destruct (it_inst it) as [i|] eqn:Ei.
  - destruct W as (s & Es & Gs). assert (Ec : icond i = si_cond s) by (unfold SchedProofs.icond; unfold instance in Es; now rewrite Es). assert (Et : test_of r i = si_if s) by (unfold test_of; unfold instance in Es; now rewrite Es). assert (Hin1 : flat_map inst1 (it :: items) = i :: flat_map inst1 items) by (cbn [flat_map]; unfold inst1 at 1; now rewrite Ei). rewrite Hin1 in Ho. rewrite Ec.
    assert (K : impossible (merge_cond cond (si_cond s)) = negb (meetsb o (si_cond s))).
    { destruct (meetsb o (si_cond s)) eqn:M; cbn [negb].
      - apply meetsb_spec in M. apply possible_spec. eauto.
      - destruct (impossible (merge_cond cond (si_cond s))) eqn:P; auto. exfalso. apply possible_spec in P. destruct P as (o' & M1 & M2). assert (meets o (si_cond s)); [|apply meetsb_spec in H; congruence].
        eapply meets_agree; [exact M2|]. intros b Hb. destruct (tk_needed r Htests i s o' b Es M2 Hb) as (t & st & k & Es' & Ek & -> & M3 & D). assert (Hn : needs r t i). { split; auto. exists o'. rewrite (wanted_at o' t st Es'), (wanted_at o' i s Es). auto. } assert (Hd : In t dn) by (eapply Ho; eauto). assert (Ek' : test_of r t = Some k) by (unfold test_of; unfold instance in Es'; now rewrite Es').
        destruct (Hs t k Hd Ek') as [B|B]; [|exfalso; apply (B o' M1); now apply (wanted_at o' t st)]. destruct B as [B|B]; [rewrite (proj1 (Hm _) B), (proj1 (M1 _) B); auto|rewrite (proj2 (Hm _) B), (proj2 (M1 _) B); auto]. }
    rewrite K. assert (Ho' : in_order ((dn ++ [i]) ++ flat_map inst1 items)) by (rewrite <- app_assoc; exact Ho).
    destruct (meetsb o (si_cond s)) eqn:M; cbn [negb app].
    + rewrite Et. destruct (si_if s) as [k|] eqn:Ek.
      * assert (Ft := fresh_test r cond it items i k Ei Et Hf). destruct Ft as (Nk & F1 & F2). destruct (build items (tcond cond k) (S cnt) (S cnt)) as [c1 t] eqn:B1. destruct (build items (fcond cond k) (S cnt) c1) as [c2 f] eqn:B2. cbn [snd run]. rewrite Et. cbn [event_of]. f_equal.
        assert (Sg : forall cond', (forall o', meets o' cond' -> meets o' cond) -> (forall b, mbit cond' b <-> mbit cond b \/ b = N.of_nat k) -> settled (dn ++ [i]) cond').
        { intros cond' Hw Hb t' k' Ht Ek'. apply in_app_iff in Ht. rewrite Hb. destruct Ht as [Ht|[<-|[]]]; [|left; right; congruence]. destruct (Hs t' k' Ht Ek') as [B|B]; auto. }
        destruct (o (N.of_nat k)) eqn:Ok'.
        -- change t with (snd (c1, t)). rewrite <- B1. apply (IH (dn ++ [i])); auto; [|apply tcond_meets; auto]. apply Sg; [intros o' Q; apply tcond_meets in Q; tauto|apply tcond_bits].
        -- change f with (snd (c2, f)). rewrite <- B2. apply (IH (dn ++ [i])); auto; [|apply fcond_meets; auto]. apply Sg; [intros o' Q; apply fcond_meets in Q; tauto|apply fcond_bits].
      * destruct (build items cond (S cnt) (S cnt)) as [c1 t] eqn:B1. cbn [snd run]. rewrite Et. cbn [event_of]. f_equal. change t with (snd (c1, t)). rewrite <- B1. apply (IH (dn ++ [i])); auto. intros t' k' Ht Ek'. apply in_app_iff in Ht. destruct Ht as [Ht|[<-|[]]]; [auto|congruence].
    + apply (IH (dn ++ [i])); auto. intros t' k' Ht Ek'. apply in_app_iff in Ht. destruct Ht as [Ht|[<-|[]]]; auto. right. intros o' M' W. apply (wanted_at o' i s Es) in W. assert (P : impossible (merge_cond cond (si_cond s)) = false) by (apply possible_spec; eauto). rewrite K in P. discriminate.
  - destruct (build items cond (S cnt) (S cnt)) as [c1 t] eqn:B1. cbn [snd run app]. f_equal. change t with (snd (c1, t)). rewrite <- B1. apply (IH dn); auto. cbn [flat_map] in Ho. unfold inst1 in Ho at 1. rewrite Ei in Ho. exact Ho.
Qed.

(** ** The checks *)
Lemma build_prev : forall items cond prev cnt, match snd (build items cond prev cnt) with Null => True | t => prev_of t = prev end.
Proof.
  induction items as [|it items IH]; intros cond prev cnt; cbn [SchedProofs.build]; [exact I|]. destruct (it_inst it) as [i|].
  - destruct (impossible (merge_cond cond (icond i))); [apply IH|]. destruct (test_of r i) as [k|]; [destruct (build items (tcond cond k) (S cnt) (S cnt)) as [c1 t]; destruct (build items (fcond cond k) (S cnt) c1) as [c2 f]|destruct (build items cond (S cnt) (S cnt)) as [c1 t]]; reflexivity.
  - destruct (build items cond (S cnt) (S cnt)) as [c1 t]. reflexivity.
Qed.
(** cases of a step of build *)
Lemma build_cases (P : cto -> Prop) it items cond prev cnt :
  (forall i, it_inst it = Some i -> impossible (merge_cond cond (icond i)) = true -> forall cnt', P (snd (build items cond prev cnt'))) ->
  (forall i k cnt1 cnt2, it_inst it = Some i -> impossible (merge_cond cond (icond i)) = false -> test_of r i = Some k ->
     P (Node (S cnt) prev (Some i) (it_group it) (it_ph it) (it_ck it) (circ r (it_ck it)) (snd (build items (tcond cond k) (S cnt) cnt1)) (snd (build items (fcond cond k) (S cnt) cnt2)))) ->
  (forall cnt1, (forall i, it_inst it = Some i -> test_of r i = None /\ impossible (merge_cond cond (icond i)) = false) ->
     P (Node (S cnt) prev (it_inst it) (it_group it) (it_ph it) (it_ck it) (circ r (it_ck it)) Null (snd (build items cond (S cnt) cnt1)))) ->
  P (snd (build (it :: items) cond prev cnt)).
Proof.
  intros H1 H2 H3. cbn [SchedProofs.build]. destruct (it_inst it) as [i|].
  - destruct (impossible (merge_cond cond (icond i))) eqn:Ei; [eapply H1; eauto|]. destruct (test_of r i) as [k|] eqn:Et.
    + specialize (H2 i k (S cnt)). destruct (build items (tcond cond k) (S cnt) (S cnt)) as [c1 t]. specialize (H2 c1). destruct (build items (fcond cond k) (S cnt) c1) as [c2 f]. cbn [snd] in *. auto.
    + specialize (H3 (S cnt)). destruct (build items cond (S cnt) (S cnt)) as [c1 t]. cbn [snd] in *. apply H3. intros i' E. injection E as <-. auto.
  - specialize (H3 (S cnt)). destruct (build items cond (S cnt) (S cnt)) as [c1 t]. cbn [snd] in *. apply H3. discriminate.
Qed.
Lemma validate_build : forall items cond prev cnt, validate_linked_list (snd (build items cond prev cnt)) prev = Ok tt.
Proof.
  induction items as [|it items IH]; intros cond prev cnt; auto. apply build_cases; auto.
  - intros i k c1 c2 _ _ _. cbn [validate_linked_list]. rewrite Nat.eqb_refl. cbn [negb]. pose proof (build_prev items (fcond cond k) (S cnt) c2) as Hp. pose proof (IH (fcond cond k) (S cnt) c2) as Hv. rewrite (IH (tcond cond k) (S cnt) c1). cbn [bind]. destruct (snd (build items (fcond cond k) (S cnt) c2)); auto. rewrite Hp, Nat.eqb_refl. exact Hv.
  - intros c1 _. cbn [validate_linked_list]. rewrite Nat.eqb_refl. cbn [negb]. pose proof (build_prev items cond (S cnt) c1) as Hp. pose proof (IH cond (S cnt) c1) as Hv. cbn [bind]. destruct (snd (build items cond (S cnt) c1)); auto. rewrite Hp, Nat.eqb_refl. exact Hv.
Qed.
Definition marker (want : group) (it : item) : bool := group_eqb (it_group it) want && match it_inst it with None => true | Some _ => false end.
Lemma local_if_ok it : wf_item it -> exists b, local_if r (it_inst it) (it_group it) = Ok b.
Proof.
  unfold wf_item, local_if. destruct (group_is_local (it_group it)) eqn:G; [|eauto]. destruct (it_inst it) as [i|].
  - intros (s & Es & _). unfold rd. unfold instance in Es. rewrite Es. cbn [bind]. eauto.
  - intros H. exfalso. apply H. now apply group_eqb_spec.
Qed.
Lemma followed_build want imm vmo : forall items cond prev cnt, (forall it, In it items -> wf_item it) ->
  exists b, followed_by r (snd (build items cond prev cnt)) want imm vmo = Ok b /\ (imm = false -> vmo = true -> b = existsb (marker want) items).
Proof.
  induction items as [|it items IH]; intros cond prev cnt Hwf; [exists false; auto|]. assert (Hwf' : forall it, In it items -> wf_item it) by (intros; apply Hwf; now right). assert (W : wf_item it) by (apply Hwf; now left). destruct (local_if_ok it W) as (lb & El).
  refine (build_cases (fun t => exists b, followed_by r t want imm vmo = Ok b /\ (imm = false -> vmo = true -> b = existsb (marker want) (it :: items))) it items cond prev cnt _ _ _).
  - intros i Ei _ cnt'. destruct (IH cond prev cnt' Hwf') as (b & E & H). exists b. split; auto. intros I V. cbn [existsb]. unfold marker at 1. rewrite Ei, andb_false_r. cbn [orb]. auto.
  - intros i k c1 c2 Ei _ _. cbn [followed_by]. destruct (negb (group_eqb (it_group it) want) && imm) eqn:Z. + exists false. split; auto. intros ->. rewrite andb_false_r in Z. discriminate.
    + rewrite <- Ei, El. cbn [bind]. destruct (IH (tcond cond k) (S cnt) c1 Hwf') as (b1 & E1 & H1), (IH (fcond cond k) (S cnt) c2 Hwf') as (b2 & E2 & H2). rewrite E1, E2. destruct lb; cbn [bind]; eexists; (split; [reflexivity|]); intros I V; cbn [existsb]; unfold marker at 1; rewrite ?(H1 I V), (H2 I V), V; cbn [negb orb]; destruct (group_eqb (it_group it) want); cbn [andb]; rewrite ?Ei; cbn [orb]; auto; apply orb_diag.
  - intros c1 _. cbn [followed_by]. destruct (negb (group_eqb (it_group it) want) && imm) eqn:Z. + exists false. split; auto. intros ->. rewrite andb_false_r in Z. discriminate.
    + rewrite El. cbn [bind]. destruct (IH cond (S cnt) c1 Hwf') as (b2 & E2 & H2). rewrite E2. destruct lb; cbn [bind]; eexists; (split; [reflexivity|]); intros I V; cbn [existsb]; unfold marker at 1; rewrite (H2 I V), V; cbn [negb orb]; now rewrite ?orb_false_r.
Qed.
(** visits of one child *)
Definition cmarks (c : nat) (it : item) : list Z := match it_inst it with None => if Z.eqb (snd (it_group it)) (Z.of_nat c) then [fst (it_group it)] else [] | Some _ => [] end.
Lemma consecutive_build cg c : forall items cond prev cnt ph k, flat_map (cmarks c) items = map Z.of_nat (seq ph k) -> child_visit_consecutive_check cg (snd (build items cond prev cnt)) ph (Z.of_nat c) = Ok tt.
Proof.
  induction items as [|it items IH]; intros cond prev cnt ph k H; auto. cbn [flat_map] in H. apply build_cases.
  - intros i Ei _ cnt'. unfold cmarks in H at 1. rewrite Ei in H. cbn [app] in H. eapply IH; eauto.
  - intros i k' c1 c2 Ei _ _. unfold cmarks in H at 1. rewrite Ei in H. cbn [app] in H. cbn [child_visit_consecutive_check]. rewrite (IH (tcond cond k') _ _ ph k H). cbn [bind]. eapply IH; eauto.
  - intros c1 _. cbn [child_visit_consecutive_check]. unfold cmarks in H at 1. destruct (it_inst it) as [i|].
    + cbn [app bind] in *. eapply IH; eauto.
    + destruct (Z.eqb (snd (it_group it)) (Z.of_nat c)); cbn [app bind] in *; [|eapply IH; eauto]. destruct k as [|k]; cbn [seq map] in H; [discriminate|]. injection H as H1 H2. rewrite H1, Z.eqb_refl. cbn [bind]. eapply IH; eauto.
Qed.
(** no circular phases *)
Definition own_marker (it : item) : bool := match it_inst it with None => Z.eqb (snd (it_group it)) (-1) | Some _ => false end.
Definition child_group (g : group) : Prop := g = (0, 0)%Z \/ snd g = (-1)%Z \/ exists c, snd g = Z.of_nat c /\ c < length (r_children r).
Lemma circular_build : (forall b, In b (cyclic_flags (r_parent r)) -> b = false) -> last_phase r < length (cyclic_flags (r_parent r)) ->
  forall items cond prev cnt ph, (forall it, In it items -> child_group (it_group it) /\ wf_item it) -> (items = [] \/ exists l it, items = l ++ [it] /\ own_marker it = true) -> ph + length (filter own_marker items) = S (last_phase r) ->
  check_circular_visit r (snd (build items cond prev cnt)) ph = Ok tt.
Proof.
  intros Hf Hl. assert (Rd : forall ph, ph <= last_phase r -> rd (cyclic_flags (r_parent r)) ph = Ok false). { intros ph H. unfold rd. destruct (nth_error (cyclic_flags (r_parent r)) ph) as [b|] eqn:E; [|apply nth_error_None in E; lia]. now rewrite (Hf b (nth_error_In _ _ E)). }
  induction items as [|it items IH]; intros cond prev cnt ph Hg He Hp; auto.
  assert (Le : ph <= last_phase r). { destruct He as [E|(l & x & E & Ox)]; [discriminate|]. rewrite E, filter_app, app_length in Hp. cbn [filter] in Hp. rewrite Ox in Hp. cbn [length] in Hp. lia. }
  assert (He' : items = [] \/ exists l it, items = l ++ [it] /\ own_marker it = true). { destruct He as [E|([|y l] & x & E & Ox)]; [discriminate| |]; cbn [app] in E; injection E as -> ->; [auto|right; eauto]. }
  assert (Hg' : forall it, In it items -> child_group (it_group it) /\ wf_item it) by (intros; apply Hg; now right). destruct (Hg it (or_introl eq_refl)) as [G W].
  assert (Hc : snd (it_group it) <> (-1)%Z -> it_group it <> (0, 0)%Z -> exists ch, rd (r_children r) (Z.to_nat (snd (it_group it))) = Ok ch /\ (0 <= snd (it_group it))%Z).
  { intros N1 N2. destruct G as [G|[G|(c & Ec & Lc)]]; try contradiction. rewrite Ec, Nat2Z.id. unfold rd. destruct (nth_error (r_children r) c) as [ch|] eqn:E; [|apply nth_error_None in E; lia]. exists ch. split; [auto|lia]. }
  assert (Head : forall i, it_inst it = Some i -> (if negb (group_is_local (it_group it)) && Z.ltb (-1) (snd (it_group it)) then
          _ <- rd (r_children r) (Z.to_nat (snd (it_group it))) ;;
          pc <- rd (cyclic_flags (r_parent r)) ph ;;
          if pc : bool then cyc <- instance_in_aug_cycle r i ;; if cyc : bool then Ok ph else Exit else Ok ph
        else Ok ph) = Ok ph).
  { intros i Ei. destruct (negb (group_is_local (it_group it)) && Z.ltb (-1) (snd (it_group it))) eqn:Z; auto. apply andb_true_iff in Z. rewrite negb_true_iff, Z.ltb_lt in Z. destruct Z as [Z1 Z2]. destruct Hc as (ch & -> & _); [lia|intros E; apply group_eqb_spec in E; unfold group_is_local in Z1; congruence|]. cbn [bind]. rewrite Rd by auto. reflexivity. }
  cbn [filter] in Hp. apply build_cases.
  - intros i Ei _ cnt'. unfold own_marker in Hp at 1. rewrite Ei in Hp. apply IH; auto.
  - intros i k c1 c2 Ei _ _. unfold own_marker in Hp at 1. rewrite Ei in Hp. cbn [check_circular_visit]. rewrite Head by auto. cbn [bind]. rewrite IH by auto. cbn [bind]. now apply IH.
  - intros c1 _. cbn [check_circular_visit]. unfold own_marker in Hp at 1. unfold wf_item in W. destruct (it_inst it) as [i|] eqn:Ei.
    + rewrite Head by auto. cbn [bind]. apply IH; auto.
    + destruct (Z.eqb_spec (snd (it_group it)) (-1)) as [E|E]; cbn [bind length] in *; [apply IH; auto; lia|]. destruct (group_is_local (it_group it)) eqn:E2; [exfalso; apply W; now apply group_eqb_spec|]. destruct Hc as (ch & -> & P); auto. rewrite (proj2 (Z.ltb_ge _ _)) by lia. cbn [bind]. destruct ch as [phy|]; [rewrite Rd by auto|]; cbn [bind]; apply IH; auto.
Qed.
(** no duplicates *)
Lemma duplicates_build : forall items cond prev cnt seen, length seen = length (r_insts r) -> (forall it, In it items -> wf_item it) -> NoDup (flat_map inst1 items) -> (forall i, In i (flat_map inst1 items) -> nth_error seen i = Some false) ->
  check_duplicates (snd (build items cond prev cnt)) seen = Ok tt.
Proof.
  induction items as [|it items IH]; intros cond prev cnt seen Ls Hwf Nd Hs; auto. assert (Hwf' : forall it, In it items -> wf_item it) by (intros; apply Hwf; now right). assert (W : wf_item it) by (apply Hwf; now left). cbn [flat_map] in Nd, Hs.
  assert (Hi : forall i, it_inst it = Some i -> nth_error seen i = Some false /\ i < length seen /\ (forall j, In j (flat_map inst1 items) -> nth_error (upd seen i true) j = Some false) /\ NoDup (flat_map inst1 items)).
  { intros i Ei. assert (I1 : inst1 it = match it_inst it with Some i => [i] | None => [] end) by reflexivity. rewrite Ei in I1. rewrite I1 in Nd, Hs. cbn [app] in Nd, Hs. assert (S0 : nth_error seen i = Some false) by (apply Hs; now left). inversion Nd as [|? ? N1 N2]; subst. split; auto. split; [apply nth_error_Some; congruence|]. split; auto. intros j Hj. rewrite nth_error_upd_neq by congruence. apply Hs. now right. }
  apply build_cases.
  - intros i Ei _ cnt'. assert (I1 : inst1 it = match it_inst it with Some i => [i] | None => [] end) by reflexivity. rewrite Ei in I1. rewrite I1 in Nd, Hs. cbn [app] in Nd, Hs. inversion Nd; subst. apply IH; auto. intros; apply Hs; now right.
  - intros i k c1 c2 Ei _ _. destruct (Hi i Ei) as (S0 & L & Hu & Nd'). cbn [check_duplicates]. unfold rd, wr. rewrite S0. cbn [bind]. rewrite (proj2 (Nat.ltb_lt _ _) L). cbn [bind]. rewrite IH; auto; [|now rewrite upd_length]. cbn [bind]. apply IH; auto. now rewrite upd_length.
  - intros c1 _. cbn [check_duplicates]. destruct (it_inst it) as [i|] eqn:Ei.
    + destruct (Hi i eq_refl) as (S0 & L & Hu & Nd'). unfold rd, wr. rewrite S0. cbn [bind]. rewrite (proj2 (Nat.ltb_lt _ _) L). cbn [bind]. apply IH; auto. now rewrite upd_length.
    + cbn [bind]. assert (I1 : inst1 it = match it_inst it with Some i => [i] | None => [] end) by reflexivity. rewrite Ei in I1. rewrite I1 in Nd, Hs. cbn [app] in Nd, Hs. apply IH; auto.
Qed.
End T.
