(** * PropsPlan: C162, one plan of visits for every phylum, kept by the orders of all rules. *)
From Verif Require PropsCycle.
From Verif Require Import Base CondModel EdgeModel DncModel PropsCond EdgeProofs EdgeAddProofs EdgeGraph EdgeSem EdgeWorld PropsEdge SummaryProofs CloseProofs PropsClose DncProofs PropsDnc PropsTree CycleModel CycleSpec OagModel PropsOag PropsCto OaModel OaProofs PropsOagRun AnModel PropsAnalyze GbModel GbSpec GbInst GbCond GbFlow GbExact GbGraph PropsBuild InitModel InitProofs PropsInit OrdModel PropsOrd PropsFlag.
Open Scope nat_scope.

(** ** Specification *)
(** The visit in which each attribute of each phylum (with each fiber) is given: -1 is what
    is inherited for the first visit, 1 what is synthesized in it, and so on. *)
Definition plan := decl -> decl -> option fiber -> Z.
(** in the order of time: -1, 1, -2, 2, ... *)
Definition earlier (u v : Z) : Prop := (u <> 0 /\ v <> 0 /\ (Z.abs u < Z.abs v \/ Z.abs u = Z.abs v /\ u < v))%Z.
(** What is inherited (or synthesized, going back) comes before a visit and what is
    synthesized in it; no visit is left out. *)
Definition sensible (G : grammar) (L : flags) (P : plan) : Prop := forall phy a f, In phy (gr_phyla G) -> In a (e_attrs (gr_env G) phy) -> fiber_of (gr_env G) a f ->
  let back := match f with None => false | Some f => e_reverse (gr_env G) f end in
  (if xorb (fl_syn L a) back then (0 < P phy a f)%Z else (P phy a f < 0)%Z) /\
  forall v, (1 <= v <= Z.abs (P phy a f))%Z -> exists a' f', In a' (e_attrs (gr_env G) phy) /\ fiber_of (gr_env G) a' f' /\ Z.abs (P phy a' f') = v.
(** In [L], at each node of the rule, what the plan has earlier comes earlier. *)
Definition follows_plan (E : genv) (R : grule) (P : plan) (L : list ainst) : Prop :=
  forall m phy a f a' f', (m, phy) = (r_lhs R, r_phy R) \/ In (m, Some phy) (r_kids R) -> In a (e_attrs E phy) -> fiber_of E a f -> In a' (e_attrs E phy) -> fiber_of E a' f' ->
  earlier (P phy a f) (P phy a' f') -> forall before after, L = before ++ mkInst (AD a') f' (Some m) :: after -> In (mkInst (AD a) f (Some m)) before.

(** ** Proofs *)
Lemma earlier_visit u v : earlier u v -> PropsOag.visit u < PropsOag.visit v.
Proof. unfold earlier, PropsOag.visit. intros (A & B & C). destruct (Z.ltb_spec u 0), (Z.ltb_spec v 0); lia. Qed.
Lemma index_of_nth l : NoDup l -> forall i d, nth_error l i = Some d -> index_of d l = Some i.
Proof.
  induction l as [|e l IH]; intros N [|i] d H; cbn [nth_error index_of] in *; try discriminate.
  - injection H as ->. now rewrite Nat.eqb_refl.
  - inversion N; subst. destruct (Nat.eqb_spec e d) as [->|_]; [exfalso; apply H2; now apply nth_error_In with i|]. now rewrite (IH H3 i d H).
Qed.
Definition plan_of (G : grammar) (scheds : list (list Z)) : plan := fun phy a f =>
  match index_of phy (gr_phyla G) with
  | Some y => match index_of (label (mkInst (AD a) f None)) (p_labels (init_summary (gr_env G) phy)) with Some i => phase_of (nth y scheds []) i | None => 0%Z end
  | None => 0%Z
  end.

Definition p_labels_at (G : grammar) (s : state) : Prop := forall y phy p, nth_error (gr_phyla G) y = Some phy -> nth_error (st_phys s) y = Some p -> p_labels p = p_labels (init_summary (gr_env G) phy).
Section GRAMMAR.
Context (G : grammar) (Ok_G : grammar_ok G) (FL : flags) (Fl : flagged G FL).
Lemma plan_at scheds y phy sched i a f : nth_error (gr_phyla G) y = Some phy -> nth_error scheds y = Some sched ->
  nth_error (phylum_fibers (gr_env G) phy) i = Some (a, f) -> plan_of G scheds phy a f = phase_of sched i.
Proof.
  intros Hy Hs Hi. unfold plan_of. rewrite (index_of_nth _ (go_phyla G Ok_G) y phy Hy). rewrite (index_of_nth _ (labels_once G Ok_G phy) i); [now rewrite (nth_error_nth _ _ _ Hs)|].
  unfold init_summary. cbn [p_labels]. rewrite summary_as, map_map, nth_error_map, Hi. reflexivity.
Qed.
Lemma fibers_nth phy a f : In a (e_attrs (gr_env G) phy) -> fiber_of (gr_env G) a f -> exists i, i < length (phylum_fibers (gr_env G) phy) /\ nth_error (phylum_fibers (gr_env G) phy) i = Some (a, f).
Proof.
  intros Ha Hf. assert (K : In (a, f) (phylum_fibers (gr_env G) phy)) by now apply phylum_fibers_in. apply In_nth_error in K. destruct K as (i & Hi). exists i. split; [|exact Hi]. apply nth_error_Some. congruence.
Qed.
Lemma plan_sensible s scheds : init_analysis G = s -> length scheds = length (gr_phyla G) ->
  (forall y sched, nth_error scheds y = Some sched -> exists d, nth_error (init_dirs FL G) y = Some d /\ PropsOagRun.fits d sched) -> sensible G FL (plan_of G scheds).
Proof.
  intros _ Ls Ft phy a f Hp Ha Hf. apply In_nth_error in Hp. destruct Hp as (y & Hy). destruct (nth_error scheds y) as [sched|] eqn:Es; [|apply nth_error_None in Es; assert (y < length (gr_phyla G)) by (apply nth_error_Some; congruence); lia].
  destruct (Ft y sched Es) as (d & Hd & Ld & Sg & Gp). unfold init_dirs in Hd. rewrite nth_error_map, Hy in Hd. cbn [option_map] in Hd. injection Hd as <-. rewrite summary_as, map_map in *.
  destruct (fibers_nth phy a f Ha Hf) as (i & Li & Hi). rewrite (plan_at scheds y phy sched i a f Hy Es Hi). cbv zeta. split.
  - specialize (Sg i (fibered_attr_direction (gr_env G) FL (mkInst (AD a) f None))). rewrite nth_error_map, Hi in Sg. specialize (Sg eq_refl). unfold fibered_attr_direction in Sg. cbn [i_attr i_fiber] in Sg.
    assert (W := Fl phy a (nth_error_In _ _ Hy) Ha). destruct (fl_syn FL a); [|destruct (fl_inh FL a); [|destruct W; discriminate]]; (destruct f as [f|]; [destruct (e_reverse (gr_env G) f)|]); cbn [xorb]; destruct Sg as [[Q ?]|[Q ?]]; try discriminate; assumption.
  - intros v Hv. destruct (Gp i v) as (j & Lj & Qj); [now rewrite map_length|exact Hv|]. rewrite map_length in Lj. destruct (nth_error (phylum_fibers (gr_env G) phy) j) as [[a' f']|] eqn:Hj; [|apply nth_error_None in Hj; lia].
    exists a', f'. pose proof (nth_error_In _ _ Hj) as K. apply phylum_fibers_in in K. destruct K as [K1 K2]. split; [exact K1|]. split; [exact K2|]. now rewrite (plan_at scheds y phy sched j a' f' Hy Es Hj).
Qed.
Lemma as_app insts l L : numbered_as insts l L -> forall before q after, L = before ++ q :: after -> exists nb i na, l = nb ++ i :: na /\ nth_error insts i = Some q /\ numbered_as insts na after.
Proof.
  intros F before q after ->. apply Forall2_app_inv_r in F. destruct F as (nb & nr & _ & Fr & ->). inversion Fr as [|i q' na la Hi Fa]; subst. exists nb, i, na. auto.
Qed.
(** an order that walks the tree is the run *)
Lemma walks_as x R bt : In R (gr_rules G) -> GbModel.build (env_of G x) R = Ok bt -> forall o t L, walks (b_insts bt) o t L -> numbered_as (b_insts bt) (PropsCto.run (oins bt) o t) L.
Proof.
  intros HR B o t L H. induction H as [|i p t L Hi _ _ IH|i k f t L Hi _ IH]; cbn [PropsCto.run]; [constructor|constructor; assumption|].
  assert (Q : nth_error (oins bt) i = Some (order_inst (b_body bt) (test k))) by (unfold oins; now rewrite nth_error_map, Hi). rewrite Q. cbn [order_inst test i_attr]. constructor; [exact Hi|]. unfold yes in IH. destruct (o (N.of_nat k)); exact IH.
Qed.
(** at a node the order follows the schedule of the phylum *)
Lemma node_follows rules s0 x R bt b m phy scheds l L (s' : state) : nth_error (gr_rules G) x = Some R -> GbModel.build (env_of G x) R = Ok bt ->
  at_node G s0 rules x b (b_insts bt) m phy -> PropsOagRun.kept s0 s' -> numbered_as (b_insts bt) l L -> NoDup L ->
  (forall a f, In a (e_attrs (gr_env G) phy) -> fiber_of (gr_env G) a f -> In (mkInst (AD a) f (Some m)) L) ->
  p_labels_at G s0 ->
  (forall r start y p, nth_error rules x = Some r -> In (start, Some y) (r_blocks r) -> nth_error (st_phys s') y = Some p -> exists sched, nth_error scheds y = Some sched /\ length sched = p_n p /\ follows_phases p sched start l) ->
  forall a f a' f', In a (e_attrs (gr_env G) phy) -> fiber_of (gr_env G) a f -> In a' (e_attrs (gr_env G) phy) -> fiber_of (gr_env G) a' f' ->
  earlier (plan_of G scheds phy a f) (plan_of G scheds phy a' f') -> forall before after, L = before ++ mkInst (AD a') f' (Some m) :: after -> In (mkInst (AD a) f (Some m)) before.
Proof.
  intros HR B (st & y & p & (r & Hr & Hb & Hp) & Hy & _ & Lab & Pos) (_ & _ & _ & Kp) F Nd All PL Sch a f a' f' Ha Hf Ha' Hf' Er before after Q.
  destruct (Kp y p Hp) as (p' & Hp' & Lp & _). pose proof (labels_n _ _ Lp) as Pn. destruct (Sch r st y p' Hr (nth_error_In _ _ Hb) Hp') as (sched & Es & _ & Fp).
  destruct (fibers_nth phy a f Ha Hf) as (i & Li & Hi). destruct (fibers_nth phy a' f' Ha' Hf') as (i' & Li' & Hi').
  rewrite (plan_at scheds y phy sched i a f Hy Es Hi), (plan_at scheds y phy sched i' a' f' Hy Es Hi') in Er. apply earlier_visit in Er.
  assert (Lb : p_labels p = p_labels (init_summary (gr_env G) phy)) by exact (PL y phy p Hy Hp).
  assert (Ln : p_n p' = length (phylum_fibers (gr_env G) phy)). { rewrite Pn. unfold p_n. rewrite Lb. exact (summary_size (gr_env G) phy). }
  assert (Pi : forall j c g, nth_error (phylum_fibers (gr_env G) phy) j = Some (c, g) -> nth_error (b_insts bt) (st + j) = Some (mkInst (AD c) g (Some m))).
  { intros j c g Hj. apply Pos. rewrite Lb. unfold init_summary. cbn [p_labels]. rewrite summary_as, map_map, nth_error_map, Hj. reflexivity. }
  destruct (as_app (b_insts bt) l L F before _ after Q) as (nb & z & na & Ql & Hz & Fa). assert (z = st + i') by (apply (same_number G Ok_G x R bt (nth_error_In _ _ HR) B _ _ _ Hz); now apply Pi). subst z.
  assert (Np : ~ In (st + i) na) by (apply (Fp i i' nb na); [rewrite Ln; exact Li|rewrite Ln; exact Li'|exact Er|exact Ql]).
  specialize (All a f Ha Hf). rewrite Q in All. apply in_app_or in All. destruct All as [All|[All|All]]; [exact All| |].
  - exfalso. injection All as -> ->. assert (Z : st + i = st + i') by (apply (same_number G Ok_G x R bt (nth_error_In _ _ HR) B _ _ (mkInst (AD a) f (Some m))); now apply Pi). assert (i = i') by lia. subst. lia.
  - exfalso. apply Np. apply (as_in G Ok_G x R bt (nth_error_In _ _ HR) B na after Fa (st + i) (mkInst (AD a) f (Some m))); [now apply Pi|exact All].
Qed.
Lemma plan_flagged : forall pups aups pinfo ainfo, exists bound, forall fuel lf a, bound <= fuel -> analyze fuel lf G FL pups aups pinfo ainfo = Ok (Some a, []) ->
  exists P, sensible G FL P /\
    (forall y phy, nth_error (gr_phyla G) y = Some phy -> forall i b f, nth_error (phylum_fibers (gr_env G) phy) i = Some (b, f) -> exists sched, nth_error (a_schedules a) y = Some sched /\ nth_error sched i = Some (P phy b f)) /\
    forall x R, nth_error (gr_rules G) x = Some R -> exists bt t, GbModel.build (env_of G x) R = Ok bt /\ nth_error (a_orders a) x = Some t /\
      forall o, exists L, walks (b_insts bt) o t L /\ follows_text (gr_env G) R o L /\ follows_plan (gr_env G) R P L.
Proof.
  intros pups aups pinfo ainfo. destruct (C159_init G Ok_G) as (rules & s0 & Q & Wf & St & _ & D & Bl). destruct (init_given G Ok_G FL Fl rules s0 Q) as (Gv & Dr & Lr).
  destruct (compute_oag_facts rules (init_dirs FL G) (init_insts G) s0 Wf St Dr Gv) as (b1 & s & E & H). destruct (C152_phyla rules (init_dirs FL G) s0 Wf St Dr) as (b2 & s2 & E2 & H2).
  assert (s2 = s). { specialize (E (Nat.max b1 b2) (Nat.le_max_l _ _)). specialize (E2 (Nat.max b1 b2) (Nat.le_max_r _ _)). congruence. } subst s2.
  exists (Nat.max b1 b2). intros fuel lf a Hf An. assert (F1 : b1 <= fuel) by lia. assert (F2 : b2 <= fuel) by lia. unfold analyze in An. rewrite Q in An. cbn [bind] in An. unfold analyze_thing in An. cbn [f_rules facts_of] in An. rewrite (E fuel F1) in An. cbn [bind] in An.
  destruct (analysis_state_cycle s) as [d| | |] eqn:Ec; cbn [bind] in An; try discriminate. destruct (N.eqb_spec d no_dependency) as [->|Nd].
  2: { exfalso. destruct (_ || _)%bool in An; [|discriminate]. destruct (break_and_check _ _ _ _ _) as [[sb ob]| | |] in An; cbn [bind] in An; try discriminate. unfold schedule_and_test in An.
       destruct (compute_oag _ _ _ _ _) as [[[sc sd] ts]| | |] in An; cbn [bind] in An; try discriminate. destruct (analysis_state_cycle sc) as [d'| | |] in An; cbn [bind] in An; try discriminate. destruct (N.eqb d' no_dependency) in An; discriminate. }
  destruct (H Ec) as (s1 & scheds & E1 & H1). destruct (H2 Ec) as (s1' & scheds' & E1' & Kp1 & _ & _ & _ & _ & Ft & Al). assert (Z : Ok (s1', scheds') = Ok (s1, scheds)) by (rewrite <- (E1' fuel F2); exact (E1 fuel F1)). injection Z as -> ->.
  unfold schedule_and_test in An. cbn [f_rules f_dirs f_insts facts_of] in An. destruct H1 as [(Na & Eo)|(A1 & s' & K0 & _ & _ & K1 & [(x & _ & Eo)|(ts & Eo & Lt & T)])]; rewrite (Eo fuel F1) in An; cbn [bind] in An; try discriminate.
  { exfalso. destruct (analysis_state_cycle s1) as [d'| | |] eqn:E'; cbn [bind] in An; try discriminate. destruct (N.eqb_spec d' no_dependency) as [->|]; [exact (Na E')|discriminate]. }
  destruct (analysis_state_cycle s') as [d'| | |] eqn:E'; cbn [bind] in An; try discriminate. destruct (N.eqb d' no_dependency); [|discriminate]. injection An as <-. cbn [a_orders a_schedules].
  assert (PL : p_labels_at G s0).
  { intros y phy p Hy Hp. destruct (init_analysis_ok G Ok_G) as (w & ns & rs & bts & y0 & rules' & s0' & Q' & _ & _ & Qs & _). rewrite Q in Q'. injection Q' as <- <-. rewrite Qs in Hp. cbn [st_phys] in Hp. rewrite nth_error_map, Hy in Hp. cbn [option_map] in Hp. now injection Hp as <-. }
  assert (Ls : length scheds = length (gr_phyla G)).
  { destruct (Al A1) as [-> _]. destruct K1 as (_ & L1 & _). destruct K0 as (_ & L0 & _). rewrite <- L1, L0. exact (proj1 Bl). }
  assert (Fit : forall y sched, nth_error scheds y = Some sched -> exists d, nth_error (init_dirs FL G) y = Some d /\ PropsOagRun.fits d sched) by (intros y sched Hs; destruct (Ft y sched Hs) as (d & p & A & _ & C & _); eauto).
  exists (plan_of G scheds). split; [exact (plan_sensible _ scheds eq_refl Ls Fit)|]. split.
  { intros y phy Hy i b f Hi. destruct (nth_error scheds y) as [sched|] eqn:Es; [|apply nth_error_None in Es; assert (y < length (gr_phyla G)) by (apply nth_error_Some; congruence); lia]. exists sched. split; [reflexivity|]. rewrite (plan_at scheds y phy sched i b f Hy Es Hi). unfold phase_of. apply nth_error_nth'.
    destruct (Fit y sched Es) as (d & Hd & Ld & _). rewrite Ld. unfold init_dirs in Hd. rewrite nth_error_map, Hy in Hd. cbn [option_map] in Hd. injection Hd as <-. rewrite summary_as, !map_length. apply nth_error_Some. congruence. }
  intros x R HR. destruct (D x R HR) as (bt & B & _ & AtL & AtK). destruct (nth_error ts x) as [t|] eqn:Et; [|apply nth_error_None in Et; rewrite Lt, Lr in Et; assert (x < length (gr_rules G)) by (apply nth_error_Some; congruence); lia].
  exists bt, t. split; [exact B|]. split; [reflexivity|]. destruct (T x t Et) as (ins & Hi & _ & Br & Ro & Nodes). rewrite (init_insts_rule G x R bt HR B) in Hi. injection Hi as <-. intros o. pose proof (nth_error_In _ _ HR) as HR'.
  destruct (order_text G Ok_G x R bt HR' B s' t) with (o := o) as (L & F & Fo); [exact (influence_needs G Ok_G rules s0 s' x R bt D K0 HR B)|exact Ro|]. exists L. split; [exact (walks_run G Ok_G x R bt HR' B o t L Br F)|]. split; [exact Fo|].
  intros m phy a f a' f' Hn Ha Hf0 Ha' Hf' Er. assert (X : exists b, at_node G s0 rules x b (b_insts bt) m phy).
  { destruct Hn as [Hn|Hn]; [injection Hn as -> ->; eauto|]. apply In_nth_error in Hn. destruct Hn as (k & Hk). exists (S k). now apply AtK. }
  destruct X as (b & At). apply (node_follows rules s0 x R bt b m phy scheds _ L s' HR B At K0 F (proj1 Fo)); try assumption.
  - intros c g Hc Hg. apply (proj1 (proj2 (proj2 Fo))); [|constructor]. apply w_node with phy; [|exact Hc|exact Hg]. destruct Hn as [Hn|Hn]; [now left|right; now left].
  - intros r start y p Hr Hb Hp. destruct (Nodes r start y p Hr Hb Hp) as (sched & J1 & J2 & _ & J3). exists sched. auto.
Qed.
End GRAMMAR.
(** orders are only found when every attribute is inherited or synthesized *)
Lemma flagged_dec G FL : {flagged G FL} + {~ flagged G FL}.
Proof.
  destruct (forallb (fun phy => forallb (fun a => fl_syn FL a || fl_inh FL a) (e_attrs (gr_env G) phy)) (gr_phyla G)) eqn:E.
  - left. intros phy a Hp Ha. apply orb_true_iff. rewrite forallb_forall in E. specialize (E phy Hp). rewrite forallb_forall in E. exact (E a Ha).
  - right. intros F. apply not_true_iff_false in E. apply E. apply forallb_forall. intros phy Hp. apply forallb_forall. intros a Ha. apply orb_true_iff. exact (F phy a Hp Ha).
Qed.
Lemma analyze_flagged G (Ok_G : grammar_ok G) FL pups aups pinfo ainfo fuel lf a : analyze fuel lf G FL pups aups pinfo ainfo = Ok (Some a, []) -> flagged G FL.
Proof.
  intros An. destruct (C159_init G Ok_G) as (rules & s0 & Q & Wf & St & _ & _ & Bl). unfold analyze in An. rewrite Q in An. cbn [bind] in An. unfold analyze_thing in An. cbn [f_rules facts_of] in An.
  destruct (start_dinv rules s0 Wf St) as (B & As0 & D0). destruct (dnc_close_any B rules s0 As0 D0) as (bd & s & As & E & _ & L & _ & _).
  destruct (dnc_close fuel rules s0) as [s1| | |] eqn:E1; cbn [bind] in An; try discriminate.
  assert (s1 = s). { specialize (E (Nat.max bd fuel) (Nat.le_max_l _ _)). rewrite (PropsCycle.dnc_close_mono fuel (Nat.max bd fuel) rules s0 s1 (Nat.le_max_r _ _) E1) in E. now injection E. } subst s1.
  assert (Ln : length (st_phys s) = length (gr_phyla G)) by (rewrite (nz_len _ _ (psle_nz _ _ L)); exact (proj1 Bl)).
  destruct (analysis_state_cycle s) as [d| | |]; cbn [bind] in An; try discriminate. destruct (N.eqb d no_dependency).
  2: { exfalso. destruct (_ || _)%bool in An; [|discriminate]. destruct (break_and_check _ _ _ _ _) as [[sb ob]| | |] in An; cbn [bind] in An; try discriminate. unfold schedule_and_test in An.
       destruct (compute_oag _ _ _ _ _) as [[[sc sd] ts]| | |] in An; cbn [bind] in An; try discriminate. destruct (analysis_state_cycle sc) as [d'| | |] in An; cbn [bind] in An; try discriminate. destruct (N.eqb d' no_dependency) in An; discriminate. }
  intros phy b Hp Hb. apply In_nth_error in Hp. destruct Hp as (y & Hy). destruct (analysis_flagged _ _ _ _ _ _ _ _ An y) as (ds & Hd & Nl); [rewrite Ln; apply nth_error_Some; congruence|].
  cbn [f_dirs facts_of] in Hd. unfold init_dirs in Hd. rewrite nth_error_map, Hy in Hd. cbn [option_map] in Hd. injection Hd as <-.
  destruct (fl_syn FL b) eqn:Es; [now left|]. destruct (fl_inh FL b) eqn:Ei; [now right|]. exfalso. apply Nl. apply in_map_iff. exists (mkInst (AD b) None None). split.
  - unfold fibered_attr_direction. cbn [i_attr i_fiber]. now rewrite Es, Ei.
  - rewrite summary_as. apply in_map_iff. exists (b, None). split; [reflexivity|]. apply phylum_fibers_in. split; [exact Hb|]. now left.
Qed.

(** ** C162: if the analysis finds orders (and reports nothing), there is one plan for every
    phylum, the schedules it keeps, such that the order of every rule follows the text of
    the rule and, at the left-hand side and at every child, the plan of the node's phylum. *)
Theorem C162_plan : forall G, grammar_ok G -> forall FL pups aups pinfo ainfo, exists bound, forall fuel lf a, bound <= fuel -> analyze fuel lf G FL pups aups pinfo ainfo = Ok (Some a, []) ->
  flagged G FL /\ exists P, sensible G FL P /\
    (forall y phy, nth_error (gr_phyla G) y = Some phy -> forall i b f, nth_error (phylum_fibers (gr_env G) phy) i = Some (b, f) -> exists sched, nth_error (a_schedules a) y = Some sched /\ nth_error sched i = Some (P phy b f)) /\
    forall x R, nth_error (gr_rules G) x = Some R -> exists bt t, GbModel.build (env_of G x) R = Ok bt /\ nth_error (a_orders a) x = Some t /\
      forall o, exists L, walks (b_insts bt) o t L /\ follows_text (gr_env G) R o L /\ follows_plan (gr_env G) R P L.
Proof.
  intros G Ok_G FL pups aups pinfo ainfo. destruct (flagged_dec G FL) as [Fl|Nf].
  - destruct (plan_flagged G Ok_G FL Fl pups aups pinfo ainfo) as (bound & H). exists bound. intros fuel lf a Hf An. split; [exact Fl|]. exact (H fuel lf a Hf An).
  - exists 0. intros fuel lf a _ An. exfalso. exact (Nf (analyze_flagged G Ok_G FL pups aups pinfo ainfo fuel lf a An)).
Qed.

(** ** Example *)
(** Two visits: 101 has 10 and 14 inherited, 11 and 15 synthesized.
<<
   match ?self=r(?e)   begin e.10 := const; e.14 := e.11; self.12 := e.15; end;
   match ?self=leaf()  begin self.11 := self.10; self.15 := self.14; end;
>> *)
Definition exv_env : genv := mkEnv [0] 0 (fun _ _ => None) (fun _ => false) (fun _ => []) (fun _ => []) (fun phy => if phy =? 100 then [12; 13] else if phy =? 101 then [10; 11; 13; 14; 15] else [])
  (fun _ => false) (fun _ => 13) S (fun _ => 0) (fun _ => []) (fun _ => 1000).
Definition exv_root : grule := GbModel.mkRule 2 100 [(3, Some 101)] (BCons (SAssign (EAttr 3 10) EConst) (BCons (SAssign (EAttr 3 14) (EAttr 3 11)) (BCons (SAssign (EAttr 2 12) (EAttr 3 15)) BNil))).
Definition exv_leaf : grule := GbModel.mkRule 7 101 [] (BCons (SAssign (EAttr 7 11) (EAttr 7 10)) (BCons (SAssign (EAttr 7 15) (EAttr 7 14)) BNil)).
Definition exv : grammar := mkGrammar [100; 101] 100 1 [exv_root; exv_leaf] exv_env (fun _ _ => 7).
Definition exv_flags : flags := mkFlags (fun a => (a =? 11) || (a =? 12) || (a =? 15)) (fun a => (a =? 10) || (a =? 13) || (a =? 14)).
Lemma exv_ok : grammar_ok exv.
Proof.
  constructor.
  - repeat constructor; cbn; intuition discriminate.
  - now left.
  - intros phy. cbn [exv gr_env exv_env e_attrs]. destruct (phy =? 100); [|destruct (phy =? 101)]; repeat constructor; cbn; intuition discriminate.
  - intros d. repeat constructor. intros [].
  - intros R [<-|[<-|[]]]; cbn; repeat constructor; cbn; intuition discriminate.
  - intros R [<-|[<-|[]]]; reflexivity.
  - intros R [<-|[<-|[]]]; cbn; tauto.
  - intros R [<-|[<-|[]]]; cbn; lia.
  - intros R [<-|[<-|[]]]; cbn; tauto.
  - intros R m phy [<-|[<-|[]]]; cbn; intuition congruence.
Qed.
Lemma exv_all : flagged exv exv_flags.
Proof. intros phy b [<-|[<-|[]]]; cbn; intros H; repeat (destruct H as [<-|H]; [auto|]); destruct H. Qed.
Definition results (r : res (option analysis * list message)) : option (list (list Z) * list cto) := match r with Ok (Some a, []) => Some (a_schedules a, a_orders a) | _ => None end.
Example C162_example : results (analyze 60 true exv exv_flags [] [] [] []) =
  Some ([[1; -1]; [-1; 1; -1; -2; 2]]%Z,
        [CNext 1 (CNext 2 (CNext 4 (CNext 3 (CNext 5 (CNext 6 (CNext 0 CDone)))))); CNext 0 (CNext 2 (CNext 1 (CNext 3 (CNext 4 CDone)))); CNext 1 (CNext 0 CDone)]).
Proof. vm_compute. reflexivity. Qed.
Print Assumptions C162_plan.
