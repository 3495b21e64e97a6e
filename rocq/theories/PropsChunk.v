(** * PropsChunk: C59 (the chunks of a rule). *)
From Coq Require Import Relations Permutation.
From Verif Require Import Base CondModel EdgeModel DncModel CycleModel OagModel ComponentModel PropsCond PropsComponent ChunkModel SchedSpec ChunkProofs.
From Verif Require PrimeModel PropsUtil.
Open Scope nat_scope.

(** ** Specification *)
(** The chunk c is for the block b: it has its instances and its circularity. *)
Definition chunk_is (r : rule) (c : chunk) (b : block) : Prop :=
  NoDup (c_insts c) /\ (forall i, In i (c_insts c) <-> in_block r i b) /\
  match b with
  | Inherited p => c_type c = HalfLeft /\ c_ph c = p /\ c_ch c = (-1)%Z /\ nth_error (cyclic_flags (r_parent r)) p = Some (c_circular c)
  | Synthesized p => c_type c = HalfRight /\ c_ph c = p /\ c_ch c = (-1)%Z /\ nth_error (cyclic_flags (r_parent r)) p = Some (c_circular c)
  | ChildVisit ch p => c_type c = Visit /\ c_ph c = p /\ c_ch c = Z.of_nat ch /\ exists phy, nth_error (r_children r) ch = Some (Some phy) /\ nth_error (cyclic_flags phy) p = Some (c_circular c)
  | Single i => c_type c = Local /\ c_ph c = 0 /\ c_ch c = 0%Z /\ (c_circular c = true <-> depends r i i)
  end.
(** a and b are the places of blocks one of which has to come before the other *)
Definition block_edge (r : rule) (bs : list block) (a b : nat) : Prop := exists ba bb, nth_error bs a = Some ba /\ nth_error bs b = Some bb /\ precedes r ba bb.
(** Some instance of ba is needed, directly, by one of bb. *)
Definition direct_need (r : rule) (ba bb : block) : Prop := exists j i k, in_block r j ba /\ in_block r i bb /\ needs r j i /\
  nth_error (r_kinds r) (j * length (r_insts r) + i) = Some k /\ N.land k DEPENDENCY_MAYBE_DIRECT <> 0%N.

(** ** C59 *)
Lemma clos_edge r bs a b : (forall a, a < length bs -> exists b, nth_error bs a = Some b) -> (forall b, In b bs <-> is_block r b) -> NoDup bs ->
  forall ba bb, nth_error bs a = Some ba -> nth_error bs b = Some bb -> (clos_trans nat (block_edge r bs) a b <-> clos_trans block (precedes r) ba bb).
Proof.
  intros Hlt Hin Nd ba bb Ea Eb. split.
  - intros C. revert ba bb Ea Eb. induction C as [a b (xa & xb & X1 & X2 & P)|a c b C1 IH1 C2 IH2]; intros ba bb Ea Eb; [apply t_step; congruence|]. assert (exists bc, nth_error bs c = Some bc) as (bc & Ec). { clear -C1. induction C1 as [a b (xa & xb & X1 & X2 & P)|]; eauto. } eapply t_trans; [apply (IH1 ba bc)|apply (IH2 bc bb)]; auto.
  - intros C. revert a b Ea Eb. induction C as [ba bb E|ba bc bb C1 IH1 C2 IH2]; intros a b Ea Eb; [apply t_step; exists ba, bb; auto|]. assert (Bc : is_block r bc). { clear -C1. induction C1 as [x y P|]; auto. now apply precedes_blocks in P. } apply Hin in Bc. apply In_nth_error in Bc. destruct Bc as (c & Ec). eapply t_trans; [apply (IH1 a c)|apply (IH2 c b)]; auto.
Qed.
Lemma clos_same (E E' : nat -> nat -> Prop) : (forall a b, E a b <-> clos_trans nat E' a b) -> forall a b, clos_refl_trans nat E a b <-> clos_refl_trans nat E' a b.
Proof.
  intros H a b. split.
  - induction 1 as [a b D|a|a c b _ IH1 _ IH2]; [|apply rt_refl|eapply rt_trans; eauto]. apply H in D. induction D as [a b D|a c b _ IH1 _ IH2]; [now apply rt_step|eapply rt_trans; eauto].
  - induction 1 as [a b D|a|a c b _ IH1 _ IH2]; [|apply rt_refl|eapply rt_trans; eauto]. apply rt_step, H. now apply t_step.
Qed.
Theorem C59_chunks : forall ps base size r, PropsUtil.reachable_sieve ps -> legal_rule r -> room r -> fits (chunk_count r) base size ->
  exists cg bs, collect_aug_graph_chunks ps base size r = Ok cg /\
    Forall2 (chunk_is r) (cg_chunks cg) bs /\ NoDup bs /\ (forall b, In b bs <-> is_block r b) /\
    (forall i s, instance r i s -> exists! a, exists c, nth_error (cg_chunks cg) a = Some c /\ In i (c_insts c)) /\
    (forall a b ba bb, nth_error bs a = Some ba -> nth_error bs b = Some bb -> exists k, nth_error (cg_graph cg) (a * length bs + b) = Some k /\
       (k <> no_dependency <-> clos_trans block (precedes r) ba bb) /\ (N.land k DEPENDENCY_MAYBE_DIRECT <> 0%N <-> direct_need r ba bb)) /\
    right_components (length bs) (block_edge r bs) (cg_comps cg).
Proof.
  intros ps base size r Hps Hl Hr Hf. destruct (chunk_graph_ok r Hl ps base size Hps Hr Hf) as (g & comps & E & T & Hg & Hd & R). exists (mkCG (chunk_list r) g comps), (map blk (chunk_list r)). cbn [cg_chunks cg_graph cg_comps]. rewrite !map_length.
  assert (C : forall c, is_chunk r c -> chunk_is r c (blk c)).
  { intros c Hc. unfold chunk_is. split; [|split].
    - destruct Hc; cbn [c_insts]; try apply NoDup_members. repeat constructor. intros [].
    - intros i. now apply blk_members.
    - pose proof (lr_flags r Hl) as Lf. destruct Hc as [p Hp|p Hp|c p Hp Hc|i Hi]; unfold blk; cbn [c_type c_ph c_ch c_circular c_insts hd].
      + ands; auto. unfold pflag. apply nth_error_nth'. lia.
      + ands; auto. unfold pflag. apply nth_error_nth'. lia.
      + rewrite Nat2Z.id. ands; auto. unfold phases_of in Hp. unfold cflag. destruct (nth_error (r_children r) c) as [[phy|]|] eqn:Ec; try lia. exists phy. split; auto. apply nth_error_nth'. pose proof (lr_child_flags r Hl phy (nth_error_In _ _ Ec)). lia.
      + ands; auto; unfold kflag; rewrite negb_true_iff, N.eqb_neq; apply in_locals in Hi; destruct Hi as (s & Es & _); assert (Li : i < length (r_insts r)) by (apply nth_error_Some; unfold instance in Es; congruence); apply (kind_depends r Hl i i Li Li). }
  ands; auto.
  - assert (G : forall l, (forall c, In c l -> is_chunk r c) -> Forall2 (chunk_is r) l (map blk l)). { induction l as [|c l IH]; intros H; cbn [map]; constructor; [apply C, H; now left|apply IH; intros; apply H; now right]. } apply G. apply in_chunk_list.
  - apply blocks_nodup.
  - intros b. apply in_bs.
  - intros i s Es. destruct (block_of r Hl i s Es) as (b & Hb & Hib). destruct (block_at r b Hb) as (a & Ea). destruct (bs_chunk r a b Ea) as (c & Ec & Eb & Ic). exists a. split.
    + exists c. split; auto. apply (blk_members r); auto. now rewrite Eb.
    + intros a' (c' & Ec' & Hi'). assert (Ic' : is_chunk r c') by (apply in_chunk_list; now apply nth_error_In in Ec'). apply (blk_members r) in Hi'; auto. assert (E' : blk c' = b) by (eapply block_unique; eauto). apply (bs_inj r a a' b); auto. rewrite nth_error_map, Ec'. cbn. congruence.
  - intros a b ba bb Ea Eb. pose proof (bs_lt r a ba Ea) as La. pose proof (bs_lt r b bb Eb) as Lb. exists (at_ (length (chunk_list r)) g a b). ands.
    + unfold at_. apply nth_error_nth'. destruct T as [L _]. rewrite L. now apply cell_lt.
    + rewrite <- (Hg a b ba bb Ea Eb). unfold nz. unfold no_dependency. tauto.
    + split. { intros H. destruct (bs_chunk r a ba Ea) as (ca & Ca & <- & Ia), (bs_chunk r b bb Eb) as (cb & Cb & <- & Ib). assert (D : direct (at_ (length (chunk_list r)) g a b) = true) by (unfold direct; apply negb_true_iff; now apply N.eqb_neq). rewrite (Hd a b ca cb Ca Cb), direct_cell in D by auto. destruct D as (j & i & Hj & Hi & Hn & K). exists j, i, (kind_of r j i). ands; auto.
      * pose proof Hn as [(_ & Lj & Li & _) _]. unfold kind_of. apply nth_error_nth'. destruct (lr_kinds r Hl) as [Lk _]. rewrite Lk. now apply cell_lt.
      * unfold direct in K. apply negb_true_iff in K. now apply N.eqb_neq. }
      intros (j & i & k & Hj & Hi & Hn & Ek & K). destruct (bs_chunk r a ba Ea) as (ca & Ca & <- & Ia), (bs_chunk r b bb Eb) as (cb & Cb & <- & Ib). assert (D : direct (cellK r ca cb) = true). { apply direct_cell; auto. exists j, i. ands; auto. unfold kind_of. rewrite (nth_error_nth _ _ _ Ek). unfold direct. apply negb_true_iff. now apply N.eqb_neq. } rewrite <- (Hd a b ca cb Ca Cb) in D. unfold direct in D. apply negb_true_iff in D. now apply N.eqb_neq.
  - assert (Hlt : forall a, a < length (map blk (chunk_list r)) -> exists b, nth_error (map blk (chunk_list r)) a = Some b) by (intros a Ha; rewrite map_length in Ha; now apply lt_bs).
    assert (Cl : forall a b, nz (length (chunk_list r)) g a b <-> clos_trans nat (block_edge r (map blk (chunk_list r))) a b).
    { intros a b. split.
      - intros H. pose proof H as (La & Lb & _). destruct (lt_bs r a La) as (ba & Ea), (lt_bs r b Lb) as (bb & Eb). apply (clos_edge r _ a b Hlt (in_bs r) (blocks_nodup r) ba bb Ea Eb). now apply (Hg a b).
      - intros H. assert (exists ba bb, nth_error (map blk (chunk_list r)) a = Some ba /\ nth_error (map blk (chunk_list r)) b = Some bb) as (ba & bb & Ea & Eb). { clear -H. induction H as [a b (ba & bb & X1 & X2 & _)|a c b _ (ba & _ & X1 & _) _ (_ & bb & _ & X2)]; eauto. } apply (Hg a b ba bb Ea Eb). now apply (clos_edge r _ a b Hlt (in_bs r) (blocks_nodup r) ba bb Ea Eb). }
    destruct R as (R1 & R2 & R3 & R4). unfold right_components. ands; auto.
    + intros i j Hi Hj. rewrite (R3 i j Hi Hj). now rewrite !(clos_same _ _ Cl).
    + intros a b ca cb i j Ea Eb Hi Hj He. apply (R4 a b ca cb i j); auto. apply Cl. now apply t_step.
Qed.
(** The array of chunks is written without a bound: it overflows exactly when there are more
    than ten chunks per instance. *)
Theorem C59_overflow : forall ps base size r, legal_rule r -> ~ room r -> collect_aug_graph_chunks ps base size r = UB.
Proof.
  intros ps base size r Hl Hr. unfold collect_aug_graph_chunks. rewrite collect_ok by auto. unfold room in Hr. rewrite (proj2 (Nat.leb_gt _ _)) by lia. reflexivity.
Qed.
(** Example: a visit with one attribute and nine children that are visited once. *)
Definition wide_rule : rule := mkRule [mkSinst (1, -1)%Z (mkCond 0 0) None] [0%N] (mkPhy 1 [false; false]) (repeat (Some (mkPhy 1 [false; false])) 9).
Lemma wide_legal : legal_rule wide_rule.
Proof.
  constructor.
  - split; [reflexivity|]. intros k [<-|[]]. vm_compute. discriminate.
  - intros [|i] s Es; [|destruct i; discriminate]. injection Es as <-. right. left. exists 1. cbn. split; [lia|auto].
  - cbn. lia.
  - intros ph H. cbn in H. repeat (destruct H as [H|H]; [injection H as <-; cbn; lia|]). destruct H.
Qed.
Theorem C59_refuted : exists ps base size r, PropsUtil.reachable_sieve ps /\ legal_rule r /\ fits (chunk_count r) base size /\ collect_aug_graph_chunks ps base size r = UB.
Proof.
  exists PrimeModel.primes_init, 4096%Z, 64%Z, wide_rule. split; [apply PropsUtil.C02_example|]. split; [apply wide_legal|]. split; [unfold fits; change (chunk_count wide_rule) with 11; lia|]. apply C59_overflow; [apply wide_legal|]. unfold room. change (chunk_count wide_rule) with 11. cbn. lia.
Qed.
(** Example: a parent with an inherited and a synthesized attribute, a child with both, a
    local test, and the child's inherited attribute depends on it. *)
Definition small_rule : rule := mkRule
  [mkSinst (-1, -1)%Z (mkCond 0 0) None; mkSinst (1, -1)%Z (mkCond 0 0) None; mkSinst (0, 0)%Z (mkCond 0 0) (Some 0); mkSinst (-1, 0)%Z (mkCond 1 0) None; mkSinst (1, 0)%Z (mkCond 0 0) None]
  [0; 0; 31; 0; 0;  0; 0; 0; 0; 0;  0; 0; 0; 31; 0;  0; 0; 0; 0; 31;  0; 31; 0; 0; 0]%N
  (mkPhy 1 [false; false]) [Some (mkPhy 1 [false; false])].
Lemma small_legal : legal_rule small_rule.
Proof.
  constructor.
  - split; [reflexivity|]. intros k Hk. cbn in Hk. repeat (destruct Hk as [<-|Hk]; [vm_compute; discriminate|]). destruct Hk.
  - intros i s Es. unfold instance in Es. apply nth_error_In in Es. cbn in Es. unfold legal_group. repeat (destruct Es as [<-|Es]; [cbn [si_group]; first [now left|right; left; exists 1; cbn; split; [lia|first [now left|now right]]|right; right; exists 0, 1; cbn; split; [lia|first [now left|now right]]]|]). destruct Es.
  - cbn. lia.
  - intros ph [H|[]]. injection H as <-. cbn. lia.
Qed.
Example C59_example : PropsUtil.reachable_sieve PrimeModel.primes_init /\ legal_rule small_rule /\ room small_rule /\ fits (chunk_count small_rule) 4096 64.
Proof.
  split; [apply PropsUtil.C02_example|]. split; [apply small_legal|]. unfold room, fits. change (chunk_count small_rule) with 4. cbn [length r_insts small_rule]. lia.
Qed.

Print Assumptions C59_chunks.
Print Assumptions C59_overflow.
Print Assumptions C59_refuted.
