(** * SchedProofs: what the scheduler builds for rules without cycles. *)
From Coq Require Import Relations Permutation.
From Verif Require Import Base CondModel EdgeModel DncModel CycleModel OagModel ComponentModel PropsCond PropsOag PropsCto PropsComponent ChunkModel OrderModel SchedSpec ChunkProofs.
From Verif Require SccModel SccProofs PropsUtil.
Open Scope nat_scope.

(** ** Conditions *)
Definition tcond (cond : condition) (k : nat) : condition := mkCond (N.lor (positive cond) (N.shiftl 1 (N.of_nat k))) (negative cond).
Definition fcond (cond : condition) (k : nat) : condition := mkCond (N.ldiff (N.lor (positive cond) (N.shiftl 1 (N.of_nat k))) (N.shiftl 1 (N.of_nat k))) (N.lor (negative cond) (N.shiftl 1 (N.of_nat k))).
Lemma tcond_bits cond k b : mbit (tcond cond k) b <-> mbit cond b \/ b = N.of_nat k.
Proof. unfold mbit, tcond. cbn [positive negative]. rewrite N.lor_spec, orb_true_iff, cmask_spec. tauto. Qed.
Lemma fcond_pos cond k b : N.testbit (positive (fcond cond k)) b = true <-> N.testbit (positive cond) b = true /\ b <> N.of_nat k.
Proof.
  unfold fcond. cbn [positive]. rewrite N.ldiff_spec, N.lor_spec, andb_true_iff, orb_true_iff, negb_true_iff, cmask_spec. destruct (N.testbit (N.shiftl 1 (N.of_nat k)) b) eqn:E.
  - apply cmask_spec in E. intuition congruence.
  - assert (b <> N.of_nat k) by (intros Z; apply cmask_spec in Z; congruence). tauto.
Qed.
Lemma fcond_bits cond k b : mbit (fcond cond k) b <-> mbit cond b \/ b = N.of_nat k.
Proof. unfold mbit. rewrite fcond_pos. unfold fcond. cbn [negative]. rewrite N.lor_spec, orb_true_iff, cmask_spec. destruct (N.eq_dec b (N.of_nat k)); tauto. Qed.
Lemma tcond_meets o cond k : meets o (tcond cond k) <-> meets o cond /\ o (N.of_nat k) = true.
Proof.
  unfold meets, tcond. cbn [positive negative]. split.
  - intros H. split; [|apply (H (N.of_nat k)); rewrite N.lor_spec, orb_true_iff, cmask_spec; auto]. intros b. destruct (H b) as [P Q]. rewrite N.lor_spec, orb_true_iff in P. tauto.
  - intros [H E] b. destruct (H b) as [P Q]. rewrite N.lor_spec, orb_true_iff, cmask_spec. split; auto. intros [?| ->]; auto.
Qed.
Lemma fcond_meets o cond k : ~ mbit cond (N.of_nat k) -> meets o (fcond cond k) <-> meets o cond /\ o (N.of_nat k) = false.
Proof.
  intros Nb. unfold meets. setoid_rewrite fcond_pos. unfold fcond. cbn [negative]. setoid_rewrite N.lor_spec. setoid_rewrite orb_true_iff. setoid_rewrite cmask_spec. split.
  - intros H. split; [|apply (H (N.of_nat k)); auto]. intros b. destruct (H b) as [P Q]. split; [|auto]. intros B. apply P. split; auto. intros ->. apply Nb. now left.
  - intros [H E] b. destruct (H b) as [P Q]. split; [intros [B _]; auto|]. intros [?| ->]; auto.
Qed.
Lemma possible_agree o cond b v : meets o cond -> ~ mbit cond b -> meets (fun x => if N.eqb x b then v else o x) cond.
Proof. intros M Nb. eapply meets_agree; [exact M|]. intros x Hx. cbv beta. destruct (N.eqb_spec x b) as [->|]; auto. contradiction. Qed.

Lemma find_no {X} (f : X -> bool) l : (forall x, In x l -> f x = false) -> List.find f l = None.
Proof. induction l as [|x l IH]; intros H; cbn [List.find]; auto. rewrite H by now left. apply IH. intros; apply H; now right. Qed.
Lemma find_at {X} (f : X -> bool) l1 x l2 : (forall y, In y l1 -> f y = false) -> f x = true -> List.find f (l1 ++ x :: l2) = Some x.
Proof. intros H Hx. induction l1 as [|y l1 IH]; cbn [app List.find]; [now rewrite Hx|]. rewrite H by now left. apply IH. intros; apply H; now right. Qed.
Lemma find_filter {X} (f w : X -> bool) l : List.find (fun x => f x && w x) l = List.find f (filter w l).
Proof. induction l as [|x l IH]; cbn [List.find filter]; auto. destruct (w x); [|now rewrite andb_false_r]. rewrite andb_true_r. cbn [List.find]. destruct (f x); auto. Qed.

Lemma concat_index {X} (z : X) : forall cs y x c c', NoDup (concat cs) -> nth_error cs y = Some c -> nth_error cs x = Some c' -> In z c -> In z c' -> y = x.
Proof.
  induction cs as [|d cs IH]; intros [|y] [|x] c c' Nd Ey Ex Hc Hc'; cbn [nth_error] in *; try discriminate; auto.
  - exfalso. injection Ey as ->. cbn [concat] in Nd. apply in_split in Hc. destruct Hc as (l1 & l2 & ->). rewrite <- app_assoc in Nd. cbn [app] in Nd. apply NoDup_remove_2 in Nd. apply Nd. rewrite !in_app_iff. right. right. apply in_concat. exists c'. split; auto. now apply nth_error_In in Ex.
  - exfalso. injection Ex as ->. cbn [concat] in Nd. apply in_split in Hc'. destruct Hc' as (l1 & l2 & ->). rewrite <- app_assoc in Nd. cbn [app] in Nd. apply NoDup_remove_2 in Nd. apply Nd. rewrite !in_app_iff. right. right. apply in_concat. exists c. split; auto. now apply nth_error_In in Ey.
  - f_equal. apply (IH y x c c'); auto. clear -Nd. cbn [concat] in Nd. induction d as [|w d IHd]; cbn [app] in Nd; auto. inversion Nd; auto.
Qed.
(** ** The tree of a list of items *)
Record item := mkItem { it_inst : option nat; it_group : group; it_ph : nat; it_ck : nat }.
Section B.
Variable r : rule.
Definition icond (i : nat) : condition := match nth_error (r_insts r) i with Some s => si_cond s | None => mkCond 0 0 end.
Definition circ (ck : nat) : bool := match nth_error (chunk_list r) ck with Some c => c_circular c | None => false end.
Fixpoint build (items : list item) (cond : condition) (prev cnt : nat) : nat * cto :=
  match items with
  | [] => (cnt, Null)
  | it :: rest =>
    let a := S cnt in
    match it_inst it with
    | None => let '(c1, t) := build rest cond a a in (c1, Node a prev None (it_group it) (it_ph it) (it_ck it) (circ (it_ck it)) Null t)
    | Some i =>
      if impossible (merge_cond cond (icond i)) then build rest cond prev a else
      match test_of r i with
      | Some k => let '(c1, t) := build rest (tcond cond k) a a in let '(c2, f) := build rest (fcond cond k) a c1 in
                  (c2, Node a prev (Some i) (it_group it) (it_ph it) (it_ck it) (circ (it_ck it)) t f)
      | None => let '(c1, t) := build rest cond a a in (c1, Node a prev (Some i) (it_group it) (it_ph it) (it_ck it) (circ (it_ck it)) Null t)
      end
    end
  end.
Definition tests (items : list item) : list nat := flat_map (fun it => match it_inst it with Some i => match test_of r i with Some k => [k] | None => [] end | None => [] end) items.
Definition fresh (cond : condition) (items : list item) : Prop := impossible cond = false /\ NoDup (tests items) /\ forall k, In k (tests items) -> ~ mbit cond (N.of_nat k).
Lemma NoDup_app_r {X} (a b : list X) : NoDup (a ++ b) -> NoDup b.
Proof. induction a as [|x a IH]; cbn [app]; auto. intros H. inversion H; auto. Qed.
Lemma fresh_rest cond it rest : fresh cond (it :: rest) -> fresh cond rest.
Proof. intros (P & N & H). unfold fresh, tests in *. cbn [flat_map] in *. ands; auto; [now apply NoDup_app_r in N|]. intros k Hk. apply H. apply in_app_iff. auto. Qed.
Lemma fresh_test cond it rest i k : it_inst it = Some i -> test_of r i = Some k -> fresh cond (it :: rest) -> ~ mbit cond (N.of_nat k) /\ fresh (tcond cond k) rest /\ fresh (fcond cond k) rest.
Proof.
  intros Ei Ek (P & N & H). unfold fresh, tests in *. cbn [flat_map] in *. rewrite Ei, Ek in N, H. cbn [app] in N, H. inversion N as [|? ? N1 N2]; subst. assert (Nk : ~ mbit cond (N.of_nat k)) by (apply H; now left).
  apply impossible_sat in P. destruct P as (o & Mo). ands; auto.
  - apply impossible_sat. exists (fun x => if N.eqb x (N.of_nat k) then true else o x). apply tcond_meets. split; [now apply possible_agree|]. now rewrite N.eqb_refl.
  - intros k' Hk' B. apply tcond_bits in B. destruct B as [B|B]; [apply (H k'); auto; now right|]. apply Nat2N.inj in B. subst k'. contradiction.
  - apply impossible_sat. exists (fun x => if N.eqb x (N.of_nat k) then false else o x). apply fcond_meets; auto. split; [now apply possible_agree|]. now rewrite N.eqb_refl.
  - intros k' Hk' B. apply fcond_bits in B. destruct B as [B|B]; [apply (H k'); auto; now right|]. apply Nat2N.inj in B. subst k'. contradiction.
Qed.
End B.

Lemma max_rank_spec l : match max_rank l with Some x => exists k, nth_error l x = Some k /\ (0 < k)%N /\ forall k', In k' l -> (k' <= k)%N | None => forall k, In k l -> k = 0%N end.
Proof.
  unfold max_rank.
  assert (G : forall l pre m, match m with Some (x, k) => nth_error pre x = Some k /\ (0 < k)%N /\ forall k', In k' pre -> (k' <= k)%N | None => forall k, In k pre -> k = 0%N end ->
    let '(m', _) := fold_left (fun '(m, i) k => ((if N.ltb (match m with Some (_, b) => b | None => 0%N end) k then Some (i, k) else m), S i)) l (m, length pre) in
    match m' with Some (x, k) => nth_error (pre ++ l) x = Some k /\ (0 < k)%N /\ forall k', In k' (pre ++ l) -> (k' <= k)%N | None => forall k, In k (pre ++ l) -> k = 0%N end).
  { clear l. induction l as [|k l IH]; intros pre m0 H; cbn [fold_left]; [now rewrite app_nil_r|]. specialize (IH (pre ++ [k])). rewrite app_length in IH. cbn [length] in IH. rewrite Nat.add_1_r in IH. rewrite <- app_assoc in IH. cbn [app] in IH. apply IH. destruct m0 as [[x b]|].
    - destruct H as (H1 & H2 & H3). destruct (N.ltb_spec b k) as [Lt|Ge].
      + rewrite nth_error_app2, Nat.sub_diag by lia. cbn [nth_error]. ands; auto; try lia. intros k' Hk'. apply in_app_iff in Hk'. destruct Hk' as [Hk'|[<-|[]]]; [|lia]. specialize (H3 k' Hk'). lia.
      + ands; auto. * rewrite nth_error_app1; auto. apply nth_error_Some. congruence. * intros k' Hk'. apply in_app_iff in Hk'. destruct Hk' as [Hk'|[<-|[]]]; auto.
    - destruct (N.ltb_spec 0 k) as [Lt|Ge].
      + rewrite nth_error_app2, Nat.sub_diag by lia. cbn [nth_error]. ands; auto. intros k' Hk'. apply in_app_iff in Hk'. destruct Hk' as [Hk'|[<-|[]]]; [rewrite (H k' Hk')|]; lia.
      + intros k' Hk'. apply in_app_iff in Hk'. destruct Hk' as [Hk'|[<-|[]]]; auto. lia. }
  specialize (G l [] None (fun k H => False_ind _ H)). cbn [length app] in G. destruct (fold_left _ l (None, 0)) as [[[x k]|] i]; eauto.
Qed.

(** ** The scheduler, step by step *)
Section S.
Variables (r : rule) (ps : PrimeModel.primes) (base size : Z) (g : list N) (comps : list (list nat)).
Notation m := (length (chunk_list r)).
Notation n := (length (r_insts r)).
Notation cg := (mkCG (chunk_list r) g comps).
Notation bs := (map blk (chunk_list r)).
Notation sched := (sched ps base size r cg).
Definition yields (c : call) (ph : nat) (I C C' : list bool) (items : list item) : Prop :=
  exists F, forall f prev cond cnt, F <= f -> fresh r cond items ->
    sched f c prev cond ph (mkSst I C cnt) = let '(cnt', t) := build r items cond prev cnt in Ok (mkSst I C' cnt', t).
Hypothesis Hlegal : legal_rule r.
Lemma circ_at ck c : nth_error (chunk_list r) ck = Some c -> circ r ck = c_circular c.
Proof. intros E. unfold circ. now rewrite E. Qed.
(** finding the next instance *)
Lemma next_ok (I : list bool) gr : forall l, (forall i, In i l -> i < n) -> length I = n -> forall found,
  foldM (fun found i => match found with Some _ => Ok found | None => s <- rd (r_insts r) i ;; b <- rd I i ;; Ok (if negb b && group_eqb (si_group s) gr then Some i else None) end) l found =
  Ok (match found with Some x => Some x | None => List.find (fun i => negb (nth i I true) && match nth_error (r_insts r) i with Some s => group_eqb (si_group s) gr | None => false end) l end).
Proof.
  induction l as [|i l IH]; intros Hl L found; cbn [foldM List.find]; [now destruct found|]. assert (Hi : i < n) by (apply Hl; now left). assert (Hl' : forall i, In i l -> i < n) by (intros; apply Hl; now right). destruct found as [x|]; cbn [bind]; [now apply IH|].
  unfold rd. destruct (nth_error (r_insts r) i) as [s|] eqn:Es; [|apply nth_error_None in Es; lia]. rewrite (nth_error_nth' I true) by lia. cbn [bind]. rewrite IH by auto. destruct (negb (nth i I true) && group_eqb (si_group s) gr); auto.
Qed.
Definition gmem (gr : group) : list nat := members r (fun x => group_eqb x gr).
Lemma in_gmem gr i : In i (gmem gr) <-> exists s, instance r i s /\ si_group s = gr.
Proof. unfold gmem. rewrite in_members. split; intros (s & Es & H); exists s; (split; [exact Es|]); now apply group_eqb_spec. Qed.
Lemma gmem_lt gr i : In i (gmem gr) -> i < n.
Proof. rewrite in_gmem. intros (s & Es & _). apply nth_error_Some. unfold instance in Es. congruence. Qed.
Lemma next_found (I C : list bool) cnt gr : length I = n -> next_instance r (seq 0 n) gr (mkSst I C cnt) = Ok (List.find (fun i => negb (nth i I true)) (gmem gr)).
Proof.
  intros L. unfold next_instance. cbn [s_inst]. rewrite next_ok by (auto; intros i Hi; apply in_seq in Hi; lia). f_equal. unfold gmem, members. now rewrite <- find_filter.
Qed.
Lemma nthb_upd (I : list bool) i j b : i < length I -> nth j (upd I i b) true = if i =? j then b else nth j I true.
Proof.
  intros H. destruct (Nat.eqb_spec i j) as [->|Ne].
  - erewrite nth_error_nth; [reflexivity|]. now apply nth_error_upd_eq.
  - destruct (Nat.lt_ge_cases j (length I)) as [La|La].
    + erewrite nth_error_nth; [reflexivity|]. rewrite nth_error_upd_neq by auto. now apply nth_error_nth'.
    + rewrite !nth_overflow; auto. rewrite upd_length. auto.
Qed.
Lemma undo (I : list bool) i : i < length I -> nth i I true = false -> upd (upd I i true) i false = I.
Proof. intros Hi E. rewrite upd_upd. apply upd_same. rewrite (nth_error_nth' _ true) by auto. now rewrite E. Qed.
Lemma rd_chunk ck c : nth_error (chunk_list r) ck = Some c -> rd (cg_chunks cg) ck = Ok c.
Proof. intros E. cbn [cg_chunks]. unfold rd. now rewrite E. Qed.

Lemma indexof_ok ck c i : nth_error (chunk_list r) ck = Some c -> In i (c_insts c) -> chunk_indexof cg i = Ok ck.
Proof.
  intros Ec Hi. assert (Lk : ck < m) by (apply nth_error_Some; congruence). unfold chunk_indexof. cbn [cg_chunks].
  assert (Es : seq 0 m = seq 0 ck ++ ck :: seq (S ck) (m - S ck)) by (replace m with (ck + S (m - S ck)) at 1 by lia; rewrite seq_app; reflexivity).
  rewrite Es, find_at; auto.
  - intros a Ha. apply in_seq in Ha. destruct (nth_error (chunk_list r) a) as [c'|] eqn:Ec'; auto. apply not_true_iff_false. rewrite existsb_exists. intros (x & Hx & E). apply Nat.eqb_eq in E. subst x.
    assert (I1 : is_chunk r c) by (apply in_chunk_list; now apply nth_error_In in Ec). assert (I2 : is_chunk r c') by (apply in_chunk_list; now apply nth_error_In in Ec'). apply (blk_members r) in Hi, Hx; auto. assert (E : blk c' = blk c) by (eapply block_unique; eauto). assert (a = ck); [|lia]. apply (bs_inj r a ck (blk c)); rewrite nth_error_map; [rewrite Ec'|rewrite Ec]; cbn; congruence.
  - rewrite Ec. apply existsb_exists. exists i. split; auto. apply Nat.eqb_refl.
Qed.
(** *** group_schedule *)
Lemma Y_group_nil comp ck c gr ph (I C C1 : list bool) items : nth_error (chunk_list r) ck = Some c -> length I = n -> length C = m -> length C1 = m ->
  (forall i, In i (gmem gr) -> nth i I true = true) ->
  yields (EndOfGroup comp ck gr) ph I (upd C ck true) C1 items -> yields (Group comp ck gr) ph I C (upd C1 ck false) items.
Proof.
  intros Ec LI LC LC1 Hd (F & H). exists (S F). intros [|f] prev cond cnt Hf Hc; [lia|]. cbn [ChunkModel.sched]. unfold group_schedule. rewrite (proj1 Hc). rewrite (rd_chunk ck c Ec). cbn [bind].
  assert (Lk : ck < m) by (apply nth_error_Some; congruence).
  rewrite next_found by auto. rewrite find_no by (intros i Hi; now rewrite Hd).
  cbn [bind]. unfold set_chunk. cbn [s_chunk s_inst s_nodes]. rewrite wr_Ok by lia. cbn [bind]. rewrite H by (auto; lia). destruct (build r items cond prev cnt) as [cnt' t]. cbn [bind]. unfold set_chunk. cbn [s_chunk s_inst s_nodes]. rewrite wr_Ok by lia. reflexivity.
Qed.
Lemma Y_group_cons comp ck c gr ph (I C C1 : list bool) pre i post items : nth_error (chunk_list r) ck = Some c -> length I = n -> length C = m -> length C1 = m ->
  gmem gr = pre ++ i :: post -> (forall j, In j pre -> nth j I true = true) -> nth i I true = false -> In i (c_insts c) -> gr <> (0, 0)%Z -> test_of r i = None ->
  yields (Group comp ck gr) ph (upd I i true) (upd C ck true) C1 items -> yields (Group comp ck gr) ph I C (upd C1 ck false) (mkItem (Some i) gr ph ck :: items).
Proof.
  intros Ec LI LC LC1 Eg Hp Hi Hin Ng Nt (F & H). exists (S F). intros [|f] prev cond cnt Hf Hc; [lia|]. cbn [ChunkModel.sched]. unfold group_schedule. rewrite (proj1 Hc). rewrite (rd_chunk ck c Ec). cbn [bind].
  assert (Lk : ck < m) by (apply nth_error_Some; congruence). assert (Gi : In i (gmem gr)) by (rewrite Eg; apply in_app_iff; right; now left). pose proof (gmem_lt gr i Gi) as Li.
  rewrite next_found by auto. rewrite Eg, find_at by (try (intros y Hy; now rewrite Hp); now rewrite Hi). cbn [bind new_node s_nodes s_inst s_chunk]. unfold set_inst, set_chunk. cbn [s_chunk s_inst s_nodes]. rewrite wr_Ok by lia. cbn [bind s_chunk s_inst s_nodes]. rewrite (indexof_ok ck c i Ec Hin). cbn [bind]. rewrite wr_Ok by lia. cbn [bind].
  apply in_gmem in Gi. destruct Gi as (s & Es & Gs). unfold rd. rewrite Es. cbn [bind]. replace (group_is_local (si_group s)) with false by (symmetry; unfold group_is_local; apply not_true_iff_false; rewrite group_eqb_spec; congruence).
  pose proof (fresh_rest r cond _ _ Hc) as Hc'. cbn [build it_inst it_group it_ph it_ck]. unfold icond. rewrite Es, Nt. rewrite (circ_at ck c Ec). destruct (impossible (merge_cond cond (si_cond s))).
  - rewrite H by (auto; lia). destruct (build r items cond prev (S cnt)) as [cnt' t]. cbn [bind s_chunk s_inst s_nodes]. rewrite wr_Ok by lia. cbn [bind s_chunk s_inst s_nodes]. rewrite wr_Ok by (rewrite upd_length; lia). cbn [bind]. rewrite undo by (auto; lia). reflexivity.
  - rewrite H by (auto; lia). destruct (build r items cond (S cnt) (S cnt)) as [cnt' t]. cbn [bind s_chunk s_inst s_nodes]. rewrite wr_Ok by lia. cbn [bind s_chunk s_inst s_nodes]. rewrite wr_Ok by (rewrite upd_length; lia). cbn [bind]. rewrite undo by (auto; lia). reflexivity.
Qed.
(** *** local_chunk_schedule *)
Lemma Y_local_nil comp ck c i ph (I C C1 : list bool) items : nth_error (chunk_list r) ck = Some c -> c_insts c = [i] -> length I = n -> nth i I true = true -> i < n ->
  yields (EndOfGroup comp ck (0, 0)%Z) ph I C C1 items -> yields (LocalChunk comp ck (0, 0)%Z) ph I C C1 items.
Proof.
  intros Ec Ei LI Hi Li (F & H). exists (S F). intros [|f] prev cond cnt Hf Hc; [lia|]. cbn [ChunkModel.sched]. unfold local_chunk_schedule. rewrite (proj1 Hc). rewrite (rd_chunk ck c Ec). cbn [bind]. rewrite Ei. unfold next_instance. cbn [s_inst].
  rewrite next_ok by (auto; intros j [<-|[]]; auto). cbn [List.find]. rewrite Hi. cbn [negb andb bind]. apply H; auto. lia.
Qed.
Lemma Y_local_cons comp ck c i ph (I C : list bool) items : nth_error (chunk_list r) ck = Some c -> c_insts c = [i] -> length I = n -> length C = m -> In i (gmem (0, 0)%Z) -> nth i I true = false -> nth ck C true = false ->
  yields (LocalChunk comp ck (0, 0)%Z) ph (upd I i true) (upd C ck true) (upd C ck true) items -> yields (LocalChunk comp ck (0, 0)%Z) ph I C C (mkItem (Some i) (0, 0)%Z ph ck :: items).
Proof.
  intros Ec Ei LI LC Gi Hi Hk (F & H). exists (S F). intros [|f] prev cond cnt Hf Hc; [lia|]. cbn [ChunkModel.sched]. unfold local_chunk_schedule. rewrite (proj1 Hc). rewrite (rd_chunk ck c Ec). cbn [bind]. rewrite Ei. unfold next_instance. cbn [s_inst].
  assert (Lk : ck < m) by (apply nth_error_Some; congruence). pose proof (gmem_lt _ i Gi) as Li. assert (Hin : In i (c_insts c)) by (rewrite Ei; now left). apply in_gmem in Gi. destruct Gi as (s & Es & Gs).
  rewrite next_ok by (auto; intros j [<-|[]]; auto). cbn [List.find]. rewrite Hi, Es, Gs. cbn [negb andb group_eqb fst snd Z.eqb bind new_node s_nodes s_inst s_chunk]. unfold set_inst, set_chunk. cbn [s_chunk s_inst s_nodes]. rewrite wr_Ok by lia. cbn [bind s_chunk s_inst s_nodes]. rewrite (indexof_ok ck c i Ec Hin). cbn [bind]. rewrite wr_Ok by lia. cbn [bind].
  unfold rd. rewrite Es. cbn [bind]. rewrite Gs. cbn [group_is_local group_eqb fst snd Z.eqb andb negb].
  cbn [build it_inst it_group it_ph it_ck]. unfold icond. rewrite Es. rewrite (circ_at ck c Ec).
  assert (End : forall cnt' t, (' st <- (l <- wr (upd C ck true) ck false;; Ok (mkSst (upd I i true) l cnt'));; ' st <- (l <- wr (s_inst st) i false;; Ok (mkSst l (s_chunk st) (s_nodes st)));; Ok (st, t)) = (Ok (mkSst I C cnt', t) : res (sst * cto))).
  { intros cnt' t. rewrite wr_Ok by (rewrite upd_length; lia). cbn [bind s_chunk s_inst s_nodes]. rewrite wr_Ok by (rewrite upd_length; lia). cbn [bind s_chunk s_inst s_nodes]. rewrite !undo by (auto; lia). reflexivity. }
  destruct (impossible (merge_cond cond (si_cond s))).
  - pose proof (fresh_rest r cond _ _ Hc) as Hc'. rewrite H by (auto; lia). destruct (build r items cond prev (S cnt)) as [cnt' t]. cbn [bind s_chunk s_inst s_nodes]. apply End.
  - assert (Et : test_of r i = si_if s) by (unfold test_of; now rewrite Es). rewrite Et. destruct (si_if s) as [k|].
    + destruct (fresh_test r cond (mkItem (Some i) (0, 0)%Z ph ck) items i k eq_refl Et Hc) as (_ & F1 & F2). change (mkCond (N.lor (positive cond) (N.shiftl 1 (N.of_nat k))) (negative cond)) with (tcond cond k). rewrite H by (auto; lia). destruct (build r items (tcond cond k) (S cnt) (S cnt)) as [c1 t1]. cbn [bind]. change (mkCond (N.ldiff (N.lor (positive cond) (N.shiftl 1 (N.of_nat k))) (N.shiftl 1 (N.of_nat k))) (N.lor (negative cond) (N.shiftl 1 (N.of_nat k)))) with (fcond cond k). rewrite H by (auto; lia). destruct (build r items (fcond cond k) (S cnt) c1) as [c2 t2]. cbn [bind s_chunk s_inst s_nodes]. apply End.
    + pose proof (fresh_rest r cond _ _ Hc) as Hc'. rewrite H by (auto; lia). destruct (build r items cond (S cnt) (S cnt)) as [cnt' t]. cbn [bind s_chunk s_inst s_nodes]. apply End.
Qed.
(** *** schedule_transition_end_of_group *)
Lemma Y_end_child comp ck c ch p ph (I C C1 : list bool) items : nth_error (chunk_list r) ck = Some c -> 1 <= p -> ch < length (r_children r) ->
  yields (Group comp ck (Z.of_nat p, Z.of_nat ch)) ph I C C1 items -> yields (EndOfGroup comp ck (- Z.of_nat p, Z.of_nat ch)%Z) ph I C C1 (mkItem None (Z.of_nat p, Z.of_nat ch) ph ck :: items).
Proof.
  intros Ec Hp Hch (F & H). exists (S F). intros [|f] prev cond cnt Hf Hc; [lia|]. cbn [ChunkModel.sched]. unfold schedule_transition_end_of_group. cbn [fst snd]. rewrite (proj2 (Z.ltb_lt _ _)) by lia. rewrite (proj2 (Z.eqb_neq _ _)) by lia. cbn [negb andb]. rewrite (rd_chunk ck c Ec). cbn [bind new_node s_nodes s_inst s_chunk].
  rewrite (proj2 (Z.ltb_ge _ _)) by lia. rewrite Nat2Z.id. unfold rd. destruct (nth_error (r_children r) ch) eqn:E; [|apply nth_error_None in E; lia]. cbn [bind]. rewrite Z.opp_involutive. pose proof (fresh_rest r cond _ _ Hc) as Hc'. rewrite H by (auto; lia). cbn [build it_inst it_group it_ph it_ck]. rewrite (circ_at ck c Ec). destruct (build r items cond (S cnt) (S cnt)) as [cnt' t]. reflexivity.
Qed.
Lemma Y_end_parent comp ck c p ph (I C C1 : list bool) items : nth_error (chunk_list r) ck = Some c -> 1 <= p ->
  yields VisitStart (S ph) I C C1 items -> yields (EndOfGroup comp ck (Z.of_nat p, -1)%Z) ph I C C1 (mkItem None (Z.of_nat p, -1)%Z ph ck :: items).
Proof.
  intros Ec Hp (F & H). exists (S F). intros [|f] prev cond cnt Hf Hc; [lia|]. cbn [ChunkModel.sched]. unfold schedule_transition_end_of_group. cbn [fst snd]. rewrite (proj2 (Z.ltb_ge (Z.of_nat p) 0)) by lia. rewrite (proj2 (Z.ltb_lt 0 (Z.of_nat p))) by lia. cbn [Z.eqb Pos.eqb andb negb]. rewrite (rd_chunk ck c Ec). cbn [bind new_node s_nodes s_inst s_chunk].
  pose proof (fresh_rest r cond _ _ Hc) as Hc'. rewrite H by (auto; lia). cbn [build it_inst it_group it_ph it_ck]. rewrite (circ_at ck c Ec). destruct (build r items cond (S cnt) (S cnt)) as [cnt' t]. reflexivity.
Qed.
Lemma Y_end_other comp ck gr ph (I C C1 : list bool) items : (fst gr < 0 -> snd gr = -1)%Z -> (0 < fst gr -> snd gr <> -1)%Z ->
  yields (ChunkSchedule comp) ph I C C1 items -> yields (EndOfGroup comp ck gr) ph I C C1 items.
Proof.
  intros H1 H2 (F & H). exists (S F). intros [|f] prev cond cnt Hf Hc; [lia|]. cbn [ChunkModel.sched]. unfold schedule_transition_end_of_group.
  assert (E1 : Z.ltb (fst gr) 0 && negb (Z.eqb (snd gr) (-1)) = false). { destruct (Z.ltb_spec (fst gr) 0) as [L|L]; auto. rewrite H1 by auto. reflexivity. }
  assert (E2 : Z.ltb 0 (fst gr) && Z.eqb (snd gr) (-1) = false). { destruct (Z.ltb_spec 0 (fst gr)) as [L|L]; auto. cbn [andb]. apply Z.eqb_neq. auto. }
  rewrite E1, E2. apply H; auto. lia.
Qed.

(** *** a whole chunk *)
Lemma Y_eq c ph (I C C1 C2 : list bool) items : C1 = C2 -> yields c ph I C C1 items -> yields c ph I C C2 items.
Proof. now intros ->. Qed.
Definition setall (I : list bool) (l : list nat) : list bool := fold_left (fun I i => upd I i true) l I.
Lemma setall_length l : forall I, length (setall I l) = length I.
Proof. induction l as [|i l IH]; intros I; cbn [setall fold_left]; auto. unfold setall in IH. rewrite IH. apply upd_length. Qed.
Lemma setall_nth l : forall I j, (forall i, In i l -> i < length I) -> nth j (setall I l) true = if existsb (Nat.eqb j) l then true else nth j I true.
Proof.
  induction l as [|i l IH]; intros I j Hl; cbn [setall fold_left existsb]; auto. fold (setall (upd I i true) l). rewrite IH by (intros; rewrite upd_length; apply Hl; now right). destruct (existsb (Nat.eqb j) l); [now rewrite orb_true_r|]. rewrite orb_false_r, nthb_upd by (apply Hl; now left). rewrite Nat.eqb_sym. reflexivity.
Qed.
Lemma bools_ext (I J : list bool) : length I = length J -> (forall j, nth j I true = nth j J true) -> I = J.
Proof. intros L H. apply nth_ext with true true; auto. Qed.
Definition inst_items (l : list nat) (gr : group) (ph ck : nat) : list item := map (fun i => mkItem (Some i) gr ph ck) l.
Lemma Y_group comp ck c gr ph (C1 : list bool) items : nth_error (chunk_list r) ck = Some c -> gr <> (0, 0)%Z -> (forall i, In i (gmem gr) -> In i (c_insts c) /\ test_of r i = None) -> length C1 = m ->
  forall post pre (I C : list bool), length I = n -> length C = m -> gmem gr = pre ++ post -> (forall j, In j pre -> nth j I true = true) -> (forall j, In j post -> nth j I true = false) ->
  yields (EndOfGroup comp ck gr) ph (setall I post) (upd C ck true) C1 items -> yields (Group comp ck gr) ph I C (upd C1 ck false) (inst_items post gr ph ck ++ items).
Proof.
  intros Ec Ng Hg L1. induction post as [|i post IH]; intros pre I C LI LC Eg Hp Hq HY.
  - cbn [inst_items map app]. rewrite app_nil_r in Eg. rewrite <- Eg in Hp. apply (Y_group_nil comp ck c); auto.
  - cbn [inst_items map app]. assert (Gi : In i (gmem gr)) by (rewrite Eg; apply in_app_iff; right; now left). pose proof (gmem_lt gr i Gi) as Li. replace (upd C1 ck false) with (upd (upd C1 ck false) ck false) by apply upd_upd. destruct (Hg i Gi) as [Hin Ht]. assert (Nd : NoDup (gmem gr)) by apply NoDup_members. rewrite Eg in Nd.
    apply (Y_group_cons comp ck c gr ph I C (upd C1 ck false) pre i post); auto; [now rewrite upd_length|apply Hq; now left|]. apply (IH (pre ++ [i])).
    + now rewrite upd_length.
    + now rewrite upd_length.
    + now rewrite <- app_assoc.
    + intros j Hj. rewrite nthb_upd by lia. destruct (Nat.eqb_spec i j); auto. apply in_app_iff in Hj. destruct Hj as [Hj|[->|[]]]; auto; congruence.
    + intros j Hj. rewrite nthb_upd by lia. destruct (Nat.eqb_spec i j) as [->|]; [|apply Hq; now right]. exfalso. apply NoDup_remove_2 in Nd. apply Nd. apply in_app_iff. auto.
    + rewrite upd_upd. exact HY.
Qed.
Definition chunk_items (ck ph : nat) (b : block) : list item :=
  match b with
  | Inherited p => inst_items (gmem (- Z.of_nat p, -1)%Z) (- Z.of_nat p, -1)%Z ph ck
  | Synthesized p => inst_items (gmem (Z.of_nat p, -1)%Z) (Z.of_nat p, -1)%Z ph ck ++ [mkItem None (Z.of_nat p, -1)%Z ph ck]
  | ChildVisit c p => inst_items (gmem (- Z.of_nat p, Z.of_nat c)%Z) (- Z.of_nat p, Z.of_nat c)%Z ph ck ++ [mkItem None (Z.of_nat p, Z.of_nat c) ph ck] ++ inst_items (gmem (Z.of_nat p, Z.of_nat c)) (Z.of_nat p, Z.of_nat c) ph ck
  | Single i => [mkItem (Some i) (0, 0)%Z ph ck]
  end.
Definition start_call (comp ck : nat) (b : block) : call :=
  match b with
  | Inherited p => Group comp ck (- Z.of_nat p, -1)%Z
  | Synthesized p => Group comp ck (Z.of_nat p, -1)%Z
  | ChildVisit c p => Group comp ck (- Z.of_nat p, Z.of_nat c)%Z
  | Single i => LocalChunk comp ck (0, 0)%Z
  end.
Hypothesis Htests : tests_ok r.
Lemma no_test gr i : gr <> (0, 0)%Z -> In i (gmem gr) -> test_of r i = None.
Proof. intros Ng Hi. apply in_gmem in Hi. destruct Hi as (s & Es & Gs). unfold test_of. rewrite Es. destruct (si_if s) as [k|] eqn:E; auto. exfalso. apply Ng. rewrite <- Gs. eapply tk_local; eauto. Qed.
Lemma Y_chunk comp ck c ph (I C : list bool) items : nth_error (chunk_list r) ck = Some c -> length I = n -> length C = m -> nth ck C true = false -> (forall i, In i (c_insts c) -> nth i I true = false) ->
  match blk c with
  | Synthesized _ => yields VisitStart (S ph) (setall I (c_insts c)) (upd C ck true) (upd C ck true) items
  | _ => yields (ChunkSchedule comp) ph (setall I (c_insts c)) (upd C ck true) (upd C ck true) items
  end -> yields (start_call comp ck (blk c)) ph I C C (chunk_items ck ph (blk c) ++ items).
Proof.
  intros Ec LI LC Hk Hi HY. assert (Lk : ck < m) by (apply nth_error_Some; congruence). assert (Ic : is_chunk r c) by (apply in_chunk_list; now apply nth_error_In in Ec).
  assert (Uk : upd (upd C ck true) ck false = C) by (apply undo; auto; lia). assert (L1 : length (upd C ck true) = m) by now rewrite upd_length. assert (Sk : upd C ck false = C) by (apply upd_same; rewrite (nth_error_nth' _ true) by lia; now rewrite Hk).
  assert (In_c : forall i, In i (c_insts c) <-> in_block r i (blk c)) by (intros i; now apply blk_members).
  destruct Ic as [p Hp|p Hp|ch p Hp Hch|i0 Hi0]; unfold blk in *; cbn [c_type c_ph c_ch c_insts hd start_call chunk_items] in *.
  - change (members r (fun g0 => group_eqb g0 (- Z.of_nat p, -1)%Z)) with (gmem (- Z.of_nat p, -1)%Z) in *. apply (Y_eq _ _ _ _ _ _ _ Uk). eapply Y_group with (pre := []); eauto.
    + intros E. injection E. lia.
    + intros i H. split; [exact H|]. apply (no_test (- Z.of_nat p, -1)%Z); auto. intros E. injection E. lia.
    + apply Y_end_other; cbn [fst snd]; auto. lia.
  - change (members r (fun g0 => group_eqb g0 (Z.of_nat p, -1)%Z)) with (gmem (Z.of_nat p, -1)%Z) in *. apply (Y_eq _ _ _ _ _ _ _ Uk). rewrite <- app_assoc. eapply Y_group with (pre := []); eauto.
    + intros E. injection E. lia.
    + intros i H. split; [exact H|]. apply (no_test (Z.of_nat p, -1)%Z); auto. intros E. injection E. lia.
    + cbn [app]. eapply Y_end_parent; eauto. lia.
  - rewrite Nat2Z.id in *. set (g1 := (- Z.of_nat p, Z.of_nat ch)%Z). set (g2 := (Z.of_nat p, Z.of_nat ch)). assert (N1 : g1 <> (0, 0)%Z) by (intros E; injection E; lia). assert (N2 : g2 <> (0, 0)%Z) by (intros E; injection E; lia).
    set (l := members r _) in *. assert (M1 : forall i, In i (gmem g1) -> In i l) by (intros i H; apply In_c; apply in_gmem in H; destruct H as (s & Es & Gs); exists s; split; [exact Es|split; [lia|now left]]). assert (M2 : forall i, In i (gmem g2) -> In i l) by (intros i H; apply In_c; apply in_gmem in H; destruct H as (s & Es & Gs); exists s; split; [exact Es|split; [lia|now right]]).
    assert (M3 : forall i, In i l -> In i (gmem g1) \/ In i (gmem g2)) by (intros i H; apply In_c in H; destruct H as (s & Es & _ & [Gs|Gs]); [left|right]; apply in_gmem; exists s; auto).
    assert (M4 : forall i, In i (gmem g1) -> ~ In i (gmem g2)). { intros i H1 H2. apply in_gmem in H1, H2. destruct H1 as (s & Es & Gs), H2 as (s' & Es' & Gs'). unfold instance in *. assert (g1 = g2) by congruence. unfold g1, g2 in H. injection H. lia. }
    assert (Ll : forall i, In i l -> i < length I) by (intros i H; destruct (M3 i H) as [H'|H']; rewrite LI; eapply gmem_lt; eauto).
    assert (Eset : setall (setall I (gmem g1)) (gmem g2) = setall I l). { apply bools_ext; [now rewrite !setall_length|]. intros j. rewrite !setall_nth by (try rewrite setall_length; auto). destruct (existsb (Nat.eqb j) l) eqn:El.
      - apply existsb_exists in El. destruct El as (x & Hx & E). apply Nat.eqb_eq in E. subst x. destruct (M3 j Hx) as [H|H]; [destruct (existsb (Nat.eqb j) (gmem g2)); auto|]; rewrite (proj2 (existsb_exists _ _)); auto; exists j; split; auto; apply Nat.eqb_refl.
      - assert (Nl : ~ In j l) by (intros H; rewrite (proj2 (existsb_exists _ _)) in El; [discriminate|exists j; split; auto; apply Nat.eqb_refl]).
        destruct (existsb (Nat.eqb j) (gmem g2)) eqn:E2; [apply existsb_exists in E2; destruct E2 as (x & Hx & E); apply Nat.eqb_eq in E; subst x; exfalso; auto|]. destruct (existsb (Nat.eqb j) (gmem g1)) eqn:E1; [apply existsb_exists in E1; destruct E1 as (x & Hx & E); apply Nat.eqb_eq in E; subst x; exfalso; auto|]. auto. }
    apply (Y_eq _ _ _ _ _ _ _ Sk). rewrite <- !app_assoc. eapply Y_group with (pre := []); eauto.
    + intros i H. split; [cbn [c_insts]; auto|]. now apply (no_test g1).
    + eapply Y_end_child; eauto; [lia|]. change (Z.of_nat p, Z.of_nat ch) with g2. apply (Y_eq _ _ _ _ _ _ _ Uk). eapply Y_group with (pre := []); eauto.
      * intros i H. split; [cbn [c_insts]; auto|]. now apply (no_test g2).
      * now rewrite setall_length.
      * intros j Hj. rewrite setall_nth by (intros; apply Ll; auto). destruct (existsb (Nat.eqb j) (gmem g1)) eqn:E1; [|apply Hi; auto]. apply existsb_exists in E1. destruct E1 as (x & Hx & E). apply Nat.eqb_eq in E. subst x. exfalso. eapply M4; eauto.
      * rewrite upd_upd, Eset. apply Y_end_other; cbn [fst snd g2]; auto; lia.
  - assert (Gi : In i0 (gmem (0, 0)%Z)) by (apply in_gmem; now apply in_locals in Hi0). assert (Hi1 : nth i0 I true = false) by (apply Hi; now left). assert (Li : i0 < n) by (eapply gmem_lt; eauto). refine (Y_local_cons comp ck _ i0 ph I C items Ec eq_refl LI LC Gi Hi1 Hk _). cbn [setall fold_left] in HY. refine (Y_local_nil comp ck _ i0 ph _ _ _ items Ec eq_refl _ _ Li _).
    + now rewrite upd_length.
    + rewrite nthb_upd by lia. now rewrite Nat.eqb_refl.
    + apply Y_end_other; cbn [fst snd]; auto; lia.
Qed.

(** *** choosing *)
Hypothesis Htable : table m g.
Hypothesis Hedge : forall a b ba bb, nth_error bs a = Some ba -> nth_error bs b = Some bb -> (nz m g a b <-> clos_trans block (precedes r) ba bb).
Hypothesis Hcomps : right_components m (nz m g) comps.
Hypothesis Hod : orderly r.
Lemma antisym a b : nz m g a b -> nz m g b a -> a = b.
Proof.
  intros H1 H2. pose proof H1 as (La & Lb & _). destruct (lt_bs r a La) as (ba & Ea), (lt_bs r b Lb) as (bb & Eb). apply (Hedge a b ba bb Ea Eb) in H1. apply (Hedge b a bb ba Eb Ea) in H2. assert (ba = bb) by (eapply od_acyclic; eauto). subst bb. eapply bs_inj; eauto.
Qed.
Lemma nz_trans a b c : nz m g a b -> nz m g b c -> nz m g a c.
Proof.
  intros H1 H2. pose proof H1 as (La & Lb & _). pose proof H2 as (_ & Lc & _). destruct (lt_bs r a La) as (ba & Ea), (lt_bs r b Lb) as (bb & Eb), (lt_bs r c Lc) as (bc & Ecc). apply (Hedge a c ba bc Ea Ecc). eapply t_trans; [apply (Hedge a b ba bb Ea Eb)|apply (Hedge b c bb bc Eb Ecc)]; auto.
Qed.
Lemma nz_reach a b : clos_refl_trans nat (nz m g) a b -> a = b \/ nz m g a b.
Proof. induction 1 as [a b H|a|a b c _ [->|IH1] _ [->|IH2]]; auto. right. eapply nz_trans; eauto. Qed.
Lemma comp_single c : In c comps -> exists a, c = [a] /\ a < m.
Proof.
  intros Hc. destruct Hcomps as (P & Ne & Sc & _). destruct c as [|a [|b c]]; [contradiction|exists a; split; auto|].
  - assert (H : In a (seq 0 m)) by (eapply Permutation_in; [exact P|]; apply in_concat; exists [a]; split; auto; now left). apply in_seq in H. lia.
  - exfalso. assert (L : forall x, In x (a :: b :: c) -> x < m). { intros x Hx. assert (H : In x (seq 0 m)) by (eapply Permutation_in; [exact P|]; apply in_concat; eauto). apply in_seq in H. lia. }
    assert (La : a < m) by (apply L; cbn; auto). assert (Lb : b < m) by (apply L; cbn; auto). destruct (proj1 (Sc a b La Lb)) as [R1 R2]; [exists (a :: b :: c); cbn; auto|]. assert (a = b) by (apply nz_reach in R1, R2; destruct R1 as [|R1], R2 as [|R2]; auto; now apply antisym). subst b.
    assert (Nd : NoDup (concat comps)) by (eapply Permutation_NoDup; [symmetry; exact P|apply seq_NoDup]). apply in_split in Hc. destruct Hc as (l1 & l2 & E). rewrite E, concat_app in Nd. apply NoDup_app_r in Nd. cbn [concat app] in Nd. inversion Nd as [|? ? H _]. apply H. now left.
Qed.
Lemma comp_of a : a < m -> exists x, nth_error comps x = Some [a].
Proof.
  intros La. destruct Hcomps as (P & _). assert (H : In a (concat comps)) by (eapply Permutation_in; [symmetry; exact P|]; apply in_seq; lia). apply in_concat in H. destruct H as (c & Hc & Ha). destruct (comp_single c Hc) as (a' & -> & _). destruct Ha as [->|[]]. now apply In_nth_error.
Qed.
Lemma comp_indexof a : a < m -> exists x, chunk_component_indexof cg a = Ok x /\ nth_error comps x = Some [a].
Proof.
  intros La. unfold chunk_component_indexof. cbn [cg_comps]. destruct (List.find _ (seq 0 (length comps))) as [x|] eqn:F.
  - apply find_some in F. destruct F as [_ H]. exists x. split; auto. destruct (nth_error comps x) as [c|] eqn:E; [|discriminate]. apply existsb_exists in H. destruct H as (y & Hy & Ey). apply Nat.eqb_eq in Ey. subst y. destruct (comp_single c (nth_error_In _ _ E)) as (a' & -> & _). now destruct Hy as [->|[]].
  - exfalso. destruct (comp_of a La) as (x & Ex). assert (Lx : x < length comps) by (apply nth_error_Some; congruence). apply (find_none _ _ F) with (x := x) in Lx || idtac. assert (Hx : In x (seq 0 (length comps))) by (apply in_seq; lia). apply (find_none _ _ F) in Hx. rewrite Ex in Hx. cbn [existsb] in Hx. rewrite Nat.eqb_refl in Hx. discriminate.
Qed.
Lemma flag_false ph : 1 <= ph <= last_phase r -> rd (cyclic_flags (r_parent r)) ph = Ok false.
Proof. intros H. pose proof (lr_flags r Hlegal). unfold rd. rewrite (nth_error_nth' _ false) by lia. f_equal. apply (od_flags r Hod). apply nth_In. lia. Qed.
Definition rank_of (a : nat) : N := match nth_error (chunk_list r) a with Some c => get_chunk_rank c | None => 0%N end.
Lemma rank_pos a c : nth_error (chunk_list r) a = Some c -> (0 < rank_of a)%N.
Proof. intros E. unfold rank_of. rewrite E. unfold get_chunk_rank. destruct (c_type c); lia. Qed.
Lemma Y_chunk_done comp ck c ph (I C C1 : list bool) items : nth_error (chunk_list r) ck = Some c -> nth_error comps comp = Some [ck] -> length C = m -> nth ck C true = true -> 1 <= ph <= last_phase r ->
  yields (ComponentSchedule comp) ph I C C1 items -> yields (ChunkSchedule comp) ph I C C1 items.
Proof.
  intros Ec Ex LC Hk Hph (F & H). exists (S F). intros [|f] prev cond cnt Hf Hc; [lia|]. cbn [ChunkModel.sched]. unfold chunk_schedule. cbn [cg_comps]. unfold rd at 1. rewrite Ex. cbn [bind foldM]. unfold chunk_rank. rewrite (rd_chunk ck c Ec). cbn [bind].
  assert (Lk : ck < m) by (apply nth_error_Some; congruence).
  assert (Pv : (if type_eqb (c_type c) Visit && negb (c_circular c) then rd (cyclic_flags (r_parent r)) ph else Ok false) = Ok false) by (destruct (_ && _); auto; now apply flag_false). rewrite Pv. cbn [bind s_chunk]. unfold rd. rewrite (nth_error_nth' C true) by lia. rewrite Hk. cbn [bind app max_rank fold_left N.ltb N.compare]. apply H; auto. lia.
Qed.
Lemma Y_chunk_go comp ck c ph (I C C1 : list bool) items : nth_error (chunk_list r) ck = Some c -> nth_error comps comp = Some [ck] -> length C = m -> length I = n -> nth ck C true = false -> (forall i, In i (c_insts c) -> nth i I true = false) -> 1 <= ph <= last_phase r ->
  yields (start_call comp ck (blk c)) ph I C C1 items -> yields (ChunkSchedule comp) ph I C C1 items.
Proof.
  intros Ec Ex LC LI Hk Hi Hph (F & H). exists (S F). intros [|f] prev cond cnt Hf Hc; [lia|]. cbn [ChunkModel.sched]. unfold chunk_schedule. cbn [cg_comps]. unfold rd at 1. rewrite Ex. cbn [bind foldM]. unfold chunk_rank. rewrite (rd_chunk ck c Ec). cbn [bind].
  assert (Lk : ck < m) by (apply nth_error_Some; congruence). assert (Ic : is_chunk r c) by (apply in_chunk_list; now apply nth_error_In in Ec).
  assert (Pv : (if type_eqb (c_type c) Visit && negb (c_circular c) then rd (cyclic_flags (r_parent r)) ph else Ok false) = Ok false) by (destruct (_ && _); auto; now apply flag_false). rewrite Pv. cbn [bind s_chunk]. unfold rd at 1. rewrite (nth_error_nth' C true) by lia. rewrite Hk. cbn [bind].
  assert (Rd : chunk_ready_to_go ps base size cg [ck] ck (mkSst I C cnt) = Ok true).
  { unfold chunk_ready_to_go. rewrite (rd_chunk ck c Ec). cbn [bind s_inst]. rewrite (existsM_ok _ (fun i => true)).
    - cbn [bind]. assert (Z : negb (length (c_insts c) =? 0) && negb (existsb (fun _ => true) (c_insts c)) = false) by (destruct (c_insts c); reflexivity). rewrite Z. cbn [existsM]. rewrite Nat.eqb_refl. reflexivity.
    - intros i H1. unfold rd. assert (Li : i < n) by (apply (blk_members r) in H1; auto; destruct H1 as (s & Es & _); apply nth_error_Some; unfold instance in Es; congruence). rewrite (nth_error_nth' I true) by lia. rewrite (Hi i H1). reflexivity. }
  rewrite Rd. cbn [bind app].
  assert (Mr : max_rank [get_chunk_rank c] = Some 0) by (unfold get_chunk_rank; destruct (c_type c); reflexivity). rewrite Mr. cbn [rd nth_error bind]. unfold group_schedule_chunk. rewrite (rd_chunk ck c Ec). cbn [bind].
  destruct Ic as [p Hp|p Hp|ch p Hp Hch|i0 Hi0]; unfold blk in H; cbn [c_type c_ph c_ch c_insts hd start_call] in *; try rewrite Nat2Z.id in H; apply H; auto; lia.
Qed.
(** the rank of a component *)
Definition readyb (D : nat -> bool) (a : nat) : bool := negb (D a) && forallb (fun b => (a =? b) || D b || N.eqb (at_ m g b a) no_dependency) (seq 0 m).
Lemma readyb_spec D a : a < m -> readyb D a = true <-> D a = false /\ forall b, b < m -> b <> a -> nz m g b a -> D b = true.
Proof.
  intros La. unfold readyb. rewrite andb_true_iff, negb_true_iff, forallb_forall. split; intros [H1 H2]; (split; [auto|]).
  - intros b Lb Nb (_ & _ & Hz). assert (Hin : In b (seq 0 m)) by (apply in_seq; lia). specialize (H2 b Hin). rewrite !orb_true_iff, Nat.eqb_eq, N.eqb_eq in H2. destruct H2 as [[H2|H2]|H2]; auto; congruence.
  - intros b Hin. apply in_seq in Hin. rewrite !orb_true_iff, Nat.eqb_eq, N.eqb_eq. destruct (Nat.eq_dec a b); auto. destruct (N.eq_dec (at_ m g b a) no_dependency); auto. left. right. apply H2; auto; [lia|]. unfold nz. ands; auto. lia.
Qed.
Definition crank (D : nat -> bool) (prev_comp x : nat) : N :=
  if prev_comp =? x then 0%N else match nth_error comps x with Some [a] => if readyb D a then rank_of a else 0%N | _ => 0%N end.
Definition state_of (D : nat -> bool) (I C : list bool) : Prop :=
  length I = n /\ length C = m /\ (forall a, a < m -> nth a C true = D a) /\ forall a c i, nth_error (chunk_list r) a = Some c -> In i (c_insts c) -> nth i I true = D a.
Lemma crank_ok D I C cnt prev_comp x : state_of D I C -> x < length comps -> component_rank cg prev_comp (mkSst I C cnt) x = Ok (crank D prev_comp x).
Proof.
  intros (LI & LC & HC & _) Lx. unfold component_rank, crank. destruct (prev_comp =? x); auto. cbn [cg_comps]. unfold rd at 1. destruct (nth_error comps x) as [c|] eqn:Ex; [|apply nth_error_None in Ex; lia]. destruct (comp_single c (nth_error_In _ _ Ex)) as (a & -> & La). cbn [bind].
  assert (Rd : chunk_component_ready_to_go cg [a] x (mkSst I C cnt) = Ok (readyb D a)).
  { unfold chunk_component_ready_to_go. cbn [existsM s_chunk cg_comps]. unfold rd at 1. rewrite (nth_error_nth' C true) by lia. rewrite HC by auto. cbn [bind]. unfold readyb. destruct (D a) eqn:Da; cbn [negb bind andb]; auto.
    set (fb := fun i => match nth_error comps i with Some [b] => negb ((a =? b) || D b || N.eqb (at_ m g b a) no_dependency) | _ => false end).
    rewrite (existsM_ok _ fb).
    - cbn [bind]. f_equal. apply eq_true_iff_eq. rewrite negb_true_iff, forallb_forall. split.
      + intros H b Hb. apply in_seq in Hb. destruct (comp_of b) as (y & Ey); [lia|]. assert (Ly : y < length comps) by (apply nth_error_Some; congruence). destruct ((a =? b) || D b || (at_ m g b a =? no_dependency)%N) eqn:Z; auto. exfalso. rewrite <- not_true_iff_false in H. apply H. apply existsb_exists. exists y. split; [apply in_seq; lia|]. unfold fb. now rewrite Ey, Z.
      + intros H. apply not_true_iff_false. rewrite existsb_exists. intros (y & Hy & Z). unfold fb in Z. destruct (nth_error comps y) as [cy|] eqn:Ey; [|discriminate]. destruct (comp_single cy (nth_error_In _ _ Ey)) as (b & -> & Lb). assert (Hin : In b (seq 0 m)) by (apply in_seq; lia). rewrite (H b Hin) in Z. discriminate.
    - intros y Hy. apply in_seq in Hy. unfold fb. destruct (Nat.eqb_spec y x) as [->|Nx]; [rewrite Ex, Nat.eqb_refl; reflexivity|]. unfold rd at 1. destruct (nth_error comps y) as [cy|] eqn:Ey; [|apply nth_error_None in Ey; lia]. destruct (comp_single cy (nth_error_In _ _ Ey)) as (b & -> & Lb). cbn [bind existsM]. unfold rd at 1. rewrite (nth_error_nth' C true) by lia. rewrite HC by auto. cbn [bind].
      assert (Nab : (a =? b) = false). { apply Nat.eqb_neq. intros ->. apply Nx. destruct Hcomps as (P & _). assert (Nd : NoDup (concat comps)) by (eapply Permutation_NoDup; [symmetry; exact P|apply seq_NoDup]). eapply (concat_index b comps y x [b] [b]); eauto; now left. }
      rewrite Nab. cbn [orb]. destruct (D b); cbn [orb negb]; auto. unfold kind_at. cbn [cg_graph cg_chunks]. rewrite rd_at by auto. cbn [bind]. destruct (negb _); auto. }
  rewrite Rd. cbn [bind]. destruct (readyb D a); auto. cbn [foldM]. unfold rank_of. destruct (nth_error (chunk_list r) a) as [c|] eqn:Ec; [|apply nth_error_None in Ec; lia]. rewrite (rd_chunk a c Ec). cbn [bind]. now rewrite N.lor_0_l.
Qed.
Lemma map_ok {X Y} (f : X -> res Y) (fb : X -> Y) : forall l acc, (forall x, In x l -> f x = Ok (fb x)) -> foldM (fun acc x => y <- f x ;; Ok (acc ++ [y])) l acc = Ok (acc ++ map fb l).
Proof. induction l as [|x l IH]; intros acc H; cbn [foldM map]; [now rewrite app_nil_r|]. rewrite H by now left. cbn [bind]. rewrite IH by (intros; apply H; now right). now rewrite <- app_assoc. Qed.
Definition pick (D : nat -> bool) (prev_comp : nat) : option nat := max_rank (map (crank D prev_comp) (seq 0 (length comps))).
Lemma Y_component D prev_comp x ph (I C C1 : list bool) items : state_of D I C -> pick D prev_comp = Some x -> yields (ChunkSchedule x) ph I C C1 items -> yields (ComponentSchedule prev_comp) ph I C C1 items.
Proof.
  intros Hst Hx (F & H). exists (S F). intros [|f] prev cond cnt Hf Hc; [lia|]. cbn [ChunkModel.sched]. unfold chunk_component_schedule. cbn [cg_comps]. rewrite (map_ok _ (crank D prev_comp)) by (intros y Hy; apply in_seq in Hy; apply crank_ok; auto; lia). cbn [bind app]. fold (pick D prev_comp). rewrite Hx. apply H; auto. lia.
Qed.

(** *** visits *)
Lemma Y_stop ph (I C : list bool) : last_phase r < ph -> yields VisitStart ph I C C [].
Proof. intros H. exists 1. intros [|f] prev cond cnt Hf Hc; [lia|]. cbn [ChunkModel.sched]. unfold schedule_visit_start. fold (last_phase r). now rewrite (proj2 (Nat.ltb_lt _ _)) by lia. Qed.
Lemma Y_start ph : 1 <= ph <= last_phase r -> exists a x c, nth_error (chunk_list r) a = Some c /\ blk c = Inherited ph /\ nth_error comps x = Some [a] /\
  forall I C C1 items, yields (start_call x a (blk c)) ph I C C1 items -> yields VisitStart ph I C C1 items.
Proof.
  intros Hph. assert (Hb : is_block r (Inherited ph)) by exact Hph. destruct (block_at r _ Hb) as (a & Ea). destruct (bs_chunk r a _ Ea) as (c & Ec & Eb & Ic). assert (La : a < m) by (apply nth_error_Some; congruence). destruct (comp_indexof a La) as (x & Ex & Cx). exists a, x, c. ands; auto.
  intros I C C1 items (F & H). exists (S F). intros [|f] prev cond cnt Hf Hc; [lia|]. cbn [ChunkModel.sched]. unfold schedule_visit_start. fold (last_phase r). rewrite (proj2 (Nat.ltb_ge _ _)) by lia.
  assert (Ef : find_chunk cg HalfLeft ph (-1) = Some a).
  { unfold find_chunk. cbn [cg_chunks]. assert (Es : seq 0 m = seq 0 a ++ a :: seq (S a) (m - S a)) by (replace m with (a + S (m - S a)) at 1 by lia; rewrite seq_app; reflexivity). rewrite Es. apply find_at.
    - intros b Hin. apply in_seq in Hin. destruct (nth_error (chunk_list r) b) as [c'|] eqn:Ec'; auto. apply not_true_iff_false. rewrite !andb_true_iff. intros [[T1 T2] _]. apply Nat.eqb_eq in T2. assert (blk c' = Inherited ph) by (unfold blk; destruct (c_type c'); try discriminate; congruence). assert (b = a); [|lia]. apply (bs_inj r b a (Inherited ph)); auto. rewrite nth_error_map, Ec'. cbn. congruence.
    - rewrite Ec. destruct Ic; unfold blk in Eb; cbn [c_type c_ph c_ch] in Eb; try discriminate. injection Eb as ->. cbn [c_type c_ph c_ch type_eqb]. now rewrite Nat.eqb_refl. }
  rewrite Ef, Ex. cbn [bind]. rewrite Eb in H. cbn [start_call] in H. apply H; auto. lia.
Qed.
(** *** the plan *)
Definition add (D : nat -> bool) (a b : nat) : bool := (b =? a) || D b.
Lemma state_add D a c I C : state_of D I C -> nth_error (chunk_list r) a = Some c -> state_of (add D a) (setall I (c_insts c)) (upd C a true).
Proof.
  intros (LI & LC & HC & HI) Ec. assert (La : a < m) by (apply nth_error_Some; congruence). assert (Lc : forall c' i, In c' (chunk_list r) -> In i (c_insts c') -> i < n). { intros c' i Hc Hi. apply (blk_members r) in Hi; [|now apply in_chunk_list]. destruct Hi as (s & Es & _). apply nth_error_Some. unfold instance in Es. congruence. }
  unfold state_of, add. rewrite setall_length, upd_length. ands; auto.
  - intros b Lb. rewrite nthb_upd by lia. rewrite Nat.eqb_sym. destruct (b =? a); auto. cbn [orb]. auto.
  - intros b c' i Eb Hi. rewrite setall_nth by (intros j Hj; rewrite LI; eapply Lc; eauto; eapply nth_error_In; eauto). destruct (Nat.eqb_spec b a) as [->|Ne]; cbn [orb].
    + assert (c' = c) by congruence. subst c'. rewrite (proj2 (existsb_exists _ _)); auto. exists i. split; auto. apply Nat.eqb_refl.
    + destruct (existsb (Nat.eqb i) (c_insts c)) eqn:E; [|eapply HI; eauto]. exfalso. apply existsb_exists in E. destruct E as (y & Hy & E). apply Nat.eqb_eq in E. subst y. apply Ne. apply (blk_members r) in Hi, Hy; try (apply in_chunk_list; eapply nth_error_In; eauto). assert (Z : blk c' = blk c) by (eapply block_unique; eauto). apply (bs_inj r b a (blk c)); rewrite nth_error_map; [rewrite Eb|rewrite Ec]; cbn; congruence.
Qed.
Lemma minimal (P : nat -> bool) a : a < m -> P a = true -> exists b, b < m /\ P b = true /\ forall d, P d = true -> nz m g d b -> d = b.
Proof.
  set (below := fun a => filter (fun d => P d && negb (d =? a) && negb (N.eqb (at_ m g d a) 0%N)) (seq 0 m)).
  assert (Hb : forall a d, a < m -> In d (below a) <-> P d = true /\ d <> a /\ nz m g d a). { intros x d Lx. unfold below, nz. rewrite filter_In, in_seq, !andb_true_iff, !negb_true_iff, Nat.eqb_neq, N.eqb_neq. split; [intros (H1 & (H2 & H3) & H4); ands; auto; lia|intros (H1 & H2 & H3 & H4 & H5); ands; auto; lia]. }
  assert (G : forall k a, length (below a) < k -> a < m -> P a = true -> exists b, b < m /\ P b = true /\ forall d, P d = true -> nz m g d b -> d = b).
  { induction k as [|k IH]; intros x Hk Lx Px; [lia|]. destruct (below x) as [|d l] eqn:E.
    - exists x. ands; auto. intros d Pd Nd. destruct (Nat.eq_dec d x); auto. exfalso. assert (H : In d (below x)) by (apply Hb; auto). rewrite E in H. destruct H.
    - assert (Hd : In d (below x)) by (rewrite E; now left). apply Hb in Hd; auto. destruct Hd as (Pd & Nd & Zd). pose proof Zd as (Ld & _ & _). apply (IH d); auto.
      assert (Sub : incl (d :: below d) (below x)). { intros e [<-|He]; [apply Hb; auto|]. apply Hb in He; auto. destruct He as (Pe & Ne & Ze). apply Hb; auto. ands; auto; [|eapply nz_trans; eauto]. intros ->. apply Ne. now apply antisym. }
      assert (Nn : NoDup (d :: below d)). { constructor; [|apply NoDup_filter, seq_NoDup]. intros H. apply Hb in H; auto. tauto. }
      apply NoDup_incl_length in Sub; auto. cbn [length] in Sub. rewrite E in Sub. cbn [length] in *. lia. }
  intros La Pa. apply (G (S (length (below a))) a); auto.
Qed.
Lemma inh_pred b q : clos_trans block (precedes r) b (Inherited q) -> b = Inherited q \/ exists q', q = S q' /\ 1 <= q' /\ clos_refl_trans block (precedes r) b (Synthesized q').
Proof.
  intros H. apply clos_trans_tn1 in H. remember (Inherited q) as z eqn:Ez. revert q Ez. induction H as [y P|y z P T IH]; intros q ->.
  - destruct (od_inh r Hod _ _ P) as [->|(q' & -> & H1 & R)]; [now left|right; eauto].
  - destruct (od_inh r Hod _ _ P) as [->|(q' & -> & H1 & R)]; [now apply IH|right]. exists q'. ands; auto. eapply rt_trans; [|exact R]. apply clos_tn1_trans in T. clear -T. induction T; [now apply rt_step|eapply rt_trans; eauto].
Qed.
Definition phase_inv (D : nat -> bool) (p : nat) : Prop := 1 <= p <= last_phase r /\
  (forall a q, nth_error bs a = Some (Inherited q) -> D a = (q <=? p)) /\ (forall a q, nth_error bs a = Some (Synthesized q) -> D a = (q <? p)).
Definition plan_items (L : list (nat * nat)) : list item := flat_map (fun '(a, q) => match nth_error bs a with Some b => chunk_items a q b | None => [] end) L.
Definition good_plan (D : nat -> bool) (L : list (nat * nat)) : Prop :=
  NoDup (map fst L) /\ (forall a, a < m -> (D a = false <-> In a (map fst L))) /\ (forall a, In a (map fst L) -> a < m) /\
  (forall l1 a l2 b, map fst L = l1 ++ a :: l2 -> nz m g b a -> b <> a -> D b = true \/ In b l1) /\
  exists L' a q, L = L' ++ [(a, q)] /\ nth_error bs a = Some (Synthesized (last_phase r)).
Lemma good_cons D a q L : a < m -> D a = false -> (forall b, nz m g b a -> b <> a -> D b = true) -> good_plan (add D a) L -> good_plan D ((a, q) :: L).
Proof.
  intros La Da Hp (N1 & N2 & N3 & N4 & L' & a' & q' & -> & Ea'). unfold good_plan. cbn [map fst].
  assert (Na : ~ In a (map fst (L' ++ [(a', q')]))). { intros H. assert (add D a a = false) by now apply N2. unfold add in H0. rewrite Nat.eqb_refl in H0. discriminate. }
  split; [constructor; auto|]. split; [|split; [|split]].
  - intros b Lb. split.
    + intros H. destruct (Nat.eq_dec a b) as [->|Ne]; [now left|right]. apply N2; auto. unfold add. rewrite H. apply orb_false_iff. split; auto. apply Nat.eqb_neq. auto.
    + intros [<-|H]; auto. apply N2 in H; auto. unfold add in H. apply orb_false_iff in H. tauto.
  - intros b [<-|H]; auto.
  - intros [|a1 l1] x l2 b E Z Nb; cbn [app] in E; injection E as -> E.
    + left. now apply Hp.
    + destruct (N4 l1 x l2 b E Z Nb) as [H|H]; [|right; now right]. unfold add in H. apply orb_true_iff in H. destruct H as [H|H]; [apply Nat.eqb_eq in H; subst b; right; now left|auto].
  - exists ((a, q) :: L'), a', q'. auto.
Qed.
Definition undone (D : nat -> bool) : nat := length (filter (fun a => negb (D a)) (seq 0 m)).
Lemma undone_add D a : a < m -> D a = false -> undone (add D a) < undone D.
Proof.
  intros La Da. unfold undone. assert (Sub : incl (a :: filter (fun b => negb (add D a b)) (seq 0 m)) (filter (fun b => negb (D b)) (seq 0 m))).
  { intros b [<-|H]; apply filter_In; [rewrite Da; split; auto; apply in_seq; lia|]. apply filter_In in H. destruct H as [H1 H2]. split; auto. unfold add in H2. rewrite negb_orb in H2. apply andb_true_iff in H2. tauto. }
  apply NoDup_incl_length in Sub; [exact Sub|]. constructor; [|apply NoDup_filter, seq_NoDup]. intros H. apply filter_In in H. destruct H as [_ H]. unfold add in H. now rewrite Nat.eqb_refl in H.
Qed.
Hypothesis Hafter : nothing_after r.
Lemma after_last b : clos_trans block (precedes r) (Synthesized (last_phase r)) b -> b = Synthesized (last_phase r).
Proof. intros H. apply clos_trans_t1n in H. remember (Synthesized (last_phase r)) as z eqn:Ez. induction H as [x y P|x y z P T IH]; subst; [now apply Hafter|]. apply Hafter in P. subst y. auto. Qed.
Lemma plan_exists : forall u D p x0 a0, undone D < u -> phase_inv D p -> nth_error comps x0 = Some [a0] -> D a0 = true ->
  exists L, good_plan D L /\ forall I C, state_of D I C -> yields (ComponentSchedule x0) p I C C (plan_items L).
Proof.
  induction u as [|u IH]; intros D p x0 a0 Hu (Hp & HL & HR) Hx0 Ha0; [lia|].
  assert (Hs : is_block r (Synthesized p)) by exact Hp. destruct (block_at r _ Hs) as (s & Es).
  assert (Ls : s < m) by (eapply bs_lt; eauto). assert (Ds : D s = false) by (rewrite (HR s p Es); apply Nat.ltb_irrefl).
  assert (Nd : NoDup (concat comps)) by (destruct Hcomps as (P & _); eapply Permutation_NoDup; [symmetry; exact P|apply seq_NoDup]).
  assert (Cr : forall a, a < m -> readyb D a = true -> exists x, In x (seq 0 (length comps)) /\ crank D x0 x = rank_of a).
  { intros a La Ra. destruct (comp_of a La) as (x & Ex). exists x. split; [apply in_seq; assert (x < length comps) by (apply nth_error_Some; congruence); lia|]. unfold crank. rewrite Ex, Ra. destruct (Nat.eqb_spec x0 x) as [->|]; auto. assert (a = a0) by congruence. subst a0. apply readyb_spec in Ra; auto. destruct Ra; congruence. }
  pose proof (max_rank_spec (map (crank D x0) (seq 0 (length comps)))) as Mx. fold (pick D x0) in Mx. destruct (pick D x0) as [x|] eqn:Px.
  2:{ exfalso. destruct (minimal (fun b => negb (D b)) s Ls) as (a & La & Pa & Ma); [now rewrite Ds|]. apply negb_true_iff in Pa. assert (Ra : readyb D a = true). { apply readyb_spec; auto. split; auto. intros b Lb Nb Z. destruct (D b) eqn:Db; auto. exfalso. apply Nb. apply Ma; auto. now rewrite Db. }
      destruct (Cr a La Ra) as (x & Hx & Ex). assert (Hz : rank_of a = 0%N) by (rewrite <- Ex; apply Mx; now apply in_map). destruct (nth_error (chunk_list r) a) as [c|] eqn:Ec; [|apply nth_error_None in Ec; lia]. pose proof (rank_pos a c Ec). lia. }
  destruct Mx as (k & Ek & Kp & Kmax). rewrite nth_error_map in Ek. destruct (nth_error (seq 0 (length comps)) x) as [x'|] eqn:Ex'; [|discriminate]. injection Ek as Ek.
  assert (x' = x). { assert (Lx : x < length (seq 0 (length comps))) by (apply nth_error_Some; congruence). rewrite seq_length in Lx. apply nth_error_nth with (d := 0) in Ex'. rewrite seq_nth in Ex' by auto. lia. } subst x'.
  unfold crank in Ek. destruct (Nat.eqb_spec x0 x) as [->|Nx]; [lia|]. destruct (nth_error comps x) as [cx|] eqn:Ex; [|lia]. destruct (comp_single cx (nth_error_In _ _ Ex)) as (a & -> & La). destruct (readyb D a) eqn:Ra; [|lia].
  pose proof (proj1 (readyb_spec D a La) Ra) as [Da Pa]. assert (Pa' : forall b, nz m g b a -> b <> a -> D b = true) by (intros b Z Nb; apply Pa; auto; apply Z).
  destruct (lt_bs r a La) as (ba & Eba). destruct (bs_chunk r a ba Eba) as (c & Ec & Eb & Ic).
  assert (Step : forall I C items, state_of D I C -> yields (start_call x a ba) p I C C items -> yields (ComponentSchedule x0) p I C C items).
  { intros I C items St Y. eapply Y_component; eauto. pose proof St as (LI & LC & HC & HI). refine (Y_chunk_go x a c p I C C items Ec Ex LC LI _ _ Hp _); [now rewrite HC|intros i Hi; rewrite (HI a c i Ec Hi); auto|now rewrite Eb]. }
  assert (Mid : match ba with Inherited _ | Synthesized _ => False | _ => True end -> exists L, good_plan D L /\ forall I C, state_of D I C -> yields (ComponentSchedule x0) p I C C (plan_items L)).
  { intros Tb. destruct (IH (add D a) p x a) as (L & GL & YL).
    - pose proof (undone_add D a La Da). lia.
    - split; [exact Hp|]. unfold add. split; intros b q Eq; (destruct (Nat.eqb_spec b a) as [->|]; [rewrite Eba in Eq; injection Eq as ->; destruct Tb|cbn [orb]; auto]).
    - exact Ex.
    - unfold add. now rewrite Nat.eqb_refl.
    - exists ((a, p) :: L). split; [apply good_cons; auto|]. intros I C St. apply Step; auto. cbn [plan_items flat_map]. rewrite Eba. fold (plan_items L). pose proof St as (LI & LC & HC & HI). rewrite <- Eb. apply Y_chunk; auto; [now rewrite HC|intros i Hi; rewrite (HI a c i Ec Hi); auto|]. pose proof (state_add D a c I C St Ec) as St'. rewrite Eb.
      assert (YC : yields (ChunkSchedule x) p (setall I (c_insts c)) (upd C a true) (upd C a true) (plan_items L)). { eapply Y_chunk_done; eauto; [now rewrite upd_length|rewrite nthb_upd by lia; now rewrite Nat.eqb_refl]. }
      destruct ba; auto; destruct Tb. }
  destruct ba as [q|q|ch q|i]; auto.
  - exfalso. pose proof (HL a q Eba) as Dq. rewrite Da in Dq. symmetry in Dq. apply Nat.leb_gt in Dq. destruct q as [|q]; [lia|]. assert (Bq : is_block r (Inherited (S q))) by (apply in_bs; now apply nth_error_In in Eba). cbn [is_block] in Bq. assert (Bs : is_block r (Synthesized q)) by (cbn [is_block]; lia). destruct (block_at r _ Bs) as (b & Eb').
    assert (Z : nz m g b a) by (apply (Hedge b a _ _ Eb' Eba); apply t_step; apply by_phases; lia). assert (Nb : b <> a) by (intros ->; congruence). specialize (Pa' b Z Nb). rewrite (HR b q Eb') in Pa'. apply Nat.ltb_lt in Pa'. lia.
  - pose proof (HR a q Eba) as Dq. rewrite Da in Dq. symmetry in Dq. apply Nat.ltb_ge in Dq. assert (Bq : is_block r (Synthesized q)) by (apply in_bs; now apply nth_error_In in Eba). cbn [is_block] in Bq. assert (q = p).
    { assert (Bi : is_block r (Inherited q)) by exact Bq. destruct (block_at r _ Bi) as (b & Eb'). assert (Z : nz m g b a) by (apply (Hedge b a _ _ Eb' Eba); apply t_step; now apply by_halves). assert (Nb : b <> a) by (intros ->; congruence). specialize (Pa' b Z Nb). rewrite (HL b q Eb') in Pa'. apply Nat.leb_le in Pa'. lia. }
    subst q. destruct (Nat.eq_dec p (last_phase r)) as [El|Nl].
    + exists [(a, p)]. split.
      * unfold good_plan. cbn [map fst]. split; [repeat constructor; intros []|]. split; [|split; [|split]].
        -- intros b Lb. split.
           ++ intros Db. destruct (Nat.eq_dec b a) as [->|Nb]; [now left|exfalso]. destruct (minimal (fun d => negb (D d) && negb (d =? a)) b Lb) as (d & Ld & Pd & Md); [rewrite Db; cbn; apply negb_true_iff; now apply Nat.eqb_neq|]. apply andb_true_iff in Pd. rewrite !negb_true_iff, Nat.eqb_neq in Pd. destruct Pd as [Dd Nda].
              destruct (lt_bs r d Ld) as (bd & Ebd).
              assert (Rd : readyb D d = true). { apply readyb_spec; auto. split; auto. intros e Le Ne Z. destruct (D e) eqn:De; auto. exfalso. destruct (Nat.eq_dec e a) as [->|Nea].
                - apply (Hedge a d _ _ Eba Ebd) in Z. rewrite El in Z. apply after_last in Z. apply Nda. apply (bs_inj r d a bd Ebd). rewrite Eba, Z, El. reflexivity.
                - apply Ne. apply Md; auto. rewrite De. cbn. apply negb_true_iff. now apply Nat.eqb_neq. }
              destruct (Cr d Ld Rd) as (y & Hy & Ey). assert (Rk : (rank_of d <= k)%N) by (rewrite <- Ey; apply Kmax; now apply in_map). destruct (bs_chunk r d bd Ebd) as (cd & Ecd & Ebd' & Icd). assert (K2 : k = 2%N). { rewrite <- Ek. unfold rank_of. rewrite Ec. unfold blk in Eb. unfold get_chunk_rank. destruct (c_type c); congruence || reflexivity. }
              unfold rank_of in Rk. rewrite Ecd in Rk. rewrite K2 in Rk. unfold get_chunk_rank in Rk. assert (Td : c_type cd = HalfRight) by (destruct (c_type cd); auto; lia). unfold blk in Ebd'. rewrite Td in Ebd'. subst bd. pose proof (HR d _ Ebd) as Dd'. rewrite Dd in Dd'. symmetry in Dd'. apply Nat.ltb_ge in Dd'. assert (Bd : is_block r (Synthesized (c_ph cd))) by (apply in_bs; now apply nth_error_In in Ebd). cbn [is_block] in Bd. apply Nda. apply (bs_inj r d a _ Ebd). rewrite Eba. f_equal. f_equal. lia.
           ++ intros [<-|[]]. auto.
        -- intros b [<-|[]]. auto.
        -- intros [|y l1] z l2 b E Z Nb; cbn [app] in E; injection E as -> E; [left; auto|destruct l1; discriminate].
        -- exists [], a, p. split; auto. now rewrite <- El.
      * intros I C St. apply Step; auto. cbn [plan_items flat_map]. rewrite Eba. pose proof St as (LI & LC & HC & HI). rewrite <- Eb. apply Y_chunk; auto; [now rewrite HC|intros i Hi; rewrite (HI a c i Ec Hi); auto|]. rewrite Eb. apply Y_stop. lia.
    + destruct (Y_start (S p)) as (a' & x' & c' & Ec' & Eb' & Ex2 & YS); [lia|]. assert (Eba' : nth_error bs a' = Some (Inherited (S p))) by (rewrite nth_error_map, Ec'; cbn; congruence). assert (La' : a' < m) by (eapply bs_lt; eauto). assert (Naa : a' <> a) by (intros ->; congruence). assert (Da' : D a' = false) by (rewrite (HL a' _ Eba'); apply Nat.leb_gt; lia).
      assert (Da1 : add D a a' = false) by (unfold add; rewrite Da'; apply orb_false_iff; split; auto; now apply Nat.eqb_neq).
      destruct (IH (add (add D a) a') (S p) x' a') as (L & GL & YL).
      * pose proof (undone_add D a La Da). pose proof (undone_add (add D a) a' La' Da1). lia.
      * split; [lia|]. unfold add. split; intros b q Eq.
        -- destruct (Nat.eqb_spec b a') as [->|N1]; cbn [orb]; [rewrite Eba' in Eq; injection Eq as <-; symmetry; apply Nat.leb_refl|]. destruct (Nat.eqb_spec b a) as [->|N2]; [congruence|]. cbn [orb]. rewrite (HL b q Eq). assert (q <> S p) by (intros ->; apply N1; eapply bs_inj; eauto). apply eq_true_iff_eq. rewrite !Nat.leb_le. lia.
        -- destruct (Nat.eqb_spec b a') as [->|N1]; [congruence|]. cbn [orb]. destruct (Nat.eqb_spec b a) as [->|N2]; cbn [orb]; [rewrite Eba in Eq; injection Eq as <-; symmetry; apply Nat.ltb_lt; lia|]. rewrite (HR b q Eq). assert (q <> p) by (intros ->; apply N2; eapply bs_inj; eauto). apply eq_true_iff_eq. rewrite !Nat.ltb_lt. lia.
      * exact Ex2.
      * unfold add. now rewrite Nat.eqb_refl.
      * exists ((a, p) :: (a', S p) :: L). split.
        -- apply good_cons; auto. apply good_cons; auto. intros b Z Nb. unfold add. pose proof Z as (Lb & _ & _). destruct (lt_bs r b Lb) as (bb & Ebb). apply (Hedge b a' _ _ Ebb Eba') in Z. apply inh_pred in Z. destruct Z as [->|(q' & E & _ & R)]; [exfalso; apply Nb; eapply bs_inj; eauto|]. injection E as <-. destruct (Nat.eqb_spec b a) as [->|Nba]; auto. cbn [orb]. apply Pa'; auto. apply (Hedge b a _ _ Ebb Eba). clear -R Nba Ebb Eba. assert (G : bb <> Synthesized p) by (intros ->; apply Nba; eapply bs_inj; eauto). apply clos_rt_rtn1 in R. inversion R as [E|y z P T]; subst; [congruence|]. apply clos_rtn1_rt in T. clear -P T. revert P. generalize (Synthesized p). induction T as [x y H|x|x y z T1 IH1 T2 IH2]; intros w P; [eapply t_trans; apply t_step; eauto|now apply t_step|]. assert (clos_trans block (precedes r) y w) by (apply IH2; auto). clear -T1 H. induction T1; [eapply t_trans; [apply t_step; eauto|auto]|auto|auto].
        -- intros I C St. apply Step; auto. cbn [plan_items flat_map]. rewrite Eba, Eba'. fold (plan_items L). pose proof St as (LI & LC & HC & HI). rewrite <- Eb. apply Y_chunk; auto; [now rewrite HC|intros i Hi; rewrite (HI a c i Ec Hi); auto|]. pose proof (state_add D a c I C St Ec) as St1. rewrite Eb. apply YS. rewrite <- Eb'. pose proof St1 as (LI1 & LC1 & HC1 & HI1). apply Y_chunk; auto; [now rewrite HC1|intros i Hi; rewrite (HI1 a' c' i Ec' Hi); auto|]. pose proof (state_add _ a' c' _ _ St1 Ec') as St2. rewrite Eb'.
           eapply Y_chunk_done; eauto; [now rewrite !upd_length|rewrite nthb_upd by lia; now rewrite Nat.eqb_refl|lia].
Qed.

Definition blkat (a : nat) : block := nth a bs (Single 0).
Lemma blkat_ok a : a < m -> nth_error bs a = Some (blkat a).
Proof. intros H. unfold blkat. apply nth_error_nth'. now rewrite map_length. Qed.
(** The scheduler's result: the tree of the items of all blocks, in an order that respects what has to come before what. *)
Lemma sched_plan : 1 <= last_phase r -> exists L : list (nat * nat * block),
  yields VisitStart 1 (repeat false n) (repeat false m) (repeat false m) (flat_map (fun '(a, q, b) => chunk_items a q b) L) /\
  NoDup (map snd L) /\ (forall b, In b (map snd L) <-> is_block r b) /\
  (forall b1 b2, clos_trans block (precedes r) b1 b2 -> b1 <> b2 -> before (map snd L) b1 b2) /\
  exists L', map snd L = L' ++ [Synthesized (last_phase r)].
Proof.
  intros Hl. destruct (Y_start 1) as (a & x & c & Ec & Eb & Ex & YS); [lia|]. assert (Eba : nth_error bs a = Some (Inherited 1)) by (rewrite nth_error_map, Ec; cbn; congruence). assert (La : a < m) by (eapply bs_lt; eauto).
  set (D0 := fun _ : nat => false). assert (St0 : state_of D0 (repeat false n) (repeat false m)).
  { unfold state_of. rewrite !repeat_length. ands; auto.
    - intros b Hb. rewrite (nth_indep _ true false) by (now rewrite repeat_length). apply nth_repeat.
    - intros b cb i Ecb Hi. assert (Li : i < n). { apply (blk_members r) in Hi; [|apply in_chunk_list; eapply nth_error_In; eauto]. destruct Hi as (s & Es & _). apply nth_error_Some. unfold instance in Es. congruence. } rewrite (nth_indep _ true false) by (now rewrite repeat_length). apply nth_repeat. }
  destruct (plan_exists (S (undone (add D0 a))) (add D0 a) 1 x a) as (L & GL & YL); auto.
  { split; [lia|]. unfold add, D0. split; intros b q Eq.
    - assert (Bq : is_block r (Inherited q)) by (apply in_bs; now apply nth_error_In in Eq). cbn [is_block] in Bq. rewrite orb_false_r. apply eq_true_iff_eq. rewrite Nat.eqb_eq, Nat.leb_le. split; [intros ->; rewrite Eba in Eq; injection Eq as <-; lia|]. intros Lq. assert (q = 1) by lia. subst q. eapply bs_inj; eauto.
    - assert (Bq : is_block r (Synthesized q)) by (apply in_bs; now apply nth_error_In in Eq). cbn [is_block] in Bq. rewrite orb_false_r. apply eq_true_iff_eq. rewrite Nat.eqb_eq, Nat.ltb_lt. split; [intros ->; congruence|lia]. }
  { unfold add. now rewrite Nat.eqb_refl. }
  assert (G : good_plan D0 ((a, 1) :: L)). { apply good_cons; auto. intros b Z Nb. exfalso. pose proof Z as (Lb & _ & _). destruct (lt_bs r b Lb) as (bb & Ebb). apply (Hedge b a _ _ Ebb Eba) in Z. apply inh_pred in Z. destruct Z as [->|(q' & E & Hq & _)]; [apply Nb; eapply bs_inj; eauto|]. injection E as <-. lia. }
  assert (Y : yields VisitStart 1 (repeat false n) (repeat false m) (repeat false m) (plan_items ((a, 1) :: L))).
  { apply YS. cbn [plan_items flat_map]. rewrite Eba. fold (plan_items L). rewrite <- Eb. pose proof St0 as (LI & LC & HC & HI). apply Y_chunk; auto; [now rewrite HC|intros i Hi; rewrite (HI a c i Ec Hi); auto|]. rewrite Eb. apply (Y_chunk_done x a c); auto; [now rewrite upd_length|rewrite nthb_upd by (rewrite LC; auto); now rewrite Nat.eqb_refl|]. apply YL. now apply (state_add D0 a c). }
  revert Y G. generalize ((a, 1) :: L). clear L GL YL. intros L Y (N1 & N2 & N3 & N4 & L' & a' & q' & EL & Ea').
  exists (map (fun '(a, q) => (a, q, blkat a)) L).
  assert (Ms : map snd (map (fun '(a, q) => (a, q, blkat a)) L) = map blkat (map fst L)) by (rewrite !map_map; apply map_ext; intros [y q]; reflexivity). rewrite Ms.
  split; [|split; [|split; [|split]]].
  - assert (Ei : flat_map (fun '(a, q, b) => chunk_items a q b) (map (fun '(a, q) => (a, q, blkat a)) L) = plan_items L); [|now rewrite Ei]. unfold plan_items. clear -N3. induction L as [|[y q] L IH]; cbn [map flat_map]; auto. rewrite IH by (intros z Hz; apply N3; now right). rewrite (blkat_ok y) by (apply N3; now left). reflexivity.
  - apply NoDup_nth_error. rewrite map_length. intros i j Li E. rewrite (nth_error_map blkat i (map fst L)), (nth_error_map blkat j (map fst L)) in E. destruct (nth_error (map fst L) i) as [y|] eqn:Ey; [|apply nth_error_None in Ey; lia]. destruct (nth_error (map fst L) j) as [z|] eqn:Ez; [|discriminate]. cbn in E. injection E as E. assert (y = z). { apply (bs_inj r y z (blkat y)); [|rewrite E]; apply blkat_ok; apply N3; eapply nth_error_In; eauto. } subst z. rewrite NoDup_nth_error in N1. apply N1; [exact Li|congruence].
  - intros b. split.
    + intros H. apply in_map_iff in H. destruct H as (y & <- & Hy). apply in_bs. eapply nth_error_In. apply blkat_ok. auto.
    + intros H. destruct (block_at r b H) as (y & Ey). apply in_map_iff. exists y. pose proof (bs_lt r y b Ey) as Ly. split; [pose proof (blkat_ok y Ly); congruence|]. apply N2; auto.
  - intros b1 b2 T Ne. assert (B12 : is_block r b1 /\ is_block r b2). { clear -T. induction T as [u v P|]; [now apply precedes_blocks in P|tauto]. } destruct B12 as [B1 B2]. destruct (block_at r b1 B1) as (y1 & E1), (block_at r b2 B2) as (y2 & E2). assert (Z : nz m g y1 y2) by (apply (Hedge y1 y2 b1 b2); auto). assert (Ny : y1 <> y2) by (intros ->; congruence). pose proof (bs_lt r y2 b2 E2) as Ly2. pose proof (bs_lt r y1 b1 E1) as Ly1. assert (H2 : In y2 (map fst L)) by (apply N2; auto). apply in_split in H2. destruct H2 as (l1 & l2 & El). destruct (N4 l1 y2 l2 y1 El Z Ny) as [H|H]; [discriminate H|]. apply in_split in H. destruct H as (l3 & l4 & ->). rewrite El. exists (map blkat l3), (map blkat l4), (map blkat l2). rewrite <- app_assoc. rewrite !map_app. cbn [map app]. pose proof (blkat_ok y1 Ly1). pose proof (blkat_ok y2 Ly2). replace (blkat y1) with b1 by congruence. replace (blkat y2) with b2 by congruence. reflexivity.
  - exists (map blkat (map fst L')). rewrite EL, !map_app. cbn [map fst]. pose proof (blkat_ok a' (bs_lt r a' _ Ea')). replace (blkat a') with (Synthesized (last_phase r)) by congruence. reflexivity.
Qed.
End S.
