(** * UpDownProofs: what the up/down construction does to one summary graph. *)
From Verif Require Import Base CondModel EdgeModel DncModel PropsCond EdgeGraph SummaryProofs CycleModel UpDownModel.
Open Scope nat_scope.

Definition insd (par : list (option nat)) (root start l : nat) : bool := is_set (nth (l + start) par None) root.
Lemma in_cycle_ok par root start l : l + start < length par -> in_cycle par (l + start) root = Ok (insd par root start l).
Proof. intros H. unfold in_cycle, insd. destruct (nth_error par (l + start)) as [q|] eqn:E; [|apply nth_error_None in E; lia]. rewrite (proj2 (rd_Ok _ _ _) E). cbn [bind]. now rewrite (nth_error_nth _ _ _ E). Qed.
Definition joinl (cls : nat -> bool) (n : nat) (f : nat -> N) : N := fold_left N.lor (map f (filter cls (seq 0 n))) 0%N.
Lemma join_bits_l l : forall a b, tb (fold_left N.lor l a) b = true <-> tb a b = true \/ exists x, In x l /\ tb x b = true.
Proof.
  induction l as [|x l IH]; intros a b; cbn [fold_left]; [split; [auto|intros [H|(x & [] & _)]; auto]|]. rewrite IH. unfold tb at 1. rewrite N.lor_spec, orb_true_iff. split.
  - intros [[H|H]|(y & Hy & H)]; auto; right; [exists x|exists y]; split; auto; [now left|now right].
  - intros [H|(y & [<-|Hy] & H)]; auto. right. eauto.
Qed.
Lemma joinl_bits cls n f b : tb (joinl cls n f) b = true <-> exists l, l < n /\ cls l = true /\ tb (f l) b = true.
Proof.
  unfold joinl. rewrite join_bits_l. split.
  - intros [H|(x & Hx & H)]; [unfold tb in H; rewrite N.bits_0 in H; discriminate|]. apply in_map_iff in Hx. destruct Hx as (l & <- & Hl). apply filter_In in Hl. destruct Hl as [Hl Hc]. apply in_seq in Hl. exists l. ands; auto. lia.
  - intros (l & Hl & Hc & H). right. exists (f l). split; auto. apply in_map, filter_In. split; auto. apply in_seq. lia.
Qed.
Lemma joinl_ext cls n f g : (forall l, l < n -> cls l = true -> f l = g l) -> joinl cls n f = joinl cls n g.
Proof. intros H. unfold joinl. f_equal. apply map_ext_in. intros l Hl. apply filter_In in Hl. destruct Hl as [Hl Hc]. apply in_seq in Hl. apply H; auto. lia. Qed.
Lemma filter_snoc {X} (f : X -> bool) l x : filter f (l ++ [x]) = filter f l ++ (if f x then [x] else []).
Proof. rewrite filter_app. cbn [filter]. destruct (f x); reflexivity. Qed.
Lemma seq_mid n done l rest : seq 0 n = done ++ l :: rest -> l < n /\ ~ In l done /\ forall x, In x done -> x < n.
Proof.
  intros El. assert (N : NoDup (seq 0 n)) by apply seq_NoDup. assert (Hi : forall x, In x (seq 0 n) -> x < n) by (intros x Hx; apply in_seq in Hx; lia). rewrite El in N, Hi. apply NoDup_remove in N. destruct N as [_ N]. ands.
  - apply Hi, in_or_app. right. now left.
  - intros H. apply N, in_or_app. now left.
  - intros x Hx. apply Hi, in_or_app. now left.
Qed.

Section Matrix.
Variables (par : list (option nat)) (root start n : nat) (direction : bool) (ups : list bool).
Hypothesis Hpar : forall l, l < n -> l + start < length par.
Hypothesis Hups : length ups = n.
Notation cls := (insd par root start).
Definition up (l : nat) : bool := nth l ups false.

Lemma in_ok l : l < n -> in_cycle par (l + start) root = Ok (cls l).
Proof. intros. now apply in_cycle_ok, Hpar. Qed.
Lemma up_ok l : l < n -> rd ups l = Ok (up l).
Proof. intros H. unfold up. apply rd_Ok. apply nth_error_nth'. lia. Qed.
Lemma join_ok cell mg f : (forall l, l < n -> cls l = true -> rd mg (cell l) = Ok (f l)) -> join_cycle par root start n cell mg = Ok (joinl cls n f).
Proof.
  intros H. unfold join_cycle.
  destruct (foldM_inv (fun acc l => b <- in_cycle par (l + start) root ;; if b : bool then v <- rd mg (cell l) ;; Ok (N.lor acc v) else Ok acc) (seq 0 n)
    (fun done acc => acc = fold_left N.lor (map f (filter cls done)) 0%N) no_dependency) as (r & E & R); auto.
  - intros done l rest acc El ->. destruct (seq_mid _ _ _ _ El) as (Hl & _). rewrite in_ok by auto. cbn [bind]. rewrite filter_snoc, map_app, fold_left_app. destruct (cls l) eqn:Ec.
    + rewrite H by auto. cbn [bind]. eexists. split; reflexivity.
    + eexists. split; reflexivity.
  - rewrite E, R. reflexivity.
Qed.
Lemma set_ok cell v x mg : (forall l, l < n -> cls l = true -> cell l < length mg) -> (forall l, l < n -> cls l = true -> v l = Ok (x l)) ->
  (forall l l', l < n -> l' < n -> cell l = cell l' -> l = l') ->
  exists mg', set_cycle par root start n cell v mg = Ok mg' /\ length mg' = length mg /\ (forall l, l < n -> cls l = true -> nth (cell l) mg' no_dependency = x l) /\
    forall q, (forall l, l < n -> cls l = true -> q <> cell l) -> nth q mg' no_dependency = nth q mg no_dependency.
Proof.
  intros Hc Hv Hi. unfold set_cycle.
  destruct (foldM_inv (fun mg l => b <- in_cycle par (l + start) root ;; if b : bool then x <- v l ;; wr mg (cell l) x else Ok mg) (seq 0 n)
    (fun done mg' => length mg' = length mg /\ (forall l, In l done -> cls l = true -> nth (cell l) mg' no_dependency = x l) /\ forall q, (forall l, In l done -> cls l = true -> q <> cell l) -> nth q mg' no_dependency = nth q mg no_dependency) mg) as (r & E & L & R1 & R2).
  - ands; auto. intros l [].
  - intros done l rest mg' El (L & R1 & R2). destruct (seq_mid _ _ _ _ El) as (Hl & Hn & Hd). rewrite in_ok by auto. cbn [bind]. destruct (cls l) eqn:Ec.
    + rewrite Hv by auto. cbn [bind]. rewrite wr_Ok by (rewrite L; auto). eexists. split; [reflexivity|]. rewrite upd_length. ands; auto.
      * intros l' Hl' Ec'. apply in_app_or in Hl'. rewrite nth_upd by (rewrite L; auto). destruct (Nat.eqb_spec (cell l) (cell l')) as [Heq|Hne].
        { assert (l' = l); [|now subst]. destruct Hl' as [Hl'|[Hl'|[]]]; auto. }
        { destruct Hl' as [Hl'|[Hl'|[]]]; [auto|]. subst l'. now exfalso. }
      * intros q Hq. rewrite nth_upd by (rewrite L; auto). destruct (Nat.eqb_spec (cell l) q) as [Heq|Hne].
        { exfalso. apply (Hq l); auto. apply in_or_app. right. now left. }
        { apply R2. intros l' Hl' Ec'. apply Hq; auto. apply in_or_app. now left. }
    + eexists. split; [reflexivity|]. ands; auto.
      * intros l' Hl' Ec'. apply in_app_or in Hl'. destruct Hl' as [Hl'|[Hl'|[]]]; [auto|]. subst l'. congruence.
      * intros q Hq. apply R2. intros l' Hl' Ec'. apply Hq; auto. apply in_or_app. now left.
  - exists r. ands; auto.
    + intros l Hl Ec. apply R1; auto. apply in_seq. lia.
    + intros q Hq. apply R2. intros l Hl Ec. apply in_seq in Hl. apply Hq; auto. lia.
Qed.

(** The matrix the construction aims at, and the row that writes each entry. *)
Definition target (M : nat -> nat -> N) (i j : nat) : N :=
  if cls i then if cls j then if direction && up i && negb (up j) then joinl cls n (M i) else no_dependency else joinl cls n (fun l => M l j)
  else if cls j then joinl cls n (M i) else M i j.
Definition owner (i j : nat) : nat := if cls j then i else j.
Lemma target_ext M M' i j : (forall i' j', i' < n -> j' < n -> owner i' j' = owner i j -> M i' j' = M' i' j') -> i < n -> j < n -> target M i j = target M' i j.
Proof.
  intros H Hi Hj. unfold target, owner in *. destruct (cls i) eqn:Ei, (cls j) eqn:Ej.
  - destruct (direction && up i && negb (up j)); auto. apply joinl_ext. intros l Hl Ec. apply H; auto. now rewrite Ec.
  - apply joinl_ext. intros l Hl Ec. apply H; auto. now rewrite Ej.
  - apply joinl_ext. intros l Hl Ec. apply H; auto. now rewrite Ec.
  - apply H; auto. now rewrite Ej.
Qed.
Lemma cell_lt (mg : list N) i j : length mg = n * n -> i < n -> j < n -> i * n + j < length mg.
Proof. intros ->. apply idx_lt. Qed.
Lemma rdc mg i j : length mg = n * n -> i < n -> j < n -> rd mg (i * n + j) = Ok (get mg n i j).
Proof. intros L Hi Hj. apply rd_Ok. apply nth_error_nth'. now apply cell_lt. Qed.
Lemma nz_join f : N.eqb (joinl cls n f) no_dependency = true -> forall l, l < n -> cls l = true -> f l = no_dependency.
Proof. intros H l Hl Hc. apply N.eqb_eq in H. apply N.bits_inj_0. intros b. destruct (N.testbit (f l) b) eqn:E; auto. assert (X : tb (joinl cls n f) b = true) by (apply joinl_bits; eauto). rewrite H in X. unfold tb, no_dependency in X. rewrite N.bits_0 in X. discriminate. Qed.

(** Joining the entries of a line at the cycle and writing the result back. *)
Lemma line_ok (cell : nat -> nat) mg f : (forall l, l < n -> cell l < length mg) -> (forall l l', l < n -> l' < n -> cell l = cell l' -> l = l') -> (forall l, l < n -> nth (cell l) mg no_dependency = f l) ->
  exists mg', (acc <- join_cycle par root start n cell mg ;; if negb (N.eqb acc no_dependency) then set_cycle par root start n cell (fun _ => Ok acc) mg else Ok mg) = Ok mg' /\
   length mg' = length mg /\ (forall l, l < n -> cls l = true -> nth (cell l) mg' no_dependency = joinl cls n f) /\ forall q, (forall l, l < n -> cls l = true -> q <> cell l) -> nth q mg' no_dependency = nth q mg no_dependency.
Proof.
  intros Hc Hi Hf. rewrite (join_ok cell mg f). 2:{ intros l Hl _. apply rd_Ok. rewrite <- Hf by auto. apply nth_error_nth'. auto. } cbn [bind].
  destruct (N.eqb (joinl cls n f) no_dependency) eqn:Z; cbn [negb].
  - exists mg. ands; auto. intros l Hl Ec. rewrite Hf by auto. rewrite (nz_join _ Z l Hl Ec). symmetry. now apply N.eqb_eq.
  - destruct (set_ok cell (fun _ => Ok (joinl cls n f)) (fun _ => joinl cls n f) mg) as (mg' & E & L & R1 & R2); auto. exists mg'. ands; auto.
Qed.
Lemma row_ok mg k : length mg = n * n -> k < n ->
  exists mg', up_down_phy_row direction par root start n ups mg k = Ok mg' /\ length mg' = n * n /\
    forall i j, i < n -> j < n -> get mg' n i j = if owner i j =? k then target (get mg n) i j else get mg n i j.
Proof.
  intros L Hk. unfold up_down_phy_row. rewrite in_ok by auto. cbn [bind].
  assert (Inj1 : forall l l', l < n -> l' < n -> k * n + l = k * n + l' -> l = l') by (intros; lia).
  assert (Inj2 : forall l l', l < n -> l' < n -> l * n + k = l' * n + k -> l = l') by (intros l l' ? ? ?; nia).
  assert (B1 : forall m, length m = n * n -> forall l, l < n -> k * n + l < length m) by (intros; apply cell_lt; auto).
  assert (B2 : forall m, length m = n * n -> forall l, l < n -> l * n + k < length m) by (intros; apply cell_lt; auto).
  destruct (cls k) eqn:Ek; cbn [negb].
  - rewrite up_ok by auto. cbn [bind]. unfold up_down_direction.
    assert (Main : exists mg', (if direction && (if direction then up k else negb (up k)) then acc <- join_cycle par root start n (fun l => k * n + l) mg ;; set_cycle par root start n (fun l => k * n + l) (fun l => upl <- rd ups l ;; Ok (if negb (N.eqb acc no_dependency) && (if direction then negb upl else negb (negb upl)) then acc else no_dependency)) mg
        else set_cycle par root start n (fun l => k * n + l) (fun _ => Ok no_dependency) mg) = Ok mg' /\ length mg' = length mg /\ (forall l, l < n -> cls l = true -> nth (k * n + l) mg' no_dependency = if direction && up k && negb (up l) then joinl cls n (get mg n k) else no_dependency) /\
        forall q, (forall l, l < n -> cls l = true -> q <> k * n + l) -> nth q mg' no_dependency = nth q mg no_dependency).
    { destruct direction; cbn [andb].
      - destruct (up k) eqn:Eu; cbn [andb].
        + rewrite (join_ok _ mg (get mg n k)). 2:{ intros l Hl _. now apply rdc. } cbn [bind].
          destruct (set_ok (fun l => k * n + l) (fun l => upl <- rd ups l ;; Ok (if negb (N.eqb (joinl cls n (get mg n k)) no_dependency) && negb upl then joinl cls n (get mg n k) else no_dependency)) (fun l => if negb (up l) then joinl cls n (get mg n k) else no_dependency) mg) as (mg' & E & R); auto.
          { intros l Hl _. rewrite up_ok by auto. cbn [bind]. f_equal. destruct (negb (up l)); rewrite ?andb_true_r, ?andb_false_r; auto. destruct (N.eqb_spec (joinl cls n (get mg n k)) no_dependency); auto. }
          exists mg'. ands; apply R || auto.
        + destruct (set_ok (fun l => k * n + l) (fun _ => Ok no_dependency) (fun _ => no_dependency) mg) as (mg' & E & R); auto. exists mg'. ands; apply R || auto.
      - destruct (set_ok (fun l => k * n + l) (fun _ => Ok no_dependency) (fun _ => no_dependency) mg) as (mg' & E & R); auto. exists mg'. ands; apply R || auto. }
    destruct Main as (mg' & E & L' & R1 & R2). exists mg'. ands; [exact E|congruence|]. intros i j Hi Hj. unfold get at 1. unfold owner.
    destruct (cls j) eqn:Ej.
    + destruct (Nat.eqb_spec i k) as [Heq|Hne].
      * subst i. rewrite R1 by auto. unfold target. now rewrite Ek, Ej.
      * rewrite R2; auto. intros l Hl Ec X. apply idx_inj in X; auto. tauto.
    + rewrite R2. 2:{ intros l Hl Ec X. apply idx_inj in X; auto. destruct X as [_ X]. subst. congruence. }
      destruct (Nat.eqb_spec j k) as [Heq|Hne]; auto. subst j. congruence.
  - assert (O1 : exists mg1, (acc <- join_cycle par root start n (fun l => k * n + l) mg ;; if negb (N.eqb acc no_dependency) then set_cycle par root start n (fun l => k * n + l) (fun _ => Ok acc) mg else Ok mg) = Ok mg1 /\
      length mg1 = length mg /\ (forall l, l < n -> cls l = true -> nth (k * n + l) mg1 no_dependency = joinl cls n (get mg n k)) /\ forall q, (forall l, l < n -> cls l = true -> q <> k * n + l) -> nth q mg1 no_dependency = nth q mg no_dependency) by (apply line_ok; auto).
    destruct O1 as (mg1 & E1 & L1 & R1 & R2).
    assert (O2 : exists mg2, (acc <- join_cycle par root start n (fun l => l * n + k) mg1 ;; if negb (N.eqb acc no_dependency) then set_cycle par root start n (fun l => l * n + k) (fun _ => Ok acc) mg1 else Ok mg1) = Ok mg2 /\
      length mg2 = length mg1 /\ (forall l, l < n -> cls l = true -> nth (l * n + k) mg2 no_dependency = joinl cls n (fun l => get mg1 n l k)) /\ forall q, (forall l, l < n -> cls l = true -> q <> l * n + k) -> nth q mg2 no_dependency = nth q mg1 no_dependency) by (apply line_ok; auto; apply B2; congruence).
    destruct O2 as (mg2 & E2 & L2 & R3 & R4).
    exists mg2. ands; [|congruence|].
    { destruct (join_cycle par root start n (fun l => k * n + l) mg) as [acc| | |]; cbn [bind] in E1; try discriminate. cbn [bind]. rewrite E1. cbn [bind]. exact E2. }
    intros i j Hi Hj. unfold get at 1. unfold owner, target. destruct (cls j) eqn:Ej.
    + rewrite R4. 2:{ intros l Hl Ec X. apply idx_inj in X; auto. destruct X as [_ X]. subst. congruence. } destruct (Nat.eqb_spec i k) as [Heq|Hne].
      * subst i. rewrite Ek. rewrite R1 by auto. reflexivity.
      * rewrite R2; auto. intros l Hl Ec X. apply idx_inj in X; auto. tauto.
    + destruct (Nat.eqb_spec j k) as [Heq|Hne].
      * subst j. destruct (cls i) eqn:Ei.
        { rewrite R3 by auto. apply joinl_ext. intros l Hl Ec. unfold get. apply R2. intros l' Hl' Ec' X. apply idx_inj in X; auto. destruct X as [-> _]. congruence. }
        { rewrite R4. 2:{ intros l Hl Ec X. apply idx_inj in X; auto. destruct X as [-> _]. congruence. } rewrite R2; auto. intros l Hl Ec X. apply idx_inj in X; auto. destruct X as [_ X]. subst. congruence. }
      * rewrite R4. 2:{ intros l Hl Ec X. apply idx_inj in X; auto. tauto. } rewrite R2; auto. intros l Hl Ec X. apply idx_inj in X; auto. destruct X as [_ X]. subst. congruence.
Qed.
Lemma phy_ok p : p_n p = n -> length (mingraph p) = n * n ->
  exists mg', up_down_phy direction par root start ups p = Ok (mkPhy (p_labels p) mg' (is_func p)) /\ length mg' = n * n /\ forall i j, i < n -> j < n -> get mg' n i j = target (get (mingraph p) n) i j.
Proof.
  intros Hn L. unfold up_down_phy. rewrite Hn.
  destruct (foldM_inv (up_down_phy_row direction par root start n ups) (seq 0 n)
    (fun done mg => length mg = n * n /\ forall i j, i < n -> j < n -> get mg n i j = if existsb (Nat.eqb (owner i j)) done then target (get (mingraph p) n) i j else get (mingraph p) n i j) (mingraph p)) as (mg' & E & L' & R).
  - split; auto.
  - intros done k rest mg El (Lm & R). destruct (seq_mid _ _ _ _ El) as (Hk & Hd & _). destruct (row_ok mg k Lm Hk) as (mg' & E & L' & R'). exists mg'. ands; auto.
    assert (Nk : existsb (Nat.eqb k) done = false). { destruct (existsb (Nat.eqb k) done) eqn:X; auto. apply existsb_exists in X. destruct X as (x & Hx & X). apply Nat.eqb_eq in X. now subst. }
    intros i j Hi Hj. rewrite R' by auto. rewrite existsb_app. cbn [existsb]. rewrite orb_false_r. destruct (Nat.eqb_spec (owner i j) k) as [Heq|Hne].
    + rewrite orb_true_r. apply target_ext; auto. intros i' j' Hi' Hj' Ho. rewrite R by auto. rewrite Ho, Heq, Nk. reflexivity.
    + rewrite orb_false_r. apply R; auto.
  - rewrite E. cbn [bind]. exists mg'. ands; auto. intros i j Hi Hj. rewrite R by auto.
    rewrite (proj2 (existsb_exists _ _)); auto. exists (owner i j). split; [|apply Nat.eqb_refl]. apply in_seq. unfold owner. destruct (cls j); lia.
Qed.
End Matrix.
