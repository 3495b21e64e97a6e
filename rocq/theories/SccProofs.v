(** * Kosaraju's algorithm on vertex indices *)
From Coq Require Import Permutation Relations.
From Verif Require Import Base PrimeModel HashTableModel SccModel.
Open Scope nat_scope.

(** ** Boolean arrays *)
Definition V (vis : list bool) (i : nat) : Prop := nth_error vis i = Some true.
Definition cf (vis : list bool) : nat := count_occ bool_dec vis false.

Lemma V_dec vis i : {V vis i} + {~ V vis i}.
Proof. unfold V. destruct (nth_error vis i) as [[]|]; auto; right; discriminate. Qed.

Lemma V_upd vis v i : v < length vis -> V (upd vis v true) i <-> i = v \/ V vis i.
Proof.
  intros H. unfold V. rewrite nth_error_upd. destruct (Nat.eqb_spec v i).
  - subst. apply Nat.ltb_lt in H. rewrite H. tauto.
  - split; [tauto|]. intros [->|]; tauto.
Qed.

Lemma cf_le vis : forall vis', length vis = length vis' -> (forall i, V vis i -> V vis' i) -> cf vis' <= cf vis.
Proof.
  unfold cf. induction vis as [|b vis IH]; intros [|b' vis'] HL HV; try discriminate; simpl; auto.
  assert (count_occ bool_dec vis' false <= count_occ bool_dec vis false).
  { apply IH; [simpl in HL; lia|]. intros i. apply (HV (S i)). }
  pose proof (HV 0) as H0. unfold V in H0. simpl in H0.
  destruct b, b'; simpl in *; repeat destruct (bool_dec _ _); try congruence; try lia.
  specialize (H0 eq_refl). discriminate.
Qed.

Lemma cf_upd vis : forall v, v < length vis -> ~ V vis v -> cf vis = S (cf (upd vis v true)).
Proof.
  unfold cf, V. induction vis as [|b vis IH]; intros [|v] HL HV; simpl in *; try lia.
  - destruct b; [congruence|]. simpl. reflexivity.
  - rewrite (IH v) by (auto; lia). destruct b; simpl; auto.
Qed.

Lemma cf_repeat n : cf (repeat false n) = n.
Proof. unfold cf. induction n; simpl; auto. Qed.
Lemma cf_bound vis : cf vis <= length vis.
Proof. unfold cf. induction vis as [|[] vis IH]; simpl; lia. Qed.

Lemma V_repeat n i : ~ V (repeat false n) i.
Proof. unfold V. rewrite nth_error_repeat. destruct (i <? n); discriminate. Qed.

Lemma rd_V vis i : i < length vis -> rd vis i = Ok (if V_dec vis i then true else false).
Proof.
  intros H. destruct (rd_inb vis i H) as [b E]. rewrite E. apply rd_Ok in E.
  destruct (V_dec vis i) as [v|v]; unfold V in v; [congruence|]. destruct b; congruence.
Qed.

Lemma V_lt vis i : V vis i -> i < length vis.
Proof. unfold V. intros H. apply nth_error_Some. congruence. Qed.

Section Size.
Variable n : nat.

Definition wfm (m : list bool) : Prop := length m = n * n.
Definition Em (m : list bool) (i j : nat) : Prop := i < n /\ j < n /\ V m (i * n + j).

Lemma idx_lt i j : i < n -> j < n -> i * n + j < n * n.
Proof. nia. Qed.
Lemma idx_inj i j i' j' : j < n -> j' < n -> i * n + j = i' * n + j' -> i = i' /\ j = j'.
Proof. intros H1 H2 H. apply (Nat.div_mod_unique n); auto. lia. Qed.

Lemma contains_edge_ok m i j : wfm m -> i < n -> j < n ->
  exists b : bool, contains_edge n m i j = Ok b /\ (b = true <-> Em m i j).
Proof.
  intros Hm Hi Hj. unfold contains_edge. rewrite rd_V by (rewrite Hm; apply idx_lt; auto).
  eexists. split; [reflexivity|]. unfold Em. destruct (V_dec _ _); split; intros; try tauto; try discriminate.
Qed.

Lemma add_edge_ok m i j : wfm m -> i < n -> j < n ->
  exists m', add_edge_internal n m i j = Ok m' /\ wfm m' /\
    (forall a b, Em m' a b <-> Em m a b \/ (a = i /\ b = j)).
Proof.
  intros Hm Hi Hj. unfold add_edge_internal. pose proof (idx_lt i j Hi Hj) as HL.
  rewrite wr_Ok by (rewrite Hm; auto). eexists. split; [reflexivity|]. split.
  - unfold wfm. now rewrite upd_length.
  - intros a b. unfold Em. split.
    + intros (Ha & Hb & Hv). apply V_upd in Hv; [|rewrite Hm; auto]. destruct Hv as [Hv|Hv]; auto.
      apply idx_inj in Hv; auto.
    + intros [(Ha & Hb & Hv)|[-> ->]]; ands; auto; (apply V_upd; [rewrite Hm; auto|]); auto.
Qed.

Lemma add_edge_cf m i j m' : wfm m -> i < n -> j < n -> ~ Em m i j -> add_edge_internal n m i j = Ok m' -> cf m' < cf m.
Proof.
  intros Hm Hi Hj HE. unfold add_edge_internal. pose proof (idx_lt i j Hi Hj) as HL.
  rewrite wr_Ok by (rewrite Hm; auto). intros E. inversion E; subst m'.
  rewrite (cf_upd m (i * n + j)); [lia|rewrite Hm; auto|]. intros H. apply HE. unfold Em; auto.
Qed.

(** ** Transitive closure *)
Lemma in_triples i j k : In (i, j, k) (triples n) <-> i < n /\ j < n /\ k < n.
Proof.
  unfold triples. rewrite in_flat_map. split.
  - intros (a & Ha & H). apply in_flat_map in H. destruct H as (b & Hb & H).
    apply in_map_iff in H. destruct H as (c & E & Hc). inversion E; subst.
    apply in_seq in Ha, Hb, Hc. lia.
  - intros (Hi & Hj & Hk). exists i. split; [apply in_seq; lia|]. apply in_flat_map.
    exists j. split; [apply in_seq; lia|]. apply in_map_iff. exists k. split; auto. apply in_seq; lia.
Qed.

Definition transitive_m (m : list bool) : Prop := forall i j k, Em m i j -> Em m j k -> Em m i k.

Lemma round_ok m : wfm m -> exists m' ch, closure_round n m = Ok (m', ch) /\ wfm m' /\
  (forall a b, Em m a b -> Em m' a b) /\ (forall a b, Em m' a b -> clos_trans nat (Em m) a b) /\
  (ch = false -> m' = m /\ transitive_m m) /\ (ch = true -> cf m' < cf m).
Proof.
  intros Hm. unfold closure_round.
  destruct (foldM_inv (fun s '(i, j, k) =>
           a <- contains_edge n (fst s) i j ;;
           if (a : bool) then
             b <- contains_edge n (fst s) j k ;;
             if (b : bool) then
               c <- contains_edge n (fst s) i k ;;
               if (c : bool) then Ok s
               else m' <- add_edge_internal n (fst s) i k ;; Ok (m', true)
             else Ok s
           else Ok s) (triples n)
     (fun done s => wfm (fst s) /\ (forall a b, Em m a b -> Em (fst s) a b) /\
        (forall a b, Em (fst s) a b -> clos_trans nat (Em m) a b) /\
        (snd s = false -> fst s = m /\ forall i j k, In (i, j, k) done -> Em m i j -> Em m j k -> Em m i k) /\
        (snd s = true -> cf (fst s) < cf m)) (m, false)) as ([m' ch] & E & H).
  - simpl. ands; auto. { intros. now apply t_step. } { intros _. split; auto. intros ? ? ? []. } discriminate.
  - intros done [[i j] k] rest [m1 ch1] El (H1 & H2 & H3 & H4 & H5). cbn [fst snd] in *.
    assert (Hin : In (i, j, k) (triples n)). { rewrite El. apply in_app_iff. simpl; auto. }
    apply in_triples in Hin. destruct Hin as (Hi & Hj & Hk).
    destruct (contains_edge_ok m1 i j) as (a & Ea & Ha); auto. rewrite Ea; cbn [bind].
    destruct (contains_edge_ok m1 j k) as (b & Eb & Hb); auto.
    destruct (contains_edge_ok m1 i k) as (c & Ec & Hc); auto.
    assert (Hskip : (ch1 = false -> Em m i j -> Em m j k -> Em m i k) ->
       exists b', Ok (m1, ch1) = Ok b' /\ wfm (fst b') /\ (forall a b, Em m a b -> Em (fst b') a b) /\
        (forall a b, Em (fst b') a b -> clos_trans nat (Em m) a b) /\
        (snd b' = false -> fst b' = m /\ forall i0 j0 k0, In (i0, j0, k0) (done ++ [(i, j, k)]) -> Em m i0 j0 -> Em m j0 k0 -> Em m i0 k0) /\
        (snd b' = true -> cf (fst b') < cf m)).
    { intros Hs. exists (m1, ch1). cbn [fst snd]. ands; auto. intros Hf. destruct (H4 Hf) as [H41 H42].
      split; auto. intros i0 j0 k0 Hin0. apply in_app_iff in Hin0. destruct Hin0 as [Hin0|[Hin0|[]]]; eauto.
      inversion Hin0; subst; auto. }
    destruct a; [|apply Hskip; intros Hf Hx _; destruct (H4 Hf) as [-> _]; apply Ha in Hx; discriminate].
    rewrite Eb; cbn [bind].
    destruct b; [|apply Hskip; intros Hf _ Hx; destruct (H4 Hf) as [-> _]; apply Hb in Hx; discriminate].
    rewrite Ec; cbn [bind].
    destruct c; [apply Hskip; intros Hf _ _; destruct (H4 Hf) as [-> _]; apply Hc; auto|].
    destruct (add_edge_ok m1 i k) as (m2 & E2 & W2 & Q2); auto. rewrite E2; cbn [bind].
    exists (m2, true). cbn [fst snd]. ands; auto.
    + intros x y Hxy. apply Q2. auto.
    + intros x y Hxy. apply Q2 in Hxy. destruct Hxy as [Hxy|[-> ->]]; auto.
      eapply t_trans; apply H3; [apply Ha; auto|apply Hb; auto].
    + discriminate.
    + intros _. assert (cf m2 < cf m1). { eapply add_edge_cf; [| | | |exact E2]; auto. intros Hx. apply Hc in Hx. discriminate. }
      assert (cf m1 <= cf m); [|lia]. destruct ch1; [specialize (H5 eq_refl); lia|]. destruct (H4 eq_refl) as [-> _]. lia.
  - cbn [fst snd] in H. destruct H as (H1 & H2 & H3 & H4 & H5).
    exists m', ch. ands; auto. intros Hf. destruct (H4 Hf) as [H41 H42]. split; auto.
    intros i j k Hij Hjk. eapply H42; eauto. apply in_triples. unfold Em in *. tauto.
Qed.

Lemma clos_trans_mono {A} (R Q : relation A) : (forall a b, R a b -> clos_trans A Q a b) ->
  forall a b, clos_trans A R a b -> clos_trans A Q a b.
Proof. intros H a b T. induction T; auto. eapply t_trans; eauto. Qed.

Lemma closure_loop_ok fuel : forall m, wfm m -> cf m < fuel ->
  exists m', closure_loop fuel n m = Ok m' /\ wfm m' /\ (forall i j, Em m' i j <-> clos_trans nat (Em m) i j).
Proof.
  induction fuel as [|fuel IH]; intros m Hm Hf; [lia|]. cbn [closure_loop].
  destruct (round_ok m Hm) as (m' & ch & E & H1 & H2 & H3 & H4 & H5). rewrite E; cbn [bind]. destruct ch.
  - specialize (H5 eq_refl). destruct (IH m' H1) as (m2 & E2 & W2 & Q2); [lia|].
    exists m2. ands; auto. intros i j. rewrite Q2. split; intros HT.
    + eapply clos_trans_mono; eauto.
    + eapply clos_trans_mono; [|exact HT]. intros. apply t_step. auto.
  - destruct (H4 eq_refl) as [-> HT]. exists m. ands; auto. intros i j. split; [apply t_step|].
    intros Hc. induction Hc; eauto.
Qed.

(** ** Adjacency lists *)
Definition adj_ok (adj : list (list nat)) (R : nat -> nat -> Prop) : Prop :=
  length adj = n /\ (forall i j, R i j -> i < n /\ j < n) /\
  forall i, i < n -> exists r, nth_error adj i = Some r /\ forall j, In j r <-> R i j.

Lemma collect_row_ok m i : wfm m -> i < n -> exists r, collect_row n m i = Ok r /\ forall j, In j r <-> Em m i j.
Proof.
  intros Hm Hi. unfold collect_row.
  destruct (foldM_inv (fun l j => b <- contains_edge n m i j ;; Ok (if (b : bool) then j :: l else l)) (seq 0 n)
     (fun done l => forall j, In j l <-> In j done /\ Em m i j) []) as (r & E & H).
  - intros j. simpl. tauto.
  - intros done x rest l El Hl. assert (x < n). { assert (In x (seq 0 n)) as Hx by (rewrite El; apply in_app_iff; simpl; auto). apply in_seq in Hx. lia. }
    destruct (contains_edge_ok m i x) as (b & Eb & Hb); auto. rewrite Eb; cbn [bind]. eexists. split; [reflexivity|].
    intros j. rewrite in_app_iff. simpl. destruct b; simpl; rewrite (Hl j).
    + assert (Em m i x) by (apply Hb; auto). split; [intros [->|]; tauto|]. intros [[|[->|[]]] ?]; tauto.
    + split; [tauto|]. intros [[|[->|[]]] Hx]; auto. apply Hb in Hx. discriminate.
  - exists r. split; auto. intros j. rewrite (H j), in_seq. unfold Em. lia || (split; [tauto|]; intros; ands; try tauto; lia).
Qed.

Lemma collect_neighbors_ok m : wfm m -> exists adj, collect_neighbors n m = Ok adj /\ adj_ok adj (Em m).
Proof.
  intros Hm. unfold collect_neighbors.
  destruct (foldM_inv (fun rows i => r <- collect_row n m i ;; Ok (rows ++ [r])) (seq 0 n)
     (fun done rows => length rows = length done /\ forall i, i < length done -> exists r, nth_error rows i = Some r /\ forall j, In j r <-> Em m i j) [])
    as (adj & E & HL & H).
  - simpl. split; auto. intros; lia.
  - intros done x rest rows El [HL Hr].
    assert (Hx : x = length done). { assert (nth_error (seq 0 n) (length done) = Some x) as Hn by (rewrite El, nth_error_app2, Nat.sub_diag by lia; auto).
      assert (length done < n). { rewrite <- (seq_length n 0), El, app_length. simpl. lia. }
      rewrite (nth_error_nth' _ 0) in Hn by (rewrite seq_length; lia). rewrite seq_nth in Hn by lia. inversion Hn. auto. }
    assert (x < n). { assert (In x (seq 0 n)) as Hi by (rewrite El; apply in_app_iff; simpl; auto). apply in_seq in Hi. lia. }
    destruct (collect_row_ok m x) as (r & Er & Hrr); auto. rewrite Er; cbn [bind]. eexists. split; [reflexivity|].
    rewrite !app_length. simpl. split; [lia|]. intros i Hi. destruct (Nat.eq_dec i (length done)) as [->|Hne].
    + exists r. rewrite nth_error_app2 by lia. rewrite HL, Nat.sub_diag. simpl. subst x. auto.
    + destruct (Hr i) as (r' & E1 & E2); [lia|]. exists r'. rewrite nth_error_app1; auto. apply nth_error_Some. congruence.
  - rewrite seq_length in *. exists adj. split; auto. unfold adj_ok. ands; auto. unfold Em. tauto.
Qed.

Lemma transpose_ok adj R : adj_ok adj R -> exists m, transpose n adj = Ok m /\ wfm m /\ forall i j, Em m i j <-> R j i.
Proof.
  intros (HL & HR & Ha). unfold transpose.
  destruct (foldM_inv (fun m i => ns <- rd adj i ;; foldM (fun m u => add_edge_internal n m u i) ns m) (seq 0 n)
    (fun done m => wfm m /\ forall a b, Em m a b <-> In b done /\ R b a) (repeat false (n * n))) as (m & E & Hm & H).
  - split. { unfold wfm. apply repeat_length. } intros a b. simpl. split; [|tauto].
    intros (_ & _ & Hv). exfalso. eapply V_repeat; eauto.
  - intros done x rest m El [Hm H].
    assert (x < n). { assert (In x (seq 0 n)) as Hi by (rewrite El; apply in_app_iff; simpl; auto). apply in_seq in Hi. lia. }
    destruct (Ha x) as (r & Er & Hr); auto. apply rd_Ok in Er. rewrite Er; cbn [bind].
    destruct (foldM_inv (fun m u => add_edge_internal n m u x) r
      (fun done' m' => wfm m' /\ forall a b, Em m' a b <-> Em m a b \/ (In a done' /\ b = x)) m) as (m2 & E2 & Hm2 & H2).
    + split; auto. intros a b. simpl. tauto.
    + intros d2 u r2 m1 El2 [Hm1 H1]. assert (In u r) by (rewrite El2; apply in_app_iff; simpl; auto).
      assert (u < n). { apply Hr in H2. apply HR in H2. tauto. }
      destruct (add_edge_ok m1 u x) as (m2 & E2 & W2 & Q2); auto. exists m2. ands; auto.
      intros a b. rewrite Q2, H1, in_app_iff. simpl. intuition subst; auto.
    + exists m2. ands; auto. intros a b. rewrite H2, H, in_app_iff, Hr. simpl. intuition subst; auto.
  - exists m. ands; auto. intros i j. rewrite H, in_seq. split; [tauto|]. intros Hx. split; auto. apply HR in Hx. lia.
Qed.

(** ** First traversal *)
Section Dfs.
Variable adj : list (list nat).
Variable R : nat -> nat -> Prop.
Hypothesis Hadj : adj_ok adj R.
Definition reach := clos_refl_trans nat R.

(** Every edge out of a stacked vertex goes to a vertex below it, or back to a
    vertex that reaches it. *)
Fixpoint ordered (l S : list nat) : Prop :=
  match l with
  | [] => True
  | x :: B => (forall y, R x y -> In y (B ++ S) \/ reach y x) /\ ordered B S
  end.
Lemma ordered_app a b S : ordered (a ++ b) S <-> ordered a (b ++ S) /\ ordered b S.
Proof. induction a as [|x a IH]; simpl; [tauto|]. rewrite IH, app_assoc. tauto. Qed.

Definition dfs_post vis S v vis' T :=
  length vis' = n /\ (forall i, V vis' i <-> V vis i \/ In i T) /\ NoDup T /\
  (forall i, In i T -> ~ V vis i) /\ (forall i, In i T -> reach v i) /\ ordered T S.

Lemma NoDup_app_intro {A} (a b : list A) : NoDup a -> NoDup b -> (forall x, In x a -> ~ In x b) -> NoDup (a ++ b).
Proof.
  intros Ha Hb H. induction Ha as [|x a Hx Ha IH]; simpl; auto. constructor.
  - rewrite in_app_iff. intros [|Hi]; auto. apply (H x); simpl; auto.
  - apply IH. intros y Hy. apply H. simpl; auto.
Qed.

Lemma dfs_ok fuel : forall vis S G v, length vis = n -> v < n -> ~ V vis v -> cf vis < fuel ->
  (forall g, In g G -> reach g v) -> (forall i, V vis i -> In i G \/ In i S) ->
  exists vis' T, dfs fuel adj vis S v = Ok (vis', v :: T ++ S) /\ dfs_post vis S v vis' (v :: T).
Proof.
  destruct Hadj as (HL & HR & Ha).
  induction fuel as [|fuel IH]; intros vis S G v Hvis Hv Hnv Hcf HG HGS; [lia|]. cbn [dfs].
  rewrite wr_Ok by lia. cbn [bind]. destruct (Ha v Hv) as (r & Er & Hr). apply rd_Ok in Er. rewrite Er; cbn [bind].
  destruct (foldM_inv (fun s u => b <- rd (fst s) u ;;
                        if (b : bool) then Ok s else dfs fuel adj (fst s) (snd s) u) r
    (fun done s => exists T, snd s = T ++ S /\ dfs_post (upd vis v true) S v (fst s) T /\
       (forall u, In u done -> V (fst s) u)) (upd vis v true, S)) as ([vis' st'] & E & T & ET & HP & HD).
  - exists []. cbn [fst snd]. unfold dfs_post. ands; auto; simpl; try tauto.
    + now rewrite upd_length.
    + constructor.
  - intros done u rest [vis1 S1] El (T & ET & (P1 & P2 & P3 & P4 & P5 & P6) & HD). cbn [fst snd] in *. subst S1.
    assert (Hu : R v u). { apply Hr. rewrite El. apply in_app_iff. simpl; auto. }
    assert (u < n) by (apply HR in Hu; tauto).
    rewrite rd_V by lia. cbn [bind]. destruct (V_dec vis1 u) as [Vu|Vu].
    + exists (vis1, T ++ S). split; auto. exists T. cbn [fst snd]. unfold dfs_post. ands; auto.
      intros x Hx. apply in_app_iff in Hx. destruct Hx as [|[<-|[]]]; auto.
    + destruct (IH vis1 (T ++ S) (v :: G) u) as (vis2 & T2 & E2 & Q1 & Q2 & Q3 & Q4 & Q5 & Q6); auto.
      * assert (cf vis1 <= cf (upd vis v true)).
        { apply cf_le. { rewrite upd_length. lia. } intros i Hi. apply P2. auto. }
        rewrite (cf_upd vis v) in Hcf by (auto; lia). lia.
      * intros g [<-|Hg]; [apply rt_step; auto|]. eapply rt_trans; [apply HG; auto|]. apply rt_step; auto.
      * intros i Hi. apply P2 in Hi. rewrite V_upd in Hi by lia. rewrite in_app_iff.
        destruct Hi as [[->|Hi]|Hi]; simpl; auto. apply HGS in Hi. tauto.
      * exists (vis2, u :: T2 ++ T ++ S). split; auto. exists ((u :: T2) ++ T). cbn [fst snd]. ands.
        -- simpl. now rewrite app_assoc.
        -- unfold dfs_post. ands; auto.
           ++ intros i. rewrite Q2, P2, in_app_iff. tauto.
           ++ apply NoDup_app_intro; auto. intros x Hx Hx2. apply (Q4 x Hx). apply P2. auto.
           ++ intros i Hi Hvi. apply in_app_iff in Hi. destruct Hi as [Hi|Hi]; [|apply (P4 i); auto].
              apply (Q4 i Hi). apply P2. auto.
           ++ intros i Hi. apply in_app_iff in Hi. destruct Hi as [Hi|Hi]; auto.
              eapply rt_trans; [apply rt_step; eauto|]. first [apply Q5; auto | exact A3].
           ++ apply ordered_app. auto.
        -- intros x Hx. apply in_app_iff in Hx. apply Q2. destruct Hx as [Hx|[<-|[]]]; auto. simpl; auto.
  - cbn [fst snd] in *. subst st'. rewrite E; cbn [bind]. exists vis', T. split; auto.
    destruct HP as (P1 & P2 & P3 & P4 & P5 & P6). unfold dfs_post. ands; auto.
    + intros i. rewrite P2, V_upd by lia. simpl. intuition.
    + constructor; auto. intros Hi. apply (P4 v Hi). apply V_upd; auto. lia.
    + intros i [<-|Hi]; auto. intros Hvi. apply (P4 i Hi). apply V_upd; auto. lia.
    + intros i [<-|Hi]; auto. apply rt_refl.
    + cbn [ordered]. split; auto. intros y Hy. apply Hr in Hy. apply HD in Hy. apply P2 in Hy. rewrite V_upd in Hy by lia.
      rewrite in_app_iff. destruct Hy as [[->|Hy]|Hy]; auto. { right. apply rt_refl. }
      apply HGS in Hy. destruct Hy; auto.
Qed.

Lemma dfs_all_ok : exists vis S, foldM (fun s i => b <- rd (fst s) i ;;
                          if (b : bool) then Ok s else dfs (Datatypes.S n) adj (fst s) (snd s) i)
                       (seq 0 n) (repeat false n, []) = Ok (vis, S) /\
   NoDup S /\ (forall i, In i S <-> i < n) /\ ordered S [].
Proof.
  destruct (foldM_inv (fun s i => b <- rd (fst s) i ;;
                          if (b : bool) then Ok s else dfs (Datatypes.S n) adj (fst s) (snd s) i) (seq 0 n)
    (fun done s => length (fst s) = n /\ NoDup (snd s) /\ (forall i, V (fst s) i <-> In i (snd s)) /\ ordered (snd s) [] /\
        forall i, In i done -> In i (snd s)) (repeat false n, [])) as ([vis S] & E & H1 & H2 & H3 & H4 & H5).
  - cbn [fst snd]. ands; auto; simpl; auto using repeat_length; try (constructor).
    + intros H. exfalso. eapply V_repeat; eauto.
    + intros [].
  - intros done x rest [vis S] El (H1 & H2 & H3 & H4 & H5). cbn [fst snd] in *.
    assert (x < n). { assert (In x (seq 0 n)) as Hi by (rewrite El; apply in_app_iff; simpl; auto). apply in_seq in Hi. lia. }
    rewrite rd_V by lia. cbn [bind]. destruct (V_dec vis x) as [Vx|Vx].
    + exists (vis, S). split; auto. cbn [fst snd]. ands; auto. intros i Hi. apply in_app_iff in Hi. destruct Hi as [|[<-|[]]]; auto. apply H3; auto.
    + destruct (dfs_ok (Datatypes.S n) vis S [] x) as (vis2 & T & E2 & Q1 & Q2 & Q3 & Q4 & Q5 & Q6); auto.
      * pose proof (cf_bound vis). lia.
      * intros g [].
      * intros i Hi. right. apply H3; auto.
      * exists (vis2, (x :: T) ++ S). split; auto. cbn [fst snd]. ands; auto.
        -- apply NoDup_app_intro; auto. intros y Hy Hy2. apply (Q4 y Hy). apply H3; auto.
        -- intros i. rewrite Q2, in_app_iff, H3. tauto.
        -- apply ordered_app. rewrite app_nil_r. auto.
        -- intros i Hi. apply in_app_iff in Hi. apply in_app_iff. destruct Hi as [|[<-|[]]]; auto. left. simpl; auto.
  - cbn [fst snd] in *. exists vis, S. ands; auto. intros i. split.
    + intros Hi. apply H3 in Hi. apply V_lt in Hi. lia.
    + intros Hi. apply H5. apply in_seq. lia.
Qed.

(** ** Second traversal *)
Definition col_post (vis del : list bool) (res : list nat) v (vis' del' : list bool) T :=
  length vis' = n /\ length del' = n /\ (forall i, V vis' i -> V del' i) /\
  (forall i, V del' i <-> V del i \/ In i T) /\ NoDup (res ++ T) /\
  (forall i, In i T -> ~ V del i /\ i < n /\ reach v i) /\
  (forall x y, In x T -> R x y -> V del' y).

Lemma nodup_bound (l : list nat) v : NoDup l -> (forall i, In i l -> i < n) -> v < n -> ~ In v l -> length l < n.
Proof.
  intros H1 H2 H3 H4. assert (length (v :: l) <= length (seq 0 n)).
  { apply NoDup_incl_length. constructor; auto. intros i [<-|Hi]; apply in_seq; [lia|]. specialize (H2 i Hi). lia. }
  rewrite seq_length in H. simpl in H. lia.
Qed.

Lemma dfs_collect_ok fuel : forall vis del res v, length vis = n -> length del = n -> v < n -> ~ V del v ->
  cf del < fuel -> (forall i, V vis i -> V del i) -> NoDup res -> (forall i, In i res -> V del i) ->
  exists vis' del' T, dfs_collect fuel n adj (vis, del, res) v = Ok (vis', del', res ++ v :: T) /\
    col_post vis del res v vis' del' (v :: T).
Proof.
  destruct Hadj as (HL & HR & Ha).
  induction fuel as [|fuel IH]; intros vis del res v Hvis Hdel Hv Hnv Hcf Hvd Hnd Hrd; [lia|]. cbn [dfs_collect].
  assert (length res < n). { apply nodup_bound with v; auto. intros i Hi. apply Hrd in Hi. apply V_lt in Hi. lia. }
  destruct (Nat.leb_spec n (length res)); [lia|].
  rewrite !wr_Ok by lia. cbn [bind]. destruct (Ha v Hv) as (r & Er & Hr). apply rd_Ok in Er. rewrite Er; cbn [bind].
  destruct (foldM_inv (fun s u =>
             let '(visited, deleted, result) := s in
             a <- rd visited u ;;
             b <- (if (a : bool) then Ok true else rd deleted u) ;;
             if (b : bool) then Ok s else dfs_collect fuel n adj s u) r
    (fun done s => let '(vis1, del1, res1) := s in exists T, res1 = res ++ v :: T /\
       length vis1 = n /\ length del1 = n /\ (forall i, V vis1 i -> V del1 i) /\
       (forall i, V del1 i <-> V del i \/ In i (v :: T)) /\ NoDup (res ++ v :: T) /\
       (forall i, In i (v :: T) -> ~ V del i /\ i < n /\ reach v i) /\
       (forall x y, In x T -> R x y -> V del1 y) /\ (forall u, In u done -> V del1 u))
    (upd vis v true, upd del v true, res ++ [v])) as ([[vis' del'] res'] & E & T & ET & P1 & P2 & P3 & P4 & P5 & P6 & P7 & P8).
  - exists []. rewrite !upd_length. ands; auto; simpl; try tauto.
    + intros i. rewrite !V_upd by lia. intros [|]; auto.
    + intros i. rewrite V_upd by lia. intuition.
    + apply NoDup_app_intro; auto. { repeat constructor; simpl; auto. }
      intros x Hx [<-|[]]. auto.
    + intros i [<-|[]]. ands; auto. apply rt_refl.
  - intros done u rest [[vis1 del1] res1] El (T & ET & P1 & P2 & P3 & P4 & P5 & P6 & P7 & P8). subst res1.
    assert (Hu : R v u). { apply Hr. rewrite El. apply in_app_iff. simpl; auto. }
    assert (u < n) by (apply HR in Hu; tauto).
    assert (Hb : (b <- (if (if V_dec vis1 u then true else false) then Ok true else rd del1 u) ;; Ok b) = Ok (if V_dec del1 u then true else false)).
    { destruct (V_dec vis1 u) as [Vu|Vu]; cbn [bind].
      - destruct (V_dec del1 u) as [|D]; auto. exfalso; auto.
      - rewrite rd_V by lia. reflexivity. }
    rewrite (rd_V vis1 u) by lia. cbn [bind].
    destruct (if (if V_dec vis1 u then true else false) then Ok true else rd del1 u) as [b| | |]; try discriminate.
    cbn [bind] in Hb |- *. inversion Hb; subst b. clear Hb. destruct (V_dec del1 u) as [Du|Du].
    + eexists. split; [reflexivity|]. exists T. ands; auto.
      intros x Hx. apply in_app_iff in Hx. destruct Hx as [|[<-|[]]]; auto.
    + destruct (IH vis1 del1 (res ++ v :: T) u) as (vis2 & del2 & T2 & E2 & Q1 & Q2 & Q3 & Q4 & Q5 & Q6 & Q7); auto.
      * assert (cf del1 <= cf (upd del v true)).
        { apply cf_le. { rewrite upd_length. lia. } intros i Hi. apply P4. rewrite V_upd in Hi by lia. simpl. intuition. }
        rewrite (cf_upd del v) in Hcf by (auto; lia). lia.
      * intros i Hi. apply in_app_iff in Hi. apply P4. destruct Hi; auto.
      * rewrite E2. eexists. split; [reflexivity|]. exists (T ++ u :: T2). ands; auto.
        -- now rewrite <- app_assoc.
        -- intros i. rewrite Q4, P4. simpl. rewrite in_app_iff. simpl. tauto.
        -- rewrite <- app_assoc in Q5. exact Q5.
        -- intros i [Hi|Hi]; [apply P6; simpl; auto|]. apply in_app_iff in Hi. destruct Hi as [Hi|Hi]; [apply P6; simpl; auto|].
           destruct (Q6 i Hi) as (A1 & A2 & A3). ands; auto.
           ++ intros Hd. apply A1. apply P4; auto.
           ++ eapply rt_trans; [apply rt_step; eauto|]. first [apply Q5; auto | exact A3].
        -- intros x y Hx Hxy. apply in_app_iff in Hx. destruct Hx as [Hx|Hx]; [|eapply Q7; eauto].
           apply Q4. left. eapply P7; eauto.
        -- intros x Hx. apply in_app_iff in Hx. apply Q4. destruct Hx as [Hx|[<-|[]]]; auto. simpl; auto.
  - rewrite E. exists vis', del', T. split; [subst; auto|]. unfold col_post. ands; auto.
    intros x y [<-|Hx] Hxy; eauto. apply P8. apply Hr; auto.
Qed.
End Dfs.
End Size.
