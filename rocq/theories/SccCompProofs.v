(** * Kosaraju: the popping loop, and graph construction *)
From Coq Require Import Permutation Relations.
From Verif Require Import Base PrimeModel PrimeSpec PrimeProofs HashTableModel HashTableSpec HashTableProofs SccModel SccSpec SccProofs.
Open Scope nat_scope.

Section Comp.
Variable n : nat.
Variables adj radj : list (list nat).
Variable R : nat -> nat -> Prop.
Hypothesis HR : forall i j, R i j -> i < n /\ j < n.
Hypothesis Htr : forall i j k, R i j -> R j k -> R i k.
Hypothesis Hradj : adj_ok n radj (fun i j => R j i).

Definition scc (i j : nat) : Prop := i = j \/ (R i j /\ R j i).

Lemma reach_closed (Q : nat -> nat -> Prop) : (forall i j k, Q i j -> Q j k -> Q i k) ->
  forall x y, reach Q x y <-> x = y \/ Q x y.
Proof.
  intros HQ x y. split.
  - intros H. induction H as [x y H|x|x y z H1 IH1 H2 IH2]; auto.
    destruct IH1 as [->|IH1]; auto. destruct IH2 as [->|IH2]; eauto.
  - intros [->|H]; [apply rt_refl|apply rt_step; auto].
Qed.

Lemma scc_sym i j : scc i j -> scc j i.
Proof. intros [->|[]]; [left|right]; auto. Qed.
Lemma scc_trans i j k : scc i j -> scc j k -> scc i k.
Proof. intros [->|[]] [->|[]]; unfold scc; auto; right; eauto. Qed.

Record inv (del : list bool) (comps : list (list nat)) : Prop := {
  i_len : length del = n;
  i_del : forall i, V del i <-> In i (concat comps);
  i_nd : NoDup (concat comps);
  i_ne : forall c, In c comps -> c <> [];
  i_scc : forall c i, In c comps -> In i c -> forall j, j < n -> (In j c <-> scc i j);
  i_topo : forall j c w u, nth_error comps j = Some c -> In w c -> R u w ->
     exists i c', i <= j /\ nth_error comps i = Some c' /\ In u c' }.

Lemma concat_len (comps : list (list nat)) : (forall c, In c comps -> c <> []) -> length comps <= length (concat comps).
Proof.
  induction comps as [|c comps IH]; simpl; intros H; auto. rewrite app_length.
  assert (c <> []) by auto. destruct c; [congruence|]. simpl. specialize (IH (fun x Hx => H x (or_intror Hx))). lia.
Qed.

Lemma in_concat_iff {A} (l : list (list A)) x : In x (concat l) <-> exists c, In c l /\ In x c.
Proof. rewrite in_concat. tauto. Qed.

Lemma ordered_split (l A B : list nat) x : ordered R l [] -> l = A ++ x :: B -> forall y, R x y -> In y B \/ reach R y x.
Proof.
  intros H ->. apply ordered_app in H. destruct H as [_ [H _]]. intros y Hy. specialize (H y Hy). rewrite app_nil_r in H. auto.
Qed.

Lemma components_ok S : ordered R S [] -> NoDup S -> (forall i, In i S <-> i < n) ->
  forall rest popped del comps, S = popped ++ rest -> (forall i, In i popped -> V del i) -> inv del comps ->
  exists del' comps', collect_components n radj rest del comps = Ok comps' /\ inv del' comps' /\
    forall i, i < n -> In i (concat comps').
Proof.
  intros Hord Hnd Hall. induction rest as [|v rest IH]; intros popped del comps ES Hp Hi; cbn [collect_components].
  - exists del, comps. ands; auto. intros i Hin. apply Hall in Hin. rewrite ES, app_nil_r in Hin.
    apply (i_del _ _ Hi). auto.
  - destruct Hi as [I1 I2 I3 I4 I5 I6].
    assert (Hv : v < n). { apply Hall. rewrite ES. apply in_app_iff. simpl; auto. }
    rewrite rd_V by lia. cbn [bind]. destruct (V_dec del v) as [Dv|Dv].
    { apply (IH (popped ++ [v])); [rewrite <- app_assoc; auto| |constructor; auto].
      intros i Hin. apply in_app_iff in Hin. destruct Hin as [|[<-|[]]]; auto. }
    assert (Hlt : length comps < n).
    { apply Nat.le_lt_trans with (length (concat comps)); [apply concat_len; auto|].
      apply nodup_bound with v; auto.
      - intros i Hin. apply I2 in Hin. apply V_lt in Hin. lia.
      - rewrite <- I2. auto. }
    destruct (Nat.leb_spec n (length comps)); [lia|].
    destruct (dfs_collect_ok n radj (fun i j => R j i) Hradj (Datatypes.S n) (repeat false n) del [] v)
      as (vis' & del' & T & E & P1 & P2 & P3 & P4 & P5 & P6 & P7); auto; try (rewrite repeat_length; auto).
    { pose proof (cf_bound del). lia. }
    { intros i Hin. exfalso. eapply V_repeat; eauto. }
    { constructor. } { intros i []. }
    rewrite E; cbn [bind]. cbn [app] in *.
    assert (Hrev : forall u, R u v -> ~ V del u -> scc u v).
    { intros u Hu Hdu. assert (In u S) as HuS. { apply Hall. apply HR in Hu. tauto. }
      destruct (Nat.eq_dec u v) as [->|Hne]; [left; auto|]. right. split; auto.
      assert (In u rest) as Hur.
      { rewrite ES in HuS. apply in_app_iff in HuS. destruct HuS as [HuS|[|]]; auto; [|congruence]. exfalso. auto. }
      apply in_split in Hur. destruct Hur as (A & B & ->).
      destruct (ordered_split S (popped ++ v :: A) B u) with (y := v) as [Hb|Hb]; auto.
      - rewrite ES. rewrite <- app_assoc. reflexivity.
      - exfalso. rewrite ES in Hnd.
        apply NoDup_remove_2 in Hnd. apply Hnd. rewrite !in_app_iff. simpl. tauto.
      - apply reach_closed in Hb; auto. destruct Hb as [|]; auto. congruence. }
    assert (Hset : forall j, In j (v :: T) <-> (j < n /\ scc v j)).
    { intros j. split.
      - intros Hj. destruct (P6 j Hj) as (A1 & A2 & A3). split; auto.
        apply (reach_closed (fun i j => R j i)) in A3; [|intros; eauto]. destruct A3 as [->|A3]; [left; auto|].
        apply scc_sym. apply Hrev; auto.
      - intros [Hj [->|[Hvj Hjv]]]; [simpl; auto|].
        assert (Hdj : ~ V del j).
        { intros Hd. apply I2 in Hd. apply in_concat_iff in Hd. destruct Hd as (c & Hc & Hjc).
          apply Dv. apply I2. apply in_concat_iff. exists c. split; auto. apply (I5 c j Hc Hjc v Hv). right; auto. }
        specialize (P7 v j ltac:(simpl; auto) Hjv). apply P4 in P7. destruct P7 as [P7|P7]; auto. contradiction. }
    apply (IH (popped ++ [v])); [rewrite <- app_assoc; auto| |].
    { intros i Hin. apply P4. apply in_app_iff in Hin. destruct Hin as [|[<-|[]]]; auto. right. simpl; auto. }
    constructor; auto.
    + intros i. rewrite P4, concat_app, in_app_iff, I2. simpl. rewrite app_nil_r. tauto.
    + rewrite concat_app. apply NoDup_app_intro; auto. { cbn [concat]. now rewrite app_nil_r. }
      intros x Hx Hx2. cbn [concat] in Hx2. rewrite app_nil_r in Hx2. destruct (P6 x Hx2) as [A1 _]. apply A1. apply I2; auto.
    + intros c Hc. apply in_app_iff in Hc. destruct Hc as [|[<-|[]]]; auto. discriminate.
    + intros c i Hc Hic j Hj. apply in_app_iff in Hc. destruct Hc as [Hc|[<-|[]]]; [apply I5; auto|].
      apply Hset in Hic. destruct Hic as [Hin Hvi]. rewrite Hset. split.
      * intros [_ Hvj]. eapply scc_trans; [apply scc_sym; eauto|auto].
      * intros Hij. split; auto. eapply scc_trans; eauto.
    + intros j c w u Hj Hw Hu. destruct (Nat.lt_ge_cases j (length comps)) as [Hlt'|Hge].
      * rewrite nth_error_app1 in Hj by auto. destruct (I6 j c w u Hj Hw Hu) as (i & c' & L1 & L2 & L3).
        exists i, c'. ands; auto. rewrite nth_error_app1; auto. apply nth_error_Some. congruence.
      * rewrite nth_error_app2 in Hj by auto. destruct (j - length comps) as [|k] eqn:Ej; [|destruct k; discriminate].
        cbn [nth_error] in Hj. inversion Hj; subst c.
        assert (Hu' : V del u \/ In u (v :: T)).
        { destruct (V_dec del u) as [|Du]; auto. right. apply Hset. apply HR in Hu as Hun. split; [tauto|].
          apply Hset in Hw. destruct Hw as [Hw1 Hw2]. apply scc_sym. apply Hrev; auto.
          destruct Hw2 as [->|[_ Hw2]]; eauto. }
        destruct Hu' as [Hu'|Hu'].
        -- apply I2 in Hu'. apply in_concat_iff in Hu'. destruct Hu' as (c' & Hc' & Huc').
           apply In_nth_error in Hc'. destruct Hc' as [i Hi'].
           assert (i < length comps) by (apply nth_error_Some; congruence).
           exists i, c'. ands; auto; [lia|]. rewrite nth_error_app1; auto.
        -- exists (length comps), (v :: T). ands; auto. rewrite nth_error_app2, Nat.sub_diag by lia. reflexivity.
Qed.

Lemma inv_init : inv (repeat false n) [].
Proof.
  constructor; simpl; auto using repeat_length; try tauto.
  - intros i. split; [|tauto]. apply V_repeat.
  - constructor.
  - intros [|j]; discriminate.
Qed.
End Comp.

Theorem kosaraju n m : wfm n m ->
  exists m' adj vis stack rm radj comps,
    closure_loop (S (n * n)) n m = Ok m' /\ wfm n m' /\
    collect_neighbors n m' = Ok adj /\
    foldM (fun s i => b <- rd (fst s) i ;;
                          if (b : bool) then Ok s else dfs (S n) adj (fst s) (snd s) i)
                       (seq 0 n) (repeat false n, []) = Ok (vis, stack) /\
    transpose n adj = Ok rm /\ collect_neighbors n rm = Ok radj /\
    collect_components n radj stack (repeat false n) [] = Ok comps /\
    (forall i, i < n <-> In i (concat comps)) /\ NoDup (concat comps) /\ (forall c, In c comps -> c <> []) /\
    (forall c i, In c comps -> In i c -> forall j, j < n ->
       (In j c <-> i = j \/ (clos_trans nat (Em n m) i j /\ clos_trans nat (Em n m) j i))) /\
    (forall j c w u, nth_error comps j = Some c -> In w c -> Em n m u w ->
       exists i c', i <= j /\ nth_error comps i = Some c' /\ In u c').
Proof.
  intros Hm.
  destruct (closure_loop_ok n (S (n * n)) m Hm) as (m' & E1 & W1 & Q1).
  { pose proof (cf_bound m). rewrite Hm in H. lia. }
  destruct (collect_neighbors_ok n m' W1) as (adj & E2 & A2).
  destruct (dfs_all_ok n adj (Em n m') A2) as (vis & stack & E3 & N3 & M3 & O3).
  destruct (transpose_ok n adj (Em n m') A2) as (rm & E4 & W4 & Q4).
  destruct (collect_neighbors_ok n rm W4) as (radj & E5 & A5).
  assert (A6 : adj_ok n radj (fun i j => Em n m' j i)).
  { destruct A5 as (B1 & B2 & B3). unfold adj_ok. ands; auto. { intros i j H. unfold Em in H. tauto. }
    intros i Hi. destruct (B3 i Hi) as (r & Hr1 & Hr2). exists r. split; auto. intros j. rewrite Hr2. apply Q4. }
  assert (Hlt : forall i j, Em n m' i j -> i < n /\ j < n) by (unfold Em; tauto).
  assert (Htr : forall i j k, Em n m' i j -> Em n m' j k -> Em n m' i k).
  { intros i j k. rewrite !Q1. apply t_trans. }
  destruct (components_ok n radj (Em n m') Hlt Htr A6 stack O3 N3 M3 stack [] (repeat false n) [])
    as (del & comps & E6 & Hi & Hc); auto. { intros i []. } { apply inv_init. }
  destruct Hi as [I1 I2 I3 I4 I5 I6].
  exists m', adj, vis, stack, rm, radj, comps. ands; auto.
  - intros i. split; auto. intros Hin. apply I2 in Hin. apply V_lt in Hin. lia.
  - intros c i Hcc Hic j Hj. rewrite (I5 c i Hcc Hic j Hj). unfold scc. rewrite !Q1. tauto.
  - intros j c w u Hj Hw Hu. eapply I6; eauto. apply Q1. apply t_step. auto.
Qed.
