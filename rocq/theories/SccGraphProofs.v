(** * Graph construction and the result of scc_graph_components *)
From Coq Require Import Permutation Relations.
From Verif Require Import Base PrimeModel PrimeSpec PrimeProofs HashTableModel HashTableSpec HashTableProofs SccModel SccSpec SccProofs SccCompProofs.
Open Scope Z_scope.

Lemma ptr_good' : good ptr_equalf ptr_hashf.
Proof.
  unfold ptr_equalf. constructor; intros.
  - apply Z.eqb_refl.
  - apply Z.eqb_eq in H1. subst. apply Z.eqb_refl.
  - apply Z.eqb_eq in H2, H3. subst. apply Z.eqb_refl.
  - apply Z.eqb_eq in H1. now subst.
  - apply Z.eqb_neq. auto.
Qed.

(** The pairs (vertex, number) in insertion order, numbers from [k]. *)
Fixpoint numbered (k : nat) (vs : list Z) : list (Z * Z) :=
  match vs with [] => [] | v :: vs => (v, Z.of_nat k) :: numbered (S k) vs end.

Lemma numbered_app vs : forall k v, numbered k (vs ++ [v]) = numbered k vs ++ [(v, Z.of_nat (k + length vs))].
Proof.
  induction vs as [|w vs IH]; intros k v; simpl.
  - now rewrite Nat.add_0_r.
  - rewrite IH. simpl. repeat f_equal. lia.
Qed.
Lemma numbered_len vs : forall k, length (numbered k vs) = length vs.
Proof. induction vs; intros; simpl; auto. Qed.

Lemma latest_in vs : forall k v, In v vs -> exists i, latest ptr_equalf (numbered k vs) v = Some (Z.of_nat (k + i)) /\ nth_error vs i = Some v.
Proof.
  induction vs as [|w vs IH]; intros k v [].
  - subst w. cbn [numbered latest]. destruct (in_dec Z.eq_dec v vs) as [Hi|Hi].
    + destruct (IH (S k) v Hi) as (i & E & Hn). rewrite E. exists (S i). split; auto. f_equal. lia.
    + assert (forall vs k, ~ In v vs -> latest ptr_equalf (numbered k vs) v = None) as Hno.
      { clear. induction vs as [|w vs IH]; intros k H; cbn [numbered latest]; auto. rewrite IH by (simpl in H; tauto).
        unfold ptr_equalf. destruct (Z.eqb_spec w v); auto. exfalso. apply H. simpl; auto. }
      rewrite Hno by auto. unfold ptr_equalf. rewrite Z.eqb_refl. exists 0%nat. rewrite Nat.add_0_r. auto.
  - cbn [numbered latest]. destruct (IH (S k) v H) as (i & E & Hn). rewrite E. exists (S i). split; auto. f_equal. lia.
Qed.

Lemma latest_notin vs : forall k v, ~ In v vs -> latest ptr_equalf (numbered k vs) v = None.
Proof.
  induction vs as [|w vs IH]; intros k v H; cbn [numbered latest]; auto. rewrite IH by (simpl in H; tauto).
  unfold ptr_equalf. destruct (Z.eqb_spec w v); auto. exfalso. apply H. simpl; auto.
Qed.

Record ginv (n : nat) (g : graph) (ops : list gop) : Prop := {
  g_n : num_vertices g = Z.of_nat n;
  g_le : (length (vertices ops) <= n)%nat;
  g_next : next_index g = length (vertices ops);
  g_nd : NoDup (vertices ops);
  g_ends : forall u v, edge ops u v -> In u (vertices ops) /\ In v (vertices ops);
  g_shape : shape (ptr_to_index g);
  g_strong : strong ptr_hashf ptr_equalf (ptr_to_index g) (numbered 0 (vertices ops));
  g_ptr : length (index_to_ptr g) = n /\
          forall i, (i < n)%nat -> nth_error (index_to_ptr g) i = Some (nth_error (vertices ops) i);
  g_wf : wfm n (matrix g);
  g_mat : forall i j, Em n (matrix g) i j <-> exists u v, nth_error (vertices ops) i = Some u /\ nth_error (vertices ops) j = Some v /\ edge ops u v }.

Lemma init_ok st n : st_ok st -> Z.of_nat n <= 46340 -> exists st' g, scc_graph_initialize st (Z.of_nat n) = Ok (st', g) /\ st_ok st' /\ ginv n g [].
Proof.
  intros Hst Hn. unfold scc_graph_initialize.
  destruct (Z.ltb_spec INT_MAX (Z.of_nat n * Z.of_nat n)); [unfold INT_MAX in *; nia|].
  destruct (Z.ltb_spec (Z.of_nat n) 0); [lia|].
  destruct (initialize_spec st (Z.of_nat n) Hst) as (st' & c & E & H1 & H2 & H3). { unfold BIG_TWIN. lia. }
  rewrite E; cbn [bind]. eexists _, _. split; [reflexivity|]. split; auto.
  assert (Hw : wfm n (repeat false (Z.to_nat (Z.of_nat n * Z.of_nat n)))).
  { unfold wfm. rewrite repeat_length. lia. }
  assert (is_twin c). { destruct H2 as (? & ? & ?); auto. }
  constructor; cbn [num_vertices matrix ptr_to_index index_to_ptr next_index vertices flat_map length numbered]; auto; try lia.
  - constructor.
  - apply empty_shape; auto.
  - apply strong_empty; auto.
  - rewrite Nat2Z.id, repeat_length. split; auto. intros i Hi. rewrite nth_error_repeat.
    apply Nat.ltb_lt in Hi. rewrite Hi. now destruct i.
  - intros i j. split.
    + intros (_ & _ & Hv). exfalso. eapply V_repeat; eauto.
    + intros (u & v & Hu & _). destruct i; discriminate.
Qed.

Lemma index_ok n g ops v : ginv n g ops -> v <> 0 ->
  (In v (vertices ops) -> exists i, get_vertex_index_from_ptr g v = Ok i /\ nth_error (vertices ops) i = Some v /\ (i < n)%nat) /\
  (~ In v (vertices ops) -> get_vertex_index_from_ptr g v = Exit).
Proof.
  intros G Hv. unfold get_vertex_index_from_ptr.
  destruct (strong_lookup ptr_hashf ptr_equalf ptr_good' (ptr_to_index g) (numbered 0 (vertices ops)) v (g_shape _ _ _ G) (g_strong _ _ _ G) Hv) as [E1 E2].
  rewrite E1, E2. cbn [bind]. split; intros Hi.
  - destruct (latest_in (vertices ops) 0 v Hi) as (i & E & Hn). rewrite E. cbn [bind].
    assert (i < length (vertices ops))%nat by (apply nth_error_Some; congruence).
    pose proof (g_le _ _ _ G). rewrite (g_n _ _ _ G).
    destruct (Z.ltb_spec (Z.of_nat (0 + i)) 0); [lia|]. destruct (Z.leb_spec (Z.of_nat n) (Z.of_nat (0 + i))); [lia|].
    cbn [orb]. exists i. rewrite Nat2Z.id. ands; auto. lia.
  - rewrite latest_notin by auto. reflexivity.
Qed.

Lemma vertices_app a b : vertices (a ++ b) = vertices a ++ vertices b.
Proof. unfold vertices. now rewrite flat_map_app. Qed.

Lemma NoDup_snoc {A} (l : list A) x : NoDup l -> ~ In x l -> NoDup (l ++ [x]).
Proof. intros H1 H2. apply NoDup_app_intro; auto. { repeat constructor; simpl; auto. } intros y Hy [<-|[]]. auto. Qed.

Definition nn (o : gop) : Prop := match o with AddVertex v => v <> 0 | AddEdge u v => u <> 0 /\ v <> 0 end.

Lemma nodup_nth (l : list Z) i j x : NoDup l -> nth_error l i = Some x -> nth_error l j = Some x -> i = j.
Proof.
  intros H Hi Hj. assert (i < length l)%nat by (apply nth_error_Some; congruence).
  rewrite NoDup_nth_error in H. apply H; auto. congruence.
Qed.

Lemma step_ok st n g ops o : st_ok st -> Z.of_nat n <= 46340 -> ginv n g ops -> nn o ->
  (legal (Z.of_nat n) ops o -> exists st' g', gstep (st, g) o = Ok (st', g') /\ st_ok st' /\ ginv n g' (ops ++ [o])) /\
  (~ legal (Z.of_nat n) ops o -> gstep (st, g) o = Exit).
Proof.
  intros Hst Hn G Ho. destruct o as [v|u v]; cbn [gstep legal fst snd nn] in *.
  - unfold scc_graph_add_vertex. rewrite (g_n _ _ _ G), (g_next _ _ _ G).
    destruct (strong_lookup ptr_hashf ptr_equalf ptr_good' (ptr_to_index g) (numbered 0 (vertices ops)) v (g_shape _ _ _ G) (g_strong _ _ _ G) Ho) as [E1 _].
    rewrite E1. cbn [bind]. destruct (Z.leb_spec (Z.of_nat n) (Z.of_nat (length (vertices ops)))) as [Hle|Hlt].
    { split; [intros; lia|auto]. }
    destruct (in_dec Z.eq_dec v (vertices ops)) as [Hi|Hi].
    { destruct (latest_in (vertices ops) 0 v Hi) as (i & E & _). rewrite E. split; [tauto|auto]. }
    rewrite latest_notin by auto. split; [intros _|intros X; exfalso; apply X; split; auto].
    destruct (add_strong ptr_hashf ptr_equalf ptr_good' st (ptr_to_index g) (numbered 0 (vertices ops)) v (Z.of_nat (length (vertices ops))))
      as (st' & t' & E & A1 & A2 & A3); auto. { apply (g_shape _ _ _ G). } { apply (g_strong _ _ _ G). }
    { destruct (g_strong _ _ _ G) as (_ & _ & _ & Hd & _). rewrite Hd.
      pose proof (distinct_le ptr_equalf (numbered 0 (vertices ops))). rewrite numbered_len in H. lia. }
    rewrite E. cbn [bind]. destruct (g_ptr _ _ _ G) as [P1 P2].
    rewrite wr_Ok by lia. cbn [bind]. eexists _, _. split; [reflexivity|]. split; auto.
    assert (Ev : vertices (ops ++ [AddVertex v]) = vertices ops ++ [v]) by (rewrite vertices_app; reflexivity).
    assert (Ee : forall a b, edge (ops ++ [AddVertex v]) a b <-> edge ops a b).
    { intros a b. unfold edge. rewrite in_app_iff. simpl. intuition discriminate. }
    constructor; cbn [num_vertices matrix ptr_to_index index_to_ptr next_index]; rewrite ?Ev, ?app_length; cbn [length]; auto.
    + lia.
    + lia.
    + apply NoDup_snoc; auto. apply (g_nd _ _ _ G).
    + intros a b Hab. apply Ee in Hab. apply (g_ends _ _ _ G) in Hab. rewrite !in_app_iff. tauto.
    + rewrite numbered_app. auto.
    + rewrite upd_length. split; auto. intros i Hi'. rewrite nth_error_upd.
      destruct (Nat.eqb_spec (length (vertices ops)) i) as [<-|Hne].
      * destruct (Nat.ltb_spec (length (vertices ops)) (length (index_to_ptr g))); [|lia].
        rewrite nth_error_app2, Nat.sub_diag by lia. reflexivity.
      * rewrite P2 by auto. f_equal. destruct (Nat.lt_ge_cases i (length (vertices ops))).
        -- now rewrite nth_error_app1.
        -- rewrite nth_error_app2 by lia. destruct (i - length (vertices ops))%nat as [|k] eqn:Ek; [lia|].
           rewrite (proj2 (nth_error_None _ _)) by lia. now destruct k.
    + apply (g_wf _ _ _ G).
    + intros i j. rewrite (g_mat _ _ _ G). split; intros (a & b & H1 & H2 & H3); exists a, b.
      * ands; [| |apply Ee; auto]; rewrite nth_error_app1; auto; apply nth_error_Some; congruence.
      * apply Ee in H3. destruct (g_ends _ _ _ G a b H3) as [Ia Ib].
        assert (forall k x, In x (vertices ops) -> nth_error (vertices ops ++ [v]) k = Some x -> nth_error (vertices ops) k = Some x) as Hk.
        { intros k x Hx Hk. destruct (Nat.lt_ge_cases k (length (vertices ops))).
          - now rewrite nth_error_app1 in Hk.
          - rewrite nth_error_app2 in Hk by lia. destruct (k - length (vertices ops))%nat as [|q]; [|destruct q; discriminate].
            cbn [nth_error] in Hk. inversion Hk; subst. contradiction. }
        ands; auto.
  - destruct Ho as [Hu0 Hv0]. unfold scc_graph_add_edge.
    destruct (index_ok n g ops u G Hu0) as [U1 U2]. destruct (index_ok n g ops v G Hv0) as [V1 V2].
    destruct (in_dec Z.eq_dec u (vertices ops)) as [Hu|Hu].
    2:{ rewrite U2 by auto. split; [tauto|auto]. }
    destruct (U1 Hu) as (i & Ei & Ni & Li). rewrite Ei; cbn [bind].
    destruct (in_dec Z.eq_dec v (vertices ops)) as [Hv|Hv].
    2:{ rewrite V2 by auto. split; [tauto|auto]. }
    destruct (V1 Hv) as (j & Ej & Nj & Lj). rewrite Ej; cbn [bind].
    split; [intros _|tauto].
    rewrite (g_n _ _ _ G), Nat2Z.id.
    destruct (add_edge_ok n (matrix g) i j (g_wf _ _ _ G) Li Lj) as (m' & Em' & Wm' & Qm').
    rewrite Em'; cbn [bind]. eexists _, _. split; [reflexivity|]. split; auto.
    assert (Ev : vertices (ops ++ [AddEdge u v]) = vertices ops) by (rewrite vertices_app; simpl; apply app_nil_r).
    assert (Ee : forall a b, edge (ops ++ [AddEdge u v]) a b <-> edge ops a b \/ (a = u /\ b = v)).
    { intros a b. unfold edge. rewrite in_app_iff. simpl. split.
      - intros [|[E|[]]]; auto. inversion E; auto.
      - intros [|[-> ->]]; auto. }
    destruct G. constructor; cbn [num_vertices matrix ptr_to_index index_to_ptr next_index]; rewrite ?Ev; auto.
    + intros a b Hab. apply Ee in Hab. destruct Hab as [|[-> ->]]; auto.
    + intros a b. rewrite Qm', g_mat0. split.
      * intros [(x & y & H1 & H2 & H3)|[-> ->]]; [exists x, y|exists u, v]; ands; auto; apply Ee; auto.
      * intros (x & y & H1 & H2 & H3). apply Ee in H3. destruct H3 as [H3|[-> ->]].
        -- left. exists x, y. auto.
        -- right. split; eapply nodup_nth; eauto.
Qed.

Lemma steps_ok ops : forall st n g before, st_ok st -> Z.of_nat n <= 46340 -> ginv n g before -> Forall nn ops ->
  (legal_from (Z.of_nat n) before ops -> exists st' g', foldM gstep ops (st, g) = Ok (st', g') /\ st_ok st' /\ ginv n g' (before ++ ops)) /\
  (~ legal_from (Z.of_nat n) before ops -> foldM gstep ops (st, g) = Exit).
Proof.
  induction ops as [|o ops IH]; intros st n g before Hst Hn G HF; cbn [legal_from foldM].
  - split; [|tauto]. intros _. exists st, g. rewrite app_nil_r. auto.
  - inversion HF as [|? ? Ho HF']; subst.
    destruct (step_ok st n g before o Hst Hn G Ho) as [S1 S2].
    assert (Hdec : legal (Z.of_nat n) before o \/ ~ legal (Z.of_nat n) before o).
    { destruct o as [v|u v]; simpl.
      - destruct (Z_lt_dec (Z.of_nat (length (vertices before))) (Z.of_nat n)), (in_dec Z.eq_dec v (vertices before)); tauto.
      - destruct (in_dec Z.eq_dec u (vertices before)), (in_dec Z.eq_dec v (vertices before)); tauto. }
    destruct Hdec as [Hl|Hl].
    + destruct (S1 Hl) as (st1 & g1 & E & A1 & A2). rewrite E; cbn [bind].
      destruct (IH st1 n g1 (before ++ [o]) A1 Hn A2 HF') as [I1 I2]. split.
      * intros [_ Hr]. destruct (I1 Hr) as (st2 & g2 & E2 & B1 & B2). exists st2, g2. ands; auto.
        rewrite <- app_assoc in B2. exact B2.
      * intros H. apply I2. tauto.
    + rewrite S2 by auto. split; [tauto|auto].
Qed.

Lemma build_ok st n ops : st_ok st -> Z.of_nat n <= 46340 -> no_null ops ->
  (legal_program (Z.of_nat n) ops -> exists st' g, build st (Z.of_nat n) ops = Ok (st', g) /\ st_ok st' /\ ginv n g ops) /\
  (~ legal_program (Z.of_nat n) ops -> build st (Z.of_nat n) ops = Exit).
Proof.
  intros Hst Hn HF. unfold build. destruct (init_ok st n Hst Hn) as (st1 & g1 & E & A1 & A2).
  rewrite E; cbn [bind]. destruct (steps_ok ops st1 n g1 [] A1 Hn A2 HF). auto.
Qed.

(** ** The result *)
Lemma clos_trans_edge n g ops : ginv n g ops -> forall i j u v,
  nth_error (vertices ops) i = Some u -> nth_error (vertices ops) j = Some v ->
  (clos_trans nat (Em n (matrix g)) i j <-> clos_trans Z (edge ops) u v).
Proof.
  intros G i j u v Hi Hj. split.
  - intros T. revert u v Hi Hj. induction T as [i j H|i k j T1 IH1 T2 IH2]; intros u v Hi Hj.
    + apply (g_mat _ _ _ G) in H. destruct H as (u' & v' & H1 & H2 & H3). apply t_step. congruence.
    + assert (exists w, nth_error (vertices ops) k = Some w) as [w Hw].
      { clear - T2 G. induction T2 as [a b H|]; auto. apply (g_mat _ _ _ G) in H. destruct H as (u' & _ & H1 & _). eauto. }
      eapply t_trans; eauto.
  - intros T. revert i j Hi Hj. induction T as [u v H|u w v T1 IH1 T2 IH2]; intros i j Hi Hj.
    + apply t_step. apply (g_mat _ _ _ G). eauto.
    + assert (In w (vertices ops)) as Hw.
      { clear - T2 G. induction T2 as [a b H|]; auto. apply (g_ends _ _ _ G) in H. tauto. }
      apply In_nth_error in Hw. destruct Hw as [k Hk]. eapply t_trans; eauto.
Qed.

Lemma rt_trans_iff {A} (Q : relation A) x y : clos_refl_trans A Q x y <-> x = y \/ clos_trans A Q x y.
Proof.
  split.
  - intros H. induction H as [x y H|x|x y z H1 IH1 H2 IH2]; auto.
    + right. now apply t_step.
    + destruct IH1 as [->|]; auto. destruct IH2 as [->|]; auto. right. eapply t_trans; eauto.
  - intros [->|H]; [apply rt_refl|]. induction H; [apply rt_step; auto|eapply rt_trans; eauto].
Qed.

Lemma foldM_map {A B} (f : A -> res B) (h : A -> B) l : (forall x, In x l -> f x = Ok (h x)) -> forall acc,
  foldM (fun out x => y <- f x ;; Ok (out ++ [y])) l acc = Ok (acc ++ map h l).
Proof.
  induction l as [|x l IH]; intros H acc; cbn [foldM map].
  - now rewrite app_nil_r.
  - rewrite H by (simpl; auto). cbn [bind]. rewrite IH by (intros; apply H; simpl; auto). now rewrite <- app_assoc.
Qed.

Lemma foldM_UB {A B} (f : A -> res B) l : (forall x, In x l -> (exists y, f x = Ok y) \/ f x = UB) ->
  (exists x, In x l /\ f x = UB) -> forall acc, foldM (fun out x => y <- f x ;; Ok (out ++ [y])) l acc = UB.
Proof.
  induction l as [|x l IH]; intros H1 (x0 & Hx & E) acc; [destruct Hx|]. cbn [foldM].
  destruct (H1 x) as [[y Ey]|Ey]; [simpl; auto| |rewrite Ey; reflexivity].
  rewrite Ey; cbn [bind]. apply IH; [intros; apply H1; simpl; auto|]. destruct Hx as [->|]; [congruence|eauto].
Qed.

Definition ptr_of (ops : list gop) (i : nat) : Z := nth i (vertices ops) 0.

Lemma get_ptr_ok n g ops i : ginv n g ops -> (i < n)%nat ->
  get_vertex_ptr_from_int g i = match nth_error (vertices ops) i with Some v => Ok v | None => UB end.
Proof.
  intros G Hi. unfold get_vertex_ptr_from_int. rewrite (g_n _ _ _ G).
  destruct (Z.leb_spec (Z.of_nat n) (Z.of_nat i)); [lia|].
  destruct (g_ptr _ _ _ G) as [_ P]. specialize (P i Hi). apply rd_Ok in P. rewrite P. reflexivity.
Qed.

Lemma components_incomplete st n g ops : st_ok st -> 0 < Z.of_nat n <= 46340 -> ginv n g ops -> (length (vertices ops) < n)%nat ->
  scc_graph_components st g = UB.
Proof.
  intros Hst Hn G HL. unfold scc_graph_components. rewrite (g_n _ _ _ G).
  destruct (Z.leb_spec (Z.of_nat n) 0); [lia|]. rewrite Nat2Z.id.
  destruct (kosaraju n (matrix g) (g_wf _ _ _ G)) as (m' & adj & vis & stack & rm & radj & comps & E1 & W & E2 & E3 & E4 & E5 & E6 & K1 & K2 & K3 & K4 & K5).
  rewrite E1; cbn [bind]. rewrite E2; cbn [bind]. rewrite E3; cbn [bind].
  destruct (init_ok st n Hst ltac:(lia)) as (st' & g' & Ei & A1 & _). rewrite Ei; cbn [bind].
  rewrite E4; cbn [bind]. rewrite E5; cbn [bind]. rewrite E6; cbn [bind].
  rewrite (foldM_UB (fun c => foldM (fun ps i => p <- get_vertex_ptr_from_int g i ;; Ok (ps ++ [p])) c [])); [reflexivity| |].
  - intros c Hc. assert (Hlt : forall i, In i c -> (i < n)%nat).
    { intros i Hi. apply K1. apply in_concat. eauto. }
    clear - G Hlt.
    enough (X : forall acc, (exists y, foldM (fun ps i => p <- get_vertex_ptr_from_int g i ;; Ok (ps ++ [p])) c acc = Ok y) \/
      foldM (fun ps i => p <- get_vertex_ptr_from_int g i ;; Ok (ps ++ [p])) c acc = UB) by apply X.
    induction c as [|i c IH]; intros acc; cbn [foldM]; [left; eauto|].
    rewrite (get_ptr_ok n g ops) by (auto; apply Hlt; simpl; auto).
    destruct (nth_error (vertices ops) i); cbn [bind]; auto. apply IH. intros; apply Hlt; simpl; auto.
  - assert (Hi : In (length (vertices ops)) (concat comps)) by (apply K1; auto).
    apply in_concat in Hi. destruct Hi as (c & Hc & Hi). exists c. split; auto.
    apply foldM_UB.
    + intros i Hin. assert (i < n)%nat by (apply K1; apply in_concat; eauto).
      rewrite (get_ptr_ok n g ops) by auto. destruct (nth_error (vertices ops) i); eauto.
    + exists (length (vertices ops)). split; auto. rewrite (get_ptr_ok n g ops) by auto.
      rewrite (proj2 (nth_error_None _ _)) by lia. reflexivity.
Qed.

Lemma concat_map_map {A B} (h : A -> B) (l : list (list A)) : concat (map (map h) l) = map h (concat l).
Proof. induction l; simpl; auto. now rewrite IHl, map_app. Qed.

Lemma map_nth_seq (vs : list Z) : map (fun i => nth i vs 0) (seq 0 (length vs)) = vs.
Proof.
  apply nth_error_ext. intros i. destruct (Nat.lt_ge_cases i (length vs)) as [H|H].
  - assert (E : nth_error (seq 0 (length vs)) i = Some i).
    { rewrite (nth_error_nth' _ 0%nat) by (now rewrite seq_length). now rewrite seq_nth. }
    rewrite (map_nth_error (fun i => nth i vs 0) _ _ E). symmetry. now apply nth_error_nth'.
  - rewrite !(proj2 (nth_error_None _ _)); auto. now rewrite map_length, seq_length.
Qed.

Lemma components_complete st n g ops : st_ok st -> 0 < Z.of_nat n <= 46340 -> ginv n g ops -> length (vertices ops) = n ->
  exists st' g' comps, scc_graph_components st g = Ok (st', g', comps) /\ st_ok st' /\
    Permutation (concat comps) (vertices ops) /\ (forall c, In c comps -> c <> []) /\
    (forall u v, In u (vertices ops) -> In v (vertices ops) ->
       (same_component comps u v <-> reaches ops u v /\ reaches ops v u)) /\
    (forall u v, edge ops u v -> same_component comps u v \/ precedes comps u v).
Proof.
  intros Hst Hn G HL. unfold scc_graph_components. rewrite (g_n _ _ _ G).
  destruct (Z.leb_spec (Z.of_nat n) 0); [lia|]. rewrite Nat2Z.id.
  destruct (kosaraju n (matrix g) (g_wf _ _ _ G)) as (m' & adj & vis & stack & rm & radj & comps & E1 & W & E2 & E3 & E4 & E5 & E6 & K1 & K2 & K3 & K4 & K5).
  rewrite E1; cbn [bind]. rewrite E2; cbn [bind]. rewrite E3; cbn [bind].
  destruct (init_ok st n Hst ltac:(lia)) as (st' & g' & Ei & A1 & _). rewrite Ei; cbn [bind].
  rewrite E4; cbn [bind]. rewrite E5; cbn [bind]. rewrite E6; cbn [bind].
  assert (Hlt : forall c i, In c comps -> In i c -> (i < n)%nat).
  { intros c i Hc Hi. apply K1. apply in_concat. eauto. }
  assert (Hp : forall i, (i < n)%nat -> nth_error (vertices ops) i = Some (ptr_of ops i)).
  { intros i Hi. unfold ptr_of. apply nth_error_nth'. lia. }
  assert (Hrow : forall c, In c comps -> foldM (fun ps i => p <- get_vertex_ptr_from_int g i ;; Ok (ps ++ [p])) c [] = Ok (map (ptr_of ops) c)).
  { intros c Hc. rewrite (foldM_map (get_vertex_ptr_from_int g) (ptr_of ops)); auto.
    intros i Hi. rewrite (get_ptr_ok n g ops), Hp by eauto. reflexivity. }
  rewrite (foldM_map (fun c => foldM (fun ps i => p <- get_vertex_ptr_from_int g i ;; Ok (ps ++ [p])) c []) (map (ptr_of ops)) comps Hrow).
  cbn [bind app]. eexists _, _, _. split; [reflexivity|]. split; auto.
  assert (Hinj : forall i j, (i < n)%nat -> (j < n)%nat -> ptr_of ops i = ptr_of ops j -> i = j).
  { intros i j Hi Hj E. eapply nodup_nth; [apply (g_nd _ _ _ G)|apply Hp; auto|]. rewrite E. apply Hp; auto. }
  assert (Hin : forall c i, In c comps -> (i < n)%nat -> (In (ptr_of ops i) (map (ptr_of ops) c) <-> In i c)).
  { intros c i Hc Hi. rewrite in_map_iff. split.
    - intros (j & E & Hj). apply Hinj in E; eauto. now subst.
    - intros. exists i. auto. }
  assert (Hex : forall v, In v (vertices ops) -> exists i, (i < n)%nat /\ v = ptr_of ops i).
  { intros v Hv. apply In_nth_error in Hv. destruct Hv as [i Hi]. exists i.
    assert (i < n)%nat. { rewrite <- HL. apply nth_error_Some. congruence. }
    rewrite Hp in Hi by auto. split; congruence. }
  ands.
  - rewrite concat_map_map. apply Permutation_trans with (map (ptr_of ops) (seq 0 (length (vertices ops)))).
    2:{ unfold ptr_of. rewrite map_nth_seq. reflexivity. }
    apply Permutation_map. apply NoDup_Permutation; auto using seq_NoDup.
    intros i. rewrite in_seq, <- K1. lia.
  - intros c Hc. apply in_map_iff in Hc. destruct Hc as (c0 & <- & Hc). apply K3 in Hc. destruct c0; [congruence|discriminate].
  - intros u v Hu Hv. destruct (Hex u Hu) as (i & Li & ->). destruct (Hex v Hv) as (j & Lj & ->).
    unfold reaches. rewrite !rt_trans_iff.
    rewrite <- (clos_trans_edge n g ops G i j) by (apply Hp; auto).
    rewrite <- (clos_trans_edge n g ops G j i) by (apply Hp; auto).
    assert (Heq : ptr_of ops i = ptr_of ops j <-> i = j) by (split; [apply Hinj; auto|intros ->; auto]).
    assert (Heq' : ptr_of ops j = ptr_of ops i <-> i = j) by (rewrite <- Heq; split; auto).
    rewrite Heq, Heq'. unfold same_component. split.
    + intros (c & Hc & H1 & H2). apply in_map_iff in Hc. destruct Hc as (c0 & <- & Hc).
      rewrite Hin in H1, H2 by auto. apply (K4 c0 i Hc H1 j Lj) in H2. tauto.
    + intros HH. assert (Hs : i = j \/ clos_trans nat (Em n (matrix g)) i j /\ clos_trans nat (Em n (matrix g)) j i) by tauto.
      assert (Hic : In i (concat comps)) by (apply K1; auto). apply in_concat in Hic. destruct Hic as (c & Hc & Hic).
      exists (map (ptr_of ops) c). ands.
      * apply in_map_iff. eauto.
      * apply Hin; auto.
      * apply Hin; auto. apply (K4 c i Hc Hic j Lj); auto.
  - intros u v Huv. destruct (g_ends _ _ _ G u v Huv) as [Hu Hv].
    destruct (Hex u Hu) as (i & Li & ->). destruct (Hex v Hv) as (j & Lj & ->).
    assert (Hjc : In j (concat comps)) by (apply K1; auto). apply in_concat in Hjc. destruct Hjc as (c & Hc & Hjc).
    apply In_nth_error in Hc. destruct Hc as [k Hk].
    destruct (K5 k c j i Hk Hjc) as (k' & c' & L1 & L2 & L3).
    { apply (g_mat _ _ _ G). exists (ptr_of ops i), (ptr_of ops j). ands; auto. }
    assert (nth_error (map (map (ptr_of ops)) comps) k = Some (map (ptr_of ops) c)) as M1 by (now apply map_nth_error).
    assert (nth_error (map (map (ptr_of ops)) comps) k' = Some (map (ptr_of ops) c')) as M2 by (now apply map_nth_error).
    assert (Hc : In c comps) by (eapply nth_error_In; eauto). assert (Hc' : In c' comps) by (eapply nth_error_In; eauto).
    destruct (Nat.eq_dec k k') as [<-|Hne].
    + left. assert (c = c') by congruence. subst c'. exists (map (ptr_of ops) c). ands; [eapply nth_error_In; eauto| |]; apply Hin; auto.
    + right. exists k', k, (map (ptr_of ops) c'), (map (ptr_of ops) c). ands; auto; [apply Hin; auto|apply Hin; auto|lia].
Qed.
