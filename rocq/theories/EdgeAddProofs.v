(** * EdgeAddProofs: add_edge on pointers refines an operation on lists. *)
From Verif Require Import Base CondModel EdgeModel PropsCond EdgeProofs.
Open Scope nat_scope.

Lemma wlinv_frame m m' g wl own :
  (forall a e, In a own -> edge_at m a = Some e -> exists e', edge_at m' a = Some e' /\ e_next e' = e_next e) ->
  wlinv m g wl own -> wlinv m' g wl own.
Proof.
  intros H W. constructor; try apply W.
  - eapply lseg_frame; [|apply W]. intros a e Ha Ea. apply H; auto. apply (wl_incl _ _ _ _ W); auto.
  - intros a Ha. destruct (wl_next _ _ _ _ W a Ha) as (e & E & G). destruct (H a e Ha E) as (e' & E' & Q). exists e'. split; auto. rewrite Q. auto.
Qed.
Lemma wlinv_own m g wl own own' : (forall a, In a own <-> In a own') -> wlinv m g wl own -> wlinv m g wl own'.
Proof.
  intros H W. constructor; try apply W.
  - intros a Ha. apply H. apply (wl_incl _ _ _ _ W); auto.
  - intros a Ha. apply (wl_next _ _ _ _ W). now apply H.
Qed.

Lemma new_edgeset_ok m fl src snk c k : freerep m (freelist m) fl -> NoDup fl ->
  exists m' p fl', new_edgeset src snk c k m = Ok (m', p) /\ edge_at m' p = Some (mkEdge 0 src snk c k 0) /\
    (forall q, q <> p -> edge_at m' q = edge_at m q) /\ freerep m' (freelist m') fl' /\
    ((fl = p :: fl') \/ (fl = [] /\ fl' = [] /\ edge_at m p = None)) /\ length (edges m) <= length (edges m').
Proof.
  intros F Nd. unfold new_edgeset. inversion F as [Ez|p e l E Ek F' Ep]; subst.
  - exists (mkMem (edges m ++ [mkEdge 0 src snk c k 0]) 0), (S (length (edges m))), []. ands; auto.
    + cbn [edge_at edges]. rewrite nth_error_app2, Nat.sub_diag by lia. reflexivity.
    + intros [|q] Hq; auto. cbn [edge_at edges]. destruct (Nat.lt_ge_cases q (length (edges m))); [now rewrite nth_error_app1|].
      rewrite nth_error_app2 by lia. destruct (q - length (edges m)) as [|d] eqn:Ed; [lia|]. cbn [nth_error].
      symmetry. transitivity (@None edge); [apply nth_error_None; lia|]. destruct d; reflexivity.
    + constructor.
    + right. ands; auto. cbn [edge_at]. apply nth_error_None. lia.
    + cbn [edges]. rewrite app_length. lia.
  - pose proof (edge_at_pos _ _ _ E) as Pz. destruct (freelist m) as [|i] eqn:Ef; [congruence|].
    rewrite (proj2 (load_at _ _ _) E). cbn [bind]. unfold no_dependency. rewrite Ek. cbn [N.eqb negb].
    destruct (store_ok (mkMem (edges m) (e_rest e)) (S i) e (mkEdge 0 src snk c k 0)) as (m' & -> & Hm & Hf & Hl).
    { exact E. }
    cbn [bind]. exists m', (S i), l. ands; auto.
    + rewrite Hm, Nat.eqb_refl. reflexivity.
    + intros q Hq. rewrite Hm. destruct (Nat.eqb_spec q (S i)); [congruence|reflexivity].
    + rewrite Hf. cbn [freelist]. eapply freerep_frame; [|exact F']. intros a ea Ha Ea. rewrite Hm. inversion Nd; subst.
      destruct (Nat.eqb_spec a (S i)); [subst; contradiction|]. eauto.
    + rewrite Hl. auto.
Qed.

Lemma free_edge_ok m g wl own own' fl a e : wlinv m g wl own -> In a own -> ~ In a own' -> incl own' own -> (forall b, In b own -> b = a \/ In b own') ->
  edge_at m a = Some e -> e_kind e <> 0%N -> freerep m (freelist m) fl -> (forall b, In b fl -> ~ In b own) ->
  exists m' g', free_edge a m g = Ok (m', g') /\ wlinv m' g' (rm a wl) own' /\ graph g' = graph g /\ n_inst g' = n_inst g /\
    freelist m' = a /\ freerep m' a (a :: fl) /\ length (edges m') = length (edges m) /\
    (forall q, ~ In q wl -> q <> a -> edge_at m' q = edge_at m q) /\
    (forall q e, q <> a -> edge_at m q = Some e -> exists e1, edge_at m' q = Some e1 /\ core e1 = core e).
Proof.
  intros W Ha Hna Hi Hown E Hk F Hd. unfold free_edge.
  destruct (set_rest_ok m a (freelist m) e E) as (m1 & -> & Hm1 & Hf1 & Hl1). cbn [bind].
  assert (E1 := Hm1 a). rewrite Nat.eqb_refl in E1. rewrite (proj2 (load_at _ _ _) E1). cbn [bind e_kind]. unfold no_dependency. destruct (N.eqb_spec (e_kind e) 0); [congruence|].
  destruct (set_kind_ok m1 a 0%N _ E1) as (m2 & -> & Hm2 & Hf2 & Hl2). cbn [bind e_rest e_source e_sink e_cond e_next] in *.
  assert (W2 : wlinv m2 g wl own).
  { eapply wlinv_frame; [|exact W]. intros b eb Hb Eb. rewrite Hm2, Hm1. destruct (Nat.eqb_spec b a); eauto. subst. eexists. split; [reflexivity|]. cbn. congruence. }
  destruct (remove_from_worklist_ok m2 g wl own own' a W2 Ha Hna Hi Hown) as (m3 & g3 & e3 & -> & W3 & G1 & G2 & Hf3 & Hl3 & Ho3 & Hc3 & E3 & K3 & R3). cbn [bind].
  exists (mkMem (edges m3) a), g3. split; [reflexivity|].
  assert (At : forall q, edge_at (mkMem (edges m3) a) q = edge_at m3 q) by (intros [|q]; reflexivity).
  ands; auto.
  - eapply wlinv_frame; [|exact W3]. intros b eb _ Eb. rewrite At. eauto.
  - econstructor; [rewrite At; exact E3|exact K3|]. specialize (R3 _ (eq_trans (Hm2 a) (f_equal (fun b : bool => if b then _ else _) (Nat.eqb_refl a)))). cbn [e_rest] in R3. rewrite R3.
    eapply freerep_frame; [|exact F]. intros b eb Hb Eb. rewrite At.
    assert (Hba : b <> a) by (intros ->; eapply Hd; eauto).
    destruct (Hc3 b eb Hba) as (e' & E' & C'). { rewrite Hm2, Hm1. destruct (Nat.eqb_spec b a); [congruence|auto]. }
    exists e'. unfold core in C'. split; auto. split; congruence.
  - cbn [edges]. congruence.
  - intros q Hq Hqa. rewrite At, Ho3 by auto. rewrite Hm2, Hm1. destruct (Nat.eqb_spec q a); [congruence|auto].
  - intros q eq Hqa Eq. rewrite At. apply Hc3; auto. rewrite Hm2, Hm1. destruct (Nat.eqb_spec q a); [congruence|auto].
Qed.

(** ** add_edge as a relation on lists *)
Inductive addR : condition -> N -> list aedge -> list addr -> list aedge -> list addr -> Prop :=
| addR_new c k wl a : ~ In a wl -> addR c k [] wl [(a, c, k)] (wl ++ [a])
| addR_entailed c k a c' k' l wl : at_most k k' = true -> is_lt_eq (cond_compare c c') = true -> addR c k ((a, c', k') :: l) wl ((a, c', k') :: l) wl
| addR_drop c k a c' k' l wl l' wl' : at_most k k' && is_lt_eq (cond_compare c c') = false ->
    at_most k' k = true -> is_gt_eq (cond_compare c c') = true -> addR c k l (rm a wl) l' wl' -> addR c k ((a, c', k') :: l) wl l' wl'
| addR_merge c k a c' l wl l' wl' : cond_compare c c' = CONDcomp ->
    addR (merge_cond c c') k l wl l' wl' -> ~ In a (ids l') -> addR c k ((a, c', k) :: l) wl l' (rm a wl')
| addR_keep c k a c' k' l wl l' wl' : at_most k k' && is_lt_eq (cond_compare c c') = false -> at_most k' k && is_gt_eq (cond_compare c c') = false ->
    (k' <> k \/ cond_compare c c' <> CONDcomp) -> addR c k l wl l' wl' -> ~ In a (ids l') -> addR c k ((a, c', k') :: l) wl ((a, c', k') :: l') wl'.

Definition good (l : list aedge) : Prop := forall a c k, In (a, c, k) l -> consistent c /\ k <> 0%N.
Definition disj (live fl oth : list addr) : Prop :=
  NoDup live /\ NoDup fl /\ (forall a, In a live -> ~ In a fl /\ ~ In a oth) /\ (forall a, In a fl -> ~ In a oth).

(** the merged condition *)
Lemma merge_spec c1 c2 : consistent c1 -> consistent c2 -> cond_compare c1 c2 = CONDcomp ->
  exists c i b, consistent c /\ untested c i /\ c1 = with_test c i b /\ c2 = with_test c i (negb b) /\ merge_cond c1 c2 = c /\
    N.land (N.lor (positive c1) (positive c2)) (N.lor (negative c1) (negative c2)) = (2 ^ i)%N.
Proof.
  intros S1 S2 E. pose proof (compare_cases c1 c2 S1 S2) as H. rewrite E in H. destruct H as ((c & i & b & A & (U1 & U2) & -> & ->) & _).
  assert (G : N.land (N.lor (positive (with_test c i b)) (positive (with_test c i (negb b)))) (N.lor (negative (with_test c i b)) (negative (with_test c i (negb b)))) = (2 ^ i)%N).
  { apply N.bits_inj; intros j; rewrite N.land_spec, !N.lor_spec, not_testbit_eqb; specialize (A j); unfold tb in A;
    destruct b; cbn [with_test negb positive negative]; rewrite ?N.lor_spec, ?not_testbit_eqb;
    destruct (N.eqb_spec i j); try subst j; rewrite ?U1, ?U2; auto; destruct (N.testbit (positive c) j), (N.testbit (negative c) j); auto; exfalso; auto. }
  exists c, i, b. ands; auto. { split; auto. }
  unfold merge_cond. rewrite G. destruct c as [p n]. cbn [positive negative] in *. f_equal; apply N.bits_inj; intros j; rewrite N.ldiff_spec, N.lor_spec, not_testbit_eqb;
      destruct b; cbn [with_test negb positive negative]; rewrite ?N.lor_spec, ?not_testbit_eqb;
      destruct (N.eqb_spec i j); try subst j; rewrite ?U1, ?U2; auto; rewrite ?orb_false_r, ?andb_true_r; destruct (N.testbit _ j); auto.
Qed.

Lemma ids_cons a c k l : ids ((a, c, k) :: l) = a :: ids l.
Proof. reflexivity. Qed.

Lemma add_edge_ok src snk k : k <> 0%N -> forall l fuel c cur m g wl own foreign fl,
  setrep m src snk cur l -> good l -> consistent c -> wlinv m g wl (ids l ++ own) -> freerep m (freelist m) fl ->
  disj (ids l) fl (own ++ foreign) -> (forall a, In a (own ++ foreign) -> exists e, edge_at m a = Some e) -> (forall a, In a own -> ~ In a foreign) -> length l <= fuel ->
  exists m' g' p' l' wl' fl', add_edge fuel src snk c k cur m g = Ok (m', g', p') /\
    setrep m' src snk p' l' /\ addR c k l wl l' wl' /\ wlinv m' g' wl' (ids l' ++ own) /\ freerep m' (freelist m') fl' /\
    disj (ids l') fl' (own ++ foreign) /\ (forall a e, In a own -> edge_at m a = Some e -> exists e', edge_at m' a = Some e' /\ core e' = core e) /\
    (forall a, In a foreign -> edge_at m' a = edge_at m a) /\ graph g' = graph g /\ n_inst g' = n_inst g /\ length (edges m) <= length (edges m').
Proof.
  intros Hk. induction l as [|[[a c'] k'] l IH]; intros fuel c cur m g wl own foreign fl S Hg Hc W F D O Of Hfu.
  all: assert (Wf : forall b, In b wl -> ~ In b foreign) by (intros b Hb; apply (wl_incl _ _ _ _ W) in Hb; apply in_app_iff in Hb; destruct Hb as [Hb|Hb]; [destruct D as (_ & _ & D3 & _); destruct (D3 b Hb) as (_ & Z); intros G; apply Z; apply in_or_app; auto|auto]).
  - inversion S; subst. destruct D as (D1 & D2 & D3 & D4).
    assert (add_edge fuel src snk c k 0 m g = '(m, p) <- new_edgeset src snk c k m ;; '(m, g) <- add_to_worklist p m g ;; Ok (m, g, p)) as ->.
    { destruct fuel; cbn [add_edge]; destruct (N.eqb_spec k 0); congruence || reflexivity. }
    destruct (new_edgeset_ok m fl src snk c k F D2) as (m1 & p & fl1 & -> & E1 & O1 & F1 & P1 & L1). cbn [bind].
    assert (Pn : ~ In p (own ++ foreign) /\ ~ In p fl1 /\ NoDup fl1 /\ (forall a, In a fl1 -> In a fl)).
    { destruct P1 as [->|(-> & -> & P1)].
      - inversion D2; subst. ands; auto. { apply D4. now left. } intros; now right.
      - ands; auto; try constructor. intros G. destruct (O p G) as (e & E). congruence. }
    destruct Pn as (Pn & Pf & Nf & If).
    assert (Pw : ~ In p wl). { intros G. apply Pn. apply in_or_app. left. apply (wl_incl _ _ _ _ W) in G. exact G. }
    assert (W1 : wlinv m1 g wl (p :: own)).
    { constructor.
      - eapply lseg_frame; [|apply W]. intros b eb Hb Eb. rewrite O1; [eauto|]. intros ->. contradiction.
      - apply W.
      - apply W.
      - intros b Hb. right. apply (wl_incl _ _ _ _ W) in Hb. exact Hb.
      - intros b [<-|Hb].
        + eexists. split; [exact E1|]. auto.
        + rewrite O1. { apply (wl_next _ _ _ _ W b Hb). } intros ->. apply Pn. apply in_or_app. auto. }
    destruct (add_to_worklist_ok m1 g wl (p :: own) p W1) as (m2 & g2 & -> & W2 & N2 & G1 & G2); auto. { now left. }
    cbn [bind]. exists m2, g2, p, [(p, c, k)], (wl ++ [p]), fl1. split; [reflexivity|].
    destruct (no_core _ _ _ N2 _ _ E1) as (e2 & E2 & C2). unfold core in C2. cbn in C2.
    ands; auto.
    + replace c with (e_cond e2) by congruence. replace k with (e_kind e2) by congruence. econstructor; try congruence. replace (e_rest e2) with 0 by congruence. constructor.
    + constructor. auto.
    + rewrite (no_free _ _ _ N2). eapply freerep_frame; [|exact F1]. intros b eb Hb Eb.
      destruct (no_core _ _ _ N2 _ _ Eb) as (e' & E' & C'). exists e'. unfold core in C'. ands; auto; congruence.
    + unfold disj. cbn [ids map id_of fst]. ands; auto.
      * constructor; [intros []|constructor].
      * intros b [<-|[]]. auto.
    + intros b eb Hb Eb. rewrite <- (O1 b) in Eb by (intros ->; apply Pn; apply in_or_app; auto). apply (no_core _ _ _ N2); auto.
    + intros b Hb. rewrite (no_out _ _ _ N2). { apply O1. intros ->. apply Pn. apply in_or_app. auto. } intros G. eapply Wf; eauto.
    + rewrite (no_len _ _ _ N2). auto.
  - inversion S as [|p e l0 E Es Ek S']; subst. destruct fuel as [|f]; [cbn in Hfu; lia|].
    assert (Az : a <> 0) by (eapply edge_at_pos; eauto).
    destruct (Hg a (e_cond e) (e_kind e)) as (Hc' & Hk'); [now left|].
    assert (Hg' : good l) by (intros b cb kb Hb; apply (Hg b); now right).
    rewrite ids_cons in W, D. destruct D as (D1 & D2 & D3 & D4). inversion D1 as [|x y D1a D1b]; subst x y.
    assert (Da := D3 a (or_introl eq_refl)). destruct Da as (Daf & Dao).
    cbn [add_edge]. destruct (N.eqb_spec k 0) as [|_]; [congruence|]. destruct a as [|i] eqn:Ea; [congruence|]. rewrite <- Ea in *. clear i Ea.
    rewrite (proj2 (load_at _ _ _) E). cbn [bind]. rewrite !Nat.eqb_refl. cbn [negb orb].
    set (comp := cond_compare c (e_cond e)) in *.
    destruct (at_most k (e_kind e) && is_lt_eq comp) eqn:T1.
    { apply andb_true_iff in T1. exists m, g, a, ((a, e_cond e, e_kind e) :: l), wl, fl. split; [reflexivity|]. ands; auto.
      - constructor; tauto.
      - unfold disj. ands; auto.
      - intros b eb Hb Eb. eauto. }
    (* facts for freeing a *)
    destruct (at_most (e_kind e) k && is_gt_eq comp) eqn:T2.
    { apply andb_true_iff in T2. destruct T2 as [T2 T2'].
      destruct (free_edge_ok m g wl (a :: ids l ++ own) (ids l ++ own) fl a e) as (m1 & g1 & -> & W1 & G1 & G2 & Ff & F1 & Hl1 & O1 & C1); auto.
      { now left. }
      { rewrite in_app_iff. intros [G|G]; [contradiction|]. apply Dao. apply in_or_app; auto. }
      { intros x Hx. now right. }
      { intros b [<-|Hb]; auto. }
      { intros b Hb [<-|Hb']; [contradiction|]. rewrite in_app_iff in Hb'. destruct Hb' as [Hb'|Hb'].
        - destruct (D3 b (or_intror Hb')). contradiction.
        - apply (D4 b Hb). apply in_or_app; auto. }
      cbn [bind].
      destruct (IH f c (e_rest e) m1 g1 (rm a wl) own foreign (a :: fl)) as (m2 & g2 & p2 & l2 & wl2 & fl2 & E2 & S2 & A2 & W2 & F2 & D2' & Co2 & Fo2 & Gr2 & N2 & L2); auto.
      { eapply setrep_frame; [|exact S']. intros b eb Hb Eb. apply C1; auto. intros ->. contradiction. }
      { rewrite Ff. exact F1. }
      { unfold disj. ands; auto.
        - constructor; auto.
        - intros b Hb. destruct (D3 b (or_intror Hb)). split; auto. intros [<-|G]; contradiction.
        - intros b [<-|Hb]; auto. }
      { intros b Hb. destruct (O b Hb) as (eb & Eb). destruct (C1 b eb) as (e1 & ? & _); eauto. intros ->. contradiction. }
      { cbn in Hfu. lia. }
      exists m2, g2, p2, l2, wl2, fl2. split; [exact E2|]. ands; auto.
      - eapply addR_drop; eauto.
      - intros b eb Hb Eb. destruct (C1 b eb) as (e1 & E1 & Co1); auto. { intros ->. apply Dao. apply in_or_app; auto. }
        destruct (Co2 b e1 Hb E1) as (e2 & ? & ?). exists e2. split; auto. congruence.
      - intros b Hb. rewrite Fo2 by auto. apply O1. { intros G. eapply Wf; eauto. } intros ->. apply Dao. apply in_or_app; auto.
      - congruence.
      - congruence.
      - lia. }
    destruct ((e_kind e =? k)%N && is_comp comp) eqn:T3.
    { apply andb_true_iff in T3. destruct T3 as [T3 T3']. apply N.eqb_eq in T3.
      assert (Ecomp : cond_compare c (e_cond e) = CONDcomp). { fold comp. destruct comp; cbn in T3'; congruence. }
      destruct (merge_spec c (e_cond e) Hc Hc' Ecomp) as (c0 & i & b0 & Q1 & Q2 & Q3 & Q4 & Q5 & Q6).
      rewrite Q6, one_bit_pow, andb_false_r.
      destruct (IH f (merge_cond c (e_cond e)) (e_rest e) m g wl (a :: own) foreign fl) as (m2 & g2 & p2 & l2 & wl2 & fl2 & E2 & S2 & A2 & W2 & F2 & D2' & Co2 & Fo2 & Gr2 & N2 & L2); auto.
      { rewrite Q5. auto. }
      { eapply wlinv_own; [|exact W]. intros x. cbn [In]. rewrite !in_app_iff. cbn [In]. tauto. }
      { unfold disj. ands; auto.
        - intros b Hb. destruct (D3 b (or_intror Hb)) as (X1 & X2). split; auto. cbn [app In]. intros [<-|G]; contradiction.
        - intros b Hb. cbn [app In]. intros [<-|G]; [contradiction|]. apply (D4 b); auto. }
      { cbn [app In]. intros b [<-|Hb]; eauto. }
      { intros b [<-|Hb]; auto. intros G. apply Dao. apply in_or_app; auto. }
      { cbn in Hfu. lia. }
      rewrite E2. cbn [bind]. destruct (Co2 a e (or_introl eq_refl) E) as (ea & Ea & Ca). unfold core in Ca.
      destruct D2' as (X1 & X2 & X3 & X4).
      destruct (free_edge_ok m2 g2 wl2 (ids l2 ++ a :: own) (ids l2 ++ own) fl2 a ea) as (m3 & g3 & -> & W3 & G1 & G2 & Ff & F3 & Hl3 & O3 & C3); auto.
      { apply in_or_app. right. now left. }
      { rewrite in_app_iff. intros [G|G]. - destruct (X3 a G) as (_ & Z). apply Z. now left. - apply Dao. apply in_or_app; auto. }
      { intros x. rewrite !in_app_iff. cbn [In]. tauto. }
      { intros b. rewrite !in_app_iff. cbn [In]. intros [|[|]]; auto. }
      { replace (e_kind ea) with (e_kind e) by congruence. auto. }
      { intros b Hb. rewrite in_app_iff. intros [G|G].
        - destruct (X3 b G). contradiction.
        - apply (X4 b Hb). change (a :: own) with ([a] ++ own) in *. rewrite <- app_assoc. cbn [app In] in *. rewrite in_app_iff. destruct G; auto. }
      cbn [bind]. exists m3, g3, p2, l2, (rm a wl2), (a :: fl2). split; [reflexivity|].
      assert (Al2 : ~ In a (ids l2)). { intros G. destruct (X3 a G) as (_ & Z). apply Z. now left. }
      ands; auto.
      - eapply setrep_frame; [|exact S2]. intros b eb Hb Eb. apply C3; auto. intros ->. contradiction.
      - rewrite T3. apply addR_merge; auto.
      - rewrite Ff. exact F3.
      - unfold disj. ands; auto.
        + constructor; auto. intros G. apply (X4 a G). now left.
        + intros b Hb. destruct (X3 b Hb) as (Y1 & Y2). split. { intros [<-|G]; contradiction. } intros G. apply Y2. now right.
        + intros b [<-|Hb]; auto. intros G. apply (X4 b Hb). now right.
      - intros b eb Hb Eb. destruct (Co2 b eb (or_intror Hb) Eb) as (e1 & E1 & C1'). destruct (C3 b e1) as (e4 & ? & ?); auto.
        { intros ->. apply Dao. apply in_or_app; auto. } exists e4. split; auto. congruence.
      - intros b Hb. rewrite O3. { apply Fo2; auto. }
        + intros G. apply (wl_incl _ _ _ _ W2) in G. rewrite in_app_iff in G. destruct G as [G|[<-|G]].
          * destruct (X3 b G) as (_ & Z). apply Z. cbn [app]. right. apply in_or_app. auto.
          * apply Dao. apply in_or_app. auto.
          * eapply Of; eauto.
        + intros ->. apply Dao. apply in_or_app; auto.
      - congruence.
      - congruence.
      - lia. }
    destruct (IH f c (e_rest e) m g wl (a :: own) foreign fl) as (m2 & g2 & p2 & l2 & wl2 & fl2 & E2 & S2 & A2 & W2 & F2 & D2' & Co2 & Fo2 & Gr2 & N2 & L2); auto.
    { eapply wlinv_own; [|exact W]. intros x. cbn [In]. rewrite !in_app_iff. cbn [In]. tauto. }
    { unfold disj. ands; auto.
      - intros b Hb. destruct (D3 b (or_intror Hb)) as (X1 & X2). split; auto. cbn [app In]. intros [<-|G]; contradiction.
      - intros b Hb. cbn [app In]. intros [<-|G]; [contradiction|]. apply (D4 b); auto. }
    { cbn [app In]. intros b [<-|Hb]; eauto. }
    { intros b [<-|Hb]; auto. intros G. apply Dao. apply in_or_app; auto. }
    { cbn in Hfu. lia. }
    rewrite E2. cbn [bind]. destruct (Co2 a e (or_introl eq_refl) E) as (ea & Ea & Ca). unfold core in Ca.
    destruct D2' as (X1 & X2 & X3 & X4). assert (Al2 : ~ In a (ids l2)). { intros G. destruct (X3 a G) as (_ & Z). apply Z. now left. }
    destruct (set_rest_ok m2 a p2 ea Ea) as (m3 & -> & Hm & Hf & Hl). cbn [bind].
    exists m3, g2, a, ((a, e_cond e, e_kind e) :: l2), wl2, fl2. split; [reflexivity|]. ands; auto.
    + replace (e_cond e) with (e_cond ea) by congruence. replace (e_kind e) with (e_kind ea) by congruence.
      apply (setrep_cons m3 _ _ a (mkEdge p2 (e_source ea) (e_sink ea) (e_cond ea) (e_kind ea) (e_next ea))).
      * rewrite Hm, Nat.eqb_refl. reflexivity.
      * cbn. congruence.
      * cbn. congruence.
      * cbn [e_rest]. eapply setrep_frame; [|exact S2]. intros b eb Hb Eb. rewrite Hm. destruct (Nat.eqb_spec b a); [subst; contradiction|]. eauto.
    + apply addR_keep; auto. destruct (N.eq_dec (e_kind e) k) as [Ek|]; auto. right. fold comp. intros Hcomp. rewrite Ek, N.eqb_refl, Hcomp in T3. discriminate.
    + rewrite ids_cons. apply (wlinv_own m3 g2 wl2 (ids l2 ++ a :: own)). { intros x. cbn [app In]. rewrite !in_app_iff. cbn [In]. tauto. }
      eapply wlinv_frame; [|exact W2]. intros b eb _ Eb. rewrite Hm. destruct (Nat.eqb_spec b a); eauto. subst. eexists. split; [reflexivity|]. cbn. congruence.
    + rewrite Hf. eapply freerep_frame; [|exact F2]. intros b eb Hb Eb. rewrite Hm. destruct (Nat.eqb_spec b a); eauto. subst. exfalso. apply (X4 a Hb). now left.
    + rewrite ids_cons. unfold disj. ands; auto.
      * constructor; auto.
      * intros b [<-|Hb]. { split; auto. intros G. apply (X4 a G). now left. } destruct (X3 b Hb) as (Y1 & Y2). split; auto. intros G. apply Y2. now right.
      * intros b Hb G. apply (X4 b Hb). now right.
    + intros b eb Hb Eb. destruct (Co2 b eb (or_intror Hb) Eb) as (e1 & E1 & C1). rewrite Hm. destruct (Nat.eqb_spec b a); eauto.
      subst. exfalso. apply Dao. apply in_or_app; auto.
    + intros b Hb. rewrite Hm. destruct (Nat.eqb_spec b a); [|auto]. subst. exfalso. apply Dao. apply in_or_app; auto.
    + rewrite Hl. auto.
Qed.
