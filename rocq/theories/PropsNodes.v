(** * PropsNodes: nodes, attributes and sequences of the Scala runtime (C106-C112). *)
From Verif Require Import Base SnModel SnSpec SnProofs SnAttr.
From Coq Require Import Lia Sorted FinFun.

(** ** C106: nodes are numbered as they are created *)
Lemma made_snoc : forall t l x, made t (l ++ [x]) =
  made t l + if existsb (fun e => match e with Finished u => u =? t | _ => false end) l then 0 else made t [x].
Proof.
  intros t l x. induction l as [|e l IH]; [reflexivity|]. cbn [app made existsb].
  destruct e as [u con args r|u].
  - rewrite IH. rewrite orb_false_l. apply Nat.add_assoc.
  - destruct (u =? t); cbn [orb]; [reflexivity|exact IH].
Qed.
Lemma finished_b : forall t l, existsb (fun e => match e with Finished u => u =? t | _ => false end) l = true <-> finished t l.
Proof.
  intros t l. unfold finished. rewrite existsb_exists. split.
  - intros ([u ? ? ?|u] & I & E); [discriminate|]. apply Nat.eqb_eq in E. subst. exact I.
  - intros I. exists (Finished t). split; [exact I|apply Nat.eqb_refl].
Qed.
Lemma frozen_finished : forall l h, history l h -> forall t, h_frozen h t = true <-> finished t l.
Proof.
  induction 1 as [|l h t con args h' r H IH AE E|l h t H IH]; intros u; unfold finished in *.
  - split; [discriminate|intros []].
  - destruct (construct_spec _ _ _ _ _ _ AE E) as (_ & F & _). rewrite F, (IH u). rewrite in_app_iff. cbn. intuition discriminate.
  - cbn [finish_phylum h_frozen]. rewrite in_app_iff. cbn. destruct (Nat.eqb_spec u t) as [->|D]; [intuition|].
    rewrite (IH u). intuition congruence.
Qed.

(** the heap is determined by the calls *)
Lemma history_det : forall l h1, history l h1 -> forall h2, history l h2 -> h1 = h2.
Proof.
  induction 1 as [|l h t con args h' r H IH AE E|l h t H IH]; intros h2 H2.
  - inversion H2 as [|? ? ? ? ? ? ? ? ? ? Q|? ? ? ? Q]; [reflexivity|destruct l; discriminate|destruct l; discriminate].
  - remember (l ++ [Constructed t con args r])%list as L eqn:Q. destruct H2 as [|l0 h0 t0 con0 args0 h0' r0 H0 AE0 E0|l0 h0 t0 H0].
      + destruct l; discriminate.
      + apply snoc_inj in Q. destruct Q as (-> & Q). injection Q as -> -> -> ->. rewrite (IH h0 H0) in E. congruence.
      + apply snoc_inj in Q. destruct Q; discriminate.
  - remember (l ++ [Finished t])%list as L eqn:Q. destruct H2 as [|l0 h0 t0 con0 args0 h0' r0 H0 AE0 E0|l0 h0 t0 H0].
      + destruct l; discriminate.
      + apply snoc_inj in Q. destruct Q; discriminate.
      + apply snoc_inj in Q. destruct Q as (-> & Q). injection Q as ->. rewrite (IH h0 H0). reflexivity.
Qed.

(** A constructor that returns gives a node of its phylum, with its arguments, whose
    number is its index among the nodes; *)
Theorem constructor_registers : forall l h t con args r, history l h -> In (Constructed t con args (Some r)) l ->
  type_of h r = Some t /\ args_of h r = Some (con, args) /\
  exists i, number_of h r = Some i /\ nth_error (h_nodes h t) i = Some r.
Proof.
  induction 1 as [|l h t0 con0 args0 h' r0 H IH AE E|l h t0 H IH]; intros I.
  - destruct I.
  - pose proof (construct_grows _ _ _ _ _ _ AE E) as (G1 & G2 & _). apply in_app_or in I. destruct I as [I|[I|[]]].
    + destruct (IH I) as (T & A & i & N & X). unfold type_of, args_of, number_of in *.
      destruct (get h r) as [o|] eqn:G; [|discriminate]. destruct (G1 r o G) as (o' & G' & (S1 & S2 & S3 & S4 & _)).
      rewrite G'. cbn in *. split; [congruence|]. split; [congruence|]. exists i. split; [congruence|].
      destruct (G2 t) as (m & ->). rewrite nth_error_app1 by (apply (nth_lt _ _ _ _ X)). exact X.
    + injection I as -> -> -> ->. destruct (construct_spec _ _ _ _ _ _ AE E) as (L & F & S).
      destruct (h_frozen h t); [destruct S; discriminate|]. destruct S as (pre & rest & _ & (-> & _) & _ & _ & N & _ & G).
      unfold type_of, args_of, number_of. rewrite G. cbn. split; [reflexivity|]. split; [reflexivity|].
      exists (length (h_nodes h t)). split; [reflexivity|]. rewrite N, Nat.eqb_refl, nth_error_app2, Nat.sub_diag by lia. reflexivity.
  - apply in_app_or in I. destruct I as [I|[I|[]]]; [|discriminate]. exact (IH I).
Qed.
(** the nodes of a phylum are in the order of their creation, each has its number,
    and there is one for each call before the phylum was finished; *)
Theorem nodes_numbered : forall l h t, history l h ->
  length (h_nodes h t) = made t l /\ StronglySorted lt (h_nodes h t) /\
  forall i r, nth_error (h_nodes h t) i = Some r -> type_of h r = Some t /\ number_of h r = Some i.
Proof.
  intros l h t H. pose proof (history_inv l h H) as I. split; [|split; [apply (i_sorted h I)|]].
  - revert t. clear I. induction H as [|l h t con args h' r H IH AE E|l h t H IH]; intros u; [reflexivity| |].
    + rewrite made_snoc. pose proof (frozen_finished l h H u) as FU. rewrite <- (finished_b u l) in FU.
      destruct (construct_spec _ _ _ _ _ _ AE E) as (_ & _ & S). destruct (h_frozen h t) eqn:FT.
      * destruct S as (_ & -> & _). rewrite IH. cbn [made]. destruct (Nat.eqb_spec t u) as [->|D].
        -- rewrite (proj1 FU FT). lia.
        -- destruct (existsb _ l); lia.
      * destruct S as (pre & rest & _ & _ & _ & _ & -> & _). cbn [made]. rewrite Nat.eqb_sym. destruct (Nat.eqb_spec t u) as [->|D].
        -- rewrite app_length, IH. cbn [length].
           destruct (existsb _ l) eqn:X; [rewrite (proj2 FU eq_refl) in FT; discriminate|lia].
        -- rewrite IH. destruct (existsb _ l); lia.
    + rewrite made_snoc. cbn [finish_phylum h_nodes made]. rewrite IH. destruct (existsb _ l); [lia|]. destruct (t =? u); lia.
  - intros i r N. destruct (i_nodes h I t i r N) as (o & G & T & M). unfold type_of, number_of. rewrite G. cbn. split; congruence.
Qed.
(** that never changes, and once the phylum is finished constructors fail and leave
    it alone. *)
Theorem nodes_stable : forall l l' h h', history l h -> history (l ++ l') h' ->
  (forall t, exists m, h_nodes h' t = h_nodes h t ++ m) /\
  (forall r t i, type_of h r = Some t -> number_of h r = Some i -> type_of h' r = Some t /\ number_of h' r = Some i) /\
  (forall t, finished t l -> h_nodes h' t = h_nodes h t).
Proof.
  intros l l' h h' H H'.
  destruct (history_prefix l' l h' H') as (h0 & H0 & G).
  rewrite (history_det l h H h0 H0) in *. destruct G as (G1 & G2 & G3 & _). split; [exact G2|]. split.
  - intros r t i T N. unfold type_of, number_of in *. destruct (get h0 r) as [o|] eqn:Q; [|discriminate].
    destruct (G1 r o Q) as (o' & -> & (S1 & _ & _ & S4 & _)). cbn in *. split; congruence.
  - intros t F. apply (G3 t). apply (frozen_finished l h0 H0 t). exact F.
Qed.
Theorem finished_phylum_fails : forall l h t con args h' r, history l h -> finished t l -> args_exist h args ->
  construct t con args h = (h', r) -> r = None /\ h_nodes h' = h_nodes h.
Proof.
  intros l h t con args h' r H F AE E. apply (frozen_finished l h H t) in F.
  destruct (construct_spec _ _ _ _ _ _ AE E) as (_ & _ & S). rewrite F in S. destruct S as (-> & N & _). auto.
Qed.

(** ** C107: parents *)
(** A constructor succeeds exactly if the phylum is not finished and the children
    are nodes without a parent, each given once. *)
Theorem constructor_succeeds : forall l h t con args h' r, history l h -> args_exist h args ->
  construct t con args h = (h', r) ->
  (r <> None <-> ~ finished t l /\ NoDup (node_args args) /\ forall x, In x (node_args args) -> exists c, x = Some c /\ parent_of h c = None).
Proof.
  intros l h t con args h' r H AE E. pose proof (frozen_finished l h H t) as FF.
  destruct (construct_spec _ _ _ _ _ _ AE E) as (_ & _ & S). destruct (h_frozen h t).
  - destruct S as (-> & _). split; [congruence|]. intros (NF & _). exfalso. apply NF, FF. reflexivity.
  - assert (NF : ~ finished t l) by (intros X; apply FF in X; discriminate).
    destruct S as (pre & rest & CH & RR & ND & AD & _). destruct r as [r|].
    + split; [|discriminate]. intros _. split; [exact NF|]. destruct RR as (_ & ->). rewrite app_nil_r in CH. rewrite CH. split.
      * apply FinFun.Injective_map_NoDup; [intros x y Q; injection Q; trivial|exact ND].
      * intros x X. apply in_map_iff in X. destruct X as (c & <- & C). exists c. split; [reflexivity|apply (AD c C)].
    + split; [congruence|]. intros (_ & ND' & OK). exfalso. destruct RR as (bad & post & -> & NA).
      destruct (OK bad) as (c & -> & P); [rewrite CH; apply in_or_app; right; left; reflexivity|].
      cbn in NA. destruct NA as [I|[G|(o & G & PO)]].
      * rewrite CH in ND'. apply NoDup_remove_2 in ND'. apply ND'. apply in_or_app. left. apply in_map. exact I.
      * assert (L : c < length (h_objs h)).
        { apply AE. assert (I : In (Some c) (node_args args)) by (rewrite CH; apply in_or_app; right; left; reflexivity).
          unfold node_args in I. apply in_flat_map in I. destruct I as ([r'|v] & I1 & I2); cbn in I2; [|destruct I2]. destruct I2 as [->|[]]. exact I1. }
        apply nth_error_None in G. lia.
      * unfold parent_of in P. rewrite G in P. contradiction.
Qed.
(** A parent was given the node as a child, and never changes. *)
Theorem parent_is_constructor : forall l h c p, history l h -> parent_of h c = Some p -> child_of h c p.
Proof. intros l h c p H P. apply (i_parent h (history_inv l h H) c p P). Qed.
Theorem parent_stable : forall l l' h' c p, history (l ++ l') h' -> exists h, history l h /\
  (parent_of h c = Some p -> parent_of h' c = Some p).
Proof.
  intros l l' h' c p H'. destruct (history_prefix l' l h' H') as (h & H & (G & _)). exists h. split; [exact H|]. intros P.
  destruct (get_parent _ _ _ P) as (o & GO & PO). destruct (G c o GO) as (o' & GO' & (_ & _ & _ & _ & SP)).
  unfold parent_of. rewrite GO'. apply SP. exact PO.
Qed.
(** Without exceptions the parent of a node is the node that it was given to: there
    is at most one. *)
Theorem parents_partial : forall l h, history l h -> no_exception l ->
  forall c p, parent_of h c = Some p <-> child_of h c p.
Proof.
  intros l h H NE c p. split; [apply (parent_is_constructor l h c p H)|]. revert c p.
  induction H as [|l h t con args h' r H IH AE E|l h t H IH]; intros c p (k & as_ & A & I).
  - unfold args_of, get in A. cbn in A. destruct p; discriminate.
  - assert (NE0 : no_exception l) by (intros t0 c0 a0 X; apply (NE t0 c0 a0); apply in_or_app; left; exact X).
    specialize (IH NE0). destruct (construct_spec _ _ _ _ _ _ AE E) as (L & F & S).
    destruct r as [r|]; [|exfalso; apply (NE t con args); apply in_or_app; right; left; reflexivity].
    destruct (h_frozen h t); [destruct S; discriminate|].
    destruct S as (pre & rest & CH & (-> & ->) & ND & AD & _ & GX & G2). rewrite app_nil_r in CH.
    pose proof (construct_grows _ _ _ _ _ _ AE E) as (GR & _).
    assert (LP : p < S (length (h_objs h))).
    { unfold args_of in A. destruct (get h' p) as [o|] eqn:G; [|discriminate]. rewrite <- L. apply (nth_lt _ _ _ _ G). }
    destruct (Nat.eq_dec p (length (h_objs h))) as [->|D].
    + unfold args_of in A. rewrite G2 in A. cbn in A. injection A as <- <-.
      assert (X : In c pre).
      { assert (X : In (Some c) (node_args args)) by (unfold node_args; apply in_flat_map; exists (ANode (Some c)); split; [exact I|left; reflexivity]).
        rewrite CH in X. apply in_map_iff in X. destruct X as (c' & Q & X). injection Q as ->. exact X. }
      destruct (AD c X) as (LC & _). unfold parent_of. rewrite (GX c LC). apply in_b_In in X. rewrite X.
      destruct (get h c) as [o|] eqn:G; [reflexivity|apply nth_error_None in G; lia].
    + assert (P0 : parent_of h c = Some p).
      { apply IH. exists k, as_. split; [|exact I]. unfold args_of in *. rewrite (GX p) in A by lia.
        destruct (in_b p pre); [destruct (get h p) as [o|]; exact A|exact A]. }
      destruct (get_parent _ _ _ P0) as (o & G & PO). destruct (GR c o G) as (o' & G' & (_ & _ & _ & _ & SP)).
      unfold parent_of. rewrite G'. apply SP. exact PO.
  - apply IH; [intros t0 c0 a0 X; apply (NE t0 c0 a0); apply in_or_app; left; exact X|]. exists k, as_. auto.
Qed.
(** But a call that fails at one of the children has already registered the new node
    and made it the parent of the children before: after that no constructor
    accepts them. *)
Theorem failed_constructor_refuted : forall l h t con args h', history l h -> args_exist h args -> ~ finished t l ->
  construct t con args h = (h', None) ->
  exists pre bad post, node_args args = map Some pre ++ bad :: post /\
    let n := length (h_objs h) in
    h_nodes h' t = h_nodes h t ++ [n] /\
    (forall c, In c pre -> parent_of h c = None /\ parent_of h' c = Some n) /\
    (forall l' h'' t' con' args' h''' r c, history ((l ++ [Constructed t con args None]) ++ l') h'' ->
       args_exist h'' args' -> In c pre -> In (ANode (Some c)) args' -> construct t' con' args' h'' = (h''', r) -> r = None).
Proof.
  intros l h t con args h' H AE NF E. pose proof (frozen_finished l h H t) as FF.
  pose proof (hist_construct l h t con args h' None H AE E) as H'.
  destruct (construct_spec _ _ _ _ _ _ AE E) as (_ & _ & S). destruct (h_frozen h t); [exfalso; apply NF, FF; reflexivity|].
  destruct S as (pre & rest & CH & (bad & post & -> & NA) & ND & AD & N & GX & G2).
  exists pre, bad, post. split; [exact CH|]. cbn zeta. split; [rewrite N, Nat.eqb_refl; reflexivity|].
  assert (PP : forall c, In c pre -> parent_of h c = None /\ parent_of h' c = Some (length (h_objs h))).
  { intros c C. destruct (AD c C) as (LC & P). split; [exact P|]. unfold parent_of. rewrite (GX c LC). apply in_b_In in C. rewrite C.
    destruct (get h c) as [o|] eqn:G; [reflexivity|apply nth_error_None in G; lia]. }
  split; [exact PP|]. intros l' h'' t' con' args' h3 r c H2 AE2 C I E2.
  destruct r as [r|]; [exfalso|reflexivity].
  destruct (constructor_succeeds _ _ _ _ _ _ _ H2 AE2 E2) as (SC & _). destruct (SC ltac:(discriminate)) as (_ & _ & OK).
  destruct (OK (Some c)) as (c' & Q & P).
  { unfold node_args. apply in_flat_map. exists (ANode (Some c)). split; [exact I|left; reflexivity]. }
  injection Q as <-. 
  assert (P2 : parent_of h'' c = Some (length (h_objs h))).
  { destruct (parent_stable _ l' h'' c (length (h_objs h)) H2) as (h0 & H0 & K). apply K.
    rewrite <- (history_det _ _ H' _ H0). apply PP. exact C. }
  congruence.
Qed.

(** ** C108: rooted nodes: those below a node of a start phylum *)
Definition rooted (starts : phylum -> bool) (h : heap) (r : ref) : Prop :=
  exists a t, ancestor h r a /\ type_of h a = Some t /\ starts t = true.
Lemma is_rooted_spec : forall starts h, inv h -> forall fuel r, length (h_objs h) <= r + fuel -> r < length (h_objs h) ->
  exists b, is_rooted starts fuel h r = Ok b /\ (b = true <-> rooted starts h r).
Proof.
  intros starts h I. induction fuel as [|fuel IH]; intros r L LR; [lia|]. cbn [is_rooted].
  destruct (get h r) as [o|] eqn:G; [|apply nth_error_None in G; lia].
  assert (P : parent_of h r = o_parent o) by (unfold parent_of; rewrite G; reflexivity).
  assert (T : type_of h r = Some (o_ty o)) by (unfold type_of; rewrite G; reflexivity).
  destruct (starts (o_ty o)) eqn:S.
  - exists true. split; [reflexivity|]. split; [|reflexivity]. intros _. exists r, (o_ty o). split; [constructor|auto].
  - destruct (o_parent o) as [p|] eqn:PO.
    + destruct (i_parent h I r p P) as ((k & as_ & A & _) & LT).
      assert (LP : p < length (h_objs h)).
      { unfold args_of in A. destruct (get h p) as [op|] eqn:GP; [|discriminate]. apply (nth_lt _ _ _ _ GP). }
      destruct (IH p ltac:(lia) LP) as (b & E & B). exists b. split; [exact E|]. rewrite B. split.
      * intros (a & t & AN & R). exists a, t. split; [apply (anc_parent h r p a P AN)|exact R].
      * intros (a & t & AN & TA & ST). destruct AN as [|p' a P' AN]; [rewrite T in TA; injection TA as <-; congruence|].
        rewrite P in P'. injection P' as <-. exists a, t. auto.
    + exists false. split; [reflexivity|]. split; [discriminate|]. intros (a & t & AN & TA & ST).
      destruct AN as [|p' a P' AN]; [rewrite T in TA; injection TA as <-; congruence|]. congruence.
Qed.
Theorem rooted_is_below_start : forall l h starts r t, history l h -> type_of h r = Some t ->
  forall fuel, length (h_objs h) <= fuel -> exists b, is_rooted starts fuel h r = Ok b /\ (b = true <-> rooted starts h r).
Proof.
  intros l h starts r t H T fuel F. apply is_rooted_spec; [apply (history_inv l h H)|lia|].
  unfold type_of in T. destruct (get h r) eqn:G; [|discriminate]. apply (nth_lt _ _ _ _ G).
Qed.

(** ** C109: every node has its own evaluation of an attribute *)
Theorem own_evaluation : forall t l h a i n, uses t l h a -> nth_error (h_nodes h t) i = Some n ->
  exists a', check_node h n a = Ok (i, a') /\
    (exists e, nth_error (at_evals a') i = Some e /\ e_anchor e = n) /\
    (forall j, status_of a' j = status_of a j).
Proof.
  intros t l h a i n U N. destruct (uses_inv t l h a U) as (H & A & T). pose proof (history_inv l h H) as I. subst t.
  destruct (check_total h n a i I A N) as (a' & C). exists a'. split; [exact C|].
  destruct (check_spec _ _ _ _ _ A C) as (A1 & T1 & _ & ST & LT & _). split; [|exact ST].
  destruct (nth_error (at_evals a') i) as [e|] eqn:NE; [|apply nth_error_None in NE; lia]. exists e. split; [reflexivity|].
  pose proof (ainv_anchor h a' i e A1 NE) as X. rewrite T1, N in X. congruence.
Qed.
(** The evaluations that exist are those of the first nodes. *)
Theorem evaluations_in_order : forall t l h a i e, uses t l h a -> nth_error (at_evals a) i = Some e ->
  nth_error (h_nodes h t) i = Some (e_anchor e).
Proof.
  intros t l h a i e U N. destruct (uses_inv t l h a U) as (H & A & T). subst t. apply (ainv_anchor h a i e A N).
Qed.

(** ** C110: finishing an attribute *)
(** the attribute of a node needs the attribute of nodes of the same phylum *)
Definition needs_nodes (h : heap) (needs : ref -> list ref) : Prop :=
  forall t n m, In n (h_nodes h t) -> In m (needs n) -> In m (h_nodes h t).

Fixpoint each (starts : phylum -> bool) (fuel : nat) (needs : ref -> list ref) (h : heap) (l : list ref) (a : attribute) : res attribute :=
  match l with
  | [] => Ok a
  | n :: l =>
      b <- is_rooted starts fuel h n ;;
      a <- (if b : bool then demand fuel needs h n a else Ok a) ;;
      each starts fuel needs h l a
  end.
Lemma finish_each : forall starts fuel needs h a, at_complete a = false ->
  finish_attribute starts fuel needs h a =
  (a <- each starts fuel needs h (h_nodes h (at_ty a)) a ;;
   Ok {| at_ty := at_ty a; at_evals := at_evals a; at_started := at_started a; at_complete := true |}).
Proof.
  intros starts fuel needs h a C. unfold finish_attribute. rewrite C. f_equal.
  generalize (h_nodes h (at_ty a)) as l. intros l. clear C. revert a.
  induction l as [|n l IH]; intros a; [reflexivity|]. cbn [each].
  destruct (is_rooted starts fuel h n) as [b| | |]; cbn [bind]; try reflexivity.
  destruct b; [destruct (demand fuel needs h n a) as [a1| | |]; cbn [bind]; try reflexivity; apply IH|].
  cbn [bind]. apply IH.
Qed.

Section FINISH.
Context (starts : phylum -> bool) (needs : ref -> list ref) (h : heap) (I : inv h) (CL : needs_nodes h needs).

Lemma each_after : forall fuel l a a', ainv h a -> (forall n, In n l -> listed h a n) -> length (h_objs h) <= fuel ->
  each starts fuel needs h l a = Ok a' ->
  after h a a' /\ (forall n, In n l -> rooted starts h n -> valued h a' n) /\
  (forall k, valued h a' k -> valued h a k \/ exists n, In n l /\ rooted starts h n /\ needed needs n k) /\
  (forall k m, valued h a' k -> In m (needs k) -> valued h a k \/ valued h a' m).
Proof.
  intros fuel. induction l as [|n l IH]; intros a a' A LI F E; cbn [each] in E.
  - injection E as <-. split; [constructor; try exact A; try reflexivity; auto; tauto|]. split; [intros n []|]. split; auto.
  - assert (LN : n < length (h_objs h)).
    { specialize (LI n (or_introl eq_refl)). apply In_nth_error in LI. destruct LI as (j & J).
      destruct (i_nodes h I _ _ _ J) as (o & G & _). apply (nth_lt _ _ _ _ G). }
    destruct (is_rooted_spec starts h I fuel n ltac:(lia) LN) as (b & R & B). rewrite R in E. cbn [bind] in E.
    destruct b.
    + destruct (demand fuel needs h n a) as [a1| | |] eqn:D; try discriminate. cbn [bind] in E.
      destruct (demand_after needs h I CL fuel n a a1 A (LI n (or_introl eq_refl)) D) as (F1 & F2 & F3 & F4).
      destruct (IH a1 a' (af_inv _ _ _ F1)) as (H1 & H2 & H3 & H4); [|exact F|exact E|].
      { intros x X. unfold listed. rewrite (af_ty _ _ _ F1). apply LI. right; exact X. }
      assert (MONO : forall k, valued h a1 k -> valued h a' k).
      { intros k (j & J & HV). exists j. rewrite (af_ty _ _ _ H1). split; [exact J|]. unfold has_value in *. rewrite (af_value _ _ _ H1 j HV). exact HV. }
      split; [apply (after_trans _ _ _ _ F1 H1)|]. split; [intros x [<-|X] RX; [apply MONO; exact F2|apply H2; assumption]|]. split.
      * intros k K. destruct (H3 k K) as [K1|(x & X & N)]; [|right; exists x; split; [right; exact X|exact N]].
        destruct (F3 k K1) as [K2|N]; [left; exact K2|]. right; exists n. split; [left; reflexivity|]. split; [apply B; reflexivity|exact N].
      * intros k x K X. destruct (H4 k x K X) as [K1|V]; [|right; exact V].
        destruct (F4 k x K1 X) as [K2|V]; [left; exact K2|right; apply MONO; exact V].
    + cbn [bind] in E. destruct (IH a a' A (fun x X => LI x (or_intror X)) F E) as (H1 & H2 & H3 & H4).
      split; [exact H1|]. split; [|split; [|exact H4]].
      * intros x [<-|X] RX; [apply B in RX; discriminate|apply H2; assumption].
      * intros k K. destruct (H3 k K) as [K1|(x & X & N)]; [left; exact K1|right; exists x; split; [right; exact X|exact N]].
Qed.

Context (rank : ref -> nat) (RK : forall n m, In m (needs n) -> rank m < rank n).
Lemma each_total : forall fuel l a, ainv h a -> (forall n, In n l -> listed h a n) -> (forall j, status_of a j <> InCycle) ->
  length (h_objs h) <= fuel -> (forall n, In n l -> rank n < fuel) -> exists a', each starts fuel needs h l a = Ok a'.
Proof.
  intros fuel. induction l as [|n l IH]; intros a A LI NC F RF; cbn [each]; [exists a; reflexivity|].
  assert (LN : n < length (h_objs h)).
  { specialize (LI n (or_introl eq_refl)). apply In_nth_error in LI. destruct LI as (j & J).
    destruct (i_nodes h I _ _ _ J) as (o & G & _). apply (nth_lt _ _ _ _ G). }
  destruct (is_rooted_spec starts h I fuel n ltac:(lia) LN) as (b & R & B). rewrite R. cbn [bind]. destruct b.
  - destruct (demand_total needs h I CL rank RK fuel n a (RF n (or_introl eq_refl)) A (LI n (or_introl eq_refl))) as (a1 & D).
    { intros j k J K. destruct (NC j K). }
    rewrite D. cbn [bind]. destruct (demand_after needs h I CL fuel n a a1 A (LI n (or_introl eq_refl)) D) as (F1 & _).
    apply IH; [apply (af_inv _ _ _ F1)| | |exact F|intros x X; apply RF; right; exact X].
    + intros x X. unfold listed. rewrite (af_ty _ _ _ F1). apply LI. right; exact X.
    + intros j K. apply (af_cycle _ _ _ F1) in K. apply (NC j K).
  - cbn [bind]. apply IH; [exact A|intros x X; apply LI; right; exact X|exact NC|exact F|intros x X; apply RF; right; exact X].
Qed.
End FINISH.

Lemma demand_cycle : forall needs h fuel n a a', ainv h a -> demand fuel needs h n a = Ok a' ->
  forall j, status_of a' j = InCycle <-> status_of a j = InCycle.
Proof.
  intros needs h. induction fuel as [|fuel IH]; intros n a a' A E; [discriminate|]. rewrite demand_step in E.
  destruct (check_node h n a) as [(i, a1)| | |] eqn:C; try discriminate. cbn [bind] in E.
  destruct (check_spec _ _ _ _ _ A C) as (A1 & T1 & _ & ST & LT & _).
  destruct (nth_error (at_evals a1) i) as [e|] eqn:NE; [|discriminate].
  assert (SI : status_of a i = e_status e) by (rewrite <- ST; unfold status_of; rewrite NE; reflexivity).
  destruct (e_status e); try discriminate; try (injection E as <-; intros j; rewrite ST; tauto).
  destruct (demand_all fuel needs h (needs (e_anchor e)) (set_status i InCycle a1)) as [a2| | |] eqn:D; try discriminate.
  cbn [bind] in E. injection E as <-.
  assert (ALL : forall l b a2, ainv h b -> demand_all fuel needs h l b = Ok a2 -> forall j, status_of a2 j = InCycle <-> status_of b j = InCycle).
  { clear - IH. induction l as [|m l IHl]; intros b a2 B D; cbn [demand_all] in D; [injection D as <-; tauto|].
    destruct (demand fuel needs h m b) as [b1| | |] eqn:DM; try discriminate. cbn [bind] in D. intros j.
    rewrite (IHl b1 a2 (proj1 (demand_ainv _ _ _ _ _ _ B DM)) D j). apply (IH m b b1 B DM). }
  pose proof (ALL _ _ _ (set_ainv _ _ _ _ A1) D) as X.
  assert (L2 : i < length (at_evals a2)).
  { assert (Y : status_of a2 i = InCycle) by (apply X; rewrite set_status_of, Nat.eqb_refl by exact LT; reflexivity).
    unfold status_of in Y. destruct (nth_error (at_evals a2) i) eqn:N2; [|discriminate]. apply (nth_lt _ _ _ _ N2). }
  intros j. rewrite (set_status_of a2 i Evaluated j L2). destruct (Nat.eqb_spec i j) as [Q|Q].
  - subst j. rewrite SI. split; discriminate.
  - rewrite X, (set_status_of a1 i InCycle j LT). destruct (Nat.eqb_spec i j); [contradiction|]. rewrite ST. tauto.
Qed.
Lemma assign_cycle : forall h n a a', ainv h a -> assign h n a = Ok a' -> (forall j, status_of a j <> InCycle) -> forall j, status_of a' j <> InCycle.
Proof.
  intros h n a a' A E NC j. unfold assign in E. rewrite (av_started h a A) in E.
  destruct (check_node h n a) as [(i, a1)| | |] eqn:C; try discriminate. cbn [bind] in E.
  destruct (check_spec _ _ _ _ _ A C) as (A1 & T1 & _ & ST & LT & _).
  destruct (nth_error (at_evals a1) i) as [e|]; [|discriminate].
  assert (Q : a' = set_status i Assigned a1) by (destruct (e_status e); try discriminate; injection E as <-; reflexivity). subst a'.
  rewrite (set_status_of a1 i Assigned j LT). destruct (i =? j); [discriminate|]. rewrite ST. apply NC.
Qed.
Lemma uses_no_cycle : forall t l h a, uses t l h a -> forall j, status_of a j <> InCycle.
Proof.
  induction 1 as [|l h a ty con args h' r U IH AE E|l h a ty U IH|l h a fuel needs n a' U IH D|l h a n a' U IH D]; auto.
  - intros j. unfold status_of. destruct j; discriminate.
  - intros j X. destruct (uses_inv _ _ _ _ U) as (_ & A & _). apply (demand_cycle _ _ _ _ _ _ A D) in X. apply (IH j X).
  - destruct (uses_inv _ _ _ _ U) as (_ & A & _). apply (assign_cycle _ _ _ _ A D IH).
Qed.

(** After [finish] every rooted node has a value, values that were there are kept,
    and a value was computed only for what a rooted node needs; *)
Theorem finish_values : forall t l h a starts needs fuel a', uses t l h a -> needs_nodes h needs ->
  at_complete a = false -> length (h_objs h) <= fuel -> finish_attribute starts fuel needs h a = Ok a' ->
  forall i n, nth_error (h_nodes h t) i = Some n ->
    (rooted starts h n -> has_value a' i) /\
    (has_value a i -> status_of a' i = status_of a i) /\
    (has_value a' i -> has_value a i \/ exists r, In r (h_nodes h t) /\ rooted starts h r /\ needed needs r n).
Proof.
  intros t l h a starts needs fuel a' U CL C F E i n N. destruct (uses_inv t l h a U) as (H & A & T). pose proof (history_inv l h H) as I.
  rewrite (finish_each starts fuel needs h a C) in E. destruct (each starts fuel needs h (h_nodes h (at_ty a)) a) as [a1| | |] eqn:D; try discriminate.
  cbn [bind] in E. injection E as <-. subst t.
  destruct (each_after starts needs h I CL fuel _ a a1 A (fun x X => X) F D) as (H1 & H2 & H3 & _).
  assert (VU : forall b k, valued h b k -> at_ty b = at_ty a -> nth_error (h_nodes h (at_ty a)) i = Some k -> has_value b i).
  { intros b k (j & J & HV) TB K. rewrite TB in J. destruct (i_nodes h I _ _ _ J) as (o & G & _ & NO).
    destruct (i_nodes h I _ _ _ K) as (o' & G' & _ & NO'). rewrite G in G'. injection G' as <-. replace i with j by congruence. exact HV. }
  unfold has_value, status_of. cbn [at_evals]. split; [|split].
  - intros R. apply (VU a1 n (H2 n (nth_error_In _ _ N) R) (af_ty _ _ _ H1) N).
  - intros HV. apply (af_value _ _ _ H1 i HV).
  - intros HV. destruct (H3 n) as [K|K]; [exists i; rewrite (af_ty _ _ _ H1); split; [exact N|exact HV]| |right; exact K].
    left. apply (VU a n K eq_refl N).
Qed.
(** for an attribute that was not used before exactly that. *)
Theorem finish_values_exactly : forall l h t starts needs fuel a', history l h -> needs_nodes h needs ->
  length (h_objs h) <= fuel -> finish_attribute starts fuel needs h (new_attribute t) = Ok a' ->
  forall i n, nth_error (h_nodes h t) i = Some n ->
    (has_value a' i <-> exists r, In r (h_nodes h t) /\ rooted starts h r /\ needed needs r n).
Proof.
  intros l h t starts needs fuel a' H CL F E i n N. pose proof (history_inv l h H) as I.
  rewrite (finish_each starts fuel needs h (new_attribute t) eq_refl) in E.
  destruct (each starts fuel needs h (h_nodes h (at_ty (new_attribute t))) (new_attribute t)) as [a1| | |] eqn:D; try discriminate.
  cbn [bind] in E. injection E as <-.
  assert (A : ainv h (new_attribute t)) by (constructor; reflexivity).
  destruct (each_after starts needs h I CL fuel _ (new_attribute t) a1 A (fun x X => X) F D) as (H1 & H2 & H3 & H4).
  assert (NV : forall k, ~ valued h (new_attribute t) k).
  { intros k (j & _ & [HV|HV]); unfold status_of in HV; cbn in HV; destruct j; discriminate. }
  assert (VU : forall k j, valued h a1 k -> nth_error (h_nodes h t) j = Some k -> has_value a1 j).
  { intros k j (j' & J & HV) K. rewrite (af_ty _ _ _ H1) in J. cbn [at_ty new_attribute] in J. destruct (i_nodes h I _ _ _ J) as (o & G & _ & NO).
    destruct (i_nodes h I _ _ _ K) as (o' & G' & _ & NO'). rewrite G in G'. injection G' as <-. replace j with j' by congruence. exact HV. }
  unfold has_value, status_of. cbn [at_evals]. split.
  - intros HV. destruct (H3 n) as [K|K]; [exists i; rewrite (af_ty _ _ _ H1); split; [exact N|exact HV]|destruct (NV n K)|exact K].
  - intros (r & R1 & R2 & R3). apply (VU n i); [|exact N].
    assert (V : valued h a1 r) by (apply H2; assumption). clear R1 R2 D N.
    induction R3 as [r|r m k M R3 IH]; [exact V|]. apply IH. destruct (H4 r m V M) as [X|X]; [destruct (NV r X)|exact X].
Qed.
(** Without cycles [finish] succeeds, and leaves the attribute complete; *)
Theorem finish_succeeds : forall t l h a starts needs rank, uses t l h a -> needs_nodes h needs ->
  (forall n m, In m (needs n) -> rank m < rank n) ->
  exists fuel0, forall fuel, fuel0 <= fuel -> exists a', finish_attribute starts fuel needs h a = Ok a' /\ at_complete a' = true.
Proof.
  intros t l h a starts needs rank U CL RK. destruct (uses_inv t l h a U) as (H & A & T). pose proof (history_inv l h H) as I.
  destruct (at_complete a) eqn:C.
  - exists 0. intros fuel _. unfold finish_attribute. rewrite C. cbn [bind]. eexists. split; [reflexivity|reflexivity].
  - assert (MX : forall ns, exists b, forall n, In n ns -> rank n < b).
    { induction ns as [|n ns (b & IH)]; [exists 0; intros n []|]. exists (S (rank n) + b). intros x [<-|X]; [lia|specialize (IH x X); lia]. }
    destruct (MX (h_nodes h (at_ty a))) as (b & B). exists (length (h_objs h) + b). intros fuel F. rewrite (finish_each _ _ _ _ _ C).
    destruct (each_total starts needs h I CL rank RK fuel (h_nodes h (at_ty a)) a A (fun x X => X) (uses_no_cycle _ _ _ _ U) ltac:(lia)) as (a' & E).
    { intros n N. specialize (B n N). lia. }
    rewrite E. cbn [bind]. eexists. split; [reflexivity|reflexivity].
Qed.
(** finishing again changes nothing. *)
Theorem finish_twice : forall starts fuel needs h a a' starts' fuel' needs' h',
  finish_attribute starts fuel needs h a = Ok a' -> finish_attribute starts' fuel' needs' h' a' = Ok a'.
Proof.
  intros starts fuel needs h a a' starts' fuel' needs' h' E.
  assert (C : at_complete a' = true).
  { unfold finish_attribute in E. destruct (if at_complete a then _ else _); try discriminate. cbn [bind] in E. injection E as <-. reflexivity. }
  unfold finish_attribute. rewrite C. cbn [bind]. rewrite <- C. destruct a'; reflexivity.
Qed.
(** An assignment is accepted unless that very node has been evaluated: that
    evaluation has started plays no role, and an assigned value may be replaced
    after another attribute was computed from it. *)
Theorem assign_accepted : forall t l h a i n, uses t l h a -> nth_error (h_nodes h t) i = Some n ->
  ((exists a', assign h n a = Ok a') <-> status_of a i <> Evaluated).
Proof.
  intros t l h a i n U N. destruct (uses_inv t l h a U) as (H & A & T). pose proof (history_inv l h H) as I. subst t.
  unfold assign. rewrite (av_started h a A). destruct (check_total h n a i I A N) as (a1 & C). rewrite C. cbn [bind].
  destruct (check_spec _ _ _ _ _ A C) as (A1 & _ & _ & ST & LT & _).
  destruct (nth_error (at_evals a1) i) as [e|] eqn:NE; [|apply nth_error_None in NE; lia].
  rewrite <- ST. unfold status_of. rewrite NE. destruct (e_status e); (split; [intros (a' & X); discriminate|intros X; eexists; reflexivity] || (split; [intros (a' & X); discriminate|intros X; congruence])).
Qed.
Theorem late_assign_refuted : forall t l h a i n m needs fuel a1, uses t l h a -> needs_nodes h needs ->
  nth_error (h_nodes h t) i = Some n -> In m (h_nodes h t) -> In n (needs m) -> status_of a i = Assigned ->
  demand fuel needs h m a = Ok a1 -> exists a2, assign h n a1 = Ok a2.
Proof.
  intros t l h a i n m needs fuel a1 U CL N M NM S D. pose proof (use_demand t l h a fuel needs m a1 U D) as U1.
  apply (assign_accepted t l h a1 i n U1 N). destruct (uses_inv t l h a U) as (H & A & T). subst t.
  destruct (demand_after needs h (history_inv l h H) CL fuel m a a1 A M D) as (F & _).
  rewrite (af_value _ _ _ F i (or_intror S)), S. discriminate.
Qed.
(** The node that a failed call of a constructor of the start phylum leaves behind
    is rooted, and so are the children it got: [finish] demands their attributes. *)
Theorem failed_start_refuted : forall l h t con args h' starts, history l h -> args_exist h args -> ~ finished t l ->
  construct t con args h = (h', None) -> starts t = true ->
  exists pre bad post, node_args args = map Some pre ++ bad :: post /\
    In (length (h_objs h)) (h_nodes h' t) /\ rooted starts h' (length (h_objs h)) /\
    (forall c, In c pre -> rooted starts h' c).
Proof.
  intros l h t con args h' starts H AE NF E ST.
  destruct (failed_constructor_refuted l h t con args h' H AE NF E) as (pre & bad & post & CH & N & P & _). cbn zeta in *.
  exists pre, bad, post. split; [exact CH|].
  assert (IN : In (length (h_objs h)) (h_nodes h' t)) by (rewrite N; apply in_or_app; right; left; reflexivity).
  assert (R : type_of h' (length (h_objs h)) = Some t).
  { apply In_nth_error in IN. destruct IN as (j & J).
    apply (nodes_numbered _ h' t (hist_construct l h t con args h' None H AE E)) in J. exact (proj1 J). }
  split; [exact IN|]. split; [exists (length (h_objs h)), t; split; [constructor|auto]|].
  intros c C. exists (length (h_objs h)), t. split; [apply (anc_parent h' c (length (h_objs h))); [apply P; exact C|constructor]|auto].
Qed.

(** ** C111: sequences *)
Section SEQUENCES.
Context {E : Type}.
Lemma size_length : forall t : tree E, size t = Z.of_nat (length (to_list t)).
Proof. induction t as [a IHa b IHb|x|]; cbn [size to_list]; [rewrite app_length, IHa, IHb; lia|reflexivity|reflexivity]. Qed.
Lemma nth_spec : forall (t : tree E) i,
  nth i t = if (i <? 0)%Z then Exit else match nth_error (to_list t) (Z.to_nat i) with Some x => Ok x | None => Exit end.
Proof.
  induction t as [a IHa b IHb|x|]; intros i; cbn [nth to_list].
  - rewrite IHa, IHb, size_length. destruct (Z.ltb_spec i (Z.of_nat (length (to_list a)))) as [L|G].
    + destruct (Z.ltb_spec i 0); [reflexivity|]. rewrite nth_error_app1 by lia. reflexivity.
    + destruct (Z.ltb_spec i 0); [lia|]. destruct (Z.ltb_spec (i - Z.of_nat (length (to_list a))) 0); [lia|].
      rewrite nth_error_app2 by lia. replace (Z.to_nat i - length (to_list a)) with (Z.to_nat (i - Z.of_nat (length (to_list a)))) by lia. reflexivity.
  - destruct (Z.eqb_spec i 0) as [->|D]; [reflexivity|]. destruct (Z.ltb_spec i 0); [reflexivity|].
    destruct (Z.to_nat i) as [|k] eqn:K; [lia|]. destruct k; reflexivity.
  - destruct (i <? 0)%Z; [reflexivity|]. destruct (Z.to_nat i); reflexivity.
Qed.
(** [nth] gives the elements in order, whatever the shape of the tree, and an
    exception outside of the bounds; [nth_from_end] counts from the other end. *)
Theorem sequence_nth : forall (t : tree E), size t = Z.of_nat (length (to_list t)) /\
  (forall i x, nth i t = Ok x <-> (0 <= i)%Z /\ nth_error (to_list t) (Z.to_nat i) = Some x) /\
  (forall i, nth i t = Exit <-> (i < 0 \/ size t <= i)%Z) /\
  (forall i, nth_from_end i t = nth (size t - 1 - i)%Z t).
Proof.
  intros t. split; [apply size_length|]. split; [|split].
  - intros i x. rewrite nth_spec. destruct (Z.ltb_spec i 0); [split; [discriminate|lia]|].
    destruct (nth_error (to_list t) (Z.to_nat i)) as [y|]; split; try discriminate.
    + intros Q. injection Q as ->. auto. + intros (_ & Q). injection Q as ->. reflexivity.
    + intros (_ & Q). discriminate.
  - intros i. rewrite nth_spec, size_length. destruct (Z.ltb_spec i 0); [split; auto; lia|].
    destruct (nth_error (to_list t) (Z.to_nat i)) as [y|] eqn:N; split; try discriminate.
    + pose proof (nth_lt _ _ _ _ N). lia. + apply nth_error_None in N. intros _. right. lia. + reflexivity.
  - intros i. rewrite nth_spec, size_length. unfold nth_from_end. destruct (Z.ltb_spec i 0) as [L|G].
    + destruct (Z.ltb_spec (Z.of_nat (length (to_list t)) - 1 - i) 0); [reflexivity|].
      rewrite (proj2 (nth_error_None _ _)) by lia. reflexivity.
    + destruct (Z.ltb_spec (Z.of_nat (length (to_list t)) - 1 - i) 0) as [L2|G2].
      * rewrite (proj2 (nth_error_None _ _)) by (rewrite rev_length; lia). reflexivity.
      * assert (LT : Z.to_nat i < length (to_list t)) by lia.
        replace (nth_error (rev (to_list t)) (Z.to_nat i)) with (nth_error (to_list t) (Z.to_nat (Z.of_nat (length (to_list t)) - 1 - i))); [reflexivity|].
        revert LT. generalize (to_list t) as l. intros l LT. replace (Z.to_nat (Z.of_nat (length l) - 1 - i)) with (length l - S (Z.to_nat i)) by lia.
        destruct l as [|d l0] eqn:Q; [cbn in LT; lia|]. rewrite <- Q in *. clear Q.
        rewrite (nth_error_nth' l d) by lia. rewrite (nth_error_nth' (rev l) d) by (rewrite rev_length; lia).
        rewrite rev_nth by lia. reflexivity.
Qed.
(** [position] is the first index of an element that [==] accepts, or -1;
    [member] says whether there is one. *)
Lemma index_spec : forall (eq : E -> E -> bool) x l i, (0 <= i)%Z ->
  (index_of eq x l i = -1 /\ existsb (fun y => eq y x) l = false)%Z \/
  exists l1 y l2, l = l1 ++ y :: l2 /\ eq y x = true /\ existsb (fun y => eq y x) l1 = false /\
    index_of eq x l i = (i + Z.of_nat (length l1))%Z.
Proof.
  intros eq x. induction l as [|y l IH]; intros i P; cbn [index_of existsb]; [left; auto|].
  destruct (eq y x) eqn:Q.
  - right. exists [], y, l. split; [reflexivity|]. split; [exact Q|]. split; [reflexivity|]. cbn. lia.
  - destruct (IH (i + 1)%Z ltac:(lia)) as [(A & B)|(l1 & z & l2 & -> & B & C & D)]; [left; auto|].
    right. exists (y :: l1), z, l2. split; [reflexivity|]. split; [exact B|]. split; [cbn; rewrite Q; exact C|].
    rewrite D. cbn [length]. lia.
Qed.
Theorem sequence_position : forall (eq : E -> E -> bool) x (t : tree E),
  (position eq x t = (-1)%Z <-> member eq x t = false) /\
  (member eq x t = true <-> exists y, In y (to_list t) /\ eq y x = true) /\
  (member eq x t = true -> exists y, nth (position eq x t) t = Ok y /\ eq y x = true /\
     forall i z, (0 <= i < position eq x t)%Z -> nth i t = Ok z -> eq z x = false) /\
  (member eq x t = true -> exists y, nth_from_end (position_from_end eq x t) t = Ok y /\ eq y x = true /\
     forall i z, (0 <= i < position_from_end eq x t)%Z -> nth_from_end i t = Ok z -> eq z x = false).
Proof.
  intros eq x t.
  assert (FIRST : forall l (g : Z -> res E), (forall i, g i = if (i <? 0)%Z then Exit else match nth_error l (Z.to_nat i) with Some x => Ok x | None => Exit end) ->
     existsb (fun y => eq y x) l = true -> exists y, g (index_of eq x l 0) = Ok y /\ eq y x = true /\
       forall i z, (0 <= i < index_of eq x l 0)%Z -> g i = Ok z -> eq z x = false).
  { intros l g G M. destruct (index_spec eq x l 0%Z ltac:(lia)) as [(_ & B)|(l1 & y & l2 & Q & B & C & D)]; [congruence|].
    exists y. rewrite D. replace (0 + Z.of_nat (length l1))%Z with (Z.of_nat (length l1)) by lia. split; [|split; [exact B|]].
    - rewrite G. destruct (Z.ltb_spec (Z.of_nat (length l1)) 0); [lia|]. rewrite Nat2Z.id, Q, nth_error_app2, Nat.sub_diag by lia. reflexivity.
    - intros i z (I1 & I2) Z0. rewrite G in Z0. destruct (Z.ltb_spec i 0); [lia|]. rewrite Q, nth_error_app1 in Z0 by lia.
      destruct (nth_error l1 (Z.to_nat i)) as [w|] eqn:N; [|discriminate]. injection Z0 as ->.
      destruct (eq z x) eqn:EZ; [|reflexivity]. rewrite <- C. symmetry. apply existsb_exists. exists z. split; [apply (nth_error_In _ _ N)|exact EZ]. }
  split; [|split; [|split]].
  - unfold position, member. destruct (index_spec eq x (to_list t) 0%Z ltac:(lia)) as [(A & B)|(l1 & y & l2 & -> & B & C & D)].
    + rewrite A, B. tauto.
    + rewrite D, existsb_app. cbn [existsb]. rewrite B, orb_true_r. split; [lia|discriminate].
  - apply existsb_exists.
  - intros M. apply (FIRST (to_list t) (fun i => nth i t)); [intros i; apply nth_spec|exact M].
  - intros M. apply (FIRST (rev (to_list t)) (fun i => nth_from_end i t)); [intros i; reflexivity|].
    apply existsb_exists in M. destruct M as (y & Y & Q). apply existsb_exists. exists y. split; [apply -> in_rev; exact Y|exact Q].
Qed.
(** ** C112: which equality *)
(** If [==] tells all elements apart, as the equality of the phylum does, [member]
    and [position] are about the node given; *)
Theorem sequence_identity_partial : forall (eq : E -> E -> bool) x (t : tree E),
  (forall y, In y (to_list t) -> (eq y x = true <-> y = x)) ->
  (member eq x t = true <-> In x (to_list t)) /\
  (In x (to_list t) -> nth (position eq x t) t = Ok x).
Proof.
  intros eq x t ID. destruct (sequence_position eq x t) as (_ & M & P & _).
  assert (MI : member eq x t = true <-> In x (to_list t)).
  { rewrite M. split; [intros (y & Y & Q); apply (ID y Y) in Q; subst; exact Y|]. intros X. exists x. split; [exact X|apply (ID x X); reflexivity]. }
  split; [exact MI|]. intros X. destruct (P (proj2 MI X)) as (y & N & Q & _). rewrite N. f_equal.
  apply ID; [|exact Q]. apply (proj1 (proj2 (sequence_nth t)) _ _) in N. apply (nth_error_In _ _ (proj2 N)).
Qed.
End SEQUENCES.
(** but nodes are case classes, and two nodes with equal arguments are [==]: [member]
    finds a node that is not there, and [position] is the index of another node. *)
Definition scala_eq (h : heap) (x y : ref) : bool :=
  match eq_struct (S x) h x y with Ok b => b | _ => false end.
Theorem sequence_equality_refuted : forall h r1 r2 con args, r1 <> r2 ->
  args_of h r1 = Some (con, args) -> args_of h r2 = Some (con, args) -> node_args args = [] ->
  member (scala_eq h) r2 (Single r1) = true /\
  position (scala_eq h) r2 (Append (Single r1) (Single r2)) = 0%Z /\
  nth 0 (Append (Single r1) (Single r2)) = Ok r1.
Proof.
  intros h r1 r2 con args D A1 A2 NA.
  assert (Q : scala_eq h r1 r2 = true).
  { unfold scala_eq. rewrite eq_step. unfold args_of in *. destruct (get h r1) as [o1|]; [|discriminate]. destruct (get h r2) as [o2|]; [|discriminate].
    cbn in A1, A2. injection A1 as C1 B1. injection A2 as C2 B2. rewrite C1, C2, Nat.eqb_refl, B1, B2.
    clear - NA. induction args as [|[r|v] args IH]; [reflexivity|discriminate|]. cbn [eq_list]. rewrite Nat.eqb_refl. apply IH. exact NA. }
  unfold member, position. cbn [to_list existsb app index_of]. rewrite Q. split; [reflexivity|]. split; reflexivity.
Qed.

(** ** Examples *)
(** phylum 0: leaves [con 1 (v)] and nodes [con 2 (x, y)]; phylum 1 (the start):
    [con 3 (x)].  Nodes: 0 = 1(7), 1 = 1(7), 2 = 2(0,1), 3 = 3(2), 4 = 1(9). *)
Definition ex_calls : list (phylum * nat * list arg) :=
  [(0, 1, [AVal 7]); (0, 1, [AVal 7]); (0, 2, [ANode (Some 0); ANode (Some 1)]); (1, 3, [ANode (Some 2)]); (0, 1, [AVal 9])].
Fixpoint run (l : list (phylum * nat * list arg)) (h : heap) : heap :=
  match l with [] => h | (t, con, args) :: l => run l (fst (construct t con args h)) end.
Fixpoint events (l : list (phylum * nat * list arg)) (h : heap) : list event :=
  match l with [] => [] | (t, con, args) :: l => Constructed t con args (snd (construct t con args h)) :: events l (fst (construct t con args h)) end.
Fixpoint exist_b (l : list (phylum * nat * list arg)) (h : heap) : bool :=
  match l with
  | [] => true
  | (t, con, args) :: l =>
      forallb (fun a => match a with ANode (Some c) => c <? length (h_objs h) | _ => true end) args && exist_b l (fst (construct t con args h))
  end.
Lemma run_history : forall calls l h, history l h -> exist_b calls h = true -> history (l ++ events calls h) (run calls h).
Proof.
  induction calls as [|((t, con), args) calls IH]; intros l h H E; cbn [events run exist_b] in *; [rewrite app_nil_r; exact H|].
  apply andb_true_iff in E. destruct E as (E1 & E2).
  change (Constructed t con args (snd (construct t con args h)) :: events calls (fst (construct t con args h)))
    with ([Constructed t con args (snd (construct t con args h))] ++ events calls (fst (construct t con args h)))%list.
  rewrite app_assoc. apply IH; [|exact E2]. apply (hist_construct l h t con args); [exact H| |apply surjective_pairing].
  intros c C. rewrite forallb_forall in E1. specialize (E1 _ C). cbn in E1. apply Nat.ltb_lt. exact E1.
Qed.
Lemma run_uses : forall t calls l h a, uses t l h a -> exist_b calls h = true -> uses t (l ++ events calls h) (run calls h) a.
Proof.
  intros ty. induction calls as [|((t, con), args) calls IH]; intros l h a H E; cbn [events run exist_b] in *; [rewrite app_nil_r; exact H|].
  apply andb_true_iff in E. destruct E as (E1 & E2).
  change (Constructed t con args (snd (construct t con args h)) :: events calls (fst (construct t con args h)))
    with ([Constructed t con args (snd (construct t con args h))] ++ events calls (fst (construct t con args h)))%list.
  rewrite app_assoc. apply IH; [|exact E2]. apply (use_construct ty l h a t con args); [exact H| |apply surjective_pairing].
  intros c C. rewrite forallb_forall in E1. specialize (E1 _ C). cbn in E1. apply Nat.ltb_lt. exact E1.
Qed.
Definition ex_heap : heap := run ex_calls empty.
Definition ex_events : list event := events ex_calls empty.
Lemma ex_history : history ex_events ex_heap.
Proof. apply (run_history ex_calls [] empty hist_none eq_refl). Qed.

Example C106_example : map (number_of ex_heap) [0; 1; 2; 3; 4] = [Some 0; Some 1; Some 2; Some 0; Some 3] /\
  h_nodes ex_heap 0 = [0; 1; 2; 4] /\ made 0 ex_events = 4 /\ made 1 ex_events = 1 /\
  snd (construct 0 1 [AVal 3] (finish_phylum 0 ex_heap)) = None /\
  snd (construct 1 3 [ANode (Some 4)] (finish_phylum 0 ex_heap)) = Some 5.
Proof. vm_compute. repeat split. Qed.
(** a second parent for node 2, the same child twice, null, and a failed call that
    has taken node 4 *)
Example C107_example : map (parent_of ex_heap) [0; 1; 2; 3; 4] = [Some 2; Some 2; Some 3; None; None] /\
  snd (construct 1 3 [ANode (Some 2)] ex_heap) = None /\
  snd (construct 0 2 [ANode (Some 4); ANode (Some 4)] ex_heap) = None /\
  snd (construct 0 2 [ANode (Some 4); ANode None] ex_heap) = None /\
  snd (construct 1 3 [ANode (Some 4)] ex_heap) = Some 5 /\
  (let h := fst (construct 0 2 [ANode (Some 4); ANode (Some 2)] ex_heap) in
   h_nodes h 0 = [0; 1; 2; 4; 5] /\ parent_of h 4 = Some 5 /\ snd (construct 1 3 [ANode (Some 4)] h) = None).
Proof. vm_compute. repeat split. Qed.
Definition ex_starts (t : phylum) : bool := t =? 1.
Example C108_example : map (is_rooted ex_starts 5 ex_heap) [0; 1; 2; 3; 4] = [Ok true; Ok true; Ok true; Ok true; Ok false].
Proof. vm_compute. reflexivity. Qed.
(** node 2 needs the attribute of its children, node 0 that of node 4 *)
Definition ex_needs (n : ref) : list ref := match n with 2 => [0; 1] | 0 => [4] | _ => [] end.
Definition ex_rank (n : ref) : nat := match n with 2 => 2 | 0 => 1 | _ => 0 end.
Lemma ex_needs_nodes : needs_nodes ex_heap ex_needs.
Proof.
  intros t n m I M. assert (T0 : t = 0 \/ h_nodes ex_heap t = [3] \/ h_nodes ex_heap t = []).
  { destruct t as [|[|t]]; [left; reflexivity|right; left; reflexivity|right; right; reflexivity]. }
  destruct T0 as [->|[Q|Q]].
  - change (h_nodes ex_heap 0) with [0; 1; 2; 4] in *.
    destruct n as [|[|[|n]]]; cbn in M; try destruct M as [<-|M]; try destruct M as [<-|M]; try destruct M; cbn; auto.
  - rewrite Q in I. destruct I as [<-|[]]. destruct M.
  - rewrite Q in I. destruct I.
Qed.
Example C109_example : exists a, check_node ex_heap 4 (new_attribute 0) = Ok (3, a) /\ map e_anchor (at_evals a) = [0; 1; 2; 4].
Proof. eexists. vm_compute. split; reflexivity. Qed.
Example C110_example :
  needs_nodes ex_heap ex_needs /\ (forall n m, In m (ex_needs n) -> ex_rank m < ex_rank n) /\
  uses 0 ex_events ex_heap (new_attribute 0) /\
  exists a, finish_attribute ex_starts 9 ex_needs ex_heap (new_attribute 0) = Ok a /\
    map (status_of a) [0; 1; 2; 3] = [Evaluated; Evaluated; Evaluated; Evaluated].
Proof.
  split; [apply ex_needs_nodes|]. split.
  { intros n m M. destruct n as [|[|[|n]]]; cbn in M; try destruct M as [<-|M]; try destruct M as [<-|M]; try destruct M; cbn; lia. }
  split; [apply (run_uses 0 ex_calls [] empty _ (use_none 0) eq_refl)|].
  eexists. vm_compute. split; reflexivity.
Qed.
(** without the need of node 0 the value of node 4, which is not rooted, is not computed *)
Example C110_unrooted_example : exists a,
  finish_attribute ex_starts 9 (fun n => match n with 2 => [0; 1] | _ => [] end) ex_heap (new_attribute 0) = Ok a /\
  map (status_of a) [0; 1; 2; 3] = [Evaluated; Evaluated; Evaluated; Unevaluated].
Proof. eexists. vm_compute. split; reflexivity. Qed.
(** node 4 is assigned, node 2 is evaluated from it, and node 4 is assigned again *)
Example C110_late_example : exists a1 a2 a3, assign ex_heap 4 (new_attribute 0) = Ok a1 /\
  demand 9 ex_needs ex_heap 2 a1 = Ok a2 /\ assign ex_heap 4 a2 = Ok a3 /\
  status_of a1 3 = Assigned /\ status_of a2 2 = Evaluated /\ assign ex_heap 2 a2 = Exit.
Proof. do 3 eexists. vm_compute. repeat split. Qed.
Example C110_failed_start_example :
  let h' := fst (construct 1 5 [ANode (Some 4); ANode (Some 2)] ex_heap) in
  snd (construct 1 5 [ANode (Some 4); ANode (Some 2)] ex_heap) = None /\ is_rooted ex_starts 6 h' 4 = Ok true.
Proof. vm_compute. split; reflexivity. Qed.
Example C111_example : let t := Append (Append None_ (Single 5)) (Append (Single 6) (Single 5)) in
  size t = 3%Z /\ map (fun i => nth i t) [-1; 0; 1; 2; 3]%Z = [Exit; Ok 5; Ok 6; Ok 5; Exit] /\
  nth_from_end 1 t = Ok 6 /\ position Nat.eqb 5 t = 0%Z /\ position_from_end Nat.eqb 6 t = 1%Z /\ position Nat.eqb 7 t = (-1)%Z.
Proof. vm_compute. repeat split. Qed.
(** the leaves 0 and 1 *)
Example C112_example : args_of ex_heap 0 = Some (1, [AVal 7]) /\ args_of ex_heap 1 = Some (1, [AVal 7]) /\
  member (scala_eq ex_heap) 1 (Single 0) = true /\ scala_eq ex_heap 4 1 = false.
Proof. vm_compute. repeat split. Qed.

Print Assumptions constructor_registers.
Print Assumptions nodes_numbered.
Print Assumptions nodes_stable.
Print Assumptions finished_phylum_fails.
Print Assumptions constructor_succeeds.
Print Assumptions parent_is_constructor.
Print Assumptions parent_stable.
Print Assumptions parents_partial.
Print Assumptions failed_constructor_refuted.
Print Assumptions rooted_is_below_start.
Print Assumptions own_evaluation.
Print Assumptions evaluations_in_order.
Print Assumptions finish_values.
Print Assumptions finish_values_exactly.
Print Assumptions finish_succeeds.
Print Assumptions finish_twice.
Print Assumptions assign_accepted.
Print Assumptions late_assign_refuted.
Print Assumptions failed_start_refuted.
Print Assumptions sequence_nth.
Print Assumptions sequence_position.
Print Assumptions sequence_identity_partial.
Print Assumptions sequence_equality_refuted.
