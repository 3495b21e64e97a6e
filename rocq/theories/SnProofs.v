(** * SnProofs: lemmas about nodes of the Scala runtime. *)
From Verif Require Import Base SnModel SnSpec.
From Coq Require Import Lia Sorted.

Lemma nth_update : forall A (f : A -> A) l i j,
  nth_error (update i f l) j = if i =? j then option_map f (nth_error l j) else nth_error l j.
Proof.
  intros A f l. induction l as [|x l IH]; intros [|i] [|j]; simpl; try reflexivity.
  - destruct (i =? j); reflexivity.
  - apply IH.
Qed.
Lemma len_update : forall A (f : A -> A) l i, length (update i f l) = length l.
Proof. intros A f l. induction l as [|x l IH]; intros [|i]; simpl; auto. Qed.
Lemma nth_lt : forall A (l : list A) i x, nth_error l i = Some x -> i < length l.
Proof. intros A l i x H. apply nth_error_Some. congruence. Qed.

Lemma get_modify : forall r f h x, get (modify r f h) x = if r =? x then option_map f (get h x) else get h x.
Proof. intros. unfold get, modify. cbn. apply nth_update. Qed.

Definition in_b (x : ref) (l : list ref) : bool := existsb (Nat.eqb x) l.
Lemma in_b_In : forall x l, in_b x l = true <-> In x l.
Proof.
  intros x l. unfold in_b. rewrite existsb_exists. split.
  - intros (y & I & E). apply Nat.eqb_eq in E. subst. exact I.
  - intros I. exists x. split; [exact I|apply Nat.eqb_refl].
Qed.

Definition not_adoptable (h : heap) (pre : list ref) (bad : option ref) : Prop :=
  match bad with
  | None => True
  | Some c => In c pre \/ get h c = None \/ exists o, get h c = Some o /\ o_parent o <> None
  end.

Lemma adopt_spec : forall r chs h h' b, adopt r chs h = (h', b) ->
  exists pre rest, chs = map Some pre ++ rest /\
    (if b then rest = [] else exists bad post, rest = bad :: post /\ not_adoptable h pre bad) /\
    NoDup pre /\
    (forall c, In c pre -> exists o, get h c = Some o /\ o_parent o = None) /\
    h_nodes h' = h_nodes h /\ h_frozen h' = h_frozen h /\ length (h_objs h') = length (h_objs h) /\
    forall x, get h' x = if in_b x pre then option_map (set_parent r) (get h x) else get h x.
Proof.
  intros r chs. induction chs as [|ch chs IH]; intros h h' b E; cbn [adopt] in E.
  - injection E as <- <-. exists [], []. repeat split; auto using NoDup_nil. intros c [].
  - assert (STOP : not_adoptable h [] ch -> (h, false) = (h', b) -> exists pre rest, ch :: chs = map Some pre ++ rest /\
    (if b then rest = [] else exists bad post, rest = bad :: post /\ not_adoptable h pre bad) /\
    NoDup pre /\
    (forall c, In c pre -> exists o, get h c = Some o /\ o_parent o = None) /\
    h_nodes h' = h_nodes h /\ h_frozen h' = h_frozen h /\ length (h_objs h') = length (h_objs h) /\
    forall x, get h' x = if in_b x pre then option_map (set_parent r) (get h x) else get h x).
    { intros N Q. injection Q as <- <-. exists [], (ch :: chs). split; [reflexivity|]. split; [exists ch, chs; auto|].
      split; [constructor|]. split; [intros c []|]. repeat split; auto. }
    destruct ch as [ch|]; [|apply STOP; [exact I|exact E]].
    destruct (get h ch) as [o|] eqn:G; [|apply STOP; [right; left; exact G|exact E]].
    destruct (o_parent o) as [p|] eqn:P; [apply STOP; [right; right; exists o; split; [exact G|congruence]|exact E]|].
    clear STOP. destruct (IH _ _ _ E) as (pre & rest & CH & B & ND & AD & N & F & L & GX).
    assert (NI : ~ In ch pre).
    { intros C. destruct (AD ch C) as (o' & G' & P'). rewrite get_modify, Nat.eqb_refl, G in G'. injection G' as <-. discriminate. }
    exists (ch :: pre), rest. split; [rewrite CH; reflexivity|]. split.
    { destruct b; [exact B|]. destruct B as (bad & post & R & NA). exists bad, post. split; [exact R|].
      unfold not_adoptable in *. destruct bad as [c|]; [|exact I].
      destruct NA as [H|[H|(o' & H & P')]].
      - left; right; exact H.
      - right; left. rewrite get_modify in H. destruct (ch =? c); [|exact H]. destruct (get h c); [discriminate|reflexivity].
      - rewrite get_modify in H. destruct (Nat.eqb_spec ch c) as [->|D]; [left; left; reflexivity|].
        right; right. exists o'. auto. }
    split; [constructor; assumption|]. split.
    { intros c [<-|C]; [exists o; auto|]. destruct (AD c C) as (o' & G' & P'). rewrite get_modify in G'.
      destruct (Nat.eqb_spec ch c) as [Q|D]; [subst c; contradiction|]. exists o'. auto. }
    split; [exact N|]. split; [exact F|]. split; [rewrite L; apply len_update|].
    intros x. rewrite GX, get_modify. unfold in_b in *. cbn [existsb]. rewrite (Nat.eqb_sym x ch).
    destruct (Nat.eqb_spec ch x) as [Q|D]; cbn [orb]; [|reflexivity]. subst x.
    destruct (existsb (Nat.eqb ch) pre) eqn:X; [|reflexivity]. exfalso. apply NI, in_b_In. exact X.
Qed.

Lemma construct_spec : forall t con args h h' r, args_exist h args -> construct t con args h = (h', r) ->
  let n := length (h_objs h) in
  length (h_objs h') = S n /\ h_frozen h' = h_frozen h /\
  if h_frozen h t then
    r = None /\ h_nodes h' = h_nodes h /\ (forall x, x < n -> get h' x = get h x) /\
    get h' n = Some {| o_ty := t; o_con := con; o_args := args; o_num := 0; o_parent := None |}
  else exists pre rest, node_args args = map Some pre ++ rest /\
    (match r with Some r => r = n /\ rest = [] | None => exists bad post, rest = bad :: post /\ not_adoptable h pre bad end) /\
    NoDup pre /\
    (forall c, In c pre -> c < n /\ parent_of h c = None) /\
    h_nodes h' = (fun u => if u =? t then h_nodes h t ++ [n] else h_nodes h u) /\
    (forall x, x < n -> get h' x = if in_b x pre then option_map (set_parent n) (get h x) else get h x) /\
    get h' n = Some {| o_ty := t; o_con := con; o_args := args; o_num := length (h_nodes h t); o_parent := None |}.
Proof.
  intros t con args h h' r AE E n. unfold construct in E. fold n in E.
  set (o := {| o_ty := t; o_con := con; o_args := args; o_num := 0; o_parent := None |}) in *.
  set (h1 := {| h_objs := h_objs h ++ [o]; h_nodes := h_nodes h; h_frozen := h_frozen h |}) in *.
  assert (G1 : forall x, x < n -> get h1 x = get h x).
  { intros x L. unfold get, h1. cbn. apply nth_error_app1. exact L. }
  assert (G2 : get h1 n = Some o).
  { unfold get, h1. cbn. rewrite nth_error_app2 by (unfold n; lia). unfold n. rewrite Nat.sub_diag. reflexivity. }
  unfold register in E. rewrite G2 in E. unfold add in E. cbn [o_ty o] in E. change (h_frozen h1) with (h_frozen h) in E.
  destruct (h_frozen h t) eqn:FR.
  - injection E as <- <-. unfold h1. cbn. rewrite app_length. cbn. split; [unfold n; lia|]. split; [reflexivity|].
    split; [reflexivity|]. split; [reflexivity|]. split; [exact G1|exact G2].
  - change (children o) with (node_args args) in E.
    match type of E with context [adopt n (node_args args) ?x] => set (h2 := x) in *; destruct (adopt n (node_args args) h2) as (h3, b) eqn:A end.
    destruct (adopt_spec _ _ _ _ _ A) as (pre & rest & CH & B & ND & AD & N & F & L & GX).
    assert (G3 : forall x, x < n -> get h2 x = get h x).
    { intros x LX. unfold h2. rewrite get_modify. destruct (Nat.eqb_spec n x); [lia|]. apply (G1 x LX). }
    assert (LT : forall c, In c pre -> c < n).
    { intros c C. apply AE. assert (I : In (Some c) (node_args args)) by (rewrite CH; apply in_or_app; left; apply in_map; exact C).
      unfold node_args in I. apply in_flat_map in I. destruct I as ([r'|v] & IA & IC); cbn in IC; [|destruct IC].
      destruct IC as [->|[]]. exact IA. }
    assert (EH : h3 = h') by (destruct b; congruence). subst h3.
    split; [rewrite L; unfold h2, modify; cbn; rewrite len_update, app_length; cbn; unfold n; lia|].
    split; [rewrite F; reflexivity|].
    exists pre, rest. split; [exact CH|]. split.
    { destruct b.
      - injection E as <-. auto.
      - injection E as <-. destruct B as (bad & post & R & NA). exists bad, post. split; [exact R|].
        unfold not_adoptable in *. destruct bad as [c|]; [|exact I].
        assert (C : c < n).
        { apply AE. assert (IC : In (Some c) (node_args args)) by (rewrite CH, R; apply in_or_app; right; left; reflexivity).
          unfold node_args in IC. apply in_flat_map in IC. destruct IC as ([r'|v] & IA & IC); cbn in IC; [|destruct IC].
          destruct IC as [->|[]]. exact IA. }
        rewrite (G3 c C) in NA. exact NA. }
    split; [exact ND|]. split.
    { intros c C. split; [apply LT; exact C|]. destruct (AD c C) as (o' & G' & P'). rewrite (G3 c (LT c C)) in G'.
      unfold parent_of. rewrite G'. exact P'. }
    split; [rewrite N; reflexivity|]. split.
    { intros x LX. rewrite GX, (G3 x LX). reflexivity. }
    rewrite GX. destruct (in_b n pre) eqn:X; [apply in_b_In in X; specialize (LT n X); lia|].
    unfold h2. rewrite get_modify, Nat.eqb_refl.
    change (get {| h_objs := h_objs h1; h_nodes := fun u => if u =? t then h_nodes h1 t ++ [n] else h_nodes h1 u; h_frozen := h_frozen h |} n) with (get h1 n).
    rewrite G2. reflexivity.
Qed.

(** ** What never changes *)
Definition same_node (o o' : obj) : Prop :=
  o_ty o' = o_ty o /\ o_con o' = o_con o /\ o_args o' = o_args o /\ o_num o' = o_num o /\
  (forall p, o_parent o = Some p -> o_parent o' = Some p).
Definition grows (h h' : heap) : Prop :=
  (forall r o, get h r = Some o -> exists o', get h' r = Some o' /\ same_node o o') /\
  (forall t, exists m, h_nodes h' t = h_nodes h t ++ m) /\
  (forall t, h_frozen h t = true -> h_frozen h' t = true /\ h_nodes h' t = h_nodes h t) /\
  length (h_objs h) <= length (h_objs h').

Lemma same_refl : forall o, same_node o o.
Proof. intros o. unfold same_node. auto. Qed.
Lemma grows_refl : forall h, grows h h.
Proof.
  intros h. split; [intros r o G; exists o; split; [exact G|apply same_refl]|]. split; [intros t; exists []; symmetry; apply app_nil_r|].
  split; [auto|lia].
Qed.
Lemma grows_trans : forall a b c, grows a b -> grows b c -> grows a c.
Proof.
  intros a b c (A1 & A2 & A3 & A4) (B1 & B2 & B3 & B4). split; [|split; [|split]].
  - intros r o G. destruct (A1 r o G) as (o' & G' & S1). destruct (B1 r o' G') as (o'' & G'' & S2). exists o''. split; [exact G''|].
    unfold same_node in *. destruct S1 as (? & ? & ? & ? & P). destruct S2 as (? & ? & ? & ? & Q).
    repeat split; try congruence. intros p E. apply Q, P, E.
  - intros t. destruct (A2 t) as (m & E). destruct (B2 t) as (m' & E'). exists (m ++ m'). rewrite E', E, app_assoc. reflexivity.
  - intros t F. destruct (A3 t F) as (F1 & N1). destruct (B3 t F1) as (F2 & N2). split; [exact F2|congruence].
  - lia.
Qed.
Lemma construct_grows : forall t con args h h' r, args_exist h args -> construct t con args h = (h', r) -> grows h h'.
Proof.
  intros t con args h h' r AE E. destruct (construct_spec _ _ _ _ _ _ AE E) as (L & F & S).
  split; [|split; [|split]].
  - intros x o G. pose proof (nth_lt _ _ _ _ G) as LX. destruct (h_frozen h t).
    + destruct S as (_ & _ & GX & _). exists o. rewrite (GX x LX). split; [exact G|apply same_refl].
    + destruct S as (pre & rest & _ & _ & _ & AD & _ & GX & _). rewrite (GX x LX), G.
      destruct (in_b x pre) eqn:X; [|exists o; split; [reflexivity|apply same_refl]].
      exists (set_parent (length (h_objs h)) o). split; [reflexivity|]. unfold same_node. cbn. repeat split.
      intros p P. apply in_b_In in X. destruct (AD x X) as (_ & N). unfold parent_of in N. rewrite G in N. congruence.
  - intros u. destruct (h_frozen h t).
    + destruct S as (_ & N & _). rewrite N. exists []. symmetry. apply app_nil_r.
    + destruct S as (pre & rest & _ & _ & _ & _ & N & _). rewrite N. destruct (Nat.eqb_spec u t) as [->|D].
      * eexists. reflexivity.
      * exists []. symmetry. apply app_nil_r.
  - intros u FU. rewrite F. split; [exact FU|]. destruct (h_frozen h t) eqn:FT.
    + destruct S as (_ & N & _). rewrite N. reflexivity.
    + destruct S as (pre & rest & _ & _ & _ & _ & N & _). rewrite N. destruct (Nat.eqb_spec u t) as [->|D]; [congruence|reflexivity].
  - lia.
Qed.
Lemma finish_grows : forall t h, grows h (finish_phylum t h).
Proof.
  intros t h. split; [intros r o G; exists o; split; [exact G|apply same_refl]|]. split; [intros u; exists []; symmetry; apply app_nil_r|].
  split; [|cbn; lia]. intros u F. cbn. rewrite F. destruct (u =? t); auto.
Qed.

(** ** The invariant *)
Record inv (h : heap) : Prop := {
  i_nodes : forall t i r, nth_error (h_nodes h t) i = Some r ->
      exists o, get h r = Some o /\ o_ty o = t /\ o_num o = i;
  i_sorted : forall t, StronglySorted lt (h_nodes h t);
  i_args : forall r o c, get h r = Some o -> In (ANode (Some c)) (o_args o) -> c < r;
  i_parent : forall c p, parent_of h c = Some p -> child_of h c p /\ c < p;
  i_len : forall t r, In r (h_nodes h t) -> r < length (h_objs h)
}.

Lemma sorted_snoc : forall l n, StronglySorted lt l -> (forall x, In x l -> x < n) -> StronglySorted lt (l ++ [n]).
Proof.
  induction 1 as [|x l S IH F]; intros H; cbn [app]; [repeat constructor|].
  constructor; [apply IH; intros y I; apply H; right; exact I|]. apply Forall_app. split; [exact F|].
  constructor; [|constructor]. apply H. left; reflexivity.
Qed.

Lemma get_parent : forall h x p, parent_of h x = Some p -> exists o, get h x = Some o /\ o_parent o = Some p.
Proof. intros h x p. unfold parent_of. destruct (get h x) as [o|]; [|discriminate]. intros P. exists o. auto. Qed.

Lemma inv_construct : forall t con args h h' r, inv h -> args_exist h args -> construct t con args h = (h', r) -> inv h'.
Proof.
  intros t con args h h' r [IN IS IA IP IL] AE E.
  pose proof (construct_grows _ _ _ _ _ _ AE E) as (GR & _).
  destruct (construct_spec _ _ _ _ _ _ AE E) as (L & F & S). set (n := length (h_objs h)) in *.
  assert (ARG : forall x o, get h' x = Some o -> (x < n /\ exists o0, get h x = Some o0 /\ same_node o0 o) \/ (x = n /\ o_args o = args /\ o_parent o = None /\ o_con o = con)).
  { intros x o G. pose proof (nth_lt _ _ _ _ G) as LX. rewrite L in LX.
    destruct (Nat.eq_dec x n) as [->|D].
    - right. split; [reflexivity|]. destruct (h_frozen h t); [destruct S as (_ & _ & _ & G2)|destruct S as (? & ? & _ & _ & _ & _ & _ & _ & G2)];
        rewrite G2 in G; injection G as <-; auto.
    - left. assert (LT : x < n) by lia. split; [exact LT|]. destruct (get h x) as [o0|] eqn:G0.
      + destruct (GR x o0 G0) as (o' & G' & SN). rewrite G in G'. injection G' as <-. exists o0. auto.
      + apply nth_error_None in G0. unfold n in LT. lia. }
  constructor.
  - intros u i x N.
    assert (OLD : nth_error (h_nodes h u) i = Some x -> exists o, get h' x = Some o /\ o_ty o = u /\ o_num o = i).
    { intros N0. destruct (IN u i x N0) as (o & G & T & M). destruct (GR x o G) as (o' & G' & (? & ? & ? & ? & _)).
      exists o'. repeat split; congruence. }
    destruct (h_frozen h t).
    + destruct S as (_ & NN & _). rewrite NN in N. apply OLD, N.
    + destruct S as (pre & rest & _ & _ & _ & _ & NN & _ & G2). rewrite NN in N. destruct (Nat.eqb_spec u t) as [->|D]; [|apply OLD, N].
      destruct (Nat.lt_ge_cases i (length (h_nodes h t))) as [LI|GI].
      * rewrite nth_error_app1 in N by exact LI. apply OLD, N.
      * rewrite nth_error_app2 in N by exact GI. destruct (i - length (h_nodes h t)) as [|k] eqn:K; [|destruct k; discriminate].
        cbn in N. injection N as <-. eexists. split; [exact G2|]. cbn. split; [reflexivity|lia].
  - intros u. destruct (h_frozen h t).
    + destruct S as (_ & NN & _). rewrite NN. apply IS.
    + destruct S as (pre & rest & _ & _ & _ & _ & NN & _ & _). rewrite NN. destruct (Nat.eqb_spec u t) as [->|D]; [|apply IS].
      apply sorted_snoc; [apply IS|]. intros x I. apply (IL t x I).
  - intros x o c G I. destruct (ARG x o G) as [(LX & o0 & G0 & (_ & _ & A & _))|(-> & A & _)].
    + rewrite A in I. apply (IA x o0 c G0 I).
    + rewrite A in I. apply AE. exact I.
  - intros c p P. destruct (get_parent _ _ _ P) as (o & G & PO).
    destruct (ARG c o G) as [(LC & o0 & G0 & SN)|(_ & _ & PN & _)]; [|congruence].
    destruct (o_parent o0) as [q|] eqn:PQ.
    + destruct SN as (_ & _ & _ & _ & SP). rewrite (SP q PQ) in PO. injection PO as ->.
      assert (P0 : parent_of h c = Some p) by (unfold parent_of; rewrite G0; exact PQ).
      destruct (IP c p P0) as (CH & LT). split; [|exact LT]. unfold child_of, args_of in *.
      destruct CH as (con' & args' & A & I). destruct (get h p) as [op|] eqn:GP; [|discriminate]. cbn in A. injection A as <- <-.
      destruct (GR p op GP) as (op' & GP' & (_ & C & A & _)). exists (o_con op'), (o_args op'). rewrite GP'. split; [reflexivity|]. rewrite A. exact I.
    + destruct (h_frozen h t).
      * destruct S as (_ & _ & GX & _). rewrite (GX c LC), G0 in G. injection G as <-. congruence.
      * destruct S as (pre & rest & CH & _ & _ & AD & _ & GX & G2). rewrite (GX c LC), G0 in G.
        destruct (in_b c pre) eqn:X; [|injection G as <-; congruence]. injection G as <-. cbn in PO. injection PO as <-.
        split; [|exact LC]. apply in_b_In in X. exists con, args. unfold args_of. rewrite G2. split; [reflexivity|].
        assert (I : In (Some c) (node_args args)) by (rewrite CH; apply in_or_app; left; apply in_map; exact X).
        unfold node_args in I. apply in_flat_map in I. destruct I as ([r'|v] & I1 & I2); cbn in I2; [|destruct I2]. destruct I2 as [->|[]]. exact I1.
  - intros u x I. rewrite L. destruct (h_frozen h t).
    + destruct S as (_ & NN & _). rewrite NN in I. specialize (IL u x I). unfold n. lia.
    + destruct S as (pre & rest & _ & _ & _ & _ & NN & _ & _). rewrite NN in I. destruct (Nat.eqb_spec u t) as [->|D].
      * apply in_app_or in I. destruct I as [I|[<-|[]]]; [specialize (IL t x I); unfold n; lia|lia].
      * specialize (IL u x I). unfold n. lia.
Qed.

Lemma inv_finish : forall t h, inv h -> inv (finish_phylum t h).
Proof. intros t h [IN IS IA IP IL]. constructor; assumption. Qed.
Lemma inv_empty : inv empty.
Proof.
  constructor; cbn.
  - intros t [|i] r E; discriminate.
  - intros t. constructor.
  - intros r o c E. unfold get in E. cbn in E. destruct r; discriminate.
  - intros c p E. unfold parent_of, get in E. cbn in E. destruct c; discriminate.
  - intros t r [].
Qed.
Lemma history_inv : forall l h, history l h -> inv h.
Proof. induction 1; [apply inv_empty|eapply inv_construct; eassumption|apply inv_finish; assumption]. Qed.

Lemma snoc_inj : forall A (l l' : list A) x y, l ++ [x] = l' ++ [y] -> l = l' /\ x = y.
Proof. intros. apply app_inj_tail. assumption. Qed.

Lemma history_prefix : forall l' l h', history (l ++ l') h' -> exists h, history l h /\ grows h h'.
Proof.
  induction l' as [|x l' IH] using rev_ind; intros l h' H.
  - rewrite app_nil_r in H. exists h'. split; [exact H|apply grows_refl].
  - rewrite app_assoc in H.
    assert (C : exists h1, history (l ++ l') h1 /\ grows h1 h').
    { remember (((l ++ l') ++ [x])%list) as L eqn:Q. destruct H as [|l0 h t con args h' r H AE E|l0 h t H].
      - destruct (l ++ l'); discriminate.
      - apply snoc_inj in Q. destruct Q as (-> & _). exists h. split; [exact H|apply (construct_grows _ _ _ _ _ _ AE E)].
      - apply snoc_inj in Q. destruct Q as (-> & _). exists h. split; [exact H|apply finish_grows]. }
    destruct C as (h1 & H1 & G1). destruct (IH l h1 H1) as (h & H0 & G0). exists h. split; [exact H0|apply (grows_trans _ _ _ G0 G1)].
Qed.
