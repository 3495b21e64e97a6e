(** * PropsAlist: C36.  Specification, proofs and final theorems for alist.c and table.c. *)
From Verif Require Import Base AlistModel.

(** ** Specification: what a history of calls should answer *)
(** The value most recently set for (t,k) in a history (latest call first), NULL if none. *)
Fixpoint latest (hist : list top) (t k : word) : word :=
  match hist with
  | [] => 0
  | Set_ t' k' v :: hist => if (t' =? t) && (k' =? k) then v else latest hist t k
  | _ :: hist => latest hist t k
  end.
(** Was (t,k) ever set? *)
Definition was_set (hist : list top) (t k : word) : Prop := exists v, In (Set_ t k v) hist.
Definition tables_made (hist : list top) : nat := length (filter (fun o => match o with NewTable => true | _ => false end) hist).
(** Calls only use tables that exist. *)
Definition op_ok (hist : list top) (o : top) : Prop :=
  match o with NewTable => True | Set_ t _ _ | Get t _ | Rassoc t _ => t < tables_made hist end.
Fixpoint ops_ok (hist ops : list top) : Prop :=
  match ops with [] => True | o :: ops => op_ok hist o /\ ops_ok (o :: hist) ops end.
(** The right answer [a] to call [o] after history [hist]. *)
Definition answer_ok (hist : list top) (o : top) (a : word) : Prop :=
  match o with
  | NewTable | Set_ _ _ _ => True
  | Get t k => a = latest hist t k
  | Rassoc t v =>
      (** a key now mapped to v, NULL if there is none *)
      (was_set hist t a /\ latest hist t a = v) \/
      (a = 0 /\ forall k, was_set hist t k -> latest hist t k <> v)
  end.
Fixpoint answers_ok (hist ops : list top) (l : list word) : Prop :=
  match ops, l with
  | [], [] => True
  | o :: ops, a :: l => answer_ok hist o a /\ answers_ok (o :: hist) ops l
  | _, _ => False
  end.

(** The keys stored in the list at [a]. *)
Inductive alist_at (h : list anode) : word -> list (word * word) -> Prop :=
| alist_nil : alist_at h 0 []
| alist_cons i n l : nth_error h i = Some n -> alist_at h (a_next n) l -> alist_at h (S i) ((a_key n, a_value n) :: l).

(** ** Proofs *)
(** [chain h a is]: the addresses (as indices) of the list at [a]. *)
Inductive chain (h : list anode) : word -> list nat -> Prop :=
| chain_nil : chain h 0 []
| chain_cons i n is : nth_error h i = Some n -> a_next n <= i -> chain h (a_next n) is -> chain h (S i) (i :: is).
Definition kv (h : list anode) (i : nat) : word * word := match nth_error h i with Some n => (a_key n, a_value n) | None => (0, 0) end.
Fixpoint alookup (l : list (word * word)) (k : word) : option word :=
  match l with [] => None | (k', v) :: l => if k' =? k then Some v else alookup l k end.

Lemma chain_alist h a is : chain h a is -> alist_at h a (map (kv h) is).
Proof. induction 1; cbn [map]; [constructor|]. unfold kv at 1. rewrite H. econstructor; eauto. Qed.
Lemma chain_lt h a is : chain h a is -> forall i, In i is -> i < a /\ i < length h.
Proof.
  induction 1; intros j Hj; cbn in Hj; [tauto|]. destruct Hj as [<-|Hj].
  - split; auto. apply nth_error_Some. congruence.
  - destruct (IHchain j Hj); lia.
Qed.
Lemma chain_NoDup h a is : chain h a is -> NoDup is.
Proof. induction 1; constructor; auto. intros Hi. destruct (chain_lt _ _ _ H1 _ Hi). lia. Qed.
Lemma chain_length h a is : chain h a is -> length is <= length h.
Proof.
  intros H. rewrite <- (seq_length (length h) 0). apply NoDup_incl_length; [eapply chain_NoDup; eauto|].
  intros i Hi. apply in_seq. destruct (chain_lt _ _ _ H _ Hi). lia.
Qed.
Lemma chain_app h x a is : chain h a is -> chain (h ++ [x]) a is.
Proof.
  induction 1; [constructor|]. econstructor; eauto. rewrite nth_error_app1; auto. apply nth_error_Some. congruence.
Qed.
Lemma chain_upd h i n v a is : nth_error h i = Some n -> chain h a is -> chain (upd h i (mkNode (a_next n) (a_key n) v)) a is.
Proof.
  intros Hn. induction 1; [constructor|]. destruct (Nat.eq_dec i i0) as [->|Ne].
  - assert (n0 = n) by congruence. subst n0.
    apply (chain_cons _ i0 (mkNode (a_next n) (a_key n) v)); auto.
    apply nth_error_upd_eq. apply nth_error_Some. congruence.
  - econstructor; eauto. rewrite nth_error_upd_neq; auto.
Qed.

Lemma assoc_ok h k a is : chain h a is -> forall fuel, length is <= fuel ->
  assoc fuel h k a = Ok (match alookup (map (kv h) is) k with Some v => v | None => 0 end).
Proof.
  induction 1; intros fuel Hf; [destruct fuel; auto|]. destruct fuel as [|f]; [cbn in Hf; lia|]. cbn [assoc].
  unfold node, rd. rewrite H. cbn [bind map alookup]. unfold kv at 1. rewrite H. destruct (a_key n =? k); auto.
  apply IHchain. cbn in Hf. lia.
Qed.
Lemma rassoc_ok h v a is : chain h a is -> forall fuel, length is <= fuel ->
  exists k, rassoc fuel h v a = Ok k /\ (In (k, v) (map (kv h) is) \/ (k = 0 /\ forall k', ~ In (k', v) (map (kv h) is))).
Proof.
  induction 1; intros fuel Hf; [exists 0; destruct fuel; split; auto|]. destruct fuel as [|f]; [cbn in Hf; lia|]. cbn [rassoc].
  unfold node, rd. rewrite H. cbn [bind map]. unfold kv at 1 3. rewrite H. destruct (Nat.eqb_spec (a_value n) v).
  - subst. eexists; split; eauto. left. now left.
  - destruct (IHchain f) as (k & E & P); [cbn in Hf; lia|]. exists k. split; auto. destruct P as [P|[P Q]]; [left; now right|].
    right. split; auto. intros k' [E'|E']; [congruence|]. eapply Q; eauto.
Qed.
Lemma setassoc_ok h k v a is : chain h a is -> forall fuel, length is <= fuel ->
  match alookup (map (kv h) is) k with
  | None => setassoc fuel h k v a = Ok (h, false)
  | Some _ => exists i n, In i is /\ nth_error h i = Some n /\ a_key n = k /\
      setassoc fuel h k v a = Ok (upd h i (mkNode (a_next n) k v), true)
  end.
Proof.
  induction 1 as [|i n is H H0 H1 IHchain]; intros fuel Hf; [destruct fuel; exact eq_refl|]. destruct fuel as [|f]; [cbn in Hf; lia|]. cbn [setassoc].
  unfold node, rd. rewrite H. cbn [bind map alookup]. unfold kv at 1. rewrite H. destruct (Nat.eqb_spec (a_key n) k).
  - exists i, n. ands; auto. { now left. } rewrite wr_Ok by (apply nth_error_Some; congruence). cbn [bind]. now subst k.
  - specialize (IHchain f). destruct (alookup _ k) eqn:E.
    + destruct IHchain as (j & m & Hj & Hm & Hk & E2); [cbn in Hf; lia|]. exists j, m. ands; auto. now right.
    + apply IHchain. cbn in Hf; lia.
Qed.

(** Invariant after history [hist] *)
Definition aligned (hist : list top) (s : tstate) (t : nat) (is : list nat) : Prop :=
  NoDup (map fst (map (kv (nodes s)) is)) /\
  (forall k v, alookup (map (kv (nodes s)) is) k = Some v -> was_set hist t k /\ latest hist t k = v) /\
  (forall k, alookup (map (kv (nodes s)) is) k = None -> ~ was_set hist t k).
Record inv (hist : list top) (s : tstate) (iss : list (list nat)) : Prop := {
  inv_n : length (tables s) = tables_made hist;
  inv_m : length iss = tables_made hist;
  inv_chain : forall t a is, nth_error (tables s) t = Some a -> nth_error iss t = Some is -> chain (nodes s) a is;
  inv_disj : forall t t' is is' i, nth_error iss t = Some is -> nth_error iss t' = Some is' -> In i is -> In i is' -> t = t';
  inv_set : forall t k, was_set hist t k -> t < tables_made hist;
  inv_al : forall t is, nth_error iss t = Some is -> aligned hist s t is }.

Lemma latest_unset hist t k : ~ was_set hist t k -> latest hist t k = 0.
Proof.
  unfold was_set. induction hist as [|o hist IH]; intros H; auto. cbn [latest].
  assert (G : ~ (exists v, In (Set_ t k v) hist)) by (intros [v Hv]; apply H; exists v; now right).
  destruct o; auto. destruct (Nat.eqb_spec t0 t), (Nat.eqb_spec key k); cbn [andb]; auto. subst. exfalso. apply H. eexists. now left.
Qed.
Lemma alookup_In l k v : NoDup (map fst l) -> In (k, v) l <-> alookup l k = Some v.
Proof.
  induction l as [|[k' v'] l IH]; intros Hd; cbn [alookup In]; [split; [tauto|discriminate]|].
  cbn [map fst] in Hd. inversion Hd; subst. destruct (Nat.eqb_spec k' k).
  - subst. split; [intros [E|Hi]|intros E; left]; try congruence. exfalso. apply H1. apply in_map_iff. now exists (k, v).
  - rewrite <- IH by auto. split; [intros [E|]; [congruence|auto]|auto].
Qed.
Lemma inv_tab hist s iss t : inv hist s iss -> t < tables_made hist ->
  exists a is, nth_error (tables s) t = Some a /\ nth_error iss t = Some is /\ chain (nodes s) a is /\ length is <= fuel_of s.
Proof.
  intros I H. destruct (nth_error (tables s) t) as [a|] eqn:E1.
  2:{ apply nth_error_None in E1. rewrite (inv_n _ _ _ I) in E1. lia. }
  destruct (nth_error iss t) as [is|] eqn:E2.
  2:{ apply nth_error_None in E2. rewrite (inv_m _ _ _ I) in E2. lia. }
  exists a, is. pose proof (inv_chain _ _ _ I _ _ _ E1 E2) as C. ands; auto. unfold fuel_of. pose proof (chain_length _ _ _ C). lia.
Qed.
Lemma was_set_cons o hist t k : was_set (o :: hist) t k <-> (exists v, o = Set_ t k v) \/ was_set hist t k.
Proof. unfold was_set. cbn [In]. split; [intros (v & [E|E]); eauto|intros [(v & E)|(v & E)]; eauto]. Qed.
Lemma aligned_noset o hist s t is : (forall k v, o <> Set_ t k v) -> aligned hist s t is -> aligned (o :: hist) s t is.
Proof.
  intros Ho (A & B & C). split; auto. split.
  - intros k v E. destruct (B k v E) as [B1 B2]. split; [rewrite was_set_cons; auto|]. cbn [latest]. destruct o; auto.
    destruct (Nat.eqb_spec t0 t); cbn [andb]; auto. subst. exfalso. eapply Ho; eauto.
  - intros k E W. rewrite was_set_cons in W. destruct W as [(v & ->)|W]; [eapply Ho; eauto|eapply C; eauto].
Qed.
Lemma kv_ext h h' is : (forall i, In i is -> nth_error h' i = nth_error h i) -> map (kv h') is = map (kv h) is.
Proof. intros H. apply map_ext_in. intros i Hi. unfold kv. now rewrite H. Qed.

Lemma step_ok hist s iss o : inv hist s iss -> op_ok hist o ->
  exists s' iss' a, tstep s o = Ok (s', a) /\ inv (o :: hist) s' iss' /\ answer_ok hist o a.
Proof.
  intros I Hok. destruct o as [|t k v|t k|t v]; cbn [tstep op_ok answer_ok] in *.
  - exists (new_table s), (iss ++ [[]]), 0. ands; auto. destruct I. constructor; cbn [tables nodes new_table].
    + unfold tables_made in *. cbn [filter length]. rewrite app_length. cbn. lia.
    + unfold tables_made in *. cbn [filter length]. rewrite app_length. cbn. lia.
    + intros t a is. destruct (Nat.lt_ge_cases t (tables_made hist)).
      * rewrite !nth_error_app1 by lia. eauto.
      * rewrite !nth_error_app2 by lia. rewrite inv_n0, inv_m0. destruct (t - tables_made hist) as [|[|]]; cbn; try discriminate.
        intros E1 E2. injection E1 as <-. injection E2 as <-. constructor.
    + intros t t' is is' i. intros E1 E2 H1 H2.
      assert (G : forall t is, nth_error (iss ++ [[]]) t = Some is -> In i is -> nth_error iss t = Some is).
      { intros u js E Hj. destruct (Nat.lt_ge_cases u (length iss)); [rewrite nth_error_app1 in E; auto|].
        rewrite nth_error_app2 in E by lia. destruct (u - length iss) as [|[|]]; cbn in E; try discriminate. injection E as <-. destruct Hj. }
      eapply inv_disj0; eauto.
    + intros t k Hw. apply was_set_cons in Hw. destruct Hw as [(v & E)|Hw]; [discriminate|]. apply inv_set0 in Hw.
      unfold tables_made in *. cbn [filter length]. lia.
    + intros t is E. apply aligned_noset; [discriminate|]. destruct (Nat.lt_ge_cases t (length iss)).
      * rewrite nth_error_app1 in E; auto. apply inv_al0; auto.
      * rewrite nth_error_app2 in E by lia. destruct (t - length iss) as [|[|]] eqn:Et; cbn in E; try discriminate. injection E as <-.
        split; [constructor|]. cbn. split; [discriminate|]. intros k _ Hw. apply inv_set0 in Hw. lia.
  - destruct (inv_tab _ _ _ _ I Hok) as (a & is & E1 & E2 & C & Hf).
    unfold table_set, rd at 1. rewrite E1. cbn [bind].
    pose proof (setassoc_ok _ k v _ _ C _ Hf) as S. destruct (inv_al _ _ _ I _ _ E2) as (A1 & A2 & A3).
    assert (Hws : forall t' k', was_set (Set_ t k v :: hist) t' k' -> t' < tables_made (Set_ t k v :: hist)).
    { intros t' k' W. apply was_set_cons in W. destruct W as [(v' & E)|W]; [injection E as <- <- <-; exact Hok|]. exact (inv_set _ _ _ I _ _ W). }
    destruct (alookup (map (kv (nodes s)) is) k) as [v0|] eqn:L.
    + destruct S as (i & n & Hi & Hn & Hk & ->). cbn [bind]. eexists _, iss, 0. split; [reflexivity|]. split; [|exact Logic.I].
      subst k. set (n' := mkNode (a_next n) (a_key n) v).
      assert (Li : i < length (nodes s)) by (apply nth_error_Some; congruence).
      assert (KV : forall j, kv (upd (nodes s) i n') j = if j =? i then (a_key n, v) else kv (nodes s) j).
      { intros j. unfold kv. rewrite nth_error_upd, (Nat.eqb_sym j i). destruct (Nat.eqb_spec i j); auto. subst. destruct (Nat.ltb_spec j (length (nodes s))); auto. lia. }
      constructor; cbn [nodes tables]; try (apply I).
      * intros t' a' is' F1 F2. apply chain_upd; auto. eapply inv_chain; eauto.
      * exact Hws.
      * intros t' is' F2. destruct (Nat.eq_dec t' t) as [->|Ne].
        { assert (is' = is) by congruence. subst is'. clear F2.
          assert (Efst : map fst (map (kv (upd (nodes s) i n')) is) = map fst (map (kv (nodes s)) is)).
          { rewrite !map_map. apply map_ext. intros j. rewrite KV. destruct (Nat.eqb_spec j i); auto. subst. unfold kv. now rewrite Hn. }
          assert (Hl : forall k', alookup (map (kv (upd (nodes s) i n')) is) k' = if k' =? a_key n then Some v else alookup (map (kv (nodes s)) is) k').
          { intros k'. destruct (Nat.eqb_spec k' (a_key n)).
            - subst. apply alookup_In; cbn [nodes]; [now rewrite Efst|]. apply in_map_iff. exists i. split; auto. now rewrite KV, Nat.eqb_refl.
            - clear -KV n0 Hn. induction is as [|j is IH]; auto. cbn [map alookup]. rewrite KV. destruct (Nat.eqb_spec j i).
              + subst. unfold kv at 2. rewrite Hn. cbn [fst snd]. destruct (Nat.eqb_spec (a_key n) k'); [congruence|]. apply IH.
              + destruct (kv (nodes s) j) as [k1 v1]. destruct (k1 =? k'); auto. }
          split; [now rewrite <- Efst in A1|]. cbn [nodes]. split.
          - intros k' v'. rewrite Hl. cbn [latest]. rewrite Nat.eqb_refl. cbn [andb]. rewrite was_set_cons. rewrite (Nat.eqb_sym (a_key n) k').
            destruct (Nat.eqb_spec k' (a_key n)).
            + intros E; injection E as <-. subst. split; auto. left. eauto.
            + intros E. destruct (A2 _ _ E). auto.
          - intros k'. rewrite Hl, was_set_cons. destruct (Nat.eqb_spec k' (a_key n)); [discriminate|]. intros E [(v' & E')|W]; [congruence|]. eapply A3; eauto. }
        { apply aligned_noset; [congruence|]. unfold aligned. cbn [nodes]. rewrite (kv_ext (nodes s)).
          2:{ intros j Hj. rewrite nth_error_upd_neq; auto. intros <-. apply Ne. eapply inv_disj; eauto. }
          apply (inv_al _ _ _ I); auto. }
    + rewrite S. cbn [bind acons]. rewrite wr_Ok by (apply nth_error_Some; congruence). cbn [bind].
      eexists _, (upd iss t (length (nodes s) :: is)), 0. split; [reflexivity|]. split; [|exact Logic.I].
      assert (T1 : t < length (tables s)) by (apply nth_error_Some; congruence).
      assert (T2 : t < length iss) by (apply nth_error_Some; congruence).
      assert (KVn : kv (nodes s ++ [mkNode a k v]) (length (nodes s)) = (k, v)).
      { unfold kv. rewrite nth_error_app2, Nat.sub_diag by lia. reflexivity. }
      assert (KV : forall t' is', nth_error iss t' = Some is' -> map (kv (nodes s ++ [mkNode a k v])) is' = map (kv (nodes s)) is').
      { intros t' is' F. apply kv_ext. intros j Hj.
        destruct (nth_error (tables s) t') as [a'|] eqn:F'. 2:{ apply nth_error_None in F'. rewrite (inv_n _ _ _ I), <- (inv_m _ _ _ I) in F'. apply nth_error_None in F'. congruence. }
        pose proof (inv_chain _ _ _ I _ _ _ F' F) as C'. destruct (chain_lt _ _ _ C' _ Hj). now rewrite nth_error_app1. }
      assert (Dn : forall t' is', nth_error iss t' = Some is' -> ~ In (length (nodes s)) is').
      { intros t' is' F Hj. destruct (nth_error (tables s) t') as [a'|] eqn:F'. 2:{ apply nth_error_None in F'. rewrite (inv_n _ _ _ I), <- (inv_m _ _ _ I) in F'. apply nth_error_None in F'. congruence. }
        pose proof (inv_chain _ _ _ I _ _ _ F' F) as C'. destruct (chain_lt _ _ _ C' _ Hj). lia. }
      constructor; cbn [nodes tables].
      * rewrite upd_length. apply I.
      * rewrite upd_length. apply I.
      * intros t' a' is'. rewrite !nth_error_upd. destruct (Nat.eqb_spec t t').
        { subst t'. destruct (Nat.ltb_spec t (length (tables s))); [|lia]. destruct (Nat.ltb_spec t (length iss)); [|lia].
          intros F1 F2. injection F1 as <-. injection F2 as <-. apply (chain_cons _ _ (mkNode a k v)).
          - rewrite nth_error_app2, Nat.sub_diag by lia. reflexivity.
          - cbn [a_next]. inversion C; [lia|]. apply Nat.le_succ_l. apply nth_error_Some. congruence.
          - apply chain_app. exact C. }
        { intros F1 F2. apply chain_app. eapply inv_chain; eauto. }
      * assert (D : forall u js i, nth_error (upd iss t (length (nodes s) :: is)) u = Some js -> In i js ->
          exists js0, nth_error iss u = Some js0 /\ ((u = t /\ i = length (nodes s)) \/ In i js0)).
        { intros u js i. rewrite nth_error_upd. destruct (Nat.eqb_spec t u).
          - subst u. destruct (Nat.ltb_spec t (length iss)); [|lia]. intros F; injection F as <-. intros [<-|G]; eauto.
          - intros F G. eauto. }
        intros t1 t2 is1 is2 i F1 F2 G1 G2. destruct (D _ _ _ F1 G1) as (j1 & H1 & [[-> ->]|K1]), (D _ _ _ F2 G2) as (j2 & H2 & [[-> P2]|K2]); auto.
        { exfalso. eapply (Dn t2); eauto. }
        { subst i. exfalso. eapply (Dn t1); eauto. }
        { eapply (inv_disj _ _ _ I t1 t2); eauto. }
      * exact Hws.
      * intros t' is'. rewrite nth_error_upd. destruct (Nat.eqb_spec t t').
        { subst t'. destruct (Nat.ltb_spec t (length iss)); [|lia]. intros F. injection F as <-. unfold aligned. cbn [nodes map]. rewrite KVn, (KV t) by auto. split.
          - cbn [fst]. constructor; auto. intros Hi. apply in_map_iff in Hi. destruct Hi as ([k1 v1] & <- & Hi).
            cbn [fst] in L. apply alookup_In in Hi; auto. congruence.
          - cbn [alookup latest]. rewrite Nat.eqb_refl. cbn [andb]. split; intros k'; [intros v'|]; rewrite was_set_cons; destruct (Nat.eqb_spec k k').
            + subst. intros E. injection E as <-. split; auto. left. eauto.
            + intros E. destruct (A2 _ _ E). auto.
            + discriminate.
            + intros E [(v' & E')|W]; [congruence|]. eapply A3; eauto. }
        { intros F. apply aligned_noset; [congruence|]. unfold aligned. cbn [nodes]. rewrite (KV t') by auto. apply (inv_al _ _ _ I); auto. }
  - destruct (inv_tab _ _ _ _ I Hok) as (a & is & E1 & E2 & C & Hf). destruct (inv_al _ _ _ I _ _ E2) as (A1 & A2 & A3).
    unfold table_get, rd. rewrite E1. cbn [bind]. rewrite (assoc_ok _ _ _ _ C) by auto. cbn [bind].
    eexists s, iss, _. split; [reflexivity|]. split.
    + destruct I. constructor; auto.
      * intros t' k' W. apply was_set_cons in W. destruct W as [(v & E)|W]; [discriminate|]. eapply inv_set0; eauto.
      * intros t' is' E. apply aligned_noset; [discriminate|]. auto.
    + destruct (alookup _ k) eqn:L. { symmetry. apply (A2 _ _ L). } symmetry. apply latest_unset. auto.
  - destruct (inv_tab _ _ _ _ I Hok) as (a & is & E1 & E2 & C & Hf). destruct (inv_al _ _ _ I _ _ E2) as (A1 & A2 & A3).
    unfold table_rassoc, rd. rewrite E1. cbn [bind]. destruct (rassoc_ok _ v _ _ C _ Hf) as (k & -> & P). cbn [bind].
    eexists s, iss, _. split; [reflexivity|]. split.
    + destruct I. constructor; auto.
      * intros t' k' W. apply was_set_cons in W. destruct W as [(v' & E)|W]; [discriminate|]. eapply inv_set0; eauto.
      * intros t' is' E. apply aligned_noset; [discriminate|]. auto.
    + destruct P as [P|[P Q]].
      * left. apply alookup_In in P; auto.
      * right. split; auto. intros k' W Ek. destruct (alookup (map (kv (nodes s)) is) k') eqn:L.
        { destruct (A2 _ _ L) as [_ E]. apply alookup_In in L; auto. rewrite <- E, Ek in L. eapply Q; eauto. }
        { eapply A3; eauto. }
Qed.

Lemma inv0 : inv [] tstate0 [].
Proof. constructor; cbn; auto; try (intros [|]; discriminate). intros t k (v & []). Qed.
Lemma run_ok ops : forall hist s iss, inv hist s iss -> ops_ok hist ops ->
  exists s' iss' l, trun s ops = Ok (s', l) /\ inv (rev ops ++ hist) s' iss' /\ answers_ok hist ops l.
Proof.
  induction ops as [|o ops IH]; intros hist s iss I H; cbn [trun].
  - exists s, iss, []. cbn. auto.
  - destruct H as [H1 H2]. destruct (step_ok _ _ _ _ I H1) as (s1 & iss1 & a & E & I1 & A). rewrite E. cbn [bind].
    destruct (IH _ _ _ I1 H2) as (s2 & iss2 & l & E2 & I2 & A2). rewrite E2. cbn [bind]. exists s2, iss2, (a :: l).
    split; auto. split; [|split; auto]. cbn [rev]. rewrite <- app_assoc. exact I2.
Qed.

(** ** C36 *)
(** Any program of calls on any number of tables runs to its end, every [Get]
    answers the value last set for that key in that table (NULL if none), and
    every [Rassoc] answers a key mapped to the value, NULL if there is none. *)
Theorem C36_table_history : forall ops, ops_ok [] ops ->
  exists s l, trun tstate0 ops = Ok (s, l) /\ answers_ok [] ops l.
Proof. intros ops H. destruct (run_ok _ _ _ _ inv0 H) as (s & iss & l & E & _ & A). eauto. Qed.

(** After any program, each table's list is well formed and holds no key twice. *)
Theorem C36_no_duplicate_keys : forall ops s l, ops_ok [] ops -> trun tstate0 ops = Ok (s, l) ->
  forall t a, nth_error (tables s) t = Some a -> exists es, alist_at (nodes s) a es /\ NoDup (map fst es).
Proof.
  intros ops s l H E t a Ha. destruct (run_ok _ _ _ _ inv0 H) as (s' & iss & l' & E' & I & _).
  assert (s' = s) by congruence. subst s'.
  assert (Ht : t < tables_made (rev ops ++ [])) by (rewrite <- (inv_n _ _ _ I); apply nth_error_Some; congruence).
  destruct (inv_tab _ _ _ _ I Ht) as (a' & is & E1 & E2 & C & _). assert (a' = a) by congruence. subst a'.
  eexists. split; [apply chain_alist; eauto|]. apply (inv_al _ _ _ I _ _ E2).
Qed.

(** A program with two tables, an overwrite and both lookups. *)
Definition C36_prog : list top := [NewTable; NewTable; Set_ 0 7 70; Set_ 1 7 71; Set_ 0 8 80; Set_ 0 7 72; Get 0 7; Get 1 7; Get 1 8; Rassoc 0 80; Rassoc 0 70].
Example C36_example : ops_ok [] C36_prog /\ exists s, trun tstate0 C36_prog = Ok (s, [0;0;0;0;0;0;72;71;0;8;0]).
Proof. split; [cbv; repeat split; repeat constructor|]. eexists. vm_compute. reflexivity. Qed.
Print Assumptions C36_table_history.
Print Assumptions C36_no_duplicate_keys.
