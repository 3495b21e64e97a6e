(** * Proofs for utilities/hashtable.c *)
From Coq Require Import Znumtheory.
From Verif Require Import Base PrimeModel PrimeSpec PrimeProofs ProbeProofs HashTableModel HashTableSpec.
Open Scope Z_scope.

Definition nonnull (e : Z * Z) : bool := negb (fst e =? 0).

(** What every reachable table satisfies. *)
Record shape (t : table) : Prop := {
  sh_live : freed t = false;
  sh_len : Z.of_nat (length (slots t)) = capacity t;
  sh_twin : is_twin (capacity t);
  sh_big : capacity t <= BIG_TWIN;
  sh_size : tsize t = count nonnull (slots t);
  sh_half : 2 * tsize t <= capacity t }.

Definition ent (t : table) (i : Z) : Z * Z := nth (Z.to_nat i) (slots t) (0, 0).
Definition keyat (t : table) (i : Z) : Z := fst (ent t i).

Lemma shape_cap t : shape t -> 5 <= capacity t <= BIG_TWIN.
Proof. intros H. split; [apply twin_ge_5, H | apply H]. Qed.

Lemma slot_eq t i : shape t -> 0 <= i < capacity t -> slot t i = Ok (ent t i).
Proof.
  intros H Hi. unfold slot. rewrite (sh_live t H). destruct (Z.ltb_spec i 0); [lia|].
  unfold rd, ent. rewrite nth_error_nth' with (d := (0, 0)); auto.
  pose proof (sh_len t H). lia.
Qed.

Lemma ent_nth t i : shape t -> 0 <= i < capacity t -> nth_error (slots t) (Z.to_nat i) = Some (ent t i).
Proof.
  intros H Hi. unfold ent. apply nth_error_nth'. pose proof (sh_len t H). lia.
Qed.

Lemma nth_upd {A} (l : list A) i j x d : (i < length l)%nat ->
  nth j (upd l i x) d = if Nat.eqb i j then x else nth j l d.
Proof.
  intros Hi. pose proof (nth_error_upd l i j x) as H.
  destruct (Nat.eqb_spec i j) as [->|Hn].
  - destruct (Nat.ltb_spec j (length l)); [|lia]. apply nth_error_nth with (d := d) in H. auto.
  - destruct (nth_error l j) eqn:E.
    + rewrite (nth_error_nth _ _ d H). symmetry. now apply nth_error_nth.
    + rewrite !nth_overflow; auto; [|rewrite upd_length]; apply nth_error_None; auto.
Qed.

Section Client.
Variable hashf : Z -> Z.
Variable equalf : Z -> Z -> bool.
Hypothesis G : good equalf hashf.

Lemma eqt a b c : a <> 0 -> b <> 0 -> c <> 0 -> equalf a b = true -> equalf b c = true -> equalf a c = true.
Proof. apply G. Qed.
Lemma eqs a b : a <> 0 -> b <> 0 -> equalf a b = true -> equalf b a = true.
Proof. apply G. Qed.
Lemma eqn k : k <> 0 -> equalf 0 k = false.
Proof. apply G. Qed.

Definition hsh (k : Z) : Z := Z.land (hashf k) LONG_MAX.
Lemma hsh_nonneg k : 0 <= hsh k.
Proof. apply Z.land_nonneg. right. unfold LONG_MAX. lia. Qed.

(** The probe sequence of key [k] in a table of capacity [c]. *)
Definition pr (c k : Z) (n : nat) : Z := pos c (hsh k mod c) (hsh k mod (c - 2) + 1) n.

Definition stop (t : table) (k i : Z) : bool := (keyat t i =? 0) || equalf (keyat t i) k.

Lemma pr_range c k n : 0 < c -> 0 <= pr c k n < c.
Proof. apply pos_range. Qed.

Lemma probe_spec fuel : forall t k i s n, shape t -> 0 <= i < capacity t -> 1 <= s < capacity t ->
  (forall m, (m < n)%nat -> stop t k (pos (capacity t) i s m) = false) ->
  stop t k (pos (capacity t) i s n) = true -> (n < fuel)%nat ->
  probe equalf fuel t k i s = Ok (pos (capacity t) i s n).
Proof.
  induction fuel as [|fuel IH]; intros t k i s n Hsh Hi Hs Hm Hn Hf; [lia|].
  cbn [probe]. rewrite slot_eq by auto. cbn [bind].
  pose proof (shape_cap t Hsh) as Hc.
  destruct n as [|n].
  - rewrite pos_0 in * by auto. unfold stop, keyat in Hn. rewrite Hn. reflexivity.
  - assert (H0 : stop t k i = false).
    { rewrite <- (pos_0 (capacity t) i s) by auto. apply Hm. lia. }
    unfold stop, keyat in H0. rewrite H0.
    unfold int_add. unfold BIG_TWIN, INT_MAX in *. destruct (Z.leb_spec (i + s) 2147483647); [|lia].
    cbn [bind]. rewrite Z.rem_mod_nonneg by lia.
    assert (E1 : (i + s) mod capacity t = pos (capacity t) i s 1).
    { unfold pos. f_equal. change (Z.of_nat 1) with 1. lia. }
    rewrite E1, <- (pos_shift (capacity t) i s n) by lia. apply IH; auto; try lia.
    + apply pos_range; lia.
    + intros m Hm'. rewrite pos_shift by lia. apply Hm. lia.
    + rewrite pos_shift by lia. auto.
Qed.

Lemma free_slot t : shape t -> exists i, 0 <= i < capacity t /\ keyat t i = 0.
Proof.
  intros H. pose proof (shape_cap t H). destruct (count_free nonnull (slots t)) as (i & x & H1 & H2).
  { rewrite <- (sh_size t H), (sh_len t H). pose proof (sh_half t H). lia. }
  assert (Hi : (i < length (slots t))%nat) by (apply nth_error_Some; congruence).
  exists (Z.of_nat i). pose proof (sh_len t H). split; [lia|].
  unfold keyat, ent. rewrite Nat2Z.id. rewrite (nth_error_nth _ _ _ H1).
  unfold nonnull in H2. apply negb_false_iff, Z.eqb_eq in H2. auto.
Qed.

Lemma candidate_spec t k : shape t -> exists n, (n < Z.to_nat (capacity t))%nat /\
  candidate_index hashf equalf t k = Ok (pr (capacity t) k n) /\
  stop t k (pr (capacity t) k n) = true /\
  forall m, (m < n)%nat -> stop t k (pr (capacity t) k m) = false.
Proof.
  intros H. pose proof (shape_cap t H) as Hc. set (c := capacity t) in *.
  destruct (free_slot t H) as (j & Hj & Kj). fold c in Hj.
  assert (Hs : 1 <= hsh k mod (c - 2) + 1 < c).
  { pose proof (Z.mod_pos_bound (hsh k) (c - 2)). lia. }
  assert (Hi : 0 <= hsh k mod c < c) by (apply Z.mod_pos_bound; lia).
  destruct (probe_cover c (hsh k mod c) (hsh k mod (c - 2) + 1) j) as (n0 & Hn0 & Pn0); auto; try lia.
  { apply H. }
  destruct (least_nat (fun n => stop t k (pr c k n)) n0) as (n & Hn & Sn & Ln).
  { unfold pr. rewrite Pn0. unfold stop. rewrite Kj. reflexivity. }
  exists n. split; [lia|]. split; [|auto].
  unfold candidate_index. fold c. destruct (Z.eqb_spec c 0); [lia|].
  destruct (Z.eqb_spec (c - 2) 0); [lia|]. cbn [orb].
  pose proof (hsh_nonneg k) as Hh. unfold hsh in Hh.
  rewrite !Z.rem_mod_nonneg by (unfold c in *; auto; lia).
  apply probe_spec; auto. lia.
Qed.

(** ** One add without resizing *)

(** Effect of placing (k,v) at index i. *)
Definition placed (t : table) (k v i : Z) : table :=
  if equalf (keyat t i) k
  then {| slots := upd (slots t) (Z.to_nat i) (keyat t i, v); tsize := tsize t; capacity := capacity t; freed := false |}
  else {| slots := upd (slots t) (Z.to_nat i) (k, v); tsize := tsize t + 1; capacity := capacity t; freed := false |}.

Lemma placed_cap t k v i : capacity (placed t k v i) = capacity t.
Proof. unfold placed. destruct (equalf _ _); auto. Qed.

Lemma placed_ent t k v i j : shape t -> 0 <= i < capacity t -> 0 <= j < capacity t ->
  ent (placed t k v i) j =
  if i =? j then (if equalf (keyat t i) k then keyat t i else k, v) else ent t j.
Proof.
  intros H Hi Hj. pose proof (sh_len t H).
  assert (E : forall x, nth (Z.to_nat j) (upd (slots t) (Z.to_nat i) x) (0,0) =
                        if i =? j then x else ent t j).
  { intros x. rewrite nth_upd by lia. destruct (Nat.eqb_spec (Z.to_nat i) (Z.to_nat j)), (Z.eqb_spec i j); auto; lia. }
  unfold placed, ent at 1. destruct (equalf (keyat t i) k); simpl; rewrite E; auto.
Qed.

Lemma placed_shape t k v n : shape t -> k <> 0 -> 2 * (tsize t + 1) <= capacity t ->
  stop t k (pr (capacity t) k n) = true -> shape (placed t k v (pr (capacity t) k n)).
Proof.
  intros H Hk Hsz Hst. pose proof (shape_cap t H). set (i := pr (capacity t) k n) in *.
  assert (Hi : 0 <= i < capacity t) by (apply pr_range; lia).
  pose proof (ent_nth t i H Hi) as He. destruct H as [H1 H2 H3 H4 H5 H6].
  unfold placed. destruct (equalf (keyat t i) k) eqn:E; constructor; simpl; auto; try lia;
    try (rewrite upd_length; auto); rewrite (count_upd _ _ _ _ _ He); rewrite H5.
  - fold (keyat t i). unfold nonnull; simpl. fold (keyat t i). destruct (Z.eqb_spec (keyat t i) 0); simpl; lia.
  - unfold stop in Hst. rewrite E, orb_false_r in Hst. unfold nonnull; simpl. fold (keyat t i).
    rewrite Hst. simpl. destruct (Z.eqb_spec k 0); simpl; lia.
Qed.

Lemma add_noresize d st t k v : shape t -> k <> 0 -> 2 * (tsize t + 1) <= capacity t ->
  exists n, (n < Z.to_nat (capacity t))%nat /\ stop t k (pr (capacity t) k n) = true /\
    (forall m, (m < n)%nat -> stop t k (pr (capacity t) k m) = false) /\
    add_or_update hashf equalf (S d) st t k v = Ok (st, placed t k v (pr (capacity t) k n)).
Proof.
  intros H Hk Hsz. destruct (candidate_spec t k H) as (n & Hn & E & Sn & Ln).
  exists n. split; auto. split; auto. split; auto. cbn [add_or_update].
  destruct (Z.eqb_spec k 0); [lia|]. destruct (Z.ltb_spec (capacity t) (2 * (tsize t + 1))); [lia|].
  cbn [bind]. rewrite E; cbn [bind].
  pose proof (shape_cap t H). set (i := pr (capacity t) k n) in *.
  assert (Hi : 0 <= i < capacity t) by (apply pr_range; lia).
  rewrite slot_eq by auto. cbn [bind]. fold (keyat t i).
  pose proof (sh_len t H). pose proof (sh_live t H).
  unfold placed. destruct (equalf (keyat t i) k).
  - rewrite wr_Ok by lia. cbn [bind]. rewrite H3. reflexivity.
  - unfold insert_at. rewrite H3. destruct (Z.ltb_spec i 0); [lia|].
    rewrite wr_Ok by lia. reflexivity.
Qed.

(** ** Resizing *)
Definition readd (d : nat) := fix readd (l : list (Z * Z)) (st : primes) (t' : table) : res (primes * table) :=
  match l with
  | [] => Ok (st, t')
  | e :: l =>
    '(st', t'') <- (if fst e =? 0 then Ok (st, t')
                    else add_or_update hashf equalf d st t' (fst e) (snd e)) ;;
    readd l st' t''
  end.

Lemma add_unfold d st t k v :
  add_or_update hashf equalf (S d) st t k v =
    if k =? 0 then Exit else
    '(st1, t1) <-
      (if capacity t <? 2 * (tsize t + 1) then
         c2 <- double_int (capacity t) ;;
         '(st0, new_capacity) <- next_twin_prime st c2 ;;
         '(st1, fresh) <- hash_table_initialize st0 new_capacity ;;
         (if freed t && (0 <? capacity t) then UB else
          '(st2, t2) <- readd d (firstn (Z.to_nat (capacity t)) (slots t)) st1 fresh ;;
          if freed t then UB else Ok (st2, t2))
       else Ok (st, t)) ;;
    i <- candidate_index hashf equalf t1 k ;;
    e <- slot t1 i ;;
    if equalf (fst e) k then
      s <- wr (slots t1) (Z.to_nat i) (fst e, v) ;;
      Ok (st1, {| slots := s; tsize := tsize t1; capacity := capacity t1; freed := freed t1 |})
    else
      t2 <- insert_at t1 k v i ;;
      Ok (st1, t2).
Proof. reflexivity. Qed.

Definition empty_table (c : Z) : table :=
  {| slots := repeat (0, 0) (Z.to_nat c); tsize := 0; capacity := c; freed := false |}.

Lemma empty_shape c : is_twin c -> c <= BIG_TWIN -> shape (empty_table c).
Proof.
  intros H1 H2. pose proof (twin_ge_5 c H1). constructor; simpl; auto; try lia.
  - rewrite repeat_length. lia.
  - rewrite count_repeat_false; auto.
Qed.

Lemma to_int_small c : 0 <= c <= BIG_TWIN -> to_int c = c.
Proof. unfold to_int, BIG_TWIN, INT_MAX. intros H. destruct (Z.leb_spec c 2147483647); lia. Qed.

Lemma initialize_spec st c : st_ok st -> 0 <= c <= BIG_TWIN ->
  exists st' c', hash_table_initialize st c = Ok (st', empty_table c') /\ st_ok st' /\
                 least_twin c c' /\ c' <= BIG_TWIN.
Proof.
  intros Hst Hc. unfold hash_table_initialize. rewrite to_int_small by auto.
  destruct (next_twin_prime_total st c Hst Hc) as (st' & c' & E). rewrite E; cbn [bind].
  destruct (next_twin_prime_sound st c st' c' Hst (proj1 Hc) E) as [H1 H2].
  exists st', c'. ands; auto. apply least_twin_bound with (x := c); auto; lia.
Qed.

(** A generic induction for a run of adds into a table that never needs to
    grow: [I] is any property kept by placing one entry. *)
Lemma readd_ind (I : table -> list (Z * Z) -> Prop) d :
  (forall t k v done n, shape t -> I t done -> k <> 0 -> 2 * (tsize t + 1) <= capacity t ->
     (n < Z.to_nat (capacity t))%nat -> stop t k (pr (capacity t) k n) = true ->
     (forall m, (m < n)%nat -> stop t k (pr (capacity t) k m) = false) ->
     I (placed t k v (pr (capacity t) k n)) (done ++ [(k, v)])) ->
  forall l st t done, shape t -> I t done -> 2 * (tsize t + count nonnull l) <= capacity t ->
  exists t', readd (S d) l st t = Ok (st, t') /\ shape t' /\ capacity t' = capacity t /\
             tsize t' <= tsize t + count nonnull l /\ I t' (done ++ filter nonnull l).
Proof.
  intros Hstep. induction l as [|[k v] l IH]; intros st t done Hsh HI Hsz.
  - exists t. simpl. rewrite app_nil_r. change (count nonnull []) with 0 in *. ands; auto. lia.
  - rewrite count_cons in *. cbn [readd fst snd].
    pose proof (count_nonneg nonnull l).
    assert (En : nonnull (k, v) = negb (k =? 0)) by reflexivity.
    destruct (Z.eqb_spec k 0) as [Hk|Hk]; cbn [bind]; rewrite En in *; cbn [negb] in *.
    + destruct (IH st t done Hsh HI) as (t' & E & H1 & H2 & H3 & H4); [lia|].
      exists t'. split; auto. split; auto. split; auto. split; [lia|].
      cbn [filter]. rewrite En. cbn [negb]. auto.
    + destruct (add_noresize d st t k v Hsh Hk) as (n & Hn & Sn & Ln & E); [lia|].
      rewrite E; cbn [bind]. set (t1 := placed t k v (pr (capacity t) k n)) in *.
      assert (Hs1 : shape t1) by (apply placed_shape; auto; lia).
      assert (Hsz1 : tsize t1 <= tsize t + 1).
      { unfold t1, placed. destruct (equalf _ _); simpl; lia. }
      assert (Hc1 : capacity t1 = capacity t) by apply placed_cap.
      assert (HI1 : I t1 (done ++ [(k, v)])) by (apply Hstep; auto; lia).
      destruct (IH st t1 (done ++ [(k, v)]) Hs1 HI1) as (t' & E' & H1 & H2 & H3 & H4); [lia|].
      exists t'. split; auto. split; auto. split; [lia|]. split; [lia|].
      cbn [filter]. rewrite En. cbn [negb].
      rewrite <- app_assoc in H4. auto.
Qed.

Lemma add_spec (I : table -> list (Z * Z) -> Prop) :
  (forall c, is_twin c -> c <= BIG_TWIN -> I (empty_table c) []) ->
  (forall t k v done n, shape t -> I t done -> k <> 0 -> 2 * (tsize t + 1) <= capacity t ->
     (n < Z.to_nat (capacity t))%nat -> stop t k (pr (capacity t) k n) = true ->
     (forall m, (m < n)%nat -> stop t k (pr (capacity t) k m) = false) ->
     I (placed t k v (pr (capacity t) k n)) (done ++ [(k, v)])) ->
  forall st t k v done, st_ok st -> shape t -> I t done -> k <> 0 -> tsize t < 249999999 ->
  exists st' t' t1 done1 n, hash_table_add_or_update hashf equalf st t k v = Ok (st', t') /\
    st_ok st' /\ shape t' /\
    (t1 = t /\ done1 = done \/ done1 = filter nonnull (slots t) /\ I t1 done1 /\ tsize t1 <= tsize t) /\
    shape t1 /\ 2 * (tsize t1 + 1) <= capacity t1 /\
    (n < Z.to_nat (capacity t1))%nat /\ stop t1 k (pr (capacity t1) k n) = true /\
    (forall m, (m < n)%nat -> stop t1 k (pr (capacity t1) k m) = false) /\
    t' = placed t1 k v (pr (capacity t1) k n) /\ I t' (done1 ++ [(k, v)]).
Proof.
  intros Hemp Hstep st t k v done Hst Hsh HI Hk Hsz.
  unfold hash_table_add_or_update.
  destruct (Z.ltb_spec (capacity t) (2 * (tsize t + 1))) as [Hr|Hr].
  - rewrite add_unfold. destruct (Z.eqb_spec k 0); [lia|].
    destruct (Z.ltb_spec (capacity t) (2 * (tsize t + 1))); [|lia].
    pose proof (shape_cap t Hsh) as Hc.
    unfold double_int. unfold INT_MAX. destruct (Z.leb_spec (2 * capacity t + 1) 2147483647); [|lia].
    cbn [bind].
    assert (Hc2 : 0 <= 2 * capacity t + 1 <= BIG_TWIN) by (unfold BIG_TWIN in *; lia).
    destruct (next_twin_prime_total st _ Hst Hc2) as (st0 & nc & E0). rewrite E0; cbn [bind].
    destruct (next_twin_prime_sound st _ st0 nc Hst (proj1 Hc2) E0) as [Hst0 HL0].
    assert (Hnc : 0 <= nc <= BIG_TWIN).
    { split; [apply proj1 in HL0; lia|]. apply least_twin_bound with (x := 2 * capacity t + 1); auto; lia. }
    destruct (initialize_spec st0 nc Hst0 Hnc) as (st1 & c' & E1 & Hst1 & HL1 & Hb1).
    rewrite E1; cbn [bind]. rewrite (sh_live t Hsh). cbn [andb].
    assert (Hcc : 2 * capacity t + 1 <= c') by (apply proj1 in HL0; apply proj1 in HL1; lia).
    assert (Hsh' : shape (empty_table c')) by (apply empty_shape; auto; apply HL1).
    rewrite firstn_all2 by (pose proof (sh_len t Hsh); lia).
    destruct (readd_ind I 0 Hstep (slots t) st1 (empty_table c') [] Hsh') as (t1 & E2 & S2 & C2 & Z2 & I2).
    { apply Hemp; auto. apply HL1. }
    { cbn [tsize capacity empty_table]. rewrite <- (sh_size t Hsh). pose proof (sh_half t Hsh). lia. }
    rewrite E2; cbn [bind]. cbn [tsize capacity empty_table] in C2, Z2. rewrite <- (sh_size t Hsh) in Z2.
    pose proof (sh_half t Hsh).
    assert (Hz1 : 2 * (tsize t1 + 1) <= capacity t1) by lia.
    destruct (add_noresize 1 st1 t1 k v S2 Hk Hz1) as (n' & Hn & Sn & Ln & E3).
    rewrite add_unfold in E3. destruct (Z.eqb_spec k 0); [lia|].
    destruct (Z.ltb_spec (capacity t1) (2 * (tsize t1 + 1))); [lia|]. cbn [bind] in E3.
    simpl app in I2.
    exists st1, (placed t1 k v (pr (capacity t1) k n')), t1, (filter nonnull (slots t)), n'.
    split; [exact E3|]. ands; auto.
    apply placed_shape; auto.
  - destruct (add_noresize 1 st t k v Hsh Hk) as (n & Hn & Sn & Ln & E); [lia|].
    exists st, (placed t k v (pr (capacity t) k n)), t, done, n.
    split; [exact E|]. ands; auto. apply placed_shape; auto.
Qed.

(** ** Mixed histories: what survives removals *)

(** Every entry stems from an earlier add of an equal key. *)
Definition stems (t : table) (adds : list (Z * Z)) : Prop :=
  forall i, 0 <= i < capacity t -> keyat t i <> 0 ->
  exists k, In (k, snd (ent t i)) adds /\ k <> 0 /\ equalf (keyat t i) k = true.

Lemma placed_stems t k v i adds : shape t -> k <> 0 -> 0 <= i < capacity t ->
  stems t adds -> stems (placed t k v i) (adds ++ [(k, v)]).
Proof.
  intros Hsh Hk Hi Hst j Hj. rewrite placed_cap in Hj. unfold keyat. rewrite placed_ent by auto.
  destruct (Z.eqb_spec i j) as [->|Hn]; simpl.
  - intros Hnz. exists k. split; [apply in_or_app; right; left; auto|]. split; auto.
    destruct (equalf (keyat t j) k) eqn:E; auto. apply G; auto.
  - intros Hnz. destruct (Hst j Hj Hnz) as (k' & H1 & H2 & H3). exists k'. split; auto.
    apply in_or_app; auto.
Qed.

(** [stems] relative to two lists: used for a resize in a mixed history. *)
Lemma ent_in t i : shape t -> 0 <= i < capacity t -> keyat t i <> 0 ->
  In (ent t i) (filter nonnull (slots t)).
Proof.
  intros Hsh Hi Hk. apply filter_In. split.
  - eapply nth_error_In. apply ent_nth; auto.
  - unfold nonnull. fold (keyat t i). apply negb_true_iff, Z.eqb_neq. auto.
Qed.

Lemma in_ent t e : shape t -> In e (filter nonnull (slots t)) ->
  exists i, 0 <= i < capacity t /\ ent t i = e /\ keyat t i <> 0.
Proof.
  intros Hsh Hin. apply filter_In in Hin. destruct Hin as [Hin Hn].
  apply In_nth_error in Hin. destruct Hin as [n Hnth].
  assert (Hlt : (n < length (slots t))%nat) by (apply nth_error_Some; congruence).
  pose proof (sh_len t Hsh). exists (Z.of_nat n). split; [lia|].
  assert (E : ent t (Z.of_nat n) = e).
  { unfold ent. rewrite Nat2Z.id. now apply nth_error_nth. }
  split; auto. unfold keyat. rewrite E. unfold nonnull in Hn. apply negb_true_iff, Z.eqb_neq in Hn. auto.
Qed.

Definition op_adds (o : op) : list (Z * Z) := match o with Add k v => [(k, v)] | Remove _ => [] end.
Definition op_key (o : op) : Z := match o with Add k _ => k | Remove k => k end.

Lemma stems_empty c : is_twin c -> c <= BIG_TWIN -> stems (empty_table c) [].
Proof.
  intros H1 H2 i Hi Hk. exfalso. apply Hk. unfold keyat, ent, empty_table; simpl.
  assert (E : forall n m, nth n (repeat (0, 0) m) (0, 0) = (0, 0)).
  { intros n m. revert n. induction m; intros [|n]; simpl; auto. }
  now rewrite E.
Qed.

Lemma add_stems st t adds k v : st_ok st -> shape t -> stems t adds -> k <> 0 -> tsize t < 249999999 ->
  exists st' t', hash_table_add_or_update hashf equalf st t k v = Ok (st', t') /\ st_ok st' /\ shape t' /\
    stems t' (adds ++ [(k, v)]) /\ tsize t' <= tsize t + 1.
Proof.
  intros Hst Hsh Hs Hk Hsz.
  destruct (add_spec (fun t a => stems t a) stems_empty) with (st := st) (t := t) (k := k) (v := v) (done := adds)
    as (st' & t' & t1 & done1 & n & E & H1 & H2 & H3 & H4 & H5 & H6 & H7 & H8 & H9 & H10); auto.
  { intros. apply placed_stems; auto. apply pr_range. pose proof (shape_cap t0 H). lia. }
  exists st', t'. ands; auto.
  - destruct H3 as [[-> ->]|(-> & H3 & _)]; auto.
    intros i Hi Hnz. destruct (H10 i Hi Hnz) as (k' & Hin & Hk' & Eq).
    apply in_app_or in Hin. destruct Hin as [Hin|Hin].
    + destruct (in_ent t _ Hsh Hin) as (j & Hj & Ej & Kj).
      destruct (Hs j Hj Kj) as (k2 & Hin2 & Hk2 & Eq2). rewrite Ej in Hin2. simpl in Hin2.
      exists k2. split; [apply in_or_app; auto|]. split; auto.
      unfold keyat in Eq2 at 1. rewrite Ej in Eq2. simpl in Eq2. apply (eqt _ k' _); auto.
    + exists k'. split; [apply in_or_app; auto|]. auto.
  - rewrite H9. assert (tsize t1 <= tsize t) by (destruct H3 as [[-> _]|(_ & _ & H3)]; lia).
    unfold placed. destruct (equalf _ _); simpl; lia.
Qed.

Lemma remove_weak t k : shape t -> k <> 0 ->
  exists n, (n < Z.to_nat (capacity t))%nat /\
    let i := pr (capacity t) k n in
    stop t k i = true /\ (forall m, (m < n)%nat -> stop t k (pr (capacity t) k m) = false) /\
    if equalf (keyat t i) k then
      keyat t i <> 0 /\
      let t' := {| slots := upd (slots t) (Z.to_nat i) (0, snd (ent t i)); tsize := tsize t - 1;
                   capacity := capacity t; freed := false |} in
      hash_table_remove hashf equalf t k = Ok (t', true) /\ shape t'
    else hash_table_remove hashf equalf t k = Ok (t, false).
Proof.
  intros Hsh Hk. destruct (candidate_spec t k Hsh) as (n & Hn & E & Sn & Ln).
  exists n. split; auto. cbv zeta. set (i := pr (capacity t) k n) in *. split; auto. split; auto.
  pose proof (shape_cap t Hsh) as Hc.
  assert (Hi : 0 <= i < capacity t) by (apply pr_range; lia).
  unfold hash_table_remove. rewrite E; cbn [bind]. rewrite slot_eq by auto. cbn [bind].
  fold (keyat t i). destruct (equalf (keyat t i) k) eqn:Eq; auto.
  assert (Hnz : keyat t i <> 0).
  { intros Hz. rewrite Hz in Eq. rewrite (eq_null_ _ _ G) in Eq by auto. discriminate. }
  pose proof (sh_len t Hsh). split; auto. rewrite wr_Ok by lia. cbn [bind]. rewrite (sh_live t Hsh). split; auto.
  pose proof (ent_nth t i Hsh Hi) as He. destruct Hsh as [H1 H2 H3 H4 H5 H6].
  constructor; cbn [slots tsize capacity freed]; auto; try lia; try (rewrite upd_length; auto).
  rewrite (count_upd _ _ _ _ _ He). unfold nonnull; simpl. fold (keyat t i).
  destruct (Z.eqb_spec (keyat t i) 0); [lia|]. simpl. unfold nonnull in H5. lia.
Qed.

Lemma remove_stems t adds k : shape t -> stems t adds -> k <> 0 ->
  exists t' b, hash_table_remove hashf equalf t k = Ok (t', b) /\ shape t' /\ stems t' adds /\ tsize t' <= tsize t.
Proof.
  intros Hsh Hs Hk. destruct (remove_weak t k Hsh Hk) as (n & Hn & Sn & Ln & H). cbv zeta in *.
  pose proof (shape_cap t Hsh) as Hc.
  set (i := pr (capacity t) k n) in *. assert (Hi : 0 <= i < capacity t) by (apply pr_range; lia).
  destruct (equalf (keyat t i) k).
  - destruct H as (Hnz & E & Hsh'). eexists _, _. split; [exact E|]. split; auto. split; [|simpl; lia].
    intros j Hj. simpl in Hj. unfold keyat, ent. simpl. pose proof (sh_len t Hsh).
    rewrite nth_upd by lia.
    destruct (Nat.eqb_spec (Z.to_nat i) (Z.to_nat j)); simpl; [lia|]. apply Hs. auto.
  - eexists _, _. split; [exact H|]. ands; auto; lia.
Qed.

Lemma steps_weak ops : forall st t adds, st_ok st -> shape t -> stems t adds ->
  Forall (fun o => op_key o <> 0) ops -> tsize t + Z.of_nat (length ops) <= 249999999 ->
  exists st' t', steps hashf equalf (st, t) ops = Ok (st', t') /\ st_ok st' /\ shape t' /\
                 stems t' (adds ++ flat_map op_adds ops) /\ tsize t' <= tsize t + Z.of_nat (length ops).
Proof.
  induction ops as [|o ops IH]; intros st t adds Hst Hsh Hs Hk Hsz.
  - exists st, t. simpl. rewrite app_nil_r. ands; auto. lia.
  - inversion Hk as [|? ? Hk1 Hk2]; subst. cbn [steps]. simpl length in *.
    assert (exists st1 t1, step hashf equalf (st, t) o = Ok (st1, t1) /\ st_ok st1 /\ shape t1 /\
              stems t1 (adds ++ op_adds o) /\ tsize t1 <= tsize t + 1) as (st1 & t1 & E & H1 & H2 & H3 & H4).
    { destruct o as [k v|k]; simpl in *.
      - apply add_stems; auto. lia.
      - destruct (remove_stems t adds k Hsh Hs Hk1) as (t' & b & E & H1 & H2 & H3). rewrite E; cbn [bind].
        exists st, t'. rewrite app_nil_r. ands; auto. lia. }
    rewrite E; cbn [bind].
    destruct (IH st1 t1 (adds ++ op_adds o) H1 H2 H3 Hk2) as (st' & t' & E' & A1 & A2 & A3 & A4); [lia|].
    exists st', t'. simpl flat_map. rewrite app_assoc. ands; auto. lia.
Qed.

(** Main weak theorem: any mixture of adds and removes of non-NULL keys. *)
Theorem history_weak c0 ops : 0 <= c0 <= BIG_TWIN -> Forall (fun o => op_key o <> 0) ops ->
  Z.of_nat (length ops) <= 249999999 -> forall st, st_ok st ->
  exists st' t, history hashf equalf st c0 ops = Ok (st', t) /\ st_ok st' /\ shape t /\ stems t (flat_map op_adds ops).
Proof.
  intros Hc Hk Hlen st Hst. unfold history.
  destruct (initialize_spec st c0 Hst Hc) as (st1 & c' & E1 & Hst1 & HL1 & Hb1). rewrite E1; cbn [bind].
  destruct (steps_weak ops st1 (empty_table c') []) as (st' & t' & E' & A1 & A2 & A3 & A4); auto.
  - apply empty_shape; auto. apply HL1.
  - apply stems_empty; auto. apply HL1.
  - exists st', t'. auto.
Qed.

Lemma contains_eq t k : shape t -> exists n, (n < Z.to_nat (capacity t))%nat /\
    let i := pr (capacity t) k n in
    stop t k i = true /\ (forall m, (m < n)%nat -> stop t k (pr (capacity t) k m) = false) /\
    hash_table_contains hashf equalf t k = Ok (equalf (keyat t i) k) /\
    hash_table_get hashf equalf t k = Ok (if equalf (keyat t i) k then snd (ent t i) else 0).
Proof.
  intros Hsh. destruct (candidate_spec t k Hsh) as (n & Hn & E & Sn & Ln).
  exists n. cbv zeta. ands; auto; unfold hash_table_contains, hash_table_get; rewrite E; cbn [bind];
    pose proof (shape_cap t Hsh) as Hc; rewrite slot_eq by (auto; apply pr_range; lia); cbn [bind];
    fold (keyat t (pr (capacity t) k n)); auto.
  destruct (equalf _ _); auto.
Qed.

(** ** Add-only histories: the strong invariant *)
Definition chained (t : table) : Prop :=
  forall i, 0 <= i < capacity t -> keyat t i <> 0 ->
  exists n, pr (capacity t) (keyat t i) n = i /\
            forall m, (m < n)%nat -> keyat t (pr (capacity t) (keyat t i) m) <> 0.
Definition unique (t : table) : Prop :=
  forall i j, 0 <= i < capacity t -> 0 <= j < capacity t -> keyat t i <> 0 -> keyat t j <> 0 ->
  equalf (keyat t i) (keyat t j) = true -> i = j.
Definition maps (t : table) (k v : Z) : Prop :=
  exists i, 0 <= i < capacity t /\ keyat t i <> 0 /\ equalf (keyat t i) k = true /\ snd (ent t i) = v.
Definition reps (t : table) (adds : list (Z * Z)) : Prop :=
  forall k v, k <> 0 -> (maps t k v <-> latest equalf adds k = Some v).

Lemma pr_eq c a b n : a <> 0 -> b <> 0 -> equalf a b = true -> pr c a n = pr c b n.
Proof. intros Ha Hb E. unfold pr, hsh. now rewrite (eq_hash_ _ _ G a b Ha Hb E). Qed.

(** The candidate of [k] is the slot holding it, if any. *)
Lemma cand_found t k n j : shape t -> chained t -> unique t -> k <> 0 ->
  stop t k (pr (capacity t) k n) = true ->
  (forall m, (m < n)%nat -> stop t k (pr (capacity t) k m) = false) ->
  0 <= j < capacity t -> keyat t j <> 0 -> equalf (keyat t j) k = true ->
  pr (capacity t) k n = j.
Proof.
  intros Hsh Hch Hun Hk Sn Ln Hj Kj Ej. pose proof (shape_cap t Hsh) as Hc.
  destruct (Hch j Hj Kj) as (p & Pp & Hp).
  assert (EQ : forall m, pr (capacity t) (keyat t j) m = pr (capacity t) k m) by (intros; apply pr_eq; auto).
  rewrite EQ in Pp. assert (Hle : (n <= p)%nat).
  { destruct (Nat.le_gt_cases n p) as [|Hlt]; auto. exfalso.
    specialize (Ln p Hlt). rewrite Pp in Ln. unfold stop in Ln. rewrite Ej, orb_true_r in Ln. discriminate. }
  destruct (Nat.eq_dec n p) as [->|Hne]; auto.
  assert (Hnz : keyat t (pr (capacity t) k n) <> 0) by (rewrite <- EQ; apply Hp; lia).
  unfold stop in Sn. apply orb_true_iff in Sn. destruct Sn as [Sn|Sn]; [apply Z.eqb_eq in Sn; contradiction|].
  apply Hun; auto. { apply pr_range; lia. }
  apply (eqt _ k _); auto using eqs.
Qed.

Lemma placed_key t k v i j : shape t -> 0 <= i < capacity t -> 0 <= j < capacity t ->
  keyat (placed t k v i) j = if i =? j then (if equalf (keyat t i) k then keyat t i else k) else keyat t j.
Proof. intros. unfold keyat at 1. rewrite placed_ent by auto. destruct (i =? j); auto. Qed.

Lemma placed_chained t k v n : shape t -> k <> 0 -> chained t ->
  stop t k (pr (capacity t) k n) = true ->
  (forall m, (m < n)%nat -> stop t k (pr (capacity t) k m) = false) ->
  chained (placed t k v (pr (capacity t) k n)).
Proof.
  intros Hsh Hk Hch Sn Ln. pose proof (shape_cap t Hsh) as Hc. set (i := pr (capacity t) k n) in *.
  assert (Hi : 0 <= i < capacity t) by (apply pr_range; lia).
  assert (Hmono : forall j, 0 <= j < capacity t -> keyat t j <> 0 -> keyat (placed t k v i) j <> 0).
  { intros j Hj. rewrite placed_key by auto. destruct (Z.eqb_spec i j); auto. subst j.
    destruct (equalf _ _); auto. }
  intros j. rewrite placed_cap. intros Hj. rewrite placed_key by auto.
  destruct (Z.eqb_spec i j) as [<-|Hne].
  - destruct (equalf (keyat t i) k) eqn:E; intros Hnz.
    + destruct (Hch i Hi Hnz) as (p & Pp & Hp). exists p. split; auto.
      intros m Hm. apply Hmono; auto. apply pr_range; lia.
    + exists n. split; auto. intros m Hm. apply Hmono; [apply pr_range; lia|].
      specialize (Ln m Hm). unfold stop in Ln. apply orb_false_iff in Ln. destruct Ln as [Ln _].
      apply Z.eqb_neq in Ln. auto.
  - intros Hnz. destruct (Hch j Hj Hnz) as (p & Pp & Hp). exists p. split; auto.
    intros m Hm. apply Hmono; auto. apply pr_range; lia.
Qed.

Lemma placed_unique t k v n : shape t -> k <> 0 -> chained t -> unique t ->
  stop t k (pr (capacity t) k n) = true ->
  (forall m, (m < n)%nat -> stop t k (pr (capacity t) k m) = false) ->
  unique (placed t k v (pr (capacity t) k n)).
Proof.
  intros Hsh Hk Hch Hun Sn Ln. pose proof (shape_cap t Hsh) as Hc.
  pose proof (cand_found t k n) as Hcf. set (i := pr (capacity t) k n) in *.
  assert (Hi : 0 <= i < capacity t) by (apply pr_range; lia).
  intros a b. rewrite placed_cap. intros Ha Hb. rewrite !placed_key by auto.
  destruct (equalf (keyat t i) k) eqn:E.
  - destruct (Z.eqb_spec i a) as [<-|], (Z.eqb_spec i b) as [<-|]; auto.
  - destruct (Z.eqb_spec i a) as [<-|], (Z.eqb_spec i b) as [<-|]; auto; intros K1 K2 Eq;
      solve [ apply Hcf; auto using eqs | symmetry; apply Hcf; auto ].
Qed.

Lemma latest_app adds k v k' :
  latest equalf (adds ++ [(k, v)]) k' = if equalf k k' then Some v else latest equalf adds k'.
Proof.
  induction adds as [|[a b] adds IH]; simpl; auto.
  rewrite IH. destruct (equalf k k'); auto.
Qed.

Lemma placed_reps t k v n adds : shape t -> k <> 0 -> chained t -> unique t -> reps t adds ->
  stop t k (pr (capacity t) k n) = true ->
  (forall m, (m < n)%nat -> stop t k (pr (capacity t) k m) = false) ->
  reps (placed t k v (pr (capacity t) k n)) (adds ++ [(k, v)]).
Proof.
  intros Hsh Hk Hch Hun Hr Sn Ln. pose proof (shape_cap t Hsh) as Hc.
  pose proof (fun j => cand_found t k n j Hsh Hch Hun Hk Sn Ln) as Hcf. set (i := pr (capacity t) k n) in *.
  assert (Hi : 0 <= i < capacity t) by (apply pr_range; lia).
  intros k' v' Hk'. rewrite latest_app. destruct (equalf k k') eqn:E.
  - split.
    + intros (j & Hj & Kj & Ej & Vj). rewrite placed_cap in Hj.
      rewrite placed_key in * by auto. rewrite placed_ent in Vj by auto.
      destruct (Z.eqb_spec i j) as [<-|Hne]; simpl in Vj; [congruence|]. exfalso. apply Hne.
      apply Hcf; auto. apply (eqt _ k' _); auto using eqs.
    + intros H. inversion H; subst v'. exists i. rewrite placed_cap, placed_key, placed_ent, Z.eqb_refl by auto.
      ands; auto; try lia; destruct (equalf (keyat t i) k) eqn:Ek; auto.
      * intros Hz. rewrite Hz in Ek. rewrite (eq_null_ _ _ G) in Ek by auto. discriminate.
      * assert (keyat t i <> 0) by (intros Hz; rewrite Hz, (eq_null_ _ _ G) in Ek by auto; discriminate).
        apply (eq_trans_ _ _ G) with (b := k); auto.
  - rewrite <- (Hr k' v' Hk'). split.
    + intros (j & Hj & Kj & Ej & Vj). rewrite placed_cap in Hj.
      rewrite placed_key in * by auto. rewrite placed_ent in Vj by auto.
      destruct (Z.eqb_spec i j) as [<-|Hne]; [|exists j; auto]. exfalso.
      destruct (equalf (keyat t i) k) eqn:Ek; [|congruence].
      assert (equalf k k' = true); [|congruence].
      apply (eqt _ (keyat t i) _); auto using eqs.
    + intros (j & Hj & Kj & Ej & Vj). exists j. rewrite placed_cap, placed_key, placed_ent by auto.
      destruct (Z.eqb_spec i j) as [<-|Hne]; [|auto]. exfalso.
      unfold stop in Sn. apply orb_true_iff in Sn. destruct Sn as [Sn|Sn]; [apply Z.eqb_eq in Sn; contradiction|].
      assert (equalf k k' = true); [|congruence].
      apply (eqt _ (keyat t i) _); auto using eqs.
Qed.

Definition strong (t : table) (adds : list (Z * Z)) : Prop :=
  chained t /\ unique t /\ reps t adds /\ tsize t = distinct equalf adds /\ Forall (fun e => fst e <> 0) adds.

Lemma distinct_app adds k v : Forall (fun e => fst e <> 0) adds -> k <> 0 ->
  distinct equalf (adds ++ [(k, v)]) =
  distinct equalf adds + (if existsb (fun e => equalf (fst e) k) adds then 0 else 1).
Proof.
  intros Hnz Hk. induction Hnz as [|[a b] adds Ha Hnz IH]; simpl; auto.
  rewrite IH, existsb_app. simpl. rewrite orb_false_r. simpl in Ha.
  assert (Esym : equalf k a = equalf a k).
  { destruct (equalf k a) eqn:E1, (equalf a k) eqn:E2; auto.
    - apply (eq_sym_ _ _ G) in E1; auto. congruence.
    - apply (eq_sym_ _ _ G) in E2; auto. congruence. }
  rewrite Esym. destruct (equalf a k) eqn:Eak; simpl; [|rewrite orb_false_r; lia].
  rewrite orb_true_r.
  assert (Eex : existsb (fun e => equalf (fst e) a) adds = existsb (fun e => equalf (fst e) k) adds).
  { apply eq_true_iff_eq. rewrite !existsb_exists. rewrite Forall_forall in Hnz.
    split; intros (e & Hin & He); exists e; split; auto; [apply (eqt _ a _) | apply (eqt _ k _)]; auto using eqs. }
  rewrite Eex. destruct (existsb _ adds); lia.
Qed.

Lemma latest_none adds k : latest equalf adds k = None <-> existsb (fun e => equalf (fst e) k) adds = false.
Proof.
  induction adds as [|[a b] adds IH]; simpl; [tauto|].
  rewrite orb_false_iff, <- IH. destruct (latest equalf adds k).
  - split; [discriminate|]. intros [_ H]; discriminate.
  - destruct (equalf a k); split; auto; try discriminate. intros [H _]; discriminate. 
Qed.

Lemma reps_exists t adds k : reps t adds -> k <> 0 ->
  (existsb (fun e => equalf (fst e) k) adds = true <-> exists v, maps t k v).
Proof.
  intros Hr Hk. split.
  - intros H. destruct (latest equalf adds k) as [v|] eqn:E.
    + exists v. apply Hr; auto.
    + apply latest_none in E. congruence.
  - intros [v Hv]. apply Hr in Hv; auto. destruct (existsb _ adds) eqn:E; auto.
    apply latest_none in E. congruence.
Qed.

Lemma placed_strong t k v n adds : shape t -> strong t adds -> k <> 0 ->
  stop t k (pr (capacity t) k n) = true ->
  (forall m, (m < n)%nat -> stop t k (pr (capacity t) k m) = false) ->
  strong (placed t k v (pr (capacity t) k n)) (adds ++ [(k, v)]).
Proof.
  intros Hsh (Hch & Hun & Hr & Hd & Hnz) Hk Sn Ln. pose proof (shape_cap t Hsh) as Hc.
  unfold strong. ands.
  - apply placed_chained; auto.
  - apply placed_unique; auto.
  - apply placed_reps; auto.
  - rewrite distinct_app by auto. rewrite <- Hd.
    pose proof (fun j => cand_found t k n j Hsh Hch Hun Hk Sn Ln) as Hcf. set (i := pr (capacity t) k n) in *.
    assert (Hi : 0 <= i < capacity t) by (apply pr_range; lia).
    pose proof (reps_exists t adds k Hr Hk) as He. unfold placed.
    destruct (equalf (keyat t i) k) eqn:E; simpl.
    + assert (existsb (fun e => equalf (fst e) k) adds = true) as ->; [|lia].
      apply He. exists (snd (ent t i)), i. ands; auto; try lia.
      intros Hz. rewrite Hz, (eq_null_ _ _ G) in E by auto. discriminate.
    + destruct (existsb _ adds) eqn:Ex; [|lia]. exfalso.
      destruct He as [He _]. destruct (He eq_refl) as (v0 & j & Hj & Kj & Ej & _).
      specialize (Hcf j Hj Kj Ej). subst j. congruence.
  - apply Forall_app. split; auto.
Qed.

Lemma strong_empty c : is_twin c -> c <= BIG_TWIN -> strong (empty_table c) [].
Proof.
  intros H1 H2. pose proof (stems_empty c H1 H2) as Hs.
  assert (Hz : forall i, 0 <= i < capacity (empty_table c) -> keyat (empty_table c) i <> 0 -> False).
  { intros i Hi Hk. destruct (Hs i Hi Hk) as (k & [] & _). }
  unfold strong. ands; auto.
  - intros i Hi Hk. exfalso; eauto.
  - intros i j Hi Hj Hk. exfalso; eauto.
  - intros k v Hk. split; [|discriminate]. intros (i & Hi & Ki & _). exfalso; eauto.
Qed.

(** The entries of a strong table, listed in slot order, describe the same map. *)
Lemma latest_filter l k v : k <> 0 ->
  (forall i j a b, nth_error l i = Some a -> nth_error l j = Some b -> fst a <> 0 -> fst b <> 0 ->
      equalf (fst a) (fst b) = true -> i = j) ->
  (latest equalf (filter nonnull l) k = Some v <->
   exists i a, nth_error l i = Some a /\ fst a <> 0 /\ equalf (fst a) k = true /\ snd a = v).
Proof.
  intros Hk. induction l as [|[a b] l IH]; intros Hu; simpl.
  - split; [discriminate|]. intros (i & x & H & _). destruct i; discriminate.
  - assert (IH' : latest equalf (filter nonnull l) k = Some v <->
      exists i a, nth_error l i = Some a /\ fst a <> 0 /\ equalf (fst a) k = true /\ snd a = v).
    { apply IH. intros i j x y Hx Hy H1 H2 H3. specialize (Hu (S i) (S j) x y Hx Hy H1 H2 H3). lia. }
    unfold nonnull at 1. simpl. destruct (Z.eqb_spec a 0) as [Ha|Ha]; simpl.
    + rewrite IH'. split.
      * intros (i & x & H). exists (S i), x. auto.
      * intros (i & x & H & Hx & Hr). destruct i as [|i]; simpl in H.
        { inversion H; subst. simpl in Hx. congruence. }
        exists i, x. auto.
    + destruct (latest equalf (filter nonnull l) k) as [v'|] eqn:E.
      * rewrite IH'. split.
        { intros (i & x & H). exists (S i), x. auto. }
        { intros (i & x & H & Hx & Ex & Hr). destruct i as [|i]; simpl in H; [|exists i, x; auto].
          inversion H; subst x. simpl in *. subst b.
          assert (Hin : exists i a', nth_error l i = Some a' /\ fst a' <> 0 /\ equalf (fst a') k = true).
          { clear - E. revert E. induction l as [|[c d] l IH]; simpl; [discriminate|].
            unfold nonnull at 1. simpl. destruct (Z.eqb_spec c 0) as [Hc|Hc]; simpl.
            - intros H. destruct (IH H) as (i & a' & H'). exists (S i), a'. auto.
            - destruct (latest equalf (filter nonnull l) k) eqn:E2.
              + intros HH. destruct (IH HH) as (i & a' & H'). exists (S i), a'. auto.
              + destruct (equalf c k) eqn:Ec; [|discriminate]. intros _. exists 0%nat, (c, d). auto. }
          destruct Hin as (i & a' & H1 & H2 & H3).
          specialize (Hu 0%nat (S i) (a, v) a' eq_refl H1 Ha H2). simpl in Hu.
          assert (0%nat = S i); [|lia]. apply Hu. apply (eqt _ k _); auto using eqs. }
      * split.
        { destruct (equalf a k) eqn:Ea; [|discriminate]. intros H; inversion H; subst.
          exists 0%nat, (a, v). auto. }
        { intros (i & x & H & Hx & Ex & Hr). destruct i as [|i]; simpl in H.
          - inversion H; subst x. simpl in *. rewrite Ex. congruence.
          - exfalso. assert (None = Some v) by (apply IH'; exists i, x; auto). discriminate. }
Qed.

Lemma strong_filter t adds : shape t -> strong t adds ->
  forall k, k <> 0 -> latest equalf (filter nonnull (slots t)) k = latest equalf adds k.
Proof.
  intros Hsh (Hch & Hun & Hr & Hd & Hnz) k Hk.
  assert (H : forall v, latest equalf (filter nonnull (slots t)) k = Some v <-> latest equalf adds k = Some v).
  { intros v. rewrite <- (Hr k v Hk). rewrite latest_filter; auto.
    - pose proof (sh_len t Hsh). split.
      + intros (i & a & H1 & H2 & H3 & H4).
        assert (Hi : (i < length (slots t))%nat) by (apply nth_error_Some; congruence).
        exists (Z.of_nat i). unfold keyat, ent. rewrite Nat2Z.id, (nth_error_nth _ _ _ H1).
        ands; auto; lia.
      + intros (i & Hi & H1 & H2 & H3). exists (Z.to_nat i), (ent t i). ands; auto.
        apply ent_nth; auto.
    - intros i j a b H1 H2 H3 H4 H5. pose proof (sh_len t Hsh).
      assert (Hi : (i < length (slots t))%nat) by (apply nth_error_Some; congruence).
      assert (Hj : (j < length (slots t))%nat) by (apply nth_error_Some; congruence).
      assert (Z.of_nat i = Z.of_nat j); [|lia].
      apply Hun; try lia; unfold keyat, ent; rewrite ?Nat2Z.id, ?(nth_error_nth _ _ _ H1), ?(nth_error_nth _ _ _ H2); auto. }
  destruct (latest equalf adds k) as [v|].
  - apply H; auto.
  - destruct (latest equalf (filter nonnull (slots t)) k) as [v|]; auto.
    assert (None = Some v) by (apply H; auto). discriminate.
Qed.

Lemma distinct_filter l :
  (forall i j a b, nth_error l i = Some a -> nth_error l j = Some b -> fst a <> 0 -> fst b <> 0 ->
      equalf (fst a) (fst b) = true -> i = j) ->
  distinct equalf (filter nonnull l) = count nonnull l.
Proof.
  induction l as [|[a b] l IH]; intros Hu; auto.
  rewrite count_cons. cbn [filter].
  replace (nonnull (a, b)) with (negb (a =? 0)) by reflexivity.
  rewrite <- IH by (intros i j x y Hx Hy H1 H2 H3; specialize (Hu (S i) (S j) x y Hx Hy H1 H2 H3); lia).
  destruct (Z.eqb_spec a 0) as [Ha|Ha]; simpl; [lia|].
  destruct (existsb _ _) eqn:E; [|lia]. exfalso.
  apply existsb_exists in E. destruct E as (e & Hin & He). apply filter_In in Hin. destruct Hin as [Hin Hn].
  apply In_nth_error in Hin. destruct Hin as [i Hi].
  unfold nonnull in Hn. apply negb_true_iff, Z.eqb_neq in Hn.
  specialize (Hu (S i) 0%nat e (a, b) Hi eq_refl Hn Ha He). lia.
Qed.

Lemma add_strong st t adds k v : st_ok st -> shape t -> strong t adds -> k <> 0 -> tsize t < 249999999 ->
  exists st' t', hash_table_add_or_update hashf equalf st t k v = Ok (st', t') /\ st_ok st' /\ shape t' /\
    strong t' (adds ++ [(k, v)]).
Proof.
  intros Hst Hsh Hs Hk Hsz.
  destruct (add_spec strong strong_empty) with (st := st) (t := t) (k := k) (v := v) (done := adds)
    as (st' & t' & t1 & done1 & n & E & H1 & H2 & H3 & H4 & H5 & H6 & H7 & H8 & H9 & H10); auto.
  { intros. apply placed_strong; auto. }
  exists st', t'. ands; auto.
  destruct H3 as [[-> ->]|(-> & H3 & _)]; auto.
  pose proof (strong_filter t adds Hsh Hs) as HF.
  assert (HS1 : strong t1 adds).
  { destruct H3 as (A1 & A2 & A3 & A4 & A5). destruct Hs as (B1 & B2 & B3 & B4 & B5).
    unfold strong. ands; auto.
    - intros k0 v0 Hk0. rewrite (A3 k0 v0 Hk0). rewrite HF by auto. reflexivity.
    - rewrite A4, <- B4, (sh_size t Hsh). apply distinct_filter.
      intros i j a b G1 G2 G3 G4 G5. pose proof (sh_len t Hsh).
      assert (Hi : (i < length (slots t))%nat) by (apply nth_error_Some; congruence).
      assert (Hj : (j < length (slots t))%nat) by (apply nth_error_Some; congruence).
      assert (Z.of_nat i = Z.of_nat j); [|lia].
      apply B2; try lia; unfold keyat, ent; rewrite ?Nat2Z.id, ?(nth_error_nth _ _ _ G1), ?(nth_error_nth _ _ _ G2); auto. }
  rewrite H9. apply placed_strong; auto.
Qed.

Definition adds_ops (adds : list (Z * Z)) : list op := map (fun e => Add (fst e) (snd e)) adds.

Lemma distinct_le adds : 0 <= distinct equalf adds <= Z.of_nat (length adds).
Proof. induction adds as [|[a b] l IH]; simpl distinct; [simpl; lia|]. simpl length. destruct (existsb _ l); lia. Qed.

Lemma steps_strong todo : forall st t adds, st_ok st -> shape t -> strong t adds ->
  Forall (fun e => fst e <> 0) todo -> Z.of_nat (length (adds ++ todo)) <= 249999999 ->
  exists st' t', steps hashf equalf (st, t) (adds_ops todo) = Ok (st', t') /\ st_ok st' /\ shape t' /\
                 strong t' (adds ++ todo).
Proof.
  induction todo as [|[k v] todo IH]; intros st t adds Hst Hsh Hs Hk Hsz.
  - exists st, t. rewrite app_nil_r. auto.
  - inversion Hk as [|? ? Hk1 Hk2]; subst. simpl in Hk1. cbn [steps adds_ops map step fst snd].
    rewrite app_length in Hsz. simpl length in *.
    destruct (add_strong st t adds k v Hst Hsh Hs Hk1) as (st1 & t1 & E & H1 & H2 & H3).
    { destruct Hs as (_ & _ & _ & -> & _). pose proof (distinct_le adds). lia. }
    rewrite E; cbn [bind].
    destruct (IH st1 t1 (adds ++ [(k, v)]) H1 H2 H3 Hk2) as (st' & t' & E' & A1 & A2 & A3).
    { rewrite !app_length. simpl. lia. }
    rewrite <- app_assoc in A3. exists st', t'. auto.
Qed.

Theorem history_strong c0 adds : 0 <= c0 <= BIG_TWIN -> Forall (fun e => fst e <> 0) adds ->
  Z.of_nat (length adds) <= 249999999 -> forall st, st_ok st ->
  exists st' t, history hashf equalf st c0 (adds_ops adds) = Ok (st', t) /\ st_ok st' /\ shape t /\ strong t adds.
Proof.
  intros Hc Hk Hlen st Hst. unfold history.
  destruct (initialize_spec st c0 Hst Hc) as (st1 & c' & E1 & Hst1 & HL1 & Hb1). rewrite E1; cbn [bind].
  destruct (steps_strong adds st1 (empty_table c') []) as (st' & t' & E' & A1 & A2 & A3); auto.
  - apply empty_shape; auto. apply HL1.
  - apply strong_empty; auto. apply HL1.
  - exists st', t'. auto.
Qed.

Lemma strong_lookup t adds k : shape t -> strong t adds -> k <> 0 ->
  hash_table_contains hashf equalf t k = Ok (match latest equalf adds k with Some _ => true | None => false end) /\
  hash_table_get hashf equalf t k = Ok (match latest equalf adds k with Some v => v | None => 0 end).
Proof.
  intros Hsh (Hch & Hun & Hr & Hd & Hnz) Hk. pose proof (shape_cap t Hsh) as Hc.
  destruct (contains_eq t k Hsh) as (n & Hn & Sn & Ln & E1 & E2). cbv zeta in *.
  pose proof (fun j => cand_found t k n j Hsh Hch Hun Hk Sn Ln) as Hcf. set (i := pr (capacity t) k n) in *.
  assert (Hi : 0 <= i < capacity t) by (apply pr_range; lia).
  rewrite E1, E2. destruct (equalf (keyat t i) k) eqn:E.
  - assert (latest equalf adds k = Some (snd (ent t i))) as ->; auto.
    apply Hr; auto. exists i. ands; auto; try lia.
    intros Hz. rewrite Hz, (eq_null_ _ _ G) in E by auto. discriminate.
  - destruct (latest equalf adds k) as [v|] eqn:EL; auto. exfalso.
    apply Hr in EL; auto. destruct EL as (j & Hj & Kj & Ej & Vj).
    rewrite (Hcf j Hj Kj Ej) in E. congruence.
Qed.

(** Removing from an add-only table. *)
Lemma strong_remove t adds k : shape t -> strong t adds -> k <> 0 ->
  exists t' b, hash_table_remove hashf equalf t k = Ok (t', b) /\
    b = (match latest equalf adds k with Some _ => true | None => false end) /\
    tsize t' = tsize t - (if b then 1 else 0) /\
    hash_table_contains hashf equalf t' k = Ok false.
Proof.
  intros Hsh Hst Hk. pose proof (shape_cap t Hsh) as Hc.
  pose proof (strong_lookup t adds k Hsh Hst Hk) as [HC _].
  destruct Hst as (Hch & Hun & Hr & Hd & Hnz).
  destruct (remove_weak t k Hsh Hk) as (n & Hn & Sn & Ln & H). cbv zeta in *.
  set (i := pr (capacity t) k n) in *. assert (Hi : 0 <= i < capacity t) by (apply pr_range; lia).
  destruct (equalf (keyat t i) k) eqn:Ei.
  - destruct H as (Hnz' & E & Hsh'). eexists _, _. split; [exact E|].
    assert (EL : latest equalf adds k = Some (snd (ent t i))).
    { apply Hr; auto. exists i. auto. }
    rewrite EL. ands; auto. set (t' := {| slots := _ |}) in *.
    destruct (contains_eq t' k Hsh') as (n' & Hn' & Sn' & Ln' & E1 & _). cbv zeta in *.
    rewrite E1. f_equal. change (capacity t') with (capacity t) in *.
    destruct (equalf (keyat t' (pr (capacity t) k n')) k) eqn:E2; auto. exfalso.
    set (j := pr (capacity t) k n') in *. assert (Hj : 0 <= j < capacity t) by (apply pr_range; lia).
    assert (Hkj : keyat t' j = if i =? j then 0 else keyat t j).
    { unfold keyat, ent, t'; simpl. pose proof (sh_len t Hsh). rewrite nth_upd by lia.
      destruct (Nat.eqb_spec (Z.to_nat i) (Z.to_nat j)), (Z.eqb_spec i j); auto; lia. }
    rewrite Hkj in E2. destruct (Z.eqb_spec i j) as [|Hne].
    + rewrite (eq_null_ _ _ G) in E2 by auto. discriminate.
    + assert (Hkjnz : keyat t j <> 0).
      { intros Hz. rewrite Hz, (eq_null_ _ _ G) in E2 by auto. discriminate. }
      apply Hne. apply Hun; auto. apply (eqt _ k _); auto using eqs.
  - assert (Hcf : hash_table_contains hashf equalf t k = Ok false).
    { destruct (contains_eq t k Hsh) as (n' & _ & Sn' & Ln' & E1 & _). cbv zeta in *. rewrite E1.
      assert (n' = n) as ->.
      { destruct (Nat.lt_trichotomy n n') as [Hl|[Hl|Hl]]; auto.
        - specialize (Ln' n Hl). fold i in Ln'. congruence.
        - specialize (Ln n' Hl). congruence. }
      fold i. now rewrite Ei. }
    exists t, false. split; auto. rewrite Hcf in HC.
    destruct (latest equalf adds k); [discriminate|]. ands; auto; lia.
Qed.
End Client.
