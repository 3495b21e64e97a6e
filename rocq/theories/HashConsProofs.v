(** * Proofs for utilities/hashcons.c *)
From Coq Require Import Znumtheory.
From Verif Require Import Base PrimeModel PrimeSpec PrimeProofs ProbeProofs HashTableModel HashConsModel HashConsSpec.
Open Scope Z_scope.

Definition nz (p : nat) : bool := negb (Nat.eqb p 0).
Definition at_ {A} (h : hc A) (i : Z) : nat := nth (Z.to_nat i) (hslots h) 0%nat.

Lemma nthS_upd {A} (l : list A) i j x d : (i < length l)%nat ->
  nth j (upd l i x) d = if Nat.eqb i j then x else nth j l d.
Proof.
  intros Hi. pose proof (nth_error_upd l i j x) as H.
  destruct (Nat.eqb_spec i j) as [->|Hn].
  - destruct (Nat.ltb_spec j (length l)); [|lia]. apply nth_error_nth with (d := d) in H. auto.
  - destruct (nth_error l j) eqn:E.
    + rewrite (nth_error_nth _ _ d H). symmetry. now apply nth_error_nth.
    + rewrite !nth_overflow; auto; [|rewrite upd_length]; apply nth_error_None; auto.
Qed.

Section Client.
Context {A : Type}.
Variable hashf : A -> Z.
Variable equalf : A -> A -> bool.
Hypothesis G : hc_good hashf equalf.
Implicit Types h : hc A.

Record hshape h : Prop := {
  hs_init : hinit h = true;
  hs_len : Z.of_nat (length (hslots h)) = hcap h;
  hs_twin : is_twin (hcap h);
  hs_big : hcap h <= BIG_TWIN;
  hs_size : hsize h = count nz (hslots h);
  hs_valid : Forall (fun p => (p <= length (objs h))%nat) (hslots h) }.

Lemma hshape_cap h : hshape h -> 5 <= hcap h <= BIG_TWIN.
Proof. intros H. split; [apply twin_ge_5, H | apply H]. Qed.

Lemma hslot_eq h i : hshape h -> 0 <= i < hcap h -> hslot h i = Ok (at_ h i).
Proof.
  intros H Hi. unfold hslot. destruct (Z.ltb_spec i 0); [lia|].
  unfold rd, at_. rewrite nth_error_nth' with (d := 0%nat); auto. pose proof (hs_len h H). lia.
Qed.

Lemma at_nth h i : hshape h -> 0 <= i < hcap h -> nth_error (hslots h) (Z.to_nat i) = Some (at_ h i).
Proof. intros H Hi. unfold at_. apply nth_error_nth'. pose proof (hs_len h H). lia. Qed.

Lemma at_valid h i : hshape h -> 0 <= i < hcap h -> (at_ h i <= length (objs h))%nat.
Proof.
  intros H Hi. pose proof (hs_valid h H) as HF. rewrite Forall_forall in HF. apply HF.
  eapply nth_error_In, at_nth; auto.
Qed.

(** Contents of a slot. *)
Definition cont h (i : Z) : option A := match at_ h i with O => None | S p => nth_error (objs h) p end.

Lemma cont_some h i p : hshape h -> 0 <= i < hcap h -> at_ h i = S p -> exists x, nth_error (objs h) p = Some x.
Proof.
  intros H Hi E. pose proof (at_valid h i H Hi). destruct (nth_error (objs h) p) eqn:E2; eauto.
  apply nth_error_None in E2. lia.
Qed.

Definition hh (x : A) : Z := Z.land (hashf x) LONG_MAX.
Definition hpr (c : Z) (x : A) (n : nat) : Z := pos c (hh x mod c) (hh x mod (c - 2) + 1) n.
Lemma hh_nonneg x : 0 <= hh x.
Proof. apply Z.land_nonneg. right. unfold LONG_MAX. lia. Qed.
Lemma hpr_range c x n : 0 < c -> 0 <= hpr c x n < c.
Proof. apply pos_range. Qed.
Lemma hpr_eq c x y n : equalf x y = true -> hpr c x n = hpr c y n.
Proof. intros E. unfold hpr, hh. now rewrite (hc_hash _ _ G x y E). Qed.

Definition hstop h (x : A) (i : Z) : bool :=
  match at_ h i with O => true | S p => match nth_error (objs h) p with Some y => equalf y x | None => false end end.

Lemma hc_probe_spec fuel : forall h x i s n, hshape h -> 0 <= i < hcap h -> 1 <= s < hcap h ->
  (forall m, (m < n)%nat -> hstop h x (pos (hcap h) i s m) = false) ->
  hstop h x (pos (hcap h) i s n) = true -> (n < fuel)%nat ->
  hc_probe equalf fuel h x i s = Ok (pos (hcap h) i s n).
Proof.
  induction fuel as [|fuel IH]; intros h x i s n Hsh Hi Hs Hm Hn Hf; [lia|].
  cbn [hc_probe]. rewrite hslot_eq by auto. cbn [bind]. pose proof (hshape_cap h Hsh) as Hc.
  assert (EB : (match at_ h i with O => Ok true | _ => y <- deref (objs h) (at_ h i) ;; Ok (equalf y x) end) = Ok (hstop h x i)).
  { unfold hstop. destruct (at_ h i) as [|p] eqn:Ea; auto.
    destruct (cont_some h i p Hsh Hi Ea) as [y Ey]. cbn [deref]. unfold rd. rewrite Ey. reflexivity. }
  rewrite EB; cbn [bind].
  destruct n as [|n].
  - rewrite pos_0 in * by auto. rewrite Hn. reflexivity.
  - assert (H0 : hstop h x i = false).
    { rewrite <- (pos_0 (hcap h) i s) by auto. apply Hm. lia. }
    rewrite H0. unfold int_add. unfold BIG_TWIN, INT_MAX in *. destruct (Z.leb_spec (i + s) 2147483647); [|lia].
    cbn [bind]. rewrite Z.rem_mod_nonneg by lia.
    assert (E1 : (i + s) mod hcap h = pos (hcap h) i s 1).
    { unfold pos. f_equal. change (Z.of_nat 1) with 1. lia. }
    rewrite E1, <- (pos_shift (hcap h) i s n) by lia. apply IH; auto; try lia.
    + apply pos_range; lia.
    + intros m Hm'. rewrite pos_shift by lia. apply Hm. lia.
    + rewrite pos_shift by lia. auto.
Qed.

Lemma hc_free h : hshape h -> hsize h < hcap h -> exists i, 0 <= i < hcap h /\ at_ h i = 0%nat.
Proof.
  intros H Hlt. destruct (count_free nz (hslots h)) as (i & x & H1 & H2).
  { rewrite <- (hs_size h H), (hs_len h H). auto. }
  assert (Hi : (i < length (hslots h))%nat) by (apply nth_error_Some; congruence).
  exists (Z.of_nat i). pose proof (hs_len h H). split; [lia|].
  unfold at_. rewrite Nat2Z.id, (nth_error_nth _ _ _ H1).
  unfold nz in H2. apply negb_false_iff, Nat.eqb_eq in H2. auto.
Qed.

Lemma hc_cand h x : hshape h -> hsize h < hcap h -> exists n,
  hc_candidate_index hashf equalf h x = Ok (hpr (hcap h) x n) /\
  hstop h x (hpr (hcap h) x n) = true /\
  forall m, (m < n)%nat -> hstop h x (hpr (hcap h) x m) = false.
Proof.
  intros H Hlt. pose proof (hshape_cap h H) as Hc. set (c := hcap h) in *.
  destruct (hc_free h H Hlt) as (j & Hj & Kj). fold c in Hj.
  assert (Hs : 1 <= hh x mod (c - 2) + 1 < c).
  { pose proof (Z.mod_pos_bound (hh x) (c - 2)). lia. }
  assert (Hi : 0 <= hh x mod c < c) by (apply Z.mod_pos_bound; lia).
  destruct (probe_cover c (hh x mod c) (hh x mod (c - 2) + 1) j) as (n0 & Hn0 & Pn0); auto; try lia.
  { apply H. }
  destruct (least_nat (fun n => hstop h x (hpr c x n)) n0) as (n & Hn & Sn & Ln).
  { unfold hpr. rewrite Pn0. unfold hstop. rewrite Kj. reflexivity. }
  exists n. split; [|auto].
  unfold hc_candidate_index. fold c. destruct (Z.eqb_spec c 0); [lia|].
  destruct (Z.eqb_spec (c - 2) 0); [lia|]. cbn [orb].
  pose proof (hh_nonneg x) as Hh. unfold hh in Hh.
  rewrite !Z.rem_mod_nonneg by (unfold c in *; auto; lia).
  apply hc_probe_spec; auto. lia.
Qed.

(** [D]: the (0-based) objects present in the table. *)
Record hinv h (D : list nat) : Prop := {
  hv_shape : hshape h;
  hv_in : forall p, In p D <-> exists i, 0 <= i < hcap h /\ at_ h i = S p;
  hv_inj : forall i j p, 0 <= i < hcap h -> 0 <= j < hcap h -> at_ h i = S p -> at_ h j = S p -> i = j;
  hv_chain : forall i p x, 0 <= i < hcap h -> at_ h i = S p -> nth_error (objs h) p = Some x ->
     exists n, hpr (hcap h) x n = i /\ forall m, (m < n)%nat -> at_ h (hpr (hcap h) x m) <> 0%nat }.

(** Objects are pairwise different. *)
Definition uniq (o : list A) : Prop :=
  forall p q x y, nth_error o p = Some x -> nth_error o q = Some y -> equalf x y = true -> p = q.

Lemma hc_found h D x n p y : hinv h D -> uniq (objs h) -> In p D -> nth_error (objs h) p = Some y ->
  equalf y x = true -> hstop h x (hpr (hcap h) x n) = true ->
  (forall m, (m < n)%nat -> hstop h x (hpr (hcap h) x m) = false) ->
  at_ h (hpr (hcap h) x n) = S p.
Proof.
  intros [Hsh Hin Hinj Hch] Hu Hp Hy Eq Sn Ln. pose proof (hshape_cap h Hsh) as Hc.
  apply Hin in Hp. destruct Hp as (j & Hj & Ej).
  destruct (Hch j p y Hj Ej Hy) as (q & Pq & Hq).
  assert (EQ : forall m, hpr (hcap h) y m = hpr (hcap h) x m) by (intros; apply hpr_eq; auto).
  rewrite EQ in Pq.
  assert (Hle : (n <= q)%nat).
  { destruct (Nat.le_gt_cases n q) as [|Hlt]; auto. exfalso.
    specialize (Ln q Hlt). rewrite Pq in Ln. unfold hstop in Ln. rewrite Ej, Hy in Ln. congruence. }
  destruct (Nat.eq_dec n q) as [->|Hne]; [congruence|].
  assert (Hnz : at_ h (hpr (hcap h) x n) <> 0%nat) by (rewrite <- EQ; apply Hq; lia).
  unfold hstop in Sn. destruct (at_ h (hpr (hcap h) x n)) as [|p'] eqn:E; [congruence|].
  destruct (nth_error (objs h) p') as [z|] eqn:Ez; [|discriminate].
  f_equal. apply (Hu p' p z y); auto. eapply hc_trans; eauto. eapply hc_sym; eauto.
Qed.

Definition put h (i : Z) (p : nat) : hc A :=
  {| hslots := upd (hslots h) (Z.to_nat i) p; hsize := hsize h + 1; hcap := hcap h; hinit := hinit h; objs := objs h |}.

Lemma put_at h i p j : hshape h -> 0 <= i < hcap h -> 0 <= j < hcap h ->
  at_ (put h i p) j = if i =? j then p else at_ h j.
Proof.
  intros H Hi Hj. pose proof (hs_len h H). unfold at_ at 1, put; simpl. rewrite nthS_upd by lia.
  destruct (Nat.eqb_spec (Z.to_nat i) (Z.to_nat j)), (Z.eqb_spec i j); auto; lia.
Qed.

Lemma put_inv h D i p x n : hinv h D -> nth_error (objs h) p = Some x -> ~ In p D ->
  i = hpr (hcap h) x n -> at_ h i = 0%nat ->
  (forall m, (m < n)%nat -> at_ h (hpr (hcap h) x m) <> 0%nat) ->
  hinv (put h i (S p)) (D ++ [p]).
Proof.
  intros [Hsh Hin Hinj Hch] Hx Hni -> E0 Hl. set (i := hpr (hcap h) x n) in *.
  pose proof (hshape_cap h Hsh) as Hc. assert (Hi : 0 <= i < hcap h) by (apply hpr_range; lia).
  assert (Hpl : (p < length (objs h))%nat) by (apply nth_error_Some; congruence).
  assert (Hmono : forall j, 0 <= j < hcap h -> at_ h j <> 0%nat -> at_ (put h i (S p)) j <> 0%nat).
  { intros j Hj. rewrite put_at by auto. destruct (Z.eqb_spec i j); auto. }
  constructor.
  - destruct Hsh as [H1 H2 H3 H4 H5 H6].
    assert (He : nth_error (hslots h) (Z.to_nat i) = Some 0%nat).
    { rewrite <- E0. apply at_nth; auto. constructor; auto. }
    constructor; simpl; auto.
    + rewrite upd_length. auto.
    + rewrite (count_upd _ _ _ _ _ He). simpl. lia.
    + apply Forall_forall. intros q Hq. apply In_nth_error in Hq. destruct Hq as [k Hk].
      rewrite nth_error_upd in Hk. destruct (Nat.eqb_spec (Z.to_nat i) k).
      * destruct (k <? length (hslots h))%nat; inversion Hk; subst. lia.
      * rewrite Forall_forall in H6. apply H6. eapply nth_error_In; eauto.
  - intros q. rewrite in_app_iff, Hin. simpl. change (hcap (put h i (S p))) with (hcap h). split.
    + intros [(j & Hj & Ej)|[<-|[]]].
      * exists j. split; auto. rewrite put_at by auto. destruct (Z.eqb_spec i j); auto. congruence.
      * exists i. split; auto. rewrite put_at, Z.eqb_refl by auto. auto.
    + intros (j & Hj & Ej). rewrite put_at in Ej by auto. destruct (Z.eqb_spec i j).
      * right. left. congruence.
      * left. eauto.
  - intros a b q. change (hcap (put h i (S p))) with (hcap h). intros Ha Hb. rewrite !put_at by auto.
    destruct (Z.eqb_spec i a), (Z.eqb_spec i b); intros E1 E2; try congruence; eauto.
    + exfalso. apply Hni. inversion E1; subst. apply Hin. eauto.
    + exfalso. apply Hni. inversion E2; subst. apply Hin. eauto.
  - intros a q y. change (hcap (put h i (S p))) with (hcap h). change (objs (put h i (S p))) with (objs h).
    intros Ha. rewrite put_at by auto. destruct (Z.eqb_spec i a) as [<-|Hne].
    + intros E1 Hy. inversion E1; subst q. assert (y = x) by congruence. subst y.
      exists n. split; auto. intros m Hm. apply Hmono; auto. apply hpr_range; lia.
    + intros E1 Hy. destruct (Hch a q y Ha E1 Hy) as (k & Pk & Hk). exists k. split; auto.
      intros m Hm. apply Hmono; auto. apply hpr_range; lia.
Qed.

(** ** hc_insert and resize *)
Lemma insert_inv h D p : hinv h D -> uniq (objs h) -> (p < length (objs h))%nat -> ~ In p D -> hsize h < hcap h ->
  exists i, hc_insert hashf equalf h (S p) = Ok (put h i (S p)) /\ hinv (put h i (S p)) (D ++ [p]).
Proof.
  intros Hinv Hu Hp Hni Hlt. pose proof (hv_shape _ _ Hinv) as Hsh. pose proof (hshape_cap h Hsh) as Hc.
  destruct (nth_error (objs h) p) as [x|] eqn:Ex; [|apply nth_error_None in Ex; lia].
  destruct (hc_cand h x Hsh Hlt) as (n & E & Sn & Ln). set (i := hpr (hcap h) x n) in *.
  assert (Hi : 0 <= i < hcap h) by (apply hpr_range; lia).
  assert (E0 : at_ h i = 0%nat).
  { unfold hstop in Sn. destruct (at_ h i) as [|q] eqn:Eq; auto. exfalso.
    destruct (nth_error (objs h) q) as [y|] eqn:Ey; [|discriminate].
    apply Hni. apply (hv_in _ _ Hinv). exists i. split; auto. rewrite Eq. f_equal. eapply Hu; eauto. }
  exists i. split.
  - unfold hc_insert. cbn [deref]. unfold rd. rewrite Ex. cbn [bind]. rewrite E; cbn [bind].
    unfold hc_insert_at. destruct (Z.ltb_spec i 0); [lia|]. pose proof (hs_len h Hsh).
    rewrite wr_Ok by lia. reflexivity.
  - apply put_inv with (x := x) (n := n); auto. intros m Hm. specialize (Ln m Hm). unfold hstop in Ln.
    destruct (at_ h (hpr (hcap h) x m)); congruence.
Qed.

Lemma reinsert_inv l : forall h D, hinv h D -> uniq (objs h) ->
  Forall (fun p => (p <= length (objs h))%nat) l ->
  NoDup (filter nz l) -> (forall p, In (S p) l -> ~ In p D) ->
  hsize h + count nz l < hcap h ->
  exists h', hc_reinsert hashf equalf l h = Ok h' /\ hcap h' = hcap h /\ objs h' = objs h /\
    hsize h' = hsize h + count nz l /\
    exists D', hinv h' D' /\ forall p, In p D' <-> In p D \/ In (S p) l.
Proof.
  induction l as [|p l IH]; intros h D Hinv Hu Hv Hnd Hdis Hsz.
  - exists h. change (count nz []) with 0. simpl. ands; auto; try lia. exists D. split; auto. tauto.
  - inversion Hv as [|? ? Hv1 Hv2]; subst. rewrite count_cons in *. pose proof (count_nonneg nz l).
    destruct p as [|p]; cbn [hc_reinsert].
    + cbn [bind]. destruct (IH h D) as (h' & E & A1 & A2 & A3 & D' & A4 & A5); auto.
      { intros p Hp. apply Hdis. right; auto. }
      exists h'. simpl. ands; auto; try lia. exists D'. split; auto. intros q. rewrite A5.
      split; intros [?|?]; auto. destruct H0; [discriminate|auto].
    + cbn [filter] in Hnd. change (nz (S p)) with true in *. cbn [negb] in *. inversion Hnd as [|? ? Hn1 Hn2]; subst.
      destruct (insert_inv h D p Hinv Hu) as (i & E & Hinv'); [lia| | |].
      { apply Hdis. left; auto. }
      { lia. }
      rewrite E; cbn [bind].
      destruct (IH (put h i (S p)) (D ++ [p])) as (h' & E' & A1 & A2 & A3 & D' & A4 & A5); auto.
      { intros q Hq HD. apply in_app_or in HD. destruct HD as [HD|[<-|[]]].
        - apply (Hdis q); auto. right; auto.
        - apply Hn1. apply filter_In. split; auto. }
      { simpl hsize. simpl hcap. lia. }
      exists h'. ands; auto. { simpl hsize in A3. lia. }
      exists D'. split; auto. intros q. rewrite A5, in_app_iff. simpl.
      split; intros H'; intuition; try (right; left; congruence).
Qed.

Lemma init_inv h c : is_twin c -> c <= BIG_TWIN -> hinv (hc_initialize h c) [].
Proof.
  intros Ht Hb. pose proof (twin_ge_5 c Ht).
  assert (E : forall i, at_ (hc_initialize h c) i = 0%nat).
  { intros i. unfold at_; simpl. generalize (Z.to_nat i) as n. generalize (Z.to_nat c) as m.
    induction m; intros [|n]; simpl; auto. }
  constructor.
  - constructor; simpl; auto.
    + rewrite repeat_length. lia.
    + rewrite count_repeat_false; auto.
    + apply Forall_forall. intros p Hp. apply repeat_spec in Hp. subst. lia.
  - intros p. split; [intros []|]. intros (i & _ & Ei). rewrite E in Ei. discriminate.
  - intros i j p _ _ Ei. rewrite E in Ei. discriminate.
  - intros i p x _ Ei. rewrite E in Ei. discriminate.
Qed.

(** The invariant at API boundaries. *)
Definition full (n : nat) : list nat := seq 0 n.
Record hok h : Prop := {
  ok_inv : exists D, hinv h D /\ forall p, In p D <-> (p < length (objs h))%nat;
  ok_uniq : uniq (objs h);
  ok_half : 2 * hsize h <= hcap h }.

(** Either untouched or ok. *)
Definition hstate h : Prop := h = hc_static \/ hok h.

Lemma nth_in_slots h p : hshape h -> In p (hslots h) <-> exists i, 0 <= i < hcap h /\ at_ h i = p.
Proof.
  intros Hsh. pose proof (hs_len h Hsh). split.
  - intros Hin. apply In_nth_error in Hin. destruct Hin as [n Hn].
    assert (n < length (hslots h))%nat by (apply nth_error_Some; congruence).
    exists (Z.of_nat n). split; [lia|]. unfold at_. rewrite Nat2Z.id. now apply nth_error_nth.
  - intros (i & Hi & <-). eapply nth_error_In. apply at_nth; auto.
Qed.

Lemma nodup_filter_inj (l : list nat) :
  (forall i j p, nth_error l i = Some (S p) -> nth_error l j = Some (S p) -> i = j) -> NoDup (filter nz l).
Proof.
  induction l as [|a l IH]; intros H; simpl; [constructor|].
  assert (IH' : NoDup (filter nz l)).
  { apply IH. intros i j p Hi Hj. specialize (H (S i) (S j) p Hi Hj). lia. }
  destruct a as [|a]; simpl; auto. constructor; auto.
  intros Hin. apply filter_In in Hin. destruct Hin as [Hin _].
  apply In_nth_error in Hin. destruct Hin as [n Hn]. specialize (H 0%nat (S n) a eq_refl Hn). lia.
Qed.

Lemma resize_ok h D c : hinv h D -> uniq (objs h) -> is_twin c -> c <= BIG_TWIN -> hsize h < c ->
  exists h', hc_resize hashf equalf h c = Ok h' /\ hcap h' = c /\ objs h' = objs h /\ hsize h' = hsize h /\
    exists D', hinv h' D' /\ forall p, In p D' <-> In p D.
Proof.
  intros Hinv Hu Ht Hb Hsz. pose proof (hv_shape _ _ Hinv) as Hsh. pose proof (hs_len h Hsh) as Hlen.
  unfold hc_resize. rewrite firstn_all2 by lia.
  destruct (reinsert_inv (hslots h) (hc_initialize h c) []) as (h' & E & A1 & A2 & A3 & D' & A4 & A5); auto.
  - apply init_inv; auto.
  - apply Hsh.
  - apply nodup_filter_inj. intros i j p Hi Hj.
    assert (i < length (hslots h))%nat by (apply nth_error_Some; congruence).
    assert (j < length (hslots h))%nat by (apply nth_error_Some; congruence).
    assert (Z.of_nat i = Z.of_nat j); [|lia].
    apply (hv_inj _ _ Hinv) with (p := p); try lia; unfold at_; rewrite Nat2Z.id; now apply nth_error_nth.
  - simpl hsize. simpl hcap. rewrite <- (hs_size h Hsh). lia.
  - exists h'. rewrite A1, A2, A3. simpl hsize. rewrite <- (hs_size h Hsh). ands; auto.
    exists D'. split; auto. intros p. rewrite A5. rewrite (hv_in _ _ Hinv p), (nth_in_slots h (S p) Hsh).
    simpl. tauto.
Qed.

(** ** hash_cons_get *)
Lemma twin61 : is_twin 61.
Proof.
  split; [apply (trial_prime 40)|change (61 - 2) with 59; apply (trial_prime 40)]; try lia; reflexivity.
Qed.

(** The effect of one call. *)
Definition get_spec h x h' p : Prop :=
  (exists q y, p = S q /\ nth_error (objs h) q = Some y /\ equalf y x = true /\ objs h' = objs h /\ hsize h' = hsize h) \/
  (p = S (length (objs h)) /\ (forall q y, nth_error (objs h) q = Some y -> equalf y x = false) /\
   objs h' = objs h ++ [x] /\ hsize h' = hsize h + 1).

Lemma get_ok_aux st h x : st_ok st -> hok h -> hsize h < 249999999 ->
  exists st' h' p, hash_cons_get hashf equalf st h x = Ok (st', h', p) /\ st_ok st' /\ hok h' /\ get_spec h x h' p.
Proof.
  intros Hst [(D & Hinv & HD) Hu Hhalf] Hlim.
  pose proof (hv_shape _ _ Hinv) as Hsh. pose proof (hshape_cap h Hsh) as Hc.
  unfold hash_cons_get. replace (if hinit h then h else hc_initialize h HC_INITIAL_BASE_SIZE) with h by (now rewrite (hs_init h Hsh)). cbv zeta.
  destruct (hc_cand h x Hsh) as (n & E & Sn & Ln); [lia|]. rewrite E; cbn [bind].
  set (i := hpr (hcap h) x n) in *. assert (Hi : 0 <= i < hcap h) by (apply hpr_range; lia).
  rewrite hslot_eq by auto. cbn [bind].
  destruct (at_ h i) as [|q] eqn:Ea.
  2:{ destruct (cont_some h i q Hsh Hi Ea) as [y Ey].
      exists st, h, (S q). ands; auto.
      - constructor; eauto.
      - left. exists q, y. ands; auto. unfold hstop in Sn. rewrite Ea, Ey in Sn. auto. }
  assert (Hnew : forall q y, nth_error (objs h) q = Some y -> equalf y x = false).
  { intros q y Ey. destruct (equalf y x) eqn:Eq; auto. exfalso.
    assert (In q D) by (apply HD; apply nth_error_Some; congruence).
    pose proof (hc_found h D x n q y Hinv Hu H Ey Eq Sn Ln) as HH. fold i in HH. congruence. }
  set (h1 := {| hslots := hslots h; hsize := hsize h; hcap := hcap h; hinit := hinit h; objs := objs h ++ [x] |}).
  assert (Hpre : forall p y, (p < length (objs h))%nat -> nth_error (objs h1) p = Some y -> nth_error (objs h) p = Some y).
  { intros p y Hp. simpl. rewrite nth_error_app1; auto. }
  assert (Hinv1 : hinv h1 D).
  { destruct Hinv as [S1 I1 J1 C1]. constructor; auto.
    - destruct Hsh as [H1 H2 H3 H4 H5 H6]. constructor; auto. simpl.
      eapply Forall_impl; [|exact H6]. intros p Hp. simpl in Hp. rewrite app_length. simpl. lia.
    - intros a p y Ha Eq Hy. apply (C1 a p y); auto. apply Hpre; auto.
      apply HD. apply I1. eauto. }
  assert (Hu1 : uniq (objs h1)).
  { intros a b y z. simpl. intros Ha Hb Eq.
    assert (La : (a < length (objs h ++ [x]))%nat) by (apply nth_error_Some; congruence).
    assert (Lb : (b < length (objs h ++ [x]))%nat) by (apply nth_error_Some; congruence).
    rewrite app_length in La, Lb. simpl in La, Lb.
    destruct (Nat.eq_dec a (length (objs h))) as [->|Na], (Nat.eq_dec b (length (objs h))) as [->|Nb]; auto.
    - rewrite nth_error_app1 in Hb by lia. rewrite nth_error_app2, Nat.sub_diag in Ha by lia. inversion Ha; subst.
      apply (hc_sym _ _ G) in Eq. rewrite (Hnew b z Hb) in Eq. discriminate.
    - rewrite nth_error_app1 in Ha by lia. rewrite nth_error_app2, Nat.sub_diag in Hb by lia. inversion Hb; subst.
      rewrite (Hnew a y Ha) in Eq. discriminate.
    - rewrite nth_error_app1 in Ha, Hb by lia. eapply Hu; eauto. }
  assert (Hni : ~ In (length (objs h)) D) by (rewrite HD; lia).
  assert (Hinv2 : hinv (put h1 i (S (length (objs h)))) (D ++ [length (objs h)])).
  { apply put_inv with (x := x) (n := n); auto.
    - simpl. rewrite nth_error_app2, Nat.sub_diag by lia. reflexivity.
    - intros m Hm. specialize (Ln m Hm). unfold hstop in Ln. change (at_ h1) with (at_ h). change (hcap h1) with (hcap h).
      destruct (at_ h (hpr (hcap h) x m)); congruence. }
  assert (EI : hc_insert_at h1 (S (length (objs h))) i = Ok (put h1 i (S (length (objs h))))).
  { unfold hc_insert_at. destruct (Z.ltb_spec i 0); [lia|]. pose proof (hs_len h Hsh). rewrite wr_Ok by (simpl; lia). reflexivity. }
  rewrite EI; cbn [bind]. clear EI. set (h2 := put h1 i (S (length (objs h)))) in *.
  assert (HD2 : forall p, In p (D ++ [length (objs h)]) <-> (p < length (objs h2))%nat).
  { intros p. rewrite in_app_iff, HD. simpl. rewrite app_length. simpl. lia. }
  change (hcap h2) with (hcap h). change (hsize h2) with (hsize h + 1).
  destruct (Z.ltb_spec (hcap h) (2 * (hsize h + 1))) as [Hr|Hr].
  - unfold double_int, INT_MAX. destruct (Z.leb_spec (2 * hcap h + 1) 2147483647); [|lia]. cbn [bind].
    assert (Hc2 : 0 <= 2 * hcap h + 1 <= BIG_TWIN) by (unfold BIG_TWIN in *; lia).
    destruct (next_twin_prime_total st _ Hst Hc2) as (st0 & nc & E0). rewrite E0; cbn [bind].
    destruct (next_twin_prime_sound st _ st0 nc Hst (proj1 Hc2) E0) as [Hst0 HL0].
    assert (Hnc : nc <= BIG_TWIN) by (apply least_twin_bound with (x := 2 * hcap h + 1); auto; lia).
    assert (Hge : 2 * hcap h + 1 <= nc) by apply HL0.
    destruct (resize_ok h2 (D ++ [length (objs h)]) nc) as (h' & E3 & A1 & A2 & A3 & D' & A4 & A5); auto.
    { apply HL0. }
    { change (hsize h2) with (hsize h + 1). lia. }
    rewrite E3; cbn [bind]. exists st0, h', (S (length (objs h))). ands; auto.
    + constructor.
      * exists D'. split; auto. intros p. rewrite A5, HD2, A2. tauto.
      * rewrite A2. auto.
      * rewrite A1, A3. change (hsize h2) with (hsize h + 1). lia.
    + right. ands; auto.
  - exists st, h2, (S (length (objs h))). ands; auto.
    + constructor; eauto.
    + right. ands; auto.
Qed.

Lemma get_static st x : hash_cons_get hashf equalf st hc_static x =
                        hash_cons_get hashf equalf st (hc_initialize hc_static 61) x.
Proof. reflexivity. Qed.

Lemma init_ok : hok (hc_initialize hc_static 61).
Proof.
  constructor.
  - exists []. split.
    + apply init_inv; [apply twin61 | unfold BIG_TWIN; lia].
    + intros p. simpl. split; [intros []|lia].
  - intros p q x y Hp. destruct p; discriminate.
  - simpl. lia.
Qed.

Lemma get_ok st h x : st_ok st -> hstate h -> hsize h < 249999999 ->
  exists st' h' p, hash_cons_get hashf equalf st h x = Ok (st', h', p) /\ st_ok st' /\ hok h' /\ get_spec h x h' p.
Proof.
  intros Hst [->|Hok] Hlim.
  - rewrite get_static. apply (get_ok_aux st (hc_initialize hc_static 61) x); auto using init_ok.
  - apply get_ok_aux; auto.
Qed.

Lemma state_uniq h : hstate h -> uniq (objs h).
Proof. intros [->|H]; [|apply H]. intros p q x y Hp. destruct p; discriminate. Qed.

(** Objects only ever get appended. *)
Definition extends (o o' : list A) : Prop := exists l, o' = o ++ l.
Lemma extends_refl o : extends o o. Proof. exists []. now rewrite app_nil_r. Qed.
Lemma extends_trans a b c : extends a b -> extends b c -> extends a c.
Proof. intros [l ->] [l' ->]. exists (l ++ l'). now rewrite app_assoc. Qed.
Lemma extends_nth o o' p x : extends o o' -> nth_error o p = Some x -> nth_error o' p = Some x.
Proof.
  intros [l ->] H. rewrite nth_error_app1; auto. apply nth_error_Some. congruence.
Qed.

Lemma get_spec_ext h x h' p : get_spec h x h' p ->
  extends (objs h) (objs h') /\ (exists q y, p = S q /\ nth_error (objs h') q = Some y /\ equalf y x = true) /\
  hsize h' <= hsize h + 1.
Proof.
  intros [(q & y & H1 & H2 & H3 & H4 & H5)|(H1 & H2 & H3 & H4)].
  - rewrite H4. ands; [apply extends_refl|eauto|lia].
  - rewrite H3. ands; [eexists; eauto| |lia]. exists (length (objs h)), x.
    rewrite nth_error_app2, Nat.sub_diag by lia. ands; auto. apply G.
Qed.

(** Result [p] for item [x] in heap [o]. *)
Definition denotes (o : list A) (p : nat) (x : A) : Prop :=
  exists q y, p = S q /\ nth_error o q = Some y /\ equalf y x = true.

Lemma denotes_ext o o' p x : extends o o' -> denotes o p x -> denotes o' p x.
Proof. intros He (q & y & H1 & H2 & H3). exists q, y. ands; auto. eapply extends_nth; eauto. Qed.

Lemma denotes_iff o p q x y : uniq o -> denotes o p x -> denotes o q y -> (p = q <-> equalf x y = true).
Proof.
  intros Hu (p' & x' & -> & Hp & Ex) (q' & y' & -> & Hq & Ey). split.
  - intros H; inversion H; subst. assert (x' = y') by congruence. subst.
    eapply hc_trans; eauto. eapply hc_sym; eauto.
  - intros E. f_equal. eapply Hu; eauto.
    eapply hc_trans; eauto. eapply hc_trans; eauto. eapply hc_sym; eauto.
Qed.

Theorem gets_spec items : forall st h, st_ok st -> hstate h -> hsize h + Z.of_nat (length items) < 250000000 ->
  exists st' h' ps, gets hashf equalf st h items = Ok (st', h', ps) /\ st_ok st' /\ hstate h' /\
    extends (objs h) (objs h') /\ hsize h' <= hsize h + Z.of_nat (length items) /\ Forall2 (denotes (objs h')) ps items.
Proof.
  induction items as [|x items IH]; intros st h Hst Hs Hlen; cbn [gets].
  - exists st, h, []. ands; auto using extends_refl. simpl. lia.
  - simpl length in *.
    destruct (get_ok st h x Hst Hs) as (st1 & h1 & p & E & Hst1 & Hok & Hsp); [lia|].
    rewrite E; cbn [bind]. destruct (get_spec_ext _ _ _ _ Hsp) as (X1 & X2 & X3).
    destruct (IH st1 h1 Hst1 (or_intror Hok)) as (st2 & h2 & ps & E2 & B1 & B2 & B3 & B4 & B5); [lia|].
    rewrite E2; cbn [bind]. exists st2, h2, (p :: ps). ands; auto.
    + eapply extends_trans; eauto.
    + lia.
    + constructor; auto. eapply denotes_ext; eauto.
Qed.
End Client.
