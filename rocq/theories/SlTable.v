(** * SlTable: tables of the Scala library (proofs for C96, C97). *)
From Verif Require Import Base SlSpec SlModel SlColl SlLat.
From Coq Require Import Lia.

Section TABLE.
Context {K V : Type} (keq klt kle : K -> K -> bool) (ORD : total_order keq klt kle).
Notation cmp := (key_compare keq klt).
Notation get := (@table_get K V keq klt).
Notation put := (@table_put K V keq klt).

Lemma cmp_eq a b : cmp a b = Eq <-> keq a b = true.
Proof. unfold key_compare. destruct (keq a b); [tauto|]. destruct (klt a b); split; discriminate. Qed.
Lemma cmp_lt a b : cmp a b = Lt <-> klt a b = true.
Proof.
  destruct ORD as (EQ & L & NE & TOT & AS & TR). unfold key_compare.
  destruct (keq a b) eqn:Q.
  - split; [discriminate|]. intros H. rewrite (NE _ _ H) in Q. discriminate.
  - destruct (klt a b); split; try discriminate; reflexivity.
Qed.
Lemma cmp_gt a b : cmp a b = Gt <-> klt b a = true.
Proof.
  destruct ORD as ((R & S & T) & L & NE & TOT & AS & TR). unfold key_compare.
  destruct (keq a b) eqn:Q.
  - split; [discriminate|]. intros H. apply S in Q. rewrite (NE _ _ H) in Q. discriminate.
  - destruct (klt a b) eqn:W.
    + split; [discriminate|]. rewrite (AS _ _ W). discriminate.
    + split; [|reflexivity]. intros _. destruct (TOT a b) as [H|[H|H]]; congruence.
Qed.
Lemma lt_irrefl a : klt a a = false.
Proof.
  destruct ORD as ((R & S & T) & L & NE & _). destruct (klt a a) eqn:W; [|reflexivity].
  pose proof (NE _ _ W) as C. rewrite R in C. discriminate.
Qed.
Lemma lt_trans a b c : klt a b = true -> klt b c = true -> klt a c = true.
Proof.
  intros A B. apply (ord_strict _ _ _ ORD). split.
  - apply (ord_trans _ _ _ ORD) with b; apply (ord_lt_le _ _ _ ORD); assumption.
  - destruct (keq a c) eqn:Q; [|reflexivity].
    apply (ord_eq _ _ _ ORD) in Q. destruct Q as (_ & Q).
    pose proof (ord_trans _ _ _ ORD b c a (ord_lt_le _ _ _ ORD b c B) Q) as C.
    rewrite (ord_lt_not _ _ _ ORD _ _ A) in C. discriminate.
Qed.
Lemma lt_eq_r a b c : klt a b = true -> keq b c = true -> klt a c = true.
Proof.
  intros A Q. apply (ord_eq _ _ _ ORD) in Q. destruct Q as (Q1 & Q2).
  apply (ord_strict _ _ _ ORD). split.
  - apply (ord_trans _ _ _ ORD) with b; [apply (ord_lt_le _ _ _ ORD); assumption|exact Q1].
  - destruct (keq a c) eqn:W; [|reflexivity]. apply (ord_eq _ _ _ ORD) in W. destruct W as (_ & W).
    pose proof (ord_trans _ _ _ ORD b c a Q1 W) as C. rewrite (ord_lt_not _ _ _ ORD _ _ A) in C. discriminate.
Qed.
Lemma lt_eq_l a b c : keq a b = true -> klt b c = true -> klt a c = true.
Proof.
  intros Q A. apply (ord_eq _ _ _ ORD) in Q. destruct Q as (Q1 & Q2).
  apply (ord_strict _ _ _ ORD). split.
  - apply (ord_trans _ _ _ ORD) with b; [exact Q1|apply (ord_lt_le _ _ _ ORD); assumption].
  - destruct (keq a c) eqn:W; [|reflexivity]. apply (ord_eq _ _ _ ORD) in W. destruct W as (_ & W).
    pose proof (ord_trans _ _ _ ORD c a b W Q1) as C. rewrite (ord_lt_not _ _ _ ORD _ _ A) in C. discriminate.
Qed.
Lemma keq_refl a : keq a a = true.
Proof. destruct ORD as ((R & _ & _) & _). apply R. Qed.
Lemma keq_sym a b : keq a b = true -> keq b a = true.
Proof. destruct ORD as ((_ & S & _) & _). apply S. Qed.
Lemma keq_trans a b c : keq a b = true -> keq b c = true -> keq a c = true.
Proof. destruct ORD as ((_ & _ & T) & _). apply T. Qed.

(** Entries in ascending order of keys. *)
Fixpoint sorted (t : table (K := K) (V := V)) : Prop :=
  match t with
  | [] => True
  | (k, v) :: r => (forall e, In e r -> klt k (fst e) = true) /\ sorted r
  end.

Lemma get_below t k : (forall e, In e t -> klt k (fst e) = true) -> get t k = None.
Proof.
  destruct t as [|(k', v') r]; [reflexivity|]. intros H. cbn [table_get].
  assert (C : cmp k k' = Lt) by (apply cmp_lt; apply (H (k', v')); left; reflexivity).
  rewrite C. reflexivity.
Qed.
Lemma get_cong t : forall k k', keq k k' = true -> get t k = get t k'.
Proof.
  induction t as [|(a, v) r IH]; intros k k' Q; [reflexivity|]. cbn [table_get].
  assert (C : cmp k a = cmp k' a).
  { destruct (cmp k' a) eqn:C.
    - apply cmp_eq in C. apply cmp_eq. apply keq_trans with k'; assumption.
    - apply cmp_lt in C. apply cmp_lt. apply lt_eq_l with k'; assumption.
    - apply cmp_gt in C. apply cmp_gt. apply lt_eq_r with k'; [exact C|apply keq_sym; exact Q]. }
  rewrite C. destruct (cmp k' a); auto.
Qed.
Lemma get_in t : sorted t -> forall k v, In (k, v) t -> get t k = Some v.
Proof.
  induction t as [|(a, w) r IH]; [simpl; tauto|]. intros (B & S) k v [H|H].
  - injection H as -> ->. cbn [table_get]. assert (C : cmp k k = Eq) by (apply cmp_eq, keq_refl).
    rewrite C. reflexivity.
  - cbn [table_get]. assert (C : cmp k a = Gt) by (apply cmp_gt; apply (B (k, v) H)).
    rewrite C. apply IH; assumption.
Qed.
Lemma get_some t : sorted t -> forall k v, get t k = Some v -> exists k', In (k', v) t /\ keq k k' = true.
Proof.
  induction t as [|(a, w) r IH]; [discriminate|]. intros (B & S) k v. cbn [table_get].
  destruct (cmp k a) eqn:C.
  - intros H; injection H as ->. exists a. split; [left; reflexivity|apply cmp_eq; exact C].
  - discriminate.
  - intros H. destruct (IH S k v H) as (k' & I & Q). exists k'. split; [right; exact I|exact Q].
Qed.

Lemma put_keys t : forall k v e, In e (put t k v) -> e = (k, v) \/ In e t.
Proof.
  induction t as [|(a, w) r IH]; intros k v e; cbn [table_put].
  - simpl. intros [<-|[]]. left; reflexivity.
  - destruct (cmp k a); simpl; intros [<-|H]; auto.
    destruct (IH k v e H); auto.
Qed.
Lemma put_sorted t : sorted t -> forall k v, sorted (put t k v).
Proof.
  induction t as [|(a, w) r IH]; intros S k v; cbn [table_put].
  - split; [intros e []|exact I].
  - destruct S as (B & S). destruct (cmp k a) eqn:C.
    + apply cmp_eq in C. split; [|exact S]. intros e H. apply lt_eq_l with a; [exact C|apply B; exact H].
    + apply cmp_lt in C. split; [|split; assumption]. intros e [<-|H]; [exact C|].
      apply lt_trans with a; [exact C|apply B; exact H].
    + apply cmp_gt in C. split; [|apply IH; exact S].
      intros e H. apply put_keys in H. destruct H as [-> |H]; [exact C|apply B; exact H].
Qed.
Lemma get_put t : sorted t -> forall k v k', get (put t k v) k' = if keq k' k then Some v else get t k'.
Proof.
  induction t as [|(a, w) r IH]; intros S k v k'; cbn [table_put].
  - cbn [table_get]. unfold key_compare. destruct (keq k' k); [reflexivity|]. destruct (klt k' k); reflexivity.
  - destruct S as (B & S). destruct (cmp k a) eqn:C.
    + apply cmp_eq in C. cbn [table_get].
      destruct (keq k' k) eqn:Q.
      * assert (D : cmp k' k = Eq) by (apply cmp_eq; exact Q). rewrite D. reflexivity.
      * assert (D : cmp k' k = cmp k' a).
        { destruct (cmp k' a) eqn:D.
          - apply cmp_eq in D. rewrite (keq_trans k' a k D (keq_sym _ _ C)) in Q. discriminate.
          - apply cmp_lt in D. apply cmp_lt. apply lt_eq_r with a; [exact D|apply keq_sym; exact C].
          - apply cmp_gt in D. apply cmp_gt. apply lt_eq_l with a; assumption. }
        rewrite D. destruct (cmp k' a) eqn:D2; try reflexivity.
        apply cmp_eq in D. congruence.
    + apply cmp_lt in C. cbn [table_get]. destruct (keq k' k) eqn:Q.
      * assert (D : cmp k' k = Eq) by (apply cmp_eq; exact Q). rewrite D. reflexivity.
      * destruct (cmp k' k) eqn:D.
        -- apply cmp_eq in D. congruence.
        -- apply cmp_lt in D. assert (D2 : cmp k' a = Lt) by (apply cmp_lt; apply lt_trans with k; assumption).
           rewrite D2. reflexivity.
        -- reflexivity.
    + apply cmp_gt in C. cbn [table_get]. rewrite IH by exact S.
      destruct (keq k' k) eqn:Q; [|reflexivity].
      assert (D : cmp k' a = Gt) by (apply cmp_gt; apply lt_eq_r with k; [exact C|apply keq_sym; exact Q]).
      rewrite D. reflexivity.
Qed.

(** ** combine *)
Section COMBINE.
Context (f : V -> V -> V).
Notation comb := (table_combine keq klt f).

Definition merge (a b : option V) : option V :=
  match a, b with
  | Some x, Some y => Some (f x y)
  | Some x, None => Some x
  | None, _ => b
  end.

Lemma combine_sorted t2 : forall t1, sorted t1 -> sorted (comb t1 t2).
Proof.
  unfold table_combine. induction t2 as [|(k, v) r IH]; intros t1 S; [exact S|]. simpl.
  apply IH. destruct (get t1 k); apply put_sorted; exact S.
Qed.
Lemma combine_get t2 : sorted t2 -> forall t1 k, sorted t1 ->
  get (comb t1 t2) k = merge (get t1 k) (get t2 k).
Proof.
  unfold table_combine. induction t2 as [|(a, v) r IH]; intros S2 t1 k S1.
  - simpl. destruct (get t1 k); reflexivity.
  - destruct S2 as (B & S2). simpl fold_left.
    set (t1' := match get t1 a with Some old => put t1 a (f old v) | None => put t1 a v end).
    assert (S1' : sorted t1') by (unfold t1'; destruct (get t1 a); apply put_sorted; exact S1).
    rewrite (IH S2 t1' k S1').
    assert (G : get t1' k = if keq k a then merge (get t1 a) (Some v) else get t1 k).
    { unfold t1'. destruct (get t1 a) as [o|]; rewrite get_put by exact S1; reflexivity. }
    rewrite G. cbn [table_get]. destruct (cmp k a) eqn:C.
    + apply cmp_eq in C. rewrite C.
      assert (N : get r k = None).
      { apply get_below. intros e H. apply lt_eq_l with a; [exact C|apply B; exact H]. }
      rewrite N. rewrite (get_cong t1 k a C). destruct (get t1 a); reflexivity.
    + pose proof C as C'. apply cmp_lt in C.
      assert (N : get r k = None).
      { apply get_below. intros e H. apply lt_trans with a; [exact C|apply B; exact H]. }
      rewrite N. destruct (keq k a) eqn:Q; [apply cmp_eq in Q; congruence|]. reflexivity.
    + destruct (keq k a) eqn:Q; [apply cmp_eq in Q; congruence|]. reflexivity.
Qed.
End COMBINE.

Lemma entry_get k v k' : get (table_entry keq klt k v) k' = if keq k' k then Some v else None.
Proof. unfold table_entry. rewrite get_put by exact I. reflexivity. Qed.
Lemma entry_sorted k v : sorted (table_entry keq klt k v).
Proof. apply put_sorted. exact I. Qed.
Lemma select_get i t k k' : get (table_select keq klt i t k) k' =
  if keq k' k then Some (match get t k with Some v => v | None => i end) else None.
Proof. unfold table_select. destruct (get t k); apply entry_get. Qed.

(** ** meet *)
Section MEET.
Context (f : V -> V -> V) (t1 : table (K := K) (V := V)).
Definition meets (a b : option V) : option V :=
  match a, b with Some x, Some y => Some (f x y) | _, _ => None end.

Lemma meet_acc t2 : sorted t2 -> forall acc, sorted acc ->
  let r := fold_left (fun result e =>
    match get t1 (fst e) with
    | Some v1 => put result (fst e) (f v1 (snd e))
    | None => result
    end) t2 acc in
  sorted r /\ forall k, get r k = match meets (get t1 k) (get t2 k) with Some v => Some v | None => get acc k end.
Proof.
  induction t2 as [|(a, v) r IH]; intros S2 acc SA; cbn zeta.
  - split; [exact SA|]. intros k. simpl. destruct (get t1 k); reflexivity.
  - destruct S2 as (B & S2). simpl fold_left.
    set (acc' := match get t1 a with Some v1 => put acc a (f v1 v) | None => acc end).
    assert (SA' : sorted acc') by (unfold acc'; destruct (get t1 a); [apply put_sorted|]; exact SA).
    destruct (IH S2 acc' SA') as (SR & G). split; [exact SR|]. intros k. rewrite G.
    assert (GA : get acc' k = if keq k a then match get t1 a with Some v1 => Some (f v1 v) | None => get acc k end else get acc k).
    { unfold acc'. destruct (get t1 a) as [o|]; [rewrite get_put by exact SA; reflexivity|]. destruct (keq k a); reflexivity. }
    rewrite GA. cbn [table_get]. destruct (cmp k a) eqn:C.
    + apply cmp_eq in C. rewrite C.
      assert (N : get r k = None).
      { apply get_below. intros e H. apply lt_eq_l with a; [exact C|apply B; exact H]. }
      rewrite N. rewrite (get_cong t1 k a C). destruct (get t1 a); reflexivity.
    + pose proof C as C'. apply cmp_lt in C.
      assert (N : get r k = None).
      { apply get_below. intros e H. apply lt_trans with a; [exact C|apply B; exact H]. }
      rewrite N. destruct (keq k a) eqn:Q; [apply cmp_eq in Q; congruence|].
      destruct (get t1 k); reflexivity.
    + destruct (keq k a) eqn:Q; [apply cmp_eq in Q; congruence|]. reflexivity.
Qed.
Lemma meet_sorted t2 : sorted t2 -> sorted (table_meet keq klt f t1 t2).
Proof. intros S. apply (meet_acc t2 S [] I). Qed.
Lemma meet_get t2 k : sorted t2 -> get (table_meet keq klt f t1 t2) k = meets (get t1 k) (get t2 k).
Proof.
  intros S. unfold table_meet. rewrite (proj2 (meet_acc t2 S [] I) k).
  destruct (meets (get t1 k) (get t2 k)); reflexivity.
Qed.
End MEET.

(** ** Comparison *)
Lemma keys_count x : sorted x -> forall y, sorted y ->
  (forall e, In e x -> exists e', In e' y /\ keq (fst e) (fst e') = true) ->
  length x <= length y /\
  (length x = length y -> forall e', In e' y -> exists e, In e x /\ keq (fst e') (fst e) = true).
Proof.
  induction x as [|(k, v) x IH]; intros SX y SY H.
  - simpl. split; [lia|]. intros L e' I. destruct y; [destruct I|discriminate].
  - destruct SX as (B & SX). destruct (H (k, v) (or_introl eq_refl)) as (e1 & I1 & Q1). simpl in Q1.
    apply in_split in I1. destruct I1 as (a & b & ->).
    assert (SB : sorted b /\ forall e, In e (a ++ [e1]) -> forall e', In e' b -> klt (fst e) (fst e') = true).
    { clear -SY. induction a as [|(z, w) a IHa]; simpl in *.
      - destruct e1 as (z, w). destruct SY as (A & S). split; [exact S|]. intros e [<-|[]] e' I. apply A; exact I.
      - destruct SY as (A & S). destruct (IHa S) as (S1 & S2). split; [exact S1|].
        intros e [<-|I] e' I'; [apply (A e'); apply in_or_app; right; right; exact I'|apply (S2 e I e' I')]. }
    assert (SAB : forall e, In e a -> klt (fst e) (fst e1) = true).
    { clear -SY. induction a as [|(z, w) a IHa]; simpl in *; [tauto|].
      destruct SY as (A & S). intros e [<-|I]; [apply (A e1); apply in_or_app; right; left; reflexivity|auto]. }
    destruct SB as (SB & OB).
    destruct (IH SX b SB) as (L1 & L2).
    { intros e I. destruct (H e (or_intror I)) as (e' & I' & Q'). exists e'. split; [|exact Q'].
      pose proof (B e I) as BE.
      assert (LT : klt (fst e1) (fst e') = true).
      { apply lt_eq_l with k; [apply keq_sym; exact Q1|]. apply lt_eq_r with (fst e); assumption. }
      apply in_app_iff in I'. destruct I' as [I'|[E1|I']].
      - exfalso. pose proof (SAB e' I') as X. pose proof (lt_trans _ _ _ LT X) as Y. rewrite lt_irrefl in Y. discriminate.
      - exfalso. subst e'. rewrite lt_irrefl in LT. discriminate.
      - exact I'. }
    rewrite app_length. simpl. split; [lia|]. intros L e' I'.
    assert (a = []) by (destruct a; [reflexivity|simpl in L; lia]). subst a. simpl in *.
    destruct I' as [<-|I'].
    + exists (k, v). split; [left; reflexivity|apply keq_sym; exact Q1].
    + destruct (L2 ltac:(lia) e' I') as (e & I & Q). exists e. split; [right; exact I|exact Q].
Qed.

Definition opt_rel (r : V -> V -> bool) (a b : option V) : Prop :=
  match a, b with
  | Some x, Some y => r x y = true
  | None, None => True
  | _, _ => False
  end.

Lemma table_equal_spec r x y : sorted x -> sorted y ->
  table_equal keq klt r x y = true <-> forall k, opt_rel r (get x k) (get y k).
Proof.
  intros SX SY. unfold table_equal. rewrite andb_true_iff, Nat.eqb_eq, forallb_forall. split.
  - intros (L & H).
    assert (H' : forall e, In e x -> exists e', In e' y /\ keq (fst e) (fst e') = true).
    { intros e I. specialize (H e I). destruct (get y (fst e)) as [w|] eqn:G; [|discriminate].
      destruct (get_some y SY _ _ G) as (k' & I' & Q). exists (k', w). split; assumption. }
    destruct (keys_count x SX y SY H') as (_ & C). specialize (C L).
    intros k. destruct (get x k) as [v|] eqn:G.
    + destruct (get_some x SX _ _ G) as (k' & I' & Q). specialize (H _ I'). simpl in H.
      rewrite (get_cong y k k' Q). destruct (get y k'); [exact H|discriminate].
    + destruct (get y k) as [w|] eqn:G2; [|exact I]. exfalso.
      destruct (get_some y SY _ _ G2) as (k' & I' & Q). destruct (C _ I') as ((k2, v2) & I2 & Q2). simpl in Q2.
      rewrite (get_cong x k k2) in G by (apply keq_trans with k'; assumption).
      rewrite (get_in x SX _ _ I2) in G. discriminate.
  - intros H.
    assert (HX : forall e, In e x -> exists e', In e' y /\ keq (fst e) (fst e') = true).
    { intros (k, v) I. pose proof (H k) as R. rewrite (get_in x SX _ _ I) in R. simpl.
      destruct (get y k) as [w|] eqn:G; [|destruct R].
      destruct (get_some y SY _ _ G) as (k' & I' & Q). exists (k', w). split; assumption. }
    assert (HY : forall e, In e y -> exists e', In e' x /\ keq (fst e) (fst e') = true).
    { intros (k, v) I. pose proof (H k) as R. rewrite (get_in y SY _ _ I) in R. simpl.
      destruct (get x k) as [w|] eqn:G; [|destruct R].
      destruct (get_some x SX _ _ G) as (k' & I' & Q). exists (k', w). split; assumption. }
    destruct (keys_count x SX y SY HX) as (L1 & _). destruct (keys_count y SY x SX HY) as (L2 & _).
    split; [lia|]. intros (k, v) I. simpl. pose proof (H k) as R. rewrite (get_in x SX _ _ I) in R.
    destruct (get y k); [exact R|destruct R].
Qed.

Definition opt_le (r : V -> V -> bool) (a b : option V) : Prop :=
  match a, b with
  | Some x, Some y => r x y = true
  | None, _ => True
  | _, _ => False
  end.
Lemma table_le_spec r x y : sorted x ->
  table_compare_equal keq klt r x y = true <-> forall k, opt_le r (get x k) (get y k).
Proof.
  intros SX. unfold table_compare_equal. rewrite andb_true_iff, !forallb_forall. split.
  - intros (A & B) k. destruct (get x k) as [v|] eqn:G; [|exact I].
    destruct (get_some x SX _ _ G) as (k' & I' & Q).
    rewrite (get_cong y k k' Q). specialize (A _ I'). simpl in A.
    assert (F : In (k', v) (filter (fun e => match get y (fst e) with Some _ => true | None => false end) x)).
    { apply filter_In. split; assumption. }
    specialize (B _ F). simpl in B. rewrite (get_in x SX _ _ I') in B.
    destruct (get y k') as [w|]; [exact B|discriminate].
  - intros H. split.
    + intros (k, v) I. simpl. pose proof (H k) as R. rewrite (get_in x SX _ _ I) in R.
      destruct (get y k); [reflexivity|destruct R].
    + intros (k, v) I. apply filter_In in I. destruct I as (I & _). simpl.
      pose proof (H k) as R. rewrite (get_in x SX _ _ I) in *.
      destruct (get y k); [exact R|destruct R].
Qed.

(** ** The lattice *)
Context (P : V -> Prop) (L : lat V) (seq : V -> V -> bool).
Hypothesis EQL : forall x y, v_equal L x y = seq x y.
Hypothesis LAT : is_lattice P L.

Definition table_of (t : table (K := K) (V := V)) : Prop := sorted t /\ forall e, In e t -> P (snd e).

Lemma table_of_get t : sorted t -> (forall e, In e t -> P (snd e)) <-> (forall k v, get t k = Some v -> P v).
Proof.
  intros S. split.
  - intros H k v G. destruct (get_some t S _ _ G) as (k' & I & _). apply (H _ I).
  - intros H (k, v) I. apply (H k v). apply get_in; assumption.
Qed.
Lemma table_is_lattice : is_lattice table_of (table_lattice keq klt seq L).
Proof.
  destruct LAT as [O JI JL JR JLE MI ML MR MG]. destruct O as [EQ RF TR ST PB LB].
  assert (PG : forall t, table_of t -> forall k v, get t k = Some v -> P v).
  { intros t (S & H). apply table_of_get; assumption. }
  split; [split|..]; cbn [table_lattice v_equal v_bottom v_compare v_compare_equal v_join v_meet].
  - intros x y X Y. rewrite table_equal_spec by (apply X || apply Y).
    rewrite !table_le_spec by (apply X || apply Y). split.
    + intros H. split; intros k; specialize (H k);
        destruct (get x k) as [v|] eqn:GX, (get y k) as [w|] eqn:GY; simpl in *; try tauto;
        rewrite <- EQL in H; apply EQ in H; try tauto; eauto.
    + intros (A & B) k. specialize (A k). specialize (B k).
      destruct (get x k) as [v|] eqn:GX, (get y k) as [w|] eqn:GY; simpl in *; try tauto.
      rewrite <- EQL. apply EQ; eauto.
  - intros x X. apply table_le_spec; [apply X|]. intros k. destruct (get x k) as [v|] eqn:G; simpl; eauto.
  - intros x y z X Y W. rewrite !table_le_spec by (apply X || apply Y). intros A B k.
    specialize (A k). specialize (B k).
    destruct (get x k) as [u|] eqn:GX, (get y k) as [v|] eqn:GY, (get z k) as [w|] eqn:GZ; simpl in *; try tauto.
    apply TR with v; eauto.
  - intros x y X Y. unfold table_compare. rewrite andb_true_iff, negb_true_iff. tauto.
  - split; [exact I|]. intros e [].
  - intros x X. apply table_le_spec; [exact I|]. intros k. exact I.
  - intros x y X Y. assert (SJ := combine_sorted (v_join L) y x (proj1 X)). split; [exact SJ|].
    apply table_of_get; [exact SJ|]. intros k v. rewrite combine_get by (apply X || apply Y).
    destruct (get x k) as [u|] eqn:GX, (get y k) as [w|] eqn:GY; simpl; intros E; try discriminate;
      injection E as <-; eauto.
  - intros x y X Y. apply table_le_spec; [apply X|]. intros k. rewrite combine_get by (apply X || apply Y).
    destruct (get x k) as [u|] eqn:GX, (get y k) as [w|] eqn:GY; simpl; eauto.
  - intros x y X Y. apply table_le_spec; [apply Y|]. intros k. rewrite combine_get by (apply X || apply Y).
    destruct (get x k) as [u|] eqn:GX, (get y k) as [w|] eqn:GY; simpl; eauto.
  - intros x y z X Y W. rewrite !table_le_spec; [|apply combine_sorted, X|apply Y|apply X].
    intros A B k. specialize (A k). specialize (B k). rewrite combine_get by (apply X || apply Y).
    destruct (get x k) as [u|] eqn:GX, (get y k) as [v|] eqn:GY, (get z k) as [w|] eqn:GZ; simpl in *; try tauto.
    apply JLE; eauto.
  - intros x y X Y. assert (SJ := meet_sorted (v_meet L) x y (proj1 Y)). split; [exact SJ|].
    apply table_of_get; [exact SJ|]. intros k v. rewrite meet_get by apply Y.
    destruct (get x k) as [u|] eqn:GX, (get y k) as [w|] eqn:GY; simpl; intros E; try discriminate;
      injection E as <-; eauto.
  - intros x y X Y. apply table_le_spec; [apply meet_sorted, Y|]. intros k. rewrite meet_get by apply Y.
    destruct (get x k) as [u|] eqn:GX, (get y k) as [w|] eqn:GY; simpl; eauto.
  - intros x y X Y. apply table_le_spec; [apply meet_sorted, Y|]. intros k. rewrite meet_get by apply Y.
    destruct (get x k) as [u|] eqn:GX, (get y k) as [w|] eqn:GY; simpl; eauto.
  - intros x y z X Y W. rewrite !table_le_spec by apply W.
    intros A B k. specialize (A k). specialize (B k). rewrite meet_get by apply Y.
    destruct (get x k) as [u|] eqn:GX, (get y k) as [v|] eqn:GY, (get z k) as [w|] eqn:GZ; simpl in *; try tauto.
    apply MG; eauto.
Qed.
Lemma select_monotone t1 t2 k : table_of t1 -> table_of t2 ->
  v_compare_equal (table_lattice keq klt seq L) t1 t2 = true ->
  v_compare_equal (table_lattice keq klt seq L)
    (table_select keq klt (v_bottom L) t1 k) (table_select keq klt (v_bottom L) t2 k) = true.
Proof.
  destruct LAT as [O JI JL JR JLE MI ML MR MG]. destruct O as [EQ RF TR ST PB LB].
  intros T1 T2. cbn [table_lattice v_compare_equal].
  assert (SS : forall t, sorted (table_select keq klt (v_bottom L) t k)).
  { intros t. unfold table_select. destruct (get t k); apply entry_sorted. }
  rewrite !table_le_spec by (apply T1 || apply SS). intros H k'. rewrite !select_get.
  destruct (keq k' k); [|exact I]. specialize (H k). simpl.
  destruct (get t1 k) as [u|] eqn:G1, (get t2 k) as [v|] eqn:G2; simpl in *; try tauto.
  - apply LB. destruct T2 as (S2 & H2). destruct (get_some t2 S2 _ _ G2) as (k2 & I2 & _). apply (H2 _ I2).
  - apply RF. exact PB.
Qed.
End TABLE.

(** ** Search trees whose order is not one *)
Lemma small_tree {K V} (cmp : K -> K -> comparison) (x y z : K) (a b c : V) (t : tree K V) :
  tree_entries t = [(x, a); (y, b); (z, c)] -> tree_height t <= 2 ->
  cmp x y = Gt -> cmp x z = Lt -> tree_get cmp t x = None.
Proof.
  intros E H C1 C2.
  assert (H1 : forall u : tree K V, tree_height u <= 0 -> u = TLeaf).
  { intros [|l k v r]; simpl; [reflexivity|lia]. }
  assert (H2 : forall u : tree K V, tree_height u <= 1 -> u = TLeaf \/ exists k v, u = TNode TLeaf k v TLeaf).
  { intros [|l k v r]; simpl; [left; reflexivity|]. intros B. right. exists k, v.
    rewrite (H1 l) by lia. rewrite (H1 r) by lia. reflexivity. }
  destruct t as [|l k v r]; [discriminate|]. simpl in H.
  destruct (H2 l ltac:(lia)) as [-> |(k1 & v1 & ->)]; destruct (H2 r ltac:(lia)) as [-> |(k2 & v2 & ->)];
    simpl in E; try discriminate.
  injection E as -> -> -> -> -> ->. simpl. rewrite C1, C2. reflexivity.
Qed.
