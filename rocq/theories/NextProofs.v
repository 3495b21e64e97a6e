From Verif Require Import Base NextModel NextSpec.
From Coq Require Import List PeanoNat Bool Lia.
Import ListNotations.

Lemma kind_eqb_eq a b : kind_eqb a b = true <-> a = b.
Proof. destruct a, b; simpl; split; congruence. Qed.
Lemma set_same h k x v : set_field h k x v k x = v.
Proof. unfold set_field. rewrite (proj2 (kind_eqb_eq k k) eq_refl), Nat.eqb_refl. reflexivity. Qed.
Lemma set_other h k x v k' y : (k', y) <> (k, x) -> set_field h k x v k' y = h k' y.
Proof.
  intros N. unfold set_field. destruct (kind_eqb k' k) eqn:K; [|reflexivity]. apply kind_eqb_eq in K. subst k'.
  destruct (Nat.eqb_spec y x); [subst; congruence|reflexivity].
Qed.

(** a segment of the chain *)
Inductive seg (next : nat -> option nat) : option nat -> list nat -> option nat -> Prop :=
| s_nil p : seg next p [] p
| s_cons x l q : seg next (next x) l q -> seg next (Some x) (x :: l) q.
Lemma seg_meets next p l : seg next p l None <-> meets next p l.
Proof.
  split.
  - remember None as q. induction 1; subst; [constructor|constructor; auto].
  - induction 1; constructor; auto.
Qed.
Lemma seg_app next p a q b r : seg next p a q -> seg next q b r -> seg next p (a ++ b) r.
Proof. induction 1; intros H2; [exact H2|]. simpl. constructor. auto. Qed.
Lemma seg_ext next next' p l q : (forall x, In x l -> next' x = next x) -> seg next p l q -> seg next' p l q.
Proof. intros E H. induction H; [constructor|]. constructor. rewrite (E x (or_introl eq_refl)). apply IHseg. intros y I. apply E. right. exact I. Qed.
Lemma first_elems l : first_of l = hd_error (elems l).
Proof. induction l as [|x|a IHa b IHb]; [reflexivity|reflexivity|]. simpl. rewrite IHa, IHb. destruct (elems a); reflexivity. Qed.

Lemma nd_app {A} (a b : list A) : NoDup (a ++ b) -> NoDup a /\ NoDup b /\ (forall x, In x a -> In x b -> False).
Proof.
  induction a as [|x a IH]; simpl; intros H.
  - split; [constructor|]. split; [exact H|]. intros x [].
  - inversion H as [|? ? N H']; subst. destruct (IH H') as (A1 & B & C). split; [constructor; [|exact A1]|split; [exact B|]].
    + intros I. apply N, in_or_app. left. exact I.
    + intros y [<-|I] J; [apply N, in_or_app; right; exact J|exact (C y I J)].
Qed.
Lemma set_next_ok k l : forall next h, NoDup (elems l) ->
  let '(h', p) := set_next k l next h in
  seg (h' k) p (elems l) next /\ (forall k' y, (k' <> k \/ ~ In y (elems l)) -> h' k' y = h k' y).
Proof.
  induction l as [|x|a IHa b IHb]; intros next h ND; simpl.
  - split; [constructor|reflexivity].
  - split.
    + constructor. rewrite set_same. constructor.
    + intros k' y N. apply set_other. intros E. injection E as -> ->. destruct N as [N|N]; [congruence|]. apply N. left. reflexivity.
  - simpl in ND. destruct (nd_app _ _ ND) as (NA & NB & D). specialize (IHb next h NB). destruct (set_next k b next h) as [h1 mid].
    destruct IHb as [B1 B2]. specialize (IHa mid h1 NA). destruct (set_next k a mid h1) as [h2 p]. destruct IHa as [A1 A2]. split.
    + apply (seg_app _ _ _ mid); [exact A1|]. apply (seg_ext (h1 k)); [|exact B1]. intros x I. apply A2. right. intros J. exact (D x J I).
    + intros k' y N. rewrite A2, B2; [reflexivity| |]; (destruct N as [N|N]; [left; exact N|right; intros I; apply N, in_or_app; auto]).
Qed.

Section P.
  Variable kids : nat -> list child.
  Lemma mono f : (forall f' cs h r, f <= f' -> set_next_fields kids f cs h = Ok r -> set_next_fields kids f' cs h = Ok r) /\
    (forall f' k p h r, f <= f' -> loop kids f k p h = Ok r -> loop kids f' k p h = Ok r).
  Proof.
    induction f as [|f [IH1 IH2]]; split; intros f' *; intros L H; try discriminate H; (destruct f' as [|f']; [lia|]); apply le_S_n in L; simpl in *.
    - destruct cs as [|[x|k l] cs]; [exact H| |].
      + apply bind_Ok in H. destruct H as (h1 & E1 & E2). rewrite (IH1 _ _ _ _ L E1). simpl. exact (IH1 _ _ _ _ L E2).
      + destruct (set_next k l None h) as [h0 p]. apply bind_Ok in H. destruct H as (h1 & E1 & E2). rewrite (IH2 _ _ _ _ _ L E1). simpl. exact (IH1 _ _ _ _ L E2).
    - destruct p as [x|]; [|exact H]. apply bind_Ok in H. destruct H as (h1 & E1 & E2). rewrite (IH1 _ _ _ _ L E1). simpl. exact (IH2 _ _ _ _ _ L E2).
  Qed.
  Definition runs cs h h' := exists f, set_next_fields kids f cs h = Ok h'.
  Definition loops k p h h' := exists f, loop kids f k p h = Ok h'.
  Lemma runs_node x cs h h1 h2 : runs (kids x) h h1 -> runs cs h1 h2 -> runs (CNode x :: cs) h h2.
  Proof.
    intros [f1 E1] [f2 E2]. exists (S (f1 + f2)). simpl. rewrite (proj1 (mono f1) (f1 + f2) _ _ _ ltac:(lia) E1). simpl.
    exact (proj1 (mono f2) (f1 + f2) _ _ _ ltac:(lia) E2).
  Qed.
  Lemma loops_some k x h h1 h2 : runs (kids x) h h1 -> loops k (h1 k x) h1 h2 -> loops k (Some x) h h2.
  Proof.
    intros [f1 E1] [f2 E2]. exists (S (f1 + f2)). simpl. rewrite (proj1 (mono f1) (f1 + f2) _ _ _ ltac:(lia) E1). simpl.
    exact (proj2 (mono f2) (f1 + f2) _ _ _ _ ltac:(lia) E2).
  Qed.
  Lemma runs_list k l cs h h0 p h1 h2 : set_next k l None h = (h0, p) -> loops k p h0 h1 -> runs cs h1 h2 -> runs (CList k l :: cs) h h2.
  Proof.
    intros E [f1 E1] [f2 E2]. exists (S (f1 + f2)). simpl. rewrite E. rewrite (proj2 (mono f1) (f1 + f2) _ _ _ _ ltac:(lia) E1). simpl.
    exact (proj1 (mono f2) (f1 + f2) _ _ _ ltac:(lia) E2).
  Qed.
  (** what a traversal of children with lists ls does *)
  Definition good (ls : list (kind * ltree)) (h h' : fields) : Prop :=
    (forall k l, In (k, l) ls -> seg (h' k) (first_of l) (elems l) None) /\
    (forall k x, ~ In (k, x) (places ls) -> h' k x = h k x).
  Lemma places_app a b : places (a ++ b) = places a ++ places b. Proof. apply flat_map_app. Qed.
  Lemma in_place k l x ls : In (k, l) ls -> In x (elems l) -> In (k, x) (places ls).
  Proof. intros I J. apply in_flat_map. exists (k, l). split; [exact I|]. apply in_map, J. Qed.
  Lemma good_app a b h h1 h2 : NoDup (places (a ++ b)) -> good a h h1 -> good b h1 h2 -> good (a ++ b) h h2.
  Proof.
    intros ND [A1 A2] [B1 B2]. rewrite places_app in ND. destruct (nd_app _ _ ND) as (_ & _ & D). split.
    - intros k l I. apply in_app_iff in I. destruct I as [I|I]; [|exact (B1 k l I)]. apply (seg_ext (h1 k)); [|exact (A1 k l I)].
      intros x J. apply B2. intros J'. exact (D _ (in_place _ _ _ _ I J) J').
    - intros k x N. rewrite places_app, in_app_iff in N. rewrite B2, A2; [reflexivity| |]; tauto.
  Qed.
  Lemma seg_head next l : seg next (hd_error l) l None -> forall p, seg next p l None -> p = hd_error l.
  Proof. intros _ p H. inversion H; reflexivity. Qed.
  (** the children of the nodes of a chain, visited by following it *)
  Inductive visited : list nat -> list (kind * ltree) -> fields -> fields -> Prop :=
  | v_nil h : visited [] [] h h
  | v_cons x xs a b h h1 h2 : runs (kids x) h h1 -> good a h h1 -> visited xs b h1 h2 -> visited (x :: xs) (a ++ b) h h2.
  Lemma visited_loop k xs a h h' : visited xs a h h' -> (forall x, In x xs -> ~ In (k, x) (places a)) -> forall p, seg (h k) p xs None -> loops k p h h'.
  Proof.
    induction 1 as [h|x xs a b h h1 h2 R G V IH]; intros N p S; inversion S; subst.
    - exists 1. reflexivity.
    - refine (loops_some _ _ _ _ _ R _). apply IH.
      + intros y I J. apply (N y (or_intror I)). rewrite places_app. apply in_or_app. right. exact J.
      + assert (E : forall y, In y (x :: xs) -> h1 k y = h k y).
        { intros y I. apply (proj2 G). intros J. apply (N y I). rewrite places_app. apply in_or_app. left. exact J. }
        rewrite (E x (or_introl eq_refl)). apply (seg_ext (h k)); [|assumption]. intros y I. apply E. right. exact I.
  Qed.
  Lemma visited_runs xs a h h' : visited xs a h h' -> runs (map CNode xs) h h'.
  Proof. induction 1 as [h|x xs a b h h1 h2 R G V IH]; [exists 1; reflexivity|]. simpl. exact (runs_node _ _ _ _ _ R IH). Qed.
  Lemma visited_good xs a h h' : visited xs a h h' -> NoDup (places a) -> good a h h'.
  Proof.
    induction 1 as [h|x xs a b h h1 h2 R G V IH]; intros ND.
    - split; [intros ? ? []|reflexivity].
    - refine (good_app _ _ _ _ _ ND G (IH _)). rewrite places_app in ND. exact (proj1 (proj2 (nd_app _ _ ND))).
  Qed.
  Lemma all_visited cs ls : lists_of kids cs ls -> NoDup (places ls) ->
    (forall h, exists h', runs cs h h' /\ good ls h h') /\
    (forall xs, cs = map CNode xs -> forall h, exists h', visited xs ls h h').
  Proof.
    induction 1 as [|x cs a b H1 IH1 H2 IH2|k l cs a b H1 IH1 H2 IH2]; intros ND.
    - split.
      + intros h. exists h. split; [exists 1; reflexivity|]. split; [intros ? ? []|reflexivity].
      + intros xs E h. destruct xs; [|discriminate E]. exists h. constructor.
    - pose proof ND as ND'. rewrite places_app in ND'. destruct (nd_app _ _ ND') as (NA & NB & D).
      destruct (IH1 NA) as [A1 _]. destruct (IH2 NB) as [B1 B2]. split.
      + intros h. destruct (A1 h) as (h1 & R1 & G1). destruct (B1 h1) as (h2 & R2 & G2). exists h2. split; [exact (runs_node _ _ _ _ _ R1 R2)|].
        exact (good_app _ _ _ _ _ ND G1 G2).
      + intros xs E h. destruct xs as [|y xs]; [discriminate E|]. simpl in E. injection E as -> E.
        destruct (A1 h) as (h1 & R1 & G1). destruct (B2 xs E h1) as (h2 & V). exists h2. exact (v_cons _ _ _ _ _ _ _ R1 G1 V).
    - split; [|intros xs E; destruct xs; discriminate E]. intros h.
      change (places ((k, l) :: a ++ b)) with (map (pair k) (elems l) ++ places (a ++ b)) in ND.
      destruct (nd_app _ _ ND) as (NL & ND' & D). pose proof ND' as ND2. rewrite places_app in ND2. destruct (nd_app _ _ ND2) as (NA & NB & D2).
      assert (NE : NoDup (elems l)) by (exact (NoDup_map_inv _ _ NL)).
      pose proof (set_next_ok k l None h NE) as S0. destruct (set_next k l None h) as [h0 p] eqn:E0. destruct S0 as [S1 S2].
      destruct (IH1 NA) as [_ A2]. destruct (A2 _ eq_refl h0) as (h1 & V). destruct (IH2 NB) as [B1 _]. destruct (B1 h1) as (h2 & R2 & G2).
      assert (NX : forall x, In x (elems l) -> ~ In (k, x) (places (a ++ b))) by (intros x I J; exact (D _ (in_map (pair k) _ _ I) J)).
      assert (NXa : forall x, In x (elems l) -> ~ In (k, x) (places a)).
      { intros x I J. apply (NX x I). rewrite places_app. apply in_or_app. left. exact J. }
      exists h2. split.
      + exact (runs_list _ _ _ _ _ _ _ _ E0 (visited_loop k _ _ _ _ V NXa p S1) R2).
      + pose proof (good_app _ _ _ _ _ ND' (visited_good _ _ _ _ V NA) G2) as [G3 G4]. split.
        * intros k' l' [I|I]; [|exact (G3 k' l' I)]. injection I as <- <-. rewrite first_elems. inversion S1 as [q E1 E2|x xs q S3 E1 E2].
          -- subst. constructor.
          -- simpl. subst p. rewrite E2 in *. apply (seg_ext (h0 k)); [|exact S1]. intros y I. apply G4. exact (NX y I).
        * intros k' x N. simpl in N. rewrite in_app_iff in N. rewrite G4; [|tauto]. apply S2.
          destruct (kind_eqb k' k) eqn:K; [|left; intros ->; rewrite (proj2 (kind_eqb_eq k k) eq_refl) in K; discriminate K].
          apply kind_eqb_eq in K. subst k'. right. intros I. apply N. left. apply in_map, I.
  Qed.
End P.
