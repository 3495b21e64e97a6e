(** * SlLat: the lattices of the Scala library (proofs for C92-C96). *)
From Verif Require Import Base SlSpec SlModel SlColl.
From Coq Require Import Lia.

Definition is_lattice {T} (P : T -> Prop) (L : lat T) : Prop :=
  lattice P (v_equal L) (v_bottom L) (v_compare L) (v_compare_equal L) (v_join L) (v_meet L).

Lemma or_is_lattice : is_lattice any or_lattice.
Proof.
  split; [split|..]; unfold any; simpl; unfold f_cand, f_implies;
    repeat match goal with |- forall x : bool, _ => intros [|] end;
    simpl; intuition (try discriminate; try reflexivity).
Qed.
Lemma and_is_lattice : is_lattice any and_lattice.
Proof.
  split; [split|..]; unfold any; simpl; unfold f_andc, f_revimplies;
    repeat match goal with |- forall x : bool, _ => intros [|] end;
    simpl; intuition (try discriminate; try reflexivity).
Qed.

Section ORDERED.
Context {T : Type} (eq lt le : T -> T -> bool) (ORD : total_order eq lt le).

Lemma ord_le_refl x : le x x = true.
Proof. destruct ORD as ((R & _ & _) & L & _). apply L. right. apply R. Qed.
Lemma ord_total x y : le x y = true \/ lt y x = true.
Proof.
  destruct ORD as (EQ & L & _ & TOT & _).
  destruct (TOT x y) as [H|[H|H]]; [left; apply L; left; exact H|left; apply L; right; exact H|right; exact H].
Qed.
Lemma ord_lt_le x y : lt x y = true -> le x y = true.
Proof. destruct ORD as (_ & L & _). intros H. apply L. left; exact H. Qed.
Lemma ord_lt_not x y : lt x y = true -> le y x = false.
Proof.
  destruct ORD as ((R & S & T') & L & NE & TOT & AS & TR). intros H.
  destruct (le y x) eqn:E; [|reflexivity]. apply L in E. destruct E as [E|E].
  - rewrite (AS _ _ H) in E. discriminate.
  - apply S in E. rewrite (NE _ _ H) in E. discriminate.
Qed.
Lemma ord_eq x y : eq x y = true <-> le x y = true /\ le y x = true.
Proof.
  destruct ORD as ((R & S & T') & L & NE & TOT & AS & TR). split.
  - intros H. split; apply L; right; [exact H|apply S; exact H].
  - intros (A & B). apply L in A. destruct A as [A|A]; [|exact A].
    rewrite (ord_lt_not _ _ A) in B. discriminate.
Qed.
Lemma ord_strict x y : lt x y = true <-> le x y = true /\ eq x y = false.
Proof.
  destruct ORD as ((R & S & T') & L & NE & TOT & AS & TR). split.
  - intros H. split; [apply ord_lt_le; exact H|apply NE; exact H].
  - intros (A & B). apply L in A. destruct A as [A|A]; [exact A|congruence].
Qed.
Lemma ord_trans x y z : le x y = true -> le y z = true -> le x z = true.
Proof. destruct ORD as (_ & _ & _ & _ & _ & TR). apply TR. Qed.

Lemma max_is_lattice (P : T -> Prop) m : P m -> (forall x, P x -> le m x = true) -> is_lattice P (max_lattice eq lt le m).
Proof.
  intros PM M. split; [split|..]; simpl; unfold f_max, f_min, op_gt; auto.
  - intros x y _ _; apply ord_eq.
  - intros x _; apply ord_le_refl.
  - intros x y z _ _ _; apply ord_trans.
  - intros x y _ _; apply ord_strict.
  - intros x y PX PY. destruct (lt y x); assumption.
  - intros x y _ _. destruct (lt y x) eqn:E; [apply ord_le_refl|].
    destruct (ord_total x y) as [H|H]; [exact H|congruence].
  - intros x y _ _. destruct (lt y x) eqn:E; [apply ord_lt_le; exact E|apply ord_le_refl].
  - intros x y z _ _ _ A B. destruct (lt y x); assumption.
  - intros x y PX PY. destruct (lt x y); assumption.
  - intros x y _ _. destruct (lt x y) eqn:E; [apply ord_le_refl|].
    destruct (ord_total y x) as [H|H]; [exact H|congruence].
  - intros x y _ _. destruct (lt x y) eqn:E; [apply ord_lt_le; exact E|apply ord_le_refl].
  - intros x y z _ _ _ A B. destruct (lt x y); assumption.
Qed.
Lemma min_is_lattice (P : T -> Prop) m : P m -> (forall x, P x -> le x m = true) -> is_lattice P (min_lattice eq lt le m).
Proof.
  intros PM M. split; [split|..]; simpl; unfold f_max, f_min, op_gt, op_ge; auto.
  - intros x y _ _. rewrite ord_eq. tauto.
  - intros x _; apply ord_le_refl.
  - intros x y z _ _ _ A B. apply ord_trans with y; assumption.
  - intros x y _ _. rewrite ord_strict.
    assert (SY : eq y x = false <-> eq x y = false).
    { destruct ORD as ((R & S & T') & _).
      destruct (eq x y) eqn:A, (eq y x) eqn:B; try tauto; apply S in A || apply S in B; congruence. }
    tauto.
  - intros x y PX PY. destruct (lt x y); assumption.
  - intros x y _ _. destruct (lt x y) eqn:E; [apply ord_le_refl|].
    destruct (ord_total y x) as [H|H]; [exact H|congruence].
  - intros x y _ _. destruct (lt x y) eqn:E; [apply ord_lt_le; exact E|apply ord_le_refl].
  - intros x y z _ _ _ A B. destruct (lt x y); assumption.
  - intros x y PX PY. destruct (lt y x); assumption.
  - intros x y _ _. destruct (lt y x) eqn:E; [apply ord_le_refl|].
    destruct (ord_total x y) as [H|H]; [exact H|congruence].
  - intros x y _ _. destruct (lt y x) eqn:E; [apply ord_lt_le; exact E|apply ord_le_refl].
  - intros x y z _ _ _ A B. destruct (lt y x); assumption.
Qed.
End ORDERED.

Section SETS.
Context {E : Type} (seq : E -> E -> bool) (SEQ : forall x y, seq x y = true <-> x = y).

Lemma set_eq_incl s t : NoDup s -> NoDup t ->
  set_equal seq s t = true <-> set_less_equal seq s t = true /\ set_less_equal seq t s = true.
Proof.
  intros A B. rewrite (set_equal_spec seq SEQ) by assumption. rewrite !(subset_spec seq SEQ).
  unfold incl. split; [intros H; split; intros x; apply H|intros (H & G) x; split; auto].
Qed.
Lemma set_strict s t : set_less seq s t = true <-> set_less_equal seq s t = true /\ set_equal seq s t = false.
Proof. unfold set_less. rewrite andb_true_iff, negb_true_iff. tauto. Qed.

Lemma union_is_lattice : is_lattice (@NoDup E) (union_lattice seq).
Proof.
  split; [split|..]; simpl.
  - intros x y A B. apply set_eq_incl; assumption.
  - intros x _. apply (subset_spec seq SEQ). apply incl_refl.
  - intros x y z _ _ _. rewrite !(subset_spec seq SEQ). apply incl_tran.
  - intros x y _ _. apply set_strict.
  - constructor.
  - intros x _. reflexivity.
  - intros x y A _. apply (union_nodup seq SEQ). exact A.
  - intros x y _ _. apply (subset_spec seq SEQ). intros e H. apply (union_in seq SEQ). tauto.
  - intros x y _ _. apply (subset_spec seq SEQ). intros e H. apply (union_in seq SEQ). tauto.
  - intros x y z _ _ _. rewrite !(subset_spec seq SEQ). intros A B e H.
    apply (union_in seq SEQ) in H. destruct H; auto.
  - intros x y A _. apply NoDup_filter. exact A.
  - intros x y _ _. apply (subset_spec seq SEQ). intros e H. apply (intersect_in seq SEQ) in H. tauto.
  - intros x y _ _. apply (subset_spec seq SEQ). intros e H. apply (intersect_in seq SEQ) in H. tauto.
  - intros x y z _ _ _. rewrite !(subset_spec seq SEQ). intros A B e H.
    apply (intersect_in seq SEQ). auto.
Qed.
Lemma intersection_is_lattice u : NoDup u ->
  is_lattice (fun s => NoDup s /\ incl s u) (intersection_lattice seq u).
Proof.
  intros U. split; [split|..]; simpl; unfold op_gt, op_ge.
  - intros x y (A & _) (B & _). rewrite set_eq_incl by assumption. tauto.
  - intros x _. apply (subset_spec seq SEQ). apply incl_refl.
  - intros x y z _ _ _. rewrite !(subset_spec seq SEQ). intros A B. apply incl_tran with y; assumption.
  - intros x y (A & _) (B & _). rewrite set_strict.
    assert (SY : set_equal seq y x = true <-> set_equal seq x y = true).
    { rewrite !set_eq_incl by assumption. tauto. }
    destruct (set_equal seq x y), (set_equal seq y x); intuition congruence.
  - split; [exact U|apply incl_refl].
  - intros x (_ & I). apply (subset_spec seq SEQ). exact I.
  - intros x y (A & I) _. split; [apply NoDup_filter; exact A|].
    intros e H. apply (intersect_in seq SEQ) in H. apply I. tauto.
  - intros x y _ _. apply (subset_spec seq SEQ). intros e H. apply (intersect_in seq SEQ) in H. tauto.
  - intros x y _ _. apply (subset_spec seq SEQ). intros e H. apply (intersect_in seq SEQ) in H. tauto.
  - intros x y z _ _ _. rewrite !(subset_spec seq SEQ). intros A B e H.
    apply (intersect_in seq SEQ). auto.
  - intros x y (A & I) (B & J). split; [apply (union_nodup seq SEQ); exact A|].
    intros e H. apply (union_in seq SEQ) in H. destruct H; auto.
  - intros x y _ _. apply (subset_spec seq SEQ). intros e H. apply (union_in seq SEQ). tauto.
  - intros x y _ _. apply (subset_spec seq SEQ). intros e H. apply (union_in seq SEQ). tauto.
  - intros x y z _ _ _. rewrite !(subset_spec seq SEQ). intros A B e H.
    apply (union_in seq SEQ) in H. destruct H; auto.
Qed.
End SETS.

(** ** Tuples *)
Section TUPLE.
Context {E : Type} (P : E -> Prop) (L : lat E) (seq : E -> E -> bool).
Hypothesis EQL : forall x y, v_equal L x y = seq x y.
Hypothesis LAT : is_lattice P L.

Fixpoint zip_join (s t : list E) : list E :=
  match s, t with
  | [], _ => t
  | _, [] => s
  | x :: s', y :: t' => v_join L x y :: zip_join s' t'
  end.
Fixpoint zip_meet (s t : list E) : list E :=
  match s, t with
  | x :: s', y :: t' => v_meet L x y :: zip_meet s' t'
  | _, _ => []
  end.
Fixpoint zip_le (s t : list E) : bool :=
  match s, t with
  | [], _ => true
  | _, [] => false
  | x :: s', y :: t' => v_compare_equal L x y && zip_le s' t'
  end.

Lemma combine_ok : forall s t fuel, length s + 1 < fuel -> tuple_combine L fuel s t = Ok (zip_join s t).
Proof.
  induction s as [|x s IH]; intros t fuel F; (destruct fuel as [|fuel]; [lia|]).
  { reflexivity. }
  simpl in F. destruct fuel as [|fuel]; [lia|].
  destruct s as [|x2 s].
  - destruct t as [|y [|y2 t]]; reflexivity.
  - destruct t as [|y [|y2 t]]; [reflexivity|reflexivity|].
    assert (U : tuple_combine L (S (S fuel)) (x :: x2 :: s) (y :: y2 :: t) =
      (b <- tuple_combine L (S fuel) (x2 :: s) (y2 :: t) ;; Ok ([v_join L x y] ++ b))) by reflexivity.
    rewrite U, IH by lia. reflexivity.
Qed.
Lemma meet_ok : forall s t fuel, length s + 1 < fuel -> tuple_meet L fuel s t = Ok (zip_meet s t).
Proof.
  induction s as [|x s IH]; intros t fuel F; (destruct fuel as [|fuel]; [lia|]).
  { reflexivity. }
  simpl in F. destruct fuel as [|fuel]; [lia|].
  destruct s as [|x2 s].
  - destruct t as [|y [|y2 t]]; reflexivity.
  - destruct t as [|y [|y2 t]]; [reflexivity|reflexivity|].
    assert (U : tuple_meet L (S (S fuel)) (x :: x2 :: s) (y :: y2 :: t) =
      (b <- tuple_meet L (S fuel) (x2 :: s) (y2 :: t) ;; Ok ([v_meet L x y] ++ b))) by reflexivity.
    rewrite U, IH by lia. reflexivity.
Qed.

Lemma elem_join_le x y : P x -> P y -> seq (v_join L x y) y = v_compare_equal L x y.
Proof.
  intros A B. destruct LAT as [O JI JL JR JLE MI ML MR MG]. destruct O as [EQ RF TR ST PB LB].
  pose proof (JI x y A B) as PJ.
  destruct (v_compare_equal L x y) eqn:C.
  - rewrite <- EQL. apply EQ; [assumption..|]. split; [apply JLE; auto|apply JR; auto].
  - destruct (seq (v_join L x y) y) eqn:D; [|reflexivity].
    rewrite <- EQL in D. apply EQ in D; [|assumption..].
    rewrite <- C. symmetry. apply TR with (v_join L x y); try assumption; [apply JL; auto|apply D].
Qed.
Lemma seq_refl x : P x -> seq x x = true.
Proof.
  intros A. destruct LAT as [O _ _ _ _ _ _ _ _]. destruct O as [EQ RF _ _ _ _].
  rewrite <- EQL. apply EQ; auto.
Qed.
Lemma list_eq_refl s : Forall P s -> list_eq seq s s = true.
Proof. induction 1 as [|x s A _ IH]; [reflexivity|]. simpl. rewrite seq_refl, IH; auto. Qed.

Lemma le_spec : forall s t, Forall P s -> Forall P t -> list_eq seq (zip_join s t) t = zip_le s t.
Proof.
  induction s as [|x s IH]; intros t A B.
  - simpl. apply list_eq_refl. exact B.
  - destruct t as [|y t]; [reflexivity|]. inversion A; inversion B; subst. simpl.
    rewrite elem_join_le by assumption. rewrite IH by assumption. reflexivity.
Qed.

Definition tup_lt (s t : list E) : bool := zip_le s t && negb (list_eq seq s t).

Lemma zip_le_refl s : Forall P s -> zip_le s s = true.
Proof.
  destruct LAT as [O JI JL JR JLE MI ML MR MG]. destruct O as [EQ RF TR ST PB LB].
  induction 1 as [|x s A _ IH]; [reflexivity|]. simpl. rewrite RF, IH by assumption. reflexivity.
Qed.
Lemma zip_le_trans : forall s t u, Forall P s -> Forall P t -> Forall P u ->
  zip_le s t = true -> zip_le t u = true -> zip_le s u = true.
Proof.
  destruct LAT as [O JI JL JR JLE MI ML MR MG]. destruct O as [EQ RF TR ST PB LB].
  induction s as [|x s IH]; intros [|y t] [|z u] A B C; simpl; try discriminate; try reflexivity.
  inversion A; inversion B; inversion C; subst.
  rewrite !andb_true_iff. intros (Q1 & Q2) (Q3 & Q4). split.
  - apply TR with y; assumption.
  - apply IH with t; assumption.
Qed.
Lemma zip_eq : forall s t, Forall P s -> Forall P t ->
  list_eq seq s t = true <-> zip_le s t = true /\ zip_le t s = true.
Proof.
  destruct LAT as [O JI JL JR JLE MI ML MR MG]. destruct O as [EQ RF TR ST PB LB].
  induction s as [|x s IH]; intros [|y t] A B; simpl; try (split; [discriminate|intros (? & ?); discriminate]).
  - tauto.
  - inversion A; inversion B; subst. rewrite !andb_true_iff, IH by assumption.
    rewrite <- EQL, EQ by assumption. tauto.
Qed.
Lemma zip_join_in : forall s t, Forall P s -> Forall P t -> Forall P (zip_join s t).
Proof.
  destruct LAT as [O JI JL JR JLE MI ML MR MG].
  induction s as [|x s IH]; intros [|y t] A B; simpl; auto.
  inversion A; inversion B; subst. constructor; auto.
Qed.
Lemma zip_meet_in : forall s t, Forall P s -> Forall P t -> Forall P (zip_meet s t).
Proof.
  destruct LAT as [O JI JL JR JLE MI ML MR MG].
  induction s as [|x s IH]; intros [|y t] A B; simpl; auto.
  inversion A; inversion B; subst. constructor; auto.
Qed.
Lemma zip_join_l : forall s t, Forall P s -> Forall P t -> zip_le s (zip_join s t) = true.
Proof.
  intros s t A B. revert t B. destruct LAT as [O JI JL JR JLE MI ML MR MG].
  induction A as [|x s PX A IH]; intros t B; [reflexivity|]. destruct B as [|y t PY B].
  - apply zip_le_refl. constructor; assumption.
  - simpl. rewrite JL, IH by assumption. reflexivity.
Qed.
Lemma zip_join_r : forall s t, Forall P s -> Forall P t -> zip_le t (zip_join s t) = true.
Proof.
  intros s t A B. revert t B. destruct LAT as [O JI JL JR JLE MI ML MR MG].
  induction A as [|x s PX A IH]; intros t B; [apply zip_le_refl; exact B|]. destruct B as [|y t PY B].
  - reflexivity.
  - simpl. rewrite JR, IH by assumption. reflexivity.
Qed.
Lemma zip_join_least : forall s t u, Forall P s -> Forall P t -> Forall P u ->
  zip_le s u = true -> zip_le t u = true -> zip_le (zip_join s t) u = true.
Proof.
  destruct LAT as [O JI JL JR JLE MI ML MR MG].
  induction s as [|x s IH]; intros [|y t] [|z u] A B C; simpl; try discriminate; auto.
  inversion A; inversion B; inversion C; subst.
  rewrite !andb_true_iff. intros (Q1 & Q2) (Q3 & Q4). split; [apply JLE; assumption|apply IH; assumption].
Qed.
Lemma zip_meet_l : forall s t, Forall P s -> Forall P t -> zip_le (zip_meet s t) s = true.
Proof.
  destruct LAT as [O JI JL JR JLE MI ML MR MG].
  induction s as [|x s IH]; intros [|y t] A B; simpl; auto.
  inversion A; inversion B; subst. rewrite ML, IH by assumption. reflexivity.
Qed.
Lemma zip_meet_r : forall s t, Forall P s -> Forall P t -> zip_le (zip_meet s t) t = true.
Proof.
  destruct LAT as [O JI JL JR JLE MI ML MR MG].
  induction s as [|x s IH]; intros [|y t] A B; simpl; auto.
  inversion A; inversion B; subst. rewrite MR, IH by assumption. reflexivity.
Qed.
Lemma zip_meet_greatest : forall s t u, Forall P s -> Forall P t -> Forall P u ->
  zip_le u s = true -> zip_le u t = true -> zip_le u (zip_meet s t) = true.
Proof.
  destruct LAT as [O JI JL JR JLE MI ML MR MG].
  induction s as [|x s IH]; intros [|y t] [|z u] A B C; simpl; try discriminate; auto.
  inversion A; inversion B; inversion C; subst.
  rewrite !andb_true_iff. intros (Q1 & Q2) (Q3 & Q4). split; [apply MG; assumption|apply IH; assumption].
Qed.

Lemma tuple_is_lattice : lattice (Forall P) (list_eq seq) [] tup_lt zip_le zip_join zip_meet.
Proof.
  split; [split|..].
  - exact zip_eq.
  - exact zip_le_refl.
  - intros x y z A B C. apply zip_le_trans; assumption.
  - intros x y _ _. unfold tup_lt. rewrite andb_true_iff, negb_true_iff. tauto.
  - constructor.
  - intros x _. reflexivity.
  - exact zip_join_in.
  - exact zip_join_l.
  - exact zip_join_r.
  - exact zip_join_least.
  - exact zip_meet_in.
  - exact zip_meet_l.
  - exact zip_meet_r.
  - exact zip_meet_greatest.
Qed.
End TUPLE.

(** ** Flat lattices *)
Section FLAT.
Context {E : Type} (seq : E -> E -> bool) (EQV : equivalence seq).

Lemma flat_is_lattice : is_lattice any (scala_flat_lattice seq).
Proof.
  destruct EQV as (R & S & T).
  split; [split|..]; unfold any, scala_flat_lattice, flat_lattice, flat_compare, flat_compare_equal, flat_join, flat_meet;
    cbn [v_equal v_bottom v_compare v_compare_equal v_join v_meet].
  - intros [| |v] [| |w] _ _; simpl; rewrite ?orb_false_r; intuition (try discriminate; try reflexivity; auto).
  - intros [| |v] _; simpl; auto. rewrite R. reflexivity.
  - intros [| |u] [| |v] [| |w] _ _ _; simpl; rewrite ?orb_false_r, ?orb_true_r;
      intuition (try discriminate; try reflexivity; eauto).
  - intros [| |v] [| |w] _ _; simpl; rewrite ?orb_false_r; intuition (try discriminate; try reflexivity; congruence).
  - exact I.
  - intros x _. reflexivity.
  - intros x y _ _. exact I.
  - intros [| |v] [| |w] _ _; simpl; rewrite ?R; auto.
    destruct (seq w v) eqn:W; simpl; [rewrite R; reflexivity|reflexivity].
  - intros [| |v] [| |w] _ _; simpl; rewrite ?R; auto.
    destruct (seq w v) eqn:W; simpl; [rewrite W; reflexivity|reflexivity].
  - intros [| |u] [| |v] [| |w] _ _ _; simpl; rewrite ?orb_false_r, ?orb_true_r;
      intuition (try discriminate; try reflexivity; eauto).
    all: destruct (seq v u) eqn:W; simpl; try reflexivity; try (rewrite H; reflexivity).
    rewrite (T v w u) in W; [discriminate|exact H0|apply S; exact H].
  - intros x y _ _. exact I.
  - intros [| |v] [| |w] _ _; simpl; rewrite ?R; auto; try apply orb_true_r.
    destruct (seq w v) eqn:W; simpl; rewrite ?R; reflexivity.
  - intros [| |v] [| |w] _ _; simpl; rewrite ?R; auto; try apply orb_true_r.
    destruct (seq w v) eqn:W; simpl; [rewrite (S _ _ W); reflexivity|reflexivity].
  - intros [| |u] [| |v] [| |w] _ _ _; simpl; rewrite ?orb_false_r, ?orb_true_r;
      intuition (try discriminate; try reflexivity; eauto).
    all: destruct (seq v u) eqn:W; simpl; try reflexivity; try (rewrite H; reflexivity).
    rewrite (T v w u) in W; [discriminate|apply S; exact H0|exact H].
Qed.

Notation fle := (v_compare_equal (scala_flat_lattice seq)).
Lemma applyf1_monotone base : (forall v w, seq v w = true -> seq (base v) (base w) = true) ->
  forall x y, fle x y = true ->
    fle (flat_applyf1 (fun x => x) Normal base x) (flat_applyf1 (fun x => x) Normal base y) = true.
Proof.
  destruct EQV as (R & S & T). intros B.
  intros [| |v] [| |w]; simpl; unfold flat_compare_equal; simpl; rewrite ?orb_false_r; auto; discriminate.
Qed.
Lemma applyf2_monotone base :
  (forall v w v' w', seq v w = true -> seq v' w' = true -> seq (base v v') (base w w') = true) ->
  forall x y x' y', fle x y = true -> fle x' y' = true ->
    fle (flat_applyf2 (fun x => x) (flat_eq seq) Fbottom Normal base x x')
        (flat_applyf2 (fun x => x) (flat_eq seq) Fbottom Normal base y y') = true.
Proof.
  destruct EQV as (R & S & T). intros B.
  intros [| |v] [| |w] [| |v'] [| |w']; unfold flat_applyf2; simpl; unfold flat_compare_equal; simpl;
    rewrite ?orb_false_r, ?orb_true_r; auto; discriminate.
Qed.
End FLAT.
