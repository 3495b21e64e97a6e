(** * PropsSlib: the library of types of the Scala runtime (C86-C97).

    The notions of power, interval, order and lattice are those of [SlSpec]; the
    code is that of [SlModel]. *)
From Verif Require Import Base SlSpec SlModel SlNum SlColl SlLat SlTable.
From Coq Require Import ZArith Lia.
Open Scope Z_scope.

(** ** C86: powers *)

(** As basic.aps defines it, and with the [odd] of the C++ runtime, [x ^ y] is [x]
    multiplied by itself [y] times, in every type with an associative
    multiplication. *)
Theorem C86_power_cpp : forall (T : Type) one times (divide : T -> T -> res T) x y,
  monoid one times -> 0 <= y <= 2147483647 ->
  exists fuel0, forall fuel, (fuel0 <= fuel)%nat ->
    power one times divide cpp_odd fuel x y = Ok (npow one times x (Z.to_nat y)).
Proof.
  intros T one times divide x y M B. exists (S (Z.to_nat y)). intros fuel F.
  apply (power_cpp one times divide M (S (Z.to_nat y))); unfold is_int; lia.
Qed.

(** Negative exponents: one divided by the power. *)
Theorem C86_power_negative : forall (T : Type) one times (divide : T -> T -> res T) x y,
  monoid one times -> -2147483647 <= y < 0 ->
  exists fuel0, forall fuel, (fuel0 <= fuel)%nat ->
    power one times divide cpp_odd fuel x y = divide one (npow one times x (Z.to_nat (- y))).
Proof.
  intros T one times divide x y M B. exists (S (S (Z.to_nat (- y)))). intros fuel F.
  destruct fuel as [|fuel]; [lia|]. cbn [power].
  destruct (Z.eqb_spec y 0); [lia|]. destruct (Z.ltb_spec y 0); [|lia].
  unfold i_unary_minus. rewrite wrap_id by (unfold is_int; lia).
  rewrite (power_cpp one times divide M (S (Z.to_nat (- y)))) by (unfold is_int; lia). reflexivity.
Qed.

(** In Scala it is right up to the square ... *)
Theorem C86_power_partial : forall (T : Type) one times (divide : T -> T -> res T) x y,
  monoid one times -> 0 <= y <= 2 ->
  exists fuel0, forall fuel, (fuel0 <= fuel)%nat ->
    power one times divide scala_odd fuel x y = Ok (npow one times x (Z.to_nat y)).
Proof.
  intros T one times divide x y M B. exists 3%nat.
  apply (power_small one times divide M scala_odd x y eq_refl B).
Qed.

(** ... and wrong for every larger exponent: [odd] is the test for even numbers. *)
Theorem C86_power_refuted : forall divide x y, 2 <= x -> 3 <= y <= 2147483647 ->
  exists r fuel0, r < x ^ y /\
    forall fuel, (fuel0 <= fuel)%nat -> power 1 Z.mul divide scala_odd fuel x y = Ok r.
Proof.
  intros divide x y X Y.
  destruct (power_scala divide (S (Z.to_nat y)) (S (Z.to_nat y)) x y) as (r & R & _ & LT); [lia|lia|unfold is_int; lia|lia|lia|].
  exists r, (S (Z.to_nat y)). split; [apply LT; lia|]. intros fuel F.
  destruct (power_scala divide (S (Z.to_nat y)) fuel x y) as (r' & R' & _ & _); [lia|lia|unfold is_int; lia|lia|lia|].
  assert (MONO : forall f x y r, power 1 Z.mul divide scala_odd f x y = Ok r ->
    forall f', (f <= f')%nat -> power 1 Z.mul divide scala_odd f' x y = Ok r).
  { clear. induction f as [|f IH]; intros x y r H f' L; [discriminate|].
    destruct f' as [|f']; [lia|]. revert H. cbn [power].
    destruct (y =? 0); [auto|]. destruct (y <? 0).
    { destruct (power 1 Z.mul divide scala_odd f x (i_unary_minus y)) eqn:P; try discriminate.
      rewrite (IH _ _ _ P f') by lia. auto. }
    destruct (y =? 1); [auto|]. destruct (scala_odd y).
    { destruct (power 1 Z.mul divide scala_odd f x (i_minus y 1)) eqn:P; try discriminate.
      rewrite (IH _ _ _ P f') by lia. auto. }
    destruct (i_divide y 2); cbn [bind]; try discriminate. intros H. apply (IH _ _ _ H f'). lia. }
  apply (MONO _ _ _ _ R fuel F).
Qed.

(** The integers are a monoid; [2 ^ 10] is 1024 with one [odd] and 128 with the
    other, and [2 ^ 3] is 4 as an [Int], too. *)
Example C86_monoid : monoid 1 Z.mul.
Proof. split; [|split]; intros; lia. Qed.
Example C86_example :
  power 1 Z.mul i_divide cpp_odd 20 2 10 = Ok 1024 /\
  power 1 Z.mul i_divide scala_odd 20 2 10 = Ok 128 /\
  power 1 i_times i_divide scala_odd 20 2 3 = Ok 4 /\
  power 1 i_times i_divide scala_odd 20 2 2 = Ok 4.
Proof. vm_compute. auto 12. Qed.

(** ** C87: ranges *)

Theorem C87_range_partial : forall x y, is_int x -> is_int y ->
  y <= x \/ (0 <= x /\ y <= 1073741824) ->
  exists l fuel0, interval x y l /\ forall fuel, (fuel0 <= fuel)%nat -> srange fuel x y = Ok l.
Proof.
  intros x y IX IY H.
  exists (zseq x (Z.to_nat (y - x + 1))), (S (Z.to_nat (y - x))). split; [apply zseq_interval|].
  intros fuel F. destruct H as [H|(H1 & H2)].
  - destruct fuel as [|fuel]; [lia|]. cbn [srange].
    destruct (Z.eqb_spec x y) as [E|E].
    + subst y. replace (x - x + 1) with 1 by lia. unfold zseq; simpl. rewrite Z.add_0_r. reflexivity.
    + destruct (Z.ltb_spec y x); [|lia]. replace (Z.to_nat (y - x + 1)) with 0%nat by lia. reflexivity.
  - apply (srange_ok (S (Z.to_nat (y - x)))); lia.
Qed.

(** In all other cases the recursion never ends. *)
Theorem C87_range_refuted : forall x y, is_int x -> is_int y -> x < y -> x < 0 \/ 1073741824 < y ->
  forall fuel, srange fuel x y = Fuel.
Proof.
  intros x y IX IY L H fuel. destruct (Z_lt_le_dec x 0).
  - apply srange_negative; assumption.
  - apply srange_big; try assumption. lia.
Qed.

Example C87_example : srange 10 3 7 = Ok [3; 4; 5; 6; 7] /\ srange 10 7 3 = Ok [] /\
  srange 40 1073741820 1073741824 = Ok [1073741820; 1073741821; 1073741822; 1073741823; 1073741824].
Proof. vm_compute. auto 12. Qed.

(** ** C88: lists *)

Theorem C88_lists_partial :
  (forall i l x, list_nth i l = Ok x <-> 0 <= i /\ nth_error l (Z.to_nat i) = Some x) /\
  (forall i l x, list_nth_from_end i l = Ok x <->
     0 <= i /\ exists a b, l = a ++ x :: b /\ Z.of_nat (length b) = i) /\
  (forall x l, list_member x l = true <-> In x l) /\
  (forall x l, (list_position x l = -1 /\ ~ In x l) \/
     (exists a b, l = a ++ x :: b /\ ~ In x a /\ list_position x l = Z.of_nat (length a))) /\
  (forall (a b c : list val) s f, s = Z.of_nat (length a) -> f = s + Z.of_nat (length b) ->
     list_subseq (a ++ b ++ c) s f = b /\ list_butsubseq (a ++ b ++ c) s f = a ++ c).
Proof.
  split; [|split; [|split; [|split]]].
  - intros i l x. unfold list_nth, at_index. destruct (Z.ltb_spec i 0).
    + split; [discriminate|lia].
    + destruct (nth_error l (Z.to_nat i)); split; try discriminate.
      * intros H1; injection H1 as ->. auto.
      * intros (_ & H1); injection H1 as ->. reflexivity.
      * intros (_ & H1); discriminate.
  - intros i l x. unfold list_nth_from_end, at_index. destruct (Z.ltb_spec i 0).
    + split; [discriminate|lia].
    + split.
      * intros H1. split; [lia|].
        destruct (nth_error (rev l) (Z.to_nat i)) as [y|] eqn:N; [|discriminate]. injection H1 as ->.
        apply nth_error_split in N. destruct N as (a & b & R & L).
        exists (rev b), (rev a). split.
        -- rewrite <- (rev_involutive l), R, rev_app_distr. simpl. rewrite <- app_assoc. reflexivity.
        -- rewrite rev_length. lia.
      * intros (_ & a & b & -> & L). rewrite rev_app_distr. simpl. rewrite <- app_assoc. simpl.
        rewrite nth_error_app2 by (rewrite rev_length; lia). rewrite rev_length.
        replace (Z.to_nat i - length b)%nat with 0%nat by lia. reflexivity.
  - intros x l. unfold list_member. rewrite existsb_exists. split.
    + intros (y & H & E). apply val_eq_iff in E. subst. exact H.
    + intros H. exists x. split; [exact H|apply val_eq_refl].
  - intros x l. unfold list_position, index_where.
    destruct (index_from_spec (val_eq x) l 0 ltac:(lia)) as [(E & N)|(a & y & b & E & T & N & P)].
    + left. split; [exact E|]. intros H. apply N in H. rewrite val_eq_refl in H. discriminate.
    + apply val_eq_iff in T. subst y. right. exists a, b. split; [exact E|]. split; [|lia].
      intros H. apply N in H. rewrite val_eq_refl in H. discriminate.
  - intros a b c s f S F.
    assert (LEN : f <= Z.of_nat (length (a ++ b ++ c))) by (rewrite !app_length; lia).
    destruct (slice_split (a ++ b ++ c) s f ltac:(lia) LEN) as (a' & b' & c' & E & LA & LB & S1 & S2 & S3).
    assert (EA : a = a' /\ b ++ c = b' ++ c').
    { clear -E LA S. assert (L : length a = length a') by lia. clear S LA. revert a' L E.
      induction a as [|x a IH]; intros [|y a'] L E; try discriminate; [auto|].
      injection E as -> E. destruct (IH a' ltac:(injection L; auto) E) as (-> & E2). auto. }
    destruct EA as (<- & E2).
    assert (EB : b = b' /\ c = c').
    { clear -E2 LB F. assert (L : length b = length b') by lia. clear F LB. revert b' L E2.
      induction b as [|x b IH]; intros [|y b'] L E; try discriminate; [auto|].
      injection E as -> E. destruct (IH b' ltac:(injection L; auto) E) as (-> & E3). auto. }
    destruct EB as (<- & <-). unfold list_subseq, list_butsubseq. rewrite S1, S2, S3. auto.
Qed.

(** Counting from the end: positions are always reported as "not found" (the list
    is looked for in itself), ranges are not supported. *)
Theorem C88_from_end_refuted :
  (forall x l, list_position_from_end x l = -1) /\
  (forall (l : list val) s f, list_subseq_from_end l s f = Exit /\ list_butsubseq_from_end l s f = Exit).
Proof. split; [exact position_from_end_never|intros; split; reflexivity]. Qed.

Example C88_example :
  list_position (VAtom 7) [VAtom 5; VAtom 7; VAtom 7] = 1 /\
  list_position_from_end (VAtom 7) [VAtom 5; VAtom 7; VAtom 7] = -1 /\
  list_nth_from_end 0 [VAtom 5; VList [VAtom 7]] = Ok (VList [VAtom 7]) /\
  list_butsubseq [VAtom 1; VAtom 2; VAtom 3] 0 1 = [VAtom 2; VAtom 3].
Proof. vm_compute. auto 12. Qed.

(** ** C89: strings *)

Theorem C89_strings_partial :
  (forall i s, string_nth i s = at_index i s) /\
  (forall i s, is_int i -> Z.of_nat (length s) <= 2147483647 ->
     string_nth_from_end i s = at_index i (rev s)) /\
  (forall c s, string_member c s = true <-> In c s) /\
  (forall a b c s f, s = Z.of_nat (length a) -> f = s + Z.of_nat (length b) ->
     string_subseq (a ++ b ++ c) s f = Ok b /\ string_butsubseq (a ++ b ++ c) s f = Ok (a ++ c)) /\
  (forall s st fi, st < 0 \/ fi < st \/ Z.of_nat (length s) < fi -> string_subseq s st fi = Exit) /\
  total_order symbol_equal string_less string_less_equal /\
  (forall s t, symbol_equal s t = true <-> s = t).
Proof.
  split; [reflexivity|]. split; [intros; apply at_index_rev; assumption|]. split; [|split; [|split; [|split]]].
  - intros c s. unfold string_member, index_where.
    destruct (index_from_spec (Z.eqb c) s 0 ltac:(lia)) as [(E & N)|(a & y & b & E & T & N & P)].
    + rewrite E. simpl. split; [discriminate|]. intros H. apply N in H. rewrite Z.eqb_refl in H. discriminate.
    + apply Z.eqb_eq in T. subst y. rewrite P. destruct (Z.eqb_spec (0 + Z.of_nat (length a)) (-1)); [lia|].
      split; [|reflexivity]. intros _. rewrite E. apply in_or_app. right; left; reflexivity.
  - intros a b c s f S F.
    assert (SUB : forall (u v w : list Z), substring (Z.of_nat (length u)) (Z.of_nat (length u) + Z.of_nat (length v)) (u ++ v ++ w) = Ok v).
    { intros u v w. unfold substring. rewrite !app_length.
      destruct (Z.ltb_spec (Z.of_nat (length u)) 0); [lia|].
      destruct (Z.ltb_spec (Z.of_nat (length u + (length v + length w))) (Z.of_nat (length u) + Z.of_nat (length v))); [lia|].
      destruct (Z.ltb_spec (Z.of_nat (length u) + Z.of_nat (length v)) (Z.of_nat (length u))); [lia|].
      cbn [orb]. f_equal. rewrite Nat2Z.id. rewrite skipn_app, skipn_all, Nat.sub_diag. simpl.
      replace (Z.to_nat _) with (length v) by lia. rewrite firstn_app, firstn_all, Nat.sub_diag. simpl. apply app_nil_r. }
    subst f s. split; [apply SUB|]. unfold string_butsubseq.
    pose proof (SUB [] a (b ++ c)) as S1. cbn [length app Z.of_nat] in S1. rewrite Z.add_0_l in S1. rewrite S1. cbn [bind].
    pose proof (SUB (a ++ b) c []) as S2. rewrite app_nil_r, <- app_assoc, app_length in S2.
    replace (Z.of_nat (length (a ++ b ++ c))) with (Z.of_nat (length a + length b) + Z.of_nat (length c)) by (rewrite !app_length; lia).
    replace (Z.of_nat (length a) + Z.of_nat (length b)) with (Z.of_nat (length a + length b)) by lia.
    rewrite S2. reflexivity.
  - intros s st fi H. unfold string_subseq, substring.
    destruct (Z.ltb_spec st 0); [reflexivity|].
    destruct (Z.ltb_spec (Z.of_nat (length s)) fi); [reflexivity|].
    destruct (Z.ltb_spec fi st); [reflexivity|]. lia.
  - exact string_order.
  - exact symbol_equal_spec.
Qed.

(** The position of a character is always reported as 0, and that from the end as
    0 for a palindrome and "not found" for every other string, whatever character
    one looks for. *)
Theorem C89_position_refuted :
  (forall c s, string_position c s = 0) /\
  (forall c s, string_position_from_end c s = 0 /\ s = rev s \/
               string_position_from_end c s = -1 /\ s <> rev s).
Proof.
  split; [exact string_position_zero|]. intros c s. rewrite string_position_end.
  destruct (prefix_of s (rev s)) eqn:P.
  - left. split; [reflexivity|]. apply string_palindrome. exact P.
  - right. split; [reflexivity|]. intros H. apply string_palindrome in H. congruence.
Qed.

Example C89_example : string_position 98 [97; 98; 99] = 0 /\ string_member 100 [97; 98; 99] = false /\
  string_position 100 [97; 98; 99] = 0 /\ string_position_from_end 99 [97; 98; 99] = -1 /\
  string_less [97; 98] [97; 98; 99] = true /\ string_less [97; 99] [97; 98; 99] = false.
Proof. vm_compute. auto 12. Qed.
Close Scope Z_scope.

(** ** C90: multisets *)

(** How often an element occurs decides everything. *)
Theorem C90_multisets : forall (E : Type) (veq : E -> E -> bool), equivalence veq ->
  forall l m : list E,
  (forall x, ms_count veq x l = length (filter (veq x) l)) /\
  (forall x, ms_count veq x (ms_union veq l m) = Nat.max (ms_count veq x l) (ms_count veq x m)) /\
  (forall x, ms_count veq x (ms_intersect veq l m) = Nat.min (ms_count veq x l) (ms_count veq x m)) /\
  (forall x, ms_count veq x (ms_difference veq l m) = ms_count veq x l - ms_count veq x m) /\
  (forall x, ms_count veq x (ms_combine l m) = ms_count veq x l + ms_count veq x m) /\
  (ms_less_equal veq l m = true <-> forall x, ms_count veq x l <= ms_count veq x m) /\
  (ms_equal veq l m = true <-> forall x, ms_count veq x l = ms_count veq x m) /\
  (ms_less veq l m = true <-> (forall x, ms_count veq x l <= ms_count veq x m) /\ ms_equal veq l m = false).
Proof.
  intros E veq EQV l m. split.
  { intros x. induction l as [|y l IH]; [reflexivity|]. simpl. destruct (veq x y); simpl; rewrite IH; reflexivity. }
  split; [intros; apply count_union; assumption|].
  split; [intros; apply count_intersect; assumption|].
  split; [intros; apply count_difference; assumption|].
  split; [intros; apply count_app|].
  split; [apply less_equal_spec; assumption|].
  split; [apply ms_equal_spec; assumption|apply ms_less_spec; assumption].
Qed.

(** Membership asks Scala, not the element type, for equality: it agrees with the
    count if the two equalities do ... *)
Theorem C90_member_partial : forall (E : Type) (veq seq : E -> E -> bool),
  (forall x y, veq x y = seq x y) ->
  forall x l, ms_member seq x l = true <-> 0 < ms_count veq x l.
Proof.
  intros E veq seq H x l. unfold ms_member. induction l as [|y l IH]; simpl; [split; [discriminate|lia]|].
  rewrite <- H. destruct (veq x y); simpl; [split; [lia|reflexivity]|exact IH].
Qed.

(** ... but not for a multiset of multisets. *)
Definition list_eqb : list nat -> list nat -> bool := list_eq Nat.eqb.
Theorem C90_member_refuted : exists x l,
  equivalence (ms_equal Nat.eqb) /\
  0 < ms_count (ms_equal Nat.eqb) x l /\ ms_member list_eqb x l = false.
Proof.
  exists [1; 2], [[2; 1]]. split; [|vm_compute; auto].
  assert (EQ : equivalence Nat.eqb).
  { split; [apply Nat.eqb_refl|]. split; intros; rewrite ?Nat.eqb_eq in *; congruence. }
  split; [|split]; intros.
  - apply (ms_equal_spec _ EQ). reflexivity.
  - apply (ms_equal_spec _ EQ). intros z. symmetry. revert z. apply (ms_equal_spec _ EQ). assumption.
  - apply (ms_equal_spec _ EQ). intros w.
    rewrite (proj1 (ms_equal_spec _ EQ x y) H w). apply (ms_equal_spec _ EQ). assumption.
Qed.

Example C90_example :
  ms_union Nat.eqb [1; 2; 3; 2; 1] [0; 1; 2; 2; 2] = [1; 3; 0; 1; 2; 2; 2] /\
  ms_less_equal Nat.eqb [1; 2; 1] [1; 1; 3; 2] = true /\
  ms_less_equal Nat.eqb [1; 2; 1; 2] [1; 1; 3; 2] = false.
Proof. vm_compute. auto 12. Qed.

(** ** C91: sets.  Sets have no element twice ([NoDup]); all operations keep that. *)

Theorem C91_sets : forall (E : Type) (seq : E -> E -> bool), (forall x y, seq x y = true <-> x = y) ->
  forall s t : list E, NoDup s -> NoDup t ->
  (forall x, set_member seq x s = true <-> In x s) /\
  (NoDup (set_union seq s t) /\ forall x, In x (set_union seq s t) <-> In x s \/ In x t) /\
  (NoDup (set_intersect seq s t) /\ forall x, In x (set_intersect seq s t) <-> In x s /\ In x t) /\
  (NoDup (set_difference seq s t) /\ forall x, In x (set_difference seq s t) <-> In x s /\ ~ In x t) /\
  (forall e, NoDup (set_remove seq s e) /\ forall x, In x (set_remove seq s e) <-> In x s /\ x <> e) /\
  (forall l, NoDup (set_of seq l) /\ forall x, In x (set_of seq l) <-> In x l) /\
  (set_less_equal seq s t = true <-> forall x, In x s -> In x t) /\
  (set_equal seq s t = true <-> forall x, In x s <-> In x t) /\
  (set_less seq s t = true <-> (forall x, In x s -> In x t) /\ exists x, In x t /\ ~ In x s) /\
  (exists fuel0, forall fuel, fuel0 <= fuel -> set_length seq fuel s = Ok (length s)).
Proof.
  intros E seq SEQ s t NS NT.
  split; [intros; apply member_in; assumption|].
  split; [split; [apply union_nodup; assumption|intros; apply union_in; assumption]|].
  split; [split; [apply NoDup_filter; assumption|intros; apply intersect_in; assumption]|].
  split; [split; [apply NoDup_filter; assumption|intros; apply difference_in; assumption]|].
  split.
  { intros e. split; [apply NoDup_filter; assumption|]. intros x. unfold set_remove.
    rewrite difference_in by assumption. unfold set_single. simpl. intuition. }
  split.
  { intros l. split; [apply (union_nodup seq SEQ l []); constructor|].
    intros x. rewrite (union_in seq SEQ l [] x). simpl. tauto. }
  split; [apply subset_spec; assumption|].
  split; [apply set_equal_spec; assumption|].
  split.
  - rewrite set_strict, subset_spec by assumption. unfold incl. split; intros (A & B); (split; [exact A|]).
    + destruct (forallb (fun e => set_member seq e s) t) eqn:F.
      * exfalso. assert (C : set_equal seq s t = true).
        { apply set_equal_spec; try assumption. intros x. split; [apply A|].
          rewrite forallb_forall in F. intros H. apply (member_in seq SEQ). apply F. exact H. }
        congruence.
      * assert (X : exists x, In x t /\ set_member seq x s = false).
        { clear -F. induction t as [|y t IH]; [discriminate|]. simpl in F.
          destruct (set_member seq y s) eqn:M; [destruct (IH F) as (x & I & N); exists x; split; [right|]; assumption|].
          exists y. split; [left; reflexivity|exact M]. }
        destruct X as (x & I & N). exists x. split; [exact I|]. apply (member_false seq SEQ). exact N.
    + destruct (set_equal seq s t) eqn:Q; [|reflexivity]. exfalso.
      rewrite (set_equal_spec seq SEQ s t NS NT) in Q. destruct B as (x & I & N). apply N. apply Q. exact I.
  - exists (S (S (length s))). intros fuel F. apply length_ok; try assumption; lia.
Qed.

(** The equality is that of Scala: values that the element type calls equal can
    both be members, and membership is then not a matter of equality. *)
Theorem C91_element_equality_refuted : exists (s : list (list nat)) x y,
  NoDup s /\ ms_equal Nat.eqb x y = true /\
  set_member list_eqb x s = true /\ set_member list_eqb y s = false /\
  set_length list_eqb 5 (set_of list_eqb [x; y]) = Ok 2.
Proof.
  exists [[1; 2]], [1; 2], [2; 1]. split; [|vm_compute; auto].
  constructor; [simpl; tauto|constructor].
Qed.

Example C91_example : NoDup [3; 1] /\ set_union Nat.eqb [3; 1] [1; 2] = [3; 1; 2] /\
  set_difference Nat.eqb [3; 1] [1; 2] = [3] /\ set_less Nat.eqb [3] [1; 3] = true.
Proof. split; [repeat constructor; simpl; intuition discriminate|vm_compute; auto]. Qed.

(** ** C92: lattices of truth values and of ordered types *)

Theorem C92_boolean : is_lattice any or_lattice /\ is_lattice any and_lattice.
Proof. split; [exact or_is_lattice|exact and_is_lattice]. Qed.

Theorem C92_ordered : forall (T : Type) (eq lt le : T -> T -> bool) (P : T -> Prop) m,
  total_order eq lt le -> P m ->
  ((forall x, P x -> le m x = true) -> is_lattice P (max_lattice eq lt le m)) /\
  ((forall x, P x -> le x m = true) -> is_lattice P (min_lattice eq lt le m)).
Proof.
  intros T eq lt le P m ORD PM. split; intros H.
  - apply max_is_lattice; assumption.
  - apply min_is_lattice; assumption.
Qed.

(** Integers are ordered, and the smallest one is the bottom of all. *)
Example C92_integers : total_order Z.eqb Z.ltb Z.leb /\
  is_lattice is_int (max_lattice Z.eqb Z.ltb Z.leb (-2147483648)%Z).
Proof.
  assert (O : total_order Z.eqb Z.ltb Z.leb).
  { split; [split; [apply Z.eqb_refl|split; intros; rewrite ?Z.eqb_eq in *; congruence]|].
    repeat split; intros; rewrite ?Z.leb_le, ?Z.ltb_lt, ?Z.eqb_eq, ?Z.eqb_neq, ?Z.ltb_ge in *; lia. }
  split; [exact O|]. apply (C92_ordered Z Z.eqb Z.ltb Z.leb is_int); [exact O|unfold is_int; lia|].
  intros x H. apply Z.leb_le. unfold is_int in H. lia.
Qed.

(** ** C93: lattices of sets *)

Theorem C93_sets : forall (E : Type) (seq : E -> E -> bool), (forall x y, seq x y = true <-> x = y) ->
  is_lattice (@NoDup E) (union_lattice seq) /\
  forall universe, NoDup universe ->
    is_lattice (fun s => NoDup s /\ incl s universe) (intersection_lattice seq universe).
Proof.
  intros E seq SEQ. split; [apply union_is_lattice; assumption|].
  intros u U. apply intersection_is_lattice; assumption.
Qed.

Example C93_example : v_join (union_lattice Nat.eqb) [1; 2] [2; 3] = [1; 2; 3] /\
  v_join (intersection_lattice Nat.eqb [1; 2; 3]) [1; 2] [2; 3] = [2] /\
  v_compare_equal (intersection_lattice Nat.eqb [1; 2; 3]) [1; 2; 3] [2] = true.
Proof. vm_compute. auto 12. Qed.

(** ** C94: tuples.  If the elements form a lattice (whose equality is that of
    Scala), so do lists of them: shorter lists are smaller, join keeps the rest of
    the longer list and meet drops it.  All operations return. *)
Theorem C94_tuples : forall (E : Type) (P : E -> Prop) (L : lat E) (seq : E -> E -> bool),
  (forall x y, v_equal L x y = seq x y) -> is_lattice P L ->
  exists lt le join meet,
    (forall s t fuel, length s + 1 < fuel ->
       tuple_combine L fuel s t = Ok (join s t) /\ tuple_meet L fuel s t = Ok (meet s t) /\
       (Forall P s -> Forall P t ->
        tuple_compare_equal L seq fuel s t = Ok (le s t) /\ tuple_compare L seq fuel s t = Ok (lt s t))) /\
    (forall s t i x, nth_error (join s t) i = Some x <->
       match nth_error s i, nth_error t i with
       | Some a, Some b => x = v_join L a b
       | Some a, None => x = a
       | None, Some b => x = b
       | None, None => False
       end) /\
    lattice (Forall P) (list_eq seq) [] lt le join meet.
Proof.
  intros E P L seq EQL LAT.
  exists (tup_lt L seq), (zip_le L), (zip_join L), (zip_meet L).
  split; [|split].
  - intros s t fuel F. split; [apply combine_ok; exact F|]. split; [apply meet_ok; exact F|].
    intros PS PT. unfold tuple_compare, tuple_compare_equal. rewrite combine_ok by exact F. cbn [bind].
    rewrite (le_spec P L seq EQL LAT s t PS PT). split; reflexivity.
  - induction s as [|a s IH]; intros [|b t] [|i] x; cbn; try (split; [discriminate|tauto]);
      try (split; [intros H; injection H; auto|intros ->; reflexivity]).
    + destruct (nth_error t i); split; intros H; [injection H; auto|subst; reflexivity|discriminate|destruct H].
    + destruct (nth_error s i); split; intros H; [injection H; auto|subst; reflexivity|discriminate|destruct H].
    + apply IH.
  - apply tuple_is_lattice; assumption.
Qed.

Example C94_example : tuple_combine (max_lattice Z.eqb Z.ltb Z.leb 0%Z) 5 [3; 1]%Z [2; 5; 4]%Z = Ok [3; 5; 4]%Z /\
  tuple_meet (max_lattice Z.eqb Z.ltb Z.leb 0%Z) 5 [3; 1]%Z [2; 5; 4]%Z = Ok [2; 1]%Z /\
  tuple_compare (max_lattice Z.eqb Z.ltb Z.leb 0%Z) Z.eqb 5 [2; 1]%Z [2; 5; 4]%Z = Ok true.
Proof. vm_compute. auto 12. Qed.

(** ** C95: flat lattices *)

Theorem C95_flat_scala : forall (E : Type) (seq : E -> E -> bool), equivalence seq ->
  is_lattice any (scala_flat_lattice seq).
Proof. intros. apply flat_is_lattice. assumption. Qed.

(** Functions lifted to the lattice are monotone. *)
Theorem C95_lifted : forall (E : Type) (seq : E -> E -> bool), equivalence seq ->
  let le := v_compare_equal (scala_flat_lattice seq) in
  (forall base, (forall v w, seq v w = true -> seq (base v) (base w) = true) ->
     forall x y, le x y = true ->
       le (flat_applyf1 (fun x => x) Normal base x) (flat_applyf1 (fun x => x) Normal base y) = true) /\
  (forall base, (forall v w v' w', seq v w = true -> seq v' w' = true -> seq (base v v') (base w w') = true) ->
     forall x y x' y', le x y = true -> le x' y' = true ->
       le (flat_applyf2 (fun x => x) (flat_eq seq) Fbottom Normal base x x')
          (flat_applyf2 (fun x => x) (flat_eq seq) Fbottom Normal base y y') = true).
Proof.
  intros E seq EQV le. split; intros base B.
  - apply applyf1_monotone; assumption.
  - apply applyf2_monotone; assumption.
Qed.

(** In C++ two objects are equal if they are the same object.  Lifting a value
    twice gives two objects; for any two such objects neither is below the other,
    and their join is the top, their meet the bottom, of the lattice. *)
Theorem C95_flat_cpp_refuted : forall (E obj : Type) (con : obj -> flat E) (ptr_eq : obj -> obj -> bool) bot top,
  (forall o o', ptr_eq o o' = true <-> o = o') -> con bot = Fbottom -> con top = Ftop ->
  forall o1 o2 v, o1 <> o2 -> con o1 = Normal v -> con o2 = Normal v ->
  let L := flat_lattice con ptr_eq bot top in
  v_join L o1 o2 = top /\ v_meet L o1 o2 = bot /\
  v_compare_equal L o1 o2 = false /\ v_compare_equal L o2 o1 = false.
Proof.
  intros E obj con ptr_eq bot top PTR B T o1 o2 v NE C1 C2. cbn.
  assert (F : forall a b, a <> b -> ptr_eq a b = false).
  { intros a b H. destruct (ptr_eq a b) eqn:Q; [apply PTR in Q; congruence|reflexivity]. }
  assert (N1 : o1 <> top) by congruence. assert (N2 : o2 <> top) by congruence.
  assert (N3 : o2 <> bot) by congruence.
  unfold flat_join, flat_meet, flat_compare_equal. rewrite C1, C2.
  rewrite (F o2 bot N3), (F o2 top N2), (F o1 top N1), (F o1 o2 NE), (F o2 o1 (not_eq_sym NE)). auto.
Qed.

Example C95_example :
  v_join (scala_flat_lattice Nat.eqb) (Normal 3) (Normal 3) = Normal 3 /\
  v_join (scala_flat_lattice Nat.eqb) (Normal 3) (Normal 4) = Ftop /\
  flat_applyf2 (fun x => x) (flat_eq Nat.eqb) Fbottom Normal Nat.add Ftop Fbottom = Fbottom /\
  (exists con : nat -> flat nat, con 0 = Fbottom /\ con 1 = Ftop /\ con 2 = Normal 7 /\ con 3 = Normal 7 /\
     v_join (flat_lattice con Nat.eqb 0 1) 2 3 = 1).
Proof.
  split; [reflexivity|]. split; [reflexivity|]. split; [reflexivity|].
  exists (fun n => match n with 0 => Fbottom | 1 => Ftop | _ => Normal 7 end). vm_compute. auto.
Qed.

(** ** C96: tables.  [table_of]: entries in ascending order of keys. *)

Theorem C96_tables : forall (K V : Type) (keq klt kle : K -> K -> bool), total_order keq klt kle ->
  forall (combine : V -> V -> V) (initial : V) (t1 t2 : table (K := K) (V := V)),
  sorted klt t1 -> sorted klt t2 ->
  let get := table_get keq klt in
  (forall k, get (table_initial (V := V)) k = None) /\
  (forall k v k', get (table_entry keq klt k v) k' = if keq k' k then Some v else None) /\
  (sorted klt (table_combine keq klt combine t1 t2) /\
   forall k, get (table_combine keq klt combine t1 t2) k =
     match get t1 k, get t2 k with
     | Some a, Some b => Some (combine a b)
     | Some a, None => Some a
     | None, Some b => Some b
     | None, None => None
     end) /\
  (forall k, exists v, table_select keq klt initial t1 k = [(k, v)] /\
     v = match get t1 k with Some w => w | None => initial end).
Proof.
  intros K V keq klt kle ORD combine initial t1 t2 S1 S2 get.
  split; [reflexivity|]. split; [intros; apply (entry_get keq klt kle ORD)|]. split; [split|].
  - apply (combine_sorted keq klt kle ORD). exact S1.
  - intros k. unfold get. rewrite (combine_get keq klt kle ORD combine t2 S2 t1 k S1).
    unfold merge. destruct (table_get keq klt t1 k), (table_get keq klt t2 k); reflexivity.
  - intros k. unfold table_select, get. destruct (table_get keq klt t1 k); eexists; split; reflexivity.
Qed.

(** Tables of values from a lattice form a lattice, and selecting is monotone. *)
Theorem C96_lattice : forall (K V : Type) (keq klt kle : K -> K -> bool), total_order keq klt kle ->
  forall (P : V -> Prop) (L : lat V) (seq : V -> V -> bool),
  (forall x y, v_equal L x y = seq x y) -> is_lattice P L ->
  let T := table_lattice keq klt seq L in
  is_lattice (table_of klt P) T /\
  forall t1 t2 k, table_of klt P t1 -> table_of klt P t2 -> v_compare_equal T t1 t2 = true ->
    v_compare_equal T (table_select keq klt (v_bottom L) t1 k) (table_select keq klt (v_bottom L) t2 k) = true.
Proof.
  intros K V keq klt kle ORD P L seq EQL LAT T. split.
  - apply (table_is_lattice keq klt kle ORD P L seq EQL LAT).
  - intros t1 t2 k. apply (select_monotone keq klt kle ORD P L seq LAT).
Qed.

Example C96_example :
  let t1 := [(1%Z, [1; 2]); (4%Z, [3])] in let t2 := [(0%Z, []); (4%Z, [3; 5])] in
  let T := table_lattice Z.eqb Z.ltb list_eqb (union_lattice Nat.eqb) in
  sorted Z.ltb t1 /\ v_join T t1 t2 = [(0%Z, []); (1%Z, [1; 2]); (4%Z, [3; 5])] /\
  v_meet T t1 t2 = [(4%Z, [3])] /\ v_compare_equal T t1 t2 = false.
Proof. cbn zeta. split; [|vm_compute; auto]. simpl. intuition; subst; reflexivity. Qed.

(** ** C97: symbols *)

(** Symbols are compared by the hash codes of their names.  This is transitive,
    and total up to collisions ... *)
Theorem C97_symbols_partial :
  (forall x y, symbol_equal x y = true <-> x = y) /\
  (forall x y, symbol_less x y = true -> symbol_less y x = false /\ x <> y) /\
  (forall x y z, symbol_less_equal x y = true -> symbol_less_equal y z = true -> symbol_less_equal x z = true) /\
  (forall x y, string_hash x <> string_hash y -> symbol_less x y = true \/ symbol_less y x = true).
Proof.
  unfold symbol_less, symbol_less_equal.
  split; [exact symbol_equal_spec|]. split; [|split].
  - intros x y H. apply Z.ltb_lt in H. split; [apply Z.ltb_ge; lia|intros ->; lia].
  - intros x y z A B. apply Z.leb_le in A, B. apply Z.leb_le. lia.
  - intros x y H. rewrite !Z.ltb_lt. lia.
Qed.

(** ... but "Aa" and "BB" have the same hash code and neither is less than the
    other: symbols are not ordered.  Tables order their keys by this comparison; for
    every balanced search tree with the keys "Aa", "BB" and "C?" (one of height two,
    with the entries in this order, as inserting them in this order gives) the first
    key is not found. *)
Theorem C97_symbols_refuted :
  ~ total_order symbol_equal symbol_less symbol_less_equal /\
  exists x y z, x <> y /\
    (forall (V : Type) (a b c : V) (t : tree (list Z) V),
       tree_entries t = [(x, a); (y, b); (z, c)] -> tree_height t <= 2 ->
       tree_get (key_compare symbol_equal symbol_less) t x = None) /\
    (* the keys are inserted to the right of each other *)
    key_compare symbol_equal symbol_less y x = Gt /\
    key_compare symbol_equal symbol_less z x = Gt /\ key_compare symbol_equal symbol_less z y = Gt.
Proof.
  split.
  - intros (EQ & L & NE & TOT & _).
    destruct (TOT [65%Z; 97%Z] [66%Z; 66%Z]) as [H|[H|H]]; vm_compute in H; discriminate.
  - exists [65%Z; 97%Z], [66%Z; 66%Z], [67%Z; 63%Z]. split; [discriminate|]. split.
    + intros V a b c t E H.
      apply (small_tree _ [65%Z; 97%Z] [66%Z; 66%Z] [67%Z; 63%Z] a b c t E H); vm_compute; reflexivity.
    + vm_compute. auto.
Qed.

Example C97_example : symbol_less [97%Z] [98%Z] = true /\ string_hash [97%Z; 98%Z] = 3105%Z.
Proof. vm_compute. auto 12. Qed.
Example C97_tree : let t := TNode (TNode TLeaf [65%Z; 97%Z] 1 TLeaf) [66%Z; 66%Z] 2 (TNode TLeaf [67%Z; 63%Z] 3 TLeaf) in
  tree_entries t = [([65%Z; 97%Z], 1); ([66%Z; 66%Z], 2); ([67%Z; 63%Z], 3)] /\ tree_height t <= 2.
Proof. vm_compute. auto 12. Qed.

Print Assumptions C86_power_cpp.
Print Assumptions C86_power_negative.
Print Assumptions C86_power_partial.
Print Assumptions C86_power_refuted.
Print Assumptions C87_range_partial.
Print Assumptions C87_range_refuted.
Print Assumptions C88_lists_partial.
Print Assumptions C88_from_end_refuted.
Print Assumptions C89_strings_partial.
Print Assumptions C89_position_refuted.
Print Assumptions C90_multisets.
Print Assumptions C90_member_partial.
Print Assumptions C90_member_refuted.
Print Assumptions C91_sets.
Print Assumptions C91_element_equality_refuted.
Print Assumptions C92_boolean.
Print Assumptions C92_ordered.
Print Assumptions C93_sets.
Print Assumptions C94_tuples.
Print Assumptions C95_flat_scala.
Print Assumptions C95_lifted.
Print Assumptions C95_flat_cpp_refuted.
Print Assumptions C96_tables.
Print Assumptions C96_lattice.
Print Assumptions C97_symbols_partial.
Print Assumptions C97_symbols_refuted.
