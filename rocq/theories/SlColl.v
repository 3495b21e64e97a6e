(** * SlColl: lists, strings, multisets and sets of the Scala library (proofs for
    C88-C91). *)
From Verif Require Import Base SlSpec SlModel SlNum.
From Coq Require Import ZArith Lia.
Open Scope Z_scope.

(** ** Values *)

Fixpoint val_size (v : val) : nat :=
  match v with
  | VAtom _ => 1%nat
  | VList l => S ((fix go (l : list val) : nat := match l with [] => 0%nat | x :: r => (val_size x + go r)%nat end) l)
  end.
Definition vals_size (l : list val) : nat := fold_right (fun x n => (val_size x + n)%nat) 0%nat l.
Lemma val_size_list l : val_size (VList l) = S (vals_size l).
Proof. simpl. f_equal. Qed.
Lemma vals_size_in x l : In x l -> (val_size x <= vals_size l)%nat.
Proof.
  induction l as [|y l IH]; simpl; [tauto|]. intros [->|H]; [lia|]. specialize (IH H). lia.
Qed.
Lemma val_size_pos v : (0 < val_size v)%nat.
Proof. destruct v; simpl; lia. Qed.

Lemma val_eq_list l m : val_eq (VList l) (VList m) =
  (fix go (l m : list val) : bool :=
         match l, m with
         | [], [] => true
         | x :: l', y :: m' => val_eq x y && go l' m'
         | _, _ => false
         end) l m.
Proof. reflexivity. Qed.

Lemma val_eq_spec : forall n v w, (val_size v < n)%nat -> val_eq v w = true <-> v = w.
Proof.
  induction n as [|n IH]; intros v w B; [lia|].
  destruct v as [a|l], w as [b|m]; try (simpl; split; discriminate).
  - simpl. rewrite Z.eqb_eq. split; [intros -> ; reflexivity|intros E; injection E; auto].
  - rewrite val_eq_list. rewrite val_size_list in B.
    enough (G : (fix go (l m : list val) : bool :=
         match l, m with
         | [], [] => true
         | x :: l', y :: m' => val_eq x y && go l' m'
         | _, _ => false
         end) l m = true <-> l = m).
    { rewrite G. split; [intros ->; reflexivity|intros E; injection E; auto]. }
    assert (B' : (vals_size l < n)%nat) by lia. clear B. revert m B'.
    induction l as [|x l IHl]; intros [|y m] B; try (split; discriminate); [split; reflexivity|].
    simpl in B. rewrite andb_true_iff. rewrite IHl by lia. rewrite IH by lia.
    split; [intros (-> & ->); reflexivity|intros E; injection E; auto].
Qed.
Lemma val_eq_iff v w : val_eq v w = true <-> v = w.
Proof. apply (val_eq_spec (S (val_size v))). lia. Qed.
Lemma val_eq_refl v : val_eq v v = true.
Proof. apply val_eq_iff. reflexivity. Qed.
Lemma not_in_itself l : ~ In (VList l) l.
Proof. intros H. apply vals_size_in in H. rewrite val_size_list in H. lia. Qed.

(** ** Positions *)

Lemma index_from_none {E} (test : E -> bool) l : forall i,
  (forall x, In x l -> test x = false) -> index_from test i l = -1.
Proof.
  induction l as [|x l IH]; intros i H; [reflexivity|]. simpl.
  rewrite (H x (or_introl eq_refl)). apply IH. intros y Hy. apply H. right; exact Hy.
Qed.
Lemma index_from_spec {E} (test : E -> bool) l : forall i, 0 <= i ->
  (index_from test i l = -1 /\ forall x, In x l -> test x = false) \/
  (exists a x b, l = a ++ x :: b /\ test x = true /\ (forall y, In y a -> test y = false) /\
     index_from test i l = i + Z.of_nat (length a)).
Proof.
  induction l as [|x l IH]; intros i P; simpl.
  - left. split; [reflexivity|tauto].
  - destruct (test x) eqn:T.
    + right. exists [], x, l. simpl. repeat split; try tauto; lia.
    + destruct (IH (i + 1) ltac:(lia)) as [(E1 & N)|(a & y & b & -> & Ty & N & E1)].
      * left. split; [exact E1|]. intros y [<-|Hy]; auto.
      * right. exists (x :: a), y, b. split; [reflexivity|]. split; [exact Ty|]. split.
        -- intros z [<-|Hz]; auto.
        -- rewrite E1. simpl length. lia.
Qed.

Lemma position_from_end_never x l : list_position_from_end x l = -1.
Proof.
  unfold list_position_from_end, index_where. apply index_from_none.
  intros y Hy. apply in_rev in Hy. destruct (val_eq (VList l) y) eqn:E; [|reflexivity].
  apply val_eq_iff in E. subst y. destruct (not_in_itself l Hy).
Qed.

(** ** Ranges of elements *)

Lemma skipn_skipn_sum {E} (l : list E) a : forall b, skipn a (skipn b l) = skipn (b + a) l.
Proof.
  induction l as [|x l IH]; intros [|b]; simpl; try reflexivity.
  - apply skipn_nil.
  - apply IH.
Qed.
Lemma slice_split {E} (l : list E) s f : 0 <= s <= f -> f <= Z.of_nat (length l) ->
  exists a b c, l = a ++ b ++ c /\ Z.of_nat (length a) = s /\ Z.of_nat (length b) = f - s /\
    s_slice s f l = b /\ s_slice 0 s l = a /\ s_drop f l = c.
Proof.
  intros A B. exists (firstn (Z.to_nat s) l), (firstn (Z.to_nat f - Z.to_nat s) (skipn (Z.to_nat s) l)),
    (skipn (Z.to_nat f) l).
  split.
  { rewrite <- (firstn_skipn (Z.to_nat s) l) at 1. f_equal.
    rewrite <- (firstn_skipn (Z.to_nat f - Z.to_nat s) (skipn (Z.to_nat s) l)) at 1. f_equal.
    rewrite skipn_skipn_sum. f_equal. lia. }
  split; [rewrite firstn_length; lia|].
  split; [rewrite firstn_length, skipn_length; lia|].
  split; [reflexivity|]. split; [|reflexivity].
  unfold s_slice. simpl. rewrite Nat.sub_0_r. reflexivity.
Qed.

(** ** Strings *)

Lemma prefix_refl s : prefix_of s s = true.
Proof. induction s as [|a s IH]; [reflexivity|]. simpl. rewrite Z.eqb_refl, IH. reflexivity. Qed.
Lemma prefix_length p s : prefix_of p s = true -> (length p <= length s)%nat.
Proof.
  revert s. induction p as [|a p IH]; intros [|b s]; simpl; try lia; try discriminate.
  rewrite andb_true_iff. intros (_ & H). specialize (IH s H). lia.
Qed.
Lemma prefix_same p s : length p = length s -> prefix_of p s = true -> p = s.
Proof.
  revert s. induction p as [|a p IH]; intros [|b s]; simpl; try discriminate; [reflexivity|].
  intros L H. apply andb_true_iff in H. destruct H as (A & B). apply Z.eqb_eq in A. subst.
  f_equal. apply IH; [lia|exact B].
Qed.
Lemma index_short : forall s i p, (length s < length p)%nat -> index_of_string i p s = -1.
Proof.
  induction s as [|b s IH]; intros i p L.
  - simpl. destruct (prefix_of p []) eqn:P; [|reflexivity].
    apply prefix_length in P. simpl in *. lia.
  - cbn [index_of_string]. destruct (prefix_of p (b :: s)) eqn:P.
    + apply prefix_length in P. lia.
    + apply IH. simpl in L. lia.
Qed.
Lemma string_position_zero c s : string_position c s = 0.
Proof. unfold string_position. destruct s; [reflexivity|]. cbn [index_of_string]. rewrite prefix_refl. reflexivity. Qed.
Lemma string_position_end c s :
  string_position_from_end c s = if prefix_of s (rev s) then 0 else -1.
Proof.
  unfold string_position_from_end.
  assert (L : length (rev s) = length s) by apply rev_length.
  destruct (prefix_of s (rev s)) eqn:P.
  - destruct (rev s) eqn:R; cbn [index_of_string]; rewrite P; reflexivity.
  - destruct (rev s) as [|b r] eqn:R; cbn [index_of_string]; rewrite P; [reflexivity|].
    apply index_short. simpl in L. lia.
Qed.
Lemma string_palindrome s : prefix_of s (rev s) = true <-> s = rev s.
Proof.
  split; intros H.
  - apply prefix_same; [symmetry; apply rev_length|exact H].
  - rewrite <- H. apply prefix_refl.
Qed.

Lemma at_index_rev {E} (i : Z) (l : list E) : is_int i -> Z.of_nat (length l) <= 2147483647 ->
  at_index (i_minus (i_minus (Z.of_nat (length l)) 1) i) l = at_index i (rev l).
Proof.
  intros I L. unfold i_minus. unfold is_int in I.
  assert (W : wrap (Z.of_nat (length l) - 1) = Z.of_nat (length l) - 1) by (apply wrap_id; unfold is_int; lia).
  rewrite W.
  unfold at_index at 2. destruct (Z.ltb_spec i 0) as [N|N].
  - unfold at_index.
    destruct (Z_lt_le_dec (Z.of_nat (length l) - 1 - i) 2147483648) as [C|C].
    + rewrite wrap_id by (unfold is_int; lia).
      destruct (Z.ltb_spec (Z.of_nat (length l) - 1 - i) 0); [lia|].
      assert (NN : nth_error l (Z.to_nat (Z.of_nat (length l) - 1 - i)) = None) by (apply nth_error_None; lia).
      rewrite NN. reflexivity.
    + rewrite wrap_high by lia.
      destruct (Z.ltb_spec (Z.of_nat (length l) - 1 - i - 4294967296) 0); [reflexivity|lia].
  - rewrite wrap_id by (unfold is_int; lia).
    unfold at_index.
    destruct (Z_lt_le_dec i (Z.of_nat (length l))) as [C|C].
    + destruct (Z.ltb_spec (Z.of_nat (length l) - 1 - i) 0); [lia|].
      assert (HR : nth_error (rev l) (Z.to_nat i) = nth_error l (Z.to_nat (Z.of_nat (length l) - 1 - i))).
      { destruct (nth_error l (Z.to_nat (Z.of_nat (length l) - 1 - i))) as [d|] eqn:D.
        - rewrite (nth_error_nth' _ d) by (rewrite rev_length; lia).
          rewrite rev_nth by lia. f_equal.
          apply nth_error_nth with (d := d) in D. etransitivity; [|exact D]. f_equal. lia.
        - apply nth_error_None in D. lia. }
      rewrite HR. reflexivity.
    + destruct (Z.ltb_spec (Z.of_nat (length l) - 1 - i) 0); [|lia].
      assert (NN : nth_error (rev l) (Z.to_nat i) = None) by (apply nth_error_None; rewrite rev_length; lia).
      rewrite NN. reflexivity.
Qed.

Lemma symbol_equal_spec x y : symbol_equal x y = true <-> x = y.
Proof.
  revert y. induction x as [|a x IH]; intros [|b y]; simpl; try (split; discriminate); [split; reflexivity|].
  rewrite andb_true_iff, Z.eqb_eq, IH. split; [intros (-> & ->); reflexivity|intros E; injection E; auto].
Qed.

Lemma compare_anti x y : compare_to y x = - compare_to x y.
Proof.
  revert y. induction x as [|a x IH]; intros [|b y]; cbn [compare_to]; try lia.
  destruct (Z.eqb_spec a b) as [E|E]; [subst b; rewrite Z.eqb_refl; apply IH|].
  destruct (Z.eqb_spec b a); lia.
Qed.
Lemma compare_zero x y : compare_to x y = 0 <-> x = y.
Proof.
  revert y. induction x as [|a x IH]; intros [|b y]; cbn [compare_to length].
  - split; reflexivity.
  - split; [lia|discriminate].
  - split; [lia|discriminate].
  - destruct (Z.eqb_spec a b) as [E|E].
    + rewrite IH. subst b. split; [intros ->; reflexivity|intros H; injection H; auto].
    + split; [lia|]. intros H; injection H; lia.
Qed.
Lemma compare_trans x y z : compare_to x y <= 0 -> compare_to y z <= 0 -> compare_to x z <= 0.
Proof.
  revert y z. induction x as [|a x IH]; intros [|b y] [|c z]; cbn [compare_to length]; try lia.
  destruct (Z.eqb_spec a b), (Z.eqb_spec b c), (Z.eqb_spec a c); try lia. apply IH.
Qed.
Lemma string_order : total_order symbol_equal string_less string_less_equal.
Proof.
  assert (LT : forall x y, string_less x y = true <-> compare_to x y < 0) by (intros; apply Z.ltb_lt).
  assert (LE : forall x y, string_less_equal x y = true <-> compare_to x y <= 0) by (intros; apply Z.leb_le).
  split; [|split; [|split; [|split; [|split]]]].
  - split; [intros x; apply symbol_equal_spec; reflexivity|]. split.
    + intros x y H. apply symbol_equal_spec in H. apply symbol_equal_spec. auto.
    + intros x y z A B. apply symbol_equal_spec in A, B. apply symbol_equal_spec. congruence.
  - intros x y. rewrite LT, LE, symbol_equal_spec, <- compare_zero. lia.
  - intros x y H. destruct (symbol_equal x y) eqn:E; [|reflexivity].
    apply symbol_equal_spec, compare_zero in E. apply LT in H. lia.
  - intros x y. rewrite !LT, symbol_equal_spec, <- compare_zero, (compare_anti x y). lia.
  - intros x y H. apply LT in H. destruct (string_less y x) eqn:E; [|reflexivity].
    apply LT in E. rewrite (compare_anti x y) in E. lia.
  - intros x y z A B. apply LE in A, B. apply LE. apply compare_trans with y; assumption.
Qed.
Close Scope Z_scope.

(** ** Multisets *)
Section MULTISET.
Context {E : Type} (veq : E -> E -> bool) (EQV : equivalence veq).
Notation count := (ms_count veq).

Lemma count_cong x y l : veq x y = true -> count x l = count y l.
Proof.
  destruct EQV as (R & S & T). intros H.
  induction l as [|z l IH]; [reflexivity|]. simpl. rewrite IH. f_equal.
  destruct (veq x z) eqn:A, (veq y z) eqn:B; try reflexivity; exfalso.
  - rewrite (T y x z) in B; [discriminate|apply S; exact H|exact A].
  - rewrite (T x y z) in A; [discriminate|exact H|exact B].
Qed.
Lemma count_app x l m : count x (l ++ m) = count x l + count x m.
Proof. induction l as [|y l IH]; simpl; [reflexivity|]. rewrite IH. lia. Qed.

Lemma count_union x l m : count x (ms_union veq l m) = Nat.max (count x l) (count x m).
Proof.
  induction l as [|y l IH]; [reflexivity|]. cbn [ms_union].
  destruct (veq x y) eqn:A.
  - rewrite <- (count_cong x y l A), <- (count_cong x y m A).
    destruct (Nat.leb_spec (count x m) (count x l)); simpl; rewrite A, IH; lia.
  - destruct (count y m <=? count y l); simpl; rewrite A, ?IH; lia.
Qed.
Lemma count_intersect x l m : count x (ms_intersect veq l m) = Nat.min (count x l) (count x m).
Proof.
  induction l as [|y l IH]; [reflexivity|]. cbn [ms_intersect].
  destruct (veq x y) eqn:A.
  - rewrite <- (count_cong x y l A), <- (count_cong x y m A).
    destruct (Nat.ltb_spec (count x l) (count x m)); simpl; rewrite A, IH; lia.
  - destruct (count y l <? count y m); simpl; rewrite A, ?IH; lia.
Qed.
Lemma count_difference x l m : count x (ms_difference veq l m) = count x l - count x m.
Proof.
  induction l as [|y l IH]; [reflexivity|]. cbn [ms_difference].
  destruct (veq x y) eqn:A.
  - rewrite <- (count_cong x y l A), <- (count_cong x y m A).
    destruct (Nat.leb_spec (count x m) (count x l)); simpl; rewrite A, IH; lia.
  - destruct (count y m <=? count y l); simpl; rewrite A, ?IH; lia.
Qed.
Lemma count_zero x l : count x l = 0 <-> forall y, In y l -> veq x y = false.
Proof.
  induction l as [|y l IH]; simpl; [split; [tauto|reflexivity]|].
  destruct (veq x y) eqn:A.
  - split; [lia|]. intros H. rewrite (H y (or_introl eq_refl)) in A. discriminate.
  - simpl. rewrite IH. split; [intros H z [<-|Hz]; auto|intros H z Hz; apply H; auto].
Qed.
Lemma less_equal_spec l m : ms_less_equal veq l m = true <-> forall x, count x l <= count x m.
Proof.
  destruct EQV as (R & S & T).
  enough (G : ms_less_equal veq l m = true <-> forall x, 0 < count x l -> count x l <= count x m).
  { rewrite G. split; [intros H x|intros H x _; apply H].
    destruct (Nat.eq_dec (count x l) 0); [lia|]. apply H. lia. }
  induction l as [|y l IH]; [simpl; split; [intros _ x; lia|reflexivity]|].
  cbn [ms_less_equal]. rewrite andb_true_iff, IH, Nat.leb_le.
  split.
  - intros (A & B) x P. destruct (veq x y) eqn:V.
    + rewrite (count_cong x y _ V), (count_cong x y _ V). exact A.
    + cbn [ms_count] in *. rewrite V in *. simpl in *. apply B. exact P.
  - intros H. split.
    + apply H. cbn [ms_count]. rewrite R. lia.
    + intros x P. destruct (veq x y) eqn:V.
      * specialize (H x). cbn [ms_count] in H. rewrite V in H. lia.
      * specialize (H x). cbn [ms_count] in H. rewrite V in H. simpl in H. apply H. exact P.
Qed.
Lemma ms_equal_spec l m : ms_equal veq l m = true <-> forall x, count x l = count x m.
Proof.
  unfold ms_equal. rewrite andb_true_iff, !less_equal_spec.
  split; [intros (A & B) x; specialize (A x); specialize (B x); lia|intros H; split; intros x; rewrite H; lia].
Qed.
Lemma ms_less_spec l m : ms_less veq l m = true <->
  (forall x, count x l <= count x m) /\ ms_equal veq l m = false.
Proof.
  unfold ms_less, ms_equal. rewrite andb_true_iff, negb_true_iff, <- less_equal_spec.
  destruct (ms_less_equal veq l m), (ms_less_equal veq m l); simpl; intuition discriminate.
Qed.
End MULTISET.

(** ** Sets *)
Section SET.
Context {E : Type} (seq : E -> E -> bool) (SEQ : forall x y, seq x y = true <-> x = y).

Lemma member_in e s : set_member seq e s = true <-> In e s.
Proof.
  unfold set_member. rewrite existsb_exists. split.
  - intros (x & H & A). apply SEQ in A. subst. exact H.
  - intros H. exists e. split; [exact H|]. apply SEQ. reflexivity.
Qed.
Lemma member_false e s : set_member seq e s = false <-> ~ In e s.
Proof. rewrite <- member_in. destruct (set_member seq e s); split; intros; try discriminate; congruence. Qed.
Lemma add_in s e x : In x (set_add seq s e) <-> In x s \/ x = e.
Proof.
  unfold set_add. destruct (set_member seq e s) eqn:M.
  - apply member_in in M. split; [tauto|]. intros [H| ->]; assumption.
  - rewrite in_app_iff. simpl. intuition congruence.
Qed.
Lemma add_nodup s e : NoDup s -> NoDup (set_add seq s e).
Proof.
  intros N. unfold set_add. destruct (set_member seq e s) eqn:M; [exact N|].
  apply member_false in M. rewrite <- (rev_involutive (s ++ [e])). apply NoDup_rev.
  rewrite rev_app_distr. simpl. constructor; [rewrite <- in_rev; exact M|apply NoDup_rev; exact N].
Qed.
Lemma union_in t : forall s x, In x (set_union seq s t) <-> In x s \/ In x t.
Proof.
  unfold set_union. induction t as [|e t IH]; intros s x; simpl; [tauto|].
  rewrite IH, add_in. intuition.
Qed.
Lemma union_nodup t : forall s, NoDup s -> NoDup (set_union seq s t).
Proof. unfold set_union. induction t as [|e t IH]; intros s N; simpl; [exact N|]. apply IH, add_nodup, N. Qed.
Lemma intersect_in s t x : In x (set_intersect seq s t) <-> In x s /\ In x t.
Proof. unfold set_intersect. rewrite filter_In, member_in. tauto. Qed.
Lemma difference_in s t x : In x (set_difference seq s t) <-> In x s /\ ~ In x t.
Proof. unfold set_difference. rewrite filter_In, negb_true_iff, member_false. tauto. Qed.
Lemma filter_nodup (f : E -> bool) s : NoDup s -> NoDup (filter f s).
Proof. apply NoDup_filter. Qed.
Lemma subset_spec s t : set_less_equal seq s t = true <-> incl s t.
Proof.
  unfold set_less_equal. rewrite forallb_forall. split; intros H x Hx; apply member_in; apply H; exact Hx.
Qed.
Lemma set_equal_spec s t : NoDup s -> NoDup t -> set_equal seq s t = true <-> (forall x, In x s <-> In x t).
Proof.
  intros NS NT. unfold set_equal. rewrite andb_true_iff, Nat.eqb_eq, subset_spec. split.
  - intros (L & I) x. split; [apply I|].
    assert (I2 : incl t s) by (apply NoDup_length_incl; [exact NS|lia|exact I]). apply I2.
  - intros H. assert (I1 : incl s t) by (intros x; apply H). assert (I2 : incl t s) by (intros x; apply H).
    split; [|exact I1].
    pose proof (NoDup_incl_length NS I1). pose proof (NoDup_incl_length NT I2). lia.
Qed.
Lemma remove_first x s : NoDup (x :: s) -> filter (fun e => negb (seq x e)) (x :: s) = s.
Proof.
  intros N. simpl. assert (R : seq x x = true) by (apply SEQ; reflexivity). rewrite R. simpl.
  inversion N as [|a b NI ND]; subst. clear N R.
  induction s as [|y s IH]; [reflexivity|]. simpl.
  destruct (seq x y) eqn:A.
  - apply SEQ in A. subst y. destruct NI. left; reflexivity.
  - simpl. f_equal. apply IH; [|inversion ND; assumption]. intros H. apply NI. right; exact H.
Qed.
Lemma match_total s : NoDup s ->
  match set_match seq s with
  | IsNone => s = []
  | IsSingle e => s = [e]
  | IsAppend a b => exists x, a = [x] /\ s = x :: b /\ b <> []
  | NoMatch => False
  end.
Proof.
  intros N. unfold set_match. destruct s as [|x [|y s]]; [reflexivity|reflexivity|].
  cbn [length Nat.eqb]. change (1 <? S (S (length s))) with true. cbn iota.
  rewrite remove_first by exact N. exists x. repeat split. discriminate.
Qed.
Lemma length_ok : forall s fuel, NoDup s -> length s < fuel -> 1 < fuel -> set_length seq fuel s = Ok (length s).
Proof.
  induction s as [|x s IH]; intros fuel N F G.
  - destruct fuel; [lia|]. reflexivity.
  - destruct fuel as [|fuel]; [lia|].
    pose proof (match_total (x :: s) N) as M. cbn [set_length].
    destruct (set_match seq (x :: s)) as [|e|a b|] eqn:V.
    + discriminate M.
    + injection M as -> ->. reflexivity.
    + destruct M as (z & -> & E1 & NB). injection E1 as -> ->.
      destruct b as [|w b]; [congruence|]. simpl length in F.
      destruct fuel as [|fuel]; [lia|].
      assert (S1 : set_length seq (S fuel) [z] = Ok 1) by reflexivity.
      rewrite S1. cbn [bind]. rewrite IH; [reflexivity|inversion N; assumption|simpl; lia|lia].
    + destruct M.
Qed.
End SET.
