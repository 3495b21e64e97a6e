(** * Proofs about hash-consed sets and the two hash functions *)
From Coq Require Import Permutation Sorted SetoidList.
From Verif Require Import Base PrimeModel PrimeSpec PrimeProofs HashTableModel HashConsModel HashConsSpec HashConsProofs.
Open Scope Z_scope.

Lemma set_equal_eq a b : set_equal a b = true <-> a = b.
Proof.
  unfold set_equal. split.
  - intros H. apply andb_true_iff in H. destruct H as [H1 H2]. apply Nat.eqb_eq in H1.
    revert b H1 H2. induction a as [|x a IH]; intros [|y b]; simpl; try discriminate; auto.
    intros H1 H2. apply andb_true_iff in H2. destruct H2 as [H2 H3]. apply Z.eqb_eq in H2. f_equal; auto.
  - intros ->. rewrite Nat.eqb_refl. simpl. induction b; simpl; auto. rewrite Z.eqb_refl. auto.
Qed.

Lemma set_good : hc_good set_hash set_equal.
Proof.
  constructor; intros.
  - now apply set_equal_eq.
  - apply set_equal_eq in H. apply set_equal_eq. auto.
  - apply set_equal_eq in H, H0. apply set_equal_eq. congruence.
  - apply set_equal_eq in H. now subst.
Qed.

(** ** Insertion sort *)
Lemma insert_rev_perm k l : Permutation (insert_rev k l) (k :: l).
Proof.
  induction l as [|x l IH]; simpl; auto. destruct (_ <? _); auto.
  rewrite IH. apply perm_swap.
Qed.

Definition lge (x y : Z) : Prop := to_long y <= to_long x.

Lemma insert_rev_sorted k l : Sorted lge l -> Sorted lge (insert_rev k l).
Proof.
  induction l as [|x l IH]; intros H; simpl; [auto|].
  apply Sorted_inv in H. destruct H as [H1 H2].
  destruct (Z.ltb_spec (to_long k) (to_long x)) as [Hlt|Hge].
  - constructor; auto. destruct l as [|y l]; simpl; [constructor; unfold lge; lia|].
    destruct (_ <? _); constructor; [|unfold lge; lia]. now inversion H2.
  - constructor; [constructor; auto|]. constructor. unfold lge. lia.
Qed.

Lemma fold_insert_perm l : forall acc, Permutation (fold_left (fun p x => insert_rev x p) l acc) (l ++ acc).
Proof.
  induction l as [|x l IH]; intros acc; simpl; auto.
  rewrite IH, insert_rev_perm. symmetry. apply Permutation_middle.
Qed.
Lemma fold_insert_sorted l : forall acc, Sorted lge acc -> Sorted lge (fold_left (fun p x => insert_rev x p) l acc).
Proof. induction l as [|x l IH]; intros acc H; simpl; auto. apply IH, insert_rev_sorted, H. Qed.

Lemma sort_perm l : Permutation (sort_elements l) l.
Proof.
  unfold sort_elements. rewrite <- Permutation_rev, fold_insert_perm, app_nil_r. auto.
Qed.

Definition lle (x y : Z) : Prop := to_long x <= to_long y.
Lemma StronglySorted_app_one l x : StronglySorted lle l -> Forall (fun y => lle y x) l -> StronglySorted lle (l ++ [x]).
Proof.
  induction 1 as [|a l Hs IH Hf]; intros HF; simpl; [repeat constructor|].
  inversion HF; subst. constructor; auto. apply Forall_app. auto.
Qed.
Lemma lge_strong l : Sorted lge l -> StronglySorted lge l.
Proof. apply Sorted_StronglySorted. intros x y z. unfold lge. lia. Qed.
Lemma rev_sorted l : StronglySorted lge l -> StronglySorted lle (rev l).
Proof.
  induction 1 as [|a l Hs IH Hf]; simpl; [constructor|].
  apply StronglySorted_app_one; auto. apply Forall_forall. intros y Hy. apply in_rev in Hy.
  rewrite Forall_forall in Hf. apply Hf; auto.
Qed.
Lemma sort_sorted l : StronglySorted lle (sort_elements l).
Proof. apply rev_sorted, lge_strong, fold_insert_sorted. constructor. Qed.

Lemma to_long_inj x y : 0 <= x < 2 ^ 64 -> 0 <= y < 2 ^ 64 -> to_long x = to_long y -> x = y.
Proof.
  unfold to_long, LONG_MAX. change (2 ^ 64) with 18446744073709551616.
  destruct (Z.leb_spec x 9223372036854775807), (Z.leb_spec y 9223372036854775807); lia.
Qed.
Lemma to_long_small x : 0 <= x < 2 ^ 63 -> to_long x = x.
Proof.
  unfold to_long, LONG_MAX. change (2 ^ 63) with 9223372036854775808.
  destruct (Z.leb_spec x 9223372036854775807); lia.
Qed.

(** Two sorted permutations of addresses are the same list. *)
Lemma sorted_perm_eq a : forall b, Forall (fun x => 0 <= x < 2 ^ 64) a ->
  StronglySorted lle a -> StronglySorted lle b -> Permutation a b -> a = b.
Proof.
  induction a as [|x a IH]; intros b Hr Ha Hb Hp.
  - apply Permutation_nil in Hp. auto.
  - destruct b as [|y b]; [apply Permutation_sym, Permutation_nil in Hp; discriminate|].
    inversion Ha as [|? ? Ha1 Ha2]; subst. inversion Hb as [|? ? Hb1 Hb2]; subst.
    rewrite Forall_forall in Ha2, Hb2.
    assert (Hrb : Forall (fun x => 0 <= x < 2 ^ 64) (y :: b)).
    { rewrite Forall_forall in *. intros z Hz. apply Hr. eapply Permutation_in; [|exact Hz]. now apply Permutation_sym. }
    inversion Hr as [|? ? Hr1 Hr2]; subst. inversion Hrb as [|? ? Hy1 Hy2]; subst.
    assert (x = y) as ->.
    { assert (Hx : In x (y :: b)) by (eapply Permutation_in; [exact Hp|left; auto]).
      assert (Hy : In y (x :: a)) by (eapply Permutation_in; [apply Permutation_sym, Hp|left; auto]).
      destruct Hx as [->|Hx]; auto. destruct Hy as [->|Hy]; auto.
      specialize (Ha2 y Hy). specialize (Hb2 x Hx). unfold lle in *. apply to_long_inj; auto. lia. }
    f_equal. apply IH; auto. eapply Permutation_cons_inv; eauto.
Qed.

Theorem sort_canonical a b : Forall (fun x => 0 <= x < 2 ^ 64) a ->
  (sort_elements a = sort_elements b <-> Permutation a b).
Proof.
  intros Hr. split.
  - intros E. rewrite <- (sort_perm a), <- (sort_perm b), E. auto.
  - intros Hp. apply sorted_perm_eq; auto using sort_sorted.
    + rewrite Forall_forall in *. intros x Hx. apply Hr. eapply Permutation_in; [apply sort_perm|auto].
    + rewrite !sort_perm. auto.
Qed.

(** ** Merge *)
Definition strict (l : list Z) : Prop := StronglySorted Z.lt l.

Lemma strict_cons x l : strict (x :: l) <-> strict l /\ forall y, In y l -> x < y.
Proof.
  unfold strict. split.
  - intros H. apply StronglySorted_inv in H. rewrite Forall_forall in H. auto.
  - intros [H1 H2]. constructor; auto. now apply Forall_forall.
Qed.

Lemma merge_spec fuel : forall a b, (length a + length b < fuel)%nat -> strict a -> strict b ->
  exists r d, merge fuel a b = Ok (r, d) /\ strict r /\ same_members r (a ++ b) /\
              (length r + d = length a + length b)%nat.
Proof.
  induction fuel as [|fuel IH]; intros a b Hf Ha Hb; [lia|]. cbn [merge].
  destruct a as [|x a].
  { exists b, 0%nat. simpl. ands; auto. intros z; tauto. }
  destruct b as [|y b].
  { exists (x :: a), 0%nat. simpl. rewrite !app_nil_r. ands; auto; try lia. intros z; tauto. }
  pose proof Ha as Ha'. pose proof Hb as Hb'.
  apply strict_cons in Ha'. destruct Ha' as [Ha1 Ha2]. apply strict_cons in Hb'. destruct Hb' as [Hb1 Hb2].
  simpl in Hf. destruct (Z.eqb_spec x y) as [<-|Hne]; [|destruct (Z.ltb_spec x y) as [Hlt|Hge]].
  - destruct (IH a b) as (r & d & E & S1 & M1 & L1); auto; [lia|]. rewrite E; cbn [bind].
    exists (x :: r), (S d). ands; auto.
    + apply strict_cons. split; auto. intros z Hz. apply M1 in Hz. apply in_app_or in Hz. destruct Hz; auto.
    + intros z. simpl. rewrite (M1 z), !in_app_iff. simpl. tauto.
    + simpl. lia.
  - destruct (IH a (y :: b)) as (r & d & E & S1 & M1 & L1); auto; [simpl; lia|]. rewrite E; cbn [bind].
    exists (x :: r), d. ands; auto.
    + apply strict_cons. split; auto. intros z Hz. apply M1 in Hz. apply in_app_or in Hz.
      destruct Hz as [|[<-|Hz]]; auto. specialize (Hb2 z Hz). lia.
    + intros z. simpl. rewrite (M1 z). simpl. tauto.
    + simpl in *. lia.
  - destruct (IH (x :: a) b) as (r & d & E & S1 & M1 & L1); auto; [simpl; lia|]. rewrite E; cbn [bind].
    exists (y :: r), d. ands; auto.
    + apply strict_cons. split; auto. intros z Hz. apply M1 in Hz. apply in_app_or in Hz.
      destruct Hz as [[<-|Hz]|]; auto; try lia. specialize (Ha2 z Hz). lia.
    + intros z. simpl. rewrite (M1 z), !in_app_iff. simpl. tauto.
    + simpl in *. lia.
Qed.

Lemma strict_ext a : forall b, strict a -> strict b -> same_members a b -> a = b.
Proof.
  induction a as [|x a IH]; intros [|y b] Ha Hb Hm; auto.
  - exfalso. apply (Hm y). left; auto.
  - exfalso. apply (Hm x). left; auto.
  - apply strict_cons in Ha, Hb. destruct Ha as [Ha1 Ha2], Hb as [Hb1 Hb2].
    assert (x = y) as ->.
    { assert (Hx : In x (y :: b)) by (apply Hm; left; auto). assert (Hy : In y (x :: a)) by (apply Hm; left; auto).
      destruct Hx as [|Hx]; auto. destruct Hy as [|Hy]; auto. specialize (Ha2 y Hy). specialize (Hb2 x Hx). lia. }
    f_equal. apply IH; auto. intros z. specialize (Hm z). simpl in Hm. split; intros Hz.
    + destruct Hm as [Hm _]. destruct Hm as [<-|]; auto. specialize (Ha2 y Hz). lia.
    + destruct Hm as [_ Hm]. destruct Hm as [<-|]; auto. specialize (Hb2 y Hz). lia.
Qed.

Lemma sort_strict l : NoDup l -> Forall (fun x => 0 <= x < 2 ^ 63) l -> strict (sort_elements l).
Proof.
  intros Hnd Hr.
  assert (Hnd' : NoDup (sort_elements l)) by (eapply Permutation_NoDup; [apply Permutation_sym, sort_perm|auto]).
  assert (Hr' : Forall (fun x => 0 <= x < 2 ^ 63) (sort_elements l)).
  { rewrite Forall_forall in *. intros x Hx. apply Hr. eapply Permutation_in; [apply sort_perm|auto]. }
  pose proof (sort_sorted l) as Hs. induction (sort_elements l) as [|x s IH]; [constructor|].
  inversion Hnd'; subst. inversion Hr'; subst. inversion Hs as [|? ? Hs1 Hs2]; subst.
  apply strict_cons. split; [apply IH; auto|]. intros y Hy. rewrite Forall_forall in Hs2, H4.
  specialize (Hs2 y Hy). specialize (H4 y Hy). unfold lle in Hs2. rewrite !to_long_small in Hs2 by auto.
  assert (x <> y) by congruence. lia.
Qed.

(** ** Programs over sets *)
Definition sdenotes (o : list (list Z)) (p : nat) (d : list Z) : Prop :=
  exists q s, p = S q /\ nth_error o q = Some s /\ strict s /\ same_members s d.

Lemma sdenotes_ext o o' p d : extends o o' -> sdenotes o p d -> sdenotes o' p d.
Proof. intros He (q & s & H1 & H2 & H3 & H4). exists q, s. ands; auto. eapply extends_nth; eauto. Qed.

Lemma set_get_ok st h s d : st_ok st -> hstate set_hash set_equal h -> hsize h < 249999999 ->
  strict s -> same_members s d ->
  exists st' h' p, set_get st h s = Ok (st', h', p) /\ st_ok st' /\ hstate set_hash set_equal h' /\
    extends (objs h) (objs h') /\ hsize h' <= hsize h + 1 /\ sdenotes (objs h') p d.
Proof.
  intros Hst Hs Hlim Hss Hm.
  destruct (get_ok set_hash set_equal set_good st h s Hst Hs Hlim) as (st' & h' & p & E & H1 & H2 & H3).
  destruct (get_spec_ext set_hash set_equal set_good _ _ _ _ H3) as (X1 & (q & y & X2 & X3 & X4) & X5).
  exists st', h', p. ands; auto. { right; auto. }
  exists q, y. ands; auto; apply set_equal_eq in X4; subst; auto.
Qed.

Lemma union_ok st h a b da db : st_ok st -> hstate set_hash set_equal h -> hsize h < 249999999 ->
  strict a -> strict b -> same_members a da -> same_members b db ->
  exists st' h' p, union_contents st h a b = Ok (st', h', p) /\ st_ok st' /\ hstate set_hash set_equal h' /\
    extends (objs h) (objs h') /\ hsize h' <= hsize h + 1 /\ sdenotes (objs h') p (da ++ db).
Proof.
  intros Hst Hs Hlim Ha Hb Ma Mb. unfold union_contents.
  destruct (merge_spec (S (length a + length b)) a b) as (r & d & E & S1 & M1 & L1); auto.
  rewrite E; cbn [bind]. destruct (Nat.ltb_spec (length r) (length a + length b - d)); [lia|].
  rewrite firstn_all2 by lia.
  apply set_get_ok; auto. intros z. rewrite (M1 z), !in_app_iff, (Ma z), (Mb z). tauto.
Qed.

Lemma denotes_nth o ps ds i : Forall2 (sdenotes o) ps ds -> (i < length ds)%nat ->
  exists p, nth_error ps i = Some p /\ sdenotes o p (nth i ds []).
Proof.
  intros HF. revert i. induction HF as [|p d ps ds H HF IH]; intros i Hi; simpl in Hi; [lia|].
  destruct i as [|i]; simpl; eauto. apply IH. lia.
Qed.

Lemma deref_S {A} (o : list A) q s : nth_error o q = Some s -> deref o (S q) = Ok s.
Proof. intros H. simpl. now apply rd_Ok. Qed.

Lemma set_step_ok st h rs ds o : st_ok st -> hstate set_hash set_equal h -> hsize h < 249999999 ->
  Forall2 (sdenotes (objs h)) rs ds -> set_wf (length ds) [o] ->
  exists st' h' p, set_step st h rs o = Ok (st', h', p) /\ st_ok st' /\ hstate set_hash set_equal h' /\
    extends (objs h) (objs h') /\ hsize h' <= hsize h + 1 /\ sdenotes (objs h') p (set_denote ds o).
Proof.
  intros Hst Hs Hlim HF Hwf. cbn [set_wf] in Hwf. destruct Hwf as [Hwf _]. destruct o as [|l|x i|i j]; cbn [set_step set_denote].
  - apply set_get_ok; auto; [constructor|]. intros z. tauto.
  - destruct Hwf as [W1 W2]. apply set_get_ok; auto.
    + apply sort_strict; auto.
    + intros z. split; intros Hz; (eapply Permutation_in; [|exact Hz]); [|symmetry]; apply sort_perm.
  - destruct Hwf as [W1 W2]. destruct (denotes_nth _ _ _ _ HF W2) as (p & Hp & (q & s & -> & Hq & Ss & Ms)).
    apply rd_Ok in Hp. rewrite Hp; cbn [bind]. unfold add_hash_cons_set. rewrite (deref_S _ _ _ Hq). cbn [bind].
    change (x :: nth i ds []) with ([x] ++ nth i ds []). apply union_ok; auto.
    + apply strict_cons. split; [constructor|]. intros y [].
    + intros z. tauto.
  - destruct Hwf as [W1 W2]. destruct (denotes_nth _ _ _ _ HF W1) as (p & Hp & (q & s & -> & Hq & Ss & Ms)).
    destruct (denotes_nth _ _ _ _ HF W2) as (p2 & Hp2 & (q2 & s2 & -> & Hq2 & Ss2 & Ms2)).
    apply rd_Ok in Hp, Hp2. rewrite Hp; cbn [bind]. rewrite Hp2; cbn [bind]. unfold union_hash_const_set.
    rewrite (deref_S _ _ _ Hq); cbn [bind]. rewrite (deref_S _ _ _ Hq2); cbn [bind]. apply union_ok; auto.
Qed.

Lemma Forall2_mono {A B} (P Q : A -> B -> Prop) l1 l2 :
  (forall a b, P a b -> Q a b) -> Forall2 P l1 l2 -> Forall2 Q l1 l2.
Proof. intros H F. induction F; constructor; auto. Qed.

Lemma Forall2_len {A B} (P : A -> B -> Prop) l1 l2 : Forall2 P l1 l2 -> length l1 = length l2.
Proof. intros F. induction F; simpl; auto. Qed.

Lemma set_run_ok ops : forall st h rs ds, st_ok st -> hstate set_hash set_equal h ->
  hsize h + Z.of_nat (length ops) < 250000000 ->
  Forall2 (sdenotes (objs h)) rs ds -> set_wf (length ds) ops ->
  exists st' h' rs', set_run st h rs ops = Ok (st', h', rs') /\ st_ok st' /\ hstate set_hash set_equal h' /\
    Forall2 (sdenotes (objs h')) rs' (fold_left (fun ds o => ds ++ [set_denote ds o]) ops ds).
Proof.
  induction ops as [|o ops IH]; intros st h rs ds Hst Hs Hlim HF Hwf.
  - exists st, h, rs. auto.
  - destruct Hwf as [W1 W2]. cbn [set_run fold_left]. simpl length in Hlim.
    destruct (set_step_ok st h rs ds o) as (st1 & h1 & p & E & A1 & A2 & A3 & A4 & A5); auto; [lia|split; simpl; auto|].
    rewrite E; cbn [bind].
    apply IH; auto; [lia| |].
    + apply Forall2_app; [|constructor; auto].
      eapply Forall2_mono; [|exact HF]. intros. eapply sdenotes_ext; eauto.
    + rewrite app_length. simpl. rewrite Nat.add_1_r. auto.
Qed.

Theorem sets_canonical st ops : st_ok st -> set_wf 0 ops -> Z.of_nat (length ops) < 250000000 ->
  exists st' h rs, set_run st hc_static [] ops = Ok (st', h, rs) /\
    length rs = length ops /\
    forall i j p q, nth_error rs i = Some p -> nth_error rs j = Some q ->
      (exists s, deref (objs h) p = Ok s /\ StronglySorted Z.lt s /\ same_members s (nth i (set_denotes ops) [])) /\
      (p = q <-> same_members (nth i (set_denotes ops) []) (nth j (set_denotes ops) [])).
Proof.
  intros Hst Hwf Hlim.
  destruct (set_run_ok ops st hc_static [] []) as (st' & h & rs & E & A1 & A2 & A3); auto.
  { left; auto. }
  fold (set_denotes ops) in A3.
  assert (HL : length rs = length ops).
  { apply Forall2_len in A3. rewrite A3. unfold set_denotes.
    assert (X : forall l ds, length (fold_left (fun ds o => ds ++ [set_denote ds o]) l ds) = (length ds + length l)%nat).
    { induction l; intros ds; simpl; [lia|]. rewrite IHl, app_length. simpl. lia. }
    rewrite X. simpl. auto. }
  exists st', h, rs. ands; auto. intros i j p q Hp Hq.
  assert (Hi : (i < length (set_denotes ops))%nat).
  { apply Forall2_len in A3. rewrite <- A3. apply nth_error_Some. congruence. }
  assert (Hj : (j < length (set_denotes ops))%nat).
  { apply Forall2_len in A3. rewrite <- A3. apply nth_error_Some. congruence. }
  destruct (denotes_nth _ _ _ _ A3 Hi) as (p' & Hp' & (a & s & -> & Ha & Ss & Ms)).
  destruct (denotes_nth _ _ _ _ A3 Hj) as (q' & Hq' & (b & t & -> & Hb & St & Mt)).
  rewrite Hp in Hp'. inversion Hp'; subst p. rewrite Hq in Hq'. inversion Hq'; subst q. split.
  - exists s. ands; auto. apply deref_S; auto.
  - split.
    + intros H; inversion H; subst. assert (s = t) by congruence. subst t.
      intros z. rewrite <- (Ms z), <- (Mt z). tauto.
    + intros Hm. assert (s = t) as ->.
      { apply strict_ext; auto. intros z. rewrite (Ms z), (Mt z). apply Hm. }
      f_equal. apply (state_uniq set_hash set_equal h A2 a b t t); auto. now apply set_equal_eq.
Qed.

(** ** new_hash_cons_set on any argument *)
Lemma gets_map st h ls : forall n, st_ok st -> hstate set_hash set_equal h ->
  hsize h + Z.of_nat (length ls) < 250000000 -> n = length ls ->
  exists st' h' ps, gets set_hash set_equal st h (map sort_elements ls) = Ok (st', h', ps) /\ hstate set_hash set_equal h' /\
     Forall2 (denotes set_equal (objs h')) ps (map sort_elements ls).
Proof.
  intros n Hst Hs Hlim Hn.
  destruct (gets_spec set_hash set_equal set_good (map sort_elements ls) st h Hst Hs) as (st' & h' & ps & E & A1 & A2 & A3 & A4 & A5).
  { rewrite map_length. auto. }
  exists st', h', ps. auto.
Qed.

(** ** hash_string, hash_mix *)
Definition is_char (c : Z) : Prop := -128 <= c <= 127 /\ c <> 0.

(** The polynomial value of a string. *)
Definition poly (h : Z) (s : list Z) : Z := fold_left (fun h c => 33 * h + c) s h.

Lemma poly_bounds s : forall h, Forall is_char s -> 
  33 ^ Z.of_nat (length s) * (h - 4) <= poly h s <= 33 ^ Z.of_nat (length s) * (h + 4).
Proof.
  induction s as [|c s IH]; intros h Hs.
  - simpl. lia.
  - inversion Hs as [|? ? [Hc _] Hs']; subst. simpl poly. fold (poly (33 * h + c) s).
    specialize (IH (33 * h + c) Hs'). simpl length. rewrite Nat2Z.inj_succ, Z.pow_succ_r by lia.
    assert (0 < 33 ^ Z.of_nat (length s)) by (apply Z.pow_pos_nonneg; lia). nia.
Qed.

Lemma long_Ok x : LONG_MIN <= x <= LONG_MAX -> long x = Ok x.
Proof. intros H. unfold long. destruct (Z.leb_spec LONG_MIN x), (Z.leb_spec x LONG_MAX); simpl; auto; lia. Qed.
Lemma long_UB x : ~ LONG_MIN <= x <= LONG_MAX -> long x = UB.
Proof. intros H. unfold long. destruct (Z.leb_spec LONG_MIN x), (Z.leb_spec x LONG_MAX); simpl; auto; lia. Qed.

(** One step succeeds exactly while 33*h + 127 stays in range. *)
Lemma hash_step h c s : 5381 <= h -> is_char c -> 33 * h + 127 <= LONG_MAX ->
  hash_string_loop h (c :: s) = hash_string_loop (33 * h + c) s.
Proof.
  intros Hh [Hc _] Hb. unfold LONG_MAX in *. cbn [hash_string_loop].
  destruct (Z.ltb_spec h 0); [lia|]. rewrite long_Ok by (unfold LONG_MIN, LONG_MAX; lia). cbn [bind].
  rewrite long_Ok by (unfold LONG_MIN, LONG_MAX; lia). cbn [bind].
  rewrite long_Ok by (unfold LONG_MIN, LONG_MAX; lia). cbn [bind]. f_equal. lia.
Qed.

Lemma hash_string_short_aux s : forall h k, 5381 <= h -> Forall is_char s -> (length s <= k)%nat ->
  33 ^ Z.of_nat k * (h + 4) <= LONG_MAX -> hash_string_loop h s = Ok (poly h s).
Proof.
  induction s as [|c s IH]; intros h k Hh Hs Hl Hb; [reflexivity|].
  inversion Hs as [|? ? Hc Hs']; subst. destruct k as [|k]; simpl in Hl; [lia|].
  rewrite Nat2Z.inj_succ, Z.pow_succ_r in Hb by lia.
  assert (0 < 33 ^ Z.of_nat k) by (apply Z.pow_pos_nonneg; lia).
  rewrite hash_step; auto.
  - rewrite (IH (33 * h + c) k); auto; try lia.
    + destruct Hc as [Hc _]. lia.
    + destruct Hc as [Hc _]. nia.
  - destruct Hc as [Hc _]. nia.
Qed.

Theorem hash_string_short s : Forall is_char s -> (length s <= 10)%nat ->
  hash_string s = Ok (poly 5381 s).
Proof.
  intros Hs Hl. apply (hash_string_short_aux s 5381 10); auto; try lia.
  vm_compute. discriminate.
Qed.

Lemma hash_string_loop_prefix s : forall h t r, hash_string_loop h (s ++ t) = Ok r -> exists r', hash_string_loop h s = Ok r'.
Proof.
  induction s as [|c s IH]; intros h t r; [simpl; eauto|].
  cbn [app hash_string_loop]. destruct (h <? 0); [discriminate|].
  intros H. apply bind_Ok in H. destruct H as (a & Ea & H). rewrite Ea; cbn [bind].
  apply bind_Ok in H. destruct H as (b & Eb & H). rewrite Eb; cbn [bind].
  apply bind_Ok in H. destruct H as (d & Ed & H). rewrite Ed; cbn [bind]. eauto.
Qed.

Lemma hash_string_loop_app s : forall h t, hash_string_loop h (s ++ t) = x <- hash_string_loop h s ;; hash_string_loop x t.
Proof.
  induction s as [|c s IH]; intros h t; [reflexivity|].
  cbn [app hash_string_loop]. destruct (h <? 0); [reflexivity|].
  destruct (long (h * 32)); cbn [bind]; auto. destruct (long (a + h)); cbn [bind]; auto.
  destruct (long (a0 + c)); cbn [bind]; auto.
Qed.

Theorem hash_string_long s : Forall is_char s -> (11 <= length s)%nat -> hash_string s = UB.
Proof.
  intros Hs Hl. rewrite <- (firstn_skipn 10 s) in *. apply Forall_app in Hs. destruct Hs as [H1 H2].
  assert (L1 : length (firstn 10 s) = 10%nat).
  { rewrite firstn_length. rewrite app_length, firstn_length, skipn_length in Hl. lia. }
  rewrite firstn_skipn in Hl.
  unfold hash_string. rewrite hash_string_loop_app.
  pose proof (hash_string_short (firstn 10 s) H1) as E. unfold hash_string in E. rewrite E by lia. cbn [bind].
  destruct (skipn 10 s) as [|c t] eqn:Es.
  { assert (length (skipn 10 s) = 0%nat) by (rewrite Es; auto). rewrite skipn_length in H. lia. }
  pose proof (poly_bounds (firstn 10 s) 5381 H1) as Hp. rewrite L1 in Hp.
  change (33 ^ Z.of_nat 10) with 1531578985264449 in Hp.
  cbn [hash_string_loop]. destruct (Z.ltb_spec (poly 5381 (firstn 10 s)) 0); [lia|].
  rewrite long_UB; [reflexivity|]. unfold LONG_MIN, LONG_MAX. lia.
Qed.

Theorem hash_mix_spec h1 h2 : LONG_MIN <= h1 <= LONG_MAX -> LONG_MIN <= h2 <= LONG_MAX ->
  (LONG_MIN <= 527 + h1 <= LONG_MAX -> LONG_MIN <= (527 + h1) * 31 <= LONG_MAX ->
   LONG_MIN <= (527 + h1) * 31 + h2 <= LONG_MAX -> hash_mix h1 h2 = Ok (31 * (31 * 17 + h1) + h2)) /\
  (~ (LONG_MIN <= 527 + h1 <= LONG_MAX /\ LONG_MIN <= (527 + h1) * 31 <= LONG_MAX /\
      LONG_MIN <= (527 + h1) * 31 + h2 <= LONG_MAX) -> hash_mix h1 h2 = UB).
Proof.
  intros _ _. unfold hash_mix. change (17 * 31) with 527. split.
  - intros A B C. rewrite long_Ok by auto. cbn [bind]. rewrite long_Ok by auto. cbn [bind].
    rewrite long_Ok by auto. f_equal. lia.
  - intros H.
    assert (Hd : forall x, {LONG_MIN <= x <= LONG_MAX} + {~ LONG_MIN <= x <= LONG_MAX}).
    { intros x. destruct (Z_le_dec LONG_MIN x), (Z_le_dec x LONG_MAX); auto; right; lia. }
    destruct (Hd (527 + h1)) as [A|A]; [|rewrite long_UB by auto; reflexivity].
    rewrite long_Ok by auto. cbn [bind].
    destruct (Hd ((527 + h1) * 31)) as [B|B]; [|rewrite long_UB by auto; reflexivity].
    rewrite long_Ok by auto. cbn [bind]. apply long_UB. tauto.
Qed.
