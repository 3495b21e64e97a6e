(** * SummaryProofs: closing a summary graph. *)
From Verif Require Import Base CondModel EdgeModel DncModel PropsCond EdgeGraph EdgeSem.
Open Scope nat_scope.

(** ** Specification *)
Definition get (mg : list N) (n i j : nat) : N := nth (i * n + j) mg no_dependency.
Definition matrix (n : nat) (mg : list N) : Prop := length mg = n * n /\ forall x, In x mg -> kind_ok x.
(** a square matrix of kinds that contains every two-step dependency *)
Definition trans_closed (n : nat) (M : nat -> nat -> N) : Prop :=
  forall i j k, i < n -> j < n -> k < n -> at_most (dependency_trans (M i k) (M k j)) (M i j) = true.
Definition contains (n : nat) (M M' : nat -> nat -> N) : Prop := forall i j, i < n -> j < n -> at_most (M i j) (M' i j) = true.
Definition kinds (n : nat) (M : nat -> nat -> N) : Prop := forall i j, i < n -> j < n -> kind_ok (M i j).

(** ** kinds *)
Lemma trans_comm a b : kind_ok a -> kind_ok b -> dependency_trans a b = dependency_trans b a.
Proof. intros Ha Hb. apply (C38_trans a b 0%N); auto. unfold kind_ok. lia. Qed.
Lemma trans_ok a b : kind_ok a -> kind_ok b -> kind_ok (dependency_trans a b).
Proof. intros Ha Hb. apply (C38_trans a b 0%N); auto. unfold kind_ok. lia. Qed.
Lemma trans_mono a b a' b' : kind_ok a -> kind_ok b -> kind_ok a' -> kind_ok b' -> at_most a a' = true -> at_most b b' = true -> at_most (dependency_trans a b) (dependency_trans a' b') = true.
Proof.
  intros Ha Hb Ha' Hb' La Lb. destruct (C38_trans a b b' Ha Hb Hb') as (_ & _ & _ & _ & M1 & _). destruct (C38_trans b' a a' Hb' Ha Ha') as (_ & _ & _ & _ & M2 & _).
  specialize (M1 Lb). specialize (M2 La). rewrite (trans_comm b' a), (trans_comm b' a') in M2 by auto. apply at_most_incl in M1, M2. apply at_most_incl. eapply incl_trans_mask; eauto.
Qed.
Lemma at_most_refl k : at_most k k = true.
Proof. apply at_most_incl, incl_refl_mask. Qed.
Lemma at_most_trans a b c : at_most a b = true -> at_most b c = true -> at_most a c = true.
Proof. rewrite !at_most_incl. apply incl_trans_mask. Qed.
Lemma at_most_antisym a b : at_most a b = true -> at_most b a = true -> a = b.
Proof. rewrite !at_most_incl. apply incl_antisym. Qed.
Lemma join_l a b : at_most a (dependency_join a b) = true.
Proof. apply at_most_incl. intros i Hi. unfold dependency_join, tb in *. now rewrite N.lor_spec, Hi. Qed.
Lemma join_r a b : at_most b (dependency_join a b) = true.
Proof. apply at_most_incl. intros i Hi. unfold dependency_join, tb in *. now rewrite N.lor_spec, Hi, orb_true_r. Qed.
Lemma join_lub a b c : at_most a c = true -> at_most b c = true -> at_most (dependency_join a b) c = true.
Proof. rewrite !at_most_incl. intros Ha Hb i. unfold dependency_join, tb in *. rewrite N.lor_spec, orb_true_iff. intros [|]; auto. Qed.
Lemma join_ok a b : kind_ok a -> kind_ok b -> kind_ok (dependency_join a b).
Proof.
  unfold kind_ok, dependency_join. intros Ha Hb. apply N.lt_succ_r. change (N.succ 31) with (2 ^ 5)%N. 
  destruct (N.eq_dec (N.lor a b) 0) as [->|Hz]; [reflexivity|]. apply N.log2_lt_pow2; [lia|]. rewrite N.log2_lor.
  destruct (N.eq_dec a 0) as [->|Za], (N.eq_dec b 0) as [->|Zb]; try (cbn [N.log2 N.max]; try (apply N.max_lub_lt)); try reflexivity; try (apply N.log2_lt_pow2; lia).
Qed.
Lemma kind_max k : kind_ok k -> at_most k max_dependency = true.
Proof. revert k. apply all32_spec. vm_compute. reflexivity. Qed.
Lemma at_most_le a b : at_most a b = true -> (a <= b)%N.
Proof.
  intros H. apply at_most_incl in H. assert (E : N.lor b a = b) by (now apply lor_incl).
  assert (b = (N.ldiff b a + a)%N) as ->; [|lia]. rewrite N.add_nocarry_lxor.
  - apply N.bits_inj. intros i. rewrite N.lxor_spec, N.ldiff_spec. specialize (H i). unfold tb in H. destruct (N.testbit a i), (N.testbit b i); cbn; auto.
  - apply N.bits_inj_0. intros i. rewrite N.land_spec, N.ldiff_spec. destruct (N.testbit a i), (N.testbit b i); auto.
Qed.
Lemma zero_ok : kind_ok 0.
Proof. unfold kind_ok. lia. Qed.

(** ** matrices *)
Definition mle (mg mg' : list N) : Prop := length mg' = length mg /\ forall x, at_most (nth x mg no_dependency) (nth x mg' no_dependency) = true.
Lemma mle_refl mg : mle mg mg.
Proof. split; auto. intros x. apply at_most_refl. Qed.
Lemma mle_trans a b c : mle a b -> mle b c -> mle a c.
Proof. intros [L1 H1] [L2 H2]. split; [congruence|]. intros x. eapply at_most_trans; eauto. Qed.
Definition total (mg : list N) : nat := fold_right (fun k s => N.to_nat k + s) 0 mg.
Lemma total_le mg mg' : mle mg mg' -> total mg <= total mg' /\ (total mg = total mg' -> mg = mg').
Proof.
  revert mg'; induction mg as [|a mg IH]; intros [|b mg'] [L H]; cbn in L; try lia; auto.
  destruct (IH mg') as [I1 I2]. { split; [lia|]. intros x. apply (H (S x)). }
  pose proof (at_most_le _ _ (H 0)) as Hab. cbn [nth] in Hab. cbn [total fold_right]. fold (total mg). fold (total mg'). split; [lia|]. intros E. f_equal; [|apply I2]; lia.
Qed.
Lemma total_max mg : (forall x, In x mg -> kind_ok x) -> total mg <= 31 * length mg.
Proof.
  induction mg as [|a mg IH]; intros H; cbn [total fold_right length]; [lia|]. fold (total mg). assert (total mg <= 31 * length mg) by (apply IH; intros; apply H; now right).
  assert (kind_ok a) by (apply H; now left). unfold kind_ok in *. lia.
Qed.
Lemma get_ok n mg i j : matrix n mg -> kind_ok (get mg n i j).
Proof. intros [L H]. unfold get. destruct (Nat.lt_ge_cases (i * n + j) (length mg)); [apply H; now apply nth_In|]. rewrite nth_overflow by auto. apply zero_ok. Qed.
Lemma rd_get n mg i j : matrix n mg -> i < n -> j < n -> rd mg (i * n + j) = Ok (get mg n i j).
Proof. intros [L H] Hi Hj. apply rd_Ok. unfold get. apply nth_error_nth'. rewrite L. now apply idx_lt. Qed.
Lemma get_upd n mg i j k i' j' : matrix n mg -> i < n -> j < n -> j' < n -> get (upd mg (i * n + j) k) n i' j' = if (i =? i') && (j =? j') then k else get mg n i' j'.
Proof.
  intros [L H] Hi Hj Hj'. unfold get. rewrite nth_upd by (rewrite L; now apply idx_lt). destruct (Nat.eqb_spec (i * n + j) (i' * n + j')) as [E|E].
  - destruct (idx_inj _ _ _ _ _ Hj Hj' E) as [-> ->]. now rewrite !Nat.eqb_refl.
  - destruct (Nat.eqb_spec i i'), (Nat.eqb_spec j j'); subst; auto. contradiction.
Qed.
Lemma matrix_upd n mg i k : matrix n mg -> kind_ok k -> matrix n (upd mg i k).
Proof.
  intros [L H] Hk. split; [now rewrite upd_length|]. intros x Hx. apply In_nth_error in Hx. destruct Hx as (y & Hy). rewrite nth_error_upd in Hy.
  destruct (i =? y). { destruct (y <? length mg); [|discriminate]. injection Hy as <-. auto. } apply H. eapply nth_error_In; eauto.
Qed.
Lemma mle_upd mg i k : i < length mg -> at_most (nth i mg no_dependency) k = true -> mle mg (upd mg i k).
Proof. intros L H. split; [apply upd_length|]. intros x. rewrite nth_upd by auto. destruct (Nat.eqb_spec i x); [subst; auto|apply at_most_refl]. Qed.

(** ** one cell, one pass *)
(** what a step may do to the matrix, seen from the matrix at the start *)
Definition grown (n : nat) (mg0 mg : list N) (ch : bool) : Prop :=
  matrix n mg /\ mle mg0 mg /\ (ch = false -> mg = mg0) /\ (ch = true -> mg <> mg0) /\
  forall M, kinds n M -> trans_closed n M -> contains n (get mg0 n) M -> contains n (get mg n) M.

Lemma summary_k_ok n i j mg0 : i < n -> j < n -> forall ks mg ij ch, (forall k, In k ks -> k < n) -> grown n mg0 mg ch -> ij = get mg n i j ->
  exists mg' ch', summary_k n i j ks mg ij ch = Ok (mg', ch') /\ grown n mg0 mg' ch' /\ (ch = true -> ch' = true) /\
  (ch' = false -> forall k, In k ks -> at_most (dependency_trans (get mg0 n i k) (get mg0 n k j)) (get mg0 n i j) = true).
Proof.
  intros Hi Hj. induction ks as [|k ks IH]; intros mg ij ch Hks G Eij; cbn [summary_k].
  - exists mg, ch. ands; auto.
  - assert (Hk : k < n) by (apply Hks; now left). destruct G as (Mx & Le & F & T & B).
    rewrite (rd_get n mg i k), (rd_get n mg k j) by auto. cbn [bind].
    destruct (at_most (dependency_trans (get mg n i k) (get mg n k j)) ij) eqn:A; cbn [negb].
    + destruct (IH mg ij ch) as (mg' & ch' & E & G' & Tc & Cl); auto. { intros; apply Hks; now right. } { unfold grown; ands; auto. }
      exists mg', ch'. ands; auto. intros Hf. assert (ch = false) by (destruct ch; auto; rewrite (Tc eq_refl) in Hf; discriminate). specialize (F H). subst mg.
      intros k' [<-|Hk']; auto. rewrite Eij in A. auto.
    + set (ij' := dependency_join (dependency_trans (get mg n i k) (get mg n k j)) ij).
      assert (Hok : kind_ok ij'). { apply join_ok; [apply trans_ok; now apply get_ok|]. subst ij. now apply get_ok. }
      assert (Li : i * n + j < length mg) by (destruct Mx as [-> _]; now apply idx_lt).
      rewrite wr_Ok by auto. cbn [bind].
      assert (Lu : mle mg (upd mg (i * n + j) ij')). { apply mle_upd; auto. fold (get mg n i j). rewrite <- Eij. apply join_r. }
      assert (Gi : get (upd mg (i * n + j) ij') n i j = ij') by (rewrite get_upd, !Nat.eqb_refl by auto; reflexivity).
      assert (G' : grown n mg0 (upd mg (i * n + j) ij') true).
      { unfold grown. ands.
        - now apply matrix_upd.
        - eapply mle_trans; eauto.
        - discriminate.
        - intros _ E. assert (X : ij' = ij).
          { apply at_most_antisym; [|apply join_r]. rewrite <- Gi, E, Eij. unfold get. apply Le. }
          assert (at_most (dependency_trans (get mg n i k) (get mg n k j)) ij = true); [|congruence]. rewrite <- X. apply join_l.
        - intros M KM CM C0 i' j' Hi' Hj'. rewrite get_upd by auto. specialize (B M KM CM C0). destruct (Nat.eqb_spec i i'); cbn [andb]; [destruct (Nat.eqb_spec j j'); cbn [andb]|]; auto. subst i' j'.
          apply join_lub; [|subst ij; now apply B]. eapply at_most_trans; [|apply (CM i j k); auto]. apply trans_mono; auto; try (now apply get_ok). }
      destruct (N.eqb_spec ij' max_dependency) as [Em|Em].
      * eexists _, true. split; [reflexivity|]. split; auto. split; auto. discriminate.
      * destruct (IH (upd mg (i * n + j) ij') ij' true) as (mg' & ch' & E & G2 & Tc & Cl); auto. { intros; apply Hks; now right. }
        exists mg', ch'. ands; auto. rewrite (Tc eq_refl). discriminate.
Qed.

Definition cell_closed (n : nat) (mg : list N) (i j : nat) : Prop := forall k, k < n -> at_most (dependency_trans (get mg n i k) (get mg n k j)) (get mg n i j) = true.
Lemma summary_pass_ok n mg0 : matrix n mg0 -> exists mg ch, summary_pass n mg0 = Ok (mg, ch) /\ grown n mg0 mg ch /\ (ch = false -> trans_closed n (get mg0 n)).
Proof.
  intros Mx. unfold summary_pass.
  pose (J := fun (done : list nat) (st : list N * bool) => grown n mg0 (fst st) (snd st) /\ (snd st = false -> forall i j, In i done -> j < n -> cell_closed n mg0 i j)).
  match goal with |- exists mg ch, foldM ?f _ _ = _ /\ _ => destruct (foldM_inv f (seq 0 n) J (mg0, false)) as ([mg ch] & E & I1 & I2) end.
  - split; cbn [fst snd]; [|intros _ i j []]. unfold grown. ands; auto using mle_refl. discriminate.
  - intros done i rest [mg ch] El [I1 I2]. cbn [fst snd] in *.
    assert (Hi : i < n). { assert (In i (seq 0 n)) by (rewrite El; apply in_or_app; right; now left). apply in_seq in H. lia. }
    pose (J2 := fun (done : list nat) (st : list N * bool) => grown n mg0 (fst st) (snd st) /\ (ch = true -> snd st = true) /\ (snd st = false -> forall j, In j done -> cell_closed n mg0 i j)).
    match goal with |- exists b, foldM ?f _ _ = _ /\ _ => destruct (foldM_inv f (seq 0 n) J2 (mg, ch)) as ([mg' ch'] & E & K1 & K2 & K3) end.
    + split; [auto|]. split; [auto|]. cbn [fst snd]. intros _ j [].
    + clear I1 I2. intros done2 j rest2 [mg2 ch2] El2 (K1 & K2 & K3). cbn [fst snd] in *.
      assert (Hj : j < n). { assert (In j (seq 0 n)) by (rewrite El2; apply in_or_app; right; now left). apply in_seq in H. lia. }
      assert (M2 : matrix n mg2) by apply K1. rewrite (rd_get n mg2 i j) by auto. cbn [bind].
      destruct (N.eqb_spec (get mg2 n i j) max_dependency) as [Em|Em]; cbn [negb].
      * exists (mg2, ch2). split; auto. split; [auto|]. split; [auto|]. cbn [fst snd]. intros Hf j' Hj'. apply in_app_iff in Hj'. destruct Hj' as [|[<-|[]]]; auto.
        destruct K1 as (_ & _ & Fq & _). rewrite (Fq Hf) in *. intros k Hk. rewrite Em. apply kind_max. apply trans_ok; now apply get_ok.
      * destruct (summary_k_ok n i j mg0 Hi Hj (seq 0 n) mg2 (get mg2 n i j) ch2) as (mg3 & ch3 & E3 & G3 & T3 & C3); auto. { intros k Hk. apply in_seq in Hk. lia. }
        exists (mg3, ch3). split; auto. split; [auto|]. split; [cbn; auto|]. cbn [fst snd]. intros Hf j' Hj'. apply in_app_iff in Hj'. destruct Hj' as [Hj'|[<-|[]]].
        { apply K3; auto. destruct ch2; auto. rewrite (T3 eq_refl) in Hf. discriminate. }
        intros k Hk. apply C3; auto. apply in_seq. lia.
    + exists (mg', ch'). split; auto. split; [auto|]. cbn [fst snd] in *. intros Hf i' j Hi' Hj. apply in_app_iff in Hi'. destruct Hi' as [Hi'|[<-|[]]].
      * apply I2; auto. destruct ch; auto. rewrite (K2 eq_refl) in Hf. discriminate.
      * apply K3; auto. apply in_seq. lia.
  - exists mg, ch. split; auto. split; auto. intros Hf i j k Hi Hj Hk. apply I2; auto. apply in_seq. lia.
Qed.

Lemma grown_trans n a b c ch : matrix n a -> grown n a b true -> grown n b c ch -> grown n a c true.
Proof.
  intros Ma (M1 & L1 & F1 & T1 & B1) (M2 & L2 & F2 & T2 & B2). unfold grown. ands; auto.
  - eapply mle_trans; eauto.
  - discriminate.
  - intros _ E. subst c. apply T1; auto. assert (b = a); auto. destruct (total_le _ _ L1) as [X1 X2]. destruct (total_le _ _ L2) as [Y1 Y2]. symmetry. apply X2. lia.
Qed.
Lemma close_summary_ok n : forall r mg any, matrix n mg -> 31 * (n * n) <= r + total mg -> forall fuel, r < fuel -> exists mg' ch, close_summary fuel n mg any = Ok (mg', any || ch) /\ grown n mg mg' ch /\ trans_closed n (get mg' n).
Proof.
  induction r as [|r IH]; intros mg any Mx Hr fuel Hf; destruct fuel as [|f]; try lia; cbn [close_summary];
    destruct (summary_pass_ok n mg Mx) as (mg1 & ch1 & -> & G & Cl); cbn [bind]; destruct ch1.
  - exfalso. destruct G as (M1 & L1 & _ & T & _). destruct (total_le _ _ L1) as [X1 X2]. pose proof (total_max mg1 (proj2 M1)) as X. rewrite (proj1 M1) in X. apply (T eq_refl). symmetry. apply X2. lia.
  - exists mg1, false. rewrite orb_false_r. destruct G as (M1 & L1 & F & T & B). rewrite (F eq_refl) in *. ands; auto. unfold grown. ands; auto.
  - assert (M1 : matrix n mg1) by apply G. destruct (IH mg1 true M1) with (fuel := f) as (mg2 & ch2 & E & G2 & C2); try lia.
    { destruct G as (_ & L1 & _ & T & _). destruct (total_le _ _ L1) as [X1 X2]. destruct (Nat.eq_dec (total mg) (total mg1)) as [Et|]; [|lia]. exfalso. apply (T eq_refl). symmetry. auto. }
    exists mg2, true. cbn [orb] in E. rewrite orb_true_r. ands; auto. eapply grown_trans; eauto.
  - exists mg1, false. rewrite orb_false_r. destruct G as (M1 & L1 & F & T & B). rewrite (F eq_refl) in *. ands; auto. unfold grown. ands; auto.
Qed.

(** ** C41: the closure terminates; its result is the least transitively closed
    matrix containing the given one, and TRUE is returned exactly if it differs. *)
Theorem C41_summary_closure : forall n mg, matrix n mg -> exists bound, forall fuel, bound <= fuel ->
  exists mg' ch, close_summary fuel n mg false = Ok (mg', ch) /\ matrix n mg' /\
    contains n (get mg n) (get mg' n) /\ trans_closed n (get mg' n) /\
    (forall M, kinds n M -> trans_closed n M -> contains n (get mg n) M -> contains n (get mg' n) M) /\
    (ch = true <-> mg' <> mg).
Proof.
  intros n mg Mx. exists (S (31 * (n * n))). intros fuel Hf. destruct (close_summary_ok n (31 * (n * n)) mg false Mx) with (fuel := fuel) as (mg' & ch & E & G & C); try lia.
  exists mg', ch. cbn [orb] in E. destruct G as (M1 & L1 & F & T & B). ands; auto.
  - intros i j _ _. apply L1.
  - split; auto. intros Hne. destruct ch; auto.
Qed.
Definition example_summary : list N := [0; 3; 0; 0; 0; 7; 0; 0; 0]%N.
Example C41_example : matrix 3 example_summary /\ close_summary 10 3 example_summary false = Ok ([0; 3; 3; 0; 0; 7; 0; 0; 0]%N, true).
Proof. split; [split; [reflexivity|]|reflexivity]. intros x Hx. unfold kind_ok. cbn in Hx. repeat (destruct Hx as [<-|Hx]; [lia|]). destruct Hx. Qed.
Print Assumptions C41_summary_closure.
