(** * Double hashing covers every slot of a prime-sized table. *)
From Coq Require Import Znumtheory.
From Verif Require Import Base.
Open Scope Z_scope.

Definition pos (c i s : Z) (n : nat) : Z := (i + Z.of_nat n * s) mod c.

Lemma pos_range c i s n : 0 < c -> 0 <= pos c i s n < c.
Proof. intros H. apply Z.mod_pos_bound. auto. Qed.

Lemma pos_0 c i s : 0 <= i < c -> pos c i s 0 = i.
Proof. intros H. unfold pos. simpl. rewrite Z.add_0_r. apply Z.mod_small. auto. Qed.

Lemma pos_S c i s n : 0 < c -> (pos c i s n + s) mod c = pos c i s (S n).
Proof.
  intros H. unfold pos. rewrite Zplus_mod_idemp_l. f_equal. rewrite Nat2Z.inj_succ. ring.
Qed.

Lemma pos_shift c i s n : 0 < c -> pos c (pos c i s 1) s n = pos c i s (S n).
Proof.
  intros H. unfold pos. rewrite Zplus_mod_idemp_l. f_equal. rewrite (Nat2Z.inj_succ n).
  change (Z.of_nat 1) with 1. ring.
Qed.

Lemma probe_cover c i s j : prime c -> 0 < s < c -> 0 <= j < c ->
  exists n, (n < Z.to_nat c)%nat /\ pos c i s n = j.
Proof.
  intros Hc Hs Hj.
  assert (Hr : rel_prime s c).
  { apply rel_prime_sym, prime_rel_prime; auto. intros Hd. apply Z.divide_pos_le in Hd; lia. }
  destruct (rel_prime_bezout _ _ Hr) as [u v Huv].
  exists (Z.to_nat (((j - i) * u) mod c)).
  pose proof (Z.mod_pos_bound ((j - i) * u) c) as Hb.
  split; [apply Z2Nat.inj_lt; lia|].
  unfold pos. rewrite Z2Nat.id by lia.
  rewrite <- Zplus_mod_idemp_r, Zmult_mod_idemp_l, Zplus_mod_idemp_r.
  replace (i + (j - i) * u * s) with (j + (- ((j - i) * v)) * c).
  - rewrite Z.mod_add by lia. apply Z.mod_small; lia.
  - assert (u * s = 1 - v * c) by lia. rewrite <- Z.mul_assoc, H. ring.
Qed.

(** Least natural number with a decidable property. *)
Lemma least_nat (P : nat -> bool) n : P n = true ->
  exists m, (m <= n)%nat /\ P m = true /\ forall k, (k < m)%nat -> P k = false.
Proof.
  induction n as [n IH] using lt_wf_ind. intros Hn.
  destruct (existsb P (seq 0 n)) eqn:E.
  - apply existsb_exists in E. destruct E as (k & Hk & Pk). apply in_seq in Hk.
    destruct (IH k) as (m & Hm & Pm & Hl); [lia|auto|]. exists m. split; [lia|auto].
  - exists n. split; auto. split; auto. intros k Hk.
    destruct (P k) eqn:Ek; auto. exfalso.
    assert (existsb P (seq 0 n) = true) by (apply existsb_exists; exists k; split; auto; apply in_seq; lia).
    congruence.
Qed.

(** A prefix count argument: more slots than entries gives a free slot. *)
Definition count {A} (p : A -> bool) (l : list A) : Z := Z.of_nat (length (filter p l)).

Lemma count_nonneg {A} (p : A -> bool) l : 0 <= count p l.
Proof. unfold count. lia. Qed.

Lemma count_repeat_false {A} (p : A -> bool) x n : p x = false -> count p (repeat x n) = 0.
Proof. unfold count. intros H. induction n; simpl; auto. rewrite H. auto. Qed.

Lemma count_free {A} (p : A -> bool) (l : list A) :
  count p l < Z.of_nat (length l) -> exists i x, nth_error l i = Some x /\ p x = false.
Proof.
  unfold count. induction l as [|a l IH]; simpl; [lia|].
  destruct (p a) eqn:E.
  - simpl. intros H. destruct IH as (i & x & H1 & H2); [lia|]. exists (S i), x. auto.
  - intros _. exists 0%nat, a. auto.
Qed.

Lemma count_upd {A} (p : A -> bool) (l : list A) : forall i x y, nth_error l i = Some x ->
  count p (upd l i y) = count p l - (if p x then 1 else 0) + (if p y then 1 else 0).
Proof.
  unfold count. induction l as [|a l IH]; intros [|i] x y H; simpl in H; try discriminate.
  - inversion H; subst. simpl. destruct (p x), (p y); simpl length; lia.
  - specialize (IH i x y H). simpl. destruct (p a); simpl length; destruct (p x), (p y); lia.
Qed.

Lemma count_app {A} (p : A -> bool) l1 l2 : count p (l1 ++ l2) = count p l1 + count p l2.
Proof. unfold count. rewrite filter_app, app_length. lia. Qed.

Lemma count_cons {A} (p : A -> bool) a l : count p (a :: l) = (if p a then 1 else 0) + count p l.
Proof. unfold count. simpl. destruct (p a); simpl length; lia. Qed.
