(** * SlNum: powers and ranges of the Scala library (proofs for C86, C87). *)
From Verif Require Import Base SlSpec SlModel.
From Coq Require Import ZArith Lia.
Open Scope Z_scope.

Lemma wrap_id z : is_int z -> wrap z = z.
Proof.
  unfold is_int, wrap; intros H.
  rewrite Z.mod_small by lia. lia.
Qed.
Lemma wrap_int z : is_int (wrap z).
Proof.
  unfold is_int, wrap.
  pose proof (Z.mod_pos_bound (z + 2147483648) 4294967296 ltac:(lia)). lia.
Qed.
Lemma wrap_high z : 2147483648 <= z < 6442450944 -> wrap z = z - 4294967296.
Proof.
  intros H. unfold wrap.
  replace (z + 2147483648) with ((z - 4294967296 + 2147483648) + 1 * 4294967296) by lia.
  rewrite Z.mod_add by lia. rewrite Z.mod_small by lia. lia.
Qed.
Lemma wrap_low z : -6442450944 <= z < -2147483648 -> wrap z = z + 4294967296.
Proof.
  intros H. unfold wrap.
  replace (z + 2147483648) with ((z + 4294967296 + 2147483648) + (-1) * 4294967296) by lia.
  rewrite Z.mod_add by lia. rewrite Z.mod_small by lia. lia.
Qed.

Lemma half_int y : is_int y -> i_divide y 2 = Ok (Z.quot y 2).
Proof.
  intros H. unfold i_divide.
  change (2 =? 0) with false. cbn iota. f_equal. apply wrap_id.
  unfold is_int in *.
  pose proof (Z.quot_rem' y 2). 
  destruct (Z_le_gt_dec 0 y).
  - pose proof (Z.rem_bound_pos y 2 ltac:(lia) ltac:(lia)). lia.
  - pose proof (Z.rem_bound_pos_neg y 2 ltac:(lia) ltac:(lia)). lia.
Qed.

Lemma cpp_odd_spec v : cpp_odd v = Z.odd v.
Proof.
  unfold cpp_odd. change 1 with (Z.ones 1). rewrite Z.land_ones by lia.
  change (2 ^ 1) with 2. rewrite Zmod_odd. destruct (Z.odd v); reflexivity.
Qed.
Lemma scala_odd_spec v : scala_odd v = negb (Z.odd v).
Proof. rewrite <- cpp_odd_spec. unfold cpp_odd, scala_odd. rewrite negb_involutive. reflexivity. Qed.

Section MONOID.
Context {T : Type} (one : T) (times : T -> T -> T) (divide : T -> T -> res T).
Hypothesis MON : monoid one times.

Lemma npow_add x n m : npow one times x (n + m) = times (npow one times x n) (npow one times x m).
Proof.
  destruct MON as (U1 & U2 & A).
  induction n as [|n IH]; simpl; [rewrite U1; reflexivity|].
  rewrite IH, A. reflexivity.
Qed.
Lemma npow_square x n : npow one times (times x x) n = npow one times x (2 * n).
Proof.
  destruct MON as (U1 & U2 & A).
  induction n as [|n IH]; [reflexivity|].
  replace (2 * S n)%nat with (S (S (2 * n))) by lia.
  simpl npow at 1. rewrite IH. simpl npow. rewrite <- A. reflexivity.
Qed.

(** With C++'s [odd] powers are right. *)
Lemma power_cpp : forall n fuel x y, 0 <= y -> is_int y -> (Z.to_nat y < n)%nat -> (n <= fuel)%nat ->
  power one times divide cpp_odd fuel x y = Ok (npow one times x (Z.to_nat y)).
Proof.
  destruct MON as (U1 & U2 & A).
  induction n as [|n IH]; intros fuel x y P I B F; [lia|].
  destruct fuel as [|fuel]; [lia|]. cbn [power].
  destruct (Z.eqb_spec y 0) as [E0|E0]; [subst y; reflexivity|].
  destruct (Z.ltb_spec y 0); [lia|].
  destruct (Z.eqb_spec y 1) as [E1|E1]; [subst y; simpl; rewrite U2; reflexivity|].
  rewrite cpp_odd_spec. destruct (Z.odd y) eqn:O.
  - unfold i_minus. rewrite wrap_id by (unfold is_int in *; lia).
    rewrite IH by (unfold is_int in *; lia). cbn [bind].
    replace (Z.to_nat y) with (S (Z.to_nat (y - 1))) by lia. reflexivity.
  - rewrite half_int by assumption. cbn [bind].
    assert (EV : y = 2 * Z.quot y 2).
    { rewrite Z.quot_div_nonneg by lia. 
      pose proof (Zdiv2_odd_eqn y) as D. rewrite O in D. rewrite Z.div2_div in D. lia. }
    rewrite IH by (unfold is_int in *; lia).
    rewrite npow_square. f_equal. f_equal. lia.
Qed.
Lemma power_small (odd : Z -> bool) x y : odd = scala_odd -> 0 <= y <= 2 ->
  forall fuel, (3 <= fuel)%nat -> power one times divide odd fuel x y = Ok (npow one times x (Z.to_nat y)).
Proof.
  destruct MON as (U1 & U2 & A). intros -> B fuel F.
  destruct fuel as [|[|[|fuel]]]; try lia. assert (C : y = 0 \/ y = 1 \/ y = 2) by lia.
  destruct C as [->|[->| ->]]; simpl.
  - reflexivity.
  - rewrite U2; reflexivity.
  - rewrite U2; reflexivity.
Qed.
End MONOID.

(** With Scala's [odd], over the integers: too small. *)
Lemma power_scala divide : forall n fuel x y, 1 <= x -> 0 <= y -> is_int y -> (Z.to_nat y < n)%nat -> (n <= fuel)%nat ->
  exists r, power 1 Z.mul divide scala_odd fuel x y = Ok r /\ 1 <= r <= x ^ y /\
    (3 <= y -> 2 <= x -> r < x ^ y).
Proof.
  induction n as [|n IH]; intros fuel x y X P I B F; [lia|].
  destruct fuel as [|fuel]; [lia|]. cbn [power].
  destruct (Z.eqb_spec y 0) as [E0|E0]; [subst y; exists 1; repeat split; try lia|].
  destruct (Z.ltb_spec y 0); [lia|].
  destruct (Z.eqb_spec y 1) as [E1|E1].
  { subst y; exists x. rewrite Z.pow_1_r. repeat split; lia. }
  rewrite scala_odd_spec. destruct (Z.odd y) eqn:O; cbn [negb].
  - rewrite half_int by assumption. cbn [bind].
    assert (EV : y = 2 * Z.quot y 2 + 1).
    { rewrite Z.quot_div_nonneg by lia. 
      pose proof (Zdiv2_odd_eqn y) as D. rewrite O in D. rewrite Z.div2_div in D. lia. }
    destruct (IH fuel (x * x) (Z.quot y 2)) as (r & R & (R1 & R2) & R3); [nia|unfold is_int in *; lia..|].
    exists r. split; [exact R|].
    assert (Q : (x * x) ^ Z.quot y 2 * x = x ^ y).
    { replace (x * x) with (x ^ 2) by lia. rewrite <- Z.pow_mul_r by lia.
      replace y with (2 * Z.quot y 2 + 1) at 2 by lia.
      rewrite Z.pow_add_r by lia. rewrite Z.pow_1_r. reflexivity. }
    pose proof (Z.pow_pos_nonneg (x * x) (Z.quot y 2) ltac:(nia) ltac:(lia)).
    split; [nia|]. intros. nia.
  - unfold i_minus. rewrite wrap_id by (unfold is_int in *; lia).
    destruct (IH fuel x (y - 1)) as (r & R & (R1 & R2) & R3); [lia|unfold is_int in *; lia..|].
    exists (x * r). rewrite R. cbn [bind]. split; [reflexivity|].
    assert (Q : x ^ (y - 1) * x = x ^ y).
    { replace y with ((y - 1) + 1) at 2 by lia. rewrite Z.pow_add_r by lia. rewrite Z.pow_1_r. reflexivity. }
    assert (Y4 : 3 <= y -> 4 <= y).
    { intros. destruct (Z.eq_dec y 3); [subst y; discriminate O|lia]. }
    split; [nia|]. intros Y3 X2. specialize (R3 ltac:(specialize (Y4 Y3); lia) X2). nia.
Qed.

(** ** Ranges *)

Definition zseq (x : Z) (n : nat) : list Z := map (fun i => x + Z.of_nat i) (seq 0 n).

Lemma zseq_app x n m : zseq x (n + m) = zseq x n ++ zseq (x + Z.of_nat n) m.
Proof.
  unfold zseq. rewrite seq_app, map_app. f_equal. rewrite Nat.add_0_l.
  rewrite <- (Nat.add_0_r n) at 1.
  enough (G : forall k, map (fun i : nat => x + Z.of_nat i) (seq (n + k) m) =
    map (fun i : nat => x + Z.of_nat n + Z.of_nat i) (seq k m)) by apply G.
  induction m as [|m IH]; intros k; [reflexivity|].
  simpl. f_equal; [lia|]. rewrite <- IH. rewrite Nat.add_succ_r. reflexivity.
Qed.

Lemma zseq_interval x y : interval x y (zseq x (Z.to_nat (y - x + 1))).
Proof.
  unfold interval, zseq. rewrite map_length, seq_length. split; [lia|].
  intros i L. apply (map_nth_error (fun i0 : nat => x + Z.of_nat i0)).
  rewrite (nth_error_nth' _ 0%nat) by (rewrite seq_length; lia).
  rewrite seq_nth by lia. reflexivity.
Qed.

Lemma srange_ok : forall n fuel x y, 0 <= x -> y <= 1073741824 -> (Z.to_nat (y - x) < n)%nat -> (n <= fuel)%nat ->
  srange fuel x y = Ok (zseq x (Z.to_nat (y - x + 1))).
Proof.
  induction n as [|n IH]; intros fuel x y X Y B F; [lia|].
  destruct fuel as [|fuel]; [lia|]. cbn [srange].
  destruct (Z.eqb_spec x y) as [E|E].
  { subst y. replace (x - x + 1) with 1 by lia. unfold zseq. simpl. rewrite Z.add_0_r. reflexivity. }
  destruct (Z.ltb_spec y x) as [L|L].
  { replace (Z.to_nat (y - x + 1)) with 0%nat by lia. reflexivity. }
  unfold i_plus at 1. rewrite wrap_id by (unfold is_int; lia).
  rewrite half_int by (unfold is_int; lia). cbn [bind].
  set (m := Z.quot (x + y) 2).
  assert (M : x <= m < y).
  { unfold m. rewrite Z.quot_div_nonneg by lia.
    split; [apply Z.div_le_lower_bound; lia|apply Z.div_lt_upper_bound; lia]. }
  rewrite (IH fuel x m) by lia. cbn [bind].
  unfold i_plus. rewrite wrap_id by (unfold is_int; lia).
  rewrite (IH fuel (m + 1) y) by lia. cbn [bind]. f_equal.
  replace (Z.to_nat (y - x + 1)) with (Z.to_nat (m - x + 1) + Z.to_nat (y - (m + 1) + 1))%nat by lia.
  rewrite zseq_app. f_equal. f_equal. lia.
Qed.

Lemma srange_negative : forall fuel x y, is_int x -> is_int y -> x < 0 -> x < y -> srange fuel x y = Fuel.
Proof.
  induction fuel as [|fuel IH]; intros x y IX IY X L; [reflexivity|]. cbn [srange].
  destruct (Z.eqb_spec x y) as [E|E]; [lia|].
  destruct (Z.ltb_spec y x) as [L'|L']; [lia|].
  rewrite half_int by apply wrap_int. cbn [bind].
  set (m := Z.quot (i_plus x y) 2).
  assert (M : x < m /\ is_int m).
  { unfold m, i_plus. unfold is_int in *.
    pose proof (Z.quot_rem' (wrap (x + y)) 2) as Q.
    destruct (Z_lt_le_dec (x + y) (-2147483648)).
    - rewrite wrap_low in * by lia.
      pose proof (Z.rem_bound_pos (x + y + 4294967296) 2 ltac:(lia) ltac:(lia)). lia.
    - rewrite wrap_id in * by (unfold is_int; lia).
      destruct (Z_le_gt_dec 0 (x + y)).
      + pose proof (Z.rem_bound_pos (x + y) 2 ltac:(lia) ltac:(lia)). lia.
      + pose proof (Z.rem_bound_pos_neg (x + y) 2 ltac:(lia) ltac:(lia)). lia. }
  rewrite (IH x m); [reflexivity|exact IX|apply M|exact X|apply M].
Qed.

Lemma srange_outcome : forall fuel x y, srange fuel x y = Fuel \/ exists l, srange fuel x y = Ok l.
Proof.
  induction fuel as [|fuel IH]; intros x y; [left; reflexivity|]. cbn [srange].
  destruct (x =? y); [right; eexists; reflexivity|]. destruct (y <? x); [right; eexists; reflexivity|].
  rewrite half_int by apply wrap_int. cbn [bind].
  destruct (IH x (Z.quot (i_plus x y) 2)) as [-> | (l & ->)]; [left; reflexivity|]. cbn [bind].
  destruct (IH (i_plus (Z.quot (i_plus x y) 2) 1) y) as [-> | (l' & ->)]; [left; reflexivity|].
  right; eexists; reflexivity.
Qed.

Lemma srange_big : forall fuel x y, is_int x -> is_int y -> 0 <= x -> x < y -> 1073741824 < y -> srange fuel x y = Fuel.
Proof.
  induction fuel as [|fuel IH]; intros x y IX IY X L Y; [reflexivity|]. cbn [srange].
  destruct (Z.eqb_spec x y) as [E|E]; [lia|].
  destruct (Z.ltb_spec y x) as [L'|L']; [lia|].
  rewrite half_int by apply wrap_int. cbn [bind].
  set (m := Z.quot (i_plus x y) 2).
  assert (RIGHT : is_int m /\ srange fuel (i_plus m 1) y = Fuel).
  { unfold is_int in IX, IY. unfold m, i_plus.
    pose proof (Z.quot_rem' (wrap (x + y)) 2) as Q.
    destruct (Z_lt_le_dec (x + y) 2147483648) as [C|C].
    - assert (WS : wrap (x + y) = x + y) by (apply wrap_id; unfold is_int; lia).
      rewrite WS in *.
      pose proof (Z.rem_bound_pos (x + y) 2 ltac:(lia) ltac:(lia)).
      split; [unfold is_int; lia|].
      rewrite wrap_id by (unfold is_int; lia).
      apply IH; unfold is_int; lia.
    - assert (WS : wrap (x + y) = x + y - 4294967296) by (apply wrap_high; lia).
      rewrite WS in *.
      pose proof (Z.rem_bound_pos_neg (x + y - 4294967296) 2 ltac:(lia) ltac:(lia)).
      split; [unfold is_int; lia|].
      rewrite wrap_id by (unfold is_int; lia).
      destruct (Z.eq_dec (Z.quot (x + y - 4294967296) 2 + 1) 0) as [Z0|Z0].
      + apply IH; unfold is_int; lia.
      + apply srange_negative; unfold is_int; lia. }
  destruct RIGHT as (IM & R). rewrite R.
  destruct (srange fuel x m) eqn:LFT; cbn [bind]; try reflexivity; exfalso.
  - destruct (srange_outcome fuel x m) as [O|(l & O)]; rewrite O in LFT; discriminate.
  - destruct (srange_outcome fuel x m) as [O|(l & O)]; rewrite O in LFT; discriminate.
Qed.
