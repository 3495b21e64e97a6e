(** * Properties C01-C07: utilities/prime.c, stack.c, hashtable.c *)
From Coq Require Import Znumtheory.
From Verif Require Import Base PrimeModel PrimeSpec PrimeProofs ProbeProofs.
From Verif Require StackModel StackSpec StackProofs.
From Verif Require Import HashTableModel HashTableSpec HashTableProofs.
Open Scope Z_scope.

(** A sieve state that some sequence of earlier next_twin_prime calls (with
    arguments up to 10^9+9) can leave behind. *)
Definition reachable_sieve (st : primes) : Prop :=
  exists before results, Forall (fun y => 0 <= y <= 1000000009) before /\
                         calls primes_init before = Ok (st, results).

Lemma reachable_ok st : reachable_sieve st -> st_ok st.
Proof.
  intros (b & rs & Hb & E). destruct (calls_correct b primes_init st_ok_init Hb) as (st' & rs' & E' & H & _).
  rewrite E in E'. inversion E'; subst; auto.
Qed.

(** ** C01 *)
Theorem C01_next_twin_prime_least : forall before, Forall (fun y => 0 <= y <= 1000000009) before ->
  exists st rs, calls primes_init before = Ok (st, rs) /\ Forall2 least_twin before rs /\
  forall x, 0 <= x <= 1000000009 ->
  exists st' r, next_twin_prime st x = Ok (st', r) /\ least_twin x r.
Proof.
  intros b Hb. destruct (calls_correct b primes_init st_ok_init Hb) as (st & rs & E & H & HF).
  exists st, rs. ands; auto. intros x Hx.
  destruct (next_twin_prime_total st x H Hx) as (st' & r & E'). exists st', r. split; auto.
  apply (next_twin_prime_sound st x st' r); auto; lia.
Qed.
Print Assumptions C01_next_twin_prime_least.

Definition results_of {A B} (r : res (A * B)) : option B := match r with Ok (_, b) => Some b | _ => None end.
Example C01_example : results_of (calls primes_init [100; 3; 0; 9940; 10000]) = Some [103; 5; 5; 10009; 10009].
Proof. vm_compute. reflexivity. Qed.

(** ** C02 *)
Theorem C02_negative_never_returns : forall st x, reachable_sieve st -> x < 0 ->
  forall st' r, next_twin_prime st x <> Ok (st', r).
Proof.
  intros st x Hst Hx st' r. rewrite next_twin_prime_negative; auto using reachable_ok. discriminate.
Qed.
(** ... and it ends in undefined behaviour (int overflow in the sieve). *)
Theorem C02_negative_overflows : forall st x, reachable_sieve st -> x < 0 -> next_twin_prime st x = UB.
Proof. intros. apply next_twin_prime_negative; auto using reachable_ok. Qed.
Print Assumptions C02_negative_overflows.
Example C02_example : reachable_sieve primes_init.
Proof. exists [], []. split; [constructor|reflexivity]. Qed.

(** ** C03 *)
Theorem C03_stack_lifo : forall ops,
  exists h m, StackModel.run [] (fun _ => StackModel.stack_create) ops =
                Ok (h, m, snd (StackSpec.srun (fun _ => []) ops)) /\
    ((forall i, fst (StackSpec.srun (fun _ => []) ops) i = []) -> StackProofs.live_count h = 0%nat).
Proof. exact StackProofs.stack_history. Qed.
Print Assumptions C03_stack_lifo.
Example C03_example :
  exists h m, StackModel.run [] (fun _ => StackModel.stack_create)
    [StackModel.Push 0 7; StackModel.Push 0 8; StackModel.Push 1 9; StackModel.Pop 0; StackModel.Pop 1;
     StackModel.Pop 1; StackModel.Destroy 0; StackModel.IsEmpty 0]
  = Ok (h, m, [StackModel.ONone; StackModel.ONone; StackModel.ONone; StackModel.OPop (Some 8);
               StackModel.OPop (Some 9); StackModel.OPop None; StackModel.ONone; StackModel.OEmpty true]) /\
    StackProofs.live_count h = 0%nat.
Proof. eexists _, _. split; reflexivity. Qed.

(** ** C04 *)
Theorem C04_hash_table_is_map : forall hashf equalf, good equalf hashf ->
  forall st c0 adds, reachable_sieve st -> 0 <= c0 <= 1000000009 ->
  Forall (fun e => fst e <> 0) adds -> Z.of_nat (length adds) < 250000000 ->
  exists st' t, history hashf equalf st c0 (map (fun e => Add (fst e) (snd e)) adds) = Ok (st', t) /\
    tsize t = distinct equalf adds /\
    forall k, k <> 0 ->
      hash_table_get hashf equalf t k = Ok (match latest equalf adds k with Some v => v | None => 0 end) /\
      hash_table_contains hashf equalf t k = Ok (match latest equalf adds k with Some _ => true | None => false end).
Proof.
  intros hashf equalf G st c0 adds Hst Hc Hnz Hlen.
  destruct (history_strong hashf equalf G c0 adds Hc Hnz ltac:(lia) st (reachable_ok st Hst))
    as (st' & t & E & _ & Hsh & Hs).
  exists st', t. ands; auto. { apply Hs. }
  intros k Hk. destruct (strong_lookup hashf equalf G t adds k Hsh Hs Hk). auto.
Qed.
Print Assumptions C04_hash_table_is_map.

(** NULL keys are rejected in every state. *)
Theorem C04_null_key_exits : forall hashf equalf st t v,
  hash_table_add_or_update hashf equalf st t 0 v = Exit.
Proof. reflexivity. Qed.

Lemma ptr_good : good ptr_equalf ptr_hashf.
Proof.
  unfold ptr_equalf. constructor; intros.
  - apply Z.eqb_refl.
  - apply Z.eqb_eq in H1. subst. apply Z.eqb_refl.
  - apply Z.eqb_eq in H2, H3. subst. apply Z.eqb_refl.
  - apply Z.eqb_eq in H1. now subst.
  - apply Z.eqb_neq. auto.
Qed.

Definition lookups (ks : list Z) (r : res (primes * table)) : option (list (res Z)) :=
  match r with Ok (_, t) => Some (map (hash_table_get ptr_hashf ptr_equalf t) ks) | _ => None end.

(** Five colliding keys in a table of capacity 5: two resizes, one update. *)
Example C04_example :
  lookups [5; 10; 15; 20; 25; 30]
    (history ptr_hashf ptr_equalf primes_init 5
       (map (fun e => Add (fst e) (snd e)) [(5, 1); (10, 2); (15, 3); (20, 4); (25, 5); (10, 6)]))
  = Some [Ok 1; Ok 6; Ok 3; Ok 4; Ok 5; Ok 0].
Proof. vm_compute. reflexivity. Qed.
(** The same with a constant hash function. *)
Lemma const_good : good ptr_equalf (fun _ => 7).
Proof. pose proof ptr_good as [A B C D E]. constructor; auto. Qed.

(** ** C05 *)
(** Every history of adds and removes of non-NULL keys runs to completion
    without undefined behaviour, and the lookups in its final state too. *)
Theorem C05_hash_table_total : forall hashf equalf, good equalf hashf ->
  forall st c0 ops, reachable_sieve st -> 0 <= c0 <= 1000000009 ->
  Forall (fun o => match o with Add k _ => k <> 0 | Remove k => k <> 0 end) ops ->
  Z.of_nat (length ops) < 250000000 ->
  exists st' t, history hashf equalf st c0 ops = Ok (st', t) /\
    prime (capacity t) /\ prime (capacity t - 2) /\
    Z.of_nat (length (slots t)) = capacity t /\ 0 <= 2 * tsize t <= capacity t /\
    forall k, k <> 0 ->
      exists v b, hash_table_get hashf equalf t k = Ok v /\ hash_table_contains hashf equalf t k = Ok b /\
                  (b = false -> v = 0) /\
                  (b = true -> exists k', In (Add k' v) ops /\ equalf k' k = true).
Proof.
  intros hashf equalf G st c0 ops Hst Hc Hnz Hlen.
  destruct (history_weak hashf equalf G c0 ops Hc) with (st := st) as (st' & t & E & _ & Hsh & Hs);
    auto using reachable_ok; try lia.
  { eapply Forall_impl; [|exact Hnz]. intros [k v|k]; auto. }
  exists st', t. destruct (sh_twin t Hsh) as [P1 P2]. pose proof (shape_cap t Hsh) as Hcap. ands; auto.
  - apply Hsh.
  - rewrite (sh_size t Hsh). pose proof (count_nonneg nonnull (slots t)). lia.
  - apply Hsh.
  - intros k Hk. destruct (contains_eq hashf equalf t k Hsh) as (n & _ & Sn & _ & E1 & E2). cbv zeta in *.
    set (i := pr hashf (capacity t) k n) in *.
    rewrite E1, E2. eexists _, _. split; [reflexivity|]. split; [reflexivity|].
    split; [intros ->; reflexivity|]. intros Eq. rewrite Eq.
    assert (Hi : 0 <= i < capacity t) by (apply pr_range; lia).
    assert (Hki : keyat t i <> 0).
    { intros Hz. rewrite Hz, (eqn hashf equalf G) in Eq by auto. discriminate. }
    destruct (Hs i Hi Hki) as (k' & Hin & Hk' & Eq').
    exists k'. split.
    + apply in_flat_map in Hin. destruct Hin as (o & Ho & Hin). destruct o; simpl in Hin; [|contradiction].
      destruct Hin as [Hin|[]]. inversion Hin; subst. auto.
    + apply (eqt hashf equalf G _ (keyat t i) _); auto. apply (eqs hashf equalf G); auto.
Qed.
Print Assumptions C05_hash_table_total.
Example C05_example : exists st' t,
  history (fun _ => 7) ptr_equalf primes_init 0 [Add 5 1; Add 6 2; Remove 5; Add 7 3; Add 8 4] = Ok (st', t) /\
  hash_table_get (fun _ => 7) ptr_equalf t 8 = Ok 4 /\ tsize t = 3.
Proof. eexists _, _. split; [vm_compute; reflexivity|]. split; vm_compute; reflexivity. Qed.

(** ** C06 *)
(** Proved part: after adds, removing [k] reports whether it was present,
    afterwards [k] is absent and the size has dropped by one if it was present.
    Missing (and false, see below): the other keys keep their values. *)
Theorem C06_remove_partial : forall hashf equalf, good equalf hashf ->
  forall st c0 adds, reachable_sieve st -> 0 <= c0 <= 1000000009 ->
  Forall (fun e => fst e <> 0) adds -> Z.of_nat (length adds) < 250000000 ->
  forall k, k <> 0 ->
  exists st' t t' b, history hashf equalf st c0 (map (fun e => Add (fst e) (snd e)) adds) = Ok (st', t) /\
    hash_table_remove hashf equalf t k = Ok (t', b) /\
    b = (match latest equalf adds k with Some _ => true | None => false end) /\
    hash_table_contains hashf equalf t' k = Ok false /\
    tsize t' = distinct equalf adds - (if b then 1 else 0).
Proof.
  intros hashf equalf G st c0 adds Hst Hc Hnz Hlen k Hk.
  destruct (history_strong hashf equalf G c0 adds Hc Hnz ltac:(lia) st (reachable_ok st Hst))
    as (st' & t & E & _ & Hsh & Hs).
  destruct (strong_remove hashf equalf G t adds k Hsh Hs Hk) as (t' & b & E1 & E2 & E3 & E4).
  exists st', t, t', b. ands; auto. rewrite E3. f_equal. apply Hs.
Qed.
Print Assumptions C06_remove_partial.

(** The full statement is false: keys 5 and 10 collide in a table of capacity
    5; removing 5 makes 10 unreachable although it was added and not removed. *)
Theorem C06_remove_loses_other_keys_refuted :
  exists st' t, history ptr_hashf ptr_equalf primes_init 5 [Add 5 1; Add 10 2; Remove 5] = Ok (st', t) /\
    hash_table_contains ptr_hashf ptr_equalf t 10 = Ok false /\
    hash_table_get ptr_hashf ptr_equalf t 10 = Ok 0.
Proof. eexists _, _. split; [vm_compute; reflexivity|]. split; vm_compute; reflexivity. Qed.

(** ** C07 *)
(** With the shipped pointer functions every reachable table claims to contain
    NULL, and removing NULL succeeds and decrements the size. *)
Theorem C07_null_key_refuted : forall st c0 ops, reachable_sieve st -> 0 <= c0 <= 1000000009 ->
  Forall (fun o => match o with Add k _ => k <> 0 | Remove k => k <> 0 end) ops ->
  Z.of_nat (length ops) < 250000000 ->
  exists st' t t', history ptr_hashf ptr_equalf st c0 ops = Ok (st', t) /\
    hash_table_contains ptr_hashf ptr_equalf t 0 = Ok true /\
    hash_table_remove ptr_hashf ptr_equalf t 0 = Ok (t', true) /\ tsize t' = tsize t - 1.
Proof.
  intros st c0 ops Hst Hc Hnz Hlen.
  destruct (history_weak ptr_hashf ptr_equalf ptr_good c0 ops Hc) with (st := st) as (st' & t & E & _ & Hsh & Hs);
    auto using reachable_ok; try lia.
  { eapply Forall_impl; [|exact Hnz]. intros [k v|k]; auto. }
  pose proof (shape_cap t Hsh) as Hcap. pose proof (sh_len t Hsh).
  destruct (candidate_spec ptr_hashf ptr_equalf t 0 Hsh) as (n & Hn & E1 & Sn & _).
  set (i := pr ptr_hashf (capacity t) 0 n) in *.
  assert (Hi : 0 <= i < capacity t) by (apply pr_range; lia).
  assert (Hk : ptr_equalf (keyat t i) 0 = true).
  { unfold stop in Sn. apply orb_true_iff in Sn. unfold ptr_equalf in *. destruct Sn; auto. }
  eexists st', t, _. split; auto. unfold hash_table_contains, hash_table_remove. rewrite E1; cbn [bind].
  rewrite slot_eq by auto. cbn [bind]. fold (keyat t i). rewrite Hk. split; auto.
  rewrite wr_Ok by lia. cbn [bind]. split; [reflexivity|]. reflexivity.
Qed.
Print Assumptions C07_null_key_refuted.

(** A cleared table cannot be used again: every lookup divides by zero and
    every add frees the entry array a second time. *)
Theorem C07_cleared_table_unusable_refuted : forall hashf equalf st t t', reachable_sieve st ->
  hash_table_clear t = Ok t' ->
  forall k v, k <> 0 ->
  hash_table_get hashf equalf t' k = UB /\ hash_table_contains hashf equalf t' k = UB /\
  hash_table_remove hashf equalf t' k = UB /\ hash_table_add_or_update hashf equalf st t' k v = UB.
Proof.
  intros hashf equalf st t t' Hst E k v Hk. unfold hash_table_clear in E.
  destruct (freed t); [discriminate|]. inversion E; subst t'. ands; try reflexivity.
  unfold hash_table_add_or_update. rewrite add_unfold. destruct (Z.eqb_spec k 0); [lia|].
  cbn [capacity tsize freed]. change (0 <? 2 * (0 + 1)) with true. cbn [bind double_int].
  change (double_int 0) with (Ok 1). cbn [bind].
  destruct (next_twin_prime_total st 1 (reachable_ok st Hst)) as (st0 & nc & E0); [unfold BIG_TWIN; lia|].
  rewrite E0; cbn [bind].
  destruct (next_twin_prime_sound st 1 st0 nc (reachable_ok st Hst) ltac:(lia) E0) as [Hst0 HL0].
  destruct (initialize_spec st0 nc Hst0) as (st1 & c' & E1 & _).
  { split; [apply proj1 in HL0; lia|]. apply least_twin_bound with (x := 1); auto. unfold BIG_TWIN; lia. }
  rewrite E1; cbn [bind]. reflexivity.
Qed.
Print Assumptions C07_cleared_table_unusable_refuted.
