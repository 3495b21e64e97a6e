(** * C08-C11, C15: hash consing (utilities/hashcons.c) *)
From Coq Require Import Permutation Sorted.
From Verif Require Import Base PrimeModel PrimeSpec PrimeProofs HashTableModel HashConsModel HashConsSpec
  HashConsProofs HashConsSetProofs PropsUtil.
Open Scope Z_scope.

Lemma Forall2_nth {A B} (P : A -> B -> Prop) l1 l2 : Forall2 P l1 l2 -> forall i a b,
  nth_error l1 i = Some a -> nth_error l2 i = Some b -> P a b.
Proof. intros F. induction F; intros [|i] a b; simpl; intros; try discriminate; [congruence|eauto]. Qed.

Lemma denotes_deref {A} (eqf : A -> A -> bool) o p x : denotes eqf o p x ->
  exists z, deref o p = Ok z /\ eqf z x = true.
Proof. intros (q & y & -> & Hq & E). exists y. split; auto. now apply deref_S. Qed.

(** ** C08: any history of calls on a statically initialised table, with any
    prior use of the prime sieve, answers every call; results are the same
    pointer exactly for equal items; each result points at an equal object. *)
Theorem C08_hash_consing : forall (A : Type) (hashf : A -> Z) (equalf : A -> A -> bool) st (items : list A),
  hc_good hashf equalf -> reachable_sieve st -> Z.of_nat (length items) < 250000000 ->
  exists st' h ps, gets hashf equalf st hc_static items = Ok (st', h, ps) /\ length ps = length items /\
    forall i j p q x y,
      nth_error ps i = Some p -> nth_error items i = Some x ->
      nth_error ps j = Some q -> nth_error items j = Some y ->
      (p = q <-> equalf x y = true) /\
      (exists z, deref (objs h) p = Ok z /\ equalf z x = true).
Proof.
  intros A hashf equalf st items G Hst Hlen.
  destruct (gets_spec hashf equalf G items st hc_static) as (st' & h & ps & E & A1 & A2 & A3 & A4 & A5);
    auto using reachable_ok. { left; auto. }
  exists st', h, ps. split; [auto|]. split. { eapply Forall2_len; eauto. }
  intros i j p q x y Hp Hx Hq Hy.
  pose proof (Forall2_nth _ _ _ A5 _ _ _ Hp Hx) as D1.
  pose proof (Forall2_nth _ _ _ A5 _ _ _ Hq Hy) as D2.
  split; [|apply denotes_deref; auto].
  eapply (denotes_iff hashf equalf G); eauto. eapply state_uniq; eauto.
Qed.
Print Assumptions C08_hash_consing.

(** ** C09: whatever an object contained after the history [xs], it contains
    after any continuation [ys] (in which the table may be resized any number
    of times); the earlier results stay the answers of the earlier calls, and a
    later call with an equal item returns the same address. *)
Theorem C09_objects_stable : forall (A : Type) (hashf : A -> Z) (equalf : A -> A -> bool) st (xs ys : list A),
  hc_good hashf equalf -> reachable_sieve st -> Z.of_nat (length (xs ++ ys)) < 250000000 ->
  exists st1 h1 ps1 st2 h2 ps2,
    gets hashf equalf st hc_static xs = Ok (st1, h1, ps1) /\
    gets hashf equalf st1 h1 ys = Ok (st2, h2, ps2) /\
    (forall p z, deref (objs h1) p = Ok z -> deref (objs h2) p = Ok z) /\
    (forall i j p q x y,
      nth_error ps1 i = Some p -> nth_error xs i = Some x ->
      nth_error ps2 j = Some q -> nth_error ys j = Some y ->
      (p = q <-> equalf x y = true)).
Proof.
  intros A hashf equalf st xs ys G Hst Hlen. rewrite app_length in Hlen.
  destruct (gets_spec hashf equalf G xs st hc_static) as (st1 & h1 & ps1 & E & A1 & A2 & A3 & A4 & A5);
    auto using reachable_ok. { left; auto. } { simpl in *; lia. }
  destruct (gets_spec hashf equalf G ys st1 h1) as (st2 & h2 & ps2 & E2 & B1 & B2 & B3 & B4 & B5); auto.
  { simpl in *; lia. }
  exists st1, h1, ps1, st2, h2, ps2. ands; auto.
  - intros [|p] z; simpl; [discriminate|]. intros H. apply rd_Ok in H || idtac.
    unfold rd in *. destruct (nth_error (objs h1) p) eqn:N; [|discriminate].
    rewrite (extends_nth _ _ _ _ B3 N). congruence.
  - intros i j p q x y Hp Hx Hq Hy.
    pose proof (Forall2_nth _ _ _ A5 _ _ _ Hp Hx) as D1.
    pose proof (Forall2_nth _ _ _ B5 _ _ _ Hq Hy) as D2.
    apply (denotes_iff hashf equalf G (objs h2)); auto; [eapply state_uniq; eauto|eapply denotes_ext; eauto].
Qed.
Print Assumptions C09_objects_stable.

(** A concrete client: items are integers compared modulo 10, hashed
    accordingly; and another with the identity, whose table is resized. *)
Definition mod10_hash (x : Z) : Z := x mod 10.
Definition mod10_eq (x y : Z) : bool := x mod 10 =? y mod 10.
Example mod10_good : hc_good mod10_hash mod10_eq.
Proof. constructor; unfold mod10_eq, mod10_hash; intros; rewrite ?Z.eqb_eq in *; congruence. Qed.
Example C08_case : exists st h, gets mod10_hash mod10_eq primes_init hc_static [3; 13; 4; 23; 4] = Ok (st, h, [1;1;2;1;2]%nat)
  /\ objs h = [3; 4].
Proof. eexists _, _. split; vm_compute; reflexivity. Qed.
Example ident_good : hc_good (fun x : Z => x) Z.eqb.
Proof. constructor; intros; rewrite ?Z.eqb_eq in *; congruence. Qed.
Example C09_case_grows : exists st h ps, gets (fun x => x) Z.eqb primes_init hc_static (map Z.of_nat (seq 0 40)) = Ok (st, h, ps) /\
  hcap h = 139 /\ deref (objs h) 1 = Ok 0.
Proof. eexists _, _, _. ands; vm_compute; reflexivity. Qed.

(** ** C10: every well-formed program over hash-consed sets. *)
Theorem C10_sets_canonical : forall st ops,
  reachable_sieve st -> set_wf 0 ops -> Z.of_nat (length ops) < 250000000 ->
  exists st' h rs, set_run st hc_static [] ops = Ok (st', h, rs) /\ length rs = length ops /\
    forall i j p q, nth_error rs i = Some p -> nth_error rs j = Some q ->
      (exists s, deref (objs h) p = Ok s /\ StronglySorted Z.lt s /\ same_members s (nth i (set_denotes ops) [])) /\
      (p = q <-> same_members (nth i (set_denotes ops) []) (nth j (set_denotes ops) [])).
Proof. intros. apply sets_canonical; auto using reachable_ok. Qed.
Print Assumptions C10_sets_canonical.

Example C10_case : let ops := [SEmpty; SNew [5;3]; SAdd 3 0; SAdd 5 2; SUnion 3 1; SNew [3;9]; SUnion 5 1] in
  set_wf 0 ops /\ exists st h, set_run primes_init hc_static [] ops = Ok (st, h, [1;2;3;2;2;4;5]%nat).
Proof.
  split.
  - simpl. ands; auto; try lia; repeat constructor; simpl; try lia; tauto.
  - eexists _, _. vm_compute. reflexivity.
Qed.

(** The bound on addresses is needed: {1, 2^63} built by [new_hash_cons_set]
    and built by [add_hash_cons_set] are different pointers, because the former
    sorts by signed comparison and the latter merges by pointer comparison. *)
Theorem C10_high_addresses_refuted :
  exists st h, set_run primes_init hc_static [] [SNew [1; 2 ^ 63]; SEmpty; SAdd 1 1; SAdd (2 ^ 63) 2]
    = Ok (st, h, [1; 2; 3; 4]%nat) /\
    deref (objs h) 1 = Ok [2 ^ 63; 1] /\ deref (objs h) 4 = Ok [1; 2 ^ 63].
Proof. eexists _, _. ands; vm_compute; reflexivity. Qed.
Print Assumptions C10_high_addresses_refuted.

(** ** C11: calls of [new_hash_cons_set] on any arguments (addresses below
    2^64, duplicates allowed), in one table: same pointer iff the arguments are
    permutations of each other; the stored array is the argument sorted as
    signed longs. *)
Definition news st ls := set_run st hc_static [] (map SNew ls).
Lemma news_gets ls : forall st h rs, set_run st h rs (map SNew ls) =
  '(st', h', ps) <- gets set_hash set_equal st h (map sort_elements ls) ;; Ok (st', h', rs ++ ps).
Proof.
  induction ls as [|l ls IH]; intros st h rs; cbn [map set_run gets set_step].
  - cbn [bind]. now rewrite app_nil_r.
  - unfold new_hash_cons_set, set_get. destruct (hash_cons_get set_hash set_equal st h (sort_elements l)) as [[[st1 h1] p]| | |]; auto.
    cbn [bind]. rewrite IH. destruct (gets set_hash set_equal st1 h1 (map sort_elements ls)) as [[[st2 h2] ps]| | |]; auto.
    cbn [bind]. now rewrite <- app_assoc.
Qed.

Theorem C11_new_set_sorts : forall st ls, reachable_sieve st -> Z.of_nat (length ls) < 250000000 ->
  Forall (Forall (fun x => 0 <= x < 2 ^ 64)) ls ->
  exists st' h ps, news st ls = Ok (st', h, ps) /\ length ps = length ls /\
    forall i j p q a b, nth_error ps i = Some p -> nth_error ls i = Some a ->
      nth_error ps j = Some q -> nth_error ls j = Some b ->
      (p = q <-> Permutation a b) /\
      (exists s, deref (objs h) p = Ok s /\ Permutation s a /\
         StronglySorted (fun x y => to_long x <= to_long y) s).
Proof.
  intros st ls Hst Hlen HF.
  destruct (gets_map st hc_static ls (length ls) (reachable_ok _ Hst) (or_introl eq_refl))
    as (st' & h & ps & E & A1 & A2); auto.
  exists st', h, ps. unfold news. rewrite news_gets, E. cbn [bind app]. split; auto.
  split. { apply Forall2_len in A2. now rewrite map_length in A2. }
  intros i j p q a b Hp Ha Hq Hb.
  assert (Ha' : nth_error (map sort_elements ls) i = Some (sort_elements a)) by (now apply map_nth_error).
  assert (Hb' : nth_error (map sort_elements ls) j = Some (sort_elements b)) by (now apply map_nth_error).
  pose proof (Forall2_nth _ _ _ A2 _ _ _ Hp Ha') as D1.
  pose proof (Forall2_nth _ _ _ A2 _ _ _ Hq Hb') as D2.
  split.
  - rewrite (denotes_iff set_hash set_equal set_good _ _ _ _ _ (state_uniq set_hash set_equal h A1) D1 D2).
    rewrite set_equal_eq. apply nth_error_In in Ha, Hb. rewrite Forall_forall in HF. split.
    + intros Es. rewrite <- (sort_perm a), Es. apply sort_perm.
    + intros P. apply sort_canonical; auto.
  - destruct (denotes_deref _ _ _ _ D1) as (z & Hz & Ez). apply set_equal_eq in Ez. subst z.
    exists (sort_elements a). ands; auto. apply sort_perm. apply sort_sorted.
Qed.
Print Assumptions C11_new_set_sorts.

Example C11_case : Forall (Forall (fun x => 0 <= x < 2 ^ 64)) [[7;2;2^63]; [2;2^63;7]; [2;2;7]; [2;7]] /\
  exists st h, news primes_init [[7;2;2^63]; [2;2^63;7]; [2;2;7]; [2;7]] = Ok (st, h, [1;1;2;3]%nat).
Proof. split; [repeat constructor; lia|]. eexists _, _. vm_compute. reflexivity. Qed.

(** ** C15 *)
(** On strings of at most ten characters (bytes as signed chars) the hash is
    the polynomial 5381*33^n + sum c_i 33^(n-1-i). *)
Theorem C15_hash_string_partial : forall s, Forall is_char s -> (length s <= 10)%nat ->
  hash_string s = Ok (fold_left (fun h c => 33 * h + c) s 5381).
Proof. exact hash_string_short. Qed.
Print Assumptions C15_hash_string_partial.

(** Every longer string overflows a signed long. *)
Theorem C15_hash_string_refuted : forall s, Forall is_char s -> (11 <= length s)%nat -> hash_string s = UB.
Proof. exact hash_string_long. Qed.
Print Assumptions C15_hash_string_refuted.

Example C15_case : hash_string [97; 98] = Ok 5863208 /\ Forall is_char [97; 98].
Proof. split; [vm_compute; reflexivity|]. repeat constructor; lia. Qed.

Theorem C15_hash_mix : forall h1 h2, LONG_MIN <= h1 <= LONG_MAX -> LONG_MIN <= h2 <= LONG_MAX ->
  (LONG_MIN <= 527 + h1 <= LONG_MAX -> LONG_MIN <= (527 + h1) * 31 <= LONG_MAX ->
   LONG_MIN <= (527 + h1) * 31 + h2 <= LONG_MAX -> hash_mix h1 h2 = Ok (31 * (31 * 17 + h1) + h2)) /\
  (~ (LONG_MIN <= 527 + h1 <= LONG_MAX /\ LONG_MIN <= (527 + h1) * 31 <= LONG_MAX /\
      LONG_MIN <= (527 + h1) * 31 + h2 <= LONG_MAX) -> hash_mix h1 h2 = UB).
Proof. exact hash_mix_spec. Qed.
Print Assumptions C15_hash_mix.
Example C15_mix_case : hash_mix 5 7 = Ok 16499 /\ hash_mix LONG_MAX 0 = UB.
Proof. split; vm_compute; reflexivity. Qed.
