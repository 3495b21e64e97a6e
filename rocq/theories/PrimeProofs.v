(** * Proofs about PrimeModel (utilities/prime.c). *)
From Coq Require Import FMapPositive Znumtheory.
From Verif Require Import Base PrimeModel PrimeSpec.
Open Scope Z_scope.

(** ** Number theory *)

Definition composite_upto (i k : Z) : Prop :=
  exists d, 2 <= d < i /\ (d | k) /\ d * d <= k.

Lemma small_factor k n : 1 < n < k -> (n | k) ->
  exists d, 2 <= d /\ (d | k) /\ d * d <= k.
Proof.
  intros Hn [q Hq].
  assert (Hq0 : 2 <= q) by nia.
  destruct (Z.le_gt_cases n q).
  - exists n. repeat split; try lia. exists q; lia. nia.
  - exists q. repeat split; try lia. exists n; lia. nia.
Qed.

Lemma prime_no_factor k :
  2 <= k -> (forall d, 2 <= d -> (d | k) -> d * d <= k -> False) -> prime k.
Proof.
  intros Hk H. apply prime_alt. split; [lia|].
  intros n Hn Hd. destruct (small_factor k n Hn Hd) as (d & H1 & H2 & H3). eauto.
Qed.

Lemma prime_factor_no k d : prime k -> 2 <= d -> (d | k) -> d * d <= k -> False.
Proof.
  intros Hp Hd Hdiv Hsq.
  destruct (prime_divisors k Hp d Hdiv) as [H|[H|[H|H]]]; try lia.
  destruct Hp. nia.
Qed.

Lemma prime_iff k : prime k <-> 2 <= k /\ forall d, 2 <= d -> (d | k) -> d * d <= k -> False.
Proof.
  split.
  - intros Hp. split. destruct Hp; lia. intros; eapply prime_factor_no; eauto.
  - intros [H1 H2]. now apply prime_no_factor.
Qed.

(** ** The array *)
Definition isf (p : primes) (k : Z) : bool :=
  match PositiveMap.find (key k) (cleared p) with Some _ => true | None => false end.

Lemma get_eq p k : 0 <= k < size p -> get p k = Ok (negb (isf p k)).
Proof.
  intros H. unfold get, isf.
  destruct (Z.leb_spec 0 k); [|lia]. destruct (Z.ltb_spec k (size p)); [|lia]. simpl.
  now destruct PositiveMap.find.
Qed.

Lemma clear_eq p k : 0 <= k < size p ->
  exists p', clear p k = Ok p' /\ size p' = size p /\
    forall m, 0 <= m -> isf p' m = (isf p m || (m =? k))%bool.
Proof.
  intros H. unfold clear.
  destruct (Z.leb_spec 0 k); [|lia]. destruct (Z.ltb_spec k (size p)); [|lia]. simpl.
  eexists; split; [reflexivity|]. split; [reflexivity|].
  intros m Hm. unfold isf; simpl.
  destruct (Z.eqb_spec m k) as [->|Hne].
  - rewrite PositiveMap.gss. now rewrite orb_true_r.
  - rewrite PositiveMap.gso. now rewrite orb_false_r.
    unfold key. intros E. apply Hne. apply Z2Pos.inj in E; lia.
Qed.

Lemma mark_spec fuel : forall p i j n,
  0 < i -> 0 <= j -> size p = n -> (Z.to_nat (n - j) < fuel)%nat ->
  exists p', mark fuel p i j n = Ok p' /\ size p' = n /\
    forall k, 0 <= k -> (isf p' k = true <-> isf p k = true \/ (j <= k < n /\ (i | k - j))).
Proof.
  induction fuel as [|fuel IH]; intros p i j n Hi Hj Hs Hf; [lia|].
  cbn [mark]. destruct (Z.ltb_spec j n) as [Hjn|Hjn].
  - destruct (clear_eq p j) as (p1 & E1 & S1 & F1); [lia|].
    rewrite E1. cbn [bind].
    destruct (IH p1 i (j + i) n) as (p2 & E2 & S2 & F2); try lia.
    exists p2. split; [exact E2|]. split; [exact S2|].
    intros k Hk. rewrite F2 by lia. rewrite F1 by lia. rewrite orb_true_iff, Z.eqb_eq.
    split.
    + intros [[H| ->]|[H1 [q Hq]]]; auto.
      * right. split; [lia|]. exists 0. lia.
      * right. split; [lia|]. exists (q + 1). lia.
    + intros [H|[H1 [q Hq]]]; auto.
      destruct (Z.eq_dec k j) as [->|Hne]; auto.
      right. assert (0 < q) by nia. split; [nia|]. exists (q - 1). lia.
  - exists p. split; [reflexivity|]. split; [assumption|].
    intros k Hk. split; [auto|]. intros [H|[H1 _]]; [auto|lia].
Qed.

Definition sieve_inv (p : primes) (i n : Z) : Prop :=
  size p = n /\
  forall k, 0 <= k < n -> (isf p k = true <-> k < 2 \/ composite_upto i k).

Lemma sieve_step_marked p i n :
  2 <= i -> i * i < n -> sieve_inv p i n -> isf p i = true -> sieve_inv p (i + 1) n.
Proof.
  intros Hi Hin [Hs Hinv] Hf. split; [assumption|].
  intros k Hk. rewrite Hinv by assumption.
  assert (Hi' : 0 <= i < n) by nia.
  apply (Hinv i Hi') in Hf. destruct Hf as [Hf|(d0 & Hd0 & Hdiv0 & Hsq0)]; [lia|].
  split; (intros [H|(d & Hd & Hdiv & Hsq)]; [auto|right]).
  - exists d. repeat split; try lia; auto.
  - destruct (Z.eq_dec d i) as [->|Hne].
    + exists d0. repeat split; try lia. eapply Z.divide_trans; eauto. nia.
    + exists d. repeat split; try lia; auto.
Qed.

Lemma sieve_step_unmarked p p' i n :
  2 <= i -> i * i < n -> sieve_inv p i n ->
  size p' = n ->
  (forall k, 0 <= k -> (isf p' k = true <-> isf p k = true \/ (i * i <= k < n /\ (i | k - i * i)))) ->
  sieve_inv p' (i + 1) n.
Proof.
  intros Hi Hin [Hs Hinv] Hs' Hm. split; [assumption|].
  intros k Hk. rewrite Hm by lia. rewrite Hinv by assumption.
  split.
  - intros [[H|(d & Hd & Hdiv & Hsq)]|[Hr [q Hq]]]; auto.
    + right. exists d. repeat split; try lia; auto.
    + right. exists i. repeat split; try lia. exists (q + i). lia.
  - intros [H|(d & Hd & Hdiv & Hsq)]; auto.
    destruct (Z.eq_dec d i) as [->|Hne].
    + right. split; [lia|]. destruct Hdiv as [q Hq]. exists (q - i). lia.
    + left; right. exists d. repeat split; try lia; auto.
Qed.

Lemma sieve_loop_spec fuel : forall p i n,
  2 <= i -> sieve_inv p i n -> (Z.to_nat (n - i) < fuel)%nat ->
  exists p' i', sieve_loop fuel p i n = Ok p' /\ 2 <= i' /\ n <= i' * i' /\ sieve_inv p' i' n.
Proof.
  induction fuel as [|fuel IH]; intros p i n Hi Hinv Hf; [lia|].
  cbn [sieve_loop]. destruct (Z.ltb_spec (i * i) n) as [Hin|Hin].
  - assert (Hi' : 0 <= i < n) by nia.
    destruct Hinv as [Hs Hinv].
    rewrite get_eq by lia. cbn [bind].
    destruct (isf p i) eqn:Ef; cbn [negb bind].
    + apply IH; try lia. apply sieve_step_marked; auto. now split.
    + destruct (mark_spec (S (Z.to_nat n)) p i (i * i) n) as (p' & E & S' & F); try lia.
      rewrite E. cbn [bind]. apply IH; try lia.
      eapply sieve_step_unmarked; eauto. now split.
  - exists p, i. repeat split; auto; try lia; apply Hinv; auto.
Qed.

(** The table answers primality on its whole range. *)
Definition table_ok (st : primes) : Prop :=
  forall k, 0 <= k < size st -> (get st k = Ok true /\ prime k) \/ (get st k = Ok false /\ ~ prime k).

Lemma sieve_spec n : 2 <= n <= SIEVE_MAX ->
  exists st, sieve n = Ok st /\ size st = n /\ table_ok st.
Proof.
  intros Hn. unfold sieve. destruct (Z.leb_spec n SIEVE_MAX); [|lia].
  set (p0 := {| cleared := _; size := n |}).
  destruct (clear_eq p0 0) as (p1 & E1 & S1 & F1); [simpl; lia|]. rewrite E1; cbn [bind].
  destruct (clear_eq p1 1) as (p2 & E2 & S2 & F2); [rewrite S1; simpl; lia|]. rewrite E2; cbn [bind].
  assert (Hinv : sieve_inv p2 2 n).
  { split; [rewrite S2, S1; reflexivity|]. intros k Hk.
    rewrite F2, F1 by lia. unfold p0, isf at 1; simpl.
    rewrite PositiveMap.gempty. simpl.
    destruct (Z.eqb_spec k 0), (Z.eqb_spec k 1); simpl; split; intros Hx; auto; try lia.
    exfalso. destruct Hx as [Hx|(d & Hd & _)]; lia. }
  destruct (sieve_loop_spec (S (Z.to_nat n)) p2 2 n) as (p' & i' & E & Hi' & Hsq & [Hs Hf]); auto; try lia.
  exists p'. split; [exact E|]. split; [exact Hs|].
  intros k Hk. rewrite get_eq by lia. rewrite Hs in Hk. specialize (Hf k Hk).
  destruct (isf p' k) eqn:Ek; simpl.
  - right. split; auto. intros Hp. destruct Hf as [Hf _]. destruct (Hf eq_refl) as [Hf'|(d & Hd & Hdiv & Hdd)].
    + destruct Hp; lia.
    + apply (prime_factor_no k d Hp); auto; lia.
  - left. split; auto. apply prime_no_factor.
    + destruct (Z.lt_ge_cases k 2); [|lia]. destruct Hf as [_ Hf]. specialize (Hf (or_introl H0)). discriminate.
    + intros d Hd Hdiv Hdd. destruct Hf as [_ Hf].
      assert (HH : false = true) by (apply Hf; right; exists d; repeat split; auto; nia). discriminate.
Qed.

(** ** States reachable by calls *)
Definition st_ok (st : primes) : Prop :=
  table_ok st /\ (size st = 0 \/ 2 <= size st <= SIEVE_MAX).

Lemma st_ok_init : st_ok primes_init.
Proof. split; [intros k Hk; simpl in Hk; lia | left; reflexivity]. Qed.

Lemma search_spec fuel : forall st i, table_ok st -> 0 <= i ->
  (Z.to_nat (size st - i) < fuel)%nat ->
  (exists r, search fuel st i = Ok (Some r) /\ least_twin i r /\ r < size st) \/
  (search fuel st i = Ok None /\ forall r, i <= r < size st -> ~ is_twin r).
Proof.
  induction fuel as [|fuel IH]; intros st i Hok Hi Hf; [lia|].
  cbn [search]. destruct (Z.leb_spec 0 i); [|lia]. cbn [andb].
  destruct (Z.ltb_spec i (size st)) as [His|His].
  2:{ right. split; auto. intros r Hr. lia. }
  assert (Hcont : ~ is_twin i ->
     (exists r, search fuel st (i + 1) = Ok (Some r) /\ least_twin i r /\ r < size st) \/
     (search fuel st (i + 1) = Ok None /\ (forall r, i <= r < size st -> ~ is_twin r))).
  { intros Hnt. destruct (IH st (i + 1) Hok) as [(r & E & HL & Hr)|[E HN]]; try lia.
    - left. exists r. split; auto. split; auto. destruct HL as (H1 & H2 & H3).
      split; [lia|]. split; auto. intros r' Hr' Ht.
      destruct (Z.eq_dec r' i) as [->|]; [contradiction|]. apply H3; auto; lia.
    - right. split; auto. intros r Hr Ht.
      destruct (Z.eq_dec r i) as [->|]; [contradiction|]. apply (HN r); auto; lia. }
  destruct (Hok i) as [[Eg Hp]|[Eg Hp]]; [lia| |]; rewrite Eg; cbn [bind].
  - assert (Hi2 : 2 <= i) by (destruct Hp; lia).
    destruct (Hok (i - 2)) as [[Eg2 Hp2]|[Eg2 Hp2]]; [lia| |]; rewrite Eg2; cbn [bind].
    + left. exists i. split; auto. split; [|lia]. split; [lia|]. split; [split; auto|].
      intros; lia.
    + apply Hcont. intros [_ H2]. auto.
  - apply Hcont. intros [H1 _]. auto.
Qed.

Lemma rounds_sound fuel : forall st p st' r, st_ok st -> 0 <= p ->
  rounds fuel st p = Ok (st', r) -> st_ok st' /\ least_twin p r.
Proof.
  induction fuel as [|fuel IH]; intros st p st' r [Hok Hsz] Hp; cbn [rounds]; [discriminate|].
  destruct (search_spec (S (Z.to_nat (size st - p))) st p Hok Hp) as [(r0 & E & HL & _)|[E HN]]; try lia;
    rewrite E; cbn [bind].
  - intros Heq; inversion Heq; subst. split; [split; auto | exact HL].
  - destruct (Z.le_gt_cases (DOUBLE_SIZE (size st)) SIEVE_MAX) as [Hle|Hgt].
    + unfold DOUBLE_SIZE in *.
      destruct Hsz as [Hsz|Hsz].
      { rewrite Hsz. unfold sieve. simpl. discriminate. }
      destruct (sieve_spec (2 * size st + 1)) as (st1 & E1 & S1 & T1); [lia|].
      rewrite E1; cbn [bind]. intros H. apply (IH st1 p); auto. split; auto. right. lia.
    + unfold sieve. destruct (Z.leb_spec (DOUBLE_SIZE (size st)) SIEVE_MAX); [lia|]. discriminate.
Qed.

(** The prologue of next_twin_prime (prime.c:68-79) for a nonnegative argument. *)
Lemma sieve_inv_Ok n st : sieve n = Ok st -> 2 <= n <= SIEVE_MAX.
Proof.
  unfold sieve. destruct (Z.leb_spec n SIEVE_MAX); [|discriminate].
  intros H1. destruct (Z.le_gt_cases 2 n); [lia|]. exfalso. revert H1.
  unfold clear at 1; simpl.
  destruct (Z.ltb_spec 0 n); simpl; [|discriminate].
  unfold clear; simpl. destruct (Z.ltb_spec 1 n); simpl; [lia|discriminate].
Qed.

Theorem next_twin_prime_sound st p st' r : st_ok st -> 0 <= p ->
  next_twin_prime st p = Ok (st', r) -> st_ok st' /\ least_twin p r.
Proof.
  intros Hst Hp. unfold next_twin_prime.
  destruct (Z.ltb_spec p 0); [lia|]. cbn [orb].
  destruct (Z.leb_spec (size st) p) as [Hs|Hs]; cbn [bind].
  - intros E. apply bind_Ok in E. destruct E as (st1 & E1 & E2).
    pose proof (sieve_inv_Ok _ _ E1) as Hb.
    destruct (sieve_spec _ Hb) as (st2 & E3 & S3 & T3).
    rewrite E3 in E1. inversion E1; subst st2.
    apply (rounds_sound 40 st1); auto. split; auto. right. lia.
  - apply rounds_sound; auto.
Qed.

(** Negative arguments never return normally. *)
Lemma search_neg fuel st i : i < 0 -> search (S fuel) st i = Ok None.
Proof. intros H. cbn [search]. destruct (Z.leb_spec 0 i); [lia|]. reflexivity. Qed.

Lemma rounds_neg fuel : forall st p, st_ok st -> p < 0 -> SIEVE_MAX < size st * 2 ^ Z.of_nat fuel ->
  size st > 0 -> rounds fuel st p = UB.
Proof.
  induction fuel as [|fuel IH]; intros st p [Hok Hsz] Hp Hf Hpos.
  { simpl in Hf. lia. }
  cbn [rounds]. rewrite search_neg by auto. cbn [bind].
  destruct (Z.le_gt_cases (DOUBLE_SIZE (size st)) SIEVE_MAX) as [Hle|Hgt].
  - unfold DOUBLE_SIZE in *.
    destruct (sieve_spec (2 * size st + 1)) as (st1 & E1 & S1 & T1); [lia|].
    rewrite E1; cbn [bind]. apply IH; auto; try lia.
    + split; auto; lia.
    + rewrite S1. rewrite Nat2Z.inj_succ, Z.pow_succ_r in Hf by lia. 
      assert (0 < 2 ^ Z.of_nat fuel) by (apply Z.pow_pos_nonneg; lia). nia.
  - unfold sieve. destruct (Z.leb_spec (DOUBLE_SIZE (size st)) SIEVE_MAX); [lia|]. reflexivity.
Qed.

Theorem next_twin_prime_negative st p : st_ok st -> p < 0 -> next_twin_prime st p = UB.
Proof.
  intros [Hok Hsz] Hp. unfold next_twin_prime.
  destruct (Z.ltb_spec p 0); [|lia]. cbn [orb].
  set (n := DOUBLE_SIZE (size st + INITIAL_TABLE_SIZE)).
  assert (Hn : 9947 <= n) by (unfold n, DOUBLE_SIZE, INITIAL_TABLE_SIZE; lia).
  cbv zeta. destruct (Z.leb_spec n p); [lia|].
  destruct (Z.le_gt_cases n SIEVE_MAX) as [Hle|Hgt].
  - destruct (sieve_spec n) as (st1 & E1 & S1 & T1); [lia|].
    rewrite E1; cbn [bind]. apply rounds_neg; auto; try lia.
    + split; auto; lia.
    + rewrite S1. unfold SIEVE_MAX. change (2 ^ Z.of_nat 40) with 1099511627776. lia.
  - unfold sieve. destruct (Z.leb_spec n SIEVE_MAX); [lia|]. reflexivity.
Qed.

(** ** Totality up to 10^9+9 *)

Fixpoint trial (fuel : nat) (p d : Z) : bool :=
  match fuel with
  | O => false
  | S fuel => if p <? d * d then true
              else if p mod d =? 0 then false else trial fuel p (d + 1)
  end.

Lemma trial_sound fuel : forall p d, 2 <= d -> trial fuel p d = true ->
  forall e, d <= e -> (e | p) -> e * e <= p -> False.
Proof.
  induction fuel as [|fuel IH]; intros p d Hd; cbn [trial]; [discriminate|].
  destruct (Z.ltb_spec p (d * d)) as [H|H].
  - intros _ e He _ Hee. nia.
  - destruct (Z.eqb_spec (p mod d) 0) as [Hm|Hm]; [discriminate|].
    intros Ht e He Hdiv Hee. destruct (Z.eq_dec e d) as [->|Hne].
    + apply Hm. apply Z.mod_divide; [lia|auto].
    + apply (IH p (d + 1)) with (e := e); auto; lia.
Qed.

Lemma trial_prime fuel p : 2 <= p -> trial fuel p 2 = true -> prime p.
Proof.
  intros Hp Ht. apply prime_no_factor; auto.
  intros d Hd Hdv Hdd. apply (trial_sound fuel p 2) with (e := d); auto; lia.
Qed.

Definition BIG_TWIN : Z := 1000000009.

Lemma big_twin : is_twin BIG_TWIN.
Proof.
  unfold BIG_TWIN. split.
  - apply (trial_prime (Z.to_nat 40000)); [lia|]. vm_compute. reflexivity.
  - change (1000000009 - 2) with 1000000007.
    apply (trial_prime (Z.to_nat 40000)); [lia|]. vm_compute. reflexivity.
Qed.

Lemma rounds_total fuel : forall st p, st_ok st -> 0 <= p <= BIG_TWIN ->
  SIEVE_MAX < size st * 2 ^ Z.of_nat fuel -> 0 < size st ->
  exists st' r, rounds fuel st p = Ok (st', r).
Proof.
  induction fuel as [|fuel IH]; intros st p [Hok Hsz] Hp Hf Hpos.
  { simpl in Hf. lia. }
  cbn [rounds].
  destruct (search_spec (S (Z.to_nat (size st - p))) st p Hok) as [(r0 & E & HL & _)|[E HN]]; try lia;
    rewrite E; cbn [bind]; eauto.
  assert (Hs : size st <= BIG_TWIN).
  { destruct (Z.le_gt_cases (size st) BIG_TWIN); auto. exfalso.
    apply (HN BIG_TWIN); [lia|]. apply big_twin. }
  unfold DOUBLE_SIZE.
  destruct (sieve_spec (2 * size st + 1)) as (st1 & E1 & S1 & T1).
  { unfold BIG_TWIN, SIEVE_MAX in *. lia. }
  rewrite E1; cbn [bind]. apply IH; auto; try lia.
  + split; auto. right. unfold BIG_TWIN, SIEVE_MAX in *. lia.
  + rewrite S1. rewrite Nat2Z.inj_succ, Z.pow_succ_r in Hf by lia. 
    assert (0 < 2 ^ Z.of_nat fuel) by (apply Z.pow_pos_nonneg; lia). nia.
Qed.

Theorem next_twin_prime_total st p : st_ok st -> 0 <= p <= BIG_TWIN ->
  exists st' r, next_twin_prime st p = Ok (st', r).
Proof.
  intros Hst Hp. unfold next_twin_prime.
  destruct (Z.ltb_spec p 0); [lia|]. cbn [orb].
  destruct (Z.leb_spec (size st) p) as [Hs|Hs]; cbn [bind].
  - destruct Hst as [Hok Hsz].
    set (n0 := DOUBLE_SIZE (size st + INITIAL_TABLE_SIZE)). cbv zeta.
    set (n := if n0 <=? p then _ else _).
    assert (Hn : 2 <= n <= SIEVE_MAX).
    { unfold n. unfold n0, DOUBLE_SIZE, INITIAL_TABLE_SIZE, BIG_TWIN, SIEVE_MAX in *.
      destruct (Z.leb_spec (2 * (size st + 4973) + 1) p); lia. }
    destruct (sieve_spec n Hn) as (st1 & E1 & S1 & T1). rewrite E1; cbn [bind].
    apply rounds_total; auto; try lia.
    + split; auto. lia.
    + rewrite S1. unfold SIEVE_MAX. change (2 ^ Z.of_nat 40) with 1099511627776. lia.
  - apply rounds_total; auto; try lia.
    destruct Hst as [_ Hsz]. unfold SIEVE_MAX. change (2 ^ Z.of_nat 40) with 1099511627776. lia.
Qed.

(** The full history: a list of arguments, threading the sieve. *)
Fixpoint calls (st : primes) (xs : list Z) : res (primes * list Z) :=
  match xs with
  | [] => Ok (st, [])
  | x :: xs =>
    '(st1, r) <- next_twin_prime st x ;;
    '(st2, rs) <- calls st1 xs ;;
    Ok (st2, r :: rs)
  end.

Lemma least_twin_unique x r1 r2 : least_twin x r1 -> least_twin x r2 -> r1 = r2.
Proof.
  intros (A1 & A2 & A3) (B1 & B2 & B3). apply Z.le_antisymm; auto.
Qed.

Lemma least_twin_bound x r : least_twin x r -> x <= BIG_TWIN -> r <= BIG_TWIN.
Proof. intros (_ & _ & H) Hx. apply H; auto. apply big_twin. Qed.

Theorem calls_correct xs : forall st, st_ok st -> Forall (fun x => 0 <= x <= BIG_TWIN) xs ->
  exists st' rs, calls st xs = Ok (st', rs) /\ st_ok st' /\ Forall2 least_twin xs rs.
Proof.
  induction xs as [|x xs IH]; intros st Hst Hxs; cbn [calls].
  - exists st, []. auto.
  - inversion Hxs as [|? ? Hx Hxs']; subst.
    destruct (next_twin_prime_total st x Hst Hx) as (st1 & r & E1). rewrite E1; cbn [bind].
    destruct (next_twin_prime_sound st x st1 r Hst (proj1 Hx) E1) as [Hst1 HL].
    destruct (IH st1 Hst1 Hxs') as (st2 & rs & E2 & Hst2 & HF). rewrite E2; cbn [bind].
    exists st2, (r :: rs). auto.
Qed.

Lemma twin_ge_5 r : is_twin r -> 5 <= r.
Proof.
  intros [H1 H2]. assert (2 <= r - 2) by (destruct H2; lia).
  destruct (Z.eq_dec r 4) as [->|]; [|lia].
  exfalso. apply (prime_factor_no 4 2 H1); try lia. exists 2; lia.
Qed.
