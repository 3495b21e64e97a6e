From Verif Require Import Base SymbolModel.
Open Scope Z_scope.

Lemma MAX_val : Z.of_nat MAX_SYMBOL = 4000. Proof. reflexivity. Qed.
Global Opaque MAX_SYMBOL.

(** ** Names of generated symbols *)
Definition decode (l : bytes) (a : Z) : Z := fold_left (fun a d => 10 * a + (Z.of_nat d - 48)) l a.
Lemma decode_app l1 l2 a : decode (l1 ++ l2) a = decode l2 (decode l1 a).
Proof. apply fold_left_app. Qed.
Lemma decode_zeros k : decode (repeat 48%nat k) 0 = 0.
Proof. induction k; cbn; auto. Qed.
Lemma decode_decimal f : forall n, 0 <= n < 10 ^ Z.of_nat f -> decode (decimal f n) 0 = n.
Proof.
  induction f as [|f IH]; intros n L; cbn [decimal].
  - cbn in *. lia.
  - rewrite decode_app. pose proof (Z.mod_pos_bound n 10 ltac:(lia)). pose proof (Z.div_mod n 10 ltac:(lia)).
    rewrite Nat2Z.inj_succ, Z.pow_succ_r in L by lia.
    assert (E : decode (if n <? 10 then [] else decimal f (n / 10) : bytes) 0 = n / 10).
    { destruct (Z.ltb_spec n 10); [cbn; symmetry; apply Z.div_small; lia|]. apply IH. split; [apply Z.div_pos; lia|apply Z.div_lt_upper_bound; lia]. }
    unfold bytes in *. rewrite E. unfold decode. cbn [fold_left]. rewrite Z2Nat.id by lia. lia.
Qed.
Lemma gname_inj a b : 0 <= a < 10 ^ 10 -> 0 <= b < 10 ^ 10 -> gname a = gname b -> a = b.
Proof.
  intros La Lb E. apply (f_equal (fun l => decode (tl l) 0)) in E. unfold gname, pad6 in E. cbn [tl] in E. rewrite !(decode_app (repeat _ _)), !decode_zeros in E.
  rewrite !(decode_decimal 10) in E by auto. auto.
Qed.
Lemma decimal_length f : forall n k, 0 <= n < 10 ^ Z.of_nat k -> (1 <= k)%nat -> (length (decimal f n) <= k)%nat.
Proof.
  induction f as [|f IH]; intros n k L Hk; cbn [decimal length]; [lia|]. rewrite app_length. cbn [length].
  destruct (Z.ltb_spec n 10); [cbn; lia|]. destruct k as [|[|k]]; [lia| |].
  - cbn in L. lia.
  - rewrite Nat2Z.inj_succ, Z.pow_succ_r in L by lia. assert (length (decimal f (n / 10)) <= S k)%nat; [|lia]. apply IH; [|lia]. split; [apply Z.div_pos; lia|apply Z.div_lt_upper_bound; lia].
Qed.
Lemma gname_length n : 0 <= n < 10 ^ 6 -> length (gname n) = 7%nat.
Proof.
  intros L. unfold gname, pad6. cbn [length]. rewrite app_length, repeat_length. pose proof (decimal_length 10 n 6 L ltac:(lia)). lia.
Qed.

Section P.
Variables symbols symbol_size : Z.
Hypothesis Hsym : 0 < symbols.
Hypothesis Hsize : 0 < symbol_size.
Notation NUM := (SYMBOL_NUM symbols symbol_size).
Notation find_symbol := (find_symbol symbols symbol_size).
Notation symbol_name := (symbol_name symbols symbol_size).
Notation sstep := (sstep symbols symbol_size). Notation srun := (srun symbols symbol_size).

Lemma beq_spec s t : reflect (s = t) (beq s t).
Proof. unfold beq. destruct (list_eq_dec Nat.eq_dec s t); constructor; auto. Qed.
Lemma NUM_pos i : 0 <= i -> 0 < NUM i.
Proof. intros. unfold SYMBOL_NUM. nia. Qed.
Lemma NUM_inj i j : NUM i = NUM j -> i = j.
Proof. unfold SYMBOL_NUM. intros. nia. Qed.
Lemma id_NUM i : 0 <= i -> symbol_id symbols symbol_size (NUM i) = i.
Proof. intros. unfold symbol_id, SYMBOL_NUM. replace (symbols + i * symbol_size - symbols) with (i * symbol_size) by lia. apply Z.quot_mul. lia. Qed.
Lemma name_NUM t i : initialised t = true -> symbol_name t (NUM (Z.of_nat i)) = rd (names t) i.
Proof.
  intros In. unfold SymbolModel.symbol_name. rewrite In, id_NUM, Nat2Z.id by lia.
  unfold SYMBOL_NUM. replace (symbols + Z.of_nat i * symbol_size - symbols) with (Z.of_nat i * symbol_size) by lia. rewrite Z.rem_mul by lia. cbn.
  destruct (Z.leb_spec symbols (symbols + Z.of_nat i * symbol_size)); auto. nia.
Qed.

Lemma find_loop_spec l s : forall i, 0 <= i ->
  (find_loop symbols symbol_size i l s = 0 /\ ~ In s l) \/
  (exists k, nth_error l k = Some s /\ find_loop symbols symbol_size i l s = NUM (i + Z.of_nat k)).
Proof.
  induction l as [|n l IH]; intros i Hi; cbn [find_loop]; [left; auto|].
  destruct (beq_spec n s) as [->|N].
  - right. exists 0%nat. cbn. rewrite Z.add_0_r. auto.
  - destruct (IH (i + 1) ltac:(lia)) as [[E NI]|(k & E1 & E2)]; [left|right].
    + split; auto. intros [Q|Q]; auto.
    + exists (S k). split; auto. rewrite E2. f_equal. lia.
Qed.
Lemma find_spec t s : (find_symbol t s = 0 /\ ~ In s (names t)) \/ (exists k, nth_error (names t) k = Some s /\ find_symbol t s = NUM (Z.of_nat k) /\ find_symbol t s <> 0).
Proof.
  destruct (find_loop_spec (names t) s 0 ltac:(lia)) as [[E N]|(k & E1 & E2)]; [left; auto|right]. exists k. rewrite Z.add_0_l in E2. unfold SymbolModel.find_symbol. rewrite E2. ands; auto.
  pose proof (NUM_pos (Z.of_nat k)). lia.
Qed.

Record tinv (t : symtab) : Prop := {
  ti_init : initialised t = true;
  ti_nodup : NoDup (names t);
  ti_len : (length (names t) <= MAX_SYMBOL)%nat;
  ti_pos : 0 <= unique t;
  ti_bound : unique t <= Z.of_nat (length (names t));
  ti_gen : forall k, 1 <= k <= unique t -> In (gname k) (names t) }.

(** Generated names already used: as many symbols. *)
Lemma gen_bound l u : 0 <= u <= 4001 -> (forall k, 1 <= k <= u -> In (gname k) l) -> u <= Z.of_nat (length l).
Proof.
  intros L H. set (f := fun i : nat => gname (Z.of_nat i)).
  assert (ND : NoDup (map f (seq 1 (Z.to_nat u)))).
  { assert (G : forall n, (n <= Z.to_nat 5000)%nat -> NoDup (map f (seq 1 n))).
    { induction n as [|n IH]; intros Ln; [constructor|]. rewrite seq_S, map_app. apply NoDup_app_remove_r || idtac.
      specialize (IH ltac:(lia)). cbn [map]. apply NoDup_rev in IH. rewrite <- (rev_involutive (map f (seq 1 n) ++ [f (1 + n)%nat])). apply NoDup_rev.
      rewrite rev_app_distr. cbn. constructor; [|exact IH]. rewrite <- in_rev. intros Q. apply in_map_iff in Q. destruct Q as (m & E & Hm). apply in_seq in Hm.
      unfold f in E. apply gname_inj in E; cbn; lia. }
    apply G. lia. }
  assert (IN : incl (map f (seq 1 (Z.to_nat u))) l).
  { intros x Hx. apply in_map_iff in Hx. destruct Hx as (m & <- & Hm). apply in_seq in Hm. unfold f. apply H. lia. }
  pose proof (NoDup_incl_length ND IN) as Q. rewrite map_length, seq_length in Q. lia.
Qed.

(** An answer is the symbol numbered [k]. *)
Definition extends (t t' : symtab) : Prop := exists l, names t' = names t ++ l.

Lemma add_spec t s : tinv t -> ~ In s (names t) -> (forall k, 1 <= k <= unique t -> gname k = s \/ In (gname k) (names t)) ->
  add_symbol symbols symbol_size t s = (if (length (names t) =? MAX_SYMBOL)%nat then Exit else Ok (mkSymtab true (names t ++ [s]) (unique t), NUM (Z.of_nat (length (names t))))) /\
  ((length (names t) < MAX_SYMBOL)%nat -> tinv (mkSymtab true (names t ++ [s]) (unique t))).
Proof.
  intros I N _. unfold add_symbol. rewrite (ti_init _ I). split; [auto|]. intros L. destruct I as [A B C D E F]. split; cbn; auto.
  - apply NoDup_rev in B. rewrite <- (rev_involutive (names t ++ [s])). apply NoDup_rev. rewrite rev_app_distr. cbn. constructor; auto. now rewrite <- in_rev.
  - rewrite app_length. cbn. lia.
  - rewrite app_length. cbn. lia.
  - intros k Hk. rewrite in_app_iff. left. auto.
Qed.

Lemma intern_spec t s : tinv t ->
  (exists k, nth_error (names t) k = Some s /\ intern_symbol symbols symbol_size t s = Ok (t, NUM (Z.of_nat k))) \/
  (~ In s (names t) /\ (if (length (names t) =? MAX_SYMBOL)%nat then intern_symbol symbols symbol_size t s = Exit
     else exists t', intern_symbol symbols symbol_size t s = Ok (t', NUM (Z.of_nat (length (names t)))) /\ names t' = names t ++ [s] /\ tinv t')).
Proof.
  intros I. unfold intern_symbol. destruct (find_spec t s) as [[E N]|(k & E1 & E2 & E3)].
  - right. rewrite E. cbn. split; auto. destruct (add_spec t s I N ltac:(intros; right; now apply (ti_gen _ I))) as [Ea Ia]. rewrite Ea. pose proof (ti_len _ I).
    destruct (Nat.eqb_spec (length (names t)) MAX_SYMBOL); auto. eexists. ands; [reflexivity|auto|]. apply Ia. lia.
  - left. exists k. destruct (Z.eqb_spec (find_symbol t s) 0); [contradiction|]. rewrite E2. auto.
Qed.

Lemma gensym_spec fuel : forall t, initialised t = true -> NoDup (names t) -> (length (names t) <= MAX_SYMBOL)%nat -> 0 <= unique t ->
  (forall k, 1 <= k <= unique t -> In (gname k) (names t)) -> unique t <= Z.of_nat (length (names t)) ->
  Z.of_nat (length (names t)) < Z.of_nat fuel + unique t ->
  exists s, ~ In s (names t) /\ (if (length (names t) =? MAX_SYMBOL)%nat then gensym symbols symbol_size fuel t = Exit
     else exists t', gensym symbols symbol_size fuel t = Ok (t', NUM (Z.of_nat (length (names t)))) /\ names t' = names t ++ [s] /\ tinv t').
Proof.
  induction fuel as [|fuel IH]; intros t I ND Ln Up Ug Ub Lf; [lia|]. cbn [gensym]. pose proof MAX_val as MV.
  rewrite Z.gtb_ltb. destruct (Z.ltb_spec 2147483647 (unique t + 1)); [lia|].
  rewrite gname_length by (cbn; lia). destruct (Nat.ltb_spec 10 (7 + 1)); [lia|].
  set (t1 := mkSymtab (initialised t) (names t) (unique t + 1)).
  destruct (find_spec t1 (gname (unique t + 1))) as [[E N]|(k & E1 & E2 & E3)].
  - rewrite E. cbn [negb Z.eqb]. exists (gname (unique t + 1)). split; [exact N|]. unfold add_symbol. cbn [names initialised t1 unique]. rewrite I.
    destruct (Nat.eqb_spec (length (names t)) MAX_SYMBOL); auto. eexists. ands; [reflexivity|auto|].
    split; cbn; auto; try lia.
    + apply NoDup_rev in ND. rewrite <- (rev_involutive (names t ++ [_])). apply NoDup_rev. rewrite rev_app_distr. cbn. constructor; auto. now rewrite <- in_rev.
    + rewrite app_length. cbn. lia.
    + rewrite app_length. cbn. lia.
    + intros j Hj. rewrite in_app_iff. destruct (Z.eq_dec j (unique t + 1)) as [->|]; [right; left; auto|left; apply Ug; lia].
  - destruct (Z.eqb_spec (find_symbol t1 (gname (unique t + 1))) 0); [contradiction|]. cbn [negb].
    assert (Ug1 : forall j, 1 <= j <= unique t1 -> In (gname j) (names t1)).
    { cbn. intros j Hj. destruct (Z.eq_dec j (unique t + 1)) as [->|]; [apply (nth_error_In _ _ E1)|apply Ug; lia]. }
    apply (IH t1); cbn; auto; try lia. apply (gen_bound (names t)); auto. lia.
Qed.

(** What a step does: nothing, or adds one new name. *)
Definition is_sym (l : list bytes) (a : Z) (s : bytes) : Prop := exists k, nth_error l k = Some s /\ a = NUM (Z.of_nat k).
Lemma sstep_spec t o : tinv t ->
  (exists s, ~ In s (names t) /\ length (names t) = MAX_SYMBOL /\ (o = Intern s \/ o = Gensym) /\ sstep t o = Exit) \/
  exists t' a, sstep t o = Ok (t', a) /\ tinv t' /\
   ((names t' = names t /\ match o with Intern s => is_sym (names t) a s | Find s => is_sym (names t) a s \/ a = 0 /\ ~ In s (names t) | Gensym => False | Init => a = 0 end) \/
    (exists s, ~ In s (names t) /\ names t' = names t ++ [s] /\ a = NUM (Z.of_nat (length (names t))) /\ (o = Intern s \/ o = Gensym))).
Proof.
  intros I. destruct o as [|s|s|]; cbn [SymbolModel.sstep].
  - right. eexists _, _. split; [reflexivity|]. split; [|left; auto]. destruct I. split; cbn; auto.
  - destruct (intern_spec t s I) as [(k & E1 & E2)|[N D]].
    + right. rewrite E2. eexists _, _. split; [reflexivity|]. split; auto. left. split; auto. exists k. auto.
    + destruct (Nat.eqb_spec (length (names t)) MAX_SYMBOL); [left; exists s; auto|]. right. destruct D as (t' & E & En & I'). exists t', (NUM (Z.of_nat (length (names t)))). ands; auto. right. exists s. auto.
  - right. eexists _, _. split; [reflexivity|]. split; auto. left. split; auto. destruct (find_spec t s) as [[E N]|(k & E1 & E2 & _)]; [right; auto|left; exists k; auto].
  - destruct I as [A B C D E F]. pose proof MAX_val.
    destruct (gensym_spec (S MAX_SYMBOL) t A B C D F E) as (s & N & Q); [lia|].
    destruct (Nat.eqb_spec (length (names t)) MAX_SYMBOL); [left; exists s; auto|]. right. destruct Q as (t' & E' & En & I'). exists t', (NUM (Z.of_nat (length (names t)))). ands; auto. right. exists s. auto.
Qed.

Lemma srun_app ops1 : forall t ops2, srun t (ops1 ++ ops2) = '(t1, a1) <- srun t ops1 ;; '(t2, a2) <- srun t1 ops2 ;; Ok (t2, a1 ++ a2).
Proof.
  induction ops1 as [|o ops1 IH]; intros t ops2; cbn [SymbolModel.srun app bind].
  - destruct (srun t ops2) as [[? ?]| | |]; auto.
  - destruct (sstep t o) as [[t1 a]| | |]; cbn [bind]; auto. rewrite IH. destruct (srun t1 ops1) as [[t2 a1]| | |]; cbn [bind]; auto. destruct (srun t2 ops2) as [[? ?]| | |]; auto.
Qed.
Lemma srun_length ops : forall t t' a, srun t ops = Ok (t', a) -> length a = length ops.
Proof.
  induction ops as [|o ops IH]; intros t t' a E; cbn in E; [now injection E as <- <-|].
  destruct (sstep t o) as [[t1 b]| | |]; cbn in E; try discriminate. destruct (srun t1 ops) as [[t2 l]| | |] eqn:E2; cbn in E; try discriminate. injection E as <- <-. cbn. f_equal. eauto.
Qed.

(** Answer of call [i], given the final names [l]. *)
Definition good_at (ops : list sop) (ans : list Z) (l : list bytes) (i : nat) : Prop :=
  match nth_error ops i, nth_error ans i with
  | Some Init, Some a => a = 0
  | Some (Intern s), Some a => is_sym l a s
  | Some (Find s), Some a => (is_sym l a s /\ exists j, (j < i)%nat /\ nth_error ans j = Some a) \/
      (a = 0 /\ forall j b, (j < i)%nat -> nth_error ans j = Some b -> ~ is_sym l b s)
  | Some Gensym, Some a => exists s, is_sym l a s /\ forall j, (j < i)%nat -> nth_error ans j <> Some a
  | _, _ => True
  end.
Record hinv (ops : list sop) (ans : list Z) (t : symtab) : Prop := {
  hi_t : tinv t;
  hi_good : forall i, good_at ops ans (names t) i;
  hi_zero : forall i a, nth_error ans i = Some a -> a = 0 \/ exists s, is_sym (names t) a s;
  hi_all : forall k s, nth_error (names t) k = Some s -> In (NUM (Z.of_nat k)) ans }.

Lemma is_sym_app l l' a s : is_sym l a s -> is_sym (l ++ l') a s.
Proof. intros (k & E & ->). exists k. split; auto. rewrite nth_error_app1; auto. apply nth_error_Some. congruence. Qed.
Lemma is_sym_in l a s : is_sym l a s -> In s l.
Proof. intros (k & E & _). eapply nth_error_In; eauto. Qed.
Lemma is_sym_back l s0 a s : ~ a = NUM (Z.of_nat (length l)) -> is_sym (l ++ [s0]) a s -> is_sym l a s.
Proof.
  intros N (k & E & ->). exists k. split; auto. destruct (Nat.lt_ge_cases k (length l)); [rewrite nth_error_app1 in E; auto|].
  assert (k = length l). { assert (k < length (l ++ [s0]))%nat by (apply nth_error_Some; congruence). rewrite app_length in *. cbn in *. lia. } subst. contradiction.
Qed.
Lemma nth_app_l {A} (l l' : list A) i x : nth_error l i = Some x -> nth_error (l ++ l') i = Some x.
Proof. intros E. rewrite nth_error_app1; auto. apply nth_error_Some. congruence. Qed.

Lemma old_answer l i a (ans : list Z) : (forall i a, nth_error ans i = Some a -> a = 0 \/ exists s, is_sym l a s) -> nth_error ans i = Some a -> a <> NUM (Z.of_nat (length l)).
Proof.
  intros H E. destruct (H i a E) as [->|(s & k & Ek & ->)].
  - pose proof (NUM_pos (Z.of_nat (length l))). lia.
  - intros Q. apply NUM_inj in Q. assert (k < length l)%nat by (apply nth_error_Some; congruence). lia.
Qed.

Lemma hinv_step ops ans t o t' a : hinv ops ans t -> length ans = length ops -> sstep t o = Ok (t', a) -> hinv (ops ++ [o]) (ans ++ [a]) t'.
Proof.
  intros [I G Z A] L E. destruct (sstep_spec t o I) as [(s & _ & _ & _ & Q)|(t1 & a1 & E1 & I1 & D)]; [congruence|]. rewrite E in E1. injection E1 as <- <-.
  assert (NL : nth_error (ops ++ [o]) (length ops) = Some o /\ nth_error (ans ++ [a]) (length ops) = Some a).
  { rewrite <- L at 2. rewrite !nth_error_app2, !Nat.sub_diag by auto. auto. }
  assert (OLD : forall i, (i < length ops)%nat -> nth_error (ops ++ [o]) i = nth_error ops i /\ nth_error (ans ++ [a]) i = nth_error ans i).
  { intros i Li. rewrite !nth_error_app1 by lia. auto. }
  assert (NEWI : forall i x, nth_error (ans ++ [a]) i = Some x -> nth_error ans i = Some x \/ x = a).
  { intros i x Ei. destruct (Nat.lt_ge_cases i (length ans)); [rewrite nth_error_app1 in Ei by auto; auto|]. rewrite nth_error_app2 in Ei by auto.
    destruct (i - length ans)%nat as [|[|]]; cbn in Ei; try discriminate. injection Ei as <-. auto. }
  assert (GO : forall i, (i < length ops)%nat -> good_at (ops ++ [o]) (ans ++ [a]) (names t') i).
  { intros i Li. specialize (G i). unfold good_at in *. destruct (OLD i Li) as [-> ->]. destruct (nth_error ops i) as [oi|] eqn:Eo; auto. destruct (nth_error ans i) as [ai|] eqn:Ea; [|destruct oi; auto].
    assert (OJ : forall j, (j < i)%nat -> nth_error (ans ++ [a]) j = nth_error ans j) by (intros j Lj; apply OLD; lia).
    destruct D as [[En _]|(s & Ns & En & Ea' & _)]; rewrite En; destruct oi as [|s'|s'|]; auto.
    - destruct G as [(Q & j & Lj & Ej)|(-> & Q)]; [left|right]; split; auto. exists j. rewrite OJ; auto. intros j b Lj Ej. rewrite OJ in Ej by auto. eauto.
    - destruct G as (s' & Q & N). exists s'. split; auto. intros j Lj. rewrite OJ by auto. auto.
    - now apply is_sym_app.
    - destruct G as [(Q & j & Lj & Ej)|(-> & Q)]; [left|right]; split; auto using is_sym_app; [exists j; rewrite OJ; auto|].
      intros j b Lj Ej. rewrite OJ in Ej by auto. intros S. apply (Q j b Lj Ej). eapply is_sym_back; eauto. eapply old_answer; eauto.
    - destruct G as (s' & Q & N). exists s'. split; auto using is_sym_app. intros j Lj. rewrite OJ by auto. auto. }
  split; auto.
  - intros i. destruct (Nat.lt_ge_cases i (length ops)); auto. destruct (Nat.eq_dec i (length ops)) as [->|Ni].
    2:{ unfold good_at. rewrite (proj2 (nth_error_None (ops ++ [o]) i)); auto. rewrite app_length. cbn. lia. }
    unfold good_at. destruct NL as [-> ->]. destruct D as [[En D]|(s & Ns & En & -> & D)].
    + rewrite En. destruct o as [|s|s|]; auto; [|contradiction]. destruct D as [Q|[-> Q]]; [left|right]; split; auto.
      * destruct Q as (k & Ek & ->). pose proof (A k s Ek) as HA. apply In_nth_error in HA. destruct HA as [j Ej]. exists j.
        assert (j < length ans)%nat by (apply nth_error_Some; congruence). split; [lia|]. now apply nth_app_l.
      * intros j b Lj Ej S. apply Q. eapply is_sym_in; eauto.
    + assert (SY : is_sym (names t') (NUM (Z.of_nat (length (names t)))) s).
      { rewrite En. exists (length (names t)). rewrite nth_error_app2, Nat.sub_diag; auto. }
      destruct D as [->| ->]; auto. exists s. split; auto. intros j Lj Ej. assert (nth_error ans j = Some (NUM (Z.of_nat (length (names t))))) as Ej' by (rewrite <- Ej; symmetry; apply OLD; auto).
      eapply old_answer in Ej'; eauto.
  - intros i x Ei. destruct (NEWI i x Ei) as [Q| ->].
    + destruct (Z i x Q) as [->|(s & S)]; auto. right. exists s. destruct D as [[-> _]|(s0 & _ & -> & _)]; auto using is_sym_app.
    + destruct D as [[En D]|(s & Ns & En & -> & D)]; rewrite En.
      * destruct o as [|s|s|]; auto; [right; eauto| |contradiction]. destruct D as [Q|[-> _]]; [right; eauto|left; auto].
      * right. exists s, (length (names t)). rewrite nth_error_app2, Nat.sub_diag; auto.
  - intros k s Ek. rewrite in_app_iff. destruct D as [[En D]|(s0 & Ns & En & -> & D)]; rewrite En in Ek; [left; eauto|].
    destruct (Nat.lt_ge_cases k (length (names t))); [left; rewrite nth_error_app1 in Ek by auto; eauto|].
    assert (k < length (names t ++ [s0]))%nat by (apply nth_error_Some; congruence). rewrite app_length in *. cbn in *. right. left. do 2 f_equal. lia.
Qed.

Lemma srun_inv ops : forall t0, initialised t0 = true -> names t0 = [] -> unique t0 = 0 ->
  match srun t0 ops with
  | Ok (t, ans) => hinv ops ans t /\ length ans = length ops
  | Exit => exists ops1 o ops2 t ans s, ops = ops1 ++ o :: ops2 /\ srun t0 ops1 = Ok (t, ans) /\ hinv ops1 ans t /\
      length (names t) = MAX_SYMBOL /\ ~ In s (names t) /\ (o = Intern s \/ o = Gensym)
  | UB | Fuel => False
  end.
Proof.
  intros t0 I N U. induction ops as [|o ops IH] using rev_ind.
  - cbn. split; auto. pose proof MAX_val. split; auto.
    + split; auto; rewrite ?N, ?U; cbn; try lia; try constructor.
    + intros i. unfold good_at. destruct i; auto; cbn; auto.
    + intros [|i] a E; discriminate.
    + rewrite N. intros [|k] s E; discriminate.
  - rewrite srun_app. destruct (srun t0 ops) as [[t ans]| | |] eqn:E; cbn [bind]; try contradiction.
    + destruct IH as [H L]. cbn [SymbolModel.srun]. destruct (sstep_spec t o (hi_t _ _ _ H)) as [(s & Ns & Ls & D & Es)|(t' & a & Es & I' & D)]; rewrite Es; cbn [bind].
      * exists ops, o, [], t, ans, s. ands; auto.
      * split; [eapply hinv_step; eauto|]. rewrite !app_length, L. auto.
    + destruct IH as (ops1 & o1 & ops2 & t & ans & s & -> & Q). exists ops1, o1, (ops2 ++ [o]), t, ans, s. rewrite <- app_assoc. cbn. tauto.
Qed.
End P.
