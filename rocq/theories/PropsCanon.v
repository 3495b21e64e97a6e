(** * C63-C66: canonical types and signatures (analyze/canonical-type.c, canonical-signature.c) *)
From Coq Require Import Permutation Sorted.
From Verif Require Import Base PrimeModel PrimeSpec PrimeProofs HashTableModel HashConsModel HashConsSpec HashConsProofs
  CanonModel CanonSpec CanonProofs CanonOrderProofs HashConsSetProofs PropsUtil PropsHashCons.
Open Scope Z_scope.

(** No hash of the history overflows a long. *)
Definition hashable (ops : list canon_op) : Prop :=
  (forall t, In t (fst (terms ops)) -> no_overflow (term_hash t)) /\ (forall s, In s (snd (terms ops)) -> no_overflow (csig_hash s)).

Lemma run_total st ops : reachable_sieve st -> canon_wf 0 ops -> Z.of_nat (length ops) < 250000000 -> hashable ops ->
  exists s, canon_run st ops = Ok s /\ run_ok (length ops) s (terms ops).
Proof.
  intros Hst Hw Hn [H1 H2]. apply (run_all ops 0 _ ([], [])); auto. apply init_ok_run. now apply reachable_ok.
Qed.

(** ** C63: for every history of constructions of types and signatures that does not
    overflow a hash: every construction succeeds; two types are the same pointer exactly if
    they are the same type; what is stored behind each pointer, also after everything that
    follows in the history, is the type that was constructed. *)
Theorem C63_types_partial : forall st ops, reachable_sieve st -> canon_wf 0 ops -> Z.of_nat (length ops) < 250000000 -> hashable ops ->
  exists s, canon_run st ops = Ok s /\ length (c_rt s) = length (fst (terms ops)) /\
    forall i j p q t u, nth_error (c_rt s) i = Some p -> nth_error (c_rt s) j = Some q ->
      nth_error (fst (terms ops)) i = Some t -> nth_error (fst (terms ops)) j = Some u ->
      (p = q <-> t = u) /\ unfolds (objs (c_types s)) p t.
Proof.
  intros st ops Hst Hw Hn Hh. destruct (run_total st ops Hst Hw Hn Hh) as (s & E & R). exists s. split; auto.
  destruct R as [R1 R2 R3 R4 R5 R6]. split; [eapply Forall2_len; eauto|]. intros i j p q t u Hp Hq Ht Hu.
  destruct (Forall2_nth _ _ _ R5 _ _ _ Hp Ht) as [P1 P2]. destruct (Forall2_nth _ _ _ R5 _ _ _ Hq Hu) as [Q1 Q2]. split.
  - rewrite <- P2, <- Q2. split; [congruence|]. apply nodup_dp; rewrite ?deeps_length; auto. apply types_nodup; auto.
  - rewrite <- P2. eapply den_unfolds; eauto. apply R2.
Qed.
Print Assumptions C63_types_partial.

(** The condition on overflow is needed: a function of four parameters of a type whose
    declaration is at a usual address of the heap. *)
Theorem C63_refuted : forall st, reachable_sieve st -> canon_run st [OUse 93824992235520; OFunc [0; 0; 0; 0]%nat 0] = UB.
Proof.
  intros st Hst. assert (Hh : hashable [OUse 93824992235520]).
  { split; intros t Ht; vm_compute in Ht; [destruct Ht as [<-|[]]; eexists; vm_compute; reflexivity|destruct Ht]. }
  destruct (run_total st [OUse 93824992235520] Hst I eq_refl Hh) as (s & E & R).
  unfold canon_run in *. change [OUse 93824992235520; OFunc [0; 0; 0; 0]%nat 0] with ([OUse 93824992235520] ++ [OFunc [0; 0; 0; 0]%nat 0]).
  rewrite foldM_app. unfold canon_run in E. rewrite E. cbn [bind foldM]. destruct R as [R1 R2 R3 R4 R5 R6].
  change (fst (terms [OUse 93824992235520])) with [TUse 93824992235520] in R5. inversion R5 as [|p t l l' [P1 P2] F E1 E2]; subst. inversion F; subst.
  unfold canon_step. rewrite <- E1. change (mapM_rd [p] [0; 0; 0; 0]%nat) with (Ok [p; p; p; p]). cbn [bind]. change (rd [p] 0) with (Ok p). cbn [bind].
  unfold new_type. rewrite item_hash_deep; auto; [|apply R2|intros q [<-|[<-|[<-|[<-|[<-|[]]]]]]; auto].
  simpl deep_shape. rewrite P2. replace (term_hash _) with (@UB Z) by (vm_compute; reflexivity). reflexivity.
Qed.
Print Assumptions C63_refuted.

(** A sufficient condition: uses and qualified types up to 2000 levels deep whose
    declarations are at addresses below 2^47, in signatures of up to two of them. *)
Fixpoint plain (n : nat) (t : ctype) : Prop :=
  match t with
  | TUse d => 0 <= d < 2 ^ 47
  | TQual t d => 0 <= d < 2 ^ 47 /\ match n with O => False | S n => plain n t end
  | TFunc _ _ => False
  end.
Definition plain_ops (ops : list canon_op) : Prop :=
  (forall t, In t (fst (terms ops)) -> plain 2000 t) /\
  (forall s, In s (snd (terms ops)) -> 0 <= t_class s < 2 ^ 47 /\ (length (t_actuals s) <= 2)%nat /\ forall t, In t (t_actuals s) -> plain 50 t).
Lemma to_long_id d : 0 <= d < 2 ^ 47 -> to_long d = d.
Proof. intros H. unfold to_long, LONG_MAX. destruct (Z.leb_spec d 9223372036854775807); lia. Qed.
Lemma mix_ok a b : 0 <= a -> 0 <= b -> (527 + a) * 31 + b <= LONG_MAX -> hash_mix a b = Ok ((527 + a) * 31 + b).
Proof.
  intros Ha Hb H. unfold hash_mix, long, LONG_MIN in *. change (17 * 31) with 527. unfold LONG_MAX in *.
  repeat (match goal with |- context [(?x <=? ?y) && (?u <=? ?v)] => replace ((x <=? y) && (u <=? v))%bool with true by (symmetry; apply andb_true_iff; split; apply Z.leb_le; lia) end; cbn [bind]).
  reflexivity.
Qed.
Lemma plain_hash n : forall t, (n <= 2000)%nat -> plain n t -> exists v, term_hash t = Ok v /\ 0 <= v <= (Z.of_nat n + 1) * 2 ^ 52.
Proof.
  induction n as [|n IH]; intros [d|t d|ts r] Hn Hp; simpl in Hp; try tauto.
  - simpl term_hash. rewrite to_long_id by auto. rewrite mix_ok by (unfold LONG_MAX; lia). eexists. split; [reflexivity|]. lia.
  - simpl term_hash. rewrite to_long_id by auto. rewrite mix_ok by (unfold LONG_MAX; lia). eexists. split; [reflexivity|]. lia.
  - destruct Hp as [Hd Hp]. destruct (IH t ltac:(lia) Hp) as (v & E & Hv). cbn [term_hash]. rewrite E. cbn [bind]. rewrite to_long_id by auto.
    rewrite mix_ok by (unfold LONG_MAX; lia). cbn [bind]. rewrite mix_ok by (unfold LONG_MAX; lia). eexists. split; [reflexivity|]. lia.
Qed.
Theorem C63_plain : forall ops, plain_ops ops -> hashable ops.
Proof.
  intros ops [H1 H2]. split.
  - intros t Ht. destruct (plain_hash 2000 t (le_n _) (H1 t Ht)) as (v & E & _). exists v. auto.
  - intros s Hs. destruct (H2 s Hs) as (Hc & Hl & Ha). destruct s as [inp var cls acts]. cbn [t_class t_actuals] in Hc, Hl, Ha. unfold csig_hash; simpl t_actuals; simpl t_class; simpl t_var; simpl t_input.
    assert (Hb : forall b, 0 <= bool_int b <= 1) by (intros []; simpl; lia). pose proof (Hb inp). pose proof (Hb var).
    assert (K : exists v, foldM (fun h t => v <- term_hash t ;; hash_mix h v) acts 17 = Ok v /\ 0 <= v <= 34 * 51 * 2 ^ 52).
    { assert (P : forall t, In t acts -> exists v, term_hash t = Ok v /\ 0 <= v <= 51 * 2 ^ 52). { intros t Ht. exact (plain_hash 50 t ltac:(lia) (Ha t Ht)). }
      destruct acts as [|a [|b [|c acts]]]; simpl in Hl; try lia; cbn [foldM].
      - exists 17. split; auto. lia.
      - destruct (P a) as (v & E & Hv); [left; auto|]. rewrite E. cbn [bind]. rewrite mix_ok by (unfold LONG_MAX; lia). cbn [bind]. eexists. split; [reflexivity|]. lia.
      - destruct (P a) as (v & E & Hv); [left; auto|]. destruct (P b) as (w & E' & Hw); [right; left; auto|]. rewrite E. cbn [bind]. rewrite mix_ok by (unfold LONG_MAX; lia). cbn [bind].
        rewrite E'. cbn [bind]. rewrite mix_ok by (unfold LONG_MAX; lia). cbn [bind]. eexists. split; [reflexivity|]. lia. }
    destruct K as (v & -> & Hv). cbn [bind]. rewrite to_long_id by auto. rewrite mix_ok by (unfold LONG_MAX; lia). cbn [bind].
    rewrite mix_ok by (unfold LONG_MAX; lia). cbn [bind]. rewrite mix_ok by (unfold LONG_MAX; lia). eexists. reflexivity.
Qed.
Print Assumptions C63_plain.

(** ** C64: the same for signatures. *)
Theorem C64_signatures_partial : forall st ops, reachable_sieve st -> canon_wf 0 ops -> Z.of_nat (length ops) < 250000000 -> hashable ops ->
  exists s, canon_run st ops = Ok s /\ length (c_rs s) = length (snd (terms ops)) /\
    forall i j p q t u, nth_error (c_rs s) i = Some p -> nth_error (c_rs s) j = Some q ->
      nth_error (snd (terms ops)) i = Some t -> nth_error (snd (terms ops)) j = Some u ->
      (p = q <-> t = u) /\ sig_unfolds (objs (c_types s)) (objs (c_sigs s)) p t.
Proof.
  intros st ops Hst Hw Hn Hh. destruct (run_total st ops Hst Hw Hn Hh) as (s & E & R). exists s. split; auto.
  destruct R as [R1 R2 R3 R4 R5 R6]. split; [eapply Forall2_len; eauto|]. intros i j p q t u Hp Hq Ht Hu.
  destruct (Forall2_nth _ _ _ R6 _ _ _ Hp Ht) as (y & P1 & P2). destruct (Forall2_nth _ _ _ R6 _ _ _ Hq Hu) as (z & Q1 & Q2).
  destruct R3 as [S1 S2]. split.
  - split; [congruence|]. intros ->. apply (state_uniq _ _ _) in S2.
    destruct p as [|p]; [discriminate P1|]. destruct q as [|q]; [discriminate Q1|]. simpl in P1, Q1. unfold rd in P1, Q1.
    destruct (nth_error (objs (c_sigs s)) p) as [y'|] eqn:Ey; [|discriminate P1]. destruct (nth_error (objs (c_sigs s)) q) as [z'|] eqn:Ez; [|discriminate Q1].
    f_equal. apply (S2 p q (deep_sig (deeps (objs (c_types s))) y') (deep_sig (deeps (objs (c_types s))) z')); simpl.
    + rewrite nth_error_map, Ey. auto.
    + rewrite nth_error_map, Ez. auto.
    + apply csig_eqb_eq. congruence.
  - exists y. rewrite <- P2. simpl. ands; auto. apply den_unfolds_all; [apply R2|]. rewrite Forall_forall in S1. intros a Ha.
    apply (S1 y); auto. eapply deref_in; eauto.
Qed.
Print Assumptions C64_signatures_partial.

(** ** C65: the order in which types and signatures are printed. *)
(** A type of a history, and a signature *)
Definition has_type (s : cstate) (p : nat) (t : ctype) : Prop := In p (c_rt s) /\ unfolds (objs (c_types s)) p t.
Definition has_sig (s : cstate) (p : nat) (t : csig) : Prop := In p (c_rs s) /\ sig_unfolds (objs (c_types s)) (objs (c_sigs s)) p t.
Definition compare_types (line : Z -> Z) (s : cstate) (p q : nat) : res Z := type_compare line (S (length (objs (c_types s)))) (objs (c_types s)) p q.
Definition compare_sigs (line : Z -> Z) (s : cstate) (p q : nat) : res Z :=
  a <- deref (objs (c_sigs s)) p ;; b <- deref (objs (c_sigs s)) q ;; signature_compare line (objs (c_types s)) a b.

Lemma run_inv st ops s : reachable_sieve st -> canon_wf 0 ops -> Z.of_nat (length ops) < 250000000 -> hashable ops -> canon_run st ops = Ok s ->
  run_ok (length ops) s (terms ops).
Proof. intros H1 H2 H3 H4 E. destruct (run_total st ops H1 H2 H3 H4) as (s' & E' & R). congruence. Qed.
Lemma Forall2_in_l {A B} (P : A -> B -> Prop) l l' a : Forall2 P l l' -> In a l -> exists b, P a b /\ In b l'.
Proof. intros F. induction F as [|x y l l' H F IH]; [intros []|]. intros [<-|Ha]; [exists y; split; [auto|left; auto]|]. destruct (IH Ha) as (b & H1 & H2). exists b. split; auto. right; auto. Qed.
Lemma type_valid n s d p t : run_ok n s d -> has_type s p t -> valid (length (objs (c_types s))) p /\ t = dp (deeps (objs (c_types s))) p.
Proof.
  intros R [Hp U]. destruct (Forall2_in_l _ _ _ _ (r_rt _ _ _ R) Hp) as (b & [V1 V2] & _). split; auto. apply unfolds_dp; auto. apply R.
Qed.
Lemma sig_valid n s d p t : run_ok n s d -> has_sig s p t -> exists y, deref (objs (c_sigs s)) p = Ok y /\ sig_ok (length (objs (c_types s))) y /\ deep_sig (deeps (objs (c_types s))) y = t.
Proof.
  intros R [Hp (y & E & U1 & U2 & U3 & U4)]. exists y. split; auto. pose proof (s_all _ _ (r_sigs _ _ _ R)) as HA. rewrite Forall_forall in HA.
  assert (Hy : sig_ok (length (objs (c_types s))) y) by (apply HA; eapply deref_in; eauto). split; auto. destruct t as [i v c l]. simpl in *. unfold deep_sig. subst. f_equal.
  clear - U4 Hy R. unfold sig_ok in Hy. induction U4 as [|a t l l' U F IH]; simpl; auto. f_equal.
  - symmetry. apply unfolds_dp; auto. { apply R. } apply Hy. left; auto.
  - apply IH. intros p Hp. apply Hy. right; auto.
Qed.
Theorem C65_compare : forall st ops s line, reachable_sieve st -> canon_wf 0 ops -> Z.of_nat (length ops) < 250000000 -> hashable ops -> canon_run st ops = Ok s ->
  (forall p q t u, has_type s p t -> has_type s q u ->
     exists c, compare_types line s p q = Ok c /\ Z.sgn c = lex (polish (at_lines line t)) (polish (at_lines line u)) /\ (c = 0 <-> at_lines line t = at_lines line u)) /\
  (forall p q t u, has_sig s p t -> has_sig s q u ->
     exists c, compare_sigs line s p q = Ok c /\ Z.sgn c = lex (sig_polish (sig_at_lines line t)) (sig_polish (sig_at_lines line u)) /\ (c = 0 <-> sig_at_lines line t = sig_at_lines line u)).
Proof.
  intros st ops s line H1 H2 H3 H4 E. pose proof (run_inv _ _ _ H1 H2 H3 H4 E) as R. pose proof (t_heap _ (r_types _ _ _ R)) as Ho. split.
  - intros p q t u Hp Hq. destruct (type_valid _ _ _ _ _ R Hp) as [V1 ->]. destruct (type_valid _ _ _ _ _ R Hq) as [V2 ->].
    set (a := dp (deeps (objs (c_types s))) p). set (b := dp (deeps (objs (c_types s))) q). exists (tcmp line a b). ands.
    + apply type_compare_term; auto. unfold valid in V1. lia.
    + apply tcmp_lex.
    + pose proof (tcmp_lex line a b) as L. unfold code in L. split.
      * intros Z0. rewrite Z0 in L. symmetry in L. apply lex_eq in L. rewrite <- (app_nil_r (polish _)) in L. rewrite <- (app_nil_r (polish (at_lines line b))) in L.
        apply polish_inj in L. apply L.
      * intros El. rewrite El, lex_refl in L. lia.
  - intros p q t u Hp Hq. destruct (sig_valid _ _ _ _ _ R Hp) as (y & Ey & Vy & <-). destruct (sig_valid _ _ _ _ _ R Hq) as (z & Ez & Vz & <-).
    unfold compare_sigs. rewrite Ey, Ez. cbn [bind]. destruct (signature_compare_lex line (objs (c_types s)) y z Ho Vy Vz) as (c & Ec & L). exists c. unfold scode in L. ands; auto. split.
    + intros ->. symmetry in L. apply lex_eq in L. now apply sig_polish_inj.
    + intros El. rewrite El, lex_refl in L. lia.
Qed.
Print Assumptions C65_compare.

(** The elements of a set of signatures are printed in this order: a permutation of the set,
    no element before one that is less; and what is printed for a set depends neither on
    the order of its elements nor on addresses: two sets, in two runs, whose signatures
    are the same up to declarations at the same lines are printed alike. *)
Definition print_order (line : Z -> Z) (s : cstate) (set : list nat) : res (list nat) := printed line (objs (c_types s)) (objs (c_sigs s)) set.
Fixpoint ins (l : list Z) (sorted : list (list Z)) : list (list Z) :=
  match sorted with [] => [l] | x :: rest => if 0 <? lex x l then x :: ins l rest else l :: sorted end.
Lemma ins_perm l sorted : Permutation (l :: sorted) (ins l sorted).
Proof. induction sorted as [|x r IH]; simpl; auto. destruct (0 <? lex x l); auto. rewrite perm_swap. auto. Qed.
Definition desc (a b : list Z) : Prop := lex b a <= 0.
Lemma ins_sorted l sorted : StronglySorted desc sorted -> StronglySorted desc (ins l sorted).
Proof.
  intros H. induction H as [|x r H IH HF]; simpl; [repeat constructor|]. destruct (Z.ltb_spec 0 (lex x l)).
  - constructor; auto. apply (Permutation_Forall (ins_perm l r)). constructor; auto. unfold desc. rewrite lex_antisym. lia.
  - constructor; [constructor; auto|]. constructor; auto. rewrite Forall_forall in *. intros y Hy. specialize (HF y Hy). unfold desc in *. eapply lex_trans; eauto.
Qed.
Lemma desc_unique l : forall l', StronglySorted desc l -> StronglySorted desc l' -> Permutation l l' -> l = l'.
Proof.
  induction l as [|x l IH]; intros l' H H' P; [apply Permutation_nil in P; auto|].
  destruct l' as [|y l']; [apply Permutation_sym, Permutation_nil in P; discriminate P|].
  inversion H as [|? ? H1 H2]; subst. inversion H' as [|? ? H3 H4]; subst. rewrite Forall_forall in H2, H4.
  assert (x = y).
  { assert (Hx : In x (y :: l')) by (eapply Permutation_in; [exact P|left; auto]).
    assert (Hy : In y (x :: l)) by (eapply Permutation_in; [exact (Permutation_sym P)|left; auto]).
    destruct Hx as [->|Hx]; auto. destruct Hy as [->|Hy]; auto. specialize (H4 x Hx). specialize (H2 y Hy). unfold desc in *. apply lex_eq.
    pose proof (lex_antisym x y). lia. }
  subst. f_equal. apply IH; auto. eapply Permutation_cons_inv; eauto.
Qed.
Section Printed.
Variable line : Z -> Z.
Variable s : cstate.
Hypothesis Ho : heap_ok (objs (c_types s)).
Definition code_of (p : nat) (c : list Z) : Prop := exists y, deref (objs (c_sigs s)) p = Ok y /\ sig_ok (length (objs (c_types s))) y /\ scode line (deep_sig (deeps (objs (c_types s))) y) = c.
Lemma insert_sig_ok item c sorted : forall cs, code_of item c -> Forall2 code_of sorted cs ->
  exists r, insert_sig line (objs (c_types s)) (objs (c_sigs s)) item sorted = Ok r /\ Permutation (item :: sorted) r /\ Forall2 code_of r (ins c cs).
Proof.
  induction sorted as [|p rest IH]; intros cs Hc F; inversion F as [|? d ? ds Hp F']; subst; cbn [insert_sig ins].
  - exists [item]. ands; auto.
  - destruct Hp as (y & Ey & Vy & <-). pose proof Hc as (z & Ez & Vz & <-). rewrite Ey. cbn [bind]. rewrite Ez. cbn [bind].
    destruct (signature_compare_lex line (objs (c_types s)) y z Ho Vy Vz) as (k & Ek & L). rewrite Ek. cbn [bind]. rewrite <- L.
    assert (E0 : (0 <? Z.sgn k) = (0 <? k)) by (destruct k; auto). rewrite E0. destruct (0 <? k).
    + destruct (IH ds Hc F') as (r & Er & Pr & Fr). rewrite Er. cbn [bind]. exists (p :: r). ands; auto.
      * rewrite perm_swap. auto.
      * constructor; auto. exists y. auto.
    + exists (item :: p :: rest). ands; auto.
Qed.
Lemma printed_ok set cs : Forall2 code_of set cs -> exists r, print_order line s set = Ok r /\ Permutation set r /\
  exists cs', Forall2 code_of r cs' /\ Permutation cs cs' /\ StronglySorted desc (rev cs').
Proof.
  intros F. unfold print_order, printed.
  assert (K : forall acc ds, Forall2 code_of acc ds -> StronglySorted desc ds ->
    exists r, foldM (fun sorted item => insert_sig line (objs (c_types s)) (objs (c_sigs s)) item sorted) set acc = Ok r /\ Permutation (set ++ acc) r /\
      exists cs', Forall2 code_of r cs' /\ Permutation (cs ++ ds) cs' /\ StronglySorted desc cs').
  { induction F as [|p c set cs Hp F IH]; intros acc ds Fa Sa; cbn [foldM app].
    - exists acc. ands; auto. exists ds. ands; auto.
    - destruct (insert_sig_ok p c acc ds Hp Fa) as (r & Er & Pr & Fr). rewrite Er. cbn [bind].
      destruct (IH r (ins c ds) Fr (ins_sorted _ _ Sa)) as (r' & Er' & Pr' & cs' & Fr' & Pc' & Sc'). exists r'. ands; auto.
      + rewrite <- Pr', <- Pr. apply Permutation_middle.
      + exists cs'. ands; auto. rewrite <- Pc', <- ins_perm. apply Permutation_middle. }
  destruct (K [] []) as (r & Er & Pr & cs' & Fr & Pc & Sc); [constructor|constructor|]. rewrite Er. cbn [bind]. exists (rev r). rewrite app_nil_r in *. ands; auto.
  - rewrite <- Permutation_rev. auto.
  - exists (rev cs'). ands.
    + clear - Fr. induction Fr as [|a b l l' H F IH]; simpl; [constructor|]. apply Forall2_app; auto.
    + rewrite <- Permutation_rev. auto.
    + now rewrite rev_involutive.
Qed.
End Printed.
Lemma sorted_rev {A} (R : A -> A -> Prop) l : StronglySorted R (rev l) -> StronglySorted (fun a b => R b a) l.
Proof.
  induction l as [|x l IH]; simpl; intros H; [constructor|].
  assert (K : StronglySorted R (rev l) /\ forall y, In y (rev l) -> R y x).
  { clear IH. revert H. generalize (rev l) as m. induction m as [|y m IHm]; simpl; intros H; [split; [constructor|intros y []]|].
    inversion H as [|? ? H1 H2]; subst. destruct (IHm H1) as [K1 K2]. rewrite Forall_forall in H2. split.
    - constructor; auto. apply Forall_forall. intros z Hz. apply H2. apply in_or_app; auto.
    - intros z [<-|Hz]; auto. apply H2. apply in_or_app. right; left; auto. }
  destruct K as [K1 K2]. constructor; auto. apply Forall_forall. intros y Hy. apply K2. now apply -> in_rev.
Qed.
Lemma has_code n s d p t line : run_ok n s d -> has_sig s p t -> code_of line s p (scode line t).
Proof. intros R H. destruct (sig_valid _ _ _ _ _ R H) as (y & E & V & <-). exists y. auto. Qed.
Lemma code_has n s d p t c line : run_ok n s d -> has_sig s p t -> code_of line s p c -> c = scode line t.
Proof. intros R H (y & E & V & <-). destruct (sig_valid _ _ _ _ _ R H) as (z & E' & V' & <-). congruence. Qed.

Theorem C65_printed : forall st ops s line set ts, reachable_sieve st -> canon_wf 0 ops -> Z.of_nat (length ops) < 250000000 -> hashable ops -> canon_run st ops = Ok s ->
  Forall2 (has_sig s) set ts ->
  exists r us, print_order line s set = Ok r /\ Permutation set r /\ Forall2 (has_sig s) r us /\
    StronglySorted (fun t u => lex (sig_polish (sig_at_lines line t)) (sig_polish (sig_at_lines line u)) <= 0) us.
Proof.
  intros st ops s line set ts H1 H2 H3 H4 E F. pose proof (run_inv _ _ _ H1 H2 H3 H4 E) as R.
  assert (Fc : Forall2 (code_of line s) set (map (scode line) ts)). { clear - F R. induction F as [|p t set ts H F IH]; simpl; constructor; auto. eapply has_code; eauto. }
  destruct (printed_ok line s (t_heap _ (r_types _ _ _ R)) set _ Fc) as (r & Er & Pr & cs' & Fr & Pc & Sc).
  assert (Fs : exists us, Forall2 (has_sig s) r us).
  { assert (K : forall p, In p r -> exists t, has_sig s p t). { intros p Hp. apply (Permutation_in _ (Permutation_sym Pr)) in Hp. destruct (Forall2_in_l _ _ _ _ F Hp) as (t & Ht & _). eauto. }
    clear - K. induction r as [|p r IH]; [exists []; constructor|]. destruct (K p) as [t Ht]; [left; auto|]. destruct IH as [us Hus]; [intros q Hq; apply K; right; auto|]. exists (t :: us). constructor; auto. }
  destruct Fs as [us Fs]. exists r, us. ands; auto. assert (Ec : cs' = map (scode line) us).
  { clear - Fr Fs R. revert cs' Fr. induction Fs as [|p u r us Hp Fs IH]; intros cs' Fr; inversion Fr; subst; simpl; auto. f_equal; auto. eapply code_has; eauto. }
  apply sorted_rev in Sc. rewrite Ec in Sc. clear - Sc. induction us as [|u us IH]; [constructor|]. inversion Sc as [|? ? S1 S2]; subst. constructor; auto.
  rewrite Forall_forall in *. intros x Hx. apply (S2 (scode line x)). now apply in_map.
Qed.
Print Assumptions C65_printed.

Theorem C65_deterministic : forall line st ops s st' ops' s' line' set ts set' ts',
  reachable_sieve st -> canon_wf 0 ops -> Z.of_nat (length ops) < 250000000 -> hashable ops -> canon_run st ops = Ok s ->
  reachable_sieve st' -> canon_wf 0 ops' -> Z.of_nat (length ops') < 250000000 -> hashable ops' -> canon_run st' ops' = Ok s' ->
  Forall2 (has_sig s) set ts -> Forall2 (has_sig s') set' ts' -> Permutation (map (sig_at_lines line) ts) (map (sig_at_lines line') ts') ->
  exists r us r' us', print_order line s set = Ok r /\ Forall2 (has_sig s) r us /\ print_order line' s' set' = Ok r' /\ Forall2 (has_sig s') r' us' /\
    map (sig_at_lines line) us = map (sig_at_lines line') us'.
Proof.
  intros line st ops s st' ops' s' line' set ts set' ts' A1 A2 A3 A4 AE B1 B2 B3 B4 BE F F' P.
  destruct (C65_printed st ops s line set ts A1 A2 A3 A4 AE F) as (r & us & Er & Pr & Fr & Sr).
  destruct (C65_printed st' ops' s' line' set' ts' B1 B2 B3 B4 BE F') as (r' & us' & Er' & Pr' & Fr' & Sr').
  exists r, us, r', us'. ands; auto. pose proof (run_inv _ _ _ A1 A2 A3 A4 AE) as R. pose proof (run_inv _ _ _ B1 B2 B3 B4 BE) as R'.
  assert (HP : forall n s d line set ts r us, run_ok n s d -> Forall2 (has_sig s) set ts -> Forall2 (has_sig s) r us -> Permutation set r ->
    Permutation (map (sig_at_lines line) ts) (map (sig_at_lines line) us)).
  { clear. intros n s d line set ts r us R F Fr P. apply Permutation_map. revert ts us F Fr. induction P as [|x l l' P IH|x y l|l l' l'' P1 IH1 P2 IH2]; intros ts us F Fr.
    - inversion F; inversion Fr; subst. auto.
    - inversion F as [|? t ? ts0 H1 H2]; subst. inversion Fr as [|? u ? us0 H3 H4]; subst.
      assert (t = u). { destruct (sig_valid _ _ _ _ _ R H1) as (a & Ea & _ & <-). destruct (sig_valid _ _ _ _ _ R H3) as (b & Eb & _ & <-). congruence. } subst. auto.
    - inversion F as [|? t ? ts0 H1 H2]; subst. inversion H2 as [|? t1 ? ts1 H5 H6]; subst. inversion Fr as [|? u ? us0 H3 H4]; subst. inversion H4 as [|? u1 ? us1 H7 H8]; subst.
      assert (t = u1). { destruct (sig_valid _ _ _ _ _ R H1) as (a & Ea & _ & <-). destruct (sig_valid _ _ _ _ _ R H7) as (b & Eb & _ & <-). congruence. }
      assert (t1 = u). { destruct (sig_valid _ _ _ _ _ R H5) as (a & Ea & _ & <-). destruct (sig_valid _ _ _ _ _ R H3) as (b & Eb & _ & <-). congruence. } subst.
      assert (ts1 = us1); [|subst; apply perm_swap]. clear - H6 H8 R. revert us1 H8. induction H6 as [|p t l ts Hp F IH]; intros us H8; inversion H8; subst; auto. f_equal; auto.
      destruct (sig_valid _ _ _ _ _ R Hp) as (a & Ea & _ & <-). match goal with H : has_sig s p _ |- _ => destruct (sig_valid _ _ _ _ _ R H) as (b & Eb & _ & <-) end. congruence.
    - assert (K : exists ms, Forall2 (has_sig s) l' ms).
      { assert (K : forall p, In p l' -> exists t, has_sig s p t). { intros p Hp. apply (Permutation_in _ P2) in Hp. destruct (Forall2_in_l _ _ _ _ Fr Hp) as (t & Ht & _). eauto. }
        clear - K. induction l' as [|p r IH]; [exists []; constructor|]. destruct (K p) as [t Ht]; [left; auto|]. destruct IH as [us Hus]; [intros q Hq; apply K; right; auto|]. exists (t :: us). constructor; auto. }
      destruct K as [ms K]. rewrite (IH1 ts ms); auto. }
  pose proof (HP _ _ _ line _ _ _ _ R F Fr Pr) as Q. pose proof (HP _ _ _ line' _ _ _ _ R' F' Fr' Pr') as Q'.
  set (P1 := map (sig_at_lines line) us) in *. set (P2 := map (sig_at_lines line') us') in *.
  assert (PP : Permutation P1 P2) by (rewrite <- Q, <- Q'; exact P).
  assert (Sort : forall P0, StronglySorted (fun t u => lex (sig_polish t) (sig_polish u) <= 0) P0 -> StronglySorted desc (rev (map sig_polish P0))).
  { clear. induction P0 as [|x l IH]; intros H; simpl; [constructor|]. inversion H as [|? ? H1 H2]; subst. specialize (IH H1). rewrite Forall_forall in H2.
    assert (K : forall y, In y (rev (map sig_polish l)) -> desc y (sig_polish x)). { intros y Hy. apply in_rev in Hy. apply in_map_iff in Hy. destruct Hy as (z & <- & Hz). apply H2; auto. }
    revert IH K. generalize (rev (map sig_polish l)) as m. induction m as [|y m IHm]; simpl; intros Sm K; [repeat constructor|]. inversion Sm as [|? ? M1 M2]; subst. constructor; [apply IHm; auto|].
    apply Forall_forall. intros z Hz. apply in_app_or in Hz. rewrite Forall_forall in M2. destruct Hz as [Hz|[<-|[]]]; auto. }
  assert (S1 : forall (f : csig -> csig) us, StronglySorted (fun t u => lex (sig_polish (f t)) (sig_polish (f u)) <= 0) us -> StronglySorted (fun t u : csig => lex (sig_polish t) (sig_polish u) <= 0) (map f us)).
  { clear. intros f us H. induction H as [|x l H IH HF]; cbn [map]; constructor; auto. rewrite Forall_forall in *. intros y Hy. apply in_map_iff in Hy. destruct Hy as (z & <- & Hz). apply (HF z Hz). }
  assert (EQ : rev (map sig_polish P1) = rev (map sig_polish P2)).
  { apply desc_unique; [apply Sort, S1; auto|apply Sort, S1; auto|]. rewrite <- !Permutation_rev. apply Permutation_map. exact PP. }
  apply (f_equal (@rev _)) in EQ. rewrite !rev_involutive in EQ. clear - EQ. revert EQ. generalize P1, P2. clear. intros l. induction l as [|x l IH]; intros [|y l'] E; simpl in E; auto; try discriminate E.
  assert (E1 : sig_polish x = sig_polish y) by (exact (f_equal (hd []) E)). assert (E2 : map sig_polish l = map sig_polish l') by (exact (f_equal (@tl _) E)). f_equal; [now apply sig_polish_inj|auto].
Qed.
Print Assumptions C65_deterministic.

(** ** C66: substituting the actuals of an instance for the formals of its module in a
    signature writes beyond the memory that was asked for, whenever the signature has an
    actual (that is not a function type). *)
Theorem C66_refuted : forall st o h formals bases other s, actuals s <> [] ->
  (forall a, In a (actuals s) -> exists d, type_decl o a = Ok d) -> subst_signature st o h formals bases other s = UB.
Proof.
  intros st o h formals bases other s Hn Hd. unfold subst_signature, subst_actuals.
  set (acts := actuals s) in *. set (n := Z.of_nat (length acts)). set (body := fun buf i => _).
  assert (K : foldM body (seq 0 (length acts)) (repeat None (length acts)) = UB).
  { assert (Hl : (0 < length acts)%nat) by (destruct acts; simpl; [congruence|lia]).
    assert (Hs : store (alloca_bytes n) (repeat None (length acts)) 0 (other (nth 0 acts 0%nat)) = UB \/ 8 <= n).
    { unfold store, alloca_bytes. destruct (Z.leb_spec (8 * (Z.of_nat 0 + 1)) n); [right; lia|left; auto]. }
    (* the first store beyond the end *)
    assert (G : forall k buf i, (i + k = length acts)%nat -> (0 < k)%nat -> length buf = length acts -> foldM body (seq i k) buf = UB).
    { induction k as [|k IH]; intros buf i Hik Hk Hb; [lia|]. cbn [seq foldM]. unfold body at 1.
      destruct (nth_error acts i) as [a|] eqn:Ea; [|apply nth_error_None in Ea; lia]. unfold rd at 1. rewrite Ea. cbn [bind].
      destruct (Hd a) as [dd Ed]; [eapply nth_error_In; eauto|].
      unfold store at 1. destruct (Z.leb_spec (8 * (Z.of_nat i + 1)) (alloca_bytes n)) as [Hle|Hgt]; [|reflexivity].
      rewrite wr_Ok by lia. cbn [bind]. rewrite Ed. cbn [bind]. unfold store at 1. destruct (Z.leb_spec (8 * (Z.of_nat i + 1)) (alloca_bytes n)); [|reflexivity].
      rewrite wr_Ok by (rewrite upd_length; lia). cbn [bind]. apply IH; try lia.
      - unfold alloca_bytes, n in Hle. lia.
      - rewrite !upd_length. auto. }
    apply G; try lia. now rewrite repeat_length. }
  rewrite K. reflexivity.
Qed.
Print Assumptions C66_refuted.
(** With enough memory (eight bytes per actual) it would be the substitution: an actual whose
    declaration is the j-th formal of the module becomes the base type of the j-th actual
    of the instance, if there are that many; any other actual becomes [other]. *)
Definition substituted (formals : list Z) (bases : list nat) (other : nat -> nat) (d : Z) (a v : nat) : Prop :=
  (forall j, nth_error formals j = Some d -> forall b, nth_error bases j = Some b -> v = b) /\
  ((forall j b, nth_error formals j = Some d -> nth_error bases j = Some b -> False) -> v = other a).
Lemma pick_k_spec j bases : forall k v, pick_k j k bases v = match (if Nat.leb k j then nth_error bases (j - k) else None) with Some b => b | None => v end.
Proof.
  induction bases as [|b bases IH]; intros k v; cbn [pick_k].
  - destruct (Nat.leb k j); auto. destruct (j - k)%nat; auto.
  - rewrite IH. destruct (Nat.eqb_spec j k) as [->|Hne].
    + rewrite Nat.leb_refl, Nat.sub_diag. destruct (Nat.leb_spec (S k) k); [lia|]. auto.
    + destruct (Nat.leb_spec (S k) j), (Nat.leb_spec k j); try lia; auto. replace (j - k)%nat with (S (j - S k)) by lia. auto.
Qed.
Lemma pick_j_spec f1 bases formals : forall j v, NoDup formals ->
  (forall i b, nth_error formals i = Some f1 -> nth_error bases (j + i) = Some b -> pick_j f1 j formals bases v = b) /\
  ((forall i b, nth_error formals i = Some f1 -> nth_error bases (j + i) = Some b -> False) -> pick_j f1 j formals bases v = v).
Proof.
  induction formals as [|f2 formals IH]; intros j v Hn; cbn [pick_j].
  - split; auto. intros [|i] b H; discriminate H.
  - inversion Hn as [|? ? N1 N2]; subst. destruct (Z.eqb_spec f1 f2) as [->|Hne].
    + rewrite pick_k_spec. cbn [Nat.leb]. rewrite Nat.sub_0_r.
      assert (Hno : forall i, nth_error formals i = Some f2 -> False) by (intros i Hi; apply N1; eapply nth_error_In; eauto).
      split.
      * intros [|i] b Hi Hb; [|simpl in Hi; destruct (Hno i Hi)]. rewrite Nat.add_0_r in Hb. rewrite Hb.
        apply (proj2 (IH (S j) b N2)). intros i b' Hi'. destruct (Hno i Hi').
      * intros H. destruct (nth_error bases j) as [b|] eqn:Eb.
        { destruct (H 0%nat b eq_refl). now rewrite Nat.add_0_r. }
        apply (proj2 (IH (S j) v N2)). intros i b' Hi'. destruct (Hno i Hi').
    + destruct (IH (S j) v N2) as [I1 I2]. split.
      * intros [|i] b Hi Hb; [simpl in Hi; congruence|]. apply (I1 i b); auto. now rewrite Nat.add_succ_comm.
      * intros H. apply I2. intros i b Hi Hb. apply (H (S i) b); auto. now rewrite <- Nat.add_succ_comm.
Qed.
Theorem C66_with_memory : forall bytes o formals bases other acts, NoDup formals -> 8 * Z.of_nat (length acts) <= bytes (Z.of_nat (length acts)) ->
  (forall a, In a acts -> exists d, type_decl o a = Ok d) ->
  exists vs, subst_actuals bytes o formals bases other acts = Ok vs /\ length vs = length acts /\
    forall i a d v, nth_error acts i = Some a -> type_decl o a = Ok d -> nth_error vs i = Some v -> substituted formals bases other d a v.
Proof.
  intros bytes o formals bases other acts Hn Hb Hd. unfold subst_actuals. set (n := Z.of_nat (length acts)) in *.
  set (res := fun a => match type_decl o a with Ok d => pick_j d 0 formals bases (other a) | _ => 0%nat end).
  assert (K : forall k buf i, (i + k = length acts)%nat -> length buf = length acts -> (forall j, (j < i)%nat -> nth_error buf j = Some (option_map res (nth_error acts j))) ->
    exists buf', foldM (fun buf i => a <- rd acts i ;; buf <- store (bytes n) buf i (other a) ;; f1 <- type_decl o a ;; store (bytes n) buf i (pick_j f1 0 formals bases (other a))) (seq i k) buf = Ok buf' /\
      length buf' = length acts /\ (forall j, (j < length acts)%nat -> nth_error buf' j = Some (option_map res (nth_error acts j)))).
  { induction k as [|k IH]; intros buf i Hik Hl Hj; cbn [seq foldM].
    - exists buf. ands; auto. intros j Hj'. apply Hj. lia.
    - destruct (nth_error acts i) as [a|] eqn:Ea; [|apply nth_error_None in Ea; lia]. unfold rd at 1. rewrite Ea. cbn [bind].
      destruct (Hd a) as [dd Ed]; [eapply nth_error_In; eauto|]. unfold store at 1. destruct (Z.leb_spec (8 * (Z.of_nat i + 1)) (bytes n)); [|lia].
      rewrite wr_Ok by lia. cbn [bind]. rewrite Ed. cbn [bind]. unfold store at 1. destruct (Z.leb_spec (8 * (Z.of_nat i + 1)) (bytes n)); [|lia].
      rewrite wr_Ok by (rewrite upd_length; lia). cbn [bind]. apply IH; try lia; [now rewrite !upd_length|].
      intros j Hj'. rewrite nth_error_upd. destruct (Nat.eqb_spec i j) as [<-|Hne].
      + rewrite upd_length. destruct (Nat.ltb_spec i (length buf)); [|lia]. rewrite Ea. simpl. unfold res. now rewrite Ed.
      + rewrite nth_error_upd. destruct (Nat.eqb_spec i j); [lia|]. apply Hj. lia. }
  destruct (K (length acts) (repeat None (length acts)) 0%nat) as (buf & Eb & Lb & Nb); [lia|now rewrite repeat_length|intros j Hj; lia|]. rewrite Eb. cbn [bind].
  assert (L : forall k i r, (i + k = length acts)%nat -> foldM (fun r i => v <- load (bytes n) buf i ;; Ok (r ++ [v])) (seq i k) r = Ok (r ++ map res (skipn i acts))).
  { induction k as [|k IH]; intros i r Hik; cbn [seq foldM].
    - rewrite skipn_all2 by lia. simpl. now rewrite app_nil_r.
    - unfold load at 1. destruct (Z.leb_spec (8 * (Z.of_nat i + 1)) (bytes n)); [|lia]. unfold rd at 1. rewrite Nb by lia.
      destruct (nth_error acts i) as [a|] eqn:Ea; [|apply nth_error_None in Ea; lia]. simpl option_map. cbn [bind]. rewrite IH by lia. f_equal. rewrite <- app_assoc. f_equal.
      assert (Es : skipn i acts = a :: skipn (S i) acts). { clear - Ea. revert i Ea. induction acts as [|b acts IH]; intros [|i] Ea; simpl in *; try discriminate Ea; [congruence|]. apply IH; auto. }
      rewrite Es. reflexivity. }
  rewrite L by lia. exists (map res acts). simpl. ands; auto; [now rewrite map_length|].
  intros i a d v Ha Ed Hv. rewrite nth_error_map, Ha in Hv. simpl in Hv. inversion Hv; subst v. unfold res. rewrite Ed.
  destruct (pick_j_spec d bases formals 0 (other a) Hn) as [I1 I2]. split.
  - intros j Hj b Hb'. apply (I1 j b); auto.
  - intros H. apply I2. intros j b Hj Hb'. apply (H j b); auto.
Qed.
Print Assumptions C66_with_memory.

(** ** Examples *)
Definition canon_demo : list canon_op :=
  [OUse 4096; OUse 8192; OQual 0 12288; OFunc [0; 2]%nat 1; OQual 0 12288; OFunc [0; 4]%nat 1; OSig true false 16384 [0; 2]%nat; OSig true false 16384 [0; 4]%nat; OSig false false 16384 [2]%nat].
Example C63_case : canon_wf 0 canon_demo /\ hashable canon_demo /\ exists s, canon_run primes_init canon_demo = Ok s /\ c_rt s = [1; 2; 3; 4; 3; 4]%nat /\ c_rs s = [1; 1; 2]%nat /\
  print_order (fun d => d / 4096) s [1; 2]%nat = Ok [2; 1]%nat.
Proof.
  split; [simpl; ands; auto; try lia; intros i Hi; simpl in Hi; lia|]. split.
  - split; intros t Ht; vm_compute in Ht; repeat (destruct Ht as [<-|Ht]; [eexists; vm_compute; reflexivity|]); destruct Ht.
  - eexists. ands; [vm_compute; reflexivity| | |]; vm_compute; reflexivity.
Qed.
Example C63_plain_case : plain_ops [OUse 4096; OQual 0 8192; OSig true true 4096 [0; 1]%nat].
Proof.
  split; intros t Ht; vm_compute in Ht; repeat (destruct Ht as [<-|Ht]; [|]); try destruct Ht; cbn [plain t_class t_actuals length]; ands; try lia.
  intros u [<-|[<-|[]]]; cbn [plain]; lia.
Qed.
Example C66_case : subst_actuals (fun n => 8 * n) [SUse 10; SUse 20; SUse 30] [10; 30] [2; 3]%nat (fun a => a) [1; 2; 3]%nat = Ok [2; 2; 3]%nat.
Proof. reflexivity. Qed.
