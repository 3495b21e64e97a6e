(** * PropsOrd: C161, the orders found for a grammar follow its text. *)
From Verif Require Import Base CondModel EdgeModel DncModel PropsCond EdgeProofs EdgeAddProofs EdgeGraph EdgeSem EdgeWorld PropsEdge SummaryProofs CloseProofs PropsClose DncProofs PropsDnc PropsTree CycleModel CycleSpec OagModel PropsOag PropsCto OaModel OaProofs PropsOagRun AnModel PropsAnalyze GbModel GbSpec GbInst GbCond GbFlow GbExact GbGraph PropsBuild InitModel InitProofs PropsInit OrdModel.
Open Scope nat_scope.

(** ** Specification *)
Definition test (k : nat) : ainst := mkInst (AT k) None None.
(** The instances there are when the tests come out as o says: the attributes of the
    nodes; the tests that are made; the variables whose declaration is executed; and those
    of patterns, always. *)
Inductive present (R : grule) (o : outcome) : ainst -> Prop :=
| present_test k : GbSpec.made o k (fst (number_block 0 (r_body R))) -> present R o (test k)
| present_node a f m : present R o (mkInst a f (Some m))
| present_local s d f : executed o s (fst (number_block 0 (r_body R))) -> In d (declared s) -> present R o (mkInst (AD d) f None)
| present_pattern d f : In d (pattern_vars (r_body R)) -> present R o (mkInst (AD d) f None).
(** o' is as o as far as the tests made in [l] tell. *)
Definition same_so_far (l : list ainst) (o o' : outcome) : Prop := forall k, In (test k) l -> yes o' k = yes o k.
(** [L] is a right order for the instances of rule R when the tests come out as o says:
    nothing twice and nothing made up; everything that is there; each instance only if it
    may be there as far as the tests before it tell; and what influences it as far as they
    tell is not itself and does not come later, and if it is there it has come before. *)
Definition follows_text (E : genv) (R : grule) (o : outcome) (L : list ainst) : Prop :=
  NoDup L /\ (forall q, In q L -> wanted E R q) /\ (forall q, wanted E R q -> present R o q -> In q L) /\
  forall before q after, L = before ++ q :: after ->
    (exists o', same_so_far before o o' /\ present R o' q) /\
    forall p o', same_so_far before o o' -> influences E R o' p q -> ~ In p (q :: after) /\ (present R o' p -> In p before).
(** Every attribute of a phylum is synthesized or inherited. *)
Definition flagged (G : grammar) (L : flags) : Prop := forall phy a, In phy (gr_phyla G) -> In a (e_attrs (gr_env G) phy) -> fl_syn L a = true \/ fl_inh L a = true.
(** The instances an order visits when the tests come out as o says: it branches exactly
    where it comes to a test. *)
Inductive walks (insts : list ainst) (o : outcome) : cto -> list ainst -> Prop :=
| walk_done : walks insts o CDone []
| walk_next i p t L : nth_error insts i = Some p -> (forall k, i_attr p <> AT k) -> walks insts o t L -> walks insts o (CNext i t) (p :: L)
| walk_test i k f t L : nth_error insts i = Some (test k) -> walks insts o (if yes o k then t else f) L -> walks insts o (CIf i f t) (test k :: L).

(** ** Proofs *)
(** the instances with these numbers *)
Definition numbered_as (insts : list ainst) (R : list nat) (L : list ainst) : Prop := Forall2 (fun i p => nth_error insts i = Some p) R L.
Lemma inst_eq_dec (i j : ainst) : {i = j} + {i <> j}.
Proof. repeat decide equality. Defined.
(** *** declarations of a body *)
Definition dcl (l : list (stmt * condition)) : list decl := flat_map (fun sc => declared (fst sc)) l.
Lemma dcl_app l l' : dcl (l ++ l') = dcl l ++ dcl l'.
Proof. apply flat_map_app. Qed.
Notation cnt l d := (count_occ Nat.eq_dec l d).
Lemma locals_split d : (forall s c, cnt (locals_stmt s) d = cnt (pattern_vars_stmt s) d + cnt (dcl (conds_stmt c s)) d) /\
  (forall b c, cnt (locals b) d = cnt (pattern_vars b) d + cnt (dcl (conds_block c b)) d) /\
  (forall ms isfor c, cnt (locals_matches ms) d = cnt (pattern_vars_matches ms) d + cnt (dcl (conds_matches isfor c ms)) d).
Proof.
  apply stmts_mut; intros; cbn [locals_stmt locals locals_matches pattern_vars_stmt pattern_vars pattern_vars_matches conds_stmt conds_block conds_matches];
    repeat (change (dcl ((?s, ?c) :: ?l)) with (declared s ++ dcl l)); cbn [declared]; rewrite ?dcl_app, ?count_occ_app; change (dcl []) with (@nil nat); change (cnt (@nil nat) d) with 0.
  - reflexivity.
  - lia.
  - rewrite (H (pos_cond c k)), (H0 (neg_cond c k)). lia.
  - rewrite (H false c), (H0 (past_all c ms)). lia.
  - rewrite (H true c). lia.
  - change (cnt (d0 :: locals b) d) with (cnt ([d0] ++ locals b) d). rewrite count_occ_app, (H c). lia.
  - reflexivity.
  - rewrite (H c), (H0 c). lia.
  - reflexivity.
  - rewrite (H (pos_cond c k)), (H0 isfor (past_match isfor c k)). lia.
Qed.
Lemma dcl_in l d : In d (dcl l) <-> exists s c, In (s, c) l /\ In d (declared s).
Proof. unfold dcl. rewrite in_flat_map. split; [intros ([s c] & A & B); exists s, c; auto|intros (s & c & A & B); exists (s, c); auto]. Qed.
Lemma once_cond l : NoDup (dcl l) -> forall s c s' c' d, In (s, c) l -> In (s', c') l -> In d (declared s) -> In d (declared s') -> c = c'.
Proof.
  induction l as [|[s0 c0] l IH]; intros N s c s' c' d H H' D D'; [destruct H|]. change (dcl ((s0, c0) :: l)) with (declared s0 ++ dcl l) in N.
  assert (X : forall x y, In (x, y) l -> In d (declared x) -> In d (declared s0) -> False).
  { intros x y Hx Dx D0. assert (K : In d (dcl l)) by (apply dcl_in; eauto). clear -N D0 K. induction (declared s0) as [|e l' IHl]; [destruct D0|]. cbn [app] in N. inversion N; subst. destruct D0 as [->|D0]; [apply H1; apply in_or_app; now right|now apply IHl]. }
  assert (N' : NoDup (dcl l)). { clear -N. induction (declared s0); [exact N|]. cbn [app] in N. inversion N; auto. }
  destruct H as [H|H], H' as [H'|H'].
  - congruence.
  - injection H as -> ->. exfalso. exact (X _ _ H' D' D).
  - injection H' as -> ->. exfalso. exact (X _ _ H D D').
  - exact (IH N' _ _ _ _ _ H H' D D').
Qed.
Lemma decl_cond_found b d : In d (dcl (conds_block no_cond b)) -> exists s, In (s, decl_cond b d) (conds_block no_cond b) /\ In d (declared s).
Proof.
  intros H. unfold decl_cond. destruct (List.find _ _) as [[s c]|] eqn:Q.
  - apply find_some in Q. destruct Q as [Q1 Q2]. cbn [fst snd] in *. exists s. split; [exact Q1|]. apply existsb_exists in Q2. destruct Q2 as (x & Hx & Qx). apply Nat.eqb_eq in Qx. now subst.
  - exfalso. apply dcl_in in H. destruct H as (s & c & H & D). pose proof (find_none _ _ Q (s, c) H) as K. cbn [fst] in K. assert (existsb (Nat.eqb d) (declared s) = true); [|congruence]. apply existsb_exists. exists d. split; [exact D|apply Nat.eqb_refl].
Qed.
Lemma decl_cond_none b d : ~ In d (dcl (conds_block no_cond b)) -> decl_cond b d = no_cond.
Proof.
  intros H. unfold decl_cond. destruct (List.find _ _) as [[s c]|] eqn:Q; [|reflexivity]. exfalso. apply H. apply find_some in Q. destruct Q as [Q1 Q2]. cbn [fst] in Q2. apply existsb_exists in Q2. destruct Q2 as (x & Hx & Qx). apply Nat.eqb_eq in Qx. subst. apply dcl_in. eauto.
Qed.

Section GRAMMAR.
Context (G : grammar) (Ok_G : grammar_ok G) (FL : flags) (Fl : flagged G FL).
Section RULE.
Context (x : nat) (R : grule) (bt : GbModel.built) (HR : In R (gr_rules G)) (B : GbModel.build (env_of G x) R = Ok bt).
Lemma body_is : b_body bt = fst (number_block 0 (r_body R)).
Proof. destruct (PropsBuild.build_ok _ _ _ B) as (n & Q & _). now rewrite Q. Qed.
Lemma body_locals : NoDup (locals (b_body bt)) /\ locals (b_body bt) = locals (r_body R) /\ forall d, In d (pattern_vars (b_body bt)) <-> In d (pattern_vars (r_body R)).
Proof.
  rewrite body_is. pose proof (proj1 (proj2 number_texts) (r_body R) 0) as [_ Q]. rewrite Q. split; [|split; [reflexivity|]].
  - pose proof (go_names G Ok_G R HR) as N. unfold names in N. apply NoDup_cons_iff in N. destruct N as [_ N]. clear -N. induction (map fst (r_kids R)) as [|e l IH]; [|cbn [app] in N; inversion N; auto]. cbn [app] in N. exact (nodup_front _ _ N).
  - intros d. rewrite <- (proj1 (proj2 strip_pattern_vars)), (proj1 (proj2 number_strip)), (proj1 (proj2 strip_pattern_vars)). tauto.
Qed.
Lemma split_locals d : In d (locals (r_body R)) -> In d (pattern_vars (r_body R)) \/ In d (dcl (conds_block no_cond (b_body bt))).
Proof.
  destruct body_locals as (_ & Q & P). rewrite <- Q, <- P. rewrite (count_occ_In Nat.eq_dec), (proj1 (proj2 (locals_split d)) (b_body bt) no_cond). intros H.
  destruct (count_occ Nat.eq_dec (pattern_vars (b_body bt)) d) eqn:Z; [right|left]; apply (count_occ_In Nat.eq_dec); lia.
Qed.
Lemma pattern_not_declared d : In d (pattern_vars (r_body R)) -> ~ In d (dcl (conds_block no_cond (b_body bt))).
Proof.
  destruct body_locals as (N & _ & P). rewrite <- P. rewrite !(count_occ_In Nat.eq_dec). pose proof (proj1 (NoDup_count_occ Nat.eq_dec _) N d) as K. pose proof (proj1 (proj2 (locals_split d)) (b_body bt) no_cond). lia.
Qed.
Lemma declared_once : NoDup (dcl (conds_block no_cond (b_body bt))).
Proof.
  apply (NoDup_count_occ Nat.eq_dec). intros d. destruct body_locals as (N & _). pose proof (proj1 (NoDup_count_occ Nat.eq_dec _) N d) as K. pose proof (proj1 (proj2 (locals_split d)) (b_body bt) no_cond). lia.
Qed.
Lemma test_there k : k < tests_inb (r_body R) -> exists t, In t (b_tests bt) /\ test_of (b_body bt) k = Some t /\ t_num t = k.
Proof.
  intros H. destruct (C120_numbers _ _ _ B) as (_ & _ & P). specialize (P (go_for G Ok_G R HR)). assert (K : In k (map t_num (b_tests bt))). { apply (Permutation.Permutation_in _ (Permutation.Permutation_sym P)), in_seq. lia. }
  apply in_map_iff in K. destruct K as (t & Qt & Ht). exists t. split; [exact Ht|]. split; [|exact Qt]. destruct (PropsBuild.build_ok _ _ _ B) as (n & _ & _ & _ & Qb & _). rewrite Qb in Ht. destruct (built_unique _ _ _ B (go_for G Ok_G R HR) t Ht) as [U _]. now rewrite Qt in U.
Qed.
(** The condition of an instance says when it is there. *)
Lemma condition_present q o : wanted (gr_env G) R q -> meets o (instance_condition (b_body bt) q) <-> present R o q.
Proof.
  intros W. pose proof (go_for G Ok_G R HR) as NF. inversion W as [k Hk|m phy a f _ _ _|d f Hd _]; subst; unfold instance_condition; cbn [i_node i_attr].
  - destruct (test_there k Hk) as (t & Ht & Qt & Qn). rewrite Qt, (C120_tests _ _ _ o t B NF Ht), Qn, body_is. split; [now constructor|]. intros P. inversion P; assumption.
  - split; [constructor|intros _; apply meets_no].
  - destruct (split_locals d Hd) as [P|D].
    + rewrite (decl_cond_none _ _ (pattern_not_declared d P)). split; [intros _; now apply present_pattern|intros _; apply meets_no].
    + destruct (decl_cond_found _ _ D) as (s & Hs & Ds). split.
      * intros M. apply present_local with s; [|exact Ds]. rewrite <- body_is. apply (C120_statements _ _ _ o s B NF). eauto.
      * intros P. inversion P as [| |s' d' f' X Ds'|d' f' X]; subst; [|exfalso; exact (pattern_not_declared d X D)]. rewrite <- body_is in X. apply (C120_statements _ _ _ o s' B NF) in X. destruct X as (c & Hc & M). now rewrite (once_cond _ declared_once _ _ _ _ _ Hs Hc Ds Ds').
Qed.
(** the instances by their numbers *)
Definition pick (l : list nat) : list ainst := map (fun i => nth i (b_insts bt) (test 0)) l.
Lemma pick_as l : (forall i, In i l -> i < length (b_insts bt)) -> numbered_as (b_insts bt) l (pick l).
Proof.
  induction l as [|i l IH]; intros H; [constructor|]. constructor; [apply nth_error_nth'; apply H; now left|apply IH; intros j Hj; apply H; now right].
Qed.
Lemma insts_facts : NoDup (b_insts bt) /\ forall q, In q (b_insts bt) <-> wanted (gr_env G) R q.
Proof.
  destruct (C119_instances _ _ _ (go_names G Ok_G R HR) (rule_fibers G Ok_G x R) B) as [N W]. split; [exact N|]. intros q. rewrite W. split; intros K; inversion K; subst; econstructor; eassumption.
Qed.
Lemma same_number i j q : nth_error (b_insts bt) i = Some q -> nth_error (b_insts bt) j = Some q -> i = j.
Proof. intros Hi Hj. apply (NoDup_nth_error (b_insts bt)); [apply insts_facts| |congruence]. apply nth_error_Some. congruence. Qed.
Lemma as_in l L : numbered_as (b_insts bt) l L -> forall i q, nth_error (b_insts bt) i = Some q -> In i l <-> In q L.
Proof.
  induction 1 as [|j p l L Hj F IH]; intros i q Hi; [tauto|]. cbn [In]. rewrite (IH i q Hi). split; (intros [K|K]; [left|now right]); [congruence|]. subst p. exact (same_number _ _ _ Hj Hi).
Qed.
Lemma as_some l L : numbered_as (b_insts bt) l L -> forall q, In q L -> exists i, nth_error (b_insts bt) i = Some q /\ In i l.
Proof. induction 1 as [|j p l L Hj F IH]; intros q Hq; [destruct Hq|]. destruct Hq as [<-|Hq]; [exists j; split; [exact Hj|now left]|]. destruct (IH q Hq) as (i & A & C). exists i. split; [exact A|now right]. Qed.
Lemma as_nodup l L : numbered_as (b_insts bt) l L -> NoDup l -> NoDup L.
Proof.
  induction 1 as [|j p l L Hj F IH]; intros N; [constructor|]. inversion N; subst. constructor; [|now apply IH]. rewrite <- (as_in _ _ F j p Hj). assumption.
Qed.
Definition oins : list oinst := map (order_inst (b_body bt)) (b_insts bt).
Lemma oins_nth i inst : nth_error oins i = Some inst -> exists q, nth_error (b_insts bt) i = Some q /\ inst = order_inst (b_body bt) q.
Proof. unfold oins. rewrite nth_error_map. destruct (nth_error (b_insts bt) i) as [q|]; [|discriminate]. intros H. injection H as <-. eauto. Qed.
Lemma test_inst q k : In q (b_insts bt) -> oi_if (order_inst (b_body bt) q) = Some k -> q = test k.
Proof. intros H. apply insts_facts in H. inversion H; subst; cbn; intros Q; try discriminate. now injection Q as ->. Qed.
Lemma agree_text l L o o' : numbered_as (b_insts bt) l L -> agree oins l o o' <-> same_so_far L o o'.
Proof.
  intros F. split.
  - intros A k Hk. destruct (as_some _ _ F _ Hk) as (i & Hi & Li). apply A. exists i, (order_inst (b_body bt) (test k)), k. split; [exact Li|]. split; [unfold oins; now rewrite nth_error_map, Hi|]. split; reflexivity.
  - intros A b (r & inst & k & Lr & Hr & Qk & ->). destruct (oins_nth _ _ Hr) as (q & Hq & ->). assert (Z := test_inst q k (nth_error_In _ _ Hq) Qk). subst q. apply A. now apply (as_in _ _ F r (test k) Hq).
Qed.
Lemma run_prefix ins o o' : forall t before i after, PropsCto.run ins o t = before ++ i :: after -> agree ins before o o' -> exists after', PropsCto.run ins o' t = before ++ i :: after'.
Proof.
  induction t as [|j t IH|j f IHf t IHt]; intros before i after Q A.
  - destruct before; discriminate.
  - cbn [PropsCto.run] in *. destruct before as [|j' before]; cbn [app] in *; [injection Q as <- _; eauto|]. injection Q as <- Q. destruct (IH before i after Q) as (a' & ->); [|eauto]. intros b (r & inst & k & Lr & H). apply A. exists r, inst, k. split; [now right|exact H].
  - cbn [PropsCto.run] in *. destruct before as [|j' before]; cbn [app] in *; [injection Q as <- _; eauto|]. injection Q as <- Q.
    assert (A' : agree ins before o o'). { intros b (r & inst & k & Lr & H). apply A. exists r, inst, k. split; [now right|exact H]. }
    destruct (nth_error ins j) as [[c [b|]]|] eqn:Hj; [|destruct before; discriminate|destruct before; discriminate].
    assert (Z : o' (N.of_nat b) = o (N.of_nat b)). { apply A. exists j, (mkOinst c (Some b)), b. split; [now left|]. auto. }
    rewrite Z. destruct (o (N.of_nat b)); [destruct (IHt before i after Q A') as (a' & ->)|destruct (IHf before i after Q A') as (a' & ->)]; eauto.
Qed.
Lemma order_text s t : (forall o p q, influences (gr_env G) R o p q -> exists j i, nth_error (b_insts bt) j = Some p /\ nth_error (b_insts bt) i = Some q /\ needs_under s x o j i) ->
  (forall o, right_order s x oins o (PropsCto.run oins o t)) -> forall o, exists L, numbered_as (b_insts bt) (PropsCto.run oins o t) L /\ follows_text (gr_env G) R o L.
Proof.
  intros Inf Ro o. assert (Ln : length oins = length (b_insts bt)) by (unfold oins; now rewrite map_length).
  assert (F : forall o, numbered_as (b_insts bt) (PropsCto.run oins o t) (pick (PropsCto.run oins o t))). { intros o0. apply pick_as. rewrite <- Ln. apply (Ro o0). }
  exists (pick (PropsCto.run oins o t)). split; [apply F|]. destruct (Ro o) as (R1 & R2 & R3 & R4). split; [|split; [|split]].
  - exact (as_nodup _ _ (F o) R1).
  - intros q Hq. destruct (as_some _ _ (F o) q Hq) as (i & Hi & _). apply insts_facts. now apply nth_error_In with i.
  - intros q Wq Pq. pose proof Wq as Iq. apply insts_facts in Iq. apply In_nth_error in Iq. destruct Iq as (i & Hi). apply (as_in _ _ (F o) i q Hi). apply R3 with (order_inst (b_body bt) q); [unfold oins; now rewrite nth_error_map, Hi|].
    cbn [order_inst oi_cond]. now apply (condition_present q o Wq).
  - intros before q after Q. pose proof (F o) as Fo. rewrite Q in Fo. apply Forall2_app_inv_r in Fo. destruct Fo as (nb & nr & Fb & Fr & Qn). inversion Fr as [|i q' na la Hi Fa]; subst. fold (numbered_as (b_insts bt) nb before) in Fb. destruct (R4 nb i na Qn) as [X Y]. split.
    + destruct X as (o' & inst & Ag & Hin & M). destruct (oins_nth _ _ Hin) as (q' & Hq' & ->). assert (q' = q) by congruence. subst q'. exists o'. split; [now apply (agree_text nb before)|]. apply condition_present; [apply insts_facts; now apply nth_error_In with i|exact M].
    + intros p o' Sm Fl'. apply (agree_text nb before _ _ Fb) in Sm. destruct (Inf o' p q Fl') as (j & i' & Hj & Hi' & Nd). rewrite (same_number _ _ _ Hi' Hi) in Nd. split.
      * intros K. apply (Y j o' Sm Nd). assert (F2 : numbered_as (b_insts bt) (i :: na) (q :: after)) by (constructor; assumption). now apply (as_in _ _ F2 j p Hj).
      * intros Pp. destruct (run_prefix oins o o' t nb i na Qn Sm) as (na' & Qn'). destruct (Ro o') as (_ & _ & R3' & R4').
        assert (Ij : In j (PropsCto.run oins o' t)). { apply R3' with (order_inst (b_body bt) p); [unfold oins; now rewrite nth_error_map, Hj|]. apply condition_present; [apply insts_facts; now apply nth_error_In with j|exact Pp]. }
        rewrite Qn' in Ij. apply in_app_or in Ij. destruct Ij as [Ij|Ij]; [now apply (as_in _ _ Fb j p Hj)|]. exfalso. destruct (R4' nb i na' Qn') as [_ Y']. apply (Y' j o'); [intros b _; reflexivity|exact Nd|exact Ij].
Qed.
Lemma walks_run o : forall t L, branches_right oins t -> numbered_as (b_insts bt) (PropsCto.run oins o t) L -> walks (b_insts bt) o t L.
Proof.
  induction t as [|j t IH|j f IHf t IHt]; intros L Br F; cbn [PropsCto.run branches_right] in *.
  - inversion F; subst. constructor.
  - inversion F as [|? p ? L' Hj F']; subst. destruct Br as [(inst & Hi & Ni) Br]. constructor; [exact Hj| |now apply IH]. intros k Qk. destruct (oins_nth _ _ Hi) as (q & Hq & ->). assert (q = p) by congruence. subst q. cbn [order_inst oi_if] in Ni. rewrite Qk in Ni. discriminate.
  - destruct Br as [(inst & b & Hi & Ni) [Bf Bt]]. rewrite Hi in F. destruct inst as [c [b'|]]; [|discriminate]. cbn [oi_if] in Ni. injection Ni as ->. inversion F as [|? p ? L' Hj F']; subst. destruct (oins_nth _ _ Hi) as (q & Hq & Qq). assert (q = p) by congruence. subst q.
    assert (Z := test_inst p b (nth_error_In _ _ Hj) (f_equal oi_if (eq_sym Qq))). subst p. constructor; [exact Hj|]. unfold yes. destruct (o (N.of_nat b)); [now apply IHt|now apply IHf].
Qed.
End RULE.
Lemma rule_insts_nth l : forall x k, nth_error (rule_insts G x l) k = match nth_error l k with Some R => Some (match GbModel.build (env_of G (x + k)) R with Ok bt => map (order_inst (b_body bt)) (b_insts bt) | _ => [] end) | None => None end.
Proof.
  induction l as [|R l IH]; intros x [|k]; cbn [rule_insts nth_error]; try reflexivity; [now rewrite Nat.add_0_r|]. rewrite IH. now replace (S x + k) with (x + S k) by lia.
Qed.
Lemma rule_insts_len l : forall x, length (rule_insts G x l) = length l.
Proof. induction l as [|R l IH]; intros x; cbn [rule_insts length]; [reflexivity|now rewrite IH]. Qed.
Lemma init_insts_rule x R bt : nth_error (gr_rules G) x = Some R -> GbModel.build (env_of G x) R = Ok bt -> nth_error (init_insts G) x = Some (oins bt).
Proof.
  intros H B. unfold init_insts. rewrite nth_error_app1 by (rewrite rule_insts_len; apply nth_error_Some; congruence). rewrite rule_insts_nth, H. cbn [Nat.add]. now rewrite B.
Qed.
(** what compute_oag asks of the instances and of the directions *)
Lemma init_given rules s : init_analysis G = Ok (rules, s) -> instances_given s (init_insts G) /\ directed (init_dirs FL G) (st_phys s) /\ length rules = S (length (gr_rules G)).
Proof.
  intros Q. destruct (init_analysis_ok G Ok_G) as (w & ns & rs & bts & y & rules' & s' & Q' & Hy & Qr & Qs & Qn & F & L1 & L2 & H & _). rewrite Q in Q'. injection Q' as <- <-. split; [|split].
  - intros x g Hg. rewrite Qs in Hg. cbn [st_augs] in Hg. assert (Ni : Some (n_inst g) = nth_error ns x) by (rewrite <- (fresh_graph w ns x F), Hg; reflexivity). rewrite Qn in Ni.
    destruct (Nat.lt_ge_cases x (length (gr_rules G))) as [Lx|Lx].
    + destruct (nth_error (gr_rules G) x) as [R|] eqn:HR; [|apply nth_error_None in HR; lia]. destruct (H x R HR) as (bt & r & B1 & _ & St & _). exists (oins bt). split; [apply init_insts_rule with R; [exact HR|apply St]|].
      rewrite nth_error_app1 in Ni by (rewrite map_length; lia). rewrite nth_error_map, B1 in Ni. injection Ni as ->. unfold oins. now rewrite map_length.
    + rewrite nth_error_app2 in Ni by (rewrite map_length; lia). rewrite map_length, L2 in Ni. destruct (x - length (gr_rules G)) as [|z] eqn:Z; [|destruct z; discriminate]. cbn [nth_error] in Ni. injection Ni as Ni.
      eexists. unfold init_insts. rewrite nth_error_app2 by (rewrite rule_insts_len; lia). rewrite rule_insts_len, Z. split; [reflexivity|]. rewrite map_length, Ni. reflexivity.
  - rewrite Qs. cbn [st_phys]. split; [unfold init_dirs; now rewrite !map_length|]. intros z d p Hd Hp. unfold init_dirs in Hd. rewrite nth_error_map in Hd, Hp. destruct (nth_error (gr_phyla G) z) as [phy|] eqn:Hz; [|discriminate]. injection Hd as <-. injection Hp as <-.
    rewrite summary_size, summary_as, !map_length. split; [reflexivity|]. intros K. rewrite map_map in K. apply in_map_iff in K. destruct K as ([a f] & Qd & Ha). apply phylum_fibers_in in Ha. destruct Ha as [Ha _]. unfold fibered_attr_direction in Qd. cbn [i_attr i_fiber] in Qd.
    destruct (Fl phy a (nth_error_In _ _ Hz) Ha) as [W|W]; rewrite W in Qd; [|destruct (fl_syn FL a)]; destruct f as [f|]; try destruct (e_reverse (gr_env G) f); discriminate.
  - rewrite Qr, app_length, L1. cbn. lia.
Qed.
(** influence is a dependency of the graph, and stays one *)
Lemma influence_needs rules s0 s x R bt : describes G rules s0 -> PropsOagRun.kept s0 s -> nth_error (gr_rules G) x = Some R -> GbModel.build (env_of G x) R = Ok bt ->
  forall o p q, influences (gr_env G) R o p q -> exists j i, nth_error (b_insts bt) j = Some p /\ nth_error (b_insts bt) i = Some q /\ needs_under s x o j i.
Proof.
  intros D K HR B o p q I. pose proof (nth_error_In _ _ HR) as HR'. destruct (influence_edge G Ok_G x R bt o p q HR' B I) as (e & He & Hp & Hq & M). exists (d_src e), (d_snk e). split; [exact Hp|]. split; [exact Hq|].
  destruct (D x R HR) as (bt' & B' & Ed & _). assert (bt' = bt) by congruence. subst bt'. destruct (Ed (d_src e) (d_snk e) o) as [Ig J]; [apply nth_error_Some; congruence|apply nth_error_Some; congruence|].
  assert (Nd : kind_of_pair (graphs_of s0) x o (d_src e) (d_snk e) <> no_dependency).
  { assert (Z : N.testbit (kind_of_pair (graphs_of s0) x o (d_src e) (d_snk e)) 0 = true); [|intros Q; rewrite Q in Z; discriminate].
    apply J. exists e. split; [exact He|]. split; [reflexivity|]. split; [reflexivity|]. split; [exact M|]. pose proof (rule_edges_sound _ _ _ B (go_for G Ok_G R HR') e He) as Sd. unfold sound in Sd. rewrite !andb_true_iff in Sd. tauto. }
  destruct K as (_ & _ & Kg & _). pose proof Ig as (g & Eg & H1 & H2). cbn [graphs_of w_graphs] in Eg. destruct (Kg x g Eg) as (g' & Eg' & En & C). split; [exists g'; cbn [graphs_of w_graphs]; rewrite En; auto|]. eapply at_most_nz; [exact Nd|]. apply C; auto.
Qed.
(** ** C161: the analysis of a grammar in whose dependencies the test finds no cycle comes to
    an end: with an order for every rule that follows the text of the rule, whatever the
    tests give; or it says that the grammar is not OAG; or it exits. *)
Theorem C161_orders : forall pups aups pinfo ainfo, exists rules s0 bound s, init_analysis G = Ok (rules, s0) /\
  (forall fuel, bound <= fuel -> dnc_close fuel rules s0 = Ok s) /\
  (analysis_state_cycle s = Ok no_dependency -> exists answer, (forall fuel lf, bound <= fuel -> analyze fuel lf G FL pups aups pinfo ainfo = answer) /\
    (answer = Exit \/ (exists d, answer = Ok (None, [NotOag d])) \/
     exists s' scheds ts, answer = Ok (Some (mkAnalysis no_dependency false s' scheds ts), []) /\ length ts = S (length (gr_rules G)) /\
       forall x R, nth_error (gr_rules G) x = Some R -> exists bt t, GbModel.build (env_of G x) R = Ok bt /\ nth_error ts x = Some t /\
         forall o, exists L, walks (b_insts bt) o t L /\ follows_text (gr_env G) R o L)).
Proof.
  intros pups aups pinfo ainfo. destruct (C159_init G Ok_G) as (rules & s0 & Q & Wf & St & _ & D & _). destruct (init_given rules s0 Q) as (Gv & Dr & Lr).
  destruct (C156_acyclic (facts_of G FL rules pups aups pinfo ainfo) s0 Wf St Dr Gv) as (bound & s & E & H). exists rules, s0, bound, s. split; [exact Q|]. split; [exact E|]. intros Ac. destruct (H Ac) as (answer & Ea & C). exists answer. split; [intros fuel lf Hf; unfold analyze; rewrite Q; cbn [bind]; now apply Ea|].
  destruct C as [(s' & x & -> & _)|[(d & _ & ->)|(s' & scheds & ts & -> & Kp & Lt & T)]]; [now left|right; left; now exists d|right; right]. cbn [f_rules f_insts facts_of] in Lt, T. exists s', scheds, ts. split; [reflexivity|]. split; [now rewrite Lt|].
  intros x R HR. destruct (D x R HR) as (bt & B & _). destruct (nth_error ts x) as [t|] eqn:Et; [|apply nth_error_None in Et; rewrite Lt, Lr in Et; assert (x < length (gr_rules G)) by (apply nth_error_Some; congruence); lia].
  exists bt, t. split; [exact B|]. split; [reflexivity|]. destruct (T x t Et) as (ins & Hi & Br & Ro). rewrite (init_insts_rule x R bt HR B) in Hi. injection Hi as <-. intros o.
  destruct (order_text x R bt (nth_error_In _ _ HR) B s' t) with (o := o) as (L & F & Fo); [exact (influence_needs rules s0 s' x R bt D Kp HR B)|exact Ro|]. exists L. split; [|exact Fo]. exact (walks_run x R bt (nth_error_In _ _ HR) B o t L Br F).
Qed.
End GRAMMAR.

(** ** Example *)
(** the grammar of PropsInit, left to right: 11 and 12 are synthesized, 10 and the shared
    information inherited *)
Definition exf : flags := mkFlags (fun a => (a =? 11) || (a =? 12)) (fun a => (a =? 10) || (a =? 13)).
Lemma exf_all n a : flagged (exg n a) exf.
Proof.
  intros phy b [<-|[<-|[]]]; cbn; intros H; repeat (destruct H as [<-|H]; [auto|]); destruct H.
Qed.
(** the orders: in plus(l, r) l.10 is set and l.11 there before r.10; in leaf the test
    follows 10 *)
Definition orders (G : grammar) (r : res (option analysis * list message)) : option (list (list ainst)) :=
  match r with
  | Ok (Some a, []) => Some (map (fun k => match nth_error (gr_rules G) k, nth_error (a_orders a) k with
                                           | Some R, Some t => match GbModel.build (env_of G k) R with
                                                               | Ok bt => map (fun i => nth i (b_insts bt) (test 0)) (PropsCto.run (map (order_inst (b_body bt)) (b_insts bt)) lo t)
                                                               | _ => [] end
                                           | _, _ => [] end) [1; 2])
  | _ => None
  end.
Example C161_example : orders (exg 5 11) (analyze 60 true (exg 5 11) exf [] [] [] []) = Some
  [[at_ 4 10; at_ 4 13; at_ 5 10; at_ 5 13; at_ 5 11; at_ 6 10; at_ 6 13; at_ 6 11; at_ 4 11]; [at_ 7 10; test 0; at_ 7 13; at_ 7 11]].
Proof. vm_compute. reflexivity. Qed.
(** ... and 5.11 influences 6.10 there *)
Example C161_influence : influences exg_env (ex_plus 5 11) lo (at_ 5 11) (at_ 6 10) /\ present (ex_plus 5 11) lo (at_ 5 11).
Proof.
  split; [|constructor]. apply copies; [apply wanted_at with 101; [right; left; cbn; auto|cbn; auto]|apply wanted_at with 101; [right; left; cbn; auto|cbn; auto]|cbn; auto|vm_compute; discriminate].
Qed.
Print Assumptions C161_orders.
