(** * StLink: orders found by the analysis are legal. *)
From Verif Require Import Base CondModel EdgeModel DncModel PropsCond EdgeProofs EdgeAddProofs EdgeGraph EdgeSem EdgeWorld PropsEdge SummaryProofs CloseProofs PropsClose DncProofs PropsDnc CycleModel CycleSpec OagModel PropsOag PropsCto StModel StSpec StProofs.
Open Scope Z_scope.

(** ** Specification *)
Definition always (inst : oinst) : Prop := forall o, meets o (oi_cond inst).
Definition as_bits (o : StSpec.outcome) : PropsCond.outcome := fun b => o (N.to_nat b).
(** The rule and the graph have the same instances, with the same tests *)
Definition same_instances (oins : list oinst) (r : rule) : Prop :=
  length oins = length (r_insts r) /\ forall i inst g, nth_error oins i = Some inst -> nth_error (r_insts r) i = Some g -> oi_if inst = option_map fst (g_test g).
(** What the dependency graph [x] has to say for its order to be legal *)
Record analysed (M : phylum -> Z) (s : state) (x : nat) (oins : list oinst) (r : rule) : Prop := {
  an_edges : edges_ok s;
  an_has : has_instances s x oins;
  an_tests : tests_needed s x oins;
  an_same : same_instances oins r;
  an_wf : wf M r;
  (** attributes of one node in different phases depend on each other *)
  an_phases : forall i j g g' w o, nth_error (r_insts r) i = Some g -> nth_error (r_insts r) j = Some g' -> belongs g w -> belongs g' w ->
    rank (g_ph g) < rank (g_ph g') -> needs_under s x o i j;
  (** each phase has a synthesized attribute *)
  an_lhs : forall ph, 1 <= ph <= M (r_lhs r) -> exists i g inst, nth_error (r_insts r) i = Some g /\ nth_error oins i = Some inst /\ always inst /\ g_lhs g = true /\ g_ph g = ph;
  an_child : forall c X ph, nth_error (r_children r) c = Some X -> 1 <= ph <= M X ->
    exists i g inst, nth_error (r_insts r) i = Some g /\ nth_error oins i = Some inst /\ always inst /\ g_ch g = Some c /\ g_ph g = ph;
  (** the first instance that is no test is an inherited attribute of the node that depends on nothing *)
  an_first : exists k g inst, nth_error (r_insts r) k = Some g /\ nth_error oins k = Some inst /\ always inst /\ g_test g = None /\ g_lhs g = true /\ g_ph g = -1 /\
    (forall j, (j < length oins)%nat -> pairs_at s x j k = Ok []) /\ (forall i, (i < k)%nat -> is_test (r_insts r) i);
  (** the first match of a case is needed by the others, and no other case comes between *)
  an_cases : forall i h, header_of (r_insts r) i = Some h ->
    exists j g k body d, nth_error (r_insts r) j = Some g /\ g_test g = Some (k, TMatch h true body d) /\
      (forall o inst inst', nth_error oins i = Some inst -> nth_error oins j = Some inst' -> meets o (oi_cond inst) -> meets o (oi_cond inst')) /\
      (j = i \/ forall o, needs_under s x o j i) /\
      forall j' g' k' h' body' d', nth_error (r_insts r) j' = Some g' -> g_test g' = Some (k', TMatch h' true body' d') -> h' <> h ->
        (forall o, needs_under s x o j' j) \/ (forall o, needs_under s x o i j')
}.

(** ** Proofs *)
Lemma path_run oins r o : same_instances oins r -> forall t, PropsCto.branches_right oins t -> path (r_insts r) o t = PropsCto.run oins (as_bits o) t.
Proof.
  intros [Le Sm]. induction t as [|i t IH|i f IHf t IHt]; cbn [path PropsCto.run PropsCto.branches_right]; intros B; [reflexivity| |].
  - f_equal. now apply IH.
  - destruct B as ((inst & b & Ei & Eb) & Bf & Bt). rewrite Ei. destruct inst as [ic q]. cbn [oi_if] in Eb. subst q. f_equal.
    destruct (nth_error (r_insts r) i) as [g|] eqn:Eg.
    2:{ exfalso. apply nth_error_None in Eg. assert (i < length oins)%nat by (apply nth_error_Some; congruence). lia. }
    specialize (Sm i _ g Ei Eg). cbn [oi_if] in Sm. destruct (g_test g) as [[k x]|] eqn:Gt; [|discriminate]. cbn [option_map fst] in Sm. injection Sm as <-.
    unfold truth. rewrite Eg, Gt. unfold as_bits. rewrite Nnat.Nat2N.id. destruct (o b); auto.
Qed.
Lemma branches_same oins r : same_instances oins r -> forall t, PropsCto.branches_right oins t -> StSpec.branches_right (r_insts r) t.
Proof.
  intros [Le Sm].
  assert (Get : forall i inst, nth_error oins i = Some inst -> exists g, nth_error (r_insts r) i = Some g /\ oi_if inst = option_map fst (g_test g)).
  { intros i inst Ei. destruct (nth_error (r_insts r) i) as [g|] eqn:Eg; [exists g; split; [reflexivity|now apply (Sm i)]|].
    exfalso. apply nth_error_None in Eg. assert (i < length oins)%nat by (apply nth_error_Some; congruence). lia. }
  induction t as [|i t IH|i f IHf t IHt]; cbn [StSpec.branches_right PropsCto.branches_right]; intros B; [exact I| |].
  - destruct B as ((inst & Ei & Eb) & Bt). destruct (Get i inst Ei) as (g & Eg & Q). split; [|now apply IH]. exists g. split; [exact Eg|]. rewrite Eb in Q. destruct (g_test g); [discriminate|reflexivity].
  - destruct B as ((inst & b & Ei & Eb) & Bf & Bt). destruct (Get i inst Ei) as (g & Eg & Q). split; [|split; [now apply IHf|now apply IHt]]. rewrite Eb in Q. destruct (g_test g) as [y|] eqn:Gt; [|discriminate]. exists g, y. auto.
Qed.

(** the first instance *)
Section FIRST.
Context (edges : nat -> nat -> res (list (condition * N))) (oins : list oinst) (k : nat) (ik : oinst)
  (Ek : nth_error oins k = Some ik) (Ak : always ik) (Nk : oi_if ik = None) (Hk : forall j, (j < length oins)%nat -> edges j k = Ok [])
  (Tk : forall i, (i < k)%nat -> exists inst b, nth_error oins i = Some inst /\ oi_if inst = Some b).
Lemma waits_not sched cond : length sched = length oins -> waits_for edges (length oins) sched cond k = Ok false.
Proof.
  intros L. unfold waits_for.
  assert (H : forall l, (forall j, In j l -> (j < length oins)%nat) -> existsM (fun j => sj <- rd sched j ;; if sj : bool then Ok false else es <- edges j k ;; Ok (existsb (fun e => negb (impossible (merge_cond cond (fst e)))) es)) l = Ok false).
  { induction l as [|j l IH]; intros Hl; cbn [existsM]; [reflexivity|].
    assert (Lj : (j < length oins)%nat) by (apply Hl; now left). unfold rd at 1. destruct (nth_error sched j) as [b|] eqn:Ej; [|exfalso; apply nth_error_None in Ej; lia].
    cbn [bind]. assert (IH' := IH (fun j Hj => Hl j (or_intror Hj))). destruct b; cbn [bind]; [exact IH'|]. rewrite (Hk j Lj). cbn [bind existsb]. exact IH'. }
  apply H. intros j Hj. apply in_seq in Hj. lia.
Qed.
Lemma ready_le sched cond : length sched = length oins -> nth_error sched k = Some false -> forall m a i, (a <= k < a + m)%nat ->
  first_ready edges (length oins) sched cond (seq a m) = Ok i -> exists i', i = Some i' /\ (i' <= k)%nat.
Proof.
  intros L Sk. induction m as [|m IH]; intros a i Ha; [lia|]. cbn [seq first_ready].
  destruct (Nat.eq_dec a k) as [Q|Q].
  - subst a. unfold rd at 1. rewrite Sk. cbn [bind]. rewrite (waits_not sched cond L). cbn [bind]. intros H. injection H as <-. exists k. auto.
  - intros H. apply bind_Ok in H. destruct H as (sa & _ & H). destruct sa; [apply (IH (S a)); [lia|exact H]|].
    apply bind_Ok in H. destruct H as (w & _ & H). destruct w; [apply (IH (S a)); [lia|exact H]|]. injection H as <-. exists a. split; [reflexivity|lia].
Qed.
Lemma first_is : forall rem sched cond t o, length sched = length oins -> nth_error sched k = Some false -> (exists o0, meets o0 cond) -> meets o cond ->
  schedule_rest edges oins rem sched cond = Ok t ->
  forall l1 i l2, PropsCto.run oins o t = l1 ++ i :: l2 -> (forall j, In j l1 -> exists inst b, nth_error oins j = Some inst /\ oi_if inst = Some b) -> (forall inst, nth_error oins i = Some inst -> oi_if inst = None) -> i = k.
Proof.
  induction rem as [|rem IH]; intros sched cond t o L Sk Sat Mt; cbn [schedule_rest]; intros H l1 i l2 Er T N; [injection H as <-; destruct l1; discriminate|].
  apply bind_Ok in H. destruct H as (rd0 & Hr & H). assert (Lk : (k < length oins)%nat) by (apply nth_error_Some; congruence).
  destruct (ready_le sched cond L Sk (length oins) 0%nat rd0 ltac:(lia) Hr) as (i0 & -> & Le).
  apply bind_Ok in H. destruct H as (inst & Ei & H). apply rd_Ok in Ei. apply bind_Ok in H. destruct H as (sched' & Hw & H).
  unfold wr in Hw. destruct (i0 <? length sched)%nat; [|discriminate]. injection Hw as <-.
  assert (L' : length (upd sched i0 true) = length oins) by (now rewrite upd_length).
  destruct (Nat.eq_dec i0 k) as [Q|Q].
  - subst i0. rewrite Ek in Ei. injection Ei as <-. rewrite Nk in H.
    assert (Im : impossible (merge_cond cond (oi_cond ik)) = false). { apply impossible_sat. destruct Sat as (o0 & M0). exists o0. apply meets_merge. split; [exact M0|apply Ak]. }
    rewrite Im in H. apply bind_Ok in H. destruct H as (t' & _ & H). injection H as <-. cbn [PropsCto.run] in Er. destruct l1 as [|y l1]; cbn [app] in Er; injection Er as <- Er; [reflexivity|].
    exfalso. destruct (T k (or_introl eq_refl)) as (inst & b & E1 & E2). rewrite Ek in E1. injection E1 as <-. congruence.
  - assert (Sk' : nth_error (upd sched i0 true) k = Some false) by (rewrite nth_error_upd_neq; auto).
    destruct (impossible (merge_cond cond (oi_cond inst))); [apply (IH _ _ _ o L' Sk' Sat Mt H l1 i l2); auto|].
    destruct (Tk i0) as (inst' & b & E1 & E2); [lia|]. rewrite Ei in E1. injection E1 as <-. rewrite E2 in H.
    apply bind_Ok in H. destruct H as (f & Hf & H). apply bind_Ok in H. destruct H as (tt & Ht & H). injection H as <-. cbn [PropsCto.run] in Er. rewrite Ei in Er.
    destruct inst as [ic q]. cbn [oi_if] in E2. subst q.
    destruct l1 as [|y l1]; cbn [app] in Er; injection Er as <- Er.
    { exfalso. specialize (N _ Ei). discriminate. }
    assert (T' : forall j, In j l1 -> exists inst b, nth_error oins j = Some inst /\ oi_if inst = Some b) by (intros j Hj; apply T; now right).
    destruct (o (N.of_nat b)) eqn:Eo.
    + fold (truec cond b) in Ht. assert (Mt' : meets o (truec cond b)) by (apply truec_meets; auto). apply (IH _ _ _ o L' Sk' (ex_intro _ o Mt') Mt' Ht l1 i l2 Er T' N).
    + fold (falsec cond b) in Hf. assert (Mf' : meets o (falsec cond b)) by (apply falsec_meets; auto). apply (IH _ _ _ o L' Sk' (ex_intro _ o Mf') Mf' Hf l1 i l2 Er T' N).
Qed.
End FIRST.

Section LINK.
Context (M : phylum -> Z) (s : state) (x : nat) (oins : list oinst) (r : rule) (A : analysed M s x oins r) (Et : schedule_augmented s x oins = Ok (r_cto r)).
Notation insts := (r_insts r).
Notation p o := (path (r_insts r) o (r_cto r)).
Let Ord := C47_order s x oins (an_edges _ _ _ _ _ A) (an_has _ _ _ _ _ A) (r_cto r) Et.
Lemma p_run o : p o = PropsCto.run oins (as_bits o) (r_cto r).
Proof. apply path_run; [apply (an_same _ _ _ _ _ A)|apply Ord]. Qed.
Lemma p_nodup o : NoDup (p o).
Proof. rewrite p_run. apply (proj2 Ord). Qed.
Lemma p_inst i : (exists inst, nth_error oins i = Some inst) <-> exists g, nth_error insts i = Some g.
Proof. destruct (an_same _ _ _ _ _ A) as [L _]. split; intros (y & E); [destruct (nth_error insts i) eqn:E2|destruct (nth_error oins i) eqn:E2]; eauto; exfalso; apply nth_error_None in E2; assert (i < length oins)%nat by (first [rewrite L; apply nth_error_Some; congruence|apply nth_error_Some; congruence]); lia. Qed.
(** what depends on the other comes later *)
Theorem needs_precedes o i j : needs_under s x (as_bits o) i j -> In i (p o) -> In j (p o) -> precedes i j (p o).
Proof.
  intros Nd Hi Hj. apply in_split in Hj. destruct Hj as (l1 & l2 & E). rewrite p_run in E. destruct (proj2 Ord (as_bits o)) as (_ & _ & _ & Od).
  destruct (Od l1 j l2 E) as [_ O2]. assert (Ni : ~ In i (j :: l2)) by (apply (O2 i (as_bits o)); [intros b _; reflexivity|exact Nd]).
  rewrite <- p_run in E. rewrite E in Hi. apply in_app_iff in Hi. destruct Hi as [Hi|Hi]; [|contradiction].
  apply in_split in Hi. destruct Hi as (a & b & ->). exists a, b, l2. rewrite E. now rewrite <- app_assoc.
Qed.
Lemma precedes_not o i j : precedes i j (p o) -> precedes j i (p o) -> False.
Proof.
  intros (l1 & l2 & l3 & E) (m1 & m2 & m3 & E'). pose proof (p_nodup o) as N. rewrite E in N, E'. clear E.
  assert (Hs : forall (l m : list nat) a b c d, NoDup (l ++ a :: b) -> l ++ a :: b = m ++ c :: d -> In c l -> In a d).
  { clear. induction l as [|y l IH]; intros m a b c d N E Hc; [destruct Hc|]. destruct m as [|z m]; cbn [app] in E; injection E as -> E.
    - rewrite <- E. apply in_app_iff. right. now left.
    - cbn [app] in N. apply NoDup_cons_iff in N. destruct N as [N1 N2]. destruct Hc as [Hc|Hc]; [subst; exfalso; apply N1; rewrite E; apply in_app_iff; right; now left|]. apply (IH m a b c d N2 E Hc). }
  assert (E2 : (l1 ++ i :: l2) ++ j :: l3 = m1 ++ j :: m2 ++ i :: m3) by (rewrite <- app_assoc; exact E').
  assert (N2 : NoDup ((l1 ++ i :: l2) ++ j :: l3)) by (rewrite <- app_assoc; exact N).
  (* the position of j is unique *)
  assert (U : l1 ++ i :: l2 = m1 /\ l3 = m2 ++ i :: m3).
  { clear - N2 E2. revert m1 E2 N2. generalize (l1 ++ i :: l2). induction l as [|y l IH]; intros [|z m1] E2 N2; cbn [app] in *.
    - injection E2 as ->. auto.
    - injection E2 as <- E2. exfalso. apply NoDup_cons_iff in N2. destruct N2 as [N2 _]. apply N2. rewrite E2. apply in_app_iff. right. now left.
    - injection E2 as -> E2. exfalso. apply NoDup_cons_iff in N2. destruct N2 as [N2 _]. apply N2. apply in_app_iff. right. now left.
    - injection E2 as <- E2. apply NoDup_cons_iff in N2. destruct N2 as [_ N2]. destruct (IH _ E2 N2) as [-> ->]. auto. }
  destruct U as [_ ->]. clear - N2. rewrite <- app_assoc in N2. cbn [app] in N2. apply NoDup_remove_2 in N2. apply N2. apply in_app_iff. right. apply in_app_iff. right. right. apply in_app_iff. right. now left.
Qed.
Lemma p_always o i inst : nth_error oins i = Some inst -> always inst -> In i (p o).
Proof. intros E Al. rewrite p_run. destruct (proj2 Ord (as_bits o)) as (_ & _ & Cm & _). apply (Cm i inst E). apply Al. Qed.
Lemma p_meets o i : In i (p o) <-> exists inst, nth_error oins i = Some inst /\ meets (as_bits o) (oi_cond inst).
Proof. rewrite p_run. apply (C47_exact s x oins (r_cto r) (an_edges _ _ _ _ _ A) (an_has _ _ _ _ _ A) (an_tests _ _ _ _ _ A) Et). Qed.

Theorem scheduled_legal : legal M r.
Proof.
  constructor.
  - apply (an_wf _ _ _ _ _ A).
  - apply (branches_same oins); [apply (an_same _ _ _ _ _ A)|apply Ord].
  - intros o. constructor.
    + apply p_nodup.
    + intros l1 i l2 j l3 g g' w E Ei Ej B B'. destruct (Z_le_gt_dec (rank (g_ph g)) (rank (g_ph g'))) as [H|H]; [exact H|]. exfalso.
      apply (precedes_not o i j); [exists l1, l2, l3; exact E|]. apply needs_precedes.
      * apply (an_phases _ _ _ _ _ A j i g' g w); auto. lia.
      * rewrite E. apply in_app_iff. right. right. apply in_app_iff. right. now left.
      * rewrite E. apply in_app_iff. right. now left.
    + intros ph P. destruct (an_lhs _ _ _ _ _ A ph P) as (i & g & inst & Ei & Eo & Al & Lg & Pg). exists i, g. split; [apply (p_always o i inst Eo Al)|auto].
    + intros c X ph EX P. destruct (an_child _ _ _ _ _ A c X ph EX P) as (i & g & inst & Ei & Eo & Al & Cg & Pg). exists i, g. split; [apply (p_always o i inst Eo Al)|auto].
    + intros l1 i l2 E T N. destruct (an_first _ _ _ _ _ A) as (k & g & inst & Ek & Eo & Al & Gt & Lg & Pg & Hk & Tk).
      destruct (an_same _ _ _ _ _ A) as [Ln Sm].
      assert (Cv : forall j, is_test insts j -> exists inst b, nth_error oins j = Some inst /\ oi_if inst = Some b).
      { intros j (gj & [kj xj] & Ej & Tj). destruct (proj2 (p_inst j) (ex_intro _ gj Ej)) as (ij & Eij). exists ij, kj. split; [exact Eij|]. rewrite (Sm j ij gj Eij Ej), Tj. reflexivity. }
      assert (Q : i = k).
      { rewrite p_run in E.
        apply (first_is (pairs_at s x) oins k inst Eo Al) with (rem := length oins) (sched := repeat false (length oins)) (cond := mkCond 0 0) (t := r_cto r) (o := as_bits o) (l1 := l1) (l2 := l2).
        - rewrite (Sm k inst g Eo Ek), Gt. reflexivity.
        - exact Hk.
        - intros j Lj. apply Cv. now apply Tk.
        - apply repeat_length.
        - rewrite nth_error_repeat. assert (k < length oins)%nat by (apply nth_error_Some; congruence). destruct (Nat.ltb_spec k (length oins)); [reflexivity|lia].
        - exists (as_bits o). apply meets_start.
        - apply meets_start.
        - exact Et.
        - exact E.
        - intros j Hj. apply Cv. now apply T.
        - intros ii Eii. destruct (proj1 (p_inst i) (ex_intro _ ii Eii)) as (gi & Egi). rewrite (Sm i ii gi Eii Egi). destruct (g_test gi) as [y|] eqn:Ty; [|reflexivity]. exfalso. apply N. exists gi, y. auto. }
      subst i. exists g. auto.
    + intros l1 i l2 h E Hh. destruct (an_cases _ _ _ _ _ A i h Hh) as (j & g & k & body & d & Ej & Tj & Mj & Bj & Aj).
      assert (Hi : In i (p o)) by (rewrite E; apply in_app_iff; right; now left).
      assert (Hj : In j (p o)).
      { apply p_meets in Hi. destruct Hi as (inst & Ei & Mi). destruct (proj2 (p_inst j) (ex_intro _ g Ej)) as (ij & Eij). apply p_meets. exists ij. split; [exact Eij|]. apply (Mj _ inst ij Ei Eij Mi). }
      assert (Spl : exists a b, l1 ++ [i] = a ++ j :: b).
      { destruct Bj as [->|Nj]; [exists l1, []; reflexivity|]. destruct (needs_precedes o j i (Nj _) Hj Hi) as (a & b & c & E').
        assert (U : l1 = a ++ j :: b). { assert (E2 : p o = (a ++ j :: b) ++ i :: c) by (rewrite <- app_assoc; exact E'). pose proof (p_nodup o) as Nd. rewrite E in E2, Nd. clear - E2 Nd. revert E2 Nd. generalize (a ++ j :: b) as m1. induction l1 as [|y l IH]; intros [|z m1] E2 N2; cbn [app] in *; auto.
          - injection E2 as -> E2. exfalso. apply NoDup_cons_iff in N2. destruct N2 as [N2 _]. apply N2. rewrite E2. apply in_app_iff. right. now left.
          - injection E2 as -> E2. exfalso. apply NoDup_cons_iff in N2. destruct N2 as [N2 _]. apply N2. apply in_app_iff. right. now left.
          - injection E2 as <- E2. apply NoDup_cons_iff in N2. destruct N2 as [_ N2]. f_equal. apply (IH _ E2 N2). }
        exists a, (b ++ [i]). rewrite U. now rewrite <- app_assoc. }
      destruct Spl as (a & b & Es). rewrite Es.
      assert (App : forall n l m, in_scope insts n (l ++ m) = in_scope insts (in_scope insts n l) m) by (intros n l; revert n; induction l as [|y l IH]; intros n m; cbn [app in_scope]; [reflexivity|apply IH]).
      rewrite App. cbn [in_scope]. rewrite Ej, Tj.
      assert (Ep : p o = (a ++ j :: b) ++ l2) by (rewrite <- Es, <- app_assoc; exact E).
      assert (Hb : forall j', In j' b -> forall g' k' h' body' d', nth_error insts j' = Some g' -> g_test g' = Some (k', TMatch h' true body' d') -> h' = h).
      { intros j' Hj' g' k' h' body' d' E1 T1. destruct (Nat.eq_dec h' h) as [Q|Q]; [exact Q|exfalso].
        assert (Hp : In j' (p o)) by (rewrite Ep; apply in_app_iff; left; apply in_app_iff; right; now right).
        destruct (Aj j' g' k' h' body' d' E1 T1 Q) as [Nb|Nb].
        - apply (precedes_not o j j'); [|apply (needs_precedes o j' j (Nb _) Hp Hj)]. apply in_split in Hj'. destruct Hj' as (b1 & b2 & ->). exists a, b1, (b2 ++ l2). rewrite Ep. rewrite <- !app_assoc. cbn [app]. rewrite <- !app_assoc. reflexivity.
        - assert (Hd : j' <> i). { intros ->. unfold header_of in Hh. rewrite E1, T1 in Hh. congruence. }
          assert (Pre : precedes j' i (p o)).
          { assert (Hl1 : In j' l1). { assert (In j' (l1 ++ [i])) by (rewrite Es; apply in_app_iff; right; now right). apply in_app_iff in H. destruct H as [H|[H|[]]]; [exact H|congruence]. }
            apply in_split in Hl1. destruct Hl1 as (c1 & c2 & ->). exists c1, c2, l2. rewrite E. now rewrite <- app_assoc. }
          apply (precedes_not o j' i Pre). apply (needs_precedes o i j' (Nb _) Hi Hp). }
      clear - Hb. induction b as [|y b IH]; cbn [in_scope]; [reflexivity|].
      assert (Sc : match nth_error insts y with Some g => match g_test g with Some (_, TMatch h0 true _ _) => Some h0 | _ => Some h end | None => Some h end = Some h).
      { destruct (nth_error insts y) as [gy|] eqn:Ey; [|reflexivity]. destruct (g_test gy) as [[ky [ | hy [|] bo dy]]|] eqn:Ty; try reflexivity. f_equal. apply (Hb y (or_introl eq_refl) gy ky hy bo dy Ey Ty). }
      rewrite Sc. apply IH. intros j' Hj'. apply Hb. now right.
Qed.
End LINK.
