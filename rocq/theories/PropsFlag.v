(** * PropsFlag: a schedule is only found when every attribute is inherited or synthesized. *)
From Verif Require Import Base CondModel EdgeModel DncModel CycleModel OagModel PropsOag PropsCycle OaModel AnModel EdgeProofs.
Open Scope nat_scope.

Fixpoint set_count (l : list Z) : nat := match l with [] => 0 | z :: l => (if Z.eqb z 0 then 0 else 1) + set_count l end.
Lemma set_count_le l : set_count l <= length l.
Proof. induction l as [|z l IH]; cbn [set_count length]; [lia|]. destruct (Z.eqb z 0); lia. Qed.
Lemma set_count_all l : length l <= set_count l -> forall i z, nth_error l i = Some z -> z <> 0%Z.
Proof.
  induction l as [|z l IH]; intros H i w E; [destruct i; discriminate|]. cbn [set_count length] in H. pose proof (set_count_le l) as K. destruct (Z.eqb_spec z 0) as [Q|Q]; [lia|]. destruct i as [|i]; cbn [nth_error] in E; [congruence|]. apply IH with i; [lia|exact E].
Qed.
Lemma set_count_upd l : forall i v, nth_error l i = Some 0%Z -> v <> 0%Z -> set_count (upd l i v) = S (set_count l).
Proof.
  induction l as [|z l IH]; intros i v E V; [destruct i; discriminate|]. destruct i as [|i]; cbn [nth_error] in E.
  - injection E as ->. cbn [upd set_count]. destruct (Z.eqb_spec v 0); [contradiction|]. cbn [Z.eqb]. lia.
  - cbn [upd set_count]. rewrite (IH i v E V). lia.
Qed.
Lemma set_count_zero n : set_count (repeat 0%Z n) = 0.
Proof. induction n; cbn [repeat set_count Z.eqb]; auto. Qed.

Section DIRS.
Context (dirs : list direction).
Definition inv (st : list Z * list N * nat * nat) : Prop := let '(sched, _, done, _) := st in
  length sched = length dirs /\ done = set_count sched /\ forall i z, nth_error sched i = Some z -> z <> 0%Z -> nth_error dirs i <> Some instance_local.
Lemma one_inv want mark st i st' : want <> instance_local -> mark <> 0%Z -> inv st -> schedule_one dirs want mark st i = Ok st' -> inv st'.
Proof.
  intros Hw Hm I E. destruct st as [[[sched mg] done] ld]. unfold schedule_one in E. destruct (rd dirs i) as [d| | |] eqn:Ed; cbn [bind] in E; try discriminate. apply rd_Ok in Ed.
  destruct (same_direction d want) eqn:Es; cbn [negb] in E; [|injection E as <-; exact I]. destruct (rd sched i) as [s| | |] eqn:Er; cbn [bind] in E; try discriminate. apply rd_Ok in Er.
  destruct (Z.eqb_spec s 0) as [->|]; cbn [negb] in E; [|injection E as <-; exact I]. destruct (existsM _ _) as [[|]| | |]; cbn [bind] in E; try discriminate; [injection E as <-; exact I|].
  assert (Li : i < length sched) by (apply nth_error_Some; congruence). rewrite (wr_Ok _ i mark Li) in E. cbn [bind] in E. destruct (foldM _ _ _) as [mg'| | |]; cbn [bind] in E; try discriminate. injection E as <-.
  destruct I as (L & C & A). split; [now rewrite upd_length|]. split; [now rewrite (set_count_upd sched i mark Er Hm), C|]. intros j z Hj Hz. destruct (Nat.eq_dec j i) as [->|Ne].
  - rewrite Ed. intros [= ->]. destruct want; cbn [same_direction] in Es; congruence.
  - rewrite nth_error_upd_neq in Hj by congruence. exact (A j z Hj Hz).
Qed.
Lemma all_inv want mark l : want <> instance_local -> mark <> 0%Z -> forall st st', inv st -> foldM (schedule_one dirs want mark) l st = Ok st' -> inv st'.
Proof.
  intros Hw Hm. induction l as [|i l IH]; intros st st' I E; cbn [foldM] in E; [injection E as <-; exact I|].
  destruct (schedule_one dirs want mark st i) as [s1| | |] eqn:E1; cbn [bind] in E; try discriminate. apply (IH s1 st'); [|exact E]. exact (one_inv want mark st i s1 Hw Hm I E1).
Qed.
Lemma phases_inv : forall fuel phase sched mg done r, (0 <= phase)%Z -> (forall ld, inv (sched, mg, done, ld)) -> schedule_phases fuel dirs phase sched mg done = Ok r -> ~ In instance_local dirs.
Proof.
  induction fuel as [|f IH]; intros phase sched mg done r Hp I E; cbn [schedule_phases] in E; destruct (Nat.ltb_spec done (length dirs)) as [Lt|Ge]; try discriminate.
  1, 3: intros Hin; apply In_nth_error in Hin; destruct Hin as (i & Hi); destruct (I 0) as (L & C & A); assert (Li : i < length sched) by (rewrite L; apply nth_error_Some; congruence);
    destruct (nth_error sched i) as [z|] eqn:Ez; [|apply nth_error_None in Ez; lia]; apply (A i z Ez); [|exact Hi]; apply (set_count_all sched) with i; [lia|exact Ez].
  destruct (foldM (schedule_one dirs instance_inward _) _ _) as [st| | |] eqn:E1; cbn [bind] in E; try discriminate. destruct (foldM (schedule_one dirs instance_outward _) _ _) as [[[[sched' mg'] done'] ld']| | |] eqn:E2; cbn [bind] in E; try discriminate.
  destruct (Nat.eqb_spec ld' 0) as [|]; [discriminate|]. apply (IH (phase + 1)%Z sched' mg' done' r); [lia| |exact E]. intros ld.
  assert (I1 : inv st) by (apply (all_inv instance_inward (- (phase + 1))%Z (seq 0 (length dirs))) with (sched, mg, done, 0); [discriminate|lia|exact (I 0)|exact E1]).
  assert (I2 : inv (sched', mg', done', ld')) by (apply (all_inv instance_outward (phase + 1)%Z (seq 0 (length dirs))) with st; [discriminate|lia|exact I1|exact E2]). exact I2.
Qed.
Lemma schedule_flagged fuel mg r : schedule_summary fuel dirs mg = Ok r -> ~ In instance_local dirs.
Proof.
  apply phases_inv; [lia|]. intros ld. split; [now rewrite repeat_length|]. split; [now rewrite set_count_zero|]. intros i z Hi Hz. exfalso. apply Hz. apply nth_error_In in Hi. now apply repeat_spec in Hi.
Qed.
End DIRS.

Lemma phyla_flagged fuel rules dirs : forall js s scheds s' scheds', oag_phyla fuel rules dirs js s scheds = Ok (s', scheds') -> analysis_state_cycle s' = Ok no_dependency ->
  forall j, In j js -> exists d, nth_error dirs j = Some d /\ ~ In instance_local d.
Proof.
  induction js as [|j js IH]; intros s scheds s' scheds' E A i Hi; [destruct Hi|]. cbn [oag_phyla] in E. destruct (oag_phylum fuel rules dirs s j) as [[s1 sched]| | |] eqn:E1; cbn [bind] in E; try discriminate.
  assert (J : exists d, nth_error dirs j = Some d /\ ~ In instance_local d).
  { unfold oag_phylum in E1. destruct (rd (st_phys s) j) as [p| | |]; cbn [bind] in E1; try discriminate. destruct (rd dirs j) as [d| | |] eqn:Ed; cbn [bind] in E1; try discriminate. apply rd_Ok in Ed. destruct (schedule_summary fuel d (mingraph p)) as [r| | |] eqn:Er; cbn [bind] in E1; try discriminate.
    exists d. split; [exact Ed|]. exact (schedule_flagged d fuel (mingraph p) r Er). }
  destruct (analysis_state_cycle s1) as [k| | |] eqn:Ek; cbn [bind] in E; try discriminate. destruct (N.eqb_spec k no_dependency) as [->|Ne].
  - destruct Hi as [<-|Hi]; [exact J|]. exact (IH s1 (scheds ++ [sched]) s' scheds' E A i Hi).
  - injection E as <- <-. congruence.
Qed.
(** what is found for a state whose phyla are all scheduled *)
Lemma analysis_flagged fuel F d s loop out a out' : schedule_and_test fuel F d s loop out = Ok (Some a, out') -> forall j, j < length (st_phys s) -> exists ds, nth_error (f_dirs F) j = Some ds /\ ~ In instance_local ds.
Proof.
  intros E j Hj. unfold schedule_and_test, compute_oag in E. destruct (oag_phyla fuel (f_rules F) (f_dirs F) _ s []) as [[s1 scheds]| | |] eqn:E1; cbn [bind] in E; try discriminate.
  destruct (analysis_state_cycle s1) as [k| | |] eqn:Ek; cbn [bind] in E; try discriminate. destruct (N.eqb_spec k no_dependency) as [->|Ne].
  - apply (phyla_flagged _ _ _ _ _ _ _ _ E1 Ek). apply in_seq. lia.
  - cbn [bind] in E. rewrite Ek in E. cbn [bind] in E. destruct (N.eqb_spec k no_dependency); [contradiction|discriminate].
Qed.
