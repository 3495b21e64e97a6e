(** * GenLoop: the fixed-point loops of a visit procedure. *)
From Verif Require Import Base CondModel OagModel PropsCond ChunkModel SchedSpec GenModel GenSpec GenProofs GenTrace.
Open Scope nat_scope.
Ltac chop E := lazymatch type of E with bind ?x _ = _ => let E2 := fresh E in destruct x as [?a| | |] eqn:E2; cbn [bind] in E; try discriminate E end.

Section Loops.
Variables (G : gen) (phase : nat) (skip : bool).
Lemma loops_app a b : loops (a ++ b) = loops a ++ loops b.
Proof. apply flat_map_app. Qed.
Lemma loops_notes : loops (notes G) = [].
Proof. unfold notes. destruct (g_comments G); reflexivity. Qed.
Lemma loops_assign i p ch s : forall ss, assigns_stmts G i p ch s = Ok ss -> loops ss = [].
Proof.
  assert (One : forall e ss, assign_stmts G i p ch e = Ok ss -> loops ss = []).
  { intros e ss H. unfold assign_stmts in H. destruct (Z.eqb e 0); [injection H as <-; reflexivity|].
    destruct (pl_node p), (pl_fiber p), (g_lhs G e), (pl_local_attr p), (pl_prefix p =? 0), (Z.ltb ch (g_nch G)), (pl_lhs p), (pl_shared p), (pl_updown p); cbn in H; try discriminate; injection H as <-; cbn; try reflexivity; apply loops_notes. }
  induction s as [|e s IH]; intros ss H; [injection H as <-; reflexivity|]. cbn [assigns_stmts] in H. chop H. chop H. injection H as <-. now rewrite loops_app, (One e a H0), (IH a0 eq_refl).
Qed.
Definition flat_loops (l : list stmt) : Prop := forall id body, In (id, body) (loops l) -> loops body = [].
(** are there loops? *)
Definition may (allowed : bool) : bool := allowed && (g_mod G || negb (match nth_error (cyclic_flags (g_parent G)) phase with Some f => f | None => true end)).
Definition tidy (allowed : bool) (b : list stmt * list stmt) : Prop := loops (fst b) = [] /\ if may allowed then flat_loops (snd b) else loops (snd b) = [].
Lemma flat_app a b : flat_loops a -> flat_loops b -> flat_loops (a ++ b).
Proof. intros H1 H2 id body H. rewrite loops_app in H. apply in_app_iff in H. destruct H; eauto. Qed.
Lemma flat_none a : loops a = [] -> flat_loops a.
Proof. intros H id body Hi. rewrite H in Hi. destruct Hi. Qed.
Definition fine (m : bool) (l : list stmt) : Prop := if m then flat_loops l else loops l = [].
Lemma fine_app m a b : fine m a -> fine m b -> fine m (a ++ b).
Proof. destruct m; cbn; [apply flat_app|]. intros H1 H2. now rewrite loops_app, H1, H2. Qed.
Lemma fine_none m a : loops a = [] -> fine m a.
Proof. destruct m; cbn; [apply flat_none|auto]. Qed.
Lemma tidy_andthen al open ss b : loops ss = [] -> tidy al b -> tidy al (andthen open ss b).
Proof. intros H [H1 H2]. unfold andthen. destruct open; split; cbn [fst snd]; auto; [now rewrite loops_app, H, H1|]. apply (fine_app (may al)); auto. now apply fine_none. Qed.
Lemma tidy_closed al open s : loops1 s = [] \/ (open = false /\ fine (may al) [s]) -> tidy al (closed open s).
Proof. intros H. unfold closed. destruct open; split; cbn [fst snd]; try reflexivity. - destruct H as [H|[H _]]; [|discriminate]. cbn. now rewrite H. - now apply (fine_none (may al)). - destruct H as [H|[_ H]]; [apply (fine_none (may al)); cbn; now rewrite H|exact H]. Qed.
Lemma may_inside allowed loop : may (allowed_inside allowed loop) = if isopen allowed loop then false else may allowed && match loop with None => true | Some _ => false end.
Proof. unfold may, allowed_inside. destruct allowed, loop; cbn; auto. now rewrite andb_true_r. Qed.
(** a test or for-in around what is tidy *)
Lemma inside_none allowed loop x : tidy (allowed_inside allowed loop) x -> isopen allowed loop = true \/ may allowed = false -> loops (snd x) = [].
Proof. intros [_ H] Hor. rewrite may_inside in H. destruct (isopen allowed loop); [exact H|]. destruct Hor as [Ho|Ho]; [discriminate|]. rewrite Ho in H. exact H. Qed.
Lemma inside_fine allowed loop x : tidy (allowed_inside allowed loop) x -> fine (may allowed) (snd x).
Proof. intros [_ H]. rewrite may_inside in H. destruct (isopen allowed loop); [now apply fine_none|]. destruct (may allowed); [|exact H]. destruct loop; [now apply fine_none|exact H]. Qed.
Definition keeps (f : planner) : Prop := forall asg allowed loop cond c b, f asg allowed loop cond = Ok (c, b) -> (g_mod G = true -> loop = None) -> tidy allowed b.
Lemma core_keeps gi ph ch visit ck asg allowed loop cond f g c b : keeps f -> keeps g -> core G phase skip gi ph ch visit ck asg allowed loop cond f g = Ok (c, b) -> (g_mod G = true -> loop = None) -> tidy allowed b.
Proof.
  intros Hf Hg E Hm. unfold core in E. destruct (skip && negb (always gi) && negb (visit =? phase)); [exact (Hg _ _ _ _ _ _ E Hm)|]. destruct gi as [[i x]|].
  - destruct (impossible (merge_cond cond (gi_cond x))); [chop E; destruct a as [c9 b9]; injection E as <- <-; apply tidy_andthen; [apply loops_notes|exact (Hg _ _ _ _ _ _ E0 Hm)]|].
    assert (TEST : forall (mk : list stmt -> list stmt -> stmt) x1 x2, (forall a b, loops1 (mk a b) = loops a ++ loops b) -> tidy (allowed_inside allowed loop) x1 -> tidy (allowed_inside allowed loop) x2 -> tidy allowed (closed (isopen allowed loop) (mk (snd x1) (snd x2)))).
    { intros mk x1 x2 Hmk T1 T2. apply tidy_closed. rewrite Hmk. destruct (isopen allowed loop) eqn:Eo; [left; now rewrite (inside_none _ _ _ T1), (inside_none _ _ _ T2) by auto|]. right. split; auto. pose proof (inside_fine _ _ _ T1) as F1. pose proof (inside_fine _ _ _ T2) as F2. pose proof (fine_app _ _ _ F1 F2) as F. unfold fine, flat_loops in *. unfold loops in *. cbn [flat_map]. rewrite app_nil_r, Hmk. rewrite flat_map_app in F. exact F. }
    destruct (gi_kind x) as [index b1 b2|index header first b1 b2|stm body|p].
    + chop E. chop E. destruct a0 as [c1 x1]. chop E. chop E. destruct a1 as [c2 x2]. injection E as <- <-. apply (TEST (SIf i)); [reflexivity|exact (Hf _ _ _ _ _ _ E1 Hm)|exact (Hg _ _ _ _ _ _ E3 Hm)].
    + chop E. chop E. destruct a0 as [c1 x1]. chop E. chop E. destruct a1 as [c2 x2]. injection E as <- <-. apply tidy_andthen; [destruct first; reflexivity|]. apply (TEST (SMatch i)); [reflexivity|exact (Hf _ _ _ _ _ _ E1 Hm)|exact (Hg _ _ _ _ _ _ E3 Hm)].
    + chop E. chop E. destruct a0 as [c1 x1]. injection E as <- <-. pose proof (Hg _ _ _ _ _ _ E1 Hm) as T1. apply tidy_closed. destruct (isopen allowed loop) eqn:Eo; [left; exact (inside_none _ _ _ T1 (or_introl Eo))|]. right. split; auto. pose proof (inside_fine _ _ _ T1) as F1. unfold fine, flat_loops, loops in *. cbn [flat_map loops1]. now rewrite app_nil_r.
    + destruct (gi_inward x); [chop E; destruct a as [c9 b9]; injection E as <- <-; apply tidy_andthen; [apply loops_notes|exact (Hg _ _ _ _ _ _ E0 Hm)]|]. chop E. chop E. chop E. destruct a1 as [c2 x2]. injection E as <- <-. apply tidy_andthen; [eapply loops_assign; eauto|exact (Hg _ _ _ _ _ _ E2 Hm)].
  - destruct (Z.eqb ch (-1)).
    + destruct (Z.ltb ph 0); [discriminate|]. chop E. assert (Es : fine (may allowed) a /\ (isopen allowed loop = true -> loops a = [])).
      { unfold end_step in E0. destruct (g_mod G) eqn:Em; [|injection E0 as <-; split; [apply fine_none|intros _]; apply loops_notes]. chop E0. injection E0 as <-. rewrite (Hm eq_refl). split; [|discriminate]. apply fine_app; [|apply fine_none, loops_notes]. unfold may. rewrite Em. destruct allowed; cbn [andb orb]; [|rewrite andb_false_r; reflexivity]. rewrite andb_true_r. destruct a0; [|now apply fine_none]. intros id body [[= <- <-]|[]]. reflexivity. }
      destruct Es as [Es1 Es2]. assert (END : forall z, fine (may allowed) z -> tidy allowed (ended (isopen allowed loop) a z)) by (intros z Hz; unfold ended; destruct (isopen allowed loop); split; cbn [fst snd]; auto; apply (fine_app (may allowed)); auto).
      destruct (Z.eqb ph (Z.of_nat phase)); [injection E as <- <-; apply END; now apply fine_none|]. chop E. destruct a0 as [c1 x1]. injection E as <- <-. apply END. refine (proj2 (Hg _ _ _ _ _ _ E1 _)). intros M. rewrite M in *. rewrite andb_false_r. auto.
    + destruct (Z.ltb (-1) ch); [|discriminate]. destruct (Z.ltb ph 0); [discriminate|]. chop E. chop E. destruct a0 as [c1 x1]. injection E as <- <-. apply tidy_andthen; [|exact (Hg _ _ _ _ _ _ E1 Hm)]. unfold child_step in E0. chop E0. destruct a0 as [pg|]; [|discriminate]. chop E0. chop E0. injection E0 as <-. reflexivity.
Qed.
Theorem plan_keeps t : forall chunk, keeps (fun asg => plan G phase skip t asg chunk).
Proof.
  induction t as [|ad prev inst g visit ck circ t1 IH1 t2 IH2]; intros chunk asg allowed loop cond c b H Hm; [injection H as _ <-; split; [reflexivity|apply (fine_none (may allowed)); reflexivity]|]. destruct g as [gp gc]. cbn [plan] in H. chop H. chop H. chop H. destruct a1 as [c' b']. injection H as <- <-.
  assert (Hm2 : g_mod G = true -> loop_after a0 allowed loop ck = None) by (intros M; unfold chunk_step in H1; destruct chunk as [c1|]; [rewrite M in H1|]; injection H1 as <-; exact (Hm M)).
  pose proof (core_keeps _ _ _ _ _ _ _ _ _ _ _ _ _ (IH1 (Some ck)) (IH2 (Some ck)) H2 Hm2) as [T1 T2]. fold (fine (may allowed) (snd b')) in T2. pose proof loops_notes as Hn. unfold after. destruct a0 as [|post|].
  - split; auto.
  - assert (Hp : loops post = []) by (destruct (step_close G phase allowed chunk ck circ _ post H1 eq_refl) as [-> | ->]; [exact Hn|reflexivity]).
    destruct (isopen allowed loop); split; cbn [fst snd]; auto; repeat (apply (fine_app (may allowed))); auto; now apply fine_none.
  - assert (Hmay : may allowed = true). { unfold chunk_step in H1. destruct chunk as [c1|]; [|discriminate]. destruct (g_mod G || (ck =? c1)) eqn:Em; [discriminate|]. destruct (allowed && circ) eqn:Ea; [|discriminate]. apply andb_true_iff in Ea. destruct Ea as [-> _]. unfold rd in H1. unfold may. destruct (nth_error (cyclic_flags (g_parent G)) phase) as [fl|]; [|discriminate]. destruct fl; [discriminate|]. cbn. now destruct (g_mod G). }
    assert (Hl : fine (may allowed) (loopify ck (fst b') (snd b'))). { rewrite Hmay in *. unfold loopify. destruct (fst b') as [|s0 l0] eqn:Ef; [exact T2|]. intros id body Hi. unfold loops in Hi. cbn [flat_map loops1] in Hi. destruct Hi as [[= <- <-]|Hi]; [exact T1|]. apply in_app_iff in Hi. destruct Hi as [Hi|Hi]; [|exact (T2 id body Hi)]. unfold loops in T1. cbn [flat_map] in T1. rewrite T1 in Hi. destruct Hi. }
    destruct (isopen allowed loop); split; cbn [fst snd]; auto; repeat (apply (fine_app (may allowed))); auto; now apply fine_none.
Qed.
End Loops.

(** ** What is done outside of all loops *)
Section Bare.
Variables (G : gen) (phase : nat) (skip : bool) (yes : nat -> bool) (times : nat -> nat) (circ_of : nat -> bool) (bad : action -> Prop).
Hypothesis (Hmod : g_mod G = false) (Hflag : nth_error (cyclic_flags (g_parent G)) phase = Some false).
Definition proper (n : option nat * group * nat * nat * bool) : Prop :=
  let '(inst, (gp, gc), visit, ck, circ) := n in
  circ = circ_of ck /\ (circ = false -> forall e, match inst with Some i => ~ bad (ASet i e) | None => gc <> (-1)%Z -> ~ bad (ACall (Z.to_nat gc) (Z.to_nat gp)) end) /\
  (inst = None -> gc = (-1)%Z -> skip && negb (visit =? phase) = false -> circ = false).
Definition clean (l : list stmt) : Prop := forall a, In a (bare yes times l) -> ~ bad a.
Lemma bare_app a b : bare yes times (a ++ b) = bare yes times a ++ bare yes times b.
Proof. apply flat_map_app. Qed.
Lemma clean_app a b : clean a -> clean b -> clean (a ++ b).
Proof. intros H1 H2 x H. rewrite bare_app in H. apply in_app_iff in H. destruct H; [now apply H1|now apply H2]. Qed.
Lemma clean_notes : clean (notes G).
Proof. unfold notes. destruct (g_comments G); intros a []. Qed.
Lemma bare_assign i p ch s : forall ss, assigns_stmts G i p ch s = Ok ss -> forall a, In a (bare yes times ss) -> exists e, a = ASet i e.
Proof.
  assert (One : forall e ss, assign_stmts G i p ch e = Ok ss -> forall a, In a (bare yes times ss) -> a = ASet i e).
  { intros e ss H. unfold assign_stmts in H. destruct (Z.eqb e 0); [injection H as <-; intros a []|].
    destruct (pl_node p), (pl_fiber p), (g_lhs G e), (pl_local_attr p), (pl_prefix p =? 0), (Z.ltb ch (g_nch G)), (pl_lhs p), (pl_shared p), (pl_updown p); cbn in H; try discriminate; injection H as <-; intros a; unfold notes; try destruct (g_comments G); cbn; intros Ha; repeat (destruct Ha as [Ha|Ha]; [now symmetry|]); destruct Ha. }
  induction s as [|e s IH]; intros ss H; [injection H as <-; intros a []|]. cbn [assigns_stmts] in H. chop H. chop H. injection H as <-. intros x Hx. rewrite bare_app in Hx. apply in_app_iff in Hx. destruct Hx as [Hx|Hx]; [exists e; eapply One; eauto|eapply IH; eauto].
Qed.
(** where we are: in a circular chunk there is a loop *)
Definition placed (allowed : bool) (loop : option nat) (chunk : nat) : Prop := allowed = true -> circ_of chunk = true -> loop <> None.
Definition cleans (f : planner) (ck : nat) : Prop := forall asg allowed loop cond c b, f asg allowed loop cond = Ok (c, b) -> placed allowed loop ck -> allowed = true -> clean (snd b).
Lemma core_cleans gi inst ph ch visit ck asg allowed loop cond f g c b : info G inst = Ok gi -> proper (inst, (ph, ch), visit, ck, circ_of ck) -> cleans f ck -> cleans g ck ->
  core G phase skip gi ph ch visit ck asg allowed loop cond f g = Ok (c, b) -> placed allowed loop ck -> allowed = true -> clean (snd b).
Proof.
  intros Hi (_ & P2 & P3) Hf Hg E Hp Ha. unfold core in E. destruct (skip && negb (always gi) && negb (visit =? phase)) eqn:Esk; [exact (Hg _ _ _ _ _ _ E Hp Ha)|].
  assert (AND : forall ss b0, clean (snd b0) -> (isopen allowed loop = false -> clean ss) -> clean (snd (andthen (isopen allowed loop) ss b0))) by (intros ss b0 H1 H2; unfold andthen; destruct (isopen allowed loop); cbn [snd]; [auto|apply clean_app; auto]).
  assert (NC : isopen allowed loop = false -> circ_of ck = false) by (intros Ho; destruct (circ_of ck) eqn:Ec; [|reflexivity]; exfalso; apply (Hp Ha Ec); rewrite Ha in Ho; destruct loop; [discriminate|reflexivity]).
  assert (IN : isopen allowed loop = false -> allowed_inside allowed loop = true) by (rewrite Ha; destruct loop; [discriminate|reflexivity]).
  assert (IP : isopen allowed loop = false -> placed (allowed_inside allowed loop) loop ck) by (intros Ho _ Ec; rewrite NC in Ec by auto; discriminate).
  destruct gi as [[i x]|].
  - destruct inst as [i0|]; [|discriminate]. cbn [info] in Hi. chop Hi. injection Hi as -> ->.
    destruct (impossible (merge_cond cond (gi_cond x))); [chop E; destruct a as [c9 b9]; injection E as <- <-; apply AND; [exact (Hg _ _ _ _ _ _ E0 Hp Ha)|intros _; apply clean_notes]|].
    destruct (gi_kind x) as [index b1 b2|index header first b1 b2|stm body|p].
    + chop E. chop E. destruct a0 as [c1 x1]. chop E. chop E. destruct a1 as [c2 x2]. injection E as <- <-. unfold closed. destruct (isopen allowed loop) eqn:Eo; cbn [snd]; [intros y []|]. intros y Hy. unfold bare in Hy. cbn [flat_map bare1] in Hy. rewrite app_nil_r in Hy.
      pose proof (Hf _ _ _ _ _ _ E1 (IP eq_refl) (IN eq_refl)) as C1. pose proof (Hg _ _ _ _ _ _ E3 (IP eq_refl) (IN eq_refl)) as C2. destruct (yes i); [now apply C1|now apply C2].
    + chop E. chop E. destruct a0 as [c1 x1]. chop E. chop E. destruct a1 as [c2 x2]. injection E as <- <-. apply AND; [|intros _; destruct first; intros y []]. unfold closed. destruct (isopen allowed loop) eqn:Eo; cbn [snd]; [intros y []|]. intros y Hy. unfold bare in Hy. cbn [flat_map bare1] in Hy. rewrite app_nil_r in Hy.
      pose proof (Hf _ _ _ _ _ _ E1 (IP eq_refl) (IN eq_refl)) as C1. pose proof (Hg _ _ _ _ _ _ E3 (IP eq_refl) (IN eq_refl)) as C2. destruct (yes i); [now apply C1|now apply C2].
    + chop E. chop E. destruct a0 as [c1 x1]. injection E as <- <-. unfold closed. destruct (isopen allowed loop) eqn:Eo; cbn [snd]; [intros y []|]. intros y Hy. unfold bare in Hy. cbn [flat_map bare1] in Hy. rewrite app_nil_r in Hy. apply in_concat in Hy. destruct Hy as (l0 & Y1 & Y2). apply repeat_spec in Y1. subst l0. exact (Hg _ _ _ _ _ _ E1 (IP eq_refl) (IN eq_refl) y Y2).
    + destruct (gi_inward x); [chop E; destruct a as [c9 b9]; injection E as <- <-; apply AND; [exact (Hg _ _ _ _ _ _ E0 Hp Ha)|intros _; apply clean_notes]|]. chop E. chop E. chop E. destruct a1 as [c2 x2]. injection E as <- <-. apply AND; [exact (Hg _ _ _ _ _ _ E2 Hp Ha)|]. intros Ho y Hy. destruct (bare_assign _ _ _ _ _ E1 y Hy) as [e ->]. exact (P2 (NC Ho) e).
  - destruct inst as [i0|]; [cbn [info] in Hi; chop Hi; discriminate|]. cbn [always negb] in Esk. rewrite andb_true_r in Esk.
    destruct (Z.eqb_spec ch (-1)) as [Ech|Ech].
    + destruct (Z.ltb ph 0); [discriminate|]. chop E. unfold end_step in E0. rewrite Hmod in E0. injection E0 as <-. pose proof (P3 eq_refl Ech Esk) as Ncirc.
      assert (END : forall z, clean z -> clean (snd (ended (isopen allowed loop) (notes G) z))) by (intros z Hz; unfold ended; destruct (isopen allowed loop); cbn [snd]; auto; apply clean_app; auto; apply clean_notes).
      destruct (Z.eqb ph (Z.of_nat phase)); [injection E as <- <-; apply END; intros y []|]. chop E. destruct a as [c1 x1]. injection E as <- <-. apply END. refine (Hg _ _ _ _ _ _ E0 _ Ha). intros _ X. congruence.
    + destruct (Z.ltb (-1) ch); [|discriminate]. destruct (Z.ltb ph 0); [discriminate|]. chop E. chop E. destruct a0 as [c1 x1]. injection E as <- <-. apply AND; [exact (Hg _ _ _ _ _ _ E1 Hp Ha)|]. intros Ho. unfold child_step in E0. chop E0. destruct a0 as [pg|]; [|discriminate]. chop E0. chop E0. injection E0 as <-. intros y [<-|[]]. exact (P2 (NC Ho) 0%Z Ech).
Qed.
Theorem plan_clean t : Forall proper (nodes t) -> forall ck, cleans (fun asg => plan G phase skip t asg (Some ck)) ck.
Proof.
  induction t as [|ad prev inst g visit ck circ t1 IH1 t2 IH2]; intros HP ck0 asg allowed loop cond c b H Hp Ha; [injection H as _ <-; intros y []|]. destruct g as [gp gc]. cbn [plan] in H. chop H. chop H. chop H. destruct a1 as [c' b']. injection H as <- <-.
  cbn [nodes] in HP. inversion HP as [|? ? P0 PS]; subst. apply Forall_app in PS. destruct PS as [PS1 PS2]. pose proof P0 as (Pc & _). subst circ.
  assert (Hp2 : placed true (loop_after a0 true loop ck) ck).
  { intros _ Ec. unfold chunk_step in H1. rewrite Hmod, Ec in H1. cbn [orb andb] in H1. unfold rd in H1. rewrite Hflag in H1. cbn [bind] in H1. destruct (Nat.eqb_spec ck ck0) as [->|Hn]; injection H1 as <-; cbn [loop_after]; [exact (Hp eq_refl Ec)|discriminate]. }
  pose proof (core_cleans _ _ _ _ _ _ _ _ _ _ _ _ _ _ H0 P0 (IH1 PS1 ck) (IH2 PS2 ck) H2 Hp2 eq_refl) as T. unfold after. destruct a0 as [|post|].
  - exact T.
  - assert (Hc : clean post) by (destruct (step_close G phase true (Some ck0) ck (circ_of ck) _ post H1 eq_refl) as [-> | ->]; [apply clean_notes|intros y []]). destruct (isopen true loop); cbn [snd]; repeat (apply clean_app); auto; apply clean_notes.
  - assert (Hc : clean (loopify ck (fst b') (snd b'))) by (unfold loopify; destruct (fst b'); [exact T|exact T]). destruct (isopen true loop); cbn [snd]; repeat (apply clean_app); auto; apply clean_notes.
Qed.
End Bare.
