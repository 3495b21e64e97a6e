(** * StProofs3: from nodes to trees. *)
From Verif Require Import Base OagModel StModel StSpec StProofs StProofs2.
Open Scope Z_scope.

Fixpoint tree_ind' (P : tree -> Prop) (H : forall con cs, Forall P cs -> P (Tree con cs)) (t : tree) : P t :=
  match t with
  | Tree con cs => H con cs ((fix go (cs : list tree) : Forall P cs := match cs with [] => Forall_nil P | c :: cs => Forall_cons c (tree_ind' P H c) (go cs) end) cs)
  end.

(** ** Nodes below a node *)
Definition within (b x : addr) : bool := addr_eqb (skipn (length x - length b) x) b.
Lemma within_spec b x : within b x = true <-> exists l, x = l ++ b.
Proof.
  unfold within. split.
  - destruct (addr_eqb_spec (skipn (length x - length b) x) b) as [E|E]; [|discriminate]. intros _. exists (firstn (length x - length b) x). rewrite <- E at 2. symmetry. apply firstn_skipn.
  - intros (l & ->). rewrite app_length. replace (length l + length b - length b)%nat with (length l) by lia.
    rewrite skipn_app, skipn_all, Nat.sub_diag. cbn [app skipn]. destruct (addr_eqb_spec b b); congruence.
Qed.
Lemma within_refl b : within b b = true.
Proof. apply within_spec. now exists []. Qed.
Lemma within_child a c x : within (c :: a) x = true -> within a x = true.
Proof. intros H. apply (proj1 (within_spec _ _)) in H. destruct H as (l & ->). apply (proj2 (within_spec _ _)). exists (l ++ [c]). now rewrite <- app_assoc. Qed.
Lemma app_inv_len {A} (l1 l2 r1 r2 : list A) : l1 ++ r1 = l2 ++ r2 -> length r1 = length r2 -> r1 = r2.
Proof.
  intros E L. assert (Ll : length l1 = length l2) by (apply (f_equal (@length A)) in E; rewrite !app_length in E; lia).
  assert (S : skipn (length l1) (l1 ++ r1) = skipn (length l1) (l2 ++ r2)) by now rewrite E.
  rewrite skipn_app, skipn_all, Nat.sub_diag in S. rewrite Ll in S. rewrite skipn_app, skipn_all, Nat.sub_diag in S. exact S.
Qed.
Lemma within_other a c c' x : within (c :: a) x = true -> within (c' :: a) x = true -> c = c'.
Proof.
  intros H H'. apply (proj1 (within_spec _ _)) in H. apply (proj1 (within_spec _ _)) in H'. destruct H as (l & E). destruct H' as (l' & E'). subst x.
  assert (Q : c :: a = c' :: a) by (apply (app_inv_len l l' (c :: a) (c' :: a)); auto). now injection Q.
Qed.
Lemma within_self a c : within (c :: a) a = false.
Proof. destruct (within (c :: a) a) eqn:E; [|reflexivity]. apply (proj1 (within_spec _ _)) in E. destruct E as (l & E). apply (f_equal (@length nat)) in E. rewrite app_length in E. cbn [length] in E. lia. Qed.

Lemma filter_filter {A} (f g : A -> bool) l : (forall x, f x = true -> g x = true) -> filter f (filter g l) = filter f l.
Proof. intros H. induction l as [|x l IH]; cbn [filter]; [reflexivity|]. destruct (g x) eqn:E; cbn [filter]; [now rewrite IH|]. destruct (f x) eqn:E'; [rewrite (H x E') in E; discriminate|exact IH]. Qed.
Lemma filter_all {A} (f : A -> bool) l : (forall x, In x l -> f x = true) -> filter f l = l.
Proof. induction l as [|x l IH]; intros H; cbn [filter]; [reflexivity|]. rewrite (H x (or_introl eq_refl)), IH; [reflexivity|]. intros y Hy. apply H. now right. Qed.
Lemma filter_no {A} (f : A -> bool) l : (forall x, In x l -> f x = false) -> filter f l = [].
Proof. induction l as [|x l IH]; intros H; cbn [filter]; [reflexivity|]. rewrite (H x (or_introl eq_refl)), IH; [reflexivity|]. intros y Hy. apply H. now right. Qed.
Lemma filter_flat_map {A B} (f : B -> bool) (h : A -> list B) l : filter f (flat_map h l) = flat_map (fun x => filter f (h x)) l.
Proof. induction l as [|x l IH]; cbn [flat_map]; [reflexivity|]. now rewrite filter_app, IH. Qed.
Lemma flat_map_flat_map {A B C} (h : A -> list B) (k : B -> list C) l : flat_map k (flat_map h l) = flat_map (fun x => flat_map k (h x)) l.
Proof. induction l as [|x l IH]; cbn [flat_map]; [reflexivity|]. now rewrite flat_map_app, IH. Qed.
Lemma earlier_filter {A} (f : A -> bool) x y l : f x = true -> f y = true -> earlier x y (filter f l) -> earlier x y l.
Proof.
  intros Fx Fy H l1 l2 E I. subst l. rewrite filter_app in H. cbn [filter] in H. rewrite Fy in H.
  specialize (H _ _ eq_refl). 
  assert (J : In x (filter f l1)). { apply H. apply in_app_iff in I. apply in_app_iff. destruct I as [I|[I|I]]; [left; apply filter_In; auto|right; now left|right; right; apply filter_In; auto]. }
  apply filter_In in J. apply J.
Qed.
Lemma flat_map_split {A B} (h : A -> list B) l : forall l1 y l2, flat_map h l = l1 ++ y :: l2 -> exists P1 it P2 s1 s2, l = P1 ++ it :: P2 /\ h it = s1 ++ y :: s2 /\ l1 = flat_map h P1 ++ s1.
Proof.
  induction l as [|x l IH]; intros l1 y l2; cbn [flat_map]; [destruct l1; discriminate|]. intros H.
  destruct (Nat.lt_ge_cases (length l1) (length (h x))) as [Hl|Hl].
  - exists [], x, l, l1, (firstn (length (h x) - length l1 - 1) l2). cbn [flat_map app]. split; [reflexivity|]. split; [|reflexivity].
    assert (F : firstn (length (h x)) (h x ++ flat_map h l) = firstn (length (h x)) (l1 ++ y :: l2)) by now rewrite H.
    rewrite firstn_app, firstn_all, Nat.sub_diag, firstn_O, app_nil_r in F. rewrite F at 1. rewrite firstn_app. rewrite firstn_all2 by lia. f_equal.
    destruct (length (h x) - length l1)%nat as [|n] eqn:En; [lia|]. cbn [firstn]. f_equal. f_equal. lia.
  - assert (E : exists Q1, l1 = h x ++ Q1).
    { exists (skipn (length (h x)) l1). assert (F : firstn (length (h x)) (h x ++ flat_map h l) = firstn (length (h x)) (l1 ++ y :: l2)) by now rewrite H.
      rewrite firstn_app, firstn_all, Nat.sub_diag, firstn_O, app_nil_r in F. rewrite firstn_app in F. replace (length (h x) - length l1)%nat with 0%nat in F by lia. rewrite firstn_O, app_nil_r in F.
      rewrite <- (firstn_skipn (length (h x)) l1) at 1. f_equal. now symmetry. }
    destruct E as (Q1 & ->). rewrite <- app_assoc in H. apply app_inv_head in H. destruct (IH _ _ _ H) as (P1 & it & P2 & s1 & s2 & -> & Hs & ->).
    exists (x :: P1), it, P2, s1, s2. split; [reflexivity|]. split; [exact Hs|]. cbn [flat_map]. now rewrite app_assoc.
Qed.

Section GRAMMAR.
Context (M : phylum -> Z) (G : nat -> rule) (L : forall con, legal M (G con)) (scala : bool) (f n : nat) (F : nat -> list code)
        (HF : forall con, visit_functions scala (S (S f)) n (G con) = Ok (F con)) (O : addr -> outcome) (wrong : addr -> nat -> nat -> bool).
Notation visit := (visit (fun con => r_insts (G con)) F O wrong).
Notation wpath con a := (path (r_insts (G con)) (O a) (r_cto (G con))).

Fixpoint kids (a : addr) (m : nat) (cs : list tree) : list (Z -> list event) :=
  match cs with [] => [] | c :: cs => visit c (m :: a) :: kids a (S m) cs end.
Lemma kids_nth a cs : forall m c, nth_error (kids a m cs) c = option_map (fun t => visit t ((m + c)%nat :: a)) (nth_error cs c).
Proof.
  induction cs as [|t cs IH]; intros m [|c]; cbn [kids nth_error option_map]; try reflexivity.
  - now rewrite Nat.add_0_r.
  - rewrite IH. now rewrite Nat.add_succ_r.
Qed.
Lemma visit_step con cs a ph : visit (Tree con cs) a ph =
  match nth_error (F con) (Z.to_nat (ph - 1)) with
  | Some c => exec (fun con => r_insts (G con)) O wrong con a (kids a 0 cs) None c
  | None => [Missing a ph]
  end.
Proof.
  cbn [StSpec.visit]. destruct (nth_error (F con) (Z.to_nat (ph - 1))); [|reflexivity]. f_equal.
  generalize 0%nat. induction cs as [|t cs IH]; intros m; cbn [kids]; [reflexivity|]. f_equal. apply IH.
Qed.

(** what happens in a visit happens below the node *)
Lemma visit_within t : forall a ph e, In e (visit t a ph) -> within a (node_of e) = true.
Proof.
  induction t as [con cs IH] using tree_ind'. intros a ph e. rewrite visit_step. destruct (nth_error (F con) (Z.to_nat (ph - 1))) as [c|].
  2:{ intros [<-|[]]. apply within_refl. }
  generalize (@None nat). induction c as [|c q k IHk|i e' k IHk|h k IHk|i k IHk k' IHk'|i k IHk k' IHk']; intros node; cbn [exec].
  - intros [].
  - intros H. apply in_app_iff in H. destruct H as [H|H]; [|now apply (IHk node)].
    rewrite kids_nth in H. destruct (nth_error cs c) as [t|] eqn:Ec; cbn [option_map] in H.
    + apply (within_child a (0 + c)). rewrite Forall_forall in IH. apply (IH t (nth_In _ _ _ Ec) _ q e H).
    + destruct H as [<-|[]]. cbn [node_of]. apply (within_child a c). apply within_refl.
  - intros [<-|H]; [apply within_refl|now apply (IHk node)].
  - apply IHk.
  - destruct (truth _ _ i); [apply IHk|apply IHk'].
  - destruct (match node with Some h => _ | None => _ end); [apply IHk|apply IHk'].
Qed.

(** ** A node *)
Notation full con a := (full_plan (G con) scala (O a) [] (wpath con a)).
Lemma procs con : exists asg, length asg = length (r_insts (G con)) /\ asg_ok (G con) (O []) [] asg /\ (forall o, asg_ok (G con) o [] asg) /\
  Z.of_nat (length (F con)) = M (r_lhs (G con)) /\
  forall k, (k < length (F con))%nat -> exists c cont, nth_error (F con) k = Some c /\ gen scala (S (S f)) (r_insts (G con)) (r_cto (G con)) (1 + Z.of_nat k) 0 asg (map (fun _ => 0) (r_children (G con))) = Ok (c, cont).
Proof.
  pose proof (L con) as Lc. pose proof (lg_wf _ _ Lc) as W.
  assert (exists asg, assign_block (r_insts (G con)) (r_block (G con)) (r_defaults (G con)) = Ok asg /\ visit_procs scala (S (S f)) n (G con) asg 0 = Ok (F con)) as (asg & A & H).
  { pose proof (HF con) as H. unfold visit_functions in H.
    destruct (r_cto (G con)) eqn:Et; [|now apply bind_Ok in H|now apply bind_Ok in H].
    exfalso. destruct (gd_lhs _ _ _ (lg_order _ _ Lc (fun _ => false)) 1) as (i & g & I & _); [pose proof (wf_some _ _ W); lia|]. rewrite Et in I. destruct I. }
  assert (La : length asg = length (r_insts (G con))) by (rewrite (assign_block_len _ _ _ _ A); apply (wf_defaults _ _ W)).
  assert (Ok' : forall o, asg_ok (G con) o [] asg).
  { intros o. split; [exact La|]. intros i Li. destruct (assign_block_nth (r_insts (G con)) (r_block (G con)) (r_defaults (G con)) asg i A (wf_defaults _ _ W)) as [_ N]. rewrite (N Li). unfold in_effect. cbn [flat_map]. rewrite app_nil_r.
    destruct (last_def i (r_block (G con))); [reflexivity|]. destruct (nth_error (r_defaults (G con)) i) eqn:Ed; [reflexivity|]. exfalso. apply nth_error_None in Ed. rewrite (wf_defaults _ _ W) in Ed. lia. }
  exists asg. split; [exact La|]. split; [apply Ok'|]. split; [exact Ok'|].
  assert (Big : forall m phase l, 0 <= phase < M (r_lhs (G con)) -> visit_procs scala (S (S f)) m (G con) asg phase = Ok l -> M (r_lhs (G con)) - phase <= Z.of_nat m).
  { induction m as [|m IHm]; intros phase l P; cbn [visit_procs]; [discriminate|].
    destruct (gen_start_total M (G con) W scala f (lg_branches _ _ Lc) (lg_order _ _ Lc) (phase + 1) asg) as (code & Hg); [lia|exact La|]. rewrite Hg. cbn [bind].
    destruct (Z.ltb_spec (phase + 1) (M (r_lhs (G con)))) as [Hl|Hl]; [|lia]. intros Hb. apply bind_Ok in Hb. destruct Hb as (rest & Hr & _). assert (P' : 0 <= phase + 1 < M (r_lhs (G con))) by lia. specialize (IHm (phase + 1) rest P' Hr). lia. }
  assert (Hm : 0 <= 0 < M (r_lhs (G con))) by (pose proof (wf_some _ _ W); lia).
  destruct (procs_total M (G con) W scala f (lg_branches _ _ Lc) (lg_order _ _ Lc) asg La n 0 Hm (Big _ _ _ Hm H)) as (l & Hl & Ll & Hn).
  rewrite H in Hl. injection Hl as <-. split; [lia|exact Hn].
Qed.
Lemma visit_plan con cs a ph : 1 <= ph <= M (r_lhs (G con)) -> visit (Tree con cs) a ph = flat_map (run a (kids a 0 cs)) (plan (G con) scala (O a) ph [] (wpath con a)).
Proof.
  intros P. rewrite visit_step. destruct (procs con) as (asg & La & _ & Ha & Len & Hn).
  destruct (Hn (Z.to_nat (ph - 1))) as (c & cont & Ec & Hg); [lia|]. rewrite Ec. replace (1 + Z.of_nat (Z.to_nat (ph - 1))) with ph in Hg by lia.
  pose proof (L con) as Lc. pose proof (lg_wf _ _ Lc) as W.
  apply (gen_exec M (G con) W (fun con => r_insts (G con)) O wrong con eq_refl a (kids a 0 cs) scala f (wpath con a) (lg_order _ _ Lc (O a)) (r_cto (G con)) ph [] asg (map (fun _ => 0) (r_children (G con))) c cont); auto; try lia.
  - change (cur (G con) []) with 0. lia.
  - intros c' Lc'. change (cp (G con) c' []) with 0. rewrite nth_error_map. destruct (nth_error (r_children (G con)) c') eqn:E; [reflexivity|]. apply nth_error_None in E. lia.
Qed.
Definition eval (t : tree) (a : addr) (m : Z) : list event := flat_map (visit t a) (phases m).
Lemma eval_plan con cs a : eval (Tree con cs) a (M (r_lhs (G con))) = flat_map (run a (kids a 0 cs)) (full con a).
Proof.
  unfold eval. rewrite <- (plan_whole M (G con) (L con) scala (O a)). 
  assert (H : forall l, (forall ph, In ph l -> 1 <= ph <= M (r_lhs (G con))) -> flat_map (visit (Tree con cs) a) l = flat_map (fun ph => flat_map (run a (kids a 0 cs)) (plan (G con) scala (O a) ph [] (wpath con a))) l).
  { induction l as [|ph l IH]; intros H; cbn [flat_map]; [reflexivity|]. rewrite (visit_plan con cs a ph) by (apply H; now left). f_equal. apply IH. intros ph' Hp. apply H. now right. }
  apply H. intros ph. apply phases_in.
Qed.
Lemma run_within a cs it e : In e (run a (kids a 0 cs) it) -> match it with IVisit c _ => within (c :: a) (node_of e) = true | ISet i x => e = Set_ a i x end.
Proof.
  destruct it as [c q|i x]; cbn [run].
  - rewrite kids_nth. destruct (nth_error cs c) as [t|]; cbn [option_map]; [intros H; apply (visit_within _ _ _ _ H)|intros [<-|[]]; apply within_refl].
  - intros [<-|[]]; reflexivity.
Qed.
Lemma child_events con cs a c tc X : nth_error cs c = Some tc -> nth_error (r_children (G con)) c = Some X ->
  filter (fun e => within (c :: a) (node_of e)) (eval (Tree con cs) a (M (r_lhs (G con)))) = eval tc (c :: a) (M X).
Proof.
  intros Ec EX. rewrite eval_plan, filter_flat_map. unfold eval. rewrite <- (child_visits M (G con) (L con) scala (O a) c X EX), flat_map_flat_map.
  induction (full con a) as [|it l IH]; cbn [flat_map]; [reflexivity|]. rewrite IH. f_equal.
  destruct it as [c' q|i x]; cbn [visits_of].
  - destruct (Nat.eqb_spec c' c) as [Q|Q].
    + subst c'. cbn [flat_map]. rewrite app_nil_r. rewrite filter_all.
      * cbn [run]. rewrite kids_nth, Ec. reflexivity.
      * intros e He. apply (run_within _ _ _ _ He).
    + cbn [flat_map]. apply filter_no. intros e He. pose proof (run_within _ _ _ _ He) as Hw. cbn beta iota in Hw.
      destruct (within (c :: a) (node_of e)) eqn:E; [|reflexivity]. now destruct (Q (within_other _ _ _ _ Hw E)).
  - cbn [flat_map]. apply filter_no. intros e He. pose proof (run_within _ _ _ _ He) as Hw. cbn beta iota in Hw. subst e. cbn [node_of]. apply within_self.
Qed.
Lemma no_child_events con cs a c : length cs = length (r_children (G con)) -> nth_error cs c = None ->
  filter (fun e => within (c :: a) (node_of e)) (eval (Tree con cs) a (M (r_lhs (G con)))) = [].
Proof.
  intros Lc Ec. rewrite eval_plan. apply filter_no. intros e He. apply in_flat_map in He. destruct He as (it & Hit & He). pose proof (run_within _ _ _ _ He) as Hw.
  destruct it as [c' q|i x].
  - destruct (visit_child M (G con) (L con) scala (O a) _ _ _ _ Hit) as (X & EX).
    destruct (within (c :: a) (node_of e)) eqn:E; [|reflexivity]. pose proof (within_other _ _ _ _ Hw E) as Q. subst c'. exfalso. apply nth_error_None in Ec.
    assert (c < length (r_children (G con)))%nat by (apply nth_error_Some; congruence). lia.
  - subst e. apply within_self.
Qed.
Lemma typed_inv X con cs : typed G X (Tree con cs) -> X = r_lhs (G con) /\ Forall2 (typed G) (r_children (G con)) cs.
Proof. intros H. inversion H; subst. auto. Qed.
Lemma subtree_typed X t b : typed G X t -> forall con cs, subtree t b = Some (Tree con cs) -> typed G (r_lhs (G con)) (Tree con cs).
Proof.
  intros T. induction b as [|c b IH]; cbn [subtree]; intros con cs H.
  - injection H as ->. destruct (typed_inv _ _ _ T) as [<- _]. exact T.
  - destruct (subtree t b) as [[con' cs']|]; [|discriminate]. destruct (typed_inv _ _ _ (IH con' cs' eq_refl)) as [_ F2].
    assert (Ex : forall Xs cs', Forall2 (typed G) Xs cs' -> forall c tc, nth_error cs' c = Some tc -> exists X, nth_error Xs c = Some X /\ typed G X tc).
    { clear. induction 1 as [|x y l l' H H' IH]; intros [|c] tc E; cbn [nth_error] in *; try discriminate; [injection E as <-; eauto|now apply IH]. }
    destruct (Ex _ _ F2 c _ H) as (X' & _ & T'). destruct (typed_inv _ _ _ T') as [Q _]. now rewrite Q in T'.
Qed.
Lemma child_phylum X t a c con cs con' cs' : typed G X t -> subtree t a = Some (Tree con cs) -> subtree t (c :: a) = Some (Tree con' cs') -> nth_error cs c = Some (Tree con' cs') /\ nth_error (r_children (G con)) c = Some (r_lhs (G con')).
Proof.
  intros T Sa Sc. cbn [subtree] in Sc. rewrite Sa in Sc. split; [exact Sc|].
  destruct (typed_inv _ _ _ (subtree_typed X t a T con cs Sa)) as [_ F2].
  assert (Ex : forall Xs cs', Forall2 (typed G) Xs cs' -> forall c tc, nth_error cs' c = Some tc -> exists X, nth_error Xs c = Some X /\ typed G X tc).
  { clear. induction 1 as [|x y l l' H H' IH]; intros [|c] tc E; cbn [nth_error] in *; try discriminate; [injection E as <-; eauto|now apply IH]. }
  destruct (Ex _ _ F2 c _ Sc) as (X' & EX & T'). destruct (typed_inv _ _ _ T') as [Q _]. now rewrite <- Q.
Qed.
(** the events below a node are those of its visits *)
Lemma below X t b : typed G X t -> filter (fun e => within b (node_of e)) (eval t [] (M X)) = match subtree t b with Some (Tree con cs) => eval (Tree con cs) b (M (r_lhs (G con))) | None => [] end.
Proof.
  intros T. induction b as [|c b IH].
  - cbn [subtree]. rewrite filter_all; [|intros e _; apply within_spec; exists (node_of e); now rewrite app_nil_r]. destruct t as [con cs]. now destruct (typed_inv _ _ _ T) as [-> _].
  - rewrite <- (filter_filter _ (fun e => within b (node_of e))) by (intros e; apply within_child). rewrite IH. clear IH.
    destruct (subtree t b) as [[con cs]|] eqn:Sb.
    + destruct (typed_inv _ _ _ (subtree_typed X t b T con cs Sb)) as [_ F2].
      destruct (subtree t (c :: b)) as [[con' cs']|] eqn:Sc.
      * destruct (child_phylum X t b c con cs con' cs' T Sb Sc) as [Ec EX]. apply (child_events con cs b c _ _ Ec EX).
      * cbn [subtree] in Sc. rewrite Sb in Sc. apply no_child_events; auto. symmetry. clear - F2. induction F2; cbn [length]; congruence.
    + cbn [subtree]. rewrite Sb. reflexivity.
Qed.
Lemma own_events con cs a : filter (fun e => addr_eqb (node_of e) a) (eval (Tree con cs) a (M (r_lhs (G con)))) = node_actions scala (G con) (O a) a.
Proof.
  rewrite eval_plan. unfold node_actions. generalize (@nil nat). induction (wpath con a) as [|i p IH]; intros pre; cbn [full_plan actions flat_map filter]; [reflexivity|].
  rewrite flat_map_app, filter_app, IH. f_equal. unfold step_items. rewrite flat_map_app, filter_app, set_of_action.
  rewrite filter_no; [cbn [app]; apply filter_all|].
  - intros e He. unfold action in He. destruct (nth_error (r_insts (G con)) i) as [g|]; [|destruct He]. destruct (g_test g); [destruct He|]. destruct (assigned_here scala (g_kind g)); [|destruct He]. destruct (in_effect (G con) (O a) pre i); [|destruct He]. destruct He as [<-|[]]. cbn [node_of]. destruct (addr_eqb_spec a a); congruence.
  - intros e He. apply in_flat_map in He. destruct He as ([c q|j x] & Hit & He).
    + pose proof (run_within _ _ _ _ He) as Hw. cbn beta iota in Hw. destruct (addr_eqb_spec (node_of e) a) as [Q|]; [|reflexivity]. rewrite Q, within_self in Hw. discriminate.
    + unfold visit_of in Hit. destruct (nth_error (r_insts (G con)) i) as [g|]; [|destruct Hit]. destruct (g_ch g) as [c'|]; [|destruct Hit]. destruct (_ <? _); [|destruct Hit]. destruct Hit as [Hit|[]]. discriminate.
Qed.

Theorem events_node X t b : typed G X t ->
  events_at b (eval t [] (M X)) = match subtree t b with Some (Tree con cs) => node_actions scala (G con) (O b) b | None => [] end.
Proof.
  intros T. unfold events_at. rewrite <- (filter_filter _ (fun e => within b (node_of e))).
  2:{ intros e He. destruct (addr_eqb_spec (node_of e) b) as [<-|]; [apply within_refl|discriminate]. }
  rewrite (below X t b T). destruct (subtree t b) as [[con cs]|]; [|reflexivity]. apply own_events.
Qed.

(** ** The order of events *)
Lemma path_unique con a l1 i l2 l1' l2' : wpath con a = l1 ++ i :: l2 -> wpath con a = l1' ++ i :: l2' -> l1 = l1' /\ l2 = l2'.
Proof.
  pose proof (gd_once _ _ _ (lg_order _ _ (L con) (O a))) as Nd. intros E E'. rewrite E in Nd, E'. clear E. revert l1' E'. induction l1 as [|x l1 IH]; intros [|x' l1'] E'; cbn [app] in *.
  - injection E' as ->. auto.
  - injection E' as <- E2. exfalso. inversion Nd as [|? ? H1 H2]; subst. apply H1. apply in_app_iff. right. now left.
  - injection E' as -> E2. exfalso. inversion Nd as [|? ? H1 H2]; subst. apply H1. apply in_app_iff. right. now left.
  - injection E' as <- E2. inversion Nd as [|? ? H1 H2]; subst. destruct (IH H2 _ E2) as [-> ->]. auto.
Qed.
Lemma set_where con a i e pre j : In (ISet i e) (step_items (G con) scala (O a) pre j) -> i = j.
Proof. intros H. apply (set_of_in (G con) scala (O a) pre j i e H). Qed.
Lemma set_in_own con cs a i e : In (Set_ a i e) (flat_map (run a (kids a 0 cs)) (full con a)) -> In (ISet i e) (full con a).
Proof.
  intros H. apply in_flat_map in H. destruct H as ([c q|j x] & Hit & He).
  - pose proof (run_within _ _ _ _ He) as Hw. cbn beta iota in Hw. cbn [node_of] in Hw. rewrite within_self in Hw. discriminate.
  - pose proof (run_within _ _ _ _ He) as Hw. cbn beta iota in Hw. injection Hw as -> ->. exact Hit.
Qed.
(** where an assignment is, and what comes before it *)
Lemma own_at con cs a j e l1 l2 : flat_map (run a (kids a 0 cs)) (full con a) = l1 ++ Set_ a j e :: l2 ->
  exists p1 p2, wpath con a = p1 ++ j :: p2 /\ incl (flat_map (run a (kids a 0 cs)) (full_plan (G con) scala (O a) [] p1)) l1.
Proof.
  intros E. destruct (flat_map_split _ _ _ _ _ E) as (P1 & it & P2 & s1 & s2 & EP & Er & ->).
  assert (Hin : In (Set_ a j e) (run a (kids a 0 cs) it)) by (rewrite Er; apply in_app_iff; right; now left).
  pose proof (run_within _ _ _ _ Hin) as Hw. destruct it as [c q|i x]; [cbn [node_of] in Hw; rewrite within_self in Hw; discriminate|]. injection Hw as <- <-.
  destruct (full_split (G con) scala (O a) _ _ _ _ _ EP) as (p1 & k & p2 & t1 & t2 & Ep & Es & ->).
  assert (Hk : In (ISet j e) (step_items (G con) scala (O a) ([] ++ p1) k)) by (rewrite Es; apply in_app_iff; right; now left).
  apply set_where in Hk. subst k. exists p1, p2. split; [exact Ep|]. intros y Hy. rewrite flat_map_app. apply in_app_iff. left. apply in_app_iff. now left.
Qed.
Lemma before_in con a i j p1 p2 : precedes i j (wpath con a) -> wpath con a = p1 ++ j :: p2 -> In i p1.
Proof.
  intros (l1 & l2 & l3 & E) Ep. assert (E' : wpath con a = (l1 ++ i :: l2) ++ j :: l3) by (rewrite <- app_assoc; exact E).
  destruct (path_unique con a _ _ _ _ _ E' Ep) as [<- _]. apply in_app_iff. right. now left.
Qed.
Lemma full_sub con a p1 p2 it : In it (full_plan (G con) scala (O a) [] p1) -> In it (full_plan (G con) scala (O a) [] (p1 ++ p2)).
Proof. intros H. rewrite full_app. apply in_app_iff. now left. Qed.
Lemma set_in_prefix con a i e p1 p2 : wpath con a = p1 ++ p2 -> In i p1 -> In (ISet i e) (full con a) -> In (ISet i e) (full_plan (G con) scala (O a) [] p1).
Proof.
  intros Ep Hi Hs. destruct (full_in (G con) scala (O a) _ _ _ Hs) as (q1 & k & q2 & Eq & Hk). apply set_where in Hk as Q. subst k.
  apply in_split in Hi. destruct Hi as (l1 & l2 & ->). rewrite <- app_assoc in Ep. cbn [app] in Ep.
  destruct (path_unique con a _ _ _ _ _ Ep Eq) as [<- _]. rewrite full_app. apply in_app_iff. right. cbn [full_plan]. apply in_app_iff. now left.
Qed.
Lemma order_own con cs a i j e e' : precedes i j (wpath con a) -> earlier (Set_ a i e) (Set_ a j e') (eval (Tree con cs) a (M (r_lhs (G con)))).
Proof.
  intros Pr l1 l2 E I. rewrite eval_plan in E, I. destruct (own_at _ _ _ _ _ _ _ E) as (p1 & p2 & Ep & Inc). apply Inc.
  apply set_in_own in I. apply in_flat_map. exists (ISet i e). split; [|now left].
  apply (set_in_prefix con a i e p1 (j :: p2) Ep); [|exact I]. apply (before_in con a i j p1 p2 Pr Ep).
Qed.
(** the phase in which an attribute of the left-hand side is assigned *)
Lemma set_phase con cs a q i e : 1 <= q <= M (r_lhs (G con)) -> In (Set_ a i e) (visit (Tree con cs) a q) ->
  exists p1 p2, wpath con a = p1 ++ i :: p2 /\ cur (G con) (p1 ++ [i]) = q.
Proof.
  intros Hq H. rewrite (visit_plan con cs a q Hq) in H. apply in_flat_map in H. destruct H as (it & Hit & He). pose proof (run_within _ _ _ _ He) as Hw.
  destruct it as [c q'|j x]; [cbn [node_of] in Hw; rewrite within_self in Hw; discriminate|]. injection Hw as <- <-.
  assert (Gen : forall p pre, In (ISet i e) (plan (G con) scala (O a) q pre p) -> exists p1 p2, p = p1 ++ i :: p2 /\ cur (G con) ((pre ++ p1) ++ [i]) = q).
  { induction p as [|k p IH]; intros pre; cbn [plan In]; [tauto|]. intros H. apply in_app_iff in H. destruct H as [H|H].
    - destruct (Z.eqb_spec (cur (G con) (pre ++ [k])) q) as [Q|Q]; [|destruct H]. apply set_where in H. subst k. exists [], p. rewrite app_nil_r. auto.
    - destruct (IH _ H) as (p1 & p2 & -> & Hc). exists (k :: p1), p2. split; [reflexivity|]. rewrite <- (app_assoc pre) in Hc. exact Hc. }
  destruct (Gen _ _ Hit) as (p1 & p2 & Ep & Hc). exists p1, p2. auto.
Qed.
Lemma in_eval t a m e : In e (eval t a m) -> exists q, 1 <= q <= m /\ In e (visit t a q).
Proof. intros H. apply in_flat_map in H. destruct H as (q & Hq & He). apply phases_in in Hq. eauto. Qed.
Lemma in_child_visit con cs a c con' cs' e : nth_error cs c = Some (Tree con' cs') -> within (c :: a) (node_of e) = true -> In e (flat_map (run a (kids a 0 cs)) (full con a)) ->
  exists q, In (IVisit c q) (full con a) /\ In e (visit (Tree con' cs') (c :: a) q).
Proof.
  intros Ec Hw H. apply in_flat_map in H. destruct H as (it & Hit & He). pose proof (run_within _ _ _ _ He) as Hw'. destruct it as [c' q|i x].
  - pose proof (within_other _ _ _ _ Hw' Hw) as Q. subst c'. exists q. split; [exact Hit|]. cbn [run] in He. rewrite kids_nth, Ec in He. exact He.
  - subst e. cbn [node_of] in Hw. rewrite within_self in Hw. discriminate.
Qed.
Lemma visit_range con a c q X : nth_error (r_children (G con)) c = Some X -> In (IVisit c q) (full con a) -> 1 <= q <= M X.
Proof.
  intros EX H. assert (In q (flat_map (visits_of c) (full con a))) by (apply in_flat_map; exists (IVisit c q); split; [exact H|cbn [visits_of]; rewrite Nat.eqb_refl; now left]).
  rewrite (child_visits M (G con) (L con) scala (O a) c X EX) in H0. now apply phases_in in H0.
Qed.
Lemma order_child con cs a c con' cs' i j i' g g' e e' : nth_error cs c = Some (Tree con' cs') -> nth_error (r_children (G con)) c = Some (r_lhs (G con')) ->
  nth_error (r_insts (G con)) i = Some g -> g_ch g = Some c -> nth_error (r_insts (G con')) i' = Some g' -> g_lhs g' = true -> g_ph g = g_ph g' -> 0 < g_ph g ->
  precedes i j (wpath con a) -> earlier (Set_ (c :: a) i' e) (Set_ a j e') (eval (Tree con cs) a (M (r_lhs (G con)))).
Proof.
  intros Ec EX Ei Ch Ei' Lh Eph Ps Pr l1 l2 E I. rewrite eval_plan in E, I. destruct (own_at _ _ _ _ _ _ _ E) as (p1 & p2 & Ep & Inc). apply Inc.
  destruct (in_child_visit con cs a c con' cs' (Set_ (c :: a) i' e) Ec (within_refl (c :: a)) I) as (q & Hq & Hv).
  pose proof (visit_range con a c q _ EX Hq) as Rq. destruct (set_phase con' cs' (c :: a) q i' e Rq Hv) as (q1 & q2 & Eq & Hc).
  assert (Qg : q = g_ph g).
  { destruct (step_lhs M (G con') (lg_wf _ _ (L con')) _ (lg_order _ _ (L con') (O (c :: a))) q1 i' q2 g' Eq Ei' Lh) as [S|S]; unfold cur in *; rewrite top_snoc, (lhs_ph_eq (G con') i' g' Ei' Lh) in Hc; lia. }
  apply in_flat_map. exists (IVisit c q). split; [|cbn [run]; rewrite kids_nth, Ec; exact Hv].
  pose proof (before_in con a i j p1 p2 Pr Ep) as Hi. pose proof (prefix_visits M (G con) (L con) scala (O a) c p1 (j :: p2) Ep) as Hp.
  assert (Hin : In q (phases (cp (G con) c p1))).
  { apply phases_in. pose proof (top_in (ch_ph (G con) c) p1 i Hi) as T. rewrite (ch_ph_eq (G con) c i g Ei Ch) in T. unfold cp. lia. }
  rewrite <- Hp in Hin. apply in_flat_map in Hin. destruct Hin as ([c' q'|] & Hit & Hin); cbn [visits_of] in Hin; [|destruct Hin]. destruct (Nat.eqb_spec c' c) as [Q|]; [|destruct Hin]. destruct Hin as [Hin|[]]. subst. exact Hit.
Qed.
Lemma order_parent con cs a c con' cs' i j i' g g' e e' : nth_error cs c = Some (Tree con' cs') -> nth_error (r_children (G con)) c = Some (r_lhs (G con')) ->
  nth_error (r_insts (G con)) i' = Some g -> g_ch g = Some c -> nth_error (r_insts (G con')) i = Some g' -> g_lhs g' = true -> g_ph g = g_ph g' -> g_ph g < 0 ->
  precedes i j (wpath con' (c :: a)) -> earlier (Set_ a i' e) (Set_ (c :: a) j e') (eval (Tree con cs) a (M (r_lhs (G con)))).
Proof.
  intros Ec EX Ei' Ch Ei Lh Eph Ng Pr l1 l2 E I. rewrite eval_plan in E, I. apply set_in_own in I.
  destruct (flat_map_split _ _ _ _ _ E) as (P1 & it & P2 & s1 & s2 & EP & Er & ->). apply in_app_iff. left.
  assert (Hin : In (Set_ (c :: a) j e') (run a (kids a 0 cs) it)) by (rewrite Er; apply in_app_iff; right; now left).
  pose proof (run_within _ _ _ _ Hin) as Hw. destruct it as [c' q|k x].
  2:{ injection Hw as Hw. exfalso. apply (f_equal (@length nat)) in Hw. cbn [length] in Hw. lia. }
  pose proof (within_other _ _ _ _ Hw (within_refl (c :: a))) as Q. subst c'.
  assert (Hq : In (IVisit c q) (full con a)) by (rewrite EP; apply in_app_iff; right; now left).
  pose proof (visit_range con a c q _ EX Hq) as Rq. cbn [run] in Hin. rewrite kids_nth, Ec in Hin. cbn [option_map] in Hin.
  destruct (set_phase con' cs' (c :: a) q j e' Rq Hin) as (q1 & q2 & Eq & Hc).
  assert (Qg : - g_ph g <= q).
  { pose proof (before_in con' (c :: a) i j q1 q2 Pr Eq) as Hi. pose proof (top_in (lhs_ph (G con')) q1 i Hi) as T. rewrite (lhs_ph_eq (G con') i g' Ei Lh) in T. unfold cur in Hc. rewrite top_snoc in Hc. lia. }
  destruct (full_split (G con) scala (O a) _ _ _ _ _ EP) as (p1 & k & p2 & t1 & t2 & Ep & Es & ->).
  assert (Hk : In (IVisit c q) (step_items (G con) scala (O a) ([] ++ p1) k)) by (rewrite Es; apply in_app_iff; right; now left).
  destruct (visit_of_in (G con) scala (O a) _ _ _ _ Hk) as (gk & Ek & Chk & Phk & _).
  assert (Hi : In i' p1).
  { destruct (full_in (G con) scala (O a) _ _ _ I) as (r1 & k' & r2 & Ep' & Hk'). apply set_where in Hk'. subst k'.
    assert (Hi : In i' (p1 ++ k :: p2)) by (rewrite <- Ep, Ep'; apply in_app_iff; right; now left).
    apply in_app_iff in Hi. destruct Hi as [Hi|[Hi|Hi]]; [exact Hi| |].
    - subst k. rewrite Ei' in Ek. injection Ek as <-. lia.
    - exfalso. destruct (order_at M (G con) _ (lg_order _ _ (L con) (O a)) p1 k p2 gk g i' (Child c) Ep Ek Ei' Chk Ch) as [_ Ho]. specialize (Ho Hi).
      unfold rank in Ho. destruct (Z.ltb_spec (g_ph gk) 0), (Z.ltb_spec (g_ph g) 0); lia. }
  rewrite flat_map_app. apply in_app_iff. left. apply in_flat_map. exists (ISet i' e). split; [|now left].
  apply (set_in_prefix con a i' e p1 (k :: p2) Ep Hi I).
Qed.

Theorem order_tree ph X t a i b i' con cs j e e' : (forall con, scheduled_by ph (G con)) -> typed G X t -> gives G t ph a i b i' ->
  subtree t a = Some (Tree con cs) -> precedes i j (wpath con a) -> earlier (Set_ b i' e) (Set_ a j e') (eval t [] (M X)).
Proof.
  intros Sc T Gv Sa Pr. inversion Gv as [a0 i0|a0 c i0 i0' con0 cs0 con' cs' g g' S1 S2 E1 E2 C1 L2 At Ps|a0 c i0 i0' con0 cs0 con' cs' g g' S1 S2 E1 E2 C1 L2 At Ng]; subst.
  - apply (earlier_filter (fun e => within b (node_of e))); try (cbn [node_of]; apply within_refl). rewrite (below X t b T), Sa. now apply order_own.
  - rewrite S1 in Sa. injection Sa as -> ->. apply (earlier_filter (fun e => within a (node_of e))); [apply (within_child a c); cbn [node_of]; apply within_refl|cbn [node_of]; apply within_refl|].
    destruct (child_phylum X t a c con cs con' cs' T S1 S2) as [Ec EX]. rewrite (below X t a T), S1.
    pose proof (proj2 (Sc con) g c _ (nth_In _ _ _ E1) C1 EX) as P1. pose proof (proj1 (Sc con') g' (nth_In _ _ _ E2) L2) as P2.
    apply (order_child con cs a c con' cs' i j i' g g' e e'); auto; [congruence|lia].
  - rewrite S2 in Sa. injection Sa as -> ->. apply (earlier_filter (fun e => within b (node_of e))); [cbn [node_of]; apply within_refl|apply (within_child b c); cbn [node_of]; apply within_refl|].
    destruct (child_phylum X t b c con0 cs0 con cs T S1 S2) as [Ec EX]. rewrite (below X t b T), S1.
    pose proof (proj2 (Sc con0) g c _ (nth_In _ _ _ E1) C1 EX) as P1. pose proof (proj1 (Sc con) g' (nth_In _ _ _ E2) L2) as P2.
    apply (order_parent con0 cs0 b c con cs i j i' g g' e e'); auto; [congruence|lia].
Qed.
End GRAMMAR.
