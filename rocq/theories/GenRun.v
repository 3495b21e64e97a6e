(** * GenRun: all visits together; loops. *)
From Verif Require Import Base CondModel OagModel PropsCond ChunkModel SchedSpec GenModel GenSpec GenProofs GenTrace.
Open Scope nat_scope.

(** ** The visits one after the other *)
Section Visits.
Variables (G : gen) (r : rule) (o : outcome).
Hypothesis (HD : describes G r).
Lemma no_verdict i s : instance r i s -> si_if s = None -> verdict G o i = false.
Proof. intros Hi Hk. destruct (described G r HD i s Hi) as (x & Ex & Ec & Et). unfold verdict. now rewrite Ex, Et, Hk. Qed.
Lemma trail_past phase c p t : good r c p t -> phase < p -> forall tab, trail G phase true o t tab = [].
Proof.
  assert (Hh : forall p, phase < p -> here phase true p = false) by (intros q Hq; unfold here; rewrite (proj2 (Nat.eqb_neq q phase)) by lia; reflexivity).
  induction 1 as [c0 p Hp|c0 p a pr i s ck b0 t1 t Hp Hi Hk Himp Hg IH|c0 p a pr i s k ck b0 t1 t Hp Hi Hk Himp Hbit Hg1 IH1 Hg2 IH2|c0 p a pr q ch ck b0 t1 t Hp Hch Hg IH|c0 p a pr q ck b0 t1 t Hp Hg IH]; intros Hlt tab; cbn [trail].
  - reflexivity.
  - destruct (si_group s) as [gp gc]. rewrite Hh by auto. destruct (described G r HD i s Hi) as (x & Ex & Ec & Et). rewrite Ex. rewrite Hk in Et. unfold test_index in Et. rewrite (no_verdict i s Hi Hk). destruct (gi_kind x); try discriminate; cbn [andb app]; auto.
  - destruct (si_group s) as [gp gc]. destruct (described G r HD i s Hi) as (x & Ex & Ec & Et). rewrite Ex. rewrite Hk in Et. unfold test_index in Et. destruct (gi_kind x); try discriminate; destruct (verdict G o i); auto.
  - rewrite Hh by auto. destruct (Z.eqb ch (-1)); cbn [app]; auto.
  - rewrite Hh by auto. rewrite Z.eqb_refl. apply IH. lia.
Qed.
Lemma performed_test i s k x tab L : instance r i s -> si_if s = Some k -> nth_error (g_insts G) i = Some x -> test_index x = Some k -> performed G r o tab (Compute i :: L) = performed G r o (branch G o x tab) L.
Proof. intros Hi Hk Ex Et. cbn [performed]. rewrite Ex. unfold test_index in Et. destruct (gi_kind x); try discriminate; reflexivity. Qed.
Lemma flat_map_eq {X Y} (f g : X -> list Y) l : (forall x, In x l -> f x = g x) -> flat_map f l = flat_map g l.
Proof. induction l as [|x l IH]; intros H; cbn; [reflexivity|]. rewrite H by (left; auto). rewrite IH; auto. intros y Hy. apply H. now right. Qed.
Theorem all_visits c q t : good r c q t -> forall tab, flat_map (fun p => trail G p true o t tab) (seq q (S (last_phase r) - q)) = performed G r o tab (run r o t).
Proof.
  assert (Hse : forall p, p <= last_phase r -> seq p (S (last_phase r) - p) = p :: seq (S p) (last_phase r - p)) by (intros p Hp; replace (S (last_phase r) - p) with (S (last_phase r - p)) by lia; reflexivity).
  assert (Hh : forall p, here p true p = true) by (intros p; unfold here; now rewrite Nat.eqb_refl).
  assert (Hn : forall p p', In p' (seq (S p) (last_phase r - p)) -> here p' true p = false) by (intros p p' Hi; apply in_seq in Hi; unfold here; rewrite (proj2 (Nat.eqb_neq p p')) by lia; reflexivity).
  assert (HEAD : forall p (f g : nat -> list action) h, p <= last_phase r -> f p = h ++ g p -> (forall p', In p' (seq (S p) (last_phase r - p)) -> f p' = g p') -> flat_map f (seq p (S (last_phase r) - p)) = h ++ flat_map g (seq p (S (last_phase r) - p))).
  { intros p f g h Hp H1 H2. rewrite Hse by auto. cbn [flat_map]. rewrite H1, <- app_assoc. do 2 f_equal. now apply flat_map_eq. }
  induction 1 as [c0 p Hp|c0 p a pr i s ck b0 t1 t Hp Hi Hk Himp Hg IH|c0 p a pr i s k ck b0 t1 t Hp Hi Hk Himp Hbit Hg1 IH1 Hg2 IH2|c0 p a pr q ch ck b0 t1 t Hp Hch Hg IH|c0 p a pr q ck b0 t1 t Hp Hg IH]; intros tab.
  - replace (S (last_phase r) - p) with 0 by lia. reflexivity.
  - destruct (described G r HD i s Hi) as (x & Ex & Ec & Et). rewrite Hk in Et. unfold test_index in Et. cbn [run event_of]. replace (test_of r i) with (@None nat) by (unfold test_of; now rewrite Hi). cbn [performed]. rewrite Ex. pose proof (no_verdict i s Hi Hk) as Hv. unfold channel. rewrite Hi. destruct (si_group s) as [gp gc]. cbn [snd].
    destruct (gi_kind x) as [| |s0 body|pl] eqn:Ek; try discriminate.
    + rewrite <- IH. apply flat_map_eq. intros p' _. cbn [trail]. rewrite Ex, Ek, Hv. unfold branch. rewrite Ek. reflexivity.
    + rewrite <- IH. apply HEAD; [auto| |]; cbn [trail]; rewrite Ex, Ek; [rewrite Hh; destruct (gi_inward x); reflexivity|]. intros p' Hp'. rewrite (Hn p p' Hp'). reflexivity.
  - destruct (described G r HD i s Hi) as (x & Ex & Ec & Et). assert (Ev : verdict G o i = o (N.of_nat k)) by (unfold verdict; now rewrite Ex, Et, Hk). cbn [run event_of]. replace (test_of r i) with (Some k) by (unfold test_of; now rewrite Hi). rewrite Hk in Et. rewrite (performed_test i s k x) by auto. 
    transitivity (flat_map (fun p => if o (N.of_nat k) then trail G p true o t1 (branch G o x tab) else trail G p true o t (branch G o x tab)) (seq p (S (last_phase r) - p))).
    + apply flat_map_eq. intros p' _. cbn [trail]. destruct (si_group s) as [gp gc]. rewrite Ex, Ev. unfold test_index in Et. destruct (gi_kind x); try discriminate; reflexivity.
    + destruct (o (N.of_nat k)); auto.
  - cbn [run event_of fst snd]. rewrite (proj2 (Z.eqb_neq ch (-1))) by lia. cbn [performed]. rewrite <- IH. change (ACall (Z.to_nat ch) (Z.to_nat q) :: flat_map (fun p0 => trail G p0 true o t tab) (seq p (S (last_phase r) - p))) with ([ACall (Z.to_nat ch) (Z.to_nat q)] ++ flat_map (fun p0 => trail G p0 true o t tab) (seq p (S (last_phase r) - p))).
    apply HEAD; [auto| |]; cbn [trail]; rewrite (proj2 (Z.eqb_neq ch (-1))) by lia; [now rewrite Hh|]. intros p' Hp'. rewrite (Hn p p' Hp'). reflexivity.
  - cbn [run event_of fst snd]. rewrite Z.eqb_refl. cbn [performed]. rewrite <- IH. replace (S (last_phase r) - S p) with (last_phase r - p) by lia. rewrite Hse by auto. cbn [flat_map]. f_equal.
    + cbn [trail]. rewrite Z.eqb_refl, Hh. rewrite (trail_past p c0 (S p) t Hg) by lia. destruct (Z.eqb q (Z.of_nat p)); now rewrite app_nil_r.
    + apply flat_map_eq. intros p' Hp'. cbn [trail]. rewrite Z.eqb_refl, (Hn p p' Hp'). reflexivity.
Qed.
(** ... and when nothing is skipped *)
Theorem one_procedure c q t : good r c q t -> (forall l1 l2, run r o t = l1 ++ EndVisit (last_phase r) :: l2 -> l2 = []) -> forall tab, trail G (last_phase r) false o t tab = performed G r o tab (run r o t).
Proof.
  assert (SUF : forall e L, (forall l1 l2, e :: L = l1 ++ EndVisit (last_phase r) :: l2 -> l2 = []) -> forall l1 l2, L = l1 ++ EndVisit (last_phase r) :: l2 -> l2 = []) by (intros e L H l1 l2 ->; apply (H (e :: l1)); reflexivity).
  induction 1 as [c0 p Hp|c0 p a pr i s ck b0 t1 t Hp Hi Hk Himp Hg IH|c0 p a pr i s k ck b0 t1 t Hp Hi Hk Himp Hbit Hg1 IH1 Hg2 IH2|c0 p a pr q ch ck b0 t1 t Hp Hch Hg IH|c0 p a pr q ck b0 t1 t Hp Hg IH]; intros HE tab; cbn [run] in HE; [reflexivity| | | |]; pose proof (SUF _ _ HE) as HE2.
  - destruct (described G r HD i s Hi) as (x & Ex & Ec & Et). rewrite Hk in Et. unfold test_index in Et. cbn [run event_of]. replace (test_of r i) with (@None nat) in * by (unfold test_of; now rewrite Hi). cbn [performed]. rewrite Ex. pose proof (no_verdict i s Hi Hk) as Hv. unfold channel. rewrite Hi. destruct (si_group s) as [gp gc]. cbn [snd].
    destruct (gi_kind x) as [| |s0 body|pl] eqn:Ek; try discriminate; cbn [trail]; rewrite Ex, Ek.
    + rewrite Hv. unfold branch. rewrite Ek. now apply IH.
    + rewrite (IH HE2). cbn [here andb]. destruct (gi_inward x); reflexivity.
  - destruct (described G r HD i s Hi) as (x & Ex & Ec & Et). assert (Ev : verdict G o i = o (N.of_nat k)) by (unfold verdict; now rewrite Ex, Et, Hk). cbn [run event_of]. replace (test_of r i) with (Some k) in * by (unfold test_of; now rewrite Hi). rewrite Hk in Et. rewrite (performed_test i s k x) by auto.
    cbn [trail]. destruct (si_group s) as [gp gc]. rewrite Ex, Ev. unfold test_index in Et. destruct (o (N.of_nat k)); destruct (gi_kind x); try discriminate; auto.
  - cbn [run event_of fst snd trail]. rewrite (proj2 (Z.eqb_neq ch (-1))) by lia. cbn [performed]. rewrite <- (IH HE2). reflexivity.
  - cbn [run event_of fst snd trail] in *. rewrite Z.eqb_refl in *. cbn [performed here andb negb]. f_equal. destruct (Z.eqb_spec q (Z.of_nat (last_phase r))) as [->|]; [|now apply IH]. rewrite (HE [] (run r o t)); [reflexivity|]. now rewrite Nat2Z.id.
Qed.
End Visits.

(** ** Loops *)
Lemma action_eqb_spec a b : action_eqb a b = true <-> a = b.
Proof. destruct a, b; cbn; split; try discriminate; try (intros [=]; fail); rewrite ?andb_true_iff, ?Nat.eqb_eq, ?Z.eqb_eq; try (intros [-> ->]; reflexivity); try (intros [= -> ->]; auto); try (intros ->; reflexivity); intros [= ->]; auto. Qed.
Lemma action_eqb_sym a b : action_eqb a b = action_eqb b a.
Proof. destruct (action_eqb a b) eqn:E, (action_eqb b a) eqn:E2; auto; [apply action_eqb_spec in E|apply action_eqb_spec in E2]; subst; [rewrite (proj2 (action_eqb_spec b b) eq_refl) in E2|rewrite (proj2 (action_eqb_spec a a) eq_refl) in E]; discriminate. Qed.
Definition among (A : list action) (b : action) : bool := existsb (action_eqb b) A.
Lemma among_in A b : among A b = true <-> In b A.
Proof. unfold among. rewrite existsb_exists. split; [intros (x & H & E); apply action_eqb_spec in E; now subst|intros H; exists b; split; auto; now apply action_eqb_spec]. Qed.
Lemma firsts_in A b : In b (firsts A) <-> In b A.
Proof.
  induction A as [|a A IH]; cbn; [tauto|]. rewrite filter_In, IH. split; [tauto|]. intros [->|H]; [auto|]. destruct (action_eqb a b) eqn:E; [left; now apply action_eqb_spec|right; auto].
Qed.
Lemma filter_filter {X} (f g : X -> bool) l : filter f (filter g l) = filter (fun x => g x && f x) l.
Proof. induction l as [|x l IH]; cbn; [reflexivity|]. destruct (g x); cbn; [destruct (f x); now rewrite IH|exact IH]. Qed.
Lemma filter_same {X} (f g : X -> bool) l : (forall x, In x l -> f x = g x) -> filter f l = filter g l.
Proof. apply filter_ext_in. Qed.
Lemma firsts_app A B : firsts (A ++ B) = firsts A ++ filter (fun b => negb (among A b)) (firsts B).
Proof.
  induction A as [|a A IH]; cbn; [symmetry; induction (firsts B) as [|x l IHl]; cbn; [reflexivity|now rewrite IHl]|]. rewrite IH, filter_app, filter_filter. do 2 f_equal. apply filter_same. intros x _. rewrite negb_orb, (action_eqb_sym x a). apply andb_comm.
Qed.
Definition eqv (A B : list action) : Prop := firsts A = firsts B.
Lemma eqv_among A A' b : eqv A A' -> among A b = among A' b.
Proof. intros H. destruct (among A b) eqn:E, (among A' b) eqn:E2; auto; [apply among_in in E; apply firsts_in in E; rewrite H in E; apply (proj1 (firsts_in _ _)) in E; apply among_in in E; congruence|apply among_in in E2; apply firsts_in in E2; rewrite <- H in E2; apply (proj1 (firsts_in _ _)) in E2; apply among_in in E2; congruence]. Qed.
Lemma eqv_app A A' B B' : eqv A A' -> eqv B B' -> eqv (A ++ B) (A' ++ B').
Proof. intros H1 H2. unfold eqv. rewrite !firsts_app, H1, H2. f_equal. apply filter_same. intros x _. now rewrite (eqv_among A A' x H1). Qed.
Lemma eqv_in A B : eqv A B -> incl A B.
Proof. intros H x Hx. apply firsts_in. rewrite <- H. now apply firsts_in. Qed.
Lemma eqv_absorb A B : incl B A -> eqv (A ++ B) A.
Proof.
  intros H. unfold eqv. rewrite firsts_app. assert (E : filter (fun b => negb (among A b)) (firsts B) = []); [|now rewrite E, app_nil_r]. assert (K : forall l, incl l A -> filter (fun b => negb (among A b)) l = []).
  { induction l as [|x l IH]; intros Hl; cbn; [reflexivity|]. rewrite (proj2 (among_in A x)) by (apply Hl; left; auto). cbn. apply IH. intros y Hy. apply Hl. now right. }
  apply K. intros x Hx. apply H. now apply firsts_in.
Qed.
Scheme exec_mut := Induction for exec Sort Prop with execs_mut := Induction for execs Sort Prop.
Section Loops.
Variables (yes : nat -> bool) (times : nat -> nat).
Theorem exec_once : forall l L, exec yes times l L -> eqv L (once yes times l).
Proof.
  apply (exec_mut yes times (fun l L _ => eqv L (once yes times l)) (fun a n L _ => eqv L (concat (repeat (once yes times a) n)))); intros; try reflexivity; cbn [once flat_map once1]; try assumption.
  - apply (eqv_app [ASet i e] [ASet i e]); [reflexivity|assumption].
  - apply (eqv_app [ACall c q] [ACall c q]); [reflexivity|assumption].
  - apply (eqv_app [ARoots q] [ARoots q]); [reflexivity|assumption].
  - apply eqv_app; [|assumption]. destruct (yes i); assumption.
  - apply eqv_app; [|assumption]. destruct (yes i); assumption.
  - apply eqv_app; assumption.
  - apply eqv_app; [|assumption]. unfold eqv in *. rewrite H. cbn [repeat concat]. apply eqv_absorb. intros x Hx. apply in_concat in Hx. destruct Hx as (l0 & H1 & H2). apply repeat_spec in H1. now subst.
  - cbn [repeat concat]. apply eqv_app; assumption.
Qed.
Lemma exec_app a b L1 L2 : exec yes times a L1 -> exec yes times b L2 -> exec yes times (a ++ b) (L1 ++ L2).
Proof. induction 1; intros Hb; cbn [app]; [exact Hb| | | | | | | | |]; rewrite <- ?app_assoc; econstructor; eauto. Qed.
Section StmtInd.
Variable P : stmt -> Prop.
Hypotheses (P1 : P SNote) (P2 : forall h, P (SLet h)) (P3 : forall i e, P (SSet i e)) (P4 : forall c q, P (SCall c q)) (P5 : forall q, P (SRoots q))
  (P6 : forall i a b, Forall P a -> Forall P b -> P (SIf i a b)) (P7 : forall i a b, Forall P a -> Forall P b -> P (SMatch i a b)) (P8 : forall s a, Forall P a -> P (SFor s a)) (P9 : forall id a, Forall P a -> P (SLoop id a)).
Fixpoint stmt_all (s : stmt) : P s :=
  let all := fix all (l : list stmt) : Forall P l := match l with [] => Forall_nil P | x :: l => Forall_cons x (stmt_all x) (all l) end in
  match s with
  | SNote => P1 | SLet h => P2 h | SSet i e => P3 i e | SCall c q => P4 c q | SRoots q => P5 q
  | SIf i a b => P6 i a b (all a) (all b) | SMatch i a b => P7 i a b (all a) (all b) | SFor s a => P8 s a (all a) | SLoop id a => P9 id a (all a)
  end.
End StmtInd.
(** no loop has to be repeated *)
Lemma runs_all l : Forall (fun s => exec yes times [s] (once1 yes times s)) l -> exec yes times l (once yes times l).
Proof. induction 1 as [|x l Hx Hl IH]; [constructor|]. exact (exec_app [x] l _ _ Hx IH). Qed.
Lemma runs_times a n : exec yes times a (once yes times a) -> execs yes times a n (concat (repeat (once yes times a) n)).
Proof. intros H. induction n as [|n IH]; cbn [repeat concat]; constructor; auto. Qed.
Lemma runs1 : forall s, exec yes times [s] (once1 yes times s).
Proof.
  apply stmt_all; intros; cbn [once1]; try (repeat constructor; fail).
  - rewrite <- (app_nil_r (if yes i then _ else _)). constructor; [destruct (yes i); apply runs_all; assumption|constructor].
  - rewrite <- (app_nil_r (if yes i then _ else _)). constructor; [destruct (yes i); apply runs_all; assumption|constructor].
  - rewrite <- (app_nil_r (concat _)). constructor; [apply runs_times, runs_all; assumption|constructor].
  - rewrite <- (app_nil_r (flat_map _ _)). apply (ex_loop yes times id a [] 0); [|constructor]. rewrite <- (app_nil_r (flat_map _ _)). constructor; [apply runs_all; assumption|constructor].
Qed.
Theorem once_exec l : exec yes times l (once yes times l).
Proof. apply runs_all. apply Forall_forall. intros s _. apply runs1. Qed.
End Loops.
