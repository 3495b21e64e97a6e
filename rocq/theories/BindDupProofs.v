From Verif Require Import BindModel BindSpec BindProofs BindUseProofs.
From Coq Require Import List NArith PeanoNat Bool Lia.
Import ListNotations.

(** ** The groups of a script *)
Lemma introduces_in n g es h : introduces n g es h -> In (IAdd es (flat h)) (script n (flat g)).
Proof.
  induction 1; simpl in *; repeat (rewrite ?in_app_iff; simpl); tauto.
Qed.
Ltac rc IH gs ct := match goal with H : In _ _ |- _ => destruct (IH gs _ _ H) as (h & O & E); exists h; split; [apply ct; exact O|exact E] end.
Ltac lf ct := match goal with H : IAdd _ _ = IAdd _ _ |- _ => injection H as <- <-; eexists; split; [apply ct|reflexivity] end.
Lemma in_introduces n : forall g es c, In (IAdd es c) (script n (flat g)) -> exists h, introduces n g es h /\ c = flat h.
Proof.
  induction n as [| a IHa b IHb | u name ns | d k IHk | b IHb | a IHa b IHb | d f IHf rd rk IHrk rest IHr | d f IHf par IHp vf IHv rd rk IHrk ext cc IHc
    | d f IHf r IHr rest IHrest | d f IHf b IHb | d x IHx s IHs b IHb | e IHe x IHx s IHs | p IHp];
  intros g es c; simpl; repeat (rewrite ?in_app_iff; simpl); intros H; repeat (destruct H as [H|H]); try (discriminate H); try (destruct H; fail).
  - rc IHa g n_pair1.
  - rc IHb g n_pair2.
  - rc IHk g n_decl.
  - lf n_block.
  - rc IHb (declares b :: g) n_block'.
  - lf n_match.
  - rc IHa (declares a :: g) n_match1.
  - rc IHb (declares a :: g) n_match2.
  - lf n_class.
  - rc IHf (declares f :: g) n_class0.
  - lf n_class_result.
  - rc IHf ([(rd, @nil nat)] :: declares f :: g) n_class1.
  - rc IHrk ([(rd, @nil nat)] :: declares f :: g) n_class2.
  - rc IHr ([(rd, @nil nat)] :: declares f :: g) n_class3.
  - lf n_module.
  - rc IHf (declares f :: g) n_module1.
  - rc IHp (declares f :: g) n_module2.
  - lf n_module_values.
  - rc IHv (declares vf :: declares f :: g) n_module3.
  - lf n_module_result.
  - rc IHrk ([(rd, @nil nat)] :: declares vf :: declares f :: g) n_module4.
  - lf n_module_ext.
  - rc IHc (extends ext :: [(rd, @nil nat)] :: declares vf :: declares f :: g) n_module5.
  - lf n_fun.
  - rc IHf (declares f :: g) n_fun0.
  - lf n_fun_returns.
  - rc IHr (declares r :: declares f :: g) n_fun2.
  - rc IHf (declares r :: declares f :: g) n_fun1.
  - rc IHr (declares r :: declares f :: g) n_fun2.
  - rc IHrest (declares r :: declares f :: g) n_fun3.
  - lf n_poly.
  - rc IHf (declares f :: g) n_poly1.
  - rc IHf (declares f :: g) n_poly1.
  - rc IHb (declares f :: g) n_poly2.
  - rc IHs g n_for1.
  - lf n_for.
  - rc IHx (declares x :: g) n_for2.
  - rc IHb (declares x :: g) n_for3.
  - rc IHs g n_ctrl1.
  - lf n_ctrl.
  - rc IHx (declares x :: g) n_ctrl2.
  - rc IHe (declares x :: g) n_ctrl3.
Qed.

(** ** Duplicates *)
Lemma tenv_nil e : tenv_eqb e [] = true <-> e = [].
Proof. destruct e as [|[x y] e]; simpl; split; congruence. Qed.
Lemma check1_in d name env old : forall er x,
  In x (check1 d name env old er) <-> In x er \/ exists pre i post, old = pre ++ i :: post /\
    Forall (fun j => tenv_eqb (i_env j) env = true) (pre ++ [i]) /\ x = Duplicate (d_id d) (d_id (i_decl i)) /\
    i_name i = name /\ N.land (i_ns i) (d_ns d) <> 0%N.
Proof.
  induction old as [|j old IH]; intros er x; simpl.
  - split; [auto|]. intros [H|(pre & i & post & E & _)]; [exact H|]. destruct pre; discriminate E.
  - destruct (tenv_eqb (i_env j) env) eqn:T.
    + rewrite IH. split.
      * intros [H|(pre & i & post & -> & F & R)].
        -- destruct (_ && _) eqn:M; [|left; exact H]. apply in_app_iff in H. destruct H as [H|[<-|[]]]; [left; exact H|]. right.
           apply andb_true_iff in M. destruct M as [M1 M2]. apply Nat.eqb_eq in M1. apply negb_true_iff, N.eqb_neq in M2.
           exists [], j, old. split; [reflexivity|]. split; [constructor; [exact T|constructor]|]. auto.
        -- right. exists (j :: pre), i, post. split; [reflexivity|]. split; [constructor; assumption|exact R].
      * intros [H|(pre & i & post & E & F & R)].
        -- left. destruct (_ && _); [apply in_or_app; left|]; exact H.
        -- destruct pre as [|k pre]; simpl in E; injection E as -> ->.
           ++ left. destruct R as (-> & R1 & R2). rewrite R1, Nat.eqb_refl. rewrite (proj2 (N.eqb_neq _ _) R2). simpl. apply in_or_app. right. left. reflexivity.
           ++ right. exists pre, i, post. split; [reflexivity|]. split; [inversion F; assumption|exact R].
    + split; [auto|]. intros [H|(pre & i & post & E & F & R)]; [exact H|]. exfalso.
      destruct pre as [|k pre]; simpl in E; injection E as -> ->; inversion F; congruence.
Qed.
Lemma run_mono L : forall r x, In x (fst r) -> In x (fst (run L r)).
Proof.
  induction L as [|[d env] L IH]; intros [er sc] x H; [exact H|]. simpl. apply IH. destruct (d_decl d); [|exact H].
  destruct (d_name d) as [y|]; [|exact H]. apply check1_in. left. exact H.
Qed.
Lemma run_sound L : forall er sc c x, ok sc c -> In x (fst (run L (er, sc))) -> In x er \/
  exists before e after e', map projL L = before ++ e :: after /\ In e' (rev before ++ c) /\ clash (fst e) (fst e') /\
    x = Duplicate (d_id (fst e)) (d_id (fst e')).
Proof.
  induction L as [|[d env] L IH]; intros er sc c x K H; [left; exact H|]. cbn [run] in H.
  pose proof (run_ok [(d, env)] er sc c K) as K1. cbn [run] in K1. destruct (add1 (d, env) (er, sc)) as [er1 sc1] eqn:A. cbn [snd map rev app] in K1.
  destruct (IH _ _ _ _ K1 H) as [G|(before & e & after & e' & P & I & R)].
  - simpl in A. destruct (d_decl d) eqn:D; [|injection A as <- <-; left; exact G]. destruct (d_name d) as [name|] eqn:N; [|injection A as <- <-; left; exact G].
    injection A as <- <-. apply check1_in in G. destruct G as [G|(pre & i & post & -> & F & -> & R1 & R2)]; [left; exact G|]. right.
    exists [], (d, map snd env), (map projL L), (proj i). split; [reflexivity|]. destruct K as [Ka Kb]. simpl. split.
    + assert (I : In (proj i) (filter named c)) by (rewrite <- Ka, map_app; apply in_or_app; right; left; reflexivity). apply filter_In in I. exact (proj1 I).
    + split; [|reflexivity]. apply Forall_app in Kb. destruct Kb as [_ Kb]. inversion Kb as [|? ? W _]; subst. destruct W as (W1 & W2 & W3).
      unfold clash. split; [exact D|]. split; [exact W1|]. split; [exists (i_name i); auto|]. rewrite <- W3. exact R2.
  - right. exists (projL (d, env) :: before), e, after, e'. split; [simpl; rewrite P; reflexivity|]. split; [|exact R].
    simpl. rewrite <- app_assoc. exact I.
Qed.
Lemma map_split {A B} (f : A -> B) l : forall a b, map f l = a ++ b -> exists x y, l = x ++ y /\ map f x = a /\ map f y = b.
Proof.
  induction l as [|z l IH]; intros a b E.
  - symmetry in E. apply app_eq_nil in E. destruct E as [-> ->]. exists [], []. auto.
  - destruct a as [|w a]; simpl in E.
    + exists [], (z :: l). auto.
    + injection E as E1 E2. destruct (IH _ _ E2) as (x & y & -> & X & Y). exists (z :: x), y. simpl. subst. auto.
Qed.
Lemma run_complete L er sc c (before : list entry) d (after near : list entry) d' (far : list entry) : ok sc c -> map projL L = before ++ (d, []) :: after ->
  rev before ++ c = near ++ (d', []) :: far -> (forall e, In e near -> d_decl (fst e) = true -> d_name (fst e) <> None -> snd e = []) ->
  clash d d' -> In (Duplicate (d_id d) (d_id d')) (fst (run L (er, sc))).
Proof.
  intros K P E N (C1 & C2 & (name & C3 & C4) & C5).
  destruct (map_split _ _ _ _ P) as (L1 & L2 & -> & P1 & P2). destruct L2 as [|[d0 env] L2]; [discriminate P2|].
  unfold projL in P2. simpl in P2. injection P2 as -> Pe P2. apply map_eq_nil in Pe. subst env.
  rewrite run_app. cbn [run]. apply run_mono. pose proof (run_ok L1 er sc c K) as K1. rewrite P1, E in K1. destruct (run L1 (er, sc)) as [er1 sc1].
  simpl. rewrite C1, C3. simpl. apply check1_in. right. destruct K1 as [Ka Kb]. simpl in Ka, Kb.
  rewrite filter_app in Ka. simpl in Ka. unfold named at 2 in Ka. simpl in Ka. rewrite C2, C4 in Ka. simpl in Ka.
  destruct (map_split _ _ _ _ Ka) as (pre & post & -> & X & Y). destruct post as [|i post]; [discriminate Y|]. simpl in Y. injection Y as Y1 Y3 Y2. apply map_eq_nil in Y3.
  apply Forall_app in Kb. destruct Kb as [_ Kb]. inversion Kb as [|? ? W _]; subst. destruct W as (W1 & W2 & W3).
  exists pre, i, post. split; [reflexivity|]. split.
  - apply Forall_app. split; [|constructor; [rewrite Y3; reflexivity|constructor]]. apply Forall_forall. intros j J. apply tenv_nil.
    assert (I : In (proj j) (filter named near)) by (rewrite <- X; apply in_map, J). apply filter_In in I. destruct I as [I M].
    unfold named in M. simpl in M. apply andb_true_iff in M. destruct M as [M1 M2].
    specialize (N (proj j) I M1). simpl in N. destruct (d_name (i_decl j)); [|discriminate M2].
    apply (map_eq_nil snd (i_env j)). apply N. discriminate.
  - split; [reflexivity|]. split; [congruence|]. rewrite W3. exact C5.
Qed.
Definition isdup (x : err) : bool := match x with Duplicate _ _ => true | NoBinding _ => false end.
Lemma visit_dup u name ns sc st a b : In (Duplicate a b) (s_errs (visit_use u name ns sc st)) <-> In (Duplicate a b) (s_errs st).
Proof.
  unfold visit_use. assert (E : s_errs (bind_Use_by_name u name ns sc st) = s_errs st).
  { induction sc as [|i sc IH]; simpl; [reflexivity|]. destruct (_ && _); [reflexivity|exact IH]. }
  destruct (s_use _ u); [rewrite E; reflexivity|]. simpl. rewrite E, in_app_iff. simpl. split; [intros [H|[H|[]]]; [exact H|discriminate H]|auto].
Qed.
Lemma exec_mono l st st' a b : exec l st st' -> In (Duplicate a b) (s_errs st) -> In (Duplicate a b) (s_errs st').
Proof.
  induction 1 as [|i l st st1 st2 S E IH]; [auto|]. intros H. apply IH. destruct S as [es c L sc st st1 sc1 P K [A1 A2]|u name ns sc c st K].
  - pose proof (run_mono L (s_errs st, sc) _ H) as R. rewrite A2 in R. exact R.
  - apply visit_dup, H.
Qed.
Lemma exec_sound l st st' a b : exec l st st' -> In (Duplicate a b) (s_errs st') -> In (Duplicate a b) (s_errs st) \/
  exists es c before e after e', In (IAdd es c) l /\ es = before ++ e :: after /\ In e' (rev before ++ c) /\ clash (fst e) (fst e') /\
    a = d_id (fst e) /\ b = d_id (fst e').
Proof.
  induction 1 as [|i l st st1 st2 S E IH]; [auto|]. intros H. destruct (IH H) as [G|(es & c & before & e & after & e' & I & R)].
  - destruct S as [es c L sc st st1 sc1 P K [A1 A2]|u name ns sc c st K].
    + pose proof (run_sound L (s_errs st) sc c (Duplicate a b) K) as R. rewrite A2 in R. destruct (R G) as [Q|(before & e & after & e' & P' & I & C & X)]; [left; exact Q|].
      right. injection X as -> ->. exists es, c, before, e, after, e'. split; [left; reflexivity|]. split; [congruence|]. auto.
    + left. apply visit_dup in G. exact G.
  - right. exists es, c, before, e, after, e'. split; [right; exact I|exact R].
Qed.
Lemma exec_complete l st st' es c (before : list entry) d (after near : list entry) d' (far : list entry) : exec l st st' -> In (IAdd es c) l ->
  es = before ++ (d, []) :: after -> rev before ++ c = near ++ (d', []) :: far ->
  (forall e, In e near -> d_decl (fst e) = true -> d_name (fst e) <> None -> snd e = []) -> clash d d' ->
  In (Duplicate (d_id d) (d_id d')) (s_errs st').
Proof.
  intros X I Ees Ec N C. induction X as [|i l st st1 st2 S E IH]; [destruct I|]. destruct I as [->|I]; [|exact (IH I)].
  apply (exec_mono _ _ _ _ _ E). inversion S as [? ? L sc ? ? sc1 P K [A1 A2]|]; subst.
  pose proof (run_complete L (s_errs st) sc c before d after near d' far K P Ec N C) as R. rewrite A2 in R. exact R.
Qed.
Lemma introduced_in basic p es around : introduced basic p es around -> In (IAdd es (flat around)) (program_script basic p).
Proof.
  unfold program_script. intros [b E | | es' ar H].
  - rewrite E. left. reflexivity.
  - apply in_or_app. right. left. reflexivity.
  - apply in_or_app. right. right. exact (introduces_in _ _ _ _ H).
Qed.
Lemma in_introduced basic p es c : In (IAdd es c) (program_script basic p) -> exists around, introduced basic p es around /\ c = flat around.
Proof.
  unfold program_script. intros H. apply in_app_iff in H. destruct H as [H|[H|H]].
  - destruct basic as [b|]; [|destruct H]. destruct H as [H|[]]. injection H as <- <-. exists []. split; [exact (in_basic _ _ b eq_refl)|reflexivity].
  - injection H as <- <-. exists (outside basic). split; [apply in_units|reflexivity].
  - destruct (in_introduces p _ _ _ H) as (h & O & E). exists h. split; [exact (in_program _ _ _ _ O)|exact E].
Qed.
