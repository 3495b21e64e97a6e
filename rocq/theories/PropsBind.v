(** * C67, C68: names are bound lexically; duplicate declarations. *)
From Verif Require Import BindModel BindSpec BindProofs BindUseProofs BindDupProofs.
From Coq Require Import List NArith PeanoNat Bool Lia.
Import ListNotations.

(** Something is declared at all (otherwise the binder does nothing). *)
Definition inhabited (basic : option node) (p : node) : Prop :=
  exists e, In e (concat (declares p :: outside basic)) /\ d_decl (fst e) = true /\ d_name (fst e) <> None.
Lemma inhabited_ok basic p : inhabited basic p -> filter named (flat (declares p :: outside basic)) <> [].
Proof.
  intros (e & I & D & N) F. assert (J : In e (flat (declares p :: outside basic))).
  { revert I. generalize (declares p :: outside basic). clear. induction l as [|g l IH]; [auto|]. rewrite flat_cons. simpl. rewrite !in_app_iff, <- in_rev. tauto. }
  assert (K : In e (filter named (flat (declares p :: outside basic)))).
  { apply filter_In. split; [exact J|]. unfold named. rewrite D. destruct (d_name (fst e)); [reflexivity|congruence]. }
  rewrite F in K. destruct K.
Qed.

(** Every use of a name denotes the last declaration that answers to it in the innermost
    scope around it that has one, seen through the polymorphic declarations around that
    declaration; it denotes nothing exactly when no scope has one. *)
Theorem C67_binding basic p : inhabited basic p -> NoDup (uses p) ->
  forall u name ns gs, occurs false p (declares p :: outside basic) (u, name, ns) gs ->
  (forall e, s_use (bind_Program basic p) u = Some e <-> resolves gs name ns e) /\
  (s_use (bind_Program basic p) u = None <-> unresolved gs name ns).
Proof.
  intros I ND u name ns gs O. pose proof (program_view basic p (inhabited_ok _ _ I)) as W. unfold view in W.
  assert (E : s_use (bind_Program basic p) u = lookup name ns (flat gs)).
  { apply (f_equal fst) in W. cbn [fst] in W. rewrite W. apply fold_last; [exact (occurs_last p _ _ _ ND O)|reflexivity]. }
  rewrite E. split; [intros e; apply lookup_resolves|apply lookup_unresolved].
Qed.
(** A use is reported exactly when nothing answers to it in what was in scope when it was
    first read. *)
Theorem C67_reported basic p : inhabited basic p -> NoDup (uses p) ->
  forall u name ns gs, occurs true p (declares p :: outside basic) (u, name, ns) gs ->
  (In (NoBinding u) (s_errs (bind_Program basic p)) <-> unresolved gs name ns).
Proof.
  intros I ND u name ns gs O. pose proof (program_view basic p (inhabited_ok _ _ I)) as W. unfold view in W.
  apply (f_equal snd) in W. cbn [snd] in W. rewrite <- nb_in, W, <- lookup_unresolved. apply fold_first; [exact (occurs_first p _ _ _ ND O)|reflexivity|intros []].
Qed.
(** Every use that is left without a declaration is reported, and only uses are. *)
Theorem C67_no_silent basic p : inhabited basic p -> NoDup (uses p) ->
  forall u, In u (uses p) -> s_use (bind_Program basic p) u = None -> In (NoBinding u) (s_errs (bind_Program basic p)).
Proof.
  intros I ND u IU N. pose proof (program_view basic p (inhabited_ok _ _ I)) as W. unfold view in W.
  destruct (occurs_total true p (declares p :: outside basic) u IU) as ([[x name] ns] & h & E & O). simpl in E. subst x.
  apply nb_in. pose proof (f_equal snd W) as W2. cbn [snd] in W2. rewrite W2. apply (fold_first u name ns (flat h)); [exact (occurs_first p _ _ _ ND O)|reflexivity|intros []|].
  destruct (lookup name ns (flat h)) as [e|] eqn:L; [exfalso|reflexivity].
  apply (f_equal fst) in W. cbn [fst] in W. rewrite W in N. destruct (occurs_first p _ _ _ ND O) as (v1 & v2 & EV & F).
  rewrite EV, fold_left_app in N. simpl in N.
  set (b := fold_left vstep v1 (s_use init, nb (s_errs init))) in N.
  assert (B : fst (vstep b (u, name, ns, flat h)) u = Some e) by (unfold vstep; simpl; rewrite L, Nat.eqb_refl; reflexivity).
  destruct (fold_bound u v2 _ _ B) as [[e' B'] _]. pose proof (eq_trans (eq_sym B') N) as X. discriminate X.
Qed.
Theorem C67_only_uses basic p : inhabited basic p ->
  forall u, In (NoBinding u) (s_errs (bind_Program basic p)) -> In u (uses p).
Proof.
  intros I u H. pose proof (program_view basic p (inhabited_ok _ _ I)) as W. unfold view in W. apply (f_equal snd) in W. cbn [snd] in W.
  apply nb_in in H. rewrite W in H. destruct (in_dec Nat.eq_dec u (uses p)) as [Y|N]; [exact Y|exfalso].
  apply (proj2 (fold_fresh u _ (V_fresh u p _ N) (view init))) in H. destruct H.
Qed.
(** Every use occurs somewhere, so the theorems above speak of all of them. *)
Theorem C67_all p basic u : In u (uses p) -> forall first, exists name ns gs, occurs first p (declares p :: outside basic) (u, name, ns) gs.
Proof.
  intros I b. destruct (occurs_total b p (declares p :: outside basic) u I) as ([[x name] ns] & h & E & O). simpl in E. subst x.
  exists name, ns, h. exact O.
Qed.

(** Every duplicate that is reported is one: the two declarations have a name and a
    namespace in common, and the older one was in scope. *)
Theorem C68_sound basic p a b : inhabited basic p -> In (Duplicate a b) (s_errs (bind_Program basic p)) ->
  exists es around before e after e', introduced basic p es around /\ es = before ++ e :: after /\
    In e' (visible before around) /\ clash (fst e) (fst e') /\ a = d_id (fst e) /\ b = d_id (fst e').
Proof.
  intros I H. destruct (exec_sound _ _ _ _ _ (program_exec basic p (inhabited_ok _ _ I)) H) as [[]|(es & c & before & e & after & e' & J & R)].
  destruct (in_introduced _ _ _ _ J) as (around & Q & ->). exists es, around, before, e, after, e'. split; [exact Q|exact R].
Qed.
(** A declaration that clashes with one in scope is reported, if neither it nor anything
    declared in between is seen through a polymorphic declaration or an extended class. *)
Theorem C68_complete basic p : inhabited basic p -> forall es around before d after near d' far,
  introduced basic p es around -> es = before ++ (d, []) :: after ->
  visible before around = near ++ (d', []) :: far ->
  (forall e, In e near -> d_decl (fst e) = true -> d_name (fst e) <> None -> snd e = []) ->
  clash d d' -> In (Duplicate (d_id d) (d_id d')) (s_errs (bind_Program basic p)).
Proof.
  intros I es around before d after near d' far J E Ev N C.
  exact (exec_complete _ _ _ es (flat around) before d after near d' far (program_exec basic p (inhabited_ok _ _ I)) (introduced_in _ _ _ _ J) E Ev N C).
Qed.
(** So in a program without polymorphic declarations and extensions in sight, a duplicate is
    reported exactly when a declaration clashes with one in scope. *)
Theorem C68_exact basic p a b : inhabited basic p ->
  (forall es around e, introduced basic p es around -> In e (visible es around) -> snd e = []) ->
  (In (Duplicate a b) (s_errs (bind_Program basic p)) <->
   exists es around before e after e', introduced basic p es around /\ es = before ++ e :: after /\
     In e' (visible before around) /\ clash (fst e) (fst e') /\ a = d_id (fst e) /\ b = d_id (fst e')).
Proof.
  intros I P. split; [apply C68_sound, I|]. intros (es & around & before & [d q] & after & [d' q'] & J & E & V' & C & -> & ->).
  assert (X : forall e, In e (visible before around) -> In e (visible es around)).
  { intros x. subst es. unfold visible. simpl. rewrite rev_app_distr. simpl. rewrite !in_app_iff. tauto. }
  assert (Q : q = []). { apply (P es around (d, q) J). subst es. unfold visible. simpl. rewrite rev_app_distr. simpl. rewrite !in_app_iff. simpl. auto 8. }
  assert (Q' : q' = []) by exact (P es around _ J (X _ V')). subst q q'. destruct (in_split _ _ V') as (near & far & S).
  refine (C68_complete basic p I es around before d after near d' far J E S _ C). intros e Ie _ _. apply (P es around e J), X. rewrite S. apply in_or_app. left. exact Ie.
Qed.

(** ** Witnesses *)
(** aps-bind.h:27-30 *)
Definition TYPE_ := 2%N. Definition VALUE_ := 8%N.
Definition dec id name ns := mkD id true (Some name) ns true.
Definition stmt id := mkD id false None 0 true.

(** A function whose formal hides a global of the same name, a nested block, a polymorphic
    declaration and an import:
      with: var g;     var x; [T] var y; function f(x : T) : r = { var z := x; z + y; w } *)
Definition imported := Decl (dec 1 10 VALUE_) Nil.
Definition prog : node :=
  Pair (Import imported)
  (Pair (Decl (dec 2 11 VALUE_) Nil)
  (Pair (Poly (mkD 3 true (Some 99) 0 true) (Decl (dec 4 20 TYPE_) Nil) (Block_ (Decl (dec 5 12 VALUE_) (Use_ 100 20 TYPE_))))
        (Fun_ (dec 6 13 VALUE_) (Decl (dec 7 11 VALUE_) Nil) (Decl (dec 8 14 VALUE_) Nil)
           (Block_ (Pair (Decl (dec 9 15 VALUE_) (Use_ 101 11 VALUE_))
                   (Pair (Use_ 102 12 VALUE_) (Pair (Use_ 103 10 VALUE_) (Use_ 104 77 VALUE_)))))))).
Example C67_example :
  inhabited None prog /\ NoDup (uses prog) /\
  s_use (bind_Program None prog) 100 = Some (dec 4 20 TYPE_, []) /\
  s_use (bind_Program None prog) 101 = Some (dec 7 11 VALUE_, []) /\
  s_use (bind_Program None prog) 102 = Some (dec 5 12 VALUE_, [3]) /\
  s_use (bind_Program None prog) 103 = Some (dec 1 10 VALUE_, []) /\
  s_use (bind_Program None prog) 104 = None /\
  s_errs (bind_Program None prog) = [NoBinding 104].
Proof.
  split; [exists (dec 1 10 VALUE_, []); split; [left; reflexivity|split; [reflexivity|discriminate]]|].
  split; [repeat constructor; simpl; intuition discriminate|]. vm_compute. auto 8.
Qed.
(** The type formal of a class names the result of the class: it is reported as unbound
    although it is bound in the end. *)
Definition fussy : node := Class_ (dec 1 30 1) (Decl (dec 2 20 TYPE_) (Use_ 100 21 TYPE_)) (dec 3 21 TYPE_) Nil Nil.
Theorem C67_refuted_spurious : exists p u e, inhabited None p /\ NoDup (uses p) /\ s_use (bind_Program None p) u = Some e /\ In (NoBinding u) (s_errs (bind_Program None p)).
Proof.
  exists fussy, 100, (dec 3 21 TYPE_, []). split; [exists (dec 1 30 1, []); split; [left; reflexivity|split; [reflexivity|discriminate]]|].
  split; [repeat constructor; simpl; tauto|]. vm_compute. auto.
Qed.
(** Two declarations of one name in one sequence, not reported: the later one is inside a
    polymorphic declaration. *)
Definition twice : node :=
  Pair (Decl (dec 1 11 VALUE_) Nil) (Poly (mkD 2 true (Some 99) 0 true) Nil (Block_ (Decl (dec 3 11 VALUE_) Nil))).
Theorem C68_refuted_missed : exists p before e mid e' after, inhabited None p /\
  declares p = before ++ e' :: mid ++ e :: after /\ clash (fst e) (fst e') /\ s_errs (bind_Program None p) = [].
Proof.
  exists twice, [], (dec 3 11 VALUE_, [2]), [(mkD 2 true (Some 99) 0 true, [])], (dec 1 11 VALUE_, []), [].
  split; [exists (dec 1 11 VALUE_, []); split; [left; reflexivity|split; [reflexivity|discriminate]]|].
  split; [reflexivity|]. split; [|reflexivity]. split; [reflexivity|]. split; [reflexivity|]. split; [exists 11; split; reflexivity|discriminate].
Qed.
(** A declaration reported as a duplicate of itself: the variable of a comprehension in the
    condition of a match (match ?.. if (e for y in s) ...). *)
Definition selfdup : node :=
  Pair (Decl (dec 1 11 VALUE_) Nil)
       (Decl (stmt 2) (Match_ (Ctrl (Use_ 100 12 VALUE_) (Decl (dec 3 12 VALUE_) Nil) (Use_ 101 11 VALUE_)) (Block_ Nil))).
Theorem C68_refuted_self : exists p d, inhabited None p /\ In (Duplicate d d) (s_errs (bind_Program None p)).
Proof.
  exists selfdup, 3. split; [exists (dec 1 11 VALUE_, []); split; [left; reflexivity|split; [reflexivity|discriminate]]|]. vm_compute. auto.
Qed.
(** The hypotheses of C68_exact hold of a program with a clash across scopes. *)
Definition hidden : node := Pair (Decl (dec 1 11 VALUE_) Nil) (Decl (dec 2 12 VALUE_) (Block_ (Decl (dec 3 11 VALUE_) Nil))).
Example C68_example : inhabited None hidden /\ s_errs (bind_Program None hidden) = [Duplicate 3 1] /\
  (forall es around e, introduced None hidden es around -> In e (visible es around) -> snd e = []).
Proof.
  split; [exists (dec 1 11 VALUE_, []); split; [left; reflexivity|split; [reflexivity|discriminate]]|]. split; [reflexivity|].
  intros es around e J. destruct J as [b E| |es around J]; [discriminate E| |].
  - simpl. intuition (subst; reflexivity).
  - apply introduces_in in J. simpl in J. destruct J as [J|[]]. injection J as <- J. revert J. unfold visible. intros J.
    change (concat (map (@rev entry) ([(dec 3 11 VALUE_, [])] :: around))) with ((dec 3 11 VALUE_, @nil nat) :: flat around). rewrite <- J.
    simpl. intuition (subst; reflexivity).
Qed.

Print Assumptions C67_binding.
Print Assumptions C67_reported.
Print Assumptions C67_no_silent.
Print Assumptions C67_only_uses.
Print Assumptions C67_all.
Print Assumptions C67_refuted_spurious.
Print Assumptions C68_sound.
Print Assumptions C68_complete.
Print Assumptions C68_exact.
Print Assumptions C68_refuted_missed.
Print Assumptions C68_refuted_self.
