(** * PropsBuildFib: C125, the edges of a rule, for fibers too, and their kinds. *)
From Verif Require Import Base CondModel PropsCond GbModel GbSpec GbInst GbCond GbFlow GbFibSpec GbFib PropsBuild PropsBuildEx.
Open Scope nat_scope.

Lemma conds_locals : (forall s c s' c' d, In (s', c') (conds_stmt c s) -> In d (locals_stmt s') -> In d (locals_stmt s)) /\
  (forall b c s' c' d, In (s', c') (conds_block c b) -> In d (locals_stmt s') -> In d (locals b)) /\
  (forall ms isf c s' c' d, In (s', c') (conds_matches isf c ms) -> In d (locals_stmt s') -> In d (locals_matches ms)).
Proof.
  apply stmts_mut; intros; cbn [conds_stmt conds_block conds_matches locals_stmt locals locals_matches In] in *; rewrite ?in_app_iff in *;
    repeat match goal with
    | H : _ \/ _ |- _ => destruct H
    | H : (_, _) = (_, _) |- _ => injection H as; subst
    | H : False |- _ => destruct H
    end; cbn [locals_stmt] in *; rewrite ?in_app_iff in *; eauto 7.
Qed.
Section C125.
Context (E : genv) (R : grule) (bt : built) (Nn : NoDup (names R)) (F : fibers_ok E R) (Ap : apart E R) (H : build E R = Ok bt).
Lemma dead e d v c k : In d (locals (b_body bt)) -> ~ links E bt v (mkV (AD d) (Some (r_lhs R)) []) k c e.
Proof.
  intros Hd L. destruct (build_ok _ _ _ H) as (n & Qb & _). assert (Hd' : In d (locals (r_body R))). { pose proof (proj1 (proj2 number_texts) (r_body R) 0) as [_ Hl]. rewrite Qb in Hl. cbn [fst] in Hl. now rewrite <- Hl. }
  assert (No : forall j f, ~ is_at E bt j (mkV (AD d) (Some (r_lhs R)) []) f).
  { intros j f (i & Q & Hj). unfold at_fiber in Q. cbn [v_mod v_attr v_node fold_right] in Q. injection Q as <-. apply nth_error_In in Hj. apply (proj2 (C119_instances _ _ _ Nn F H)) in Hj. inversion Hj; subst. match goal with K : In d (e_attrs E _) |- _ => exact (Ap _ _ Hd' K) end. }
  destruct L as (_ & [(_ & L & _)|(_ & _ & f & _ & _ & L)]); [exact (No _ _ L)|]. destruct (e_reverse E f); destruct L as [L1 L2]; [exact (No _ _ L1)|exact (No _ _ L2)].
Qed.
(** every edge, its kind and its condition *)
Lemma all_edges e : no_for (r_body R) -> In e (b_edges bt) <-> data_edge E R bt e \/ test_edge E R bt e.
Proof.
  intros NF. destruct (build_ok _ _ _ H) as (n & Qb & Qn & _ & Qt & Qi & Qe). pose proof (proj1 (C119_instances _ _ _ Nn F H)) as D.
  pose proof (fun v w c k => add_edges_in E R (b_body bt) n bt D Qi v w c k e) as Add. pose proof (fun w c => rec_cond_in E R (b_body bt) n bt D Qi w c e) as Cond.
  assert (Own : forall s c, In (s, c) (conds_block no_cond (b_body bt)) -> In e (own_edges E R (b_body bt) n c s) <-> told_by E R (b_body bt) n s c e).
  { intros s c Hs. apply own_edges_in. intros d v c' k Hd K. apply Add in K. refine (dead _ _ _ _ _ _ K). exact (proj1 (proj2 conds_locals) _ _ _ _ _ Hs Hd). }
  rewrite Qe. unfold edges. rewrite in_app_iff, (proj1 (proj2 (edges_own E R (b_body bt) n e))). split.
  - intros [(s & c & Hs & K)|K].
    + apply (Own s c Hs) in K. destruct K as [(x & w & val & c' & P & K)|[(w & P & K)|[(x & p & f & args & Hx & Hc & K)|(d & x & fs & f & -> & Hf & K)]]].
      * left. left. apply (proj1 (rec_expr_in _ _ _ _ _ _ _)) in K. destruct K as (v & ca & si & Rd & K). rewrite adjust_kind in K. apply Add in K. exists s, c, v, w, (kind_of (val && ca) si), c'. split; [exact Hs|]. split; [eapply fl_value; eassumption|exact K].
      * right. apply Cond in K. destruct K as (k & t & Hk & M & T & K). pose proof (test_of_num _ _ _ T) as Tn. exists s, c, w, t. split; [exact Hs|]. split; [exact P|]. split; [rewrite Qt; exact (proj1 (find_some _ _ T))|]. rewrite Tn. split; [exact M|exact K].
      * left. left. apply Add in K. exists s, c, (own_info E R), (of_node p (e_shinfo E f)), dependency, c. split; [exact Hs|]. split; [exact (fl_info E R s c x p f args Hx Hc)|exact K].
      * left. left. apply Add in K. do 6 eexists. split; [exact Hs|]. split; [apply (fl_object E R d x fs f c Hf)|exact K].
    + left. right. unfold shared_edges in K. apply in_flat_map in K. destruct K as ([nd [phy|]] & Hk & K); cbn [fst snd] in K; [|destruct K]. apply Add in K. exists nd, phy. split; [exact Hk|exact K].
  - intros [[(s & c & v & w & k & c' & Hs & Fl & L)|(nd & phy & Hk & L)]|(s & c & v & t & Hs & P & Ht & M & L)].
    + left. exists s, c. split; [exact Hs|]. apply (Own s c Hs). destruct Fl as [s c x w val c' v ca si P Rd|s c x p f args Hx Hc|d x fs f c Hf].
      * left. exists x, w, val, c'. split; [exact P|]. apply (proj1 (rec_expr_in _ _ _ _ _ _ _)). exists v, ca, si. split; [exact Rd|]. rewrite adjust_kind. now apply Add.
      * right. right. left. exists x, p, f, args. split; [exact Hx|]. split; [exact Hc|]. now apply Add.
      * right. right. right. exists d, x, fs, f. split; [reflexivity|]. split; [exact Hf|]. now apply Add.
    + right. unfold shared_edges. apply in_flat_map. exists (nd, Some phy). split; [exact Hk|]. cbn [fst snd]. now apply Add.
    + left. exists s, c. split; [exact Hs|]. apply (Own s c Hs). right. left. exists v. split; [exact P|]. apply Cond. rewrite Qt in Ht. destruct (built_unique _ _ _ H NF t Ht) as [T Lt]. exists (t_num t), t. rewrite Qn. auto.
Qed.
End C125.
(** ** C125: the edges of a rule are exactly those for the values it passes on and for the tests
    that decide, with their kinds and conditions. *)
Theorem C125_edges : forall E R bt e, NoDup (names R) -> fibers_ok E R -> apart E R -> no_for (r_body R) -> build E R = Ok bt ->
  In e (b_edges bt) <-> data_edge E R bt e \/ test_edge E R bt e.
Proof. intros E R bt e N F A NF H. now apply all_edges. Qed.
(** in particular those that are only there for fibers *)
Theorem C125_fibers : forall E R bt e, NoDup (names R) -> fibers_ok E R -> apart E R -> no_for (r_body R) -> build E R = Ok bt ->
  N.land (d_kind e) DEPENDENCY_NOT_JUST_FIBER = 0%N -> In e (b_edges bt) <-> data_edge E R bt e.
Proof.
  intros E R bt e N F A NF H K. rewrite (C125_edges _ _ _ _ N F A NF H). split; [|auto]. intros [D|(s & c & v & t & _ & _ & _ & _ & _ & L)]; [exact D|]. exfalso. destruct L as [(_ & _ & L)|(L & _)].
  - rewrite L in K. discriminate K.
  - apply L. reflexivity.
Qed.
(** For an object held in a variable: what is in a field of it gets to the field of another
    variable it is assigned to, and what is stored in that gets back. *)
Definition env1 : genv := mkEnv [0; 1; 2] 0 (fun fld f => if f =? 0 then if fld =? 7 then Some 1 else if fld =? 8 then Some 2 else None else None) (fun f => f =? 2)
  (fun a => if (a =? 5) || (a =? 6) then [1] else []) (fun a => if (a =? 5) || (a =? 6) then [2] else []) (fun phy => [10]) (fun _ => false) (fun _ => 99) S (fun _ => 21) (fun _ => []) (fun _ => 1000).
Definition rule7 : grule := mkRule 1 100 [] (BCons (SLocal 5 (DSimple (EAttr 1 10) [7])) (BCons (SLocal 6 (DSimple (EUse 5) [])) (BCons (SAssign (EField 7 (EUse 6)) (EAttr 1 10)) BNil))).
Lemma env1_ok R : fibers_ok env1 R.
Proof.
  constructor.
  - intros a. cbn. destruct ((a =? 5) || (a =? 6)); settle.
  - intros phy. cbn. settle.
Qed.
Example rule7_edges : exists bt, NoDup (names rule7) /\ fibers_ok env1 rule7 /\ apart env1 rule7 /\ no_for (r_body rule7) /\ build env1 rule7 = Ok bt /\
  b_insts bt = [att 1 10; var 5; mkInst (AD 5) (Some 1) None; mkInst (AD 5) (Some 2) None; var 6; mkInst (AD 6) (Some 1) None; mkInst (AD 6) (Some 2) None] /\
  (forall e, In e (b_edges bt) <-> In e [mkEdge 0 1 no_cond 31; mkEdge 3 2 no_cond 29; mkEdge 1 4 no_cond 31; mkEdge 2 5 no_cond 29; mkEdge 6 3 no_cond 29; mkEdge 0 6 no_cond 31; mkEdge 4 6 no_cond 27]).
Proof.
  eexists. split; [cbn; settle|]. split; [apply env1_ok|]. split; [intros d phy Hd; cbn in *; intuition (subst; discriminate)|]. split; [cbn; tauto|]. split; [vm_compute; reflexivity|]. split; [reflexivity|]. intros e. cbn [In b_edges]. tauto.
Qed.

Print Assumptions C125_edges.
Print Assumptions C125_fibers.
Print Assumptions rule7_edges.
