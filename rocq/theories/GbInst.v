(** * GbInst: the instances of a rule and finding them (C119). *)
From Verif Require Import Base CondModel PropsCond GbModel GbSpec.
From Coq Require Import FinFun.
Open Scope nat_scope.

Scheme stmt_mut := Induction for stmt Sort Prop with block_mut := Induction for block Sort Prop with matches_mut := Induction for matches Sort Prop.
Combined Scheme stmts_mut from stmt_mut, block_mut, matches_mut.
Scheme expr_mut := Induction for expr Sort Prop with exprs_mut := Induction for exprs Sort Prop.
Combined Scheme exprs_mutind from expr_mut, exprs_mut.
Scheme pat_mut := Induction for pat Sort Prop with pats_mut := Induction for pats Sort Prop.
Combined Scheme pats_mutind from pat_mut, pats_mut.

Lemma opt_eqb_eq x y : opt_eqb x y = true <-> x = y.
Proof. destruct x, y; cbn; rewrite ?Nat.eqb_eq; split; congruence. Qed.
Lemma attr_eqb_eq x y : attr_eqb x y = true <-> x = y.
Proof. destruct x, y; cbn; rewrite ?Nat.eqb_eq; split; congruence. Qed.
Lemma inst_eqb_eq x y : inst_eqb x y = true <-> x = y.
Proof.
  unfold inst_eqb. rewrite !andb_true_iff, attr_eqb_eq, !opt_eqb_eq. destruct x, y; cbn. split; [intros [[-> ->] ->]; reflexivity|intros H; injection H as -> -> ->; auto].
Qed.
Lemma inst_eqb_refl x : inst_eqb x x = true.
Proof. now apply inst_eqb_eq. Qed.

(** ** finding *)
Lemma scan_spec i : forall l here, match scan i here l with
  | Some j => here <= j /\ nth_error l (j - here) = Some i /\ forall k, k < j - here -> nth_error l k <> Some i
  | None => ~ In i l end.
Proof.
  induction l as [|x l IH]; intros here; cbn [scan]; [intros []|].
  destruct (inst_eqb x i) eqn:Q.
  - apply inst_eqb_eq in Q. subst x. rewrite Nat.sub_diag. cbn. split; [lia|]. split; [reflexivity|]. intros k Hk. lia.
  - assert (D : x <> i) by (intros ->; rewrite inst_eqb_refl in Q; discriminate). specialize (IH (S here)). destruct (scan i (S here) l) as [j|].
    + destruct IH as (H1 & H2 & H3). split; [lia|]. replace (j - here) with (S (j - S here)) by lia. cbn [nth_error]. split; [exact H2|]. intros k Hk. destruct k as [|k]; cbn [nth_error]; [congruence|]. apply H3. lia.
    + intros [->|H]; auto.
Qed.
Definition owner (i : ainst) : option decl := match i_node i, i_attr i with Some m, _ => Some m | None, AD d => Some d | None, AT _ => None end.
(** every instance comes after the index of the declaration it is looked up by *)
Definition owned (l : list item) : Prop := forall l1 i l2, l = l1 ++ Inst i :: l2 -> exists d, owner i = Some d /\ In (Index d) l1.
Lemma owned_nil : owned [].
Proof. intros l1 i l2 H. destruct l1; discriminate. Qed.
Lemma owned_app l l' : owned l -> owned l' -> owned (l ++ l').
Proof.
  intros H H' l1 i l2 Q. destruct (app_eq_app _ _ _ _ Q) as (m & [[-> Qm]|[-> Qm]]).
  - destruct m as [|x m]; cbn [app] in Qm.
    + destruct (H' [] i l2 (eq_sym Qm)) as (d & _ & []).
    + injection Qm as <- _. apply (H l1 i m). reflexivity.
  - destruct (H' m i l2 Qm) as (d & Ho & Hd). exists d. split; [exact Ho|]. apply in_or_app. now right.
Qed.
Lemma owned_flat {A} (f : A -> list item) l : (forall x, owned (f x)) -> owned (flat_map f l).
Proof. intros H. induction l; cbn; [apply owned_nil|now apply owned_app]. Qed.
Lemma owned_cons d l : (forall it, In it l -> exists i, it = Inst i /\ owner i = Some d) -> owned (Index d :: l).
Proof.
  intros H l1 i l2 Q. destruct l1 as [|x l1]; [discriminate|]. cbn [app] in Q. injection Q as <- Q. destruct (H (Inst i)) as (i' & Qi & Ho).
  - rewrite Q. apply in_or_app. right. now left.
  - injection Qi as <-. exists d. split; [exact Ho|now left].
Qed.
Section INST.
Context (E : genv) (R : grule).
Lemma with_fibers_in a m it : In it (with_fibers E a m) <-> exists f, fiber_of E a f /\ it = Inst (mkInst (AD a) f m).
Proof.
  unfold with_fibers, fiber_of. cbn [In]. rewrite in_app_iff, !in_map_iff. split.
  - intros [<-|[(f & <- & H)|(f & <- & H)]].
    + exists None. auto.
    + exists (Some f). split; [right; exists f; rewrite in_app_iff; auto|reflexivity].
    + exists (Some f). split; [right; exists f; rewrite in_app_iff; auto|reflexivity].
  - intros (f & [->|(x & -> & H)] & ->); [now left|]. right. apply in_app_iff in H. destruct H as [H|H]; [left|right]; exists x; auto.
Qed.
Lemma node_owned m phy : owned (node_items E m phy).
Proof.
  apply owned_cons. intros it H. apply in_flat_map in H. destruct H as (a & _ & H). apply with_fibers_in in H. destruct H as (f & _ & ->). eexists. split; [reflexivity|reflexivity].
Qed.
Lemma local_owned d : owned (local_items E d).
Proof. apply owned_cons. intros it H. apply with_fibers_in in H. destruct H as (f & _ & ->). eexists. split; reflexivity. Qed.
Lemma kid_owned k : owned (kid_items E k).
Proof. unfold kid_items. destruct (snd k); [apply node_owned|]. apply owned_cons. intros it []. Qed.
Lemma expr_owned : (forall e, owned (items_expr E e)) /\ (forall es, owned (items_exprs E es)).
Proof.
  apply exprs_mutind; intros; cbn [items_expr items_exprs]; auto using owned_nil, owned_app. apply owned_app; [apply node_owned|auto].
Qed.
Lemma pat_owned : (forall p, owned (items_pat E p)) /\ (forall ps, owned (items_pats E ps)).
Proof.
  apply pats_mutind; intros; cbn [items_pat items_pats]; auto using owned_nil, owned_app, local_owned. apply expr_owned.
Qed.
Lemma default_owned d : owned (items_default E d).
Proof. destruct d; cbn [items_default]; [apply owned_nil|apply expr_owned|apply expr_owned]. Qed.
Lemma stmts_owned : (forall s, owned (items_stmt E s)) /\ (forall b, owned (items_block E b)) /\ (forall ms, owned (items_matches E ms)).
Proof.
  apply stmts_mut; intros; cbn [items_stmt items_block items_matches]; repeat apply owned_app; auto using owned_nil, local_owned, default_owned; try apply expr_owned; apply pat_owned.
Qed.
Lemma items_owned b : owned (items E R b).
Proof. unfold items. apply owned_app; [apply node_owned|]. apply owned_app; [apply owned_flat; intros; apply kid_owned|apply stmts_owned]. Qed.

Lemma insts_app l l' : insts_of (l ++ l') = insts_of l ++ insts_of l'.
Proof. unfold insts_of. apply flat_map_app. Qed.
Lemma insts_in l i : In i (insts_of l) <-> In (Inst i) l.
Proof.
  unfold insts_of. rewrite in_flat_map. split.
  - intros (it & H & Hi). destruct it as [d|i']; [destruct Hi|]. destruct Hi as [->|[]]. exact H.
  - intros H. exists (Inst i). split; [exact H|now left].
Qed.
Lemma index_in_app d l' : forall l h, In (Index d) l -> exists st, index_in d h (l ++ l') = Some st /\ h <= st <= h + length (insts_of l).
Proof.
  induction l as [|it l IH]; intros h; [intros []|]. intros H. destruct it as [d'|i]; cbn [app index_in insts_of flat_map]; fold (insts_of l).
  - destruct (Nat.eqb_spec d' d) as [Q|Q].
    + exists h. split; [reflexivity|lia].
    + destruct H as [H|H]; [congruence|]. apply IH; auto.
  - destruct H as [H|H]; [discriminate|]. destruct (IH (S h) H) as (st & Q & L). exists st. split; [exact Q|]. cbn. lia.
Qed.
Section NUM.
Context (b : block) (n : nat).
Notation instances := (instances E R b n).
Lemma tests_first k : k < n -> nth_error instances k = Some (mkInst (AT k) None None).
Proof.
  intros H. unfold instances. rewrite nth_error_app1 by (rewrite map_length, seq_length; lia).
  rewrite nth_error_map, (nth_error_nth' _ 0) by (rewrite seq_length; lia). now rewrite seq_nth by lia.
Qed.
Lemma instance_cases j i : nth_error instances j = Some i -> (j < n /\ i = mkInst (AT j) None None) \/ (n <= j /\ nth_error (insts_of (items E R b)) (j - n) = Some i).
Proof.
  intros H. destruct (Nat.lt_ge_cases j n) as [L|L].
  - left. split; [exact L|]. rewrite tests_first in H by exact L. congruence.
  - right. split; [exact L|]. unfold instances in H. rewrite nth_error_app2 in H by (rewrite map_length, seq_length; lia). now rewrite map_length, seq_length in H.
Qed.
Definition ordered_tests : Prop := forall k t, test_of b k = Some t -> t_num t = k.
Lemma test_of_num k t : test_of b k = Some t -> t_num t = k.
Proof. unfold test_of. intros H. apply find_some in H. now apply Nat.eqb_eq. Qed.
(** an instance lies where it is looked for *)
Lemma start_before j i : nth_error instances j = Some i -> start E R b n (i_attr i) (i_node i) <= j.
Proof.
  intros H. destruct (instance_cases j i H) as [[L ->]|[L Hj]].
  - cbn [i_attr i_node start]. destruct (test_of b j) as [t|]; [destruct (t_if t); lia|lia].
  - assert (exists l1 l2, items E R b = l1 ++ Inst i :: l2 /\ length (insts_of l1) = j - n) as (l1 & l2 & Q & Ql).
    { revert Hj. generalize (items E R b) (j - n). clear. induction l as [|it l IH]; intros m; [destruct m; discriminate|].
      destruct it as [d|i']; unfold insts_of; cbn [flat_map app]; fold (insts_of l).
      - intros H. destruct (IH _ H) as (l1 & l2 & -> & Q). exists (Index d :: l1), l2. split; [reflexivity|exact Q].
      - destruct m as [|m]; cbn [nth_error]; intros H.
        + injection H as ->. exists [], l. split; reflexivity.
        + destruct (IH _ H) as (l1 & l2 & -> & Q). exists (Inst i' :: l1), l2. split; [reflexivity|]. unfold insts_of. cbn [flat_map app length]. fold (insts_of l1). lia. }
    destruct (items_owned b l1 i l2 Q) as (d & Ho & Hd). destruct (index_in_app d (Inst i :: l2) l1 n Hd) as (st & Qs & Ls). rewrite <- Q in Qs.
    unfold owner in Ho. unfold start. destruct (i_node i) as [m|]; [injection Ho as ->; rewrite Qs; lia|]. destruct (i_attr i) as [d'|k]; [injection Ho as ->; rewrite Qs; lia|discriminate].
Qed.
Lemma skipn_nth {A} (l : list A) : forall st k, nth_error (skipn st l) k = nth_error l (st + k).
Proof. induction l as [|x l IH]; intros st k; [rewrite skipn_nil; destruct k, st; reflexivity|]. destruct st as [|st]; [reflexivity|]. cbn [skipn Nat.add nth_error]. apply IH. Qed.
Lemma lookup_right a (f : fiber) m j : get_instance E R b n a f m = Some j -> nth_error instances j = Some (mkInst a (if f =? e_base E then None else Some f) m).
Proof.
  unfold get_instance. cbv zeta. intros H. pose proof (scan_spec (mkInst a (if f =? e_base E then None else Some f) m) (skipn (start E R b n a m) instances) (start E R b n a m)) as S. rewrite H in S. destruct S as (S1 & S2 & _).
  rewrite skipn_nth in S2. now replace (start E R b n a m + (j - start E R b n a m)) with j in S2 by lia.
Qed.
Lemma lookup_found a (f : fiber) m : In (mkInst a (if f =? e_base E then None else Some f) m) instances ->
  exists j, get_instance E R b n a f m = Some j /\ nth_error instances j = Some (mkInst a (if f =? e_base E then None else Some f) m).
Proof.
  intros H. destruct (get_instance E R b n a f m) as [j|] eqn:G; [exists j; split; [reflexivity|now apply lookup_right]|exfalso].
  apply In_nth_error in H. destruct H as (q & Hq). pose proof (start_before q _ Hq) as L. cbn [i_attr i_node] in L.
  unfold get_instance in G. cbv zeta in G. pose proof (scan_spec (mkInst a (if f =? e_base E then None else Some f) m) (skipn (start E R b n a m) instances) (start E R b n a m)) as S. rewrite G in S. apply S.
  apply nth_error_In with (n := q - start E R b n a m). rewrite skipn_nth. now replace (start E R b n a m + (q - start E R b n a m)) with q by lia.
Qed.
End NUM.
(** ** which instances there are *)
Lemma node_items_in m phy i : In (Inst i) (node_items E m phy) <-> exists a f, In a (e_attrs E phy) /\ fiber_of E a f /\ i = mkInst (AD a) f (Some m).
Proof.
  unfold node_items. cbn [In]. rewrite in_flat_map. split.
  - intros [H|(a & Ha & H)]; [discriminate|]. apply with_fibers_in in H. destruct H as (f & Hf & Q). injection Q as ->. exists a, f. auto.
  - intros (a & f & Ha & Hf & ->). right. exists a. split; [exact Ha|]. apply with_fibers_in. exists f. auto.
Qed.
Lemma local_items_in d i : In (Inst i) (local_items E d) <-> exists f, fiber_of E d f /\ i = mkInst (AD d) f None.
Proof.
  unfold local_items. cbn [In]. rewrite with_fibers_in. split.
  - intros [H|(f & Hf & Q)]; [discriminate|]. injection Q as ->. exists f. auto.
  - intros (f & Hf & ->). right. exists f. auto.
Qed.
Definition call_inst (l : list (decl * decl)) (i : ainst) : Prop := exists m phy a f, In (m, phy) l /\ In a (e_attrs E phy) /\ fiber_of E a f /\ i = mkInst (AD a) f (Some m).
Definition local_inst (l : list decl) (i : ainst) : Prop := exists d f, In d l /\ fiber_of E d f /\ i = mkInst (AD d) f None.
Lemma call_inst_app l l' i : call_inst (l ++ l') i <-> call_inst l i \/ call_inst l' i.
Proof.
  unfold call_inst. split.
  - intros (m & phy & a & f & H & Hr). apply in_app_iff in H. destruct H as [H|H]; [left|right]; exists m, phy, a, f; auto.
  - intros [(m & phy & a & f & H & Hr)|(m & phy & a & f & H & Hr)]; exists m, phy, a, f; (split; [apply in_or_app; auto|exact Hr]).
Qed.
Lemma call_inst_nil i : call_inst [] i <-> False.
Proof. split; [|intros []]. intros (m & phy & a & f & [] & _). Qed.
Lemma local_inst_app l l' i : local_inst (l ++ l') i <-> local_inst l i \/ local_inst l' i.
Proof.
  unfold local_inst. split.
  - intros (d & f & H & Hr). apply in_app_iff in H. destruct H as [H|H]; [left|right]; exists d, f; auto.
  - intros [(d & f & H & Hr)|(d & f & H & Hr)]; exists d, f; (split; [apply in_or_app; auto|exact Hr]).
Qed.
Lemma local_inst_nil i : local_inst [] i <-> False.
Proof. split; [|intros []]. intros (d & f & [] & _). Qed.
Lemma local_inst_one d i : local_inst [d] i <-> In (Inst i) (local_items E d).
Proof.
  rewrite local_items_in. unfold local_inst. split.
  - intros (d' & f & [<-|[]] & Hf & ->). exists f. auto.
  - intros (f & Hf & ->). exists d, f. split; [now left|auto].
Qed.
Lemma call_inst_one m phy i : call_inst [(m, phy)] i <-> In (Inst i) (node_items E m phy).
Proof.
  rewrite node_items_in. unfold call_inst. split.
  - intros (m' & phy' & a & f & [Q|[]] & Hr). injection Q as -> ->. exists a, f. exact Hr.
  - intros (a & f & Hr). exists m, phy, a, f. split; [now left|exact Hr].
Qed.
Lemma expr_insts : (forall e i, In (Inst i) (items_expr E e) <-> call_inst (calls_in e) i) /\ (forall es i, In (Inst i) (items_exprs E es) <-> call_inst (callss_in es) i).
Proof.
  apply exprs_mutind; intros; cbn [items_expr items_exprs calls_in callss_in]; rewrite ?call_inst_nil; try reflexivity; auto.
  - rewrite in_app_iff, H. change ((p, f) :: callss_in args) with ([(p, f)] ++ callss_in args). rewrite call_inst_app, call_inst_one. reflexivity.
  - rewrite in_app_iff, call_inst_app, H, H0. reflexivity.
Qed.
Definition body_inst (ls : list decl) (es : list expr) (i : ainst) : Prop := local_inst ls i \/ call_inst (flat_map calls_in es) i.
Lemma body_app l l' es es' i : body_inst (l ++ l') (es ++ es') i <-> body_inst l es i \/ body_inst l' es' i.
Proof. unfold body_inst. rewrite flat_map_app, local_inst_app, call_inst_app. tauto. Qed.
Lemma body_nil i : body_inst [] [] i <-> False.
Proof. unfold body_inst. cbn [flat_map]. rewrite local_inst_nil, call_inst_nil. tauto. Qed.
Lemma body_expr e i : body_inst [] [e] i <-> In (Inst i) (items_expr E e).
Proof. unfold body_inst. cbn [flat_map]. rewrite app_nil_r, local_inst_nil, (proj1 expr_insts). tauto. Qed.
Lemma body_local d i : body_inst [d] [] i <-> In (Inst i) (local_items E d).
Proof. unfold body_inst. cbn [flat_map]. rewrite call_inst_nil, local_inst_one. tauto. Qed.
Lemma pat_insts : (forall p i, In (Inst i) (items_pat E p) <-> body_inst (vars p) (all_conds p) i) /\ (forall ps i, In (Inst i) (items_pats E ps) <-> body_inst (varss ps) (all_condss ps) i).
Proof.
  apply pats_mutind; intros; cbn [items_pat items_pats vars varss all_conds all_condss]; rewrite ?body_app, ?in_app_iff, ?body_local, ?body_expr, ?body_nil; try tauto; try reflexivity; auto.
  - now rewrite H, H0.
  - now rewrite H, H0.
Qed.
Lemma body_cons_e e ls es i : body_inst ls (e :: es) i <-> In (Inst i) (items_expr E e) \/ body_inst ls es i.
Proof. change (e :: es) with ([e] ++ es). change ls with ([] ++ ls) at 1. rewrite body_app, body_expr. reflexivity. Qed.
Lemma body_cons_d d ls es i : body_inst (d :: ls) es i <-> In (Inst i) (local_items E d) \/ body_inst ls es i.
Proof. change (d :: ls) with ([d] ++ ls). change es with ([] ++ es) at 1. rewrite body_app, body_local. reflexivity. Qed.
Lemma stmts_insts : (forall s i, In (Inst i) (items_stmt E s) <-> body_inst (locals_stmt s) (texts_stmt s) i) /\ (forall b i, In (Inst i) (items_block E b) <-> body_inst (locals b) (texts b) i) /\
  (forall ms i, In (Inst i) (items_matches E ms) <-> body_inst (locals_matches ms) (texts_matches ms) i).
Proof.
  apply stmts_mut; intros; cbn [items_stmt items_block items_matches locals_stmt locals locals_matches texts_stmt texts texts_matches];
    rewrite ?body_cons_e, ?body_cons_d, ?body_app, ?body_nil, ?in_app_iff, ?(proj1 pat_insts).
  - tauto.
  - destruct def; cbn [items_default def_expr]; rewrite ?body_cons_e, ?body_nil; cbn [In]; tauto.
  - now rewrite H, H0.
  - now rewrite H, H0.
  - now rewrite H.
  - rewrite H. tauto.
  - cbn [In]. tauto.
  - now rewrite H, H0.
  - cbn [In]. tauto.
  - now rewrite H, H0.
Qed.
(** numbering changes no text *)
Lemma number_texts : (forall s n, texts_stmt (fst (number_stmt n s)) = texts_stmt s /\ locals_stmt (fst (number_stmt n s)) = locals_stmt s) /\
  (forall b n, texts (fst (number_block n b)) = texts b /\ locals (fst (number_block n b)) = locals b) /\
  (forall ms own n, texts_matches (fst (number_matches own n ms)) = texts_matches ms /\ locals_matches (fst (number_matches own n ms)) = locals_matches ms).
Proof.
  apply stmts_mut; intros; cbn [number_stmt number_block number_matches].
  - split; reflexivity.
  - split; reflexivity.
  - destruct (number_block (S n) t) as [t' n1] eqn:Q1. destruct (number_block n1 f) as [f' n2] eqn:Q2. specialize (H (S n)). specialize (H0 n1). rewrite Q1 in H. rewrite Q2 in H0. cbn [fst] in *. cbn [texts_stmt locals_stmt]. destruct H as [-> ->], H0 as [-> ->]. split; reflexivity.
  - destruct (number_matches (Some n) (n + count_matches ms) ms) as [t' n1] eqn:Q1. destruct (number_block n1 d) as [f' n2] eqn:Q2. specialize (H (Some n) (n + count_matches ms)). specialize (H0 n1). rewrite Q1 in H. rewrite Q2 in H0. cbn [fst] in *. cbn [texts_stmt locals_stmt]. destruct H as [-> ->], H0 as [-> ->]. split; reflexivity.
  - destruct (number_matches None n ms) as [t' n1] eqn:Q1. specialize (H None n). rewrite Q1 in H. cbn [fst] in *. cbn [texts_stmt locals_stmt]. destruct H as [-> ->]. split; reflexivity.
  - destruct (number_block n b) as [t' n1] eqn:Q1. specialize (H n). rewrite Q1 in H. cbn [fst] in *. cbn [texts_stmt locals_stmt]. destruct H as [-> ->]. split; reflexivity.
  - split; reflexivity.
  - destruct (number_stmt n s) as [t' n1] eqn:Q1. destruct (number_block n1 b) as [f' n2] eqn:Q2. specialize (H n). specialize (H0 n1). rewrite Q1 in H. rewrite Q2 in H0. cbn [fst] in *. cbn [texts locals]. destruct H as [-> ->], H0 as [-> ->]. split; reflexivity.
  - split; reflexivity.
  - destruct (number_block n b) as [t' n1] eqn:Q1. destruct (number_matches (option_map S own) n1 ms) as [f' n2] eqn:Q2. specialize (H n). specialize (H0 (option_map S own) n1). rewrite Q1 in H. rewrite Q2 in H0. cbn [fst] in *. cbn [texts_matches locals_matches]. destruct H as [-> ->], H0 as [-> ->]. split; reflexivity.
Qed.
Lemma number_count : (forall s n, snd (number_stmt n s) = n + tests_in s) /\ (forall b n, snd (number_block n b) = n + tests_inb b) /\ (forall ms own n, snd (number_matches own n ms) = n + tests_inm ms).
Proof.
  apply stmts_mut; intros; cbn [number_stmt number_block number_matches tests_in tests_inb tests_inm snd]; try lia.
  - destruct (number_block (S n) t) as [t' n1] eqn:Q1. destruct (number_block n1 f) as [f' n2] eqn:Q2. specialize (H (S n)). specialize (H0 n1). rewrite Q1 in H. rewrite Q2 in H0. cbn [snd] in *. lia.
  - destruct (number_matches (Some n) (n + count_matches ms) ms) as [t' n1] eqn:Q1. destruct (number_block n1 d) as [f' n2] eqn:Q2. specialize (H (Some n) (n + count_matches ms)). specialize (H0 n1). rewrite Q1 in H. rewrite Q2 in H0. cbn [snd] in *. lia.
  - destruct (number_matches None n ms) as [t' n1] eqn:Q1. specialize (H None n). rewrite Q1 in H. cbn [snd] in *. lia.
  - destruct (number_block n b) as [t' n1] eqn:Q1. specialize (H n). rewrite Q1 in H. cbn [snd] in *. lia.
  - destruct (number_stmt n s) as [t' n1] eqn:Q1. destruct (number_block n1 b) as [f' n2] eqn:Q2. specialize (H n). specialize (H0 n1). rewrite Q1 in H. rewrite Q2 in H0. cbn [snd] in *. lia.
  - destruct (number_block n b) as [t' n1] eqn:Q1. destruct (number_matches (option_map S own) n1 ms) as [f' n2] eqn:Q2. specialize (H n). specialize (H0 (option_map S own) n1). rewrite Q1 in H. rewrite Q2 in H0. cbn [snd] in *. lia.
Qed.
Lemma instances_wanted i : let '(b, n) := number_block 0 (r_body R) in In i (instances E R b n) <-> wanted E R i.
Proof.
  destruct (number_block 0 (r_body R)) as [b n] eqn:Q. pose proof (proj1 (proj2 number_texts) (r_body R) 0) as [Ht Hl]. pose proof (proj1 (proj2 number_count) (r_body R) 0) as Hn. rewrite Q in Ht, Hl, Hn. cbn [fst snd Nat.add] in *.
  unfold instances. rewrite in_app_iff, in_map_iff, insts_in. unfold items. rewrite !in_app_iff, (proj1 (proj2 stmts_insts)), Ht, Hl, node_items_in, in_flat_map. split.
  - intros [(k & <- & H)|[(a & f & Ha & Hf & ->)|[(k & Hk & H)|[(d & f & Hd & Hf & ->)|(m & phy & a & f & Hm & Ha & Hf & ->)]]]].
    + apply in_seq in H. apply w_test. lia.
    + apply w_node with (r_phy R); auto. now left.
    + unfold kid_items in H. destruct k as [m [phy|]]; cbn [fst snd] in H; [|destruct H as [H|[]]; discriminate]. apply node_items_in in H. destruct H as (a & f & Ha & Hf & ->). apply w_node with phy; auto. right. now left.
    + now apply w_local.
    + apply w_node with phy; auto. right. now right.
  - intros [k Hk|m phy a f Hm Ha Hf|d f Hd Hf].
    + left. exists k. split; [reflexivity|]. apply in_seq. lia.
    + right. destruct Hm as [Q'|[Hm|Hm]].
      * injection Q' as -> ->. left. exists a, f. auto.
      * right. left. exists (m, Some phy). split; [exact Hm|]. unfold kid_items. cbn [fst snd]. apply node_items_in. exists a, f. auto.
      * right. right. right. exists m, phy, a, f. auto.
    + right. right. right. left. exists d, f. auto.
Qed.
(** ** no instance twice *)
Definition decls_of (l : list item) : list decl := flat_map (fun it => match it with Index d => [d] | Inst _ => [] end) l.
Lemma decls_app l l' : decls_of (l ++ l') = decls_of l ++ decls_of l'.
Proof. unfold decls_of. apply flat_map_app. Qed.
(** the instances belonging to one declaration come without repetition *)
Definition tidy (l : list item) : Prop := NoDup (insts_of l) /\ forall i, In i (insts_of l) -> exists d, owner i = Some d /\ In d (decls_of l).
Lemma tidy_nil : tidy [].
Proof. split; [constructor|intros i []]. Qed.
Lemma tidy_app l l' : tidy l -> tidy l' -> NoDup (decls_of l ++ decls_of l') -> tidy (l ++ l').
Proof.
  intros [N O] [N' O'] D. split.
  - rewrite insts_app. revert N O. induction (insts_of l) as [|i m IH]; intros N O; [exact N'|]. cbn [app]. inversion N as [|? ? Ni Nm]; subst. constructor.
    + intros H. apply in_app_iff in H. destruct H as [H|H]; [contradiction|]. destruct (O i (or_introl eq_refl)) as (d & Q & Hd). destruct (O' i H) as (d' & Q' & Hd'). assert (d' = d) by congruence. subst d'.
      clear -D Hd Hd'. induction (decls_of l) as [|x m IH]; [destruct Hd|]. inversion D as [|? ? Nx Nm]; subst. destruct Hd as [->|Hd]; [apply Nx, in_or_app; now right|now apply IH].
    + apply IH; [exact Nm|]. intros i' Hi'. apply O. now right.
  - intros i H. rewrite insts_app in H. rewrite decls_app. apply in_app_iff in H. destruct H as [H|H]; [destruct (O i H) as (d & Q & Hd)|destruct (O' i H) as (d & Q & Hd)]; exists d; (split; [exact Q|apply in_or_app; auto]).
Qed.
Lemma NoDup_app_l {A} (l l' : list A) : NoDup (l ++ l') -> NoDup l.
Proof. induction l as [|x l IH]; intros H; [constructor|]. inversion H as [|? ? Nx Nm]; subst. constructor; [|now apply IH]. intros Hx. apply Nx, in_or_app. now left. Qed.
Lemma NoDup_app_r {A} (l l' : list A) : NoDup (l ++ l') -> NoDup l'.
Proof. induction l as [|x l IH]; intros H; [exact H|]. inversion H; subst. now apply IH. Qed.
Context (F : fibers_ok E R).
Lemma with_fibers_nodup a m : NoDup (insts_of (with_fibers E a m)).
Proof.
  assert (Q : insts_of (with_fibers E a m) = mkInst (AD a) None m :: map (fun f => mkInst (AD a) (Some f) m) (e_normal E a ++ e_backward E a)).
  { unfold with_fibers, insts_of. cbn [flat_map app]. f_equal. rewrite flat_map_app, map_app. assert (G : forall l, flat_map (fun it => match it with Index _ => [] | Inst i => [i] end) (map (fun f => Inst (mkInst (AD a) (Some f) m)) l) = map (fun f => mkInst (AD a) (Some f) m) l). { induction l as [|f l IH]; cbn; [reflexivity|now rewrite IH]. } now rewrite !G. }
  rewrite Q. pose proof (fo_sets _ _ F a) as N. inversion N as [|? ? _ N']; subst. constructor.
  - intros H. apply in_map_iff in H. destruct H as (f & H & _). discriminate.
  - apply FinFun.Injective_map_NoDup; [|exact N']. intros f f' H. now injection H as ->.
Qed.
Lemma with_fibers_attr a m i : In i (insts_of (with_fibers E a m)) -> i_attr i = AD a /\ i_node i = m.
Proof. intros H. apply insts_in, with_fibers_in in H. destruct H as (f & _ & Q). injection Q as ->. split; reflexivity. Qed.
Lemma attrs_nodup m l : NoDup l -> NoDup (insts_of (flat_map (fun a => with_fibers E a (Some m)) l)).
Proof.
  induction 1 as [|a l Na Nl IH]; [constructor|]. cbn [flat_map]. rewrite insts_app.
  assert (D : forall i, In i (insts_of (with_fibers E a (Some m))) -> ~ In i (insts_of (flat_map (fun a => with_fibers E a (Some m)) l))).
  { intros i H H'. apply with_fibers_attr in H. apply insts_in, in_flat_map in H'. destruct H' as (a' & Ha & H'). apply insts_in, with_fibers_attr in H'. destruct H as [H _], H' as [H' _]. rewrite H in H'. injection H' as ->. contradiction. }
  pose proof (with_fibers_nodup a (Some m)) as N. revert D N. induction (insts_of (with_fibers E a (Some m))) as [|i k IHk]; intros D N; [exact IH|]. cbn [app]. inversion N as [|? ? Ni Nk]; subst. constructor.
  - intros H. apply in_app_iff in H. destruct H as [H|H]; [contradiction|]. apply (D i); [now left|exact H].
  - apply IHk; [intros i' Hi'; apply D; now right|exact Nk].
Qed.
Lemma decls_inst l : (forall it, In it l -> exists i, it = Inst i) -> decls_of l = [].
Proof. induction l as [|it l IH]; intros H; [reflexivity|]. destruct (H it (or_introl eq_refl)) as (i & ->). unfold decls_of. cbn [flat_map app]. apply IH. intros it Hit. apply H. now right. Qed.
Lemma node_decls m phy : decls_of (node_items E m phy) = [m].
Proof. unfold node_items. change (decls_of (Index m :: ?l)) with (m :: decls_of l). unfold decls_of at 1. cbn [flat_map app]. fold (decls_of (flat_map (fun a => with_fibers E a (Some m)) (e_attrs E phy))). rewrite decls_inst; [reflexivity|]. intros it H. apply in_flat_map in H. destruct H as (a & _ & H). apply with_fibers_in in H. destruct H as (f & _ & ->). eauto. Qed.
Lemma local_decls d : decls_of (local_items E d) = [d].
Proof. unfold local_items. unfold decls_of at 1. cbn [flat_map app]. fold (decls_of (with_fibers E d None)). rewrite decls_inst; [reflexivity|]. intros it H. apply with_fibers_in in H. destruct H as (f & _ & ->). eauto. Qed.
Lemma node_tidy m phy : tidy (node_items E m phy).
Proof.
  split.
  - change (insts_of (node_items E m phy)) with (insts_of (flat_map (fun a => with_fibers E a (Some m)) (e_attrs E phy))). apply attrs_nodup, (fo_attrs _ _ F).
  - intros i H. apply insts_in, node_items_in in H. destruct H as (a & f & _ & _ & ->). exists m. rewrite node_decls. split; [reflexivity|now left].
Qed.
Lemma local_tidy d : tidy (local_items E d).
Proof.
  split.
  - change (insts_of (local_items E d)) with (insts_of (with_fibers E d None)). apply with_fibers_nodup.
  - intros i H. apply insts_in, local_items_in in H. destruct H as (f & _ & ->). exists d. rewrite local_decls. split; [reflexivity|now left].
Qed.
Ltac tid := repeat first [apply tidy_nil | apply tidy_app | apply node_tidy | apply local_tidy]; rewrite ?decls_app in *; eauto using NoDup_app_l, NoDup_app_r.
Lemma expr_tidy : (forall e, NoDup (decls_of (items_expr E e)) -> tidy (items_expr E e)) /\ (forall es, NoDup (decls_of (items_exprs E es)) -> tidy (items_exprs E es)).
Proof. apply exprs_mutind; intros; cbn [items_expr items_exprs] in *; tid. Qed.
Lemma pat_tidy : (forall p, NoDup (decls_of (items_pat E p)) -> tidy (items_pat E p)) /\ (forall ps, NoDup (decls_of (items_pats E ps)) -> tidy (items_pats E ps)).
Proof. apply pats_mutind; intros; cbn [items_pat items_pats] in *; tid. now apply expr_tidy. Qed.
Lemma default_tidy d : NoDup (decls_of (items_default E d)) -> tidy (items_default E d).
Proof. destruct d; cbn [items_default]; [intros; apply tidy_nil|apply expr_tidy|apply expr_tidy]. Qed.
Lemma stmts_tidy : (forall s, NoDup (decls_of (items_stmt E s)) -> tidy (items_stmt E s)) /\ (forall b, NoDup (decls_of (items_block E b)) -> tidy (items_block E b)) /\ (forall ms, NoDup (decls_of (items_matches E ms)) -> tidy (items_matches E ms)).
Proof.
  apply stmts_mut; intros; cbn [items_stmt items_block items_matches] in *; rewrite ?decls_app in *;
  repeat (apply tidy_app; rewrite ?decls_app in *; [| |assumption || eauto using NoDup_app_r, NoDup_app_l]);
  first [apply tidy_nil | apply local_tidy | apply (proj1 expr_tidy) | apply (proj1 pat_tidy) | apply default_tidy | match goal with IH : _ -> tidy _ |- _ => apply IH end]; eauto using NoDup_app_l, NoDup_app_r.
Qed.
(** counting declarations *)
Notation cnt x l := (count_occ Nat.eq_dec l x).
Lemma expr_count x : (forall e, cnt x (decls_of (items_expr E e)) = cnt x (map fst (calls_in e))) /\ (forall es, cnt x (decls_of (items_exprs E es)) = cnt x (map fst (callss_in es))).
Proof.
  apply exprs_mutind; intros; cbn [items_expr items_exprs calls_in callss_in]; auto.
  - fold (items_exprs E args). rewrite decls_app, node_decls, count_occ_app. etransitivity; [apply f_equal, H|]. cbn [map fst]. change (p :: map fst (callss_in args)) with ([p] ++ map fst (callss_in args)). now rewrite count_occ_app.
  - fold (items_expr E e). rewrite decls_app, map_app, !count_occ_app. f_equal; [exact H|exact H0].
Qed.
Definition weight x (ls : list decl) (es : list expr) : nat := cnt x ls + cnt x (map fst (flat_map calls_in es)).
Lemma weight_app x l l' es es' : weight x (l ++ l') (es ++ es') = weight x l es + weight x l' es'.
Proof. unfold weight. rewrite flat_map_app, map_app, !count_occ_app. lia. Qed.
Lemma weight_e x l e es : weight x l (e :: es) = cnt x (decls_of (items_expr E e)) + weight x l es.
Proof. unfold weight. cbn [flat_map]. rewrite map_app, count_occ_app, (proj1 (expr_count x)). lia. Qed.
Lemma weight_d x d l es : weight x (d :: l) es = cnt x [d] + weight x l es.
Proof. unfold weight. change (d :: l) with ([d] ++ l). rewrite count_occ_app. lia. Qed.
Lemma pat_count x : (forall p, cnt x (decls_of (items_pat E p)) = weight x (vars p) (all_conds p)) /\ (forall ps, cnt x (decls_of (items_pats E ps)) = weight x (varss ps) (all_condss ps)).
Proof.
  apply pats_mutind; intros; cbn [items_pat items_pats vars varss all_conds all_condss]; fold (items_pat E) (items_pats E); rewrite ?weight_app, ?decls_app, ?count_occ_app, ?H, ?H0; auto.
  - rewrite local_decls. unfold weight. cbn [flat_map map count_occ]. destruct (Nat.eq_dec d x); lia.
  - rewrite weight_e. unfold weight. cbn [flat_map map count_occ]. lia.
Qed.
Lemma stmts_count x : (forall s, cnt x (decls_of (items_stmt E s)) = weight x (locals_stmt s) (texts_stmt s)) /\ (forall b, cnt x (decls_of (items_block E b)) = weight x (locals b) (texts b)) /\
  (forall ms, cnt x (decls_of (items_matches E ms)) = weight x (locals_matches ms) (texts_matches ms)).
Proof.
  assert (Z : weight x [] [] = 0) by reflexivity.
  apply stmts_mut; intros; cbn [items_stmt items_block items_matches locals_stmt locals locals_matches texts_stmt texts texts_matches]; fold (items_stmt E) (items_block E) (items_matches E);
    rewrite ?weight_d, ?weight_e, ?weight_app, ?decls_app, ?count_occ_app, ?local_decls, ?(proj1 (pat_count x)), ?H, ?H0, ?Z; try lia; auto.
  destruct def; cbn [items_default def_expr]; rewrite ?weight_d, ?weight_e, ?Z; [|lia|lia]. f_equal.
Qed.
Lemma instances_nodup : NoDup (names R) -> let '(b, n) := number_block 0 (r_body R) in NoDup (instances E R b n).
Proof.
  intros N. destruct (number_block 0 (r_body R)) as [b n] eqn:Q. pose proof (proj1 (proj2 number_texts) (r_body R) 0) as [Ht Hl]. rewrite Q in Ht, Hl. cbn [fst] in *.
  assert (D : NoDup (decls_of (items E R b))).
  { apply (NoDup_count_occ Nat.eq_dec). intros x. pose proof (proj1 (NoDup_count_occ Nat.eq_dec _) N x) as C. unfold names in C. change (r_lhs R :: ?l) with ([r_lhs R] ++ l) in C.
    unfold items. rewrite !decls_app, !count_occ_app, node_decls, (proj1 (proj2 (stmts_count x))), Ht, Hl. unfold weight. change (r_lhs R :: map fst (r_kids R) ++ locals (r_body R) ++ map fst (rule_calls R)) with ([r_lhs R] ++ map fst (r_kids R) ++ locals (r_body R) ++ map fst (rule_calls R)) in C. rewrite !count_occ_app in C. unfold rule_calls in C.
    assert (K : decls_of (flat_map (kid_items E) (r_kids R)) = map fst (r_kids R)). { clear. induction (r_kids R) as [|[m [phy|]] l IH]; cbn [flat_map map fst]; [reflexivity| |]; rewrite decls_app, IH; unfold kid_items; cbn [fst snd]; [rewrite node_decls|]; reflexivity. }
    rewrite K. lia. }
  assert (T : tidy (items E R b)).
  { unfold items in *. rewrite !decls_app in D. apply tidy_app; [apply node_tidy| |now rewrite decls_app]. apply tidy_app; [|apply stmts_tidy; eauto using NoDup_app_r|eauto using NoDup_app_r].
    apply NoDup_app_r, NoDup_app_l in D. revert D. clear -F. induction (r_kids R) as [|k l IH]; intros D; [apply tidy_nil|]. cbn [flat_map] in *. rewrite decls_app in D. apply tidy_app; [|apply IH; eauto using NoDup_app_r|exact D]. unfold kid_items. destruct (snd k); [apply node_tidy|]. split; [constructor|intros i []]. }
  unfold instances. destruct T as [T1 T2].
  assert (S : NoDup (map (fun k => mkInst (AT k) None None) (seq 0 n))). { apply FinFun.Injective_map_NoDup; [|apply seq_NoDup]. intros f f' H. now injection H as ->. }
  assert (X : forall i, In i (map (fun k => mkInst (AT k) None None) (seq 0 n)) -> ~ In i (insts_of (items E R b))). { intros i H H'. apply in_map_iff in H. destruct H as (k & <- & _). destruct (T2 _ H') as (d & O & _). discriminate. }
  revert S X. induction (map (fun k => mkInst (AT k) None None) (seq 0 n)) as [|i l IH]; intros S X; [exact T1|]. cbn [app]. inversion S as [|? ? Ni Nl]; subst. constructor.
  - intros H. apply in_app_iff in H. destruct H as [H|H]; [contradiction|]. apply (X i); [now left|exact H].
  - apply IH; [exact Nl|]. intros i' Hi'. apply X. now right.
Qed.
End INST.
