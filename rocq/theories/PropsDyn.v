(** * PropsDyn: the dynamic code generator of aps2scala (C98-C105). *)
From Verif Require Import Base DyModel DySpec DyText DyRun DyFunc.
From Coq Require Import Lia.

(** The statements are of the kinds that can be translated. *)
Definition all_supported (ms : list tlm) : Prop := forall m, In m ms -> forallb supported (t_body m) = true.
(** At most [n] statements and branches within each other *)
Definition nested_at_most (n : nat) (ms : list tlm) : Prop := forall m, In m ms -> depth_block (t_body m) <= n.

Lemma all_supported_iff : forall ms, all_supported ms -> supported_all ms = true.
Proof. intros ms H. unfold supported_all. apply forallb_forall. exact H. Qed.
Lemma nested_iff : forall ms, (depth_all ms <=? MAXDEPTH) = true <-> nested_at_most 198 ms.
Proof.
  intros ms. rewrite Nat.leb_le. unfold nested_at_most, MAXDEPTH. induction ms as [|m ms IH]; cbn [depth_all].
  - split; [intros _ m []|lia].
  - split.
    + intros H m' [<-|I]; [lia|]. apply (proj1 IH); [lia|exact I].
    + intros H. apply Nat.max_lub; [specialize (H m (or_introl eq_refl)); lia|]. apply (proj2 IH). intros m' I. apply H. right; exact I.
Qed.

Lemma ok_inj : forall A (x y : A), Ok x = Ok y -> x = y.
Proof. intros A x y E. injection E. trivial. Qed.

(** ** C98: the text that is generated *)
Theorem attribute_text_wellformed : forall a ms, all_supported ms -> a_inh a && a_col a = false ->
  (nested_at_most 198 ms -> exists F, implement_attribute a ms = Ok (text_func F)) /\
  (~ nested_at_most 198 ms -> implement_attribute a ms = Exit).
Proof.
  intros a ms S IC. rewrite (attr_text a ms (all_supported_iff ms S) IC).
  pose proof (nested_iff ms) as N. destruct (depth_all ms <=? MAXDEPTH); split; intros H; try reflexivity.
  - exists (attr_func a ms). reflexivity.
  - exfalso. apply H, N. reflexivity.
  - apply N in H. discriminate.
Qed.
Theorem variable_text_wellformed : forall a ms, all_supported ms ->
  (nested_at_most 198 ms -> exists F, implement_var_value_decl a ms = Ok (text_func F)) /\
  (~ nested_at_most 198 ms -> implement_var_value_decl a ms = Exit).
Proof.
  intros a ms S. rewrite (var_text a ms (all_supported_iff ms S)).
  pose proof (nested_iff ms) as N. destruct (depth_all ms <=? MAXDEPTH); split; intros H; try reflexivity.
  - exists (var_func a ms). reflexivity.
  - exfalso. apply H, N. reflexivity.
  - apply N in H. discriminate.
Qed.
Theorem function_text_wellformed : forall a b, forallb supported b = true ->
  (depth_block b <= 200 -> exists F, implement_function_body a b = Ok (text_func F)) /\
  (~ depth_block b <= 200 -> implement_function_body a b = Exit).
Proof.
  intros a b S. rewrite (fun_text a b S). split; intros H.
  - apply Nat.leb_le in H. unfold MAXDEPTH. rewrite H. exists (fun_func a b). reflexivity.
  - destruct (Nat.leb_spec (depth_block b) MAXDEPTH); [unfold MAXDEPTH in *; lia|reflexivity].
Qed.
Theorem local_text_wellformed : forall a m path b, forallb supported b = true ->
  (depth_block b <= 200 -> exists F, implement_local_attribute a m path b = Ok (text_lfunc F)) /\
  (~ depth_block b <= 200 -> implement_local_attribute a m path b = Exit).
Proof.
  intros a m path b S. rewrite (loc_text a m path b S). split; intros H.
  - apply Nat.leb_le in H. unfold MAXDEPTH. rewrite H. exists (loc_func a m path b). reflexivity.
  - destruct (Nat.leb_spec (depth_block b) MAXDEPTH); [unfold MAXDEPTH in *; lia|reflexivity].
Qed.
(** the text is that of one function only *)
Theorem text_determines_function : forall F G, text_func F = text_func G -> F = G.
Proof. exact func_inj. Qed.
Theorem text_determines_local_function : forall F G, text_lfunc F = text_lfunc G -> F = G.
Proof. exact lfunc_inj. Qed.

(** Every brace that is opened is closed ... *)
Lemma count_app : forall f l l', count f (l ++ l') = count f l + count f l'.
Proof. intros. unfold count. rewrite filter_app, app_length. reflexivity. Qed.
Definition bal (l : list token) : Prop := count opens l = count closes l.
Lemma bal_app : forall l l', bal l -> bal l' -> bal (l ++ l').
Proof. unfold bal. intros. rewrite !count_app. lia. Qed.
Lemma bal_wrap : forall t l, opens t = true -> closes t = false -> bal l -> bal (t :: l ++ [KClose]).
Proof.
  unfold bal. intros t l O C B. unfold count in *. cbn [filter]. rewrite O, C. cbn [length].
  rewrite !filter_app, !app_length. cbn. lia.
Qed.
Lemma text_bal : forall p, bal (text p).
Proof.
  assert (B : forall b, Forall (fun p => bal (text p)) b -> bal (text_block b)).
  { induction 1 as [|p b F _ IH]; [reflexivity|]. unfold text_block in *. cbn [flat_map]. apply bal_app; assumption. }
  assert (W3 : forall t p l, opens t = true -> closes t = false -> bal l -> bal (t :: KCase p :: l ++ [KClose; KSkip; KClose])).
  { intros t p l O C H. change (bal (t :: (KCase p :: l ++ [KClose; KSkip; KClose]))).
    replace (KCase p :: l ++ [KClose; KSkip; KClose]) with (((KCase p :: l ++ [KClose]) ++ [KSkip]) ++ [KClose])
      by (cbn [app]; rewrite <- !app_assoc; reflexivity).
    apply bal_wrap; [exact O|exact C|]. apply bal_app; [|reflexivity]. apply bal_wrap; [reflexivity|reflexivity|exact H]. }
  apply prog_ind2; intros; try reflexivity.
  - rewrite text_PIf. apply bal_wrap; [reflexivity|reflexivity|].
    induction H as [|[t b] l F _ IH]; [reflexivity|]. cbn [text_arms snd] in *.
    replace ((if t then KThen else KElse) :: text_block b ++ KClose :: text_arms l)
      with (((if t then KThen else KElse) :: text_block b ++ [KClose]) ++ text_arms l)
      by (cbn [app]; rewrite <- !app_assoc; reflexivity).
    apply bal_app; [|exact IH]. apply bal_wrap; [destruct t; reflexivity|destruct t; reflexivity|apply B; exact F].
  - rewrite text_PMatch. rewrite app_assoc. apply bal_wrap; [reflexivity|reflexivity|]. apply bal_app.
    + clear H0. induction H as [|[t b] l F _ IH]; [reflexivity|]. cbn [text_alts snd] in *.
      replace (KCase t :: text_block b ++ KClose :: text_alts l)
        with ((KCase t :: text_block b ++ [KClose]) ++ text_alts l)
        by (cbn [app]; rewrite <- !app_assoc; reflexivity).
      apply bal_app; [|exact IH]. apply bal_wrap; [reflexivity|reflexivity|apply B; exact F].
    + destruct df as [b|]; [|reflexivity]. cbn [opt_alt]. apply bal_wrap; [reflexivity|reflexivity|apply B; exact H0].
  - rewrite text_PForIn. apply bal_wrap; [reflexivity|reflexivity|apply B; assumption].
  - rewrite text_PNodes. apply W3; [reflexivity|reflexivity|apply B; assumption].
  - rewrite text_PIfType. apply W3; [reflexivity|reflexivity|apply B; assumption].
  - rewrite text_PAnchor. apply W3; [reflexivity|reflexivity|apply B; assumption].
Qed.
Lemma block_bal : forall b, bal (text_block b).
Proof. induction b as [|p b IH]; [reflexivity|]. unfold text_block in *. cbn [flat_map]. apply bal_app; [apply text_bal|exact IH]. Qed.

Theorem functions_balanced : forall F, count closes (text_func F) = count opens (text_func F).
Proof.
  intros [s b e]. symmetry. unfold text_func. cbn [f_start f_body f_end].
  assert (R : forall l, bal (text_end e :: l) <-> bal l) by (intros l; destruct e; reflexivity).
  destruct s as [| | |i].
  - change (bal (KDef :: text_block b ++ [text_end e; KClose])).
    replace (text_block b ++ [text_end e; KClose]) with ((text_block b ++ [text_end e]) ++ [KClose]) by (rewrite <- app_assoc; reflexivity).
    apply bal_wrap; [reflexivity|reflexivity|]. apply bal_app; [apply block_bal|apply R; reflexivity].
  - change (bal (KDef :: KSelf :: text_block b ++ [text_end e; KClose])).
    replace (KSelf :: text_block b ++ [text_end e; KClose]) with ((KSelf :: text_block b ++ [text_end e]) ++ [KClose]) by (cbn [app]; rewrite <- app_assoc; reflexivity).
    apply bal_wrap; [reflexivity|reflexivity|]. apply (bal_app [KSelf]); [reflexivity|]. apply bal_app; [apply block_bal|apply R; reflexivity].
  - change (bal (KDef :: KParent :: KIfParent :: text_block b ++ [KClose; text_end e; KClose])).
    replace (KParent :: KIfParent :: text_block b ++ [KClose; text_end e; KClose])
      with (([KParent] ++ (KIfParent :: text_block b ++ [KClose]) ++ [text_end e]) ++ [KClose]) by (cbn [app]; rewrite <- !app_assoc; reflexivity).
    apply bal_wrap; [reflexivity|reflexivity|]. apply bal_app; [reflexivity|]. apply bal_app; [|apply R; reflexivity].
    apply bal_wrap; [reflexivity|reflexivity|]. apply block_bal.
  - change (bal (KDef :: KColl i :: text_block b ++ [text_end e; KClose])).
    replace (KColl i :: text_block b ++ [text_end e; KClose]) with ((KColl i :: text_block b ++ [text_end e]) ++ [KClose]) by (cbn [app]; rewrite <- app_assoc; reflexivity).
    apply bal_wrap; [reflexivity|reflexivity|]. apply (bal_app [KColl i]); [reflexivity|]. apply bal_app; [apply block_bal|apply R; reflexivity].
Qed.

(** ... but not in the function of an inherited collection attribute: it always has
    one closing brace too many, so it is no text of a function. *)
Theorem inherited_collection_refuted : forall a ms out, all_supported ms -> a_inh a = true -> a_col a = true ->
  implement_attribute a ms = Ok out ->
  count closes out = 1 + count opens out /\ forall F, out <> text_func F.
Proof.
  intros a ms out S I C E. rewrite (attr_text_bad a ms (all_supported_iff ms S)) in E by (rewrite I, C; reflexivity).
  destruct (depth_all ms <=? MAXDEPTH); [|discriminate]. injection E as <-.
  assert (K : forall b, count closes (KDef :: KColl (a_init a) :: text_block b ++ [KClose; KRetColl; KClose]) =
     1 + count opens (KDef :: KColl (a_init a) :: text_block b ++ [KClose; KRetColl; KClose])).
  { intros b. pose proof (block_bal b) as B. unfold bal in B.
    change (KDef :: KColl (a_init a) :: text_block b ++ [KClose; KRetColl; KClose])
      with ([KDef; KColl (a_init a)] ++ text_block b ++ [KClose; KRetColl; KClose]).
    rewrite !count_app, B. cbn. lia. }
  split; [apply K|]. intros F Q. pose proof (K (f_body (attr_func a ms))) as K1. cbn [attr_func f_body] in K1. rewrite Q in K1. rewrite functions_balanced in K1. lia.
Qed.

(** ** C99: synthesized attributes *)
Theorem synthesized_value : forall W a ms F anode env,
  all_supported ms -> a_inh a = false -> a_col a = false ->
  implement_attribute a ms = Ok (text_func F) ->
  (* patterns match nodes of their type only; nodes are listed once *)
  (forall m, In m ms -> matchp (t_pat m) anode (set_anchor anode env) <> None -> In anode (nodes (w := W) (t_ty m))) ->
  (forall m, In m ms -> NoDup (nodes (w := W) (t_ty m))) ->
  (* the attribute of a node is assigned where the node itself is matched *)
  (forall m n, In m ms -> In n (nodes (t_ty m)) -> n <> anode -> assigned_at W (a_decl a) anode env m n = []) ->
  (* C103 *)
  (forall m, In m ms -> cases_ok_at W (a_decl a) env m anode) ->
  run_func W F anode env = single_value W (a_default a) (set_anchor anode env) (assigned W (a_decl a) anode env ms).
Proof.
  intros W a ms F anode env S I C E T ND L K.
  rewrite (attr_text a ms (all_supported_iff ms S)) in E by (rewrite I; reflexivity).
  destruct (depth_all ms <=? MAXDEPTH); [|discriminate]. injection E as E. apply func_inj in E. subst F.
  unfold run_func, attr_func. cbn [f_start f_body f_end]. rewrite I, C. rewrite <- C at 1.
  rewrite (run_tlms W a anode (Some anode) (fun _ => PAnchor) (fun m => assigned_at W (a_decl a) anode env m anode) (set_anchor anode env) ms).
  - rewrite finish_single by exact C. f_equal. unfold assigned. clear K.
    induction ms as [|m ms IH]; [reflexivity|]. cbn [flat_map]. rewrite IH.
    + f_equal. assert (D : In anode (nodes (t_ty m)) \/ matchp (t_pat m) anode (set_anchor anode env) = None).
      { destruct (matchp (t_pat m) anode (set_anchor anode env)) eqn:M; [left|right; reflexivity].
        apply (T m (or_introl eq_refl)). congruence. }
      destruct D as [D|D].
      * symmetry. apply flat_one; [apply (ND m (or_introl eq_refl))|exact D|]. intros n N. apply (L m n (or_introl eq_refl) N).
      * assert (Z : assigned_at W (a_decl a) anode env m anode = []) by (unfold assigned_at; rewrite D; reflexivity).
        rewrite Z. symmetry. apply flat_none. intros n N. 
        destruct (matchp (t_pat m) n (set_anchor n env)) eqn:M.
        -- apply (L m n (or_introl eq_refl) N). intros ->. congruence.
        -- unfold assigned_at. rewrite M. reflexivity.
    + intros m' I'; apply S; right; exact I'.
    + intros m' I'; apply T; right; exact I'.
    + intros m' I'; apply ND; right; exact I'.
    + intros m' n I'; apply L; right; exact I'.
  - intros m I' M. apply assigned_at_none; [apply S; exact I'|exact M].
  - intros m c I'. rewrite <- exec_one. cbn [exec_block]. cbn [exec]. unfold assigned_at.
    specialize (K m I'). unfold cases_ok_at in K. destruct (matchp (t_pat m) anode (set_anchor anode env)) as [env'|].
    + rewrite exec_fix. rewrite (run_block W (a_decl a) (a_col a) anode (Some anode) (t_body m) (S m I') env' c (K env' eq_refl)).
      rewrite deliver_scope. unfold deliver. destruct (a_col a); [reflexivity|]. destruct (assigned_in W (a_decl a) anode env' (t_body m)); reflexivity.
    + rewrite deliver_nil. reflexivity.
Qed.

(** ** C100: inherited attributes *)
Theorem inherited_value : forall W a ms F anode env,
  all_supported ms -> a_inh a = true -> a_col a = false ->
  implement_attribute a ms = Ok (text_func F) ->
  (* the nodes of a type: each listed once *)
  (forall m n, In m ms -> In n (nodes (w := W) (t_ty m)) -> node_type n = t_ty m) ->
  (forall m n, In m ms -> parent anode = Some n -> node_type n = t_ty m -> In n (nodes (w := W) (t_ty m))) ->
  (forall m, In m ms -> NoDup (nodes (w := W) (t_ty m))) ->
  (* the attribute of a node is assigned where its parent is matched *)
  (forall m n, In m ms -> In n (nodes (t_ty m)) -> parent anode <> Some n -> assigned_at W (a_decl a) anode env m n = []) ->
  (* C103 *)
  (forall m n, In m ms -> parent anode = Some n -> cases_ok_at W (a_decl a) env m n) ->
  run_func W F anode env = single_value W (a_default a) env (assigned W (a_decl a) anode env ms).
Proof.
  intros W a ms F anode env S I C E T T' ND L K.
  rewrite (attr_text a ms (all_supported_iff ms S)) in E by (rewrite C; apply andb_false_r).
  destruct (depth_all ms <=? MAXDEPTH); [|discriminate]. injection E as E. apply func_inj in E. subst F.
  unfold run_func, attr_func. cbn [f_start f_body f_end]. rewrite I, C.
  destruct (parent anode) as [p|] eqn:P.
  - rewrite <- C at 1. rewrite (run_tlms W a anode (Some p) PIfType (fun m => if node_type p =? t_ty m then assigned_at W (a_decl a) anode env m p else []) (set_anchor p env) ms).
    + rewrite (deliver_scope W (a_col a)), finish_single by exact C. f_equal. unfold assigned. clear K.
      induction ms as [|m ms IH]; [reflexivity|]. cbn [flat_map]. rewrite IH.
      * f_equal. destruct (Nat.eqb_spec (node_type p) (t_ty m)) as [Q|Q].
        -- symmetry. apply flat_one; [apply (ND m (or_introl eq_refl))|apply (T' m p (or_introl eq_refl) eq_refl Q)|].
           intros n N D. apply (L m n (or_introl eq_refl) N). congruence.
        -- symmetry. apply flat_none. intros n N. apply (L m n (or_introl eq_refl) N). intros X. injection X as ->.
           apply Q. apply (T m n (or_introl eq_refl) N).
      * intros m' I'; apply S; right; exact I'.
      * intros m' n I'; apply T; right; exact I'.
      * intros m' n I'; apply T'; right; exact I'.
      * intros m' I'; apply ND; right; exact I'.
      * intros m' n I'; apply L; right; exact I'.
    + intros m I' M. destruct (node_type p =? t_ty m); [|reflexivity]. apply assigned_at_none; [apply S; exact I'|exact M].
    + intros m c I'. cbn [exec]. destruct (node_type p =? t_ty m); [|rewrite deliver_nil; reflexivity]. unfold assigned_at.
      specialize (K m p I' eq_refl). unfold cases_ok_at in K. destruct (matchp (t_pat m) p (set_anchor p env)) as [env'|].
      * rewrite exec_fix. rewrite (run_block W (a_decl a) (a_col a) anode (Some p) (t_body m) (S m I') env' c (K env' eq_refl)).
        apply deliver_scope.
      * rewrite deliver_nil. reflexivity.
  - rewrite <- (deliver_nil W (a_col a)). rewrite finish_single by exact C. f_equal. symmetry. unfold assigned.
    apply flat_none. intros m M. apply flat_none. intros n N. apply (L m n M N). congruence.
Qed.

(** ** C101: collections *)
Theorem collection_value : forall W a ms F anode env,
  all_supported ms -> a_inh a = false -> a_col a = true ->
  implement_attribute a ms = Ok (text_func F) ->
  (forall m n, In m ms -> In n (nodes (t_ty m)) -> cases_ok_at W (a_decl a) env m n) ->
  run_func W F anode env = collected W (a_init a) env (assigned W (a_decl a) anode env ms).
Proof.
  intros W a ms F anode env S I C E K.
  rewrite (attr_text a ms (all_supported_iff ms S)) in E by (rewrite I; reflexivity).
  destruct (depth_all ms <=? MAXDEPTH); [|discriminate]. injection E as E. apply func_inj in E. subst F.
  unfold run_func, attr_func. cbn [f_start f_body f_end]. rewrite C. rewrite <- C at 1.
  rewrite (run_nodes W a anode None ms env _ (all_supported_iff ms S) K).
  rewrite finish_collect by exact C. reflexivity.
Qed.

(** ** C102: global variables *)
Theorem global_value : forall W a ms F anode env,
  all_supported ms -> a_col a = false ->
  implement_var_value_decl a ms = Ok (text_func F) ->
  (forall m n, In m ms -> In n (nodes (t_ty m)) -> cases_ok_at W (a_decl a) env m n) ->
  run_func W F anode env = single_value W (a_default a) env (assigned W (a_decl a) anode env ms).
Proof.
  intros W a ms F anode env S C E K.
  rewrite (var_text a ms (all_supported_iff ms S)) in E.
  destruct (depth_all ms <=? MAXDEPTH); [|discriminate]. injection E as E. apply func_inj in E. subst F.
  unfold run_func, var_func. cbn [f_start f_body f_end]. rewrite C. rewrite <- C at 1.
  rewrite (run_nodes W a anode None ms env _ (all_supported_iff ms S) K).
  apply finish_single. exact C.
Qed.
Theorem global_collection_value : forall W a ms F anode env,
  all_supported ms -> a_col a = true ->
  implement_var_value_decl a ms = Ok (text_func F) ->
  (forall m n, In m ms -> In n (nodes (t_ty m)) -> cases_ok_at W (a_decl a) env m n) ->
  run_func W F anode env = collected W (a_init a) env (assigned W (a_decl a) anode env ms).
Proof.
  intros W a ms F anode env S C E K.
  rewrite (var_text a ms (all_supported_iff ms S)) in E.
  destruct (depth_all ms <=? MAXDEPTH); [|discriminate]. injection E as E. apply func_inj in E. subst F.
  unfold run_func, var_func. cbn [f_start f_body f_end]. rewrite C. rewrite <- C at 1.
  rewrite (run_nodes W a anode None ms env _ (all_supported_iff ms S) K).
  rewrite finish_collect by exact C. reflexivity.
Qed.

(** ** C103: case statements.  If every branch of the case statements that mention
    the attribute mentions it, the condition of C99-C102 holds in all worlds ... *)
Theorem full_cases_partial : forall W d m env n,
  forallb (cases_full d) (t_body m) = true -> cases_ok_at W d env m n.
Proof.
  intros W d.
  assert (BLK : forall b, Forall (fun s => cases_full d s = true -> forall env, cases_ok W d env s = true) b ->
     forallb (cases_full d) b = true -> forall env, cases_ok_block W d env b = true).
  { induction 1 as [|s b F _ IH]; intros H env; [reflexivity|]. cbn [forallb] in H. apply andb_true_iff in H.
    rewrite cases_cons, (F (proj1 H)). cbn [andb]. apply IH. tauto. }
  assert (ST : forall s, cases_full d s = true -> forall env, cases_ok W d env s = true).
  { apply (stmt_ind2 (fun s => cases_full d s = true -> forall env, cases_ok W d env s = true)); try (intros; reflexivity).
    - intros c t f FT FF H env. cbn [cases_full] in H. apply andb_true_iff in H. rewrite cases_SIf.
      destruct (truth (eval c env)); apply BLK; tauto.
    - intros e ms df FM FD H env. cbn [cases_full] in H. rewrite !andb_true_iff in H. destruct H as ((H & H1) & H2).
      rewrite cases_SCase. unfold branch_ok. destruct (mentions d (SCase e ms df)).
      + cbn [negb orb] in *. apply andb_true_iff in H. destruct H as (H & H3). clear - FM FD H H1 H2 H3 BLK.
        induction ms as [|[p b] ms IH]; cbn [select].
        * rewrite H3, (BLK df FD H2). reflexivity.
        * inversion FM as [|? ? F1 F2]; subst. cbn [forallb snd] in *. apply andb_true_iff in H, H1.
          destruct (matchp p (eval e env) env).
          -- rewrite (proj1 H). cbn [andb]. apply BLK; tauto.
          -- apply IH; tauto.
      + cbn [negb orb andb]. clear - FM FD H1 H2 BLK.
        induction ms as [|[p b] ms IH]; cbn [select].
        * apply (BLK df FD H2).
        * inversion FM as [|? ? F1 F2]; subst. cbn [forallb snd] in *. apply andb_true_iff in H1.
          destruct (matchp p (eval e env) env); [apply BLK; tauto|apply IH; tauto].
    - intros x e b FB H env. cbn [cases_full] in H. rewrite cases_SForIn. apply forallb_forall. intros v _. apply BLK; assumption. }
  intros m env n H env' _. apply BLK; [|exact H]. apply Forall_forall. intros s _. apply ST.
Qed.
(** ... otherwise the branch that is selected may be missing.  In all worlds, with a
    case statement whose first branch assigns nothing, the default branch is
    executed even if the first branch matches: *)
Theorem empty_branch_refuted : forall W a e p r F anode env, a_col a = false ->
  implement_function_body a [SCase e [(p, [])] [SAssign (LValue (a_decl a)) r]] = Ok (text_func F) ->
  run_func W F anode env = Value (eval r env) /\
  (matchp p (eval e env) env <> None ->
   assigned_in W (a_decl a) anode env [SCase e [(p, [])] [SAssign (LValue (a_decl a)) r]] = []).
Proof.
  intros W a e p r F anode env C E.
  set (b := [SCase e [(p, [])] [SAssign (LValue (a_decl a)) r]]) in *.
  rewrite (fun_text a b) in E by reflexivity. destruct (depth_block b <=? MAXDEPTH); [|discriminate].
  injection E as E. apply func_inj in E. subst F. split.
  - unfold run_func, fun_func. cbn [f_start f_body f_end]. rewrite C. subst b.
    unfold comp_block. cbn [flat_map comp]. cbn [mentions existsb]. unfold mentions_in. cbn [existsb snd mentions].
    rewrite Nat.eqb_refl. reflexivity.
  - intros M. subst b. unfold assigned_in. cbn [active_block active]. destruct (matchp p (eval e env) env); [reflexivity|contradiction].
Qed.
(** and without a branch for the default there is an exception instead of the
    default value: *)
Theorem no_default_refuted : forall W a e p r df F anode env, a_col a = false -> a_default a = Some df ->
  implement_function_body a [SCase e [(p, [SAssign (LValue (a_decl a)) r])] []] = Ok (text_func F) ->
  matchp p (eval e env) env = None ->
  run_func W F anode env = MatchError /\
  single_value W (a_default a) env
    (assigned_in W (a_decl a) anode env [SCase e [(p, [SAssign (LValue (a_decl a)) r])] []]) = Value (eval df env).
Proof.
  intros W a e p r df F anode env C D E M.
  set (b := [SCase e [(p, [SAssign (LValue (a_decl a)) r])] []]) in *.
  rewrite (fun_text a b) in E by reflexivity. destruct (depth_block b <=? MAXDEPTH); [|discriminate].
  injection E as E. apply func_inj in E. subst F. split.
  - unfold run_func, fun_func. cbn [f_start f_body f_end]. rewrite C. subst b.
    unfold comp_block. cbn [flat_map comp]. cbn [mentions existsb]. unfold mentions_in. cbn [existsb snd fst mentions].
    rewrite Nat.eqb_refl. cbn [orb negb flat_map app exec_block exec seq finish]. cbn. rewrite M. reflexivity.
  - subst b. unfold assigned_in. cbn [active_block active]. rewrite M, D. reflexivity.
Qed.

(** ** C104: functions *)
(** the variables declared in a block itself *)
Definition declared (b : list stmt) : list var :=
  flat_map (fun s => match s with SLocal x false (Some _) => [x] | _ => [] end) b.

Theorem function_value : forall W a b F anode env,
  forallb supported b = true -> a_col a = false ->
  implement_function_body a b = Ok (text_func F) ->
  cases_ok_block W (a_decl a) env b = true ->
  (* the default does not use the variables of the function *)
  (forall e x v env, a_default a = Some e -> In x (declared b) -> eval (w := W) e (setv x v env) = eval e env) ->
  run_func W F anode env = single_value W (a_default a) env (assigned_in W (a_decl a) anode env b).
Proof.
  intros W a b F anode env S C E K D.
  rewrite (fun_text a b S) in E. destruct (depth_block b <=? MAXDEPTH); [|discriminate].
  injection E as E. apply func_inj in E. subst F.
  unfold run_func, fun_func. cbn [f_start f_body f_end]. rewrite C. rewrite <- C at 1.
  rewrite (run_block W (a_decl a) (a_col a) anode None b S env None K), finish_single by exact C.
  assert (A : forall e, a_default a = Some e -> eval e (after W env b) = eval e env).
  { intros e Q. clear - D Q. revert env. unfold declared in D. induction b as [|s b IH]; intros env; [reflexivity|].
    cbn [after]. cbn [flat_map] in D. rewrite IH.
    - destruct s as [| | | | |x [|] [i|]|]; cbn [after1]; try reflexivity. apply D; [exact Q|left; reflexivity].
    - intros e' x v env' Q' I. apply D; [exact Q'|apply in_or_app; right; exact I]. }
  unfold single_value. destruct (assigned_in W (a_decl a) anode env b); [|reflexivity].
  destruct (a_default a); [|reflexivity]. rewrite A by reflexivity. reflexivity.
Qed.
Theorem function_collection_value : forall W a b F anode env,
  forallb supported b = true -> a_col a = true ->
  implement_function_body a b = Ok (text_func F) ->
  cases_ok_block W (a_decl a) env b = true ->
  run_func W F anode env = collected W (a_init a) env (assigned_in W (a_decl a) anode env b).
Proof.
  intros W a b F anode env S C E K.
  rewrite (fun_text a b S) in E. destruct (depth_block b <=? MAXDEPTH); [|discriminate].
  injection E as E. apply func_inj in E. subst F.
  unfold run_func, fun_func. cbn [f_start f_body f_end]. rewrite C. rewrite <- C at 1.
  rewrite (run_block W (a_decl a) (a_col a) anode None b S env _ K). apply finish_collect. exact C.
Qed.
(** Assignments to other variables than the result make no difference to the text:
    a variable of the function has its initial value, whatever is assigned to it. *)
Lemma dump_Block_app : forall d col b1 b2 g,
  dump_Block d col (b1 ++ b2) g = (g <- dump_Block d col b1 g ;; dump_Block d col b2 g).
Proof.
  intros d col b1 b2. induction b1 as [|s b1 IH]; intros g; [reflexivity|]. cbn [app dump_Block].
  destruct (dump_stmt d col s g); cbn [bind]; try reflexivity. apply IH.
Qed.
Theorem local_assignment_ignored_refuted : forall a b1 y r b2, y <> a_decl a ->
  implement_function_body a (b1 ++ SAssign (LValue y) r :: b2) = implement_function_body a (b1 ++ b2).
Proof.
  intros a b1 y r b2 D. unfold implement_function_body. cbn zeta.
  match goal with |- bind (dump_Block _ _ _ ?g) _ = _ => assert (E : dump_Block (a_decl a) (a_col a) (b1 ++ SAssign (LValue y) r :: b2) g =
    dump_Block (a_decl a) (a_col a) (b1 ++ b2) g) end.
  { rewrite !dump_Block_app. destruct (dump_Block (a_decl a) (a_col a) b1 _); cbn [bind dump_Block]; try reflexivity.
    cbn [dump_stmt dump_attr_assign]. destruct (Nat.eqb_spec y (a_decl a)); [congruence|reflexivity]. }
  rewrite E. reflexivity.
Qed.

(** ** C105: local attributes.  [env']: what the top-level match binds, [env'']: what
    the case statements around the attribute bind, too. *)
Fixpoint bind_path (W : world) (path : list step) (env : W_env W) : option (W_env W) :=
  match path with
  | [] => Some env
  | InMatch e p :: r => match matchp p (eval e env) env with Some env' => bind_path W r env' | None => None end
  | _ :: r => bind_path W r env
  end.
Theorem local_attribute_value : forall W a m path b F anchor env env' env'',
  forallb supported b = true -> a_col a = false ->
  implement_local_attribute a m path b = Ok (text_lfunc F) ->
  matchp (t_pat m) anchor (set_anchor anchor env) = Some env' ->
  bind_path W path env' = Some env'' ->
  cases_ok_block W (a_decl a) env'' b = true ->
  (forall e x v env, a_default a = Some e -> In x (declared b) -> eval (w := W) e (setv x v env) = eval e env) ->
  run_lfunc W F anchor env = single_value W (a_default a) env'' (assigned_in W (a_decl a) anchor env'' b).
Proof.
  intros W a m path b F anchor env env' env'' S C E M P K D.
  rewrite (loc_text a m path b S) in E. destruct (depth_block b <=? MAXDEPTH); [|discriminate].
  apply ok_inj in E. apply lfunc_inj in E. subst F.
  unfold run_lfunc, loc_func. cbn [l_pat l_path l_init l_body l_end]. rewrite M.
  assert (PE : forall env, enter W (matches_of path) env = bind_path W path env).
  { clear. induction path as [|[c|c|e p|e] r IH]; intros env; cbn [matches_of flat_map app enter bind_path]; try apply IH; [reflexivity|].
    destruct (matchp p (eval e env) env); [apply IH|reflexivity]. }
  rewrite PE, P, C. rewrite <- C at 1.
  rewrite (run_block W (a_decl a) (a_col a) anchor (Some anchor) b S env'' None K), finish_single by exact C.
  assert (A : forall e, a_default a = Some e -> eval e (after W env'' b) = eval e env'').
  { intros e Q. clear - D Q. revert env''. unfold declared in D. induction b as [|s b IH]; intros env; [reflexivity|].
    cbn [after]. cbn [flat_map] in D. rewrite IH.
    - destruct s as [| | | | |x [|] [i|]|]; cbn [after1]; try reflexivity. apply D; [exact Q|left; reflexivity].
    - intros e' x v env' Q' I. apply D; [exact Q'|apply in_or_app; right; exact I]. }
  unfold single_value. destruct (assigned_in W (a_decl a) anchor env'' b); [|reflexivity].
  destruct (a_default a); [|reflexivity]. rewrite A by reflexivity. reflexivity.
Qed.
Theorem local_collection_value : forall W a m path b F anchor env env' env'',
  forallb supported b = true -> a_col a = true ->
  implement_local_attribute a m path b = Ok (text_lfunc F) ->
  matchp (t_pat m) anchor (set_anchor anchor env) = Some env' ->
  bind_path W path env' = Some env'' ->
  cases_ok_block W (a_decl a) env'' b = true ->
  run_lfunc W F anchor env = collected W (a_init a) env'' (assigned_in W (a_decl a) anchor env'' b).
Proof.
  intros W a m path b F anchor env env' env'' S C E M P K.
  rewrite (loc_text a m path b S) in E. destruct (depth_block b <=? MAXDEPTH); [|discriminate].
  apply ok_inj in E. apply lfunc_inj in E. subst F.
  unfold run_lfunc, loc_func. cbn [l_pat l_path l_init l_body l_end]. rewrite M.
  assert (PE : forall env, enter W (matches_of path) env = bind_path W path env).
  { clear. induction path as [|[c|c|e p|e] r IH]; intros env; cbn [matches_of flat_map app enter bind_path]; try apply IH; [reflexivity|].
    destruct (matchp p (eval e env) env); [apply IH|reflexivity]. }
  rewrite PE, P, C. rewrite <- C at 1.
  rewrite (run_block W (a_decl a) (a_col a) anchor (Some anchor) b S env'' _ K). apply finish_collect. exact C.
Qed.

(** Every local attribute of a top-level match, in whatever block, has such a
    function. *)
Lemma locals_block_fix : forall ss path b,
  (fix locals_Block (path : list step) (b ss : list stmt) :=
    match ss with
    | [] => []
    | s :: r => locals_stmt path b s ++ locals_Block path b r
    end) path b ss = flat_map (locals_stmt path b) ss.
Proof. induction ss as [|s ss IH]; intros path b; [reflexivity|]. cbn [flat_map]. rewrite <- IH. reflexivity. Qed.
Definition locals_block (path : list step) (b : list stmt) : list (list step * var * list stmt) :=
  flat_map (locals_stmt path b) b.
Lemma locals_found : forall W env b env' b', reaches W env b env' b' ->
  forall x at_ i, In (SLocal x at_ i) b' -> forall path,
  exists path', In (path ++ path', x, b') (locals_block path b) /\ bind_path W path' env = Some env'.
Proof.
  intros W env b env' b' R. induction R as [env b|env b c t f env' b' IN _ IH|env b c t f env' b' IN _ IH|
      env b e ms df p m env1 env' b' IN IM M _ IH|env b e ms df env' b' IN _ IH]; intros x at_ i L path.
  - exists []. split; [|reflexivity]. rewrite app_nil_r. unfold locals_block. apply in_flat_map.
    exists (SLocal x at_ i). split; [exact L|left; reflexivity].
  - destruct (IH x at_ i L (path ++ [InThen c])) as (q & Q & B). exists (InThen c :: q). split; [|exact B].
    rewrite <- app_assoc in Q. apply in_flat_map. exists (SIf c t f). split; [exact IN|]. cbn [locals_stmt]. apply in_or_app. left.
    rewrite locals_block_fix. exact Q.
  - destruct (IH x at_ i L (path ++ [InElse c])) as (q & Q & B). exists (InElse c :: q). split; [|exact B].
    rewrite <- app_assoc in Q. apply in_flat_map. exists (SIf c t f). split; [exact IN|]. cbn [locals_stmt]. apply in_or_app. right.
    rewrite locals_block_fix. exact Q.
  - destruct (IH x at_ i L (path ++ [InMatch e p])) as (q & Q & B). exists (InMatch e p :: q).
    split; [|cbn [bind_path]; rewrite M; exact B].
    rewrite <- app_assoc in Q. apply in_flat_map. exists (SCase e ms df). split; [exact IN|]. cbn [locals_stmt]. apply in_or_app. left.
    clear IN. induction ms as [|[p1 m1] ms IHm]; [destruct IM|]. apply in_or_app. destruct IM as [E|IM].
    + injection E as -> ->. left. rewrite locals_block_fix. exact Q.
    + right. apply IHm. exact IM.
  - destruct (IH x at_ i L (path ++ [InDefault e])) as (q & Q & B). exists (InDefault e :: q). split; [|exact B].
    rewrite <- app_assoc in Q. apply in_flat_map. exists (SCase e ms df). split; [exact IN|]. cbn [locals_stmt]. apply in_or_app. right.
    rewrite locals_block_fix. exact Q.
Qed.

Theorem every_local_attribute_value : forall W a m x at_ i b anchor env env' env'',
  (* the local attribute is declared in [b], a block of the match *)
  matchp (t_pat m) anchor (set_anchor anchor env) = Some env' ->
  reaches W env' (t_body m) env'' b -> In (SLocal x at_ i) b ->
  forallb supported b = true -> depth_block b <= 200 ->
  cases_ok_block W (a_decl a) env'' b = true ->
  (forall e x v env, a_default a = Some e -> In x (declared b) -> eval (w := W) e (setv x v env) = eval e env) ->
  exists path F,
    In (path, x, b) (flat_map (locals_stmt [] (t_body m)) (t_body m)) /\
    implement_local_attribute a m path b = Ok (text_lfunc F) /\
    run_lfunc W F anchor env =
      if a_col a then collected W (a_init a) env'' (assigned_in W (a_decl a) anchor env'' b)
      else single_value W (a_default a) env'' (assigned_in W (a_decl a) anchor env'' b).
Proof.
  intros W a m x at_ i b anchor env env' env'' M R L S D K DF.
  destruct (locals_found W env' (t_body m) env'' b R x at_ i L []) as (path & P & B). cbn [app] in P.
  destruct (proj1 (local_text_wellformed a m path b S) D) as (F & E).
  exists path, F. split; [exact P|]. split; [exact E|]. destruct (a_col a) eqn:C.
  - exact (local_collection_value W a m path b F anchor env env' env'' S C E M B K).
  - exact (local_attribute_value W a m path b F anchor env env' env'' S C E M B K DF).
Qed.

(** ** A world: three nodes 10, 11 and 12, each the parent of the next; expressions
    below 10 are variables, the others constants. *)
Definition exW : world := {|
  W_env := nat -> nat; W_val := nat;
  eval := fun e env => if e <? 10 then env e else e;
  truth := fun v => negb (v =? 0);
  elems := fun v => [v; S v];
  matchp := fun p v env =>
    let set (x w : nat) (env : nat -> nat) := fun y => if y =? x then w else env y in
    match p with
    | 0 => Some (set 0 v env)                                                      (* any node *)
    | 1 => if v <? 12 then Some (set 0 v (set 1 (S v) env)) else None              (* a node and its child *)
    | _ => if v =? 10 then Some (set 0 v (set 1 11 (set 2 12 env))) else None      (* ... and the child of the child *)
    end;
  setv := fun x w env y => if y =? x then w else env y;
  set_anchor := fun v env y => if y =? 9 then v else env y;
  same := Nat.eqb;
  nodes := fun t => if t =? 5 then [10; 11; 12] else [];
  node_type := fun _ => 5;
  parent := fun v => if v <=? 10 then None else Some (v - 1);
  combine := Nat.add |}.
Definition ex0 : W_env exW := fun _ => 0.
Definition ex_attr (d : decl) (inh col : bool) : attr := {| a_decl := d; a_inh := inh; a_col := col; a_init := 100; a_default := Some 99 |}.

(** The inherited attribute 8 of the child of a child is assigned where the first
    node is matched: the generated function looks at the parent only and gives the
    default. *)
Definition ex_grandchild := [{| t_ty := 5; t_pat := 2; t_body := [SAssign (LAttr 8 2) 22] |}].
Theorem grandchild_refuted : exists W a ms F anode env v,
  all_supported ms /\ a_inh a = true /\ a_col a = false /\
  implement_attribute a ms = Ok (text_func F) /\
  assigned W (a_decl a) anode env ms = [v] /\
  (forall m n, In m ms -> cases_ok_at W (a_decl a) env m n) /\
  run_func W F anode env <> Value v.
Proof.
  exists exW, (ex_attr 8 true false), ex_grandchild, (attr_func (ex_attr 8 true false) ex_grandchild), 12, ex0, 22.
  split; [intros m [<-|[]]; reflexivity|]. split; [reflexivity|]. split; [reflexivity|]. split; [reflexivity|].
  split; [reflexivity|]. split.
  - intros m n I. apply full_cases_partial; destruct I as [<-|[]]; reflexivity.
  - vm_compute. discriminate.
Qed.

(** ** Examples: the hypotheses can be met. *)
Fixpoint nest (n : nat) : stmt := match n with 0 => SAssign (LAttr 7 0) 20 | S n => SIf 0 [nest n] [] end.
Example ex_deep : implement_attribute (ex_attr 7 false false) [{| t_ty := 5; t_pat := 0; t_body := [nest 100] |}] = Exit /\
  (exists F, implement_attribute (ex_attr 7 false false) [{| t_ty := 5; t_pat := 0; t_body := [nest 99] |}] = Ok (text_func F)).
Proof.
  split; [vm_compute; reflexivity|].
  apply attribute_text_wellformed; [intros m [<-|[]]; reflexivity|reflexivity|]. intros m [<-|[]]. apply Nat.leb_le. vm_compute. reflexivity.
Qed.

Definition ex_syn := [{| t_ty := 5; t_pat := 0;
  t_body := [SCase 0 [(1, [SLocal 4 false (Some 20); SAssign (LAttr 7 0) 4])] [SIf 0 [SAssign (LAttr 7 0) 30] [SAssign (LAttr 6 0) 31]]] |}].
Example ex_synthesized : exists F, implement_attribute (ex_attr 7 false false) ex_syn = Ok (text_func F) /\
  run_func exW F 11 ex0 = Value (20 : W_val exW) /\ run_func exW F 12 ex0 = Value (30 : W_val exW) /\
  run_func exW F 11 ex0 = single_value exW (Some 99) (set_anchor (w := exW) 11 ex0) (assigned exW 7 11 ex0 ex_syn).
Proof.
  exists (attr_func (ex_attr 7 false false) ex_syn). split; [reflexivity|]. split; [reflexivity|]. split; [reflexivity|].
  apply (synthesized_value exW (ex_attr 7 false false) ex_syn).
  - intros m [<-|[]]; reflexivity.
  - reflexivity.
  - reflexivity.
  - reflexivity.
  - intros m [<-|[]] _. cbn. auto.
  - intros m [<-|[]]. cbn. repeat constructor; cbn; intuition discriminate.
  - intros m n [<-|[]] [<-|[<-|[<-|[]]]] D; try (exfalso; apply D; reflexivity); vm_compute; reflexivity.
  - intros m [<-|[]]. apply full_cases_partial; reflexivity.
Qed.
Definition ex_inh := [{| t_ty := 5; t_pat := 1; t_body := [SAssign (LAttr 8 1) 21] |}].
Example ex_inherited : exists F, implement_attribute (ex_attr 8 true false) ex_inh = Ok (text_func F) /\
  run_func exW F 11 ex0 = Value (21 : W_val exW) /\ run_func exW F 10 ex0 = Value (99 : W_val exW) /\
  run_func exW F 11 ex0 = single_value exW (Some 99) ex0 (assigned exW 8 11 ex0 ex_inh).
Proof.
  exists (attr_func (ex_attr 8 true false) ex_inh). split; [reflexivity|]. split; [reflexivity|]. split; [reflexivity|].
  apply (inherited_value exW (ex_attr 8 true false) ex_inh).
  - intros m [<-|[]]; reflexivity.
  - reflexivity.
  - reflexivity.
  - reflexivity.
  - intros m n [<-|[]] _. reflexivity.
  - intros m n [<-|[]] E _. injection E as <-. cbn. auto.
  - intros m [<-|[]]. cbn. repeat constructor; cbn; intuition discriminate.
  - intros m n [<-|[]] [<-|[<-|[<-|[]]]] D; try (exfalso; apply D; reflexivity); vm_compute; reflexivity.
  - intros m n [<-|[]] _. apply full_cases_partial; reflexivity.
Qed.
Definition ex_col := [{| t_ty := 5; t_pat := 1; t_body := [SForIn 3 12 [SAssign (LAttr 6 10) 3; SAssign (LAttr 6 1) 50; SAssign (LValue 6) 14]] |}].
Example ex_collection : exists F, implement_attribute (ex_attr 6 false true) ex_col = Ok (text_func F) /\
  run_func exW F 10 ex0 = Value (100 + 12 + 14 + 13 + 14 + 12 + 14 + 13 + 14 : W_val exW) /\
  run_func exW F 10 ex0 = collected exW 100 ex0 (assigned exW 6 10 ex0 ex_col).
Proof.
  exists (attr_func (ex_attr 6 false true) ex_col). split; [reflexivity|]. split; [reflexivity|].
  apply (collection_value exW (ex_attr 6 false true) ex_col).
  - intros m [<-|[]]; reflexivity.
  - reflexivity.
  - reflexivity.
  - reflexivity.
  - intros m n [<-|[]] _. apply full_cases_partial; reflexivity.
Qed.
Example ex_global : exists F G,
  implement_var_value_decl (ex_attr 6 false false) ex_col = Ok (text_func F) /\
  implement_var_value_decl (ex_attr 6 false true) ex_col = Ok (text_func G) /\
  run_func exW F 12 ex0 = single_value exW (Some 99) ex0 (assigned exW 6 12 ex0 ex_col) /\
  run_func exW G 12 ex0 = collected exW 100 ex0 (assigned exW 6 12 ex0 ex_col) /\
  assigned exW 6 12 ex0 ex_col = [14; 14; 50; 14; 50; 14].
Proof.
  exists (var_func (ex_attr 6 false false) ex_col), (var_func (ex_attr 6 false true) ex_col).
  split; [reflexivity|]. split; [reflexivity|]. split; [|split; [|reflexivity]].
  - apply (global_value exW (ex_attr 6 false false) ex_col); [intros m [<-|[]]; reflexivity|reflexivity|reflexivity|].
    intros m n [<-|[]] _. apply full_cases_partial; reflexivity.
  - apply (global_collection_value exW (ex_attr 6 false true) ex_col); [intros m [<-|[]]; reflexivity|reflexivity|reflexivity|].
    intros m n [<-|[]] _. apply full_cases_partial; reflexivity.
Qed.
Example ex_empty_branch : exists F,
  implement_function_body (ex_attr 3 false false) [SCase 11 [(1, [])] [SAssign (LValue 3) 55]] = Ok (text_func F) /\
  matchp (w := exW) 1 (eval (w := exW) 11 ex0) ex0 <> None.
Proof. exists (fun_func (ex_attr 3 false false) [SCase 11 [(1, [])] [SAssign (LValue 3) 55]]). split; [reflexivity|vm_compute; discriminate]. Qed.
Example ex_no_default : exists F,
  implement_function_body (ex_attr 3 false false) [SCase 12 [(1, [SAssign (LValue 3) 55])] []] = Ok (text_func F) /\
  matchp (w := exW) 1 (eval (w := exW) 12 ex0) ex0 = None.
Proof. exists (fun_func (ex_attr 3 false false) [SCase 12 [(1, [SAssign (LValue 3) 55])] []]). split; reflexivity. Qed.
Definition ex_fun := [SLocal 2 false (Some 0); SAssign (LValue 2) 60; SForIn 1 2 [SIf 1 [SAssign (LValue 3) 1] []]].
Example ex_function : exists F, implement_function_body (ex_attr 3 false false) ex_fun = Ok (text_func F) /\
  run_func exW F 12 ex0 = Value (1 : W_val exW) /\
  run_func exW F 12 ex0 = single_value exW (Some 99) ex0 (assigned_in exW 3 12 ex0 ex_fun).
Proof.
  exists (fun_func (ex_attr 3 false false) ex_fun). split; [reflexivity|]. split; [reflexivity|].
  apply (function_value exW (ex_attr 3 false false) ex_fun); [reflexivity|reflexivity|reflexivity|reflexivity|].
  intros e x v env E _. injection E as <-. reflexivity.
Qed.
Definition ex_loc : tlm := {| t_ty := 5; t_pat := 1;
  t_body := [SCase 1 [(2, []); (0, [SLocal 4 true (Some 70); SIf 1 [SAssign (LValue 4) 0] []])] []] |}.
Example ex_local : exists path b F,
  In (path, 4, b) (flat_map (locals_stmt [] (t_body ex_loc)) (t_body ex_loc)) /\
  implement_local_attribute (ex_attr 4 false false) ex_loc path b = Ok (text_lfunc F) /\
  run_lfunc exW F 11 ex0 = Value (12 : W_val exW).
Proof.
  exists [InMatch 1 0], [SLocal 4 true (Some 70); SIf 1 [SAssign (LValue 4) 0] []],
    (loc_func (ex_attr 4 false false) ex_loc [InMatch 1 0] [SLocal 4 true (Some 70); SIf 1 [SAssign (LValue 4) 0] []]).
  split; [cbn; auto|]. split; [reflexivity|].
  set (b := [SLocal 4 true (Some 70); SIf 1 [SAssign (LValue 4) 0] []]).
  destruct (matchp (w := exW) (t_pat ex_loc) 11 (set_anchor (w := exW) 11 ex0)) as [env'|] eqn:M; [|discriminate M].
  destruct (bind_path exW [InMatch 1 0] env') as [env''|] eqn:P; [|discriminate P].
  rewrite (local_attribute_value exW (ex_attr 4 false false) ex_loc [InMatch 1 0] b _ 11 ex0 env' env'');
    [|reflexivity|reflexivity|reflexivity|exact M|exact P| |].
  - injection M as <-. injection P as <-. reflexivity.
  - injection M as <-. injection P as <-. reflexivity.
  - intros e x v env E _. injection E as <-. reflexivity.
Qed.

Print Assumptions attribute_text_wellformed.
Print Assumptions variable_text_wellformed.
Print Assumptions function_text_wellformed.
Print Assumptions local_text_wellformed.
Print Assumptions text_determines_function.
Print Assumptions text_determines_local_function.
Print Assumptions functions_balanced.
Print Assumptions inherited_collection_refuted.
Print Assumptions synthesized_value.
Print Assumptions inherited_value.
Print Assumptions grandchild_refuted.
Print Assumptions collection_value.
Print Assumptions global_value.
Print Assumptions global_collection_value.
Print Assumptions full_cases_partial.
Print Assumptions empty_branch_refuted.
Print Assumptions no_default_refuted.
Print Assumptions function_value.
Print Assumptions function_collection_value.
Print Assumptions local_assignment_ignored_refuted.
Print Assumptions local_attribute_value.
Print Assumptions local_collection_value.
Print Assumptions every_local_attribute_value.
