(** * DyFunc: whole generated functions. *)
From Verif Require Import Base DyModel DySpec DyText DyRun.
From Coq Require Import Lia.

(** ** Text *)
Definition supported_all (ms : list tlm) : bool := forallb (fun m => forallb supported (t_body m)) ms.
Fixpoint depth_all (ms : list tlm) : nat :=
  match ms with [] => 0 | m :: r => Nat.max (2 + depth_block (t_body m)) (depth_all r) end.

Definition kind := ty -> pat -> list prog -> prog.
Definition comp_tlm (d : decl) (col : bool) (k : kind) (m : tlm) : list prog :=
  if mentions_in d (t_body m) then [k (t_ty m) (t_pat m) (comp_block d col (t_body m))] else [].
Definition comp_tlms (d : decl) (col : bool) (k : kind) (ms : list tlm) : list prog :=
  flat_map (comp_tlm d col k) ms.

(** the context [c] opens and closes what [k] has around its pattern *)
Definition fits_kind (c : tlm -> ctx) (k : kind) : Prop := forall m b,
  text (k (t_ty m) (t_pat m) b) =
  open_ctx (c m) ++ (open_ctx (CMatch (t_pat m)) ++ text_block b ++ close_ctx (CMatch (t_pat m))) ++ close_ctx (c m).

Lemma tlm_good : forall d col c k m g, fits_kind c k -> forallb supported (t_body m) = true -> wf g ->
  good (dump_tlm d col (c m) m g) g (text_block (comp_tlm d col k m)) (mentions_in d (t_body m)) (2 + depth_block (t_body m)).
Proof.
  intros d col c k m g FK S WF.
  assert (E : dump_tlm d col (c m) m g =
    (g <- push (c m) g ;; g <- (g <- push (CMatch (t_pat m)) g ;; g <- dump_Block d col (t_body m) g ;; Ok (pop g)) ;; Ok (pop g))).
  { unfold dump_tlm. destruct (push (c m) g) as [g1| | |]; cbn [bind]; try reflexivity.
    destruct (push (CMatch (t_pat m)) g1) as [g2| | |]; cbn [bind]; try reflexivity.
    destruct (dump_Block d col (t_body m) g2) as [g3| | |]; reflexivity. }
  rewrite E. clear E. eapply good_eq.
  - eapply (in_context (fun g => g <- push (CMatch (t_pat m)) g ;; g <- dump_Block d col (t_body m) g ;; Ok (pop g))
             (c m) (if mentions_in d (t_body m) then open_ctx (CMatch (t_pat m)) ++ text_block (comp_block d col (t_body m)) ++ close_ctx (CMatch (t_pat m)) else [])
             (mentions_in d (t_body m)) (1 + depth_block (t_body m)) g WF).
    intros g1 W1.
    apply (in_context (dump_Block d col (t_body m)) (CMatch (t_pat m)) (text_block (comp_block d col (t_body m)))
             (mentions_in d (t_body m)) (depth_block (t_body m)) g1 W1).
    intros g2 W2. apply block_gen; assumption.
  - unfold comp_tlm. destruct (mentions_in d (t_body m)); [|reflexivity].
    unfold text_block at 2. cbn [flat_map]. rewrite app_nil_r. symmetry. apply FK.
  - reflexivity.
  - lia.
Qed.
Lemma tlms_good : forall d col c k ms g, fits_kind c k -> supported_all ms = true -> wf g ->
  good (dump_tlms d col c ms g) g (text_block (comp_tlms d col k ms))
    (existsb (fun m => mentions_in d (t_body m)) ms) (depth_all ms).
Proof.
  intros d col c k ms. induction ms as [|m ms IH]; intros g FK S WF; [apply good_ret; exact WF|].
  unfold supported_all in *. cbn [forallb] in S. apply andb_true_iff in S. destruct S as (S1 & S2).
  cbn [dump_tlms existsb depth_all]. unfold comp_tlms in *. cbn [flat_map]. unfold text_block in *. rewrite flat_map_app.
  apply good_seq; [exact WF|apply tlm_good; assumption| | |intros g1 W1; apply IH; assumption].
  - intros R. unfold comp_tlm. rewrite R. reflexivity.
  - clear. induction ms as [|m ms IH]; [reflexivity|]. cbn [existsb flat_map]. intros R. apply orb_false_iff in R.
    destruct R as (R1 & R2). unfold comp_tlm at 1. rewrite R1. cbn [app]. apply IH. exact R2.
Qed.

(** what a piece of code at the outermost level writes *)
Lemma top_out : forall o out toks rel n, (rel = false -> toks = []) ->
  good o {| g_ctx := []; g_started := 0; g_out := out |} toks rel n ->
  if n <=? MAXDEPTH then o = Ok {| g_ctx := []; g_started := 0; g_out := out ++ toks |} else o = Exit.
Proof.
  intros o out toks rel n Z G. unfold good in G. destruct o as [g'| | |]; try tauto; cbn [g_ctx length Nat.add] in G.
  - destruct G as (G & L). apply Nat.leb_le in L. rewrite L. unfold gen_ok in G. destruct rel.
    + subst g'. reflexivity.
    + subst g'. rewrite (Z eq_refl), app_nil_r. reflexivity.
  - apply Nat.leb_gt in G. rewrite G. reflexivity.
Qed.
Lemma tlms_out : forall d col c k ms out, fits_kind c k -> supported_all ms = true ->
  if depth_all ms <=? MAXDEPTH
  then dump_tlms d col c ms {| g_ctx := []; g_started := 0; g_out := out |} =
       Ok {| g_ctx := []; g_started := 0; g_out := out ++ text_block (comp_tlms d col k ms) |}
  else dump_tlms d col c ms {| g_ctx := []; g_started := 0; g_out := out |} = Exit.
Proof.
  intros d col c k ms out FK S.
  eapply top_out; [|apply tlms_good; [exact FK|exact S|split; cbn; lia]].
  intros R. unfold comp_tlms. clear - R. induction ms as [|m ms IH]; [reflexivity|].
  cbn [existsb flat_map] in *. apply orb_false_iff in R. destruct R as (R1 & R2). unfold comp_tlm at 1. rewrite R1. apply IH. exact R2.
Qed.
Lemma block_out : forall d col b out, forallb supported b = true ->
  if depth_block b <=? MAXDEPTH
  then dump_Block d col b {| g_ctx := []; g_started := 0; g_out := out |} =
       Ok {| g_ctx := []; g_started := 0; g_out := out ++ text_block (comp_block d col b) |}
  else dump_Block d col b {| g_ctx := []; g_started := 0; g_out := out |} = Exit.
Proof.
  intros d col b out S. eapply top_out; [|apply block_gen; [exact S|split; cbn; lia]].
  intros R. unfold comp_block. rewrite comp_block_none by exact R. reflexivity.
Qed.

(** ** The functions *)
Definition end_of (a : attr) : end_kind :=
  if a_col a then RetColl else match a_default a with Some e => RetDefault e | None => Throw end.
Lemma end_text : forall a, dump_default_return (a_default a) (a_col a) = text_end (end_of a).
Proof. intros a. unfold dump_default_return, end_of. destruct (a_col a); [reflexivity|]. destruct (a_default a); reflexivity. Qed.

Definition attr_func (a : attr) (ms : list tlm) : func :=
  {| f_start := if a_col a then Collect (a_init a) else if a_inh a then Parent else Self;
     f_body := comp_tlms (a_decl a) (a_col a)
                 (if a_col a then PNodes else if a_inh a then PIfType else (fun _ => PAnchor)) ms;
     f_end := end_of a |}.
Definition var_func (a : attr) (ms : list tlm) : func :=
  {| f_start := if a_col a then Collect (a_init a) else Plain;
     f_body := comp_tlms (a_decl a) (a_col a) PNodes ms; f_end := end_of a |}.
Definition fun_func (a : attr) (b : list stmt) : func :=
  {| f_start := if a_col a then Collect (a_init a) else Plain;
     f_body := comp_block (a_decl a) (a_col a) b; f_end := end_of a |}.
Definition matches_of (path : list step) : list (expr * pat) :=
  flat_map (fun s => match s with InMatch e p => [(e, p)] | _ => [] end) path.
Definition loc_func (a : attr) (m : tlm) (path : list step) (b : list stmt) : lfunc :=
  {| l_pat := t_pat m; l_path := matches_of path; l_init := if a_col a then Some (a_init a) else None;
     l_body := comp_block (a_decl a) (a_col a) b; l_end := end_of a |}.

Lemma fits_nodes : fits_kind (fun m => CTlm (t_ty m)) PNodes.
Proof. intros m b. rewrite text_PNodes. cbn [open_ctx close_ctx app]. rewrite <- !app_assoc. reflexivity. Qed.
Lemma fits_attr : forall a, fits_kind
  (fun m => if a_col a then CTlm (t_ty m) else if a_inh a then CType (t_ty m) else CBody)
  (if a_col a then PNodes else if a_inh a then PIfType else (fun _ => PAnchor)).
Proof.
  intros a m b. destruct (a_col a); [|destruct (a_inh a)]; rewrite ?text_PNodes, ?text_PIfType, ?text_PAnchor;
  cbn [open_ctx close_ctx app]; rewrite <- !app_assoc; reflexivity.
Qed.

Lemma attr_text : forall a ms, supported_all ms = true -> a_inh a && a_col a = false ->
  implement_attribute a ms = if depth_all ms <=? MAXDEPTH then Ok (text_func (attr_func a ms)) else Exit.
Proof.
  intros a ms S IC. unfold implement_attribute.
  pose proof (fun out => tlms_out (a_decl a) (a_col a) _ _ ms out (fits_attr a) S) as T.
  destruct (depth_all ms <=? MAXDEPTH); unfold attr_func, text_func; cbn [f_start f_body f_end];
  destruct (a_col a) eqn:C; destruct (a_inh a) eqn:I; try discriminate IC; cbn zeta;
  unfold put, start; cbn [g_ctx g_started g_out app]; rewrite T; cbn [bind]; try reflexivity;
  cbn [g_ctx g_started g_out]; rewrite <- (end_text a), C, <- !app_assoc; reflexivity.
Qed.
Lemma attr_text_bad : forall a ms, supported_all ms = true -> a_inh a && a_col a = true ->
  implement_attribute a ms = if depth_all ms <=? MAXDEPTH
    then Ok (KDef :: KColl (a_init a) :: text_block (f_body (attr_func a ms)) ++ [KClose; KRetColl; KClose]) else Exit.
Proof.
  intros a ms S IC. unfold implement_attribute.
  pose proof (fun out => tlms_out (a_decl a) (a_col a) _ _ ms out (fits_attr a) S) as T.
  destruct (depth_all ms <=? MAXDEPTH); unfold attr_func, text_func; cbn [f_start f_body f_end];
  destruct (a_col a) eqn:C; destruct (a_inh a) eqn:I; try discriminate IC; cbn zeta;
  unfold put, start; cbn [g_ctx g_started g_out app]; rewrite T; cbn [bind]; try reflexivity;
  cbn [g_ctx g_started g_out dump_default_return]; rewrite <- !app_assoc; reflexivity.
Qed.
Lemma var_text : forall a ms, supported_all ms = true ->
  implement_var_value_decl a ms = if depth_all ms <=? MAXDEPTH then Ok (text_func (var_func a ms)) else Exit.
Proof.
  intros a ms S. unfold implement_var_value_decl.
  pose proof (fun out => tlms_out (a_decl a) (a_col a) _ _ ms out fits_nodes S) as T.
  destruct (depth_all ms <=? MAXDEPTH); unfold var_func, text_func; cbn [f_start f_body f_end];
  destruct (a_col a) eqn:C; cbn zeta;
  unfold put, start; cbn [g_ctx g_started g_out app]; rewrite T; cbn [bind]; try reflexivity;
  cbn [g_ctx g_started g_out]; rewrite <- (end_text a), C, <- !app_assoc; reflexivity.
Qed.
Lemma fun_text : forall a b, forallb supported b = true ->
  implement_function_body a b = if depth_block b <=? MAXDEPTH then Ok (text_func (fun_func a b)) else Exit.
Proof.
  intros a b S. unfold implement_function_body.
  pose proof (fun out => block_out (a_decl a) (a_col a) b out S) as T.
  destruct (depth_block b <=? MAXDEPTH); unfold fun_func, text_func; cbn [f_start f_body f_end];
  destruct (a_col a) eqn:C; cbn zeta;
  unfold put, start; cbn [g_ctx g_started g_out app]; rewrite T; cbn [bind]; try reflexivity;
  cbn [g_ctx g_started g_out]; rewrite <- (end_text a), C, <- !app_assoc; reflexivity.
Qed.
Lemma loc_text : forall a m path b, forallb supported b = true ->
  implement_local_attribute a m path b =
  if depth_block b <=? MAXDEPTH then Ok (text_lfunc (loc_func a m path b)) else Exit.
Proof.
  intros a m path b S. unfold implement_local_attribute.
  pose proof (fun out => block_out (a_decl a) (a_col a) b out S) as T.
  assert (P1 : flat_map step_begin path = flat_map (fun s => [KMatch (fst s); KCase (snd s)]) (matches_of path)).
  { clear. induction path as [|[c|c|e p|e] r IH]; cbn [flat_map matches_of step_begin app]; try exact IH; [reflexivity|].
    fold (matches_of r). rewrite IH. reflexivity. }
  assert (P2 : flat_map step_end path = flat_map (fun _ => [KClose; KClose]) (matches_of path)).
  { clear. induction path as [|[c|c|e p|e] r IH]; cbn [flat_map matches_of step_end app]; try exact IH; [reflexivity|].
    fold (matches_of r). rewrite IH. reflexivity. }
  destruct (depth_block b <=? MAXDEPTH); unfold loc_func, text_lfunc; cbn [l_pat l_path l_init l_body l_end];
  destruct (a_col a) eqn:C; cbn zeta;
  unfold put; cbn [g_ctx g_started g_out app]; rewrite T; cbn [bind]; try reflexivity;
  cbn [g_ctx g_started g_out]; rewrite <- (end_text a), C, P1, P2; cbn [app]; rewrite <- ?app_assoc; cbn [app]; rewrite <- ?app_assoc; reflexivity.
Qed.

(** ** Running them *)
Section RUNS.
Context (W : world) (a : attr) (anode : W_val W).
Notation Env := (W_env W).
Notation V := (W_val W).
Let d := a_decl a.
Let col := a_col a.
Notation dl := (deliver W col).

Lemma finish_single : forall vs env c, col = false ->
  finish W (end_of a) (dl vs env c) = single_value W (a_default a) env vs.
Proof.
  intros vs env c C. unfold end_of, deliver. subst col. rewrite C. destruct vs as [|v vs]; cbn [finish single_value]; [|reflexivity].
  destruct (a_default a); reflexivity.
Qed.
Lemma finish_collect : forall vs env v, col = true ->
  finish W (end_of a) (dl vs env (Some v)) = Value (fold_left combine vs v).
Proof.
  intros vs env v C. unfold end_of, deliver. subst col. rewrite C. cbn [finish].
  assert (E : fold_left (collect W) vs (Some v) = Some (fold_left combine vs v)).
  { revert v. induction vs as [|w vs IH]; intros v; [reflexivity|]. cbn [fold_left]. unfold collect at 2. cbn [option_map]. apply IH. }
  rewrite E. reflexivity.
Qed.

Lemma exec_deliver_app : forall anchor p q vs ws env e c,
  (forall c, exec_block W anode anchor p env c = dl vs env c) ->
  (forall c, exec_block W anode anchor q env c = dl ws e c) ->
  exec_block W anode anchor (p ++ q) env c = dl (vs ++ ws) e c.
Proof.
  intros anchor p q vs ws env e c H K. rewrite exec_app, H. rewrite <- (deliver_seq W col _ _ env).
  unfold deliver at 1 2. destruct col; cbn [seq]; [apply K|]. destruct vs; cbn [seq]; [apply K|reflexivity].
Qed.

Lemma run_tlms : forall anchor k (f : tlm -> list V) env ms,
  (forall m, In m ms -> mentions_in d (t_body m) = false -> f m = []) ->
  (forall m c, In m ms -> exec W anode anchor (k (t_ty m) (t_pat m) (comp_block d col (t_body m))) env c = dl (f m) env c) ->
  forall c, exec_block W anode anchor (comp_tlms d col k ms) env c = dl (flat_map f ms) env c.
Proof.
  intros anchor k f env ms. unfold comp_tlms. induction ms as [|m ms IH]; intros Z H c.
  - rewrite deliver_nil. reflexivity.
  - cbn [flat_map]. apply exec_deliver_app.
    + intros c'. unfold comp_tlm. destruct (mentions_in d (t_body m)) eqn:M.
      * rewrite exec_one. apply H. left; reflexivity.
      * rewrite (Z m (or_introl eq_refl) M), deliver_nil. reflexivity.
    + intros c'. apply IH; [intros m' I; apply Z; right; exact I|intros m' c'' I; apply H; right; exact I].
Qed.

Lemma assigned_at_none : forall env m n, forallb supported (t_body m) = true -> mentions_in d (t_body m) = false ->
  assigned_at W d anode env m n = [].
Proof.
  intros env m n S M. unfold assigned_at. destruct (matchp (t_pat m) n (set_anchor n env)); [|reflexivity].
  apply assigned_none; assumption.
Qed.
Lemma flat_none : forall A B (f : A -> list B) l, (forall x, In x l -> f x = []) -> flat_map f l = [].
Proof. intros A B f l. induction l as [|x l IH]; intros H; [reflexivity|]. cbn [flat_map]. rewrite H by (left; reflexivity). apply IH. intros y I; apply H; right; exact I. Qed.
Lemma flat_one : forall A B (f : A -> list B) l x, NoDup l -> In x l -> (forall y, In y l -> y <> x -> f y = []) ->
  flat_map f l = f x.
Proof.
  intros A B f l x ND. induction ND as [|y l NI ND IH]; intros I H; [destruct I|]. cbn [flat_map].
  destruct I as [->|I].
  - rewrite (flat_none _ _ f l), app_nil_r; [reflexivity|]. intros z IZ. apply H; [right; exact IZ|]. intros ->. exact (NI IZ).
  - rewrite (H y); [|left; reflexivity|intros ->; exact (NI I)]. cbn [app]. apply IH; [exact I|]. intros z IZ D. apply H; [right; exact IZ|exact D].
Qed.

(** at the nodes *)
Lemma run_nodes : forall anchor ms env c, supported_all ms = true ->
  (forall m n, In m ms -> In n (nodes (t_ty m)) -> cases_ok_at W d env m n) ->
  exec_block W anode anchor (comp_tlms d col PNodes ms) env c = dl (assigned W d anode env ms) env c.
Proof.
  intros anchor ms env c S K. unfold assigned. apply run_tlms.
  - intros m I M. apply flat_none. intros n _. apply assigned_at_none; [|exact M].
    unfold supported_all in S. rewrite forallb_forall in S. apply S. exact I.
  - intros m c' I. rewrite exec_PNodes. apply (loop_deliver W col).
    intros n N. unfold assigned_at. specialize (K m n I N). unfold cases_ok_at in K.
    destruct (matchp (t_pat m) n (set_anchor n env)) as [env'|].
    + exists (after W env' (t_body m)). intros c''. apply run_block; [|apply K; reflexivity].
      unfold supported_all in S. rewrite forallb_forall in S. apply S. exact I.
    + exists env. intros c''. rewrite deliver_nil. reflexivity.
Qed.
End RUNS.
