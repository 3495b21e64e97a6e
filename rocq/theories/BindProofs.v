From Verif Require Import BindModel BindSpec.
From Coq Require Import List NArith PeanoNat Bool Lia.
Import ListNotations.

(** ** Chains of entries *)
Definition flat (gs : scopes) : list entry := concat (map (@rev entry) gs).
Lemma flat_cons g gs : flat (g :: gs) = rev g ++ flat gs. Proof. reflexivity. Qed.
Definition named (e : entry) : bool := d_decl (fst e) && match d_name (fst e) with Some _ => true | None => false end.
Definition proj (i : item) : entry := (i_decl i, map snd (i_env i)).
Definition wf_item (i : item) : Prop := d_decl (i_decl i) = true /\ d_name (i_decl i) = Some (i_name i) /\ i_ns i = d_ns (i_decl i).
Definition ok (sc : scope) (c : list entry) : Prop := map proj sc = filter named c /\ Forall wf_item sc.
Definition matches (name : nat) (ns : N) (e : entry) : bool :=
  d_decl (fst e) && match d_name (fst e) with Some x => Nat.eqb x name | None => false end && negb (N.eqb (N.land (d_ns (fst e)) ns) 0).
Lemma matches_iff name ns e : matches name ns e = true <-> answers name ns e.
Proof.
  unfold matches, answers. rewrite !andb_true_iff, negb_true_iff, N.eqb_neq.
  destruct (d_name (fst e)) as [x|]; [rewrite Nat.eqb_eq|]; split.
  - intros [[H1 ->] H2]. auto.
  - intros (H1 & H2 & H3). injection H2 as ->. auto.
  - intros [[_ H] _]. discriminate H.
  - intros (_ & H & _). discriminate H.
Qed.
Lemma matches_named name ns e : matches name ns e = true -> named e = true.
Proof. unfold matches, named. destruct (d_decl (fst e)), (d_name (fst e)); simpl; congruence. Qed.
Fixpoint lookup (name : nat) (ns : N) (c : list entry) : option entry :=
  match c with [] => None | e :: c => if matches name ns e then Some e else lookup name ns c end.
Lemma lookup_filter name ns c : lookup name ns (filter named c) = lookup name ns c.
Proof.
  induction c as [|e c IH]; [reflexivity|]. simpl. pose proof (matches_named name ns e) as M.
  destruct (named e); simpl; destruct (matches name ns e); try exact IH; try reflexivity. discriminate (M eq_refl).
Qed.

(** ** The pure content of adding items *)
Fixpoint check1 (d : dinfo) (name : nat) (env : tenv) (old : scope) (er : list err) : list err :=
  match old with
  | [] => er
  | i :: old =>
    if tenv_eqb (i_env i) env then
      check1 d name env old (if Nat.eqb (i_name i) name && negb (N.eqb (N.land (i_ns i) (d_ns d)) 0)
                then er ++ [Duplicate (d_id d) (d_id (i_decl i))] else er)
    else er
  end.
Definition add1 (x : dinfo * tenv) (r : list err * scope) : list err * scope :=
  let '(d, env) := x in let '(er, sc) := r in
  if d_decl d then match d_name d with None => r | Some name => (check1 d name env sc er, mkI d name (d_ns d) env :: sc) end else r.
Fixpoint run (L : list (dinfo * tenv)) (r : list err * scope) : list err * scope :=
  match L with [] => r | x :: L => run L (add1 x r) end.
Lemma run_app L1 : forall L2 r, run (L1 ++ L2) r = run L2 (run L1 r).
Proof. induction L1 as [|x L1 IH]; intros L2 r; [reflexivity|]. apply IH. Qed.
Definition projL (x : dinfo * tenv) : entry := (fst x, map snd (snd x)).
Definition under (env : tenv) (es : list entry) : list entry := map (fun e => (fst e, snd e ++ map snd env)) es.
Lemma under_nil es : under [] es = es.
Proof. induction es as [|[d p] es IH]; [reflexivity|]. unfold under in *. cbn [map fst snd] in *. rewrite IH, app_nil_r. reflexivity. Qed.
Lemma under_app env a b : under env (a ++ b) = under env a ++ under env b. Proof. apply map_app. Qed.
Lemma under_through k p env es : under ((k, p) :: env) es = under env (through p es).
Proof. unfold under, through. rewrite map_map. apply map_ext. intros [d q]. simpl. rewrite <- app_assoc. reflexivity. Qed.

Lemma check_pure d name env old : forall st,
  check d name env old st = mkS (s_next st) (s_use st) (check1 d name env old (s_errs st)).
Proof.
  induction old as [|i old IH]; intros [k u er]; [reflexivity|]. simpl. destruct (tenv_eqb (i_env i) env); [|reflexivity].
  rewrite IH. destruct (_ && _); reflexivity.
Qed.
Definition adds (L : list (dinfo * tenv)) (sc : scope) (st : state) (st' : state) (sc' : scope) : Prop :=
  s_use st' = s_use st /\ run L (s_errs st, sc) = (s_errs st', sc').
Lemma adds_nil sc st k : adds [] sc st (mkS k (s_use st) (s_errs st)) sc. Proof. split; reflexivity. Qed.
Lemma adds_refl sc st : adds [] sc st st sc. Proof. split; reflexivity. Qed.
Lemma adds_app L1 L2 sc st st1 sc1 st2 sc2 : adds L1 sc st st1 sc1 -> adds L2 sc1 st1 st2 sc2 -> adds (L1 ++ L2) sc st st2 sc2.
Proof. intros [A1 B1] [A2 B2]. split; [congruence|]. rewrite run_app, B1. exact B2. Qed.
Lemma add_adds env d sc st st' sc' : add_env_item env d sc st = (st', sc') -> adds [(d, env)] sc st st' sc'.
Proof.
  unfold add_env_item, adds. simpl. destruct (d_decl d) eqn:D; [destruct (d_name d) as [x|] eqn:N|].
  - intros E. injection E as E1 E2. subst st' sc'. rewrite check_pure. split; reflexivity.
  - intros E. injection E as E1 E2. subst st' sc'. split; reflexivity.
  - intros E. injection E as E1 E2. subst st' sc'. split; reflexivity.
Qed.

Ltac split_call H E := match type of H with context [let '(_, _) := ?e in _] => destruct e as [? ?] eqn:E end.
Lemma public_adds n : forall env sc st st' sc', get_public_bindings n env sc st = (st', sc') ->
  exists L, map projL L = under env (publics n) /\ adds L sc st st' sc'.
Proof.
  induction n as [| a IHa b IHb | | d k IHk | b IHb | a IHa b IHb | d f IHf rd rk IHrk rest IHr | d f IHf par IHp vf IHv rd rk IHrk ext c IHc
    | d f IHf r IHr rest IHrest | d f IHf b IHb | d x IHx s IHs b IHb | e IHe x IHx s IHs | p IHp];
  intros env sc st st' sc' H; simpl in H |- *.
  - injection H as <- <-. exists []. split; [reflexivity|apply adds_refl].
  - split_call H E. destruct (IHa _ _ _ _ _ E) as (L1 & P1 & A1). destruct (IHb _ _ _ _ _ H) as (L2 & P2 & A2).
    exists (L1 ++ L2). split; [rewrite map_app, under_app, P1, P2; reflexivity|exact (adds_app _ _ _ _ _ _ _ _ A1 A2)].
  - injection H as <- <-. exists []. split; [reflexivity|apply adds_refl].
  - destruct (d_decl d).
    + destruct (d_public d); [exists [(d, env)]; split; [reflexivity|exact (add_adds _ _ _ _ _ _ H)]|].
      injection H as <- <-. exists []. split; [reflexivity|apply adds_refl].
    + exact (IHk _ _ _ _ _ H).
  - exact (IHb _ _ _ _ _ H).
  - split_call H E. destruct (IHa _ _ _ _ _ E) as (L1 & P1 & A1). destruct (IHb _ _ _ _ _ H) as (L2 & P2 & A2).
    exists (L1 ++ L2). split; [rewrite map_app, under_app, P1, P2; reflexivity|exact (adds_app _ _ _ _ _ _ _ _ A1 A2)].
  - destruct (d_public d); [exists [(d, env)]; split; [reflexivity|exact (add_adds _ _ _ _ _ _ H)]|].
    injection H as <- <-. exists []. split; [reflexivity|apply adds_refl].
  - destruct (d_public d); [exists [(d, env)]; split; [reflexivity|exact (add_adds _ _ _ _ _ _ H)]|].
    injection H as <- <-. exists []. split; [reflexivity|apply adds_refl].
  - destruct (d_public d); [exists [(d, env)]; split; [reflexivity|exact (add_adds _ _ _ _ _ _ H)]|].
    injection H as <- <-. exists []. split; [reflexivity|apply adds_refl].
  - destruct (d_public d).
    + split_call H E. destruct (IHb _ _ _ _ _ H) as (L2 & P2 & A2). exists ((d, env) :: L2). split.
      * simpl. rewrite P2, under_through. reflexivity.
      * change ((d, env) :: L2) with ([(d, env)] ++ L2). refine (adds_app _ _ _ _ _ _ _ _ (add_adds _ _ _ _ _ _ E) _).
        destruct A2 as [A B]. split; [exact A|exact B].
    + injection H as <- <-. exists []. split; [reflexivity|apply adds_refl].
  - split_call H E. split_call H E2. destruct (IHx _ _ _ _ _ E) as (L1 & P1 & A1). destruct (IHs _ _ _ _ _ E2) as (L2 & P2 & A2).
    destruct (IHb _ _ _ _ _ H) as (L3 & P3 & A3). exists (L1 ++ L2 ++ L3). split; [rewrite !map_app, !under_app, P1, P2, P3; reflexivity|].
    exact (adds_app _ _ _ _ _ _ _ _ A1 (adds_app _ _ _ _ _ _ _ _ A2 A3)).
  - split_call H E. split_call H E2. destruct (IHe _ _ _ _ _ E) as (L1 & P1 & A1). destruct (IHx _ _ _ _ _ E2) as (L2 & P2 & A2).
    destruct (IHs _ _ _ _ _ H) as (L3 & P3 & A3). exists (L1 ++ L2 ++ L3). split; [rewrite !map_app, !under_app, P1, P2, P3; reflexivity|].
    exact (adds_app _ _ _ _ _ _ _ _ A1 (adds_app _ _ _ _ _ _ _ _ A2 A3)).
  - injection H as <- <-. exists []. split; [reflexivity|apply adds_refl].
Qed.
Lemma bindings_adds n : forall env sc st st' sc', get_bindings n env sc st = (st', sc') ->
  exists L, map projL L = under env (declares n) /\ adds L sc st st' sc'.
Proof.
  induction n as [| a IHa b IHb | | d k IHk | b IHb | a IHa b IHb | d f IHf rd rk IHrk rest IHr | d f IHf par IHp vf IHv rd rk IHrk ext c IHc
    | d f IHf r IHr rest IHrest | d f IHf b IHb | d x IHx s IHs b IHb | e IHe x IHx s IHs | p IHp];
  intros env sc st st' sc' H; simpl in H |- *.
  - injection H as <- <-. exists []. split; [reflexivity|apply adds_refl].
  - split_call H E. destruct (IHa _ _ _ _ _ E) as (L1 & P1 & A1). destruct (IHb _ _ _ _ _ H) as (L2 & P2 & A2).
    exists (L1 ++ L2). split; [rewrite map_app, under_app, P1, P2; reflexivity|exact (adds_app _ _ _ _ _ _ _ _ A1 A2)].
  - injection H as <- <-. exists []. split; [reflexivity|apply adds_refl].
  - exists [(d, env)]; split; [reflexivity|exact (add_adds _ _ _ _ _ _ H)].
  - exact (IHb _ _ _ _ _ H).
  - split_call H E. destruct (IHa _ _ _ _ _ E) as (L1 & P1 & A1). destruct (IHb _ _ _ _ _ H) as (L2 & P2 & A2).
    exists (L1 ++ L2). split; [rewrite map_app, under_app, P1, P2; reflexivity|exact (adds_app _ _ _ _ _ _ _ _ A1 A2)].
  - exists [(d, env)]; split; [reflexivity|exact (add_adds _ _ _ _ _ _ H)].
  - exists [(d, env)]; split; [reflexivity|exact (add_adds _ _ _ _ _ _ H)].
  - exists [(d, env)]; split; [reflexivity|exact (add_adds _ _ _ _ _ _ H)].
  - split_call H E. destruct (IHb _ _ _ _ _ H) as (L2 & P2 & A2). exists ((d, env) :: L2). split.
    + simpl. rewrite P2, under_through. reflexivity.
    + change ((d, env) :: L2) with ([(d, env)] ++ L2). refine (adds_app _ _ _ _ _ _ _ _ (add_adds _ _ _ _ _ _ E) _).
      destruct A2 as [A B]. split; [exact A|exact B].
  - exists [(d, env)]; split; [reflexivity|exact (add_adds _ _ _ _ _ _ H)].
  - split_call H E. split_call H E2. destruct (IHe _ _ _ _ _ E) as (L1 & P1 & A1). destruct (IHx _ _ _ _ _ E2) as (L2 & P2 & A2).
    destruct (IHs _ _ _ _ _ H) as (L3 & P3 & A3). exists (L1 ++ L2 ++ L3). split; [rewrite !map_app, !under_app, P1, P2, P3; reflexivity|].
    exact (adds_app _ _ _ _ _ _ _ _ A1 (adds_app _ _ _ _ _ _ _ _ A2 A3)).
  - exact (public_adds p _ _ _ _ _ H).
Qed.
Lemma ext_adds ext sc st st' sc' : add_ext ext sc st = (st', sc') -> exists L, map projL L = extends ext /\ adds L sc st st' sc'.
Proof.
  destruct ext as [src ds]. unfold add_ext, extends. simpl. intros H. exists (map (fun d => (d, [(s_next st, src)])) ds). split; [rewrite map_map; reflexivity|].
  assert (G : forall ds env sc st st' sc', add_all env ds sc st = (st', sc') -> adds (map (fun d => (d, env)) ds) sc st st' sc').
  { clear. induction ds as [|d ds IH]; intros env sc st st' sc' H; simpl in H.
    - injection H as <- <-. apply adds_refl.
    - split_call H E. change (map _ (d :: ds)) with ([(d, env)] ++ map (fun d => (d, env)) ds).
      exact (adds_app _ _ _ _ _ _ _ _ (add_adds _ _ _ _ _ _ E) (IH _ _ _ _ _ H)). }
  destruct (G _ _ _ _ _ _ H) as [A B]. split; [exact A|exact B].
Qed.

(** the chain after adding *)
Lemma run_ok L : forall er sc c, ok sc c -> ok (snd (run L (er, sc))) (rev (map projL L) ++ c).
Proof.
  induction L as [|[d env] L IH]; intros er sc c K; [exact K|]. simpl. rewrite <- app_assoc. simpl.
  unfold projL at 2. simpl. destruct K as [K1 K2].
  destruct (d_decl d) eqn:D; [destruct (d_name d) as [x|] eqn:N|]; apply IH; split; unfold named; simpl; rewrite ?D, ?N; simpl; try exact K1; try exact K2.
  - unfold proj at 1. simpl. f_equal. exact K1.
  - constructor; [split; [exact D|split; [exact N|reflexivity]]|exact K2].
Qed.
Lemma adds_ok L sc st st' sc' c : adds L sc st st' sc' -> ok sc c -> ok sc' (rev (map projL L) ++ c).
Proof. intros [_ A] K. pose proof (run_ok L (s_errs st) sc c K) as R. rewrite A in R. exact R. Qed.

(** ** What do_bind does, as a script *)
Inductive instr := IAdd (es : list entry) (c : list entry) | IVisit (u : use) (c : list entry).
Fixpoint script (n : node) (c : list entry) : list instr :=
  match n with
  | Nil | Import _ => []
  | Pair a b => script a c ++ script b c
  | Use_ u name ns => [IVisit (u, name, ns) c]
  | Decl _ k => script k c
  | Block_ b => IAdd (declares b) c :: script b (rev (declares b) ++ c)
  | Match_ p b => IAdd (declares p) c :: script p (rev (declares p) ++ c) ++ script b (rev (declares p) ++ c)
  | Class_ _ f rd rk rest =>
    let c1 := rev (declares f) ++ c in let c2 := rev [(rd, [])] ++ c1 in
    IAdd (declares f) c :: script f c1 ++ IAdd [(rd, [])] c1 :: script f c2 ++ script rk c2 ++ script rest c2
  | Module_ _ f par vf rd rk ext contents =>
    let c1 := rev (declares f) ++ c in let c2 := rev (declares vf) ++ c1 in let c3 := rev [(rd, [])] ++ c2 in
    IAdd (declares f) c :: script f c1 ++ script par c1 ++ IAdd (declares vf) c1 :: script vf c2 ++
    IAdd [(rd, [])] c2 :: script rk c3 ++ IAdd (extends ext) c3 :: script contents (rev (extends ext) ++ c3)
  | Fun_ _ f r rest =>
    let c1 := rev (declares f) ++ c in let c2 := rev (declares r) ++ c1 in
    IAdd (declares f) c :: script f c1 ++ IAdd (declares r) c1 :: script r c2 ++ script f c2 ++ script r c2 ++ script rest c2
  | Poly _ f b =>
    let c1 := rev (declares f) ++ c in
    IAdd (declares f) c :: script f c1 ++ script f c1 ++ script b c1
  | ForIn _ x s b =>
    let c1 := rev (declares x) ++ c in
    script s c ++ IAdd (declares x) c :: script x c1 ++ script b c1
  | Ctrl e x s =>
    let c1 := rev (declares x) ++ c in
    script s c ++ IAdd (declares x) c :: script x c1 ++ script e c1
  end.
Inductive step : instr -> state -> state -> Prop :=
| st_add es c L sc st st' sc' : map projL L = es -> ok sc c -> adds L sc st st' sc' -> step (IAdd es c) st st'
| st_visit u name ns sc c st : ok sc c -> step (IVisit (u, name, ns) c) st (visit_use u name ns sc st).
Inductive exec : list instr -> state -> state -> Prop :=
| ex_nil st : exec [] st st
| ex_cons i l st st1 st2 : step i st st1 -> exec l st1 st2 -> exec (i :: l) st st2.
Lemma exec_app l1 : forall l2 st st1 st2, exec l1 st st1 -> exec l2 st1 st2 -> exec (l1 ++ l2) st st2.
Proof.
  induction l1 as [|i l1 IH]; intros l2 st st1 st2 A B; inversion A; subst; [exact B|].
  simpl. exact (ex_cons _ _ _ _ _ H1 (IH _ _ _ _ H4 B)).
Qed.
Lemma bindings_step n sc st st' sc' c : get_bindings n [] sc st = (st', sc') -> ok sc c ->
  step (IAdd (declares n) c) st st' /\ ok sc' (rev (declares n) ++ c).
Proof.
  intros H K. destruct (bindings_adds n _ _ _ _ _ H) as (L & P & A). rewrite under_nil in P. split.
  - exact (st_add _ _ L _ _ _ _ P K A).
  - rewrite <- P. exact (adds_ok _ _ _ _ _ _ A K).
Qed.
Lemma item_step d sc st st' sc' c : add_env_item [] d sc st = (st', sc') -> ok sc c ->
  step (IAdd [(d, [])] c) st st' /\ ok sc' (rev [(d, [])] ++ c).
Proof.
  intros H K. pose proof (add_adds _ _ _ _ _ _ H) as A. split.
  - exact (st_add _ _ _ _ _ _ _ eq_refl K A).
  - exact (adds_ok _ _ _ _ _ _ A K).
Qed.
Lemma ext_step ext sc st st' sc' c : add_ext ext sc st = (st', sc') -> ok sc c ->
  step (IAdd (extends ext) c) st st' /\ ok sc' (rev (extends ext) ++ c).
Proof.
  intros H K. destruct (ext_adds ext _ _ _ _ H) as (L & P & A). split.
  - exact (st_add _ _ L _ _ _ _ P K A).
  - rewrite <- P. exact (adds_ok _ _ _ _ _ _ A K).
Qed.
Lemma do_bind_exec n : forall sc c st, ok sc c -> exec (script n c) st (do_bind n sc st).
Proof.
  induction n as [| a IHa b IHb | u name ns | d k IHk | b IHb | a IHa b IHb | d f IHf rd rk IHrk rest IHr | d f IHf par IHp vf IHv rd rk IHrk ext cc IHc
    | d f IHf r IHr rest IHrest | d f IHf b IHb | d x IHx s IHs b IHb | e IHe x IHx s IHs | p IHp];
  intros sc c st K; simpl.
  - constructor.
  - exact (exec_app _ _ _ _ _ (IHa _ _ _ K) (IHb _ _ _ K)).
  - exact (ex_cons _ _ _ _ _ (st_visit _ _ _ _ _ _ K) (ex_nil _)).
  - exact (IHk _ _ _ K).
  - destruct (get_bindings b [] sc st) as [st1 sc1] eqn:E. destruct (bindings_step _ _ _ _ _ _ E K) as [S1 K1].
    exact (ex_cons _ _ _ _ _ S1 (IHb _ _ _ K1)).
  - destruct (get_bindings a [] sc st) as [st1 sc1] eqn:E. destruct (bindings_step _ _ _ _ _ _ E K) as [S1 K1].
    exact (ex_cons _ _ _ _ _ S1 (exec_app _ _ _ _ _ (IHa _ _ _ K1) (IHb _ _ _ K1))).
  - destruct (get_bindings f [] sc st) as [st1 sc1] eqn:E. destruct (bindings_step _ _ _ _ _ _ E K) as [S1 K1].
    destruct (add_env_item [] rd sc1 (do_bind f sc1 st1)) as [st2 sc2] eqn:E2. destruct (item_step _ _ _ _ _ _ E2 K1) as [S2 K2].
    refine (ex_cons _ _ _ _ _ S1 (exec_app _ _ _ _ _ (IHf _ _ _ K1) (ex_cons _ _ _ _ _ S2 _))).
    exact (exec_app _ _ _ _ _ (IHf _ _ _ K2) (exec_app _ _ _ _ _ (IHrk _ _ _ K2) (IHr _ _ _ K2))).
  - destruct (get_bindings f [] sc st) as [st1 sc1] eqn:E. destruct (bindings_step _ _ _ _ _ _ E K) as [S1 K1].
    match goal with |- context [get_bindings vf [] sc1 ?s] => destruct (get_bindings vf [] sc1 s) as [st2 sc2] eqn:E2 end.
    destruct (bindings_step _ _ _ _ _ _ E2 K1) as [S2 K2].
    match goal with |- context [add_env_item [] rd sc2 ?s] => destruct (add_env_item [] rd sc2 s) as [st3 sc3] eqn:E3 end.
    destruct (item_step _ _ _ _ _ _ E3 K2) as [S3 K3].
    match goal with |- context [add_ext ext sc3 ?s] => destruct (add_ext ext sc3 s) as [st4 sc4] eqn:E4 end.
    destruct (ext_step _ _ _ _ _ _ E4 K3) as [S4 K4].
    refine (ex_cons _ _ _ _ _ S1 (exec_app _ _ _ _ _ (IHf _ _ _ K1) (exec_app _ _ _ _ _ (IHp _ _ _ K1) (ex_cons _ _ _ _ _ S2 _)))).
    refine (exec_app _ _ _ _ _ (IHv _ _ _ K2) (ex_cons _ _ _ _ _ S3 (exec_app _ _ _ _ _ (IHrk _ _ _ K3) (ex_cons _ _ _ _ _ S4 _)))).
    exact (IHc _ _ _ K4).
  - destruct (get_bindings f [] sc st) as [st1 sc1] eqn:E. destruct (bindings_step _ _ _ _ _ _ E K) as [S1 K1].
    match goal with |- context [get_bindings r [] sc1 ?s] => destruct (get_bindings r [] sc1 s) as [st2 sc2] eqn:E2 end.
    destruct (bindings_step _ _ _ _ _ _ E2 K1) as [S2 K2].
    refine (ex_cons _ _ _ _ _ S1 (exec_app _ _ _ _ _ (IHf _ _ _ K1) (ex_cons _ _ _ _ _ S2 _))).
    exact (exec_app _ _ _ _ _ (IHr _ _ _ K2) (exec_app _ _ _ _ _ (IHf _ _ _ K2) (exec_app _ _ _ _ _ (IHr _ _ _ K2) (IHrest _ _ _ K2)))).
  - destruct (get_bindings f [] sc st) as [st1 sc1] eqn:E. destruct (bindings_step _ _ _ _ _ _ E K) as [S1 K1].
    exact (ex_cons _ _ _ _ _ S1 (exec_app _ _ _ _ _ (IHf _ _ _ K1) (exec_app _ _ _ _ _ (IHf _ _ _ K1) (IHb _ _ _ K1)))).
  - match goal with |- context [get_bindings x [] sc ?s] => destruct (get_bindings x [] sc s) as [st1 sc1] eqn:E end.
    destruct (bindings_step _ _ _ _ _ _ E K) as [S1 K1].
    exact (exec_app _ _ _ _ _ (IHs _ _ _ K) (ex_cons _ _ _ _ _ S1 (exec_app _ _ _ _ _ (IHx _ _ _ K1) (IHb _ _ _ K1)))).
  - match goal with |- context [get_bindings x [] sc ?s] => destruct (get_bindings x [] sc s) as [st1 sc1] eqn:E end.
    destruct (bindings_step _ _ _ _ _ _ E K) as [S1 K1].
    exact (exec_app _ _ _ _ _ (IHs _ _ _ K) (ex_cons _ _ _ _ _ S1 (exec_app _ _ _ _ _ (IHx _ _ _ K1) (IHe _ _ _ K1)))).
  - constructor.
Qed.
