(** * Reading programs: the properties C147 to C151. *)

Require Import List Arith Lia Bool Ascii String Permutation.
Import ListNotations.
Require Import Verif.LxModel Verif.LxTok Verif.LxLines Verif.RdModel Verif.RdSpec Verif.RdProofs Verif.RdBind.
Local Open Scope list_scope.

(** ** C147: the search path *)

(** The path is cut at its colons. *)
Theorem path_split : forall path, exists dirs, set_aps_path path = Some dirs /\
  join ":" dirs = path /\ (forall d, In d dirs -> ~ In ":"%char d) /\ dirs <> nil.
Proof. intro path. apply cut_correct. reflexivity. Qed.

(** [aps_open] gives the file in the first directory that has it, and never
    writes beyond its buffer. *)
Theorem open_first : forall e filename,
  aps_open e (e_path e) filename <> Smashed /\
  (forall path f, aps_open e (e_path e) filename = Opened path f <-> first_on_path e filename path f) /\
  (aps_open e (e_path e) filename = NotFound <-> forall d f, In d (e_path e) -> ~ is_file e d filename f).
Proof.
  intros e filename. pose proof (open_path e filename) as H. pose proof (open_from e filename (e_path e)) as H0.
  destruct (aps_open e (e_path e) filename) as [|path f|] eqn:E; [| |destruct H].
  - split; [discriminate|]. split.
    + intros path f. split; [discriminate|]. intro X. exfalso. apply H. exists path, f. exact X.
    + split; [intros _; exact H0|reflexivity].
  - split; [discriminate|]. split.
    + intros path' f'. split; [intro X; injection X as <- <-; exact H|].
      intro X. destruct (first_unique _ _ _ _ _ _ H X) as [-> ->]. reflexivity.
    + split; [discriminate|]. intro X. exfalso. destruct H as [b [d [a [P [_ [F _]]]]]].
      apply (X d f); [|exact F]. rewrite P. apply in_or_app. right. left. reflexivity.
Qed.

(** ** C148: programs are read once *)

Lemma find_programs_good : forall e names st ps st', Good e st -> (forall n, In n names -> plain n) ->
  find_programs e st names = Ok ps st' ->
  Good e st' /\ (exists np, r_progs st' = r_progs st ++ np) /\
  Forall2 (fun n p => p_name p = n /\ In p (r_progs st')) names ps.
Proof.
  intros e names. induction names as [|n ns IH]; intros st ps st' HG HP H; cbn [find_programs] in H.
  - injection H as <- <-. split; [exact HG|]. split; [exists nil; rewrite app_nil_r; reflexivity|constructor].
  - destruct (find_program e st n) as [p st1|x] eqn:F; [|discriminate H].
    destruct (find_good e st n p st1 HG (HP n (or_introl eq_refl)) F) as [G1 [I1 [E1 X1]]].
    destruct (find_programs e st1 ns) as [qs st2|x] eqn:F2; [|discriminate H]. injection H as <- <-.
    destruct (IH st1 qs st2 G1 (fun m Hm => HP m (or_intror Hm)) F2) as [G2 [[np X2] A2]].
    split; [exact G2|]. split.
    + destruct X1 as [E|E]; rewrite X2, E; [exists np; reflexivity|exists (p :: np); rewrite <- app_assoc; reflexivity].
    + constructor; [|exact A2]. split; [exact E1|]. rewrite X2. apply in_or_app. left. exact I1.
Qed.

(** A program asked for by a name without directories has this name and the
    units of the first file of this name on the path; the same name always
    gives the same program and different names give different ones; and no
    more files are read than there are names. *)
Theorem program_of_name : forall e names ps st, (forall n, In n names -> plain n) ->
  find_programs e fresh names = Ok ps st ->
  Forall2 (fun n p => p_name p = n /\ contents e n (p_units p)) names ps /\
  (forall i j n m p q, nth_error names i = Some n -> nth_error names j = Some m ->
     nth_error ps i = Some p -> nth_error ps j = Some q -> (p_id p = p_id q <-> n = m)).
Proof.
  intros e names ps st HP H. destruct (find_programs_good e names fresh ps st (good_fresh e) HP H) as [HG [_ HA]].
  split.
  - clear - HG HA. induction HA as [|n p ns ps [E Hin] HA IH]; constructor; [|exact IH].
    split; [exact E|]. rewrite <- E. exact (g_units _ _ HG p Hin).
  - intros i j n m p q Hi Hj Hp Hq.
    assert (N : forall k x y, nth_error names k = Some x -> nth_error ps k = Some y -> p_name y = x /\ In y (r_progs st)).
    { clear - HA. induction HA as [|n p ns ps X HA IH]; intros k x y Hx Hy; [destruct k; discriminate Hx|].
      destruct k as [|k]; cbn in Hx, Hy; [injection Hx as <-; injection Hy as <-; exact X|exact (IH k x y Hx Hy)]. }
    destruct (N i n p Hi Hp) as [Ep Ip]. destruct (N j m q Hj Hq) as [Eq Iq]. split.
    + intro E. rewrite <- Ep, <- Eq. f_equal. exact (ids_inj st p q (g_inv _ _ HG) Ip Iq E).
    + intro E. f_equal. apply (names_inj e st p q HG Ip Iq). congruence.
Qed.

(** Reading stops exactly for these reasons. *)
Inductive reason (e : env) (st : rst) (n : text) : stop -> Prop :=
| R_nobuiltins : r_init st = false -> ~ on_path e (chars "aps-builtin.aps") -> reason e st n NoBuiltins
| R_badbuiltins : forall path, r_init st = false -> first_on_path e (chars "aps-builtin.aps") path Syntax ->
    reason e st n BadBuiltins
| R_toomany : List.length (r_progs st) = 100 -> ~ In n (map p_name (r_progs st)) -> reason e st n TooMany
| R_missing : ~ on_path e (n ++ chars ".aps") -> ~ In n (map p_name (r_progs st)) ->
    reason e st n (CannotOpen (n ++ chars ".aps"))
| R_syntax : forall path, first_on_path e (n ++ chars ".aps") path Syntax -> ~ In n (map p_name (r_progs st)) ->
    reason e st n SyntaxError.

Theorem find_stops : forall e st n s, find_program e st n = Stop s -> reason e st n s.
Proof.
  intros e st n s H. unfold find_program in H.
  assert (HI : match initialize e st with Stop s => reason e st n s | Ok _ st1 => r_progs st1 = r_progs st end).
  { unfold initialize. destruct (r_init st) eqn:EI; [reflexivity|].
    pose proof (open_path e (chars "aps-builtin.aps")) as HO.
    destruct (aps_open e (e_path e) (chars "aps-builtin.aps")) as [|path [|us]|];
      [constructor; assumption|apply (R_badbuiltins e st n path); assumption|reflexivity|destruct HO]. }
  destruct (initialize e st) as [[] st1|x]; [|injection H as <-; exact HI].
  destruct (find (fun p => same_text n (p_name p)) (r_progs st1)) as [p|] eqn:F; [discriminate H|].
  assert (NI : ~ In n (map p_name (r_progs st))).
  { rewrite <- HI. intro X. apply in_map_iff in X. destruct X as [q [Eq Hq]].
    pose proof (find_none _ _ F q Hq) as Y. cbn beta in Y.
    assert (same_text n (p_name q) = true) by (apply same_text_iff; symmetry; exact Eq). congruence. }
  unfold read_program in H. rewrite HI in H.
  destruct (Nat.eqb_spec (List.length (r_progs st)) max_programs) as [M|M].
  - injection H as <-. apply R_toomany; assumption.
  - pose proof (open_path e (n ++ chars ".aps")) as HO.
    destruct (aps_open e (e_path e) (n ++ chars ".aps")) as [|path [|us]|];
      [injection H as <-; apply R_missing; assumption|injection H as <-; apply (R_syntax e st n path); assumption|discriminate H|destruct HO].
Qed.

(** Files read: the builtins once, and one for each program. *)
Lemma find_log : forall e st n p st', find_program e st n = Ok p st' ->
  r_init st' = true /\
  List.length (r_log st') + (if r_init st then 1 else 0) + List.length (r_progs st) =
  List.length (r_log st) + 1 + List.length (r_progs st').
Proof.
  intros e st n p st' H. unfold find_program in H.
  assert (HI : forall st1, initialize e st = Ok tt st1 -> r_init st1 = true /\ r_progs st1 = r_progs st /\
    List.length (r_log st1) + (if r_init st then 1 else 0) = List.length (r_log st) + 1).
  { unfold initialize. intros st1 X. destruct (r_init st) eqn:EI.
    - injection X as <-. split; [exact EI|]. split; [reflexivity|lia].
    - destruct (aps_open e (e_path e) (chars "aps-builtin.aps")) as [|path [|us]|]; try discriminate X.
      injection X as <-. cbn [r_init r_progs r_log List.length]. split; [reflexivity|]. split; [reflexivity|lia]. }
  destruct (initialize e st) as [[] st1|x]; [|discriminate H].
  destruct (HI st1 eq_refl) as [I1 [P1 L1]].
  destruct (find (fun p => same_text n (p_name p)) (r_progs st1)) as [q|].
  - injection H as _ <-. split; [exact I1|]. rewrite P1. lia.
  - unfold read_program in H. destruct (List.length (r_progs st1) =? max_programs); [discriminate H|].
    destruct (aps_open e (e_path e) (n ++ chars ".aps")) as [|path [|us]|]; try discriminate H.
    injection H as _ <-. cbn [r_init r_progs r_log List.length]. split; [exact I1|].
    rewrite app_length, P1. cbn [List.length]. lia.
Qed.

Theorem files_read_once : forall e names ps st, names <> nil -> (forall n, In n names -> plain n) ->
  find_programs e fresh names = Ok ps st ->
  List.length (r_log st) = 1 + List.length (nodup (list_eq_dec ascii_dec) names).
Proof.
  intros e names ps st HN HP H.
  destruct (find_programs_good e names fresh ps st (good_fresh e) HP H) as [HG [_ HA]].
  assert (L : forall ns st0 qs st1, find_programs e st0 ns = Ok qs st1 -> r_init st0 = true \/ ns <> nil ->
    List.length (r_log st1) + (if r_init st0 then 1 else 0) + List.length (r_progs st0) =
    List.length (r_log st0) + 1 + List.length (r_progs st1) /\
    forall p, In p (r_progs st1) -> In p (r_progs st0) \/ In p qs).
  { clear. induction ns as [|n ns IH]; intros st0 qs st1 H HN; cbn [find_programs] in H.
    - injection H as <- <-. destruct HN as [->|HN]; [|congruence]. split; [lia|]. intros p Hp. left. exact Hp.
    - destruct (find_program e st0 n) as [p sta|x] eqn:F; [|discriminate H].
      destruct (find_programs e sta ns) as [rs stb|x] eqn:F2; [|discriminate H]. injection H as <- <-.
      destruct (find_log e st0 n p sta F) as [Ia La].
      destruct (IH sta rs stb F2 (or_introl Ia)) as [L2 S2]. rewrite Ia in L2. split; [lia|].
      intros q Hq. destruct (S2 q Hq) as [X|X]; [|right; right; exact X].
      assert (r_progs sta = r_progs st0 \/ r_progs sta = r_progs st0 ++ [p]).
      { clear - F. unfold find_program in F.
        assert (HI : forall st1, initialize e st0 = Ok tt st1 -> r_progs st1 = r_progs st0).
        { unfold initialize. intros st1 X. destruct (r_init st0); [injection X as <-; reflexivity|].
          destruct (aps_open e (e_path e) (chars "aps-builtin.aps")) as [|path [|us]|]; try discriminate X.
          injection X as <-. reflexivity. }
        destruct (initialize e st0) as [[] st1|x]; [|discriminate F]. specialize (HI st1 eq_refl).
        destruct (find (fun p => same_text n (p_name p)) (r_progs st1)) as [q|].
        - injection F as _ <-. left. exact HI.
        - unfold read_program in F. destruct (List.length (r_progs st1) =? max_programs); [discriminate F|].
          destruct (aps_open e (e_path e) (n ++ chars ".aps")) as [|path [|us]|]; try discriminate F.
          injection F as <- <-. right. cbn [r_progs]. rewrite HI. reflexivity. }
      destruct H as [E|E]; rewrite E in X; [left; exact X|].
      apply in_app_or in X. destruct X as [X|[<-|[]]]; [left; exact X|right; left; reflexivity]. }
  destruct (L names fresh ps st H (or_intror HN)) as [L1 S1]. cbn [fresh r_init r_progs r_log List.length] in L1.
  assert (P : List.length (r_progs st) = List.length (nodup (list_eq_dec ascii_dec) names)).
  { rewrite <- (map_length p_name). apply Nat.le_antisymm.
    - apply NoDup_incl_length; [exact (g_names _ _ HG)|]. intros n Hn. apply nodup_In.
      apply in_map_iff in Hn. destruct Hn as [p [<- Hp]].
      destruct (S1 p Hp) as [[]|X]. clear - HA X. induction HA as [|m q ms qs [E _] HA IH]; [destruct X|].
      destruct X as [<-|X]; [left; symmetry; exact E|right; exact (IH X)].
    - apply NoDup_incl_length; [apply NoDup_nodup|]. intros n Hn. apply nodup_In in Hn.
      clear - HA Hn. induction HA as [|m q ms qs [E Hq] HA IH]; [destruct Hn|].
      destruct Hn as [<-|Hn]; [|exact (IH Hn)]. rewrite <- E. apply in_map. exact Hq. }
  lia.
Qed.

(** A name with directories is read again every time, ... *)
Theorem directory_reread : forall e st n p st', Inv st -> ~ plain n ->
  find_program e st n = Ok p st' -> ~ In p (r_progs st) /\ r_progs st' = r_progs st ++ [p].
Proof.
  intros e st n p st' HI HP H. pose proof (find_general e st n HI) as X. rewrite H in X.
  destruct X as [HI' [Hin [[E En]|[E _]]]].
  - exfalso. apply HP. rewrite <- En. exact (i_plain _ HI' p Hin).
  - split; [|exact E]. intro Y. pose proof (i_ids _ HI') as D. unfold ids in D. rewrite E, map_app in D.
    cbn [map] in D. apply NoDup_remove_2 in D. apply D. rewrite app_nil_r. apply in_map. exact Y.
Qed.

Definition fs_case (files : list (string * list unit_)) (p : text) : option file :=
  option_map (fun x => File (snd x)) (find (fun x => same_text (chars (fst x)) p) files).

Definition env_case (files : list (string * list unit_)) : env :=
  {| e_max := 100; e_path := [chars "."]; e_fs := fs_case files |}.

(** ... and takes the place of the program with the plain name. *)
Theorem directory_confused_refuted :
  let e := env_case [("./aps-builtin.aps"%string, nil);
                     ("./foo.aps"%string, [UDecl (Decl (Some 1) true nil)]);
                     ("./x/foo.aps"%string, [UDecl (Decl (Some 2) true nil)])] in
  exists ps st, find_programs e fresh [chars "x/foo"; chars "foo"; chars "x/foo"] = Ok ps st /\
    map p_units ps = [[UDecl (Decl (Some 2) true nil)]; [UDecl (Decl (Some 2) true nil)]; [UDecl (Decl (Some 2) true nil)]] /\
    map p_id ps = [1; 1; 2] /\
    contents e (chars "foo") [UDecl (Decl (Some 1) true nil)].
Proof.
  eexists. eexists. split; [vm_compute; reflexivity|]. split; [reflexivity|]. split; [reflexivity|].
  exists (chars "./foo.aps"). exists nil, (chars "."), nil. split; [reflexivity|]. split; [reflexivity|].
  split; [split; [cbn; lia|vm_compute; reflexivity]|intros d g []].
Qed.

(** ** C149: programs named by with *)

Definition start_state (st : bst) : Prop := st = {| b_read := fresh; b_bound := nil; b_done := nil |}.

Lemma start_inv : BInv {| b_read := fresh; b_bound := nil; b_done := nil |}.
Proof.
  constructor; [exact inv_fresh|intros x []|constructor|intro N; exfalso; apply N; reflexivity].
Qed.

(** Binding ends, however programs name each other, ... *)
Theorem binding_ends : forall e n fuel, 101 <= fuel -> run fuel e n <> BFuel.
Proof.
  intros e n fuel HF H. unfold run in H. pose proof (bfind_ext e _ n start_inv) as X.
  destruct (bfind e {| b_read := fresh; b_bound := nil; b_done := nil |} n) as [p st|s|]; [|discriminate H|exact X].
  destruct X as [X1 [Hp [EB _]]]. pose proof (bind_program_ok e fuel st p (x_inv _ _ X1) Hp) as Y.
  rewrite H, EB in Y. cbn [b_bound List.length] in Y. unfold max_programs in Y. lia.
Qed.

(** ... and every program that has been read has been bound, once. *)
Theorem bound_once : forall e n fuel st, run fuel e n = BOk tt st ->
  NoDup (map fst (b_done st)) /\
  forall i, In i (map fst (b_done st)) <-> exists p, In p (r_progs (b_read st)) /\ p_id p = i.
Proof.
  intros e n fuel st H. unfold run in H. pose proof (bfind_ext e _ n start_inv) as X.
  destruct (bfind e {| b_read := fresh; b_bound := nil; b_done := nil |} n) as [p st1|s|]; [|discriminate H|discriminate H].
  destruct X as [X1 [Hp [EB [ED HP]]]]. pose proof (bind_program_ok e fuel st1 p (x_inv _ _ X1) Hp) as Y.
  rewrite H in Y. destruct Y as [Y1 [Y2 Y3]].
  destruct Y1 as [V P [nb [nd [B [D M]]]]]. rewrite EB in B. rewrite ED in D. cbn [b_bound b_done] in B, D.
  rewrite app_nil_r in B, D. rewrite <- D, <- B in M. clear nb nd B D.
  split.
  - apply (Permutation_NoDup M). exact (v_once _ V).
  - intro i. split.
    + intro Hi. apply (Permutation_in _ (Permutation_sym M)) in Hi. pose proof (v_bound _ V i Hi) as Z.
      unfold pids in Z. apply in_map_iff in Z. destruct Z as [q [Eq Hq]]. exists q. split; [exact Hq|exact Eq].
    + intros [q [Hq <-]]. apply (Permutation_in _ M).
      destruct (prog_eq_dec st1 q) as [H1|H1]; [|exact (Y2 q Hq H1)].
      destruct HP as [E|[E _]]; rewrite E in H1; [destruct H1|]. destruct H1 as [<-|[]]. exact Y3.
Qed.

(** When names have no directories: the programs read are those needed, and
    each is bound in the scope it should have. *)
Theorem with_scopes_partial : forall e n fuel st, plain_env e -> plain n -> run fuel e n = BOk tt st ->
  (forall m, needed e n m <-> exists p, In p (r_progs (b_read st)) /\ p_name p = m) /\
  (forall p, In p (r_progs (b_read st)) -> contents e (p_name p) (p_units p)) /\
  (forall i sc, In (i, sc) (b_done st) ->
     exists p items, In p (r_progs (b_read st)) /\ p_id p = i /\ in_scope e (p_name p) items /\
       Forall2 (entry (r_progs (b_read st))) items (rev sc)).
Proof.
  intros e n fuel st HE HP H. pose proof (bound_once e n fuel st H) as HO. unfold run in H.
  destruct (bfind e {| b_read := fresh; b_bound := nil; b_done := nil |} n) as [p st1|s|] eqn:F; [|discriminate H|discriminate H].
  assert (G0 : GInv e n {| b_read := fresh; b_bound := nil; b_done := nil |}).
  { constructor; [exact start_inv|exact (good_fresh e)|intros q []|intros en []]. }
  destruct (bfind_good e n _ n p st1 G0 HP (Needed_self e n) F) as [G1 [X1 [Hp [En [EB ED]]]]].
  destruct (bind_program_good e n fuel HE st1 p st G1 Hp H) as [G2 X2].
  split; [|split].
  - intro m. split; [|intros [q [Hq <-]]; exact (w_needed _ _ _ G2 q Hq)].
    assert (Hdone : forall q, In q (progs st) -> withs_in (progs st) (p_units q)).
    { intros q Hq. destruct HO as [_ HO]. pose proof (proj2 (HO (p_id q)) (ex_intro _ q (conj Hq eq_refl))) as Z.
      apply in_map_iff in Z. destruct Z as [en [E1 E2]]. destruct (w_done _ _ _ G2 en E2) as [q' [items [A [B [C [D W]]]]]].
      assert (q' = q) by (apply (ids_inj (b_read st)); [exact (v_read _ (w_inv _ _ _ G2))|exact A|exact Hq|congruence]).
      subst q'. exact W. }
    intro Hm. induction Hm as [| |m us s Hm IH HC HI].
    + exists p. split; [exact (ext_in _ _ p X2 Hp)|exact En].
    + destruct (v_basic st (w_inv _ _ _ G2)) as [q [Hq Eq]].
      * pose proof (bind_program_ok e fuel st1 p (w_inv _ _ _ G1) Hp) as Y. rewrite H in Y.
        destruct Y as [_ [_ Y]]. intro N. rewrite N in Y. exact Y.
      * exists q. split; [exact Hq|exact Eq].
    + destruct IH as [q [Hq Eq]]. subst m.
      assert (E : us = p_units q) by (apply (contents_unique e (p_name q)); [exact HC|exact (g_units _ _ (w_good _ _ _ G2) q Hq)]).
      subst us. exact (Hdone q Hq s HI).
  - intros q Hq. exact (g_units _ _ (w_good _ _ _ G2) q Hq).
  - intros i sc Hi. destruct (w_done _ _ _ G2 (i, sc) Hi) as [q [items [A [B [C [D _]]]]]].
    exists q, items. split; [exact A|]. split; [exact B|]. split; [exact C|exact D].
Qed.

(** A program that names itself with a directory is read until there are too
    many programs. *)
Theorem directory_cycle_refuted :
  let e := env_case [("./aps-builtin.aps"%string, nil); ("./basic.aps"%string, nil);
                     ("./x/foo.aps"%string, [UWith (dquote :: chars "x/foo" ++ [dquote])])] in
  let e' := env_case [("./aps-builtin.aps"%string, nil); ("./basic.aps"%string, nil);
                     ("./foo.aps"%string, [UWith (dquote :: chars "foo" ++ [dquote])])] in
  run 200 e (chars "x/foo") = BStop TooMany /\
  (exists st, run 200 e' (chars "foo") = BOk tt st).
Proof. split; [vm_compute; reflexivity|]. eexists. vm_compute. reflexivity. Qed.

(** Two programs that name each other. *)
Example with_cycle_case :
  let q s := dquote :: chars s ++ [dquote] in
  let e := env_case [("./aps-builtin.aps"%string, nil);
                     ("./basic.aps"%string, [UDecl (Decl (Some 1) true nil); UDecl (Decl (Some 2) false nil)]);
                     ("./a.aps"%string, [UDecl (Decl (Some 3) true nil); UWith (q "b"%string); UDecl (Decl (Some 4) false nil)]);
                     ("./b.aps"%string, [UWith (q "a"%string); UDecl (Decl None true [Decl (Some 5) true nil])])] in
  plain_env e /\
  exists st, run 200 e (chars "a") = BOk tt st /\ map p_name (r_progs (b_read st)) = [chars "a"; chars "basic"; chars "b"] /\
    b_done st = [(1, [(1, 4); (3, 5); (1, 3); (2, 1)]); (3, [(3, 5); (1, 3); (2, 1)]); (2, [(2, 2); (2, 1)])].
Proof.
  split.
  - intros path us s H. cbn [env_case e_fs] in H. unfold fs_case in H.
    destruct (find _ _) as [[f us']|] eqn:F; [|discriminate H]. injection H as <-.
    apply find_some in F. destruct F as [F _]. cbn [In] in F. intros Hs.
    repeat (destruct F as [F|F]; [injection F as _ <-; cbn [In] in Hs;
      repeat (destruct Hs as [Hs|Hs]; [first [discriminate Hs|injection Hs as <-; intro Y; cbn in Y; destruct Y as [Y|[]]; discriminate Y]|]); destruct Hs|]).
    destruct F.
  - eexists. vm_compute. split; [reflexivity|]. split; reflexivity.
Qed.

(** ** C150: names of programs in generated Scala code *)

Lemma program_id_quotes : forall n, program_id (dquote :: n ++ [dquote]) = program_id n.
Proof.
  intro n. unfold program_id. cbn [flat_map]. change (id_char dquote) with (@nil ascii). cbn [app].
  rewrite flat_map_app. cbn [flat_map]. change (id_char dquote) with (@nil ascii). cbn [app]. apply app_nil_r.
Qed.

Lemma with_name_quotes : forall n, with_name (dquote :: n ++ [dquote]) = n.
Proof. intro n. unfold with_name. cbn [tl]. apply removelast_last. Qed.

(** Code for a program that names another without directories imports the
    object that the code for the other one defines. *)
Theorem import_matches_partial : forall e st n p st', Good e st -> plain n ->
  let s := dquote :: n ++ [dquote] in
  find_program e st (with_name s) = Ok p st' -> import_name s = object_name p.
Proof.
  intros e st n p st' HG HP s H. unfold s in *. rewrite with_name_quotes in H.
  destruct (find_good e st n p st' HG HP H) as [_ [_ [E _]]].
  unfold import_name, object_name. rewrite program_id_quotes, E. reflexivity.
Qed.

(** With directories it imports something else, ... *)
Theorem import_directory_refuted :
  let e := env_case [("./aps-builtin.aps"%string, nil); ("./x/foo.aps"%string, nil)] in
  let s := dquote :: chars "x/foo" ++ [dquote] in
  exists p st, find_program e fresh (with_name s) = Ok p st /\
    import_name s = chars "xfoo_implicit" /\ object_name p = chars "foo_implicit".
Proof. eexists. eexists. split; [vm_compute; reflexivity|]. split; reflexivity. Qed.

(** ... and different programs may have one name. *)
Theorem object_clash_refuted :
  exists n m, plain n /\ plain m /\ n <> m /\ program_id n = program_id m.
Proof.
  exists (chars "a-b"), (chars "a_b"). split; [|split; [|split; [discriminate|reflexivity]]];
    intro Y; cbn in Y; repeat (destruct Y as [Y|Y]; [discriminate Y|]); exact Y.
Qed.

(** Two names made of letters, digits, hyphens, underscores and dots give the same
    object exactly if they differ only in which of the last three they have where. *)
Definition similar (c d : ascii) : Prop := c = d \/ (In c ["-"; "_"; "."]%char /\ In d ["-"; "_"; "."]%char).
Definition plain_char (c : ascii) : Prop := alnum c = true \/ In c ["-"; "_"; "."]%char.
Theorem program_ids_clash : forall n m, Forall plain_char n -> Forall plain_char m -> (program_id n = program_id m <-> Forall2 similar n m).
Proof.
  assert (I : forall c, plain_char c -> exists d, id_char c = [d] /\ (alnum c = true /\ d = c \/ In c ["-"; "_"; "."]%char /\ d = "_"%char)).
  { intros c [H|H]; [exists c; unfold id_char; rewrite H; auto|]. exists "_"%char. destruct H as [<-|[<-|[<-|[]]]]; cbn; auto 7. }
  assert (A : forall c, alnum c = true -> In c ["-"; "_"; "."]%char -> False) by (intros c H [<-|[<-|[<-|[]]]]; discriminate H).
  induction n as [|c n IH]; intros m Hn Hm.
  - destruct m as [|d m]; [split; constructor|]. inversion Hm as [|? ? H1 H2]; subst. destruct (I d H1) as (d' & E & _). unfold program_id. cbn [flat_map]. rewrite E. split; intros X; [discriminate X|inversion X].
  - inversion Hn as [|? ? H1 H2]; subst. destruct (I c H1) as (c' & E & Hc). destruct m as [|d m].
    + unfold program_id. cbn [flat_map]. rewrite E. split; intros X; [discriminate X|inversion X].
    + inversion Hm as [|? ? H3 H4]; subst. destruct (I d H3) as (d' & E' & Hd). unfold program_id. cbn [flat_map]. rewrite E, E'. fold (program_id n). fold (program_id m). cbn [app].
      assert (S : c' = d' <-> similar c d).
      { unfold similar. destruct Hc as [[C1 ->]|[C1 ->]], Hd as [[D1 ->]|[D1 ->]]; split; intros X; auto.
        - destruct X as [X|[X _]]; [exact X|destruct (A _ C1 X)].
        - subst c. discriminate C1.
        - destruct X as [->|[X _]]; [destruct (A _ C1 D1)|destruct (A _ C1 X)].
        - subst d. discriminate D1.
        - destruct X as [->|[_ X]]; [destruct (A _ D1 C1)|destruct (A _ D1 X)]. }
      split; intros X.
      * injection X as X1 X2. constructor; [apply S; exact X1|apply (IH m H2 H4); exact X2].
      * inversion X as [|? ? ? ? X1 X2]; subst. f_equal; [apply S; exact X1|apply (IH m H2 H4); exact X2].
Qed.
Example program_ids_clash_case : Forall2 similar (chars "a.b-c") (chars "a_b.c") /\ program_id (chars "a.b-c") = chars "a_b_c".
Proof. split; [|reflexivity]. cbn. repeat (apply Forall2_cons; [first [left; reflexivity|right; split; cbn; auto 10]|]). apply Forall2_nil. Qed.

(** The names are identifiers if they begin with a letter, and different for
    names made of letters, digits and underscores. *)
Theorem program_ids_distinct : forall n m, (forall c, In c n -> idchar c = true) -> (forall c, In c m -> idchar c = true) ->
  program_id n = program_id m -> n = m.
Proof.
  assert (K : forall n, (forall c, In c n -> idchar c = true) -> program_id n = n).
  { induction n as [|c n IH]; intro H; [reflexivity|]. unfold program_id. cbn [flat_map].
    fold (program_id n). rewrite (IH (fun d Hd => H d (or_intror Hd))).
    specialize (H c (or_introl eq_refl)). unfold idchar in H. unfold id_char.
    destruct (alnum c) eqn:A; [reflexivity|]. cbn [orb] in H. apply Ascii.eqb_eq in H. subst c. reflexivity. }
  intros n m Hn Hm E. rewrite (K n Hn), (K m Hm) in E. exact E.
Qed.

(** ** C151: names for declarations without names *)

Lemma digit_code : forall k, k < 10 -> digit (ascii_of_nat (48 + k)) = true.
Proof. intros k H. do 10 (destruct k as [|k]; [reflexivity|]). lia. Qed.

Lemma decimal_digits : forall m c, In c (decimal m) -> digit c = true.
Proof.
  assert (G : forall f n acc c, (forall d, In d acc -> digit d = true) -> In c (digits f n acc) -> digit c = true).
  { induction f as [|f IH]; intros n acc c HA H; cbn [digits] in H; [exact (HA c H)|].
    assert (HA' : forall d, In d (ascii_of_nat (48 + n mod 10) :: acc) -> digit d = true).
    { intros d [<-|Hd]; [|exact (HA d Hd)]. apply digit_code. apply Nat.mod_upper_bound. lia. }
    destruct (n / 10 =? 0); [exact (HA' c H)|exact (IH _ _ c HA' H)]. }
  intros m c H. unfold decimal in H. apply (G (S m) m nil c); [intros d []|exact H].
Qed.

Lemma decimal_clean : forall k, map clean (decimal k) = decimal k.
Proof.
  intro k. pose proof (decimal_digits k) as D.
  induction (decimal k) as [|c l IH]; [reflexivity|]. cbn [map].
  rewrite (IH (fun d Hd => D d (or_intror Hd))). f_equal.
  specialize (D c (or_introl eq_refl)). unfold clean, alnum. rewrite D, orb_true_r. reflexivity.
Qed.

Lemma implicit_shape : forall b k, implicit_name b k = ("_"%char :: map clean b) ++ "_"%char :: decimal (S k).
Proof.
  intros b k. unfold implicit_name. cbn [map]. rewrite map_app. cbn [map]. rewrite decimal_clean. reflexivity.
Qed.

(** The name tells the number and the file, up to characters that are neither
    letters nor digits. *)
Theorem implicit_names_distinct : forall b k b' k', implicit_name b k = implicit_name b' k' ->
  k = k' /\ map clean b = map clean b'.
Proof.
  intros b k b' k' E. rewrite !implicit_shape in E.
  assert (N : forall m, ~ In "_"%char (decimal m)).
  { intros m H. pose proof (decimal_digits m _ H) as X. vm_compute in X. discriminate X. }
  assert (L : List.length ("_"%char :: map clean b) = List.length ("_"%char :: map clean b')).
  { pose proof (strrchr_at ("_"%char :: map clean b) "_" (decimal (S k)) (N _)) as X1.
    pose proof (strrchr_at ("_"%char :: map clean b') "_" (decimal (S k')) (N _)) as X2.
    rewrite E in X1. congruence. }
  assert (SP : forall (a a' c c' : text), List.length a = List.length a' -> a ++ c = a' ++ c' -> a = a' /\ c = c').
  { clear. induction a as [|x a IH]; intros [|x' a'] c c' HL HE; try discriminate HL; [split; [reflexivity|exact HE]|].
    cbn [app] in HE. injection HE as -> HE. injection HL as HL. destruct (IH a' c c' HL HE) as [-> ->]. split; reflexivity. }
  destruct (SP _ _ _ _ L E) as [E1 E2]. injection E1 as E1. injection E2 as E2.
  apply decimal_inj in E2. injection E2 as E2. split; [exact E2|exact E1].
Qed.

(** It is an identifier, ... *)
Theorem implicit_names_identifiers : forall b k c, In c (implicit_name b k) -> idchar c = true.
Proof.
  intros b k c H. unfold implicit_name in H. apply in_map_iff in H. destruct H as [d [<- _]].
  unfold clean. destruct (alnum d) eqn:A; [unfold idchar; rewrite A; reflexivity|reflexivity].
Qed.

(** ... never the name of a token written in a text read without errors
    (C146), except in backquotes, ... *)
Theorem implicit_names_begin : forall b k, exists s, implicit_name b k = "_"%char :: s /\
  forall m, implicit_name b k <> "_"%char :: decimal m.
Proof.
  intros b k. rewrite implicit_shape. eexists. split; [reflexivity|]. intros m E. cbn [app] in E.
  injection E as E.
  assert (X : In "_"%char (decimal m)) by (rewrite <- E; apply in_or_app; right; left; reflexivity).
  pose proof (decimal_digits m _ X) as Y. vm_compute in Y. discriminate Y.
Qed.

(** ... but files may share names. *)
Theorem implicit_names_clash_refuted : forall k,
  implicit_name (chars "a-b") k = implicit_name (chars "a_b") k.
Proof. intro k. rewrite !implicit_shape. reflexivity. Qed.

Print Assumptions path_split.
Print Assumptions open_first.
Print Assumptions program_of_name.
Print Assumptions find_stops.
Print Assumptions files_read_once.
Print Assumptions directory_reread.
Print Assumptions directory_confused_refuted.
Print Assumptions binding_ends.
Print Assumptions bound_once.
Print Assumptions with_scopes_partial.
Print Assumptions directory_cycle_refuted.
Print Assumptions import_matches_partial.
Print Assumptions import_directory_refuted.
Print Assumptions object_clash_refuted.
Print Assumptions program_ids_distinct.
Print Assumptions program_ids_clash.
Print Assumptions implicit_names_distinct.
Print Assumptions implicit_names_identifiers.
Print Assumptions implicit_names_begin.
Print Assumptions implicit_names_clash_refuted.
