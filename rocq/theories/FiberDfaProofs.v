(** * FiberDfaProofs: the construction of the DFA. *)
From Coq Require Import Permutation.
From Verif Require Import Base FiberModel FiberSpec FiberProofs.

(** ** Lists and states *)
Lemma state_at_valid d i t : state_at d i = Ok t -> 1 <= i <= length (states d).
Proof. destruct i as [|k]; cbn; [discriminate|]. unfold rd. destruct (nth_error (states d) k) eqn:E; [|discriminate]. intros _. assert (k < length (states d)) by (apply nth_error_Some; congruence). lia. Qed.
Lemma state_at_ok d i : 1 <= i <= length (states d) -> exists t, state_at d i = Ok t.
Proof. intros H. destruct i as [|k]; [lia|]. cbn. unfold rd. destruct (nth_error (states d) k) eqn:E; [eauto|]. apply nth_error_None in E. lia. Qed.
Definition ext (d d' : dfa) : Prop := (exists l, states d' = states d ++ l) /\ (exists m, tree d' = m ++ tree d).
Lemma ext_refl d : ext d d.
Proof. split; [exists []; now rewrite app_nil_r|now exists []]. Qed.
Lemma ext_trans d1 d2 d3 : ext d1 d2 -> ext d2 d3 -> ext d1 d3.
Proof. intros [(l & E) (m & F)] [(l' & E') (m' & F')]. split; [exists (l ++ l'); now rewrite E', E, app_assoc|exists (m' ++ m); now rewrite F', F, app_assoc]. Qed.
Lemma ext_state d d' i t : ext d d' -> state_at d i = Ok t -> state_at d' i = Ok t.
Proof. intros [(l & E) _] H. pose proof (state_at_valid _ _ _ H). destruct i as [|k]; [discriminate|]. cbn in *. unfold rd in *. rewrite E, nth_error_app1 by lia. exact H. Qed.
Lemma ext_state_inv d d' i t : ext d d' -> i <= length (states d) -> state_at d' i = Ok t -> state_at d i = Ok t.
Proof. intros [(l & E) _] Hi H. pose proof (state_at_valid _ _ _ H). destruct i as [|k]; [discriminate|]. cbn in *. unfold rd in *. rewrite E, nth_error_app1 in H by lia. exact H. Qed.
Lemma ext_length d d' : ext d d' -> length (states d) <= length (states d').
Proof. intros [(l & E) _]. rewrite E, app_length. lia. Qed.
Lemma ext_spells d d' i w : ext d d' -> spells d i w -> spells d' i w.
Proof. intros X. induction 1; [eapply spells_base; eauto using ext_state|eapply spells_longer; eauto using ext_state]. Qed.
Lemma spells_fun d i w w' : spells d i w -> spells d i w' -> w = w'.
Proof.
  intros H. revert w'. induction H as [i t H1 H2|i t l p w H1 H2 H3 H4 IH]; intros w' X; inversion X; subst; auto; try congruence.
  assert (l0 = l) by congruence. assert (p0 = p) by congruence. subst. f_equal. auto.
Qed.
Lemma tree_at_in d j i l : tree_at d j i = Some l -> In (j, i, l) (tree d).
Proof.
  unfold tree_at. destruct (find _ _) as [[[a b] c]|] eqn:E; [|discriminate]. cbn. intros X. injection X as <-. apply find_some in E. destruct E as [E1 E2]. cbn in E2. apply andb_true_iff in E2. destruct E2 as [E2 E3]. apply Nat.eqb_eq in E2, E3. now subst.
Qed.
Lemma tree_at_some d j i l : In (j, i, l) (tree d) -> exists l', tree_at d j i = Some l'.
Proof.
  intros H. unfold tree_at. destruct (find _ _) as [x|] eqn:E; [eexists; reflexivity|]. apply (find_none _ _ E) in H. cbn in H. rewrite !Nat.eqb_refl in H. discriminate.
Qed.
Lemma sum_hash l : nodeset_hash l = list_sum l.
Proof. unfold nodeset_hash. rewrite fold_symmetric; [|intros; lia|intros; lia]. reflexivity. Qed.
Lemma same_sum l l' : NoDup l -> NoDup l' -> (forall q, In q l <-> In q l') -> list_sum l = list_sum l'.
Proof. intros N N' H. pose proof (NoDup_Permutation N N' H) as P. clear N N' H. unfold list_sum. induction P; cbn; lia. Qed.
Lemma reach_spec l : NoDup l -> is_reachable l = true <-> exists q, In (2 * q) l /\ In (2 * q + 1) l.
Proof.
  assert (Ev : forall x, even_of x = x \/ S (even_of x) = x). { intros x. unfold even_of. pose proof (Nat.div_mod x 2 ltac:(lia)). pose proof (Nat.mod_upper_bound x 2 ltac:(lia)). lia. }
  induction l as [|x l IH]; intros N; [split; [discriminate|intros (q & [] & _)]|]. inversion N as [|? ? Nx Nl]; subst. cbn [is_reachable]. rewrite orb_true_iff, existsb_exists, (IH Nl). split.
  - intros [(y & Hy & E)|(q & H1 & H2)].
    + apply Nat.eqb_eq in E. assert (x <> y) by (intros ->; auto). exists (x / 2). destruct (Ev x) as [Ex|Ex], (Ev y) as [Ey|Ey]; unfold even_of in *; try lia; cbn [In].
      * split; [left; lia|right]. replace (2 * (x / 2) + 1) with y by lia. auto.
      * split; [right|left; lia]. replace (2 * (x / 2)) with y by lia. auto.
    + exists q. cbn; auto.
  - intros (q & [H1|H1] & [H2|H2]); [lia| | |right; eauto].
    + left. exists (2 * q + 1). split; auto. apply Nat.eqb_eq. subst x. unfold even_of. replace (2 * q + 1) with (1 + q * 2) by lia. rewrite Nat.div_add by lia. replace (2 * q) with (q * 2) by lia. rewrite Nat.div_mul by lia. reflexivity.
    + left. exists (2 * q). split; auto. apply Nat.eqb_eq. subst x. unfold even_of. replace (2 * q + 1) with (1 + q * 2) by lia. rewrite Nat.div_add by lia. replace (2 * q) with (q * 2) by lia. rewrite Nat.div_mul by lia. reflexivity.
Qed.
Lemma same_node_spec t1 t2 : same_DFA_node t1 t2 = true <-> forward t1 = forward t2 /\ hash t1 = hash t2 /\ ns t1 <> [] /\ ns t2 <> [] /\ (forall q, In q (ns t1) <-> In q (ns t2)).
Proof.
  unfold same_DFA_node. rewrite !andb_true_iff, Bool.eqb_true_iff, Nat.eqb_eq.
  assert (F : forall a b, forallb (node_in_set a) b = true <-> forall q, In q b -> In q a). { intros a b. rewrite forallb_forall. split; intros H q Hq; apply node_in_set_spec || (apply node_in_set_spec; auto); auto. }
  split.
  - intros [[H1 H2] H3]. ands; auto; destruct (ns t1) as [|a l]; try discriminate; destruct (ns t2) as [|b m]; try discriminate. apply andb_true_iff in H3. rewrite !F in H3. destruct H3. intros q. split; auto.
  - intros (H1 & H2 & H3 & H4 & H5). ands; auto. destruct (ns t1) as [|a l]; [contradiction|]. destruct (ns t2) as [|b m]; [contradiction|]. apply andb_true_iff. rewrite !F. split; intros q; apply H5.
Qed.

Section Dfa.
Variables (g : list (list fedge)) (om : list nat) (fields : list nat) (dual : nat -> nat).
Hypothesis Hg : inb g.
Hypothesis Hom : inside g om.
Hypothesis Nom : NoDup om.
Definition letters : list nat := flat_map (fun f => [f; dual f]) fields.
Hypothesis Nl : NoDup letters.
Notation means := (means g om).
(** how a state is entered, before the closure *)
Definition entered (l : nat) (w : list nat) (P : list nat) : Prop := NoDup P /\ forall q, In q P <-> exists r, fsa_edge g q (Some l) r /\ has_fiber g om w r.
Definition leads (d : dfa) (i l j : nat) : Prop := exists t w, state_at d j = Ok t /\ spells d i w /\ means (ns t) (l :: w) /\ directed fields dual (l :: w) (forward t).
Definition handled (d : dfa) (i l : nat) : Prop := forall w, spells d i w -> paired g om (l :: w) -> exists j, leads d i l j /\ exists l', tree_at d j i = Some l'.
Record DI (d : dfa) : Prop := {
  di_len : 1 <= length (states d) < MAX_DFA_NUMBER;
  di_base : exists t, state_at d 1 = Ok t /\ shorter t = None /\ field t = None;
  di_more : forall i t, state_at d i = Ok t -> i <> 1 -> exists l p w P, field t = Some l /\ shorter t = Some p /\ 1 <= p < i /\ spells d p w /\ paired g om (l :: w) /\ entered l w P /\ hash t = list_sum P;
  di_hash : forall t, state_at d 1 = Ok t -> hash t = list_sum (ns t);
  di_sem : forall i t, state_at d i = Ok t -> exists w, spells d i w /\ means (ns t) w /\ directed fields dual w (forward t) /\ NoDup (ns t);
  di_tree : forall j i l, In (j, i, l) (tree d) -> In l letters /\ leads d i l j;
  di_uniq : forall i j ti tj p l, state_at d i = Ok ti -> state_at d j = Ok tj -> shorter ti = Some p -> shorter tj = Some p -> field ti = Some l -> field tj = Some l -> i = j;
  di_chain : forall i j ti tj, above d j i -> state_at d i = Ok ti -> state_at d j = Ok tj -> same_DFA_node ti tj = false }.
Definition nochild (d : dfa) (i l : nat) : Prop := forall j t, state_at d j = Ok t -> shorter t = Some i -> field t = Some l -> False.

Lemma leads_ext d d' i l j : ext d d' -> leads d i l j -> leads d' i l j.
Proof. intros X (t & w & H1 & H2 & H3). exists t, w. split; [eapply ext_state; eauto|]. split; auto. eapply ext_spells; eauto. Qed.
Lemma handled_ext d d' i l : ext d d' -> (exists w, spells d i w) -> handled d i l -> handled d' i l.
Proof.
  intros X (w0 & S0) H w Sw Pw. assert (w = w0) by (eapply spells_fun; eauto using ext_spells). subst. destruct (H w0 S0 Pw) as (j & L & l' & T). exists j. split; [eapply leads_ext; eauto|]. destruct X as [_ (m & Em)]. apply (tree_at_some _ _ _ l'). rewrite Em. apply in_app_iff. right. now apply tree_at_in.
Qed.

(** ** [get_same] *)
Lemma get_same_ok d t : DI d -> forall p fuel, 1 <= p <= length (states d) -> p < fuel -> exists o, get_same fuel d t (Some p) = Ok o /\
  match o with Some j => exists tj, state_at d j = Ok tj /\ same_DFA_node t tj = true /\ 1 <= j | None => forall j tj, (j = p \/ above d j p) -> state_at d j = Ok tj -> same_DFA_node t tj = false end.
Proof.
  intros D p. induction p as [p IH] using (well_founded_induction lt_wf). intros fuel Hp Hf. destruct fuel as [|fuel]; [lia|]. cbn [get_same]. destruct (state_at_ok d p Hp) as (tp & Ep). rewrite Ep. cbn [bind].
  destruct (same_DFA_node t tp) eqn:Es; [exists (Some p); split; auto; exists tp; ands; auto; lia|].
  destruct (Nat.eq_dec p 1) as [Heq|Hne].
  - subst p. destruct (di_base _ D) as (t1 & E1 & S1 & _). assert (tp = t1) by congruence. subst tp. rewrite S1. exists None. split; [destruct fuel; reflexivity|].
    intros j tj [ -> |Ha] Ej; [congruence|]. inversion Ha; congruence.
  - destruct (di_more _ D p tp Ep Hne) as (l & q & w & P & F & Sq & Hq & _). rewrite Sq. destruct (IH q ltac:(lia) fuel ltac:(lia) ltac:(lia)) as (o & Eo & Ho). exists o. split; auto. destruct o as [j|]; auto.
    intros j tj [ -> |Ha] Ej; [congruence|]. inversion Ha as [? ? ? E1 E2|? ? q' ? E1 E2 E3]; subst; [assert (j = q) by congruence|assert (q' = q) by congruence]; subst; eapply Ho; eauto.
Qed.

(** ** One letter *)
Definition letter (l : nat) (rev : bool) : Prop := exists f, In f fields /\ l = if rev then dual f else f.
Lemma letter_in l rev : letter l rev -> In l letters.
Proof. intros (f & Hf & ->). unfold letters. apply in_flat_map. exists f. split; auto. destruct rev; cbn; auto. Qed.
Lemma letter_directed l rev w b : letter l rev -> directed fields dual w b -> directed fields dual (l :: w) (Bool.eqb b (negb rev)).
Proof. intros (f & Hf & ->) H. destruct rev; cbn [negb]; [replace (Bool.eqb b false) with (negb b) by (destruct b; auto); now constructor|replace (Bool.eqb b true) with b by (destruct b; auto); now constructor]. Qed.
Definition do_letter (fuel : nat) (T : nat) (st : dfa * list nat) (l : nat) (rev : bool) : res (dfa * list nat) :=
  N <- makeNode g (fst st) T l rev ;;
  '(d, t) <- check_transition fuel g N l T (fst st) ;;
  Ok (d, add_to_DFA_worklist (snd st) t).
(** at least 999 different fibers, each a fiber of both nodes of something *)
Definition crowded : Prop := exists ws, NoDup ws /\ MAX_DFA_NUMBER <= length ws /\ forall w, In w ws -> (exists b, directed fields dual w b) /\ (w = [] \/ paired g om w).
Lemma spells_inj d i j w : DI d -> spells d i w -> spells d j w -> i = j.
Proof.
  intros D H. revert j. induction H as [i t E S|i t l p w E F S Sp IH]; intros j X; inversion X as [? ? E' S'|? ? ? ? ? E' F' S' Sp']; subst.
  - assert (One : forall i t, state_at d i = Ok t -> shorter t = None -> i = 1). { intros i' t' Ei Hs. destruct (Nat.eq_dec i' 1) as [|Hne]; auto. destruct (di_more _ D i' t' Ei Hne) as (l & p & w & P & _ & Hp & _). congruence. }
    transitivity 1; [eapply One; eauto|symmetry; eapply One; eauto].
  - specialize (IH _ Sp'). subst. eapply (di_uniq _ D); eauto.
Qed.
Lemma words_of d : DI d -> exists ws, NoDup ws /\ length ws = length (states d) /\ forall w, In w ws -> exists i, spells d i w.
Proof.
  intros D. assert (G : forall n, n <= length (states d) -> exists ws, NoDup ws /\ length ws = n /\ forall w, In w ws -> exists i, i <= n /\ spells d i w).
  { induction n as [|n IH]; intros Hn; [exists []; ands; auto; [constructor|intros w []]|]. destruct IH as (ws & N & L & H); [lia|]. destruct (state_at_ok d (S n) ltac:(lia)) as (t & Et). destruct (di_sem _ D _ _ Et) as (w & Sw & _).
    exists (w :: ws). ands; [constructor; auto|cbn; lia|].
    - intros Hi. destruct (H w Hi) as (i & Hle & Si). assert (i = S n) by (eapply spells_inj; eauto). lia.
    - intros v [ <- |Hv]; [exists (S n); auto|]. destruct (H v Hv) as (i & Hle & Si). exists i. split; auto. }
  destruct (G (length (states d)) ltac:(lia)) as (ws & N & L & H). exists ws. ands; auto. intros w Hw. destruct (H w Hw) as (i & _ & Si). eauto.
Qed.
Lemma word_ok d i w : DI d -> spells d i w -> (exists b, directed fields dual w b) /\ (w = [] \/ paired g om w).
Proof.
  intros D Sw. assert (V : exists t, state_at d i = Ok t) by (inversion Sw; eauto). destruct V as (t & Et). destruct (di_sem _ D _ _ Et) as (w' & Sw' & _ & Hd & _). assert (w' = w) by (eapply spells_fun; eauto). subst w'. split; eauto.
  destruct (Nat.eq_dec i 1) as [Heq|Hne].
  - left. subst. destruct (di_base _ D) as (t1 & E1 & S1 & _). inversion Sw; auto; congruence.
  - right. destruct (di_more _ D i t Et Hne) as (l & p & v & P & F & S1 & _ & Sp & Pp & _). inversion Sw; subst; [congruence|]. assert (l0 = l) by congruence. assert (p0 = p) by congruence. subst. assert (w0 = v) by (eapply spells_fun; eauto). now subst.
Qed.

Lemma do_letter_ok d wl T l rev fuel : DI d -> 1 <= T <= length (states d) -> letter l rev -> nochild d T l -> length g < fuel -> MAX_DFA_NUMBER < fuel ->
  (do_letter fuel T (d, wl) l rev = Exit /\ crowded) \/
  exists d' t, do_letter fuel T (d, wl) l rev = Ok (d', add_to_DFA_worklist wl t) /\ DI d' /\ ext d d' /\ handled d' T l /\
    match t with None => states d' = states d | Some i => i = S (length (states d)) /\ length (states d') = i end /\
    (forall j tj, state_at d' j = Ok tj -> state_at d j = Ok tj \/ (shorter tj = Some T /\ field tj = Some l /\ t = Some j)).
Proof.
  intros D HT Hl Nc Hf1 Hf2. unfold do_letter. cbn [fst snd]. destruct (state_at_ok d T HT) as (tT & ET). destruct (di_sem _ D _ _ ET) as (w & Sw & Mw & Dw & NT).
  unfold makeNode. rewrite ET. cbn [bind]. assert (InT : inside g (ns tT)). { intros q Hq. apply Mw in Hq. destruct Hq as (q' & Ho & R). inversion R; subst; auto; match goal with H : fsa_edge _ q _ _ |- _ => apply (Hg _ _ _ H) end. }
  destruct (step_set_ok g Hg (ns tT) l InT) as (P & EP & SP & NP & IP). rewrite EP. cbn [bind].
  assert (HPe : entered l w P). { split; auto. intros q. rewrite SP. split; intros (r & H1 & H2); exists r; split; auto; now apply Mw. }
  destruct P as [|p0 P0] eqn:EqP.
  - cbn [bind check_transition add_to_DFA_worklist]. right. exists d, None. ands; auto.
    + apply ext_refl.
    + intros w' Sw' (q & Hq & _). exfalso. assert (w' = w) by (eapply spells_fun; eauto). subst. eapply (means_nil_step g om (ns tT) w l); eauto. intros q0 X. now apply SP in X.
  - rewrite <- EqP in *. clear EqP p0 P0. cbn [bind check_transition FiberModel.ns].
    destruct (beclose_ok g Hg P IP) as (R & ER & SR & NR & IR). rewrite (ER fuel Hf1). cbn [bind shorter forward hash field].
    assert (MR : means R (l :: w)) by (eapply means_cons; eauto). specialize (NR NP).
    set (to := mkDnode R (Bool.eqb (forward tT) (negb rev)) (nodeset_hash P) (Some l) (Some T)).
    assert (Dto : directed fields dual (l :: w) (forward to)) by (now apply letter_directed).
    pose proof (di_len _ D) as Hlen. destruct (get_same_ok d to D T fuel HT ltac:(lia)) as (o & Eo & Ho). rewrite Eo. cbn [bind]. destruct o as [o|].
    + destruct Ho as (tO & EO & SO & HO). apply same_node_spec in SO. destruct SO as (O1 & O2 & O3 & O4 & O5). right. exists (mkDfa (states d) ((o, T, l) :: tree d)), None. cbn [bind].
      assert (X : ext d (mkDfa (states d) ((o, T, l) :: tree d))). { split; [exists []; now rewrite app_nil_r|now exists [(o, T, l)]]. }
      assert (Lo : leads (mkDfa (states d) ((o, T, l) :: tree d)) T l o). { exists tO, w. ands; [exact EO|eapply ext_spells; eauto| |rewrite <- O1; exact Dto]. intros q. rewrite <- O5. apply MR. }
      ands; auto.
      * assert (Sp : forall i v, spells d i v -> spells (mkDfa (states d) ((o, T, l) :: tree d)) i v) by (intros; eapply ext_spells; eauto).
        assert (Ab : forall i j, above (mkDfa (states d) ((o, T, l) :: tree d)) j i -> above d j i). { induction 1; [eapply above_one; eauto|eapply above_more; eauto]. }
        destruct D as [D1 D2 D3 D4 D5 D6 D7 D8]. constructor; auto.
        -- intros i t Ei Hne. destruct (D3 i t Ei Hne) as (l' & p & v & P' & A1 & A2 & A3 & A4 & A5). exists l', p, v, P'. ands; auto; try lia; apply A5.
        -- intros i t Ei. destruct (D5 i t Ei) as (v & A1 & A2). exists v. split; auto.
        -- cbn [tree]. intros j i x [Hx|Hx]; [injection Hx as <- <- <-; split; [eapply letter_in; eauto|exact Lo]|]. destruct (D6 j i x Hx). split; auto. eapply leads_ext; eauto.
        -- intros i j ti tj Ha Ei Ej. eapply D8; eauto.
      * intros w' Sw' Pw'. exists o. split; auto. apply (tree_at_some _ _ _ l). cbn. auto.
    + destruct (is_reachable R) eqn:Er.
      2:{ right. exists d, None. cbn [bind].  ands; auto; [apply ext_refl|]. intros w' Sw' (q & Hq1 & Hq2). assert (w' = w) by (eapply spells_fun; eauto). subst. exfalso.
          enough (is_reachable R = true) by congruence. apply reach_spec; auto. exists q. split; now apply MR. }
      assert (Pw : paired g om (l :: w)). { apply reach_spec in Er; auto. destruct Er as (q & Q1 & Q2). exists q. split; now apply MR. }
      destruct (Nat.leb_spec MAX_DFA_NUMBER (S (length (states d)))) as [Hmax|Hmax].
      * left. split; auto. destruct (words_of d D) as (ws & N & L & H). exists ((l :: w) :: ws). ands.
        -- constructor; auto. intros Hi. destruct (H _ Hi) as (i & Si). inversion Si as [|? ti ? p ? E1 E2 E3 E4]; subst. assert (p = T) by (eapply spells_inj; eauto). subst p. eapply Nc; eauto.
        -- cbn [length]. lia.
        -- intros v [ <- |Hv]; [split; eauto|]. destruct (H v Hv) as (i & Si). eapply word_ok; eauto.
      * right. cbn [forward to]. set (new := mkDnode R (Bool.eqb (forward tT) (negb rev)) (nodeset_hash P) (Some l) (Some T)). fold new in to. set (d' := mkDfa (states d ++ [new]) ((S (length (states d)), T, l) :: tree d)).
        exists d', (Some (S (length (states d)))). assert (X : ext d d'). { split; [now exists [new]|now exists [(S (length (states d)), T, l)]]. }
        assert (En : state_at d' (S (length (states d))) = Ok new). { cbn. unfold rd. rewrite nth_error_app2 by lia. now rewrite Nat.sub_diag. }
        assert (Inv : forall j tj, state_at d' j = Ok tj -> state_at d j = Ok tj \/ (j = S (length (states d)) /\ tj = new)).
        { intros j tj Ej. pose proof (state_at_valid _ _ _ Ej) as Hv. cbn in Hv. rewrite app_length in Hv. cbn in Hv. destruct (Nat.eq_dec j (S (length (states d)))) as [Heq|Hne]; [right; subst; split; auto; congruence|]. left. apply (ext_state_inv d d'); auto. lia. }
        assert (Sn : spells d' (S (length (states d))) (l :: w)). { eapply spells_longer; [exact En|reflexivity|reflexivity|]. eapply ext_spells; eauto. }
        assert (Ln : leads d' T l (S (length (states d)))). { exists new, w. ands; auto. eapply ext_spells; eauto. }
        assert (Sd : forall i v, spells d' i v -> i <= length (states d) -> spells d i v).
        { intros i v Hs. induction Hs as [i t E1 E2|i t x p v E1 E2 E3 E4 IH]; intros Hi.
          - apply (ext_state_inv d d') in E1; auto. eapply spells_base; eauto.
          - apply (ext_state_inv d d') in E1; auto. eapply spells_longer; eauto. apply IH. assert (i <> 1). { intros ->. destruct (di_base _ D) as (t1 & Et1 & St1 & _). congruence. } destruct (di_more _ D i t E1 H) as (? & p' & ? & ? & ? & Sp' & Hp' & _). assert (p' = p) by congruence. subst. lia. }
        ands; auto.
        -- constructor.
           ++ cbn. rewrite app_length. cbn. unfold MAX_DFA_NUMBER in *. lia.
           ++ destruct (di_base _ D) as (t1 & Et1 & A). exists t1. split; auto. eapply ext_state; eauto.
           ++ intros i t Ei Hne. destruct (Inv i t Ei) as [Hold|[ -> -> ]].
              ** destruct (di_more _ D i t Hold Hne) as (x & p & v & P' & A1 & A2 & A3 & A4 & A5). exists x, p, v, P'. ands; auto; try apply A5; try lia. eapply ext_spells; eauto.
              ** exists l, T, w, P. ands; auto; try lia; [eapply ext_spells; eauto|]. cbn. apply sum_hash.
           ++ intros t Et. destruct (Inv _ _ Et) as [Hold|[Hx _]]; [eapply (di_hash _ D); eauto|]. lia.
           ++ intros i t Ei. destruct (Inv i t Ei) as [Hold|[ -> -> ]]; [destruct (di_sem _ D i t Hold) as (v & A1 & A2); exists v; split; auto; eapply ext_spells; eauto|]. exists (l :: w). ands; auto.
           ++ cbn [tree d']. intros j i x [Hx|Hx]; [injection Hx as <- <- <-; split; [eapply letter_in; eauto|exact Ln]|]. destruct (di_tree _ D j i x Hx). split; auto. eapply leads_ext; eauto.
           ++ intros i j ti tj p x Ei Ej Si Sj Fi Fj. destruct (Inv i ti Ei) as [Oi|[ -> -> ]], (Inv j tj Ej) as [Oj|[ -> -> ]]; auto.
              ** eapply (di_uniq _ D); eauto.
              ** exfalso. cbn in Sj, Fj. injection Sj as <-. injection Fj as <-. eapply Nc; eauto.
              ** exfalso. cbn in Si, Fi. injection Si as <-. injection Fi as <-. eapply Nc; eauto.
           ++ assert (Ab : forall i j, above d' j i -> (i <= length (states d) /\ above d j i) \/ (i = S (length (states d)) /\ (j = T \/ above d j T))).
              { intros i j Ha. induction Ha as [i t p E1 E2|i t p j E1 E2 E3 IH].
                - destruct (Inv i t E1) as [Oi|[ -> -> ]].
                  + left. split; [apply state_at_valid in Oi; lia|eapply above_one; eauto].
                  + right. cbn in E2. injection E2 as <-. auto.
                - destruct (Inv i t E1) as [Oi|[ -> -> ]].
                  + left. split; [apply state_at_valid in Oi; lia|]. assert (p < i). { assert (i <> 1) by (intros ->; destruct (di_base _ D) as (t1 & Et1 & St1 & _); congruence). destruct (di_more _ D i t Oi H) as (? & p' & ? & ? & ? & Sp' & Hp' & _). assert (p' = p) by congruence. subst. lia. }
                    apply state_at_valid in Oi as Hv. destruct IH as [[_ Ha]|[He _]]; [eapply above_more; eauto|lia].
                  + right. cbn in E2. injection E2 as <-. split; auto. right. destruct IH as [[_ Ha]|[He _]]; auto. lia. }
              intros i j ti tj Ha Ei Ej. destruct (Ab i j Ha) as [[Hi Ha']|[ -> Hj]].
              ** destruct (Inv i ti Ei) as [Oi|[ -> _]]; [|lia]. assert (j <= length (states d)). { clear - Ha' D. induction Ha' as [i t p E1 E2|]; auto. assert (i <> 1) by (intros ->; destruct (di_base _ D) as (t1 & Et1 & St1 & _); congruence). destruct (di_more _ D i t E1 H) as (? & p' & ? & ? & ? & Sp' & Hp' & _). apply state_at_valid in E1. assert (p' = p) by congruence. subst. lia. }
                 apply (ext_state_inv d d') in Ej; auto. eapply (di_chain _ D); eauto.
              ** assert (ti = new) by congruence. subst ti. assert (j <= length (states d)). { destruct Hj as [ -> |Ha']; [lia|]. clear - Ha' D. induction Ha' as [i t p E1 E2|]; auto. assert (i <> 1) by (intros ->; destruct (di_base _ D) as (t1 & Et1 & St1 & _); congruence). destruct (di_more _ D i t E1 H) as (? & p' & ? & ? & ? & Sp' & Hp' & _). apply state_at_valid in E1. assert (p' = p) by congruence. subst. lia. }
                 apply (ext_state_inv d d') in Ej; auto. apply (Ho j tj Hj Ej).
        -- intros w' Sw' Pw'. exists (S (length (states d))). split; auto. apply (tree_at_some _ _ _ l). cbn. auto.
        -- cbn. rewrite app_length. cbn. lia.
        -- intros j tj Ej. destruct (Inv j tj Ej) as [?|[ -> -> ]]; auto.
Qed.

(** ** The loop *)
Definition labels (fs : list nat) : list nat := flat_map (fun f => [f; dual f]) fs.
(** state T is being handled; the letters in D are done *)
Record LI (d : dfa) (wl : list nat) (T : nat) (D : list nat) : Prop := {
  li_di : DI d;
  li_T : 1 <= T <= length (states d);
  li_nodup : NoDup (T :: wl);
  li_valid : forall i, In i wl -> 1 <= i <= length (states d);
  li_done : forall i l, 1 <= i <= length (states d) -> ~ In i (T :: wl) -> In l letters -> handled d i l;
  li_part : forall l, In l D -> handled d T l;
  li_child : forall l, ~ In l D -> nochild d T l;
  li_none : forall i l, In i wl -> nochild d i l }.
Lemma spells_valid d i : DI d -> 1 <= i <= length (states d) -> exists w, spells d i w.
Proof. intros D H. destruct (state_at_ok d i H) as (t & E). destruct (di_sem _ D _ _ E) as (w & S & _). eauto. Qed.
Lemma letter_step d wl T D l rev fuel : LI d wl T D -> letter l rev -> ~ In l D -> length g < fuel -> MAX_DFA_NUMBER < fuel ->
  (do_letter fuel T (d, wl) l rev = Exit /\ crowded) \/
  exists d' wl', do_letter fuel T (d, wl) l rev = Ok (d', wl') /\ LI d' wl' T (D ++ [l]) /\ ext d d' /\ length wl' + length (states d) = length wl + length (states d').
Proof.
  intros [L1 L2 L3 L4 L5 L6 L7 L8] Hl Hn Hf1 Hf2. destruct (do_letter_ok d wl T l rev fuel L1 L2 Hl (L7 l Hn) Hf1 Hf2) as [|(d' & t & E & D' & X & Hh & Ht & Hs)]; [auto|]. right. exists d', (add_to_DFA_worklist wl t). split; [exact E|].
  pose proof (ext_length _ _ X) as Hlen. split; [|split; [exact X|]].
  2:{ destruct t as [i|]; cbn [add_to_DFA_worklist length]; [destruct Ht; lia|rewrite Ht; lia]. }
  assert (Hv : forall i, In i wl -> i <> S (length (states d))) by (intros i Hi; specialize (L4 i Hi); lia).
  assert (Hall : forall i, In i (add_to_DFA_worklist wl t) -> In i wl \/ (t = Some i /\ i = S (length (states d)))). { intros i Hi. destruct t as [k|]; cbn in Hi; auto. destruct Ht as [Hk _]. destruct Hi as [ <- |Hi]; auto. }
  assert (Hval : forall i, 1 <= i <= length (states d') -> i <= length (states d) \/ t = Some i). { intros i Hi. destruct t as [k|]; [destruct Ht as [H1 H2]|rewrite Ht in Hi; lia]. destruct (Nat.eq_dec i k) as [Heq|Hne]; [right; now subst|left; lia]. }
  constructor; auto.
  - lia.
  - inversion L3 as [|? ? N1 N2]; subst. destruct t as [k|]; cbn [add_to_DFA_worklist]; auto. destruct Ht as [Hk _]. constructor; [|constructor; auto].
    + intros [Hx|Hx]; [lia|auto].
    + intros Hx. specialize (Hv _ Hx). lia.
  - intros i Hi. destruct (Hall i Hi) as [Hw|[Ht' Hi']]; [specialize (L4 i Hw); lia|]. subst t. destruct Ht. lia.
  - intros i x Hi Hni Hx. destruct (Hval i Hi) as [Hold| -> ].
    + apply (handled_ext d d'); auto; [apply spells_valid; auto; lia|]. apply L5; auto; [lia|]. intros [ -> |Hw]; apply Hni; [now left|right]. destruct t; cbn; auto.
    + exfalso. apply Hni. cbn. auto.
  - intros x Hx. apply in_app_iff in Hx. destruct Hx as [Hx|[ <- |[]]]; auto. apply (handled_ext d d'); auto. apply spells_valid; auto.
  - intros x Hx j tj Ej Sj Fj. destruct (Hs j tj Ej) as [Hold|(_ & F & _)].
    + apply (L7 x) with j tj; auto. intros Hd. apply Hx. apply in_app_iff; auto.
    + apply Hx. apply in_app_iff. right. left. congruence.
  - intros i x Hi j tj Ej Sj Fj. destruct (Hs j tj Ej) as [Hold|(S1 & _ & _)].
    + destruct (Hall i Hi) as [Hw|[_ Hi']]; [eapply L8; eauto|]. assert (j <> 1). { intros ->. destruct (di_base _ L1) as (t1 & E1 & S1 & _). congruence. } destruct (di_more _ L1 j tj Hold H) as (? & p & ? & ? & _ & Sp & Hp & _). assert (p = i) by congruence. apply state_at_valid in Hold. lia.
    + assert (i = T) by congruence. subst i. destruct (Hall T Hi) as [Hw|[_ Hi']]; [inversion L3; auto|lia].
Qed.
Lemma do_field_eq fuel d wl T f : DI d -> 1 <= T <= length (states d) -> letter f false -> letter (dual f) true -> nochild d T f -> length g < fuel -> MAX_DFA_NUMBER < fuel ->
  do_field fuel g dual T (d, wl) f = (st <- do_letter fuel T (d, wl) f false ;; do_letter fuel T st (dual f) true).
Proof.
  intros D HT H1 H2 Hc Hf1 Hf2. unfold do_field, do_letter at 1. cbn [fst snd]. destruct (state_at_ok d T HT) as (tT & ET). destruct (di_sem _ D _ _ ET) as (w & Sw & Mw & Dw & NT).
  assert (InT : inside g (ns tT)). { intros q Hq. apply Mw in Hq. destruct Hq as (q' & Ho & R). inversion R; subst; auto; match goal with H : fsa_edge _ q _ _ |- _ => apply (Hg _ _ _ H) end. }
  assert (Mk : forall l rev, exists o, forall d', ext d d' -> makeNode g d' T l rev = Ok o).
  { intros l rev. destruct (step_set_ok g Hg (ns tT) l InT) as (P & EP & _). destruct P as [|p P]; eexists; intros d' X; unfold makeNode; rewrite (ext_state d d' T tT X ET); cbn [bind]; rewrite EP; reflexivity. }
  destruct (Mk f false) as (o1 & E1). destruct (Mk (dual f) true) as (o2 & E2). rewrite (E1 d (ext_refl d)), (E2 d (ext_refl d)). cbn [bind].
  destruct (do_letter_ok d wl T f false fuel D HT H1 Hc Hf1 Hf2) as [[E _]|(d' & t & E & _ & X & _)].
  - unfold do_letter in E. cbn [fst snd] in E. rewrite (E1 d (ext_refl d)) in E. cbn [bind] in E. destruct (check_transition fuel g o1 f T d) as [[d1 t1]| | |]; try discriminate. reflexivity.
  - unfold do_letter in E. cbn [fst snd] in E. rewrite (E1 d (ext_refl d)) in E. cbn [bind] in E. destruct (check_transition fuel g o1 f T d) as [[d1 t1]| | |]; try discriminate. cbn [bind] in *. injection E as -> E. unfold do_letter. cbn [fst snd]. rewrite (E2 d' X). reflexivity.
Qed.
Lemma letters_split done f rest : fields = done ++ f :: rest -> ~ In f (labels done) /\ ~ In (dual f) (labels done ++ [f]).
Proof.
  intros E. unfold labels. pose proof Nl as N. unfold letters in N. rewrite E, flat_map_app in N. cbn [flat_map app] in N. split.
  - apply NoDup_remove_2 in N. intros X. apply N. apply in_app_iff. auto.
  - replace (flat_map (fun f => [f; dual f]) done ++ f :: dual f :: flat_map (fun f => [f; dual f]) rest) with ((flat_map (fun f => [f; dual f]) done ++ [f]) ++ dual f :: flat_map (fun f => [f; dual f]) rest) in N by (rewrite <- app_assoc; reflexivity).
    apply NoDup_remove_2 in N. intros X. apply N. apply in_app_iff. auto.
Qed.
Lemma fields_ok fuel T : length g < fuel -> MAX_DFA_NUMBER < fuel -> forall rest done d wl, fields = done ++ rest -> LI d wl T (labels done) ->
  (foldM (do_field fuel g dual T) rest (d, wl) = Exit /\ crowded) \/
  exists d' wl', foldM (do_field fuel g dual T) rest (d, wl) = Ok (d', wl') /\ LI d' wl' T letters /\ ext d d' /\ length wl' + length (states d) = length wl + length (states d').
Proof.
  intros Hf1 Hf2. induction rest as [|f rest IH]; intros done d wl E L; cbn [foldM].
  - right. exists d, wl. ands; auto; [|apply ext_refl]. rewrite app_nil_r in E. unfold letters. rewrite E. exact L.
  - assert (Hin : In f fields) by (rewrite E; apply in_app_iff; right; now left). destruct (letters_split done f rest E) as [N1 N2].
    assert (L1 : letter f false) by (exists f; auto). assert (L2 : letter (dual f) true) by (exists f; auto).
    rewrite do_field_eq; auto; [|apply (li_di _ _ _ _ L)|apply (li_T _ _ _ _ L)|now apply (li_child _ _ _ _ L)].
    destruct (letter_step d wl T (labels done) f false fuel L L1 N1 Hf1 Hf2) as [[E1 C]|(d1 & wl1 & E1 & LL1 & X1 & S1)]; rewrite E1; cbn [bind]; [auto|].
    destruct (letter_step d1 wl1 T _ (dual f) true fuel LL1 L2 N2 Hf1 Hf2) as [[E2 C]|(d2 & wl2 & E2 & LL2 & X2 & S2)]; rewrite E2; cbn [bind]; [auto|].
    destruct (IH (done ++ [f]) d2 wl2) as [[E3 C]|(d3 & wl3 & E3 & LL3 & X3 & S3)].
    + now rewrite <- app_assoc.
    + unfold labels in *. rewrite flat_map_app. cbn [flat_map app]. rewrite <- app_assoc in LL2. exact LL2.
    + auto.
    + right. exists d3, wl3. ands; auto; [eapply ext_trans; [|eapply ext_trans]; eauto|lia].
Qed.
Definition Done (d : dfa) : Prop := DI d /\ forall i l, 1 <= i <= length (states d) -> In l letters -> handled d i l.
Lemma loop_ok : forall fuel d wl, DI d -> NoDup wl -> (forall i, In i wl -> 1 <= i <= length (states d)) -> (forall i l, 1 <= i <= length (states d) -> ~ In i wl -> In l letters -> handled d i l) -> (forall i l, In i wl -> nochild d i l) ->
  length g + MAX_DFA_NUMBER + length wl + (MAX_DFA_NUMBER - length (states d)) < fuel ->
  (makeDFA_loop fuel g dual fields d wl = Exit /\ crowded) \/ exists d', makeDFA_loop fuel g dual fields d wl = Ok d' /\ Done d' /\ ext d d'.
Proof.
  induction fuel as [|fuel IH]; intros d wl D N V H C Hf; [lia|]. cbn [makeDFA_loop]. destruct wl as [|T wl].
  - right. exists d. ands; auto; [|apply ext_refl]. split; auto.
  - assert (L : LI d wl T (labels [])). { constructor; auto; [apply V; now left|intros i Hi; apply V; now right|intros l []|intros l _; apply C; now left|intros i l Hi; apply C; now right]. }
    destruct (fields_ok (S fuel) T ltac:(lia) ltac:(lia) fields [] d wl eq_refl L) as [[E Cr]|(d' & wl' & E & [L1 L2 L3 L4 L5 L6 L7 L8] & X & S)]; rewrite E; cbn [bind]; [auto|].
    destruct (IH d' wl') as [[E' Cr]|(d2 & E2 & D2 & X2)]; auto.
    + inversion L3; auto.
    + intros i l Hi Hn Hl. destruct (Nat.eq_dec i T) as [Heq|Hne]; [subst; now apply L6|]. apply L5; auto. intros [ -> |Hw]; auto.
    + cbn [length] in Hf. pose proof (di_len _ L1). pose proof (di_len _ D). lia.
    + right. exists d2. ands; auto. eapply ext_trans; eauto.
Qed.
End Dfa.
