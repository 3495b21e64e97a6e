(** * SnAttr: lemmas about attributes of the Scala runtime. *)
From Verif Require Import Base SnModel SnSpec SnProofs.
From Coq Require Import Lia Sorted.

(** ** Structural equality is reflexive *)
Definition eq_list (f : ref -> ref -> res bool) : list arg -> list arg -> res bool :=
  fix eq_args (l1 l2 : list arg) : res bool :=
    match l1, l2 with
    | [], [] => Ok true
    | ANode (Some x) :: l1, ANode (Some y) :: l2 =>
        b <- f x y ;; if b : bool then eq_args l1 l2 else Ok false
    | ANode None :: l1, ANode None :: l2 => eq_args l1 l2
    | AVal x :: l1, AVal y :: l2 => if x =? y then eq_args l1 l2 else Ok false
    | _, _ => Ok false
    end.
Lemma eq_step : forall fuel h r1 r2, eq_struct (S fuel) h r1 r2 =
  match get h r1, get h r2 with
  | Some o1, Some o2 => if o_con o1 =? o_con o2 then eq_list (eq_struct fuel h) (o_args o1) (o_args o2) else Ok false
  | _, _ => Exit
  end.
Proof. reflexivity. Qed.
Lemma eq_refl_struct : forall h, inv h -> forall fuel r, r < fuel -> r < length (h_objs h) -> eq_struct fuel h r r = Ok true.
Proof.
  intros h I. induction fuel as [|fuel IH]; intros r L LR; [lia|]. rewrite eq_step.
  destruct (get h r) as [o|] eqn:G; [|apply nth_error_None in G; lia]. rewrite Nat.eqb_refl.
  assert (C : forall c, In (ANode (Some c)) (o_args o) -> c < r) by (intros c; apply (i_args h I r o c G)).
  induction (o_args o) as [|[[c|]|v] l IL]; [reflexivity| | |]; cbn [eq_list].
  - rewrite IH; [cbn [bind]; apply IL; intros c' I'; apply C; right; exact I'| |].
    + specialize (C c (or_introl eq_refl)). lia.
    + specialize (C c (or_introl eq_refl)). lia.
  - apply IL. intros c' I'; apply C; right; exact I'.
  - rewrite Nat.eqb_refl. apply IL. intros c' I'; apply C; right; exact I'.
Qed.

(** ** The evaluations of an attribute *)
Record ainv (h : heap) (a : attribute) : Prop := {
  av_anchors : map e_anchor (at_evals a) = firstn (length (at_evals a)) (h_nodes h (at_ty a));
  av_started : at_started a = false
}.
Lemma ainv_len : forall h a, ainv h a -> length (at_evals a) <= length (h_nodes h (at_ty a)).
Proof. intros h a [A _]. apply (f_equal (@length ref)) in A. rewrite map_length, firstn_length in A. lia. Qed.
Lemma ainv_anchor : forall h a i e, ainv h a -> nth_error (at_evals a) i = Some e ->
  nth_error (h_nodes h (at_ty a)) i = Some (e_anchor e).
Proof.
  intros h a i e A N. pose proof (nth_lt _ _ _ _ N) as L. pose proof (ainv_len h a A) as LL.
  apply (map_nth_error e_anchor) in N. rewrite (av_anchors h a A) in N.
  rewrite <- (firstn_skipn (length (at_evals a)) (h_nodes h (at_ty a))). rewrite nth_error_app1; [exact N|].
  rewrite firstn_length. lia.
Qed.

Lemma extend_spec : forall k nodes evals l, extend k nodes evals = Ok l ->
  map e_anchor evals = firstn (length evals) nodes ->
  length l = length evals + k /\ map e_anchor l = firstn (length l) nodes /\
  exists m, l = evals ++ m /\ forall e, In e m -> e_status e = Unevaluated.
Proof.
  induction k as [|k IH]; intros nodes evals l E A; cbn [extend] in E.
  - injection E as <-. split; [lia|]. split; [exact A|]. exists []. split; [symmetry; apply app_nil_r|intros e []].
  - destruct (nth_error nodes (length evals)) as [nn|] eqn:N; [|discriminate].
    destruct (IH _ _ _ E) as (L & M & m & Q & U).
    { rewrite map_app, app_length, A. cbn [map length e_anchor]. 
      rewrite <- (firstn_skipn (length evals) nodes) at 2. pose proof (nth_lt _ _ _ _ N) as LN.
      assert (LF : length (firstn (length evals) nodes) = length evals) by (rewrite firstn_length; lia).
      rewrite firstn_app, LF. replace (length evals + 1 - length evals) with 1 by lia.
      rewrite (firstn_all2 (n := length evals + 1)) by lia. f_equal.
      assert (NS : nth_error (skipn (length evals) nodes) 0 = Some nn).
      { rewrite <- N. rewrite <- (firstn_skipn (length evals) nodes) at 2. rewrite nth_error_app2 by lia. rewrite LF, Nat.sub_diag. reflexivity. }
      destruct (skipn (length evals) nodes) as [|z q]; [discriminate|]. cbn in NS |- *. injection NS as ->. reflexivity. }
    rewrite app_length in L. cbn in L. split; [lia|]. split; [exact M|].
    exists ({| e_anchor := nn; e_status := Unevaluated |} :: m). split; [rewrite Q, <- app_assoc; reflexivity|].
    intros e [<-|I]; [reflexivity|apply U; exact I].
Qed.
Lemma extend_total : forall k nodes evals, length evals + k <= length nodes -> exists l, extend k nodes evals = Ok l.
Proof.
  induction k as [|k IH]; intros nodes evals L; cbn [extend]; [eexists; reflexivity|].
  destruct (nth_error nodes (length evals)) as [nn|] eqn:N; [|apply nth_error_None in N; lia].
  apply IH. rewrite app_length. cbn. lia.
Qed.

Lemma check_spec : forall h n a i a', ainv h a -> check_node h n a = Ok (i, a') ->
  ainv h a' /\ at_ty a' = at_ty a /\ at_complete a' = at_complete a /\ (forall j, status_of a' j = status_of a j) /\
  i < length (at_evals a') /\ exists o, get h n = Some o /\ o_num o = i /\ o_ty o = at_ty a.
Proof.
  intros h n a i a' A E. unfold check_node in E. destruct (get h n) as [o|] eqn:G; [|discriminate].
  destruct (Nat.eqb_spec (o_ty o) (at_ty a)) as [T|]; [|discriminate]. cbn [negb] in E.
  destruct (nth_error (h_nodes h (o_ty o)) (o_num o)) as [nn|] eqn:N; [|discriminate].
  destruct (eq_struct (S n) h n nn) as [[|]| | |]; try discriminate. cbn [bind negb] in E.
  destruct (extend (o_num o + 1 - length (at_evals a)) (h_nodes h (o_ty o)) (at_evals a)) as [l| | |] eqn:X; try discriminate.
  cbn [bind] in E. injection E as <- <-. rewrite T in X.
  destruct (extend_spec _ _ _ _ X (av_anchors h a A)) as (L & M & m & Q & U).
  split; [constructor; [exact M|apply (av_started h a A)]|]. split; [reflexivity|]. split; [reflexivity|]. split; [|split; [cbn; lia|exists o; auto]].
  intros j. unfold status_of. cbn [at_evals with_evals]. rewrite Q.
  destruct (Nat.lt_ge_cases j (length (at_evals a))) as [LJ|GJ]; [rewrite nth_error_app1 by exact LJ; reflexivity|].
  rewrite nth_error_app2 by exact GJ. rewrite (proj2 (nth_error_None (at_evals a) j)) by exact GJ.
  destruct (nth_error m (j - length (at_evals a))) as [e|] eqn:NE; [|reflexivity]. apply U. apply (nth_error_In _ _ NE).
Qed.
Lemma check_total : forall h n a i, inv h -> ainv h a -> nth_error (h_nodes h (at_ty a)) i = Some n ->
  exists a', check_node h n a = Ok (i, a').
Proof.
  intros h n a i I A N. destruct (i_nodes h I _ _ _ N) as (o & G & T & M). unfold check_node. rewrite G, T, Nat.eqb_refl. cbn [negb].
  rewrite M, N. rewrite eq_refl_struct; [|exact I|lia|apply (nth_lt _ _ _ _ G)]. cbn [bind negb].
  pose proof (ainv_len h a A) as L. pose proof (nth_lt _ _ _ _ N) as LN.
  destruct (extend_total (i + 1 - length (at_evals a)) (h_nodes h (at_ty a)) (at_evals a)) as (l & E).
  - destruct (Nat.le_gt_cases (length (at_evals a)) (i + 1)); [rewrite Nat.add_comm, Nat.sub_add by lia; lia|lia].
  - rewrite E. cbn [bind]. eexists. reflexivity.
Qed.

Lemma set_ainv : forall h a i s, ainv h a -> ainv h (set_status i s a).
Proof.
  intros h a i s [A S]. constructor; [|exact S]. unfold set_status. cbn [at_evals with_evals at_ty]. rewrite len_update, <- A.
  clear. revert i. induction (at_evals a) as [|e l IH]; intros [|i]; cbn; [reflexivity|reflexivity|reflexivity|rewrite IH; reflexivity].
Qed.
Lemma set_status_of : forall a i s j, i < length (at_evals a) ->
  status_of (set_status i s a) j = if i =? j then s else status_of a j.
Proof.
  intros a i s j L. unfold status_of, set_status. cbn [at_evals with_evals]. rewrite nth_update.
  destruct (Nat.eqb_spec i j) as [->|D]; [|reflexivity].
  destruct (nth_error (at_evals a) j) eqn:N; [reflexivity|apply nth_error_None in N; lia].
Qed.

Fixpoint demand_all (fuel : nat) (needs : ref -> list ref) (h : heap) (l : list ref) (a : attribute) : res attribute :=
  match l with
  | [] => Ok a
  | m :: l => a <- demand fuel needs h m a ;; demand_all fuel needs h l a
  end.
Lemma demand_step : forall fuel needs h n a, demand (S fuel) needs h n a =
  (x <- check_node h n a ;;
   let (i, a) := x in
   match nth_error (at_evals a) i with
   | Some e =>
       match e_status e with
       | InCycle => Exit
       | Evaluated | Assigned => Ok a
       | Unevaluated =>
           a <- demand_all fuel needs h (needs (e_anchor e)) (set_status i InCycle a) ;;
           Ok (set_status i Evaluated a)
       end
   | None => Exit
   end).
Proof.
  intros. cbn [demand]. destruct (check_node h n a) as [(i, a1)| | |]; cbn [bind]; try reflexivity.
  destruct (nth_error (at_evals a1) i) as [e|]; [|reflexivity]. destruct (e_status e); try reflexivity.
  assert (E : forall l b, (fix go (l : list ref) (a : attribute) : res attribute :=
    match l with [] => Ok a | m :: l => a <- demand fuel needs h m a ;; go l a end) l b = demand_all fuel needs h l b).
  { induction l as [|m l IH]; intros b; [reflexivity|]. cbn [demand_all]. destruct (demand fuel needs h m b); cbn [bind]; try reflexivity. apply IH. }
  rewrite E. reflexivity.
Qed.

(** a demand keeps the invariant; values stay; what is in a cycle stays so *)
Section DEMAND.
Context (needs : ref -> list ref) (h : heap) (I : inv h).

Record after (a a' : attribute) : Prop := {
  af_inv : ainv h a';
  af_ty : at_ty a' = at_ty a;
  af_complete : at_complete a' = at_complete a;
  af_value : forall j, has_value a j -> status_of a' j = status_of a j;
  af_cycle : forall j, status_of a' j = InCycle <-> status_of a j = InCycle;
  af_len : length (at_evals a) <= length (at_evals a')
}.
Lemma after_refl : forall a, ainv h a -> after a a.
Proof. intros a A. constructor; auto. tauto. Qed.
Lemma after_trans : forall a b c, after a b -> after b c -> after a c.
Proof.
  intros a b c [A1 A2 A3 A4 A5 A6] [B1 B2 B3 B4 B5 B6]. constructor; try congruence; try lia; try exact B1.
  - intros j H. rewrite B4; [apply A4, H|]. unfold has_value in *. rewrite A4 by exact H. exact H.
  - intros j. rewrite B5. apply A5.
Qed.

Definition valued (a : attribute) (n : ref) : Prop :=
  exists i, nth_error (h_nodes h (at_ty a)) i = Some n /\ has_value a i.

(** [n] is number [num_of n]; nodes that are no nodes of the phylum, but taken for
    one (see [check_node]), are excluded *)
Definition listed (a : attribute) (n : ref) : Prop := In n (h_nodes h (at_ty a)).
Lemma listed_num : forall a n i o, listed a n -> get h n = Some o -> o_num o = i -> o_ty o = at_ty a ->
  nth_error (h_nodes h (at_ty a)) i = Some n.
Proof.
  intros a n i o L G N T. apply In_nth_error in L. destruct L as (j & L). destruct (i_nodes h I _ _ _ L) as (o' & G' & _ & N').
  rewrite G in G'. injection G' as <-. congruence.
Qed.

Context (CL : forall t n m, In n (h_nodes h t) -> In m (needs n) -> In m (h_nodes h t)).

Lemma demand_after : forall fuel n a a', ainv h a -> listed a n -> demand fuel needs h n a = Ok a' ->
  after a a' /\ valued a' n /\
  (forall k, valued a' k -> valued a k \/ needed needs n k) /\
  (forall k m, valued a' k -> In m (needs k) -> valued a k \/ valued a' m).
Proof.
  induction fuel as [|fuel IH]; intros n a a' A LI E; [discriminate|]. rewrite demand_step in E.
  destruct (check_node h n a) as [(i, a1)| | |] eqn:C; try discriminate. cbn [bind] in E.
  destruct (check_spec _ _ _ _ _ A C) as (A1 & T1 & C1 & ST & LT & o & G & NO & TO).
  pose proof (listed_num a n i o LI G NO TO) as NN.
  destruct (nth_error (at_evals a1) i) as [e|] eqn:NE; [|discriminate].
  assert (EA : e_anchor e = n).
  { pose proof (ainv_anchor h a1 i e A1 NE) as X. rewrite T1, NN in X. congruence. }
  assert (SI : status_of a1 i = e_status e) by (unfold status_of; rewrite NE; reflexivity).
  assert (AF1 : after a a1).
  { constructor; auto.
    - intros j. rewrite ST. tauto.
    - apply Nat.nlt_ge. intros LL. unfold check_node in C. rewrite G in C. rewrite TO, Nat.eqb_refl in C. cbn [negb] in C.
      destruct (nth_error (h_nodes h (at_ty a)) (o_num o)); [|discriminate]. destruct (eq_struct (S n) h n r) as [[|]| | |]; try discriminate.
      cbn [bind negb] in C. destruct (extend (o_num o + 1 - length (at_evals a)) (h_nodes h (at_ty a)) (at_evals a)) as [l| | |] eqn:X; try discriminate.
      cbn [bind] in C. injection C as _ <-. destruct (extend_spec _ _ _ _ X (av_anchors h a A)) as (L & _). cbn in LL. lia. }
  assert (V1 : forall k, valued a1 k <-> valued a k).
  { intros k. unfold valued, has_value. rewrite T1. split; intros (j & J & H); exists j; (split; [exact J|]); rewrite ST in *; exact H. }
  destruct (e_status e) eqn:SE; try discriminate.
  - (* Unevaluated *)
    rewrite EA in E. destruct (demand_all fuel needs h (needs n) (set_status i InCycle a1)) as [a2| | |] eqn:D; try discriminate.
    cbn [bind] in E. injection E as <-.
    assert (A2 : ainv h (set_status i InCycle a1)) by (apply set_ainv; exact A1).
    assert (ALL : forall l b a2, ainv h b -> at_ty b = at_ty a -> (forall m, In m l -> In m (needs n)) ->
       demand_all fuel needs h l b = Ok a2 ->
       after b a2 /\ (forall m, In m l -> valued a2 m) /\
       (forall k, valued a2 k -> valued b k \/ exists m, In m l /\ needed needs m k) /\
       (forall k m, valued a2 k -> In m (needs k) -> valued b k \/ valued a2 m)).
    { clear a2 D A2. induction l as [|m l IHl]; intros b a2 B TB SUB D; cbn [demand_all] in D.
      - injection D as <-. split; [apply after_refl; exact B|]. split; [intros m []|]. split; auto.
      - destruct (demand fuel needs h m b) as [b1| | |] eqn:DM; try discriminate. cbn [bind] in D.
        assert (LM : listed b m).
        { unfold listed. rewrite TB. apply (CL (at_ty a) n m); [exact (nth_error_In _ _ NN)|apply SUB; left; reflexivity]. }
        destruct (IH m b b1 B LM DM) as (F1 & F2 & F3 & F4).
        destruct (IHl b1 a2 (af_inv _ _ F1) (eq_trans (af_ty _ _ F1) TB) (fun x X => SUB x (or_intror X)) D) as (H1 & H2 & H3 & H4).
        assert (MONO : forall k, valued b1 k -> valued a2 k).
        { intros k (j & J & HV). exists j. rewrite (af_ty _ _ H1). split; [exact J|]. unfold has_value in *. rewrite (af_value _ _ H1 j HV). exact HV. }
        split; [apply (after_trans _ _ _ F1 H1)|]. split; [intros x [<-|X]; [apply MONO; exact F2|apply H2; exact X]|]. split.
        + intros k K. destruct (H3 k K) as [K1|(x & X & N)].
          * destruct (F3 k K1) as [K2|N]; [left; exact K2|right; exists m; split; [left; reflexivity|exact N]].
          * right; exists x; split; [right; exact X|exact N].
        + intros k x K X. destruct (H4 k x K X) as [K1|V]; [|right; exact V].
          destruct (F4 k x K1 X) as [K2|V]; [left; exact K2|right; apply MONO; exact V]. }
    destruct (ALL (needs n) (set_status i InCycle a1) a2 A2 T1 (fun m X => X) D) as (H1 & H2 & H3 & H4).
    assert (LI2 : i < length (at_evals a2)).
    { pose proof (af_len _ _ H1) as X. unfold set_status in X. cbn [at_evals with_evals] in X. rewrite len_update in X. lia. }
    assert (SF : forall j, status_of (set_status i Evaluated a2) j = if i =? j then Evaluated else status_of a2 j).
    { intros j. apply set_status_of. exact LI2. }
    assert (SC : forall j, status_of (set_status i InCycle a1) j = if i =? j then InCycle else status_of a1 j).
    { intros j. apply set_status_of. exact LT. }
    assert (T2 : at_ty a2 = at_ty a) by (rewrite (af_ty _ _ H1); exact T1).
    assert (VF : forall k, valued (set_status i Evaluated a2) k <-> k = n \/ valued a2 k).
    { intros k. unfold valued. change (at_ty (set_status i Evaluated a2)) with (at_ty a2). split.
      - intros (j & J & HV). unfold has_value in HV. rewrite SF in HV. destruct (Nat.eqb_spec i j) as [Q|Q].
        + left. subst j. rewrite T2, NN in J. congruence.
        + right. exists j. split; [exact J|exact HV].
      - intros [->|(j & J & HV)].
        + exists i. rewrite T2. split; [exact NN|]. unfold has_value. rewrite SF, Nat.eqb_refl. left; reflexivity.
        + exists j. split; [exact J|]. unfold has_value in *. rewrite SF. destruct (i =? j); [left; reflexivity|exact HV]. }
    assert (VC : forall k, valued (set_status i InCycle a1) k -> valued a k).
    { intros k (j & J & HV). unfold has_value in HV. rewrite SC in HV. destruct (Nat.eqb_spec i j) as [Q|Q]; [destruct HV; discriminate|].
      apply V1. exists j. split; [exact J|exact HV]. }
    split; [|split; [|split]].
    + constructor.
      * apply set_ainv. apply (af_inv _ _ H1).
      * exact T2.
      * change (at_complete (set_status i Evaluated a2)) with (at_complete a2). rewrite (af_complete _ _ H1). exact C1.
      * intros j HV. rewrite SF. destruct (Nat.eqb_spec i j) as [Q|Q].
        -- subst j. unfold has_value in HV. rewrite <- ST, SI in HV. destruct HV; discriminate.
        -- rewrite (af_value _ _ H1); [rewrite SC; destruct (Nat.eqb_spec i j); [contradiction|apply ST]|].
           unfold has_value in *. rewrite SC. destruct (Nat.eqb_spec i j); [contradiction|]. rewrite ST. exact HV.
      * intros j. rewrite SF. destruct (Nat.eqb_spec i j) as [Q|Q].
        -- subst j. rewrite <- ST, SI. split; discriminate.
        -- rewrite (af_cycle _ _ H1), SC. destruct (Nat.eqb_spec i j); [contradiction|]. rewrite ST. tauto.
      * pose proof (af_len _ _ H1) as X. pose proof (af_len _ _ AF1) as Y. unfold set_status in X |- *. cbn [at_evals with_evals] in *. rewrite len_update in *. lia.
    + apply VF. left; reflexivity.
    + intros k K. apply VF in K. destruct K as [->|K]; [right; constructor|].
      destruct (H3 k K) as [K1|(m & M & N)]; [left; apply VC; exact K1|right; apply (need_step needs n m k M N)].
    + intros k m K M. apply VF in K. destruct K as [->|K].
      * right. apply VF. right. apply H2. exact M.
      * destruct (H4 k m K M) as [K1|V]; [left; apply VC; exact K1|right; apply VF; right; exact V].
  - (* Evaluated *)
    injection E as <-. split; [exact AF1|]. split; [exists i; rewrite T1; split; [exact NN|left; rewrite SI; reflexivity]|]. split.
    + intros k K. left. apply V1. exact K.
    + intros k m K _. left. apply V1. exact K.
  - injection E as <-. split; [exact AF1|]. split; [exists i; rewrite T1; split; [exact NN|right; rewrite SI; reflexivity]|]. split.
    + intros k K. left. apply V1. exact K.
    + intros k m K _. left. apply V1. exact K.
Qed.

(** ** Without cycles a demand succeeds *)
Context (rank : ref -> nat) (RK : forall n m, In m (needs n) -> rank m < rank n).
Definition cycles_above (b : nat) (a : attribute) : Prop :=
  forall i n, nth_error (h_nodes h (at_ty a)) i = Some n -> status_of a i = InCycle -> b <= rank n.

Lemma demand_total : forall fuel n a, rank n < fuel -> ainv h a -> listed a n -> cycles_above (S (rank n)) a ->
  exists a', demand fuel needs h n a = Ok a'.
Proof.
  induction fuel as [|fuel IH]; intros n a L A LI CA; [lia|]. rewrite demand_step.
  assert (NN : exists i, nth_error (h_nodes h (at_ty a)) i = Some n) by (apply In_nth_error; exact LI).
  destruct NN as (i & NN). destruct (check_total h n a i I A NN) as (a1 & C). rewrite C. cbn [bind].
  destruct (check_spec _ _ _ _ _ A C) as (A1 & T1 & C1 & ST & LT & o & G & NO & TO).
  destruct (nth_error (at_evals a1) i) as [e|] eqn:NE; [|apply nth_error_None in NE; lia].
  assert (EA : e_anchor e = n).
  { pose proof (ainv_anchor h a1 i e A1 NE) as X. rewrite T1, NN in X. congruence. }
  assert (SI : status_of a i = e_status e) by (rewrite <- ST; unfold status_of; rewrite NE; reflexivity).
  destruct (e_status e) eqn:SE; try (eexists; reflexivity).
  - rewrite EA.
    assert (ALL : forall l b, ainv h b -> at_ty b = at_ty a -> (forall m, In m l -> In m (needs n)) -> cycles_above (rank n) b ->
       exists a2, demand_all fuel needs h l b = Ok a2).
    { induction l as [|m l IHl]; intros b B TB SUB CB; cbn [demand_all]; [eexists; reflexivity|].
      pose proof (RK n m (SUB m (or_introl eq_refl))) as RM.
      assert (LM : listed b m).
      { unfold listed. rewrite TB. apply (CL (at_ty a) n m); [exact (nth_error_In _ _ NN)|apply SUB; left; reflexivity]. }
      destruct (IH m b ltac:(lia) B LM) as (b1 & D); [intros j k J K; specialize (CB j k J K); lia|].
      rewrite D. cbn [bind]. destruct (demand_after fuel m b b1 B LM D) as (F1 & _).
      apply IHl; [apply (af_inv _ _ F1)|rewrite (af_ty _ _ F1); exact TB|intros x X; apply SUB; right; exact X|].
      intros j k J K. apply (af_cycle _ _ F1) in K. rewrite (af_ty _ _ F1) in J. apply (CB j k J K). }
    destruct (ALL (needs n) (set_status i InCycle a1) (set_ainv _ _ _ _ A1) T1 (fun m X => X)) as (a2 & D).
    + intros j k J K. change (at_ty (set_status i InCycle a1)) with (at_ty a1) in J. rewrite T1 in J.
      rewrite (set_status_of a1 i InCycle j LT) in K. destruct (Nat.eqb_spec i j) as [Q|Q].
      * subst j. rewrite NN in J. injection J as ->. lia.
      * rewrite ST in K. specialize (CA j k J K). lia.
    + rewrite D. cbn [bind]. eexists. reflexivity.
  - specialize (CA i n NN SI). lia.
Qed.
End DEMAND.

(** ** All uses keep the invariant *)
Lemma demand_ainv : forall needs h fuel n a a', ainv h a -> demand fuel needs h n a = Ok a' -> ainv h a' /\ at_ty a' = at_ty a.
Proof.
  intros needs h. induction fuel as [|fuel IH]; intros n a a' A E; [discriminate|]. rewrite demand_step in E.
  destruct (check_node h n a) as [(i, a1)| | |] eqn:C; try discriminate. cbn [bind] in E.
  destruct (check_spec _ _ _ _ _ A C) as (A1 & T1 & _).
  destruct (nth_error (at_evals a1) i) as [e|]; [|discriminate].
  destruct (e_status e); try discriminate; try (injection E as <-; auto).
  destruct (demand_all fuel needs h (needs (e_anchor e)) (set_status i InCycle a1)) as [a2| | |] eqn:D; try discriminate.
  cbn [bind] in E. injection E as <-.
  assert (ALL : forall l b a2, ainv h b -> demand_all fuel needs h l b = Ok a2 -> ainv h a2 /\ at_ty a2 = at_ty b).
  { clear - IH. induction l as [|m l IHl]; intros b a2 B D; cbn [demand_all] in D; [injection D as <-; auto|].
    destruct (demand fuel needs h m b) as [b1| | |] eqn:DM; try discriminate. cbn [bind] in D.
    destruct (IH m b b1 B DM) as (B1 & T). destruct (IHl b1 a2 B1 D) as (B2 & T2). split; [exact B2|congruence]. }
  destruct (ALL _ _ _ (set_ainv _ _ _ _ A1) D) as (A2 & T2). split; [apply set_ainv; exact A2|].
  change (at_ty (set_status i Evaluated a2)) with (at_ty a2). rewrite T2. exact T1.
Qed.
Lemma assign_ainv : forall h n a a', ainv h a -> assign h n a = Ok a' -> ainv h a' /\ at_ty a' = at_ty a.
Proof.
  intros h n a a' A E. unfold assign in E. rewrite (av_started h a A) in E.
  destruct (check_node h n a) as [(i, a1)| | |] eqn:C; try discriminate. cbn [bind] in E.
  destruct (check_spec _ _ _ _ _ A C) as (A1 & T1 & _).
  destruct (nth_error (at_evals a1) i) as [e|]; [|discriminate].
  destruct (e_status e); try discriminate; injection E as <-; (split; [apply set_ainv; exact A1|exact T1]).
Qed.
Lemma grows_ainv : forall h h' a, grows h h' -> ainv h a -> ainv h' a.
Proof.
  intros h h' a (_ & G & _) A. pose proof (ainv_len h a A) as L. destruct A as [A S]. constructor; [|exact S].
  destruct (G (at_ty a)) as (m & E). rewrite E, firstn_app. replace (length (at_evals a) - length (h_nodes h (at_ty a))) with 0 by lia.
  cbn [firstn]. rewrite app_nil_r. exact A.
Qed.
Lemma uses_inv : forall t l h a, uses t l h a -> history l h /\ ainv h a /\ at_ty a = t.
Proof.
  induction 1 as [|l h a ty con args h' r U (H & A & T) AE E|l h a ty U (H & A & T)|l h a fuel needs n a' U (H & A & T) D|l h a n a' U (H & A & T) D].
  - split; [constructor|]. split; [constructor; reflexivity|reflexivity].
  - split; [apply (hist_construct _ _ _ _ _ _ _ H AE E)|]. split; [apply (grows_ainv h h' a (construct_grows _ _ _ _ _ _ AE E) A)|exact T].
  - split; [apply (hist_finish _ _ _ H)|]. split; [apply (grows_ainv h _ a (finish_grows ty h) A)|exact T].
  - destruct (demand_ainv _ _ _ _ _ _ A D) as (A' & T'). split; [exact H|]. split; [exact A'|congruence].
  - destruct (assign_ainv _ _ _ _ A D) as (A' & T'). split; [exact H|]. split; [exact A'|congruence].
Qed.
