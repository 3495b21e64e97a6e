(** * UnionFind: proofs about get_set and merge_sets. *)
From Verif Require Import Base CondModel EdgeModel DncModel CycleModel.
From Coq Require Import Relations.
Open Scope nat_scope.

Inductive root (par : list (option nat)) : nat -> nat -> nat -> Prop :=
| root_here i : nth_error par i = Some (Some i) -> root par 0 i i
| root_up d i j r : nth_error par i = Some (Some j) -> j <> i -> root par d j r -> root par (S d) i r.
Definition rooted par i r := exists d, root par d i r.
Lemma root_fun par d i r : root par d i r -> forall d' r', root par d' i r' -> d' = d /\ r' = r.
Proof.
  induction 1 as [i E|d i j r E N H IH]; intros d' r' H'.
  - inversion H'; subst; auto. congruence.
  - inversion H' as [|d2 i2 j2 r2 E2 N2 H2]; subst; [congruence|]. assert (j2 = j) by congruence. subst. destruct (IH _ _ H2) as [-> ->]. auto.
Qed.
Lemma rooted_fun par i r r' : rooted par i r -> rooted par i r' -> r' = r.
Proof. intros (d & H) (d' & H'). eapply root_fun; eauto. Qed.
Lemma root_self par d i r : root par d i r -> nth_error par r = Some (Some r).
Proof. induction 1; auto. Qed.
Lemma rooted_self par i r : rooted par i r -> rooted par r r.
Proof. intros (d & H). exists 0. constructor. eapply root_self; eauto. Qed.
Lemma root_live par d i r : root par d i r -> exists p, nth_error par i = Some (Some p).
Proof. destruct 1; eauto. Qed.
Lemma root_path par d i r : root par d i r -> exists l, length l = S d /\ NoDup l /\ (forall x, In x l -> x < length par /\ exists d', d' <= d /\ root par d' x r).
Proof.
  induction 1 as [i E|d i j r E N H (l & L & Nd & Hl)].
  - exists [i]. ands; auto. { constructor; [intros []|constructor]. } intros x [<-|[]]. split; [apply nth_error_Some; congruence|]. exists 0. split; auto. now constructor.
  - exists (i :: l). assert (R : root par (S d) i r) by (econstructor; eauto). ands.
    + cbn. congruence.
    + constructor; auto. intros Hi. destruct (Hl i Hi) as (_ & d' & Hd & R'). destruct (root_fun _ _ _ _ R _ _ R'). lia.
    + intros x [<-|Hx]. { split; [apply nth_error_Some; congruence|]. exists (S d). auto. } destruct (Hl x Hx) as (H1 & d' & H2 & H3). split; auto. exists d'. split; auto.
Qed.
Lemma root_depth par d i r : root par d i r -> d < length par.
Proof.
  intros R. destruct (root_path _ _ _ _ R) as (l & L & Nd & Hl). assert (H : length l <= length (seq 0 (length par))).
  { apply NoDup_incl_length; auto. intros x Hx. apply in_seq. destruct (Hl x Hx). lia. }
  rewrite seq_length in H. lia.
Qed.
Definition dead (par : list (option nat)) (k : nat) : Prop := nth_error par k = Some None.
(** what does not change when paths are compressed *)
Record compressed (par par' : list (option nat)) : Prop := {
  co_len : length par' = length par;
  co_dead : forall k, dead par' k <-> dead par k;
  co_root : forall k s, rooted par' k s <-> rooted par k s;
  co_entry : forall k, nth_error par' k = nth_error par k \/ exists s, rooted par k s /\ nth_error par' k = Some (Some s) }.
Lemma compressed_refl par : compressed par par.
Proof. constructor; auto; tauto. Qed.
Lemma compressed_trans a b c : compressed a b -> compressed b c -> compressed a c.
Proof.
  intros [L1 D1 R1 E1] [L2 D2 R2 E2]. constructor.
  - congruence.
  - intros k. rewrite D2. apply D1.
  - intros k s. rewrite R2. apply R1.
  - intros k. destruct (E2 k) as [->|(s & H & ->)]; auto. right. exists s. split; auto. now apply R1.
Qed.
Lemma compress_one par i r : rooted par i r -> compressed par (upd par i (Some r)).
Proof.
  intros R. destruct (Nat.eq_dec i r) as [<-|Ne].
  - assert (E : upd par i (Some i) = par).
    { apply nth_error_ext. intros k. rewrite nth_error_upd. destruct (Nat.eqb_spec i k) as [<-|]; auto. destruct R as (d & R). pose proof (root_self _ _ _ _ R) as E. assert (i < length par) by (apply nth_error_Some; congruence). rewrite (proj2 (Nat.ltb_lt _ _)) by auto. auto. }
    rewrite E. apply compressed_refl.
  - destruct R as (d & R). destruct (root_live _ _ _ _ R) as (p & Ep). assert (Li : i < length par) by (apply nth_error_Some; congruence). pose proof (root_self _ _ _ _ R) as Er.
    assert (Ei : nth_error (upd par i (Some r)) i = Some (Some r)) by (now apply nth_error_upd_eq).
    assert (Eo : forall k, k <> i -> nth_error (upd par i (Some r)) k = nth_error par k) by (intros; apply nth_error_upd_neq; auto).
    constructor.
    + apply upd_length.
    + intros k. unfold dead. destruct (Nat.eq_dec k i) as [->|]; [rewrite Ei, Ep; split; discriminate|rewrite Eo by auto; tauto].
    + intros k s. split.
      * intros (d' & H). induction H as [k E|d' k j s E N H IH].
        { destruct (Nat.eq_dec k i) as [->|]; [rewrite Ei in E; congruence|]. rewrite Eo in E by auto. exists 0. now constructor. }
        destruct (Nat.eq_dec k i) as [->|].
        { rewrite Ei in E. injection E as <-. assert (s = r). { eapply rooted_fun; [|exact IH]. exists 0. now constructor. } subst. eexists; eauto. }
        rewrite Eo in E by auto. destruct IH as (d2 & IH). exists (S d2). econstructor; eauto.
      * intros (d' & H). induction H as [k E|d' k j s E N H IH].
        { destruct (Nat.eq_dec k i) as [->|]. { exfalso. apply Ne. eapply rooted_fun; [|exists 0; constructor; exact E]. eexists; eauto. } exists 0. constructor. now rewrite Eo. }
        destruct (Nat.eq_dec k i) as [->|].
        { assert (s = r). { eapply rooted_fun; [eexists; exact R|]. exists (S d'). econstructor; eauto. } subst s. exists 1. econstructor; eauto. constructor. rewrite Eo; auto. }
        destruct IH as (d2 & IH). exists (S d2). econstructor; eauto. now rewrite Eo.
    + intros k. destruct (Nat.eq_dec k i) as [->|]; [|left; auto]. right. exists r. split; auto. eexists; eauto.
Qed.
Lemma get_set_ok par : forall d i r, root par d i r -> forall fuel, d <= fuel -> exists par', get_set fuel par i = Ok (par', r) /\ compressed par par' /\ nth_error par' i = Some (Some r).
Proof.
  intros d i r H. induction H as [i E|d i j r E N H IH]; intros fuel Hf.
  - exists par. destruct fuel; cbn [get_set]; rewrite (proj2 (rd_Ok _ _ _) E); cbn [bind]; rewrite Nat.eqb_refl; ands; auto using compressed_refl.
  - destruct fuel as [|f]; [lia|]. destruct (IH f ltac:(lia)) as (par1 & E1 & C & _). cbn [get_set]. rewrite (proj2 (rd_Ok _ _ _) E). cbn [bind]. rewrite (proj2 (Nat.eqb_neq _ _) N). rewrite E1. cbn [bind].
    assert (Li : i < length par1) by (rewrite (co_len _ _ C); apply nth_error_Some; congruence). rewrite wr_Ok by auto. cbn [bind]. eexists. split; [reflexivity|]. split.
    + eapply compressed_trans; [exact C|]. apply compress_one. apply (co_root _ _ C). exists (S d). econstructor; eauto.
    + now apply nth_error_upd_eq.
Qed.
Lemma find_ok par i r : rooted par i r -> exists par', find par i = Ok (par', r) /\ compressed par par' /\ nth_error par' i = Some (Some r).
Proof. intros (d & H). apply (get_set_ok par d i r H). pose proof (root_depth _ _ _ _ H). lia. Qed.

(** ** a history of marks and merges *)
Inductive uop := Mark (i : nat) | Merge (i j : nat).
Definition ustep (lf : bool) (par : list (option nat)) (o : uop) : res (list (option nat)) :=
  match o with Mark i => wr par i None | Merge i j => merge_sets lf par i j end.
Definition merged (ops : list uop) (i j : nat) : Prop := In (Merge i j) ops.
Definition same par u v := exists r, rooted par u r /\ rooted par v r.
Lemma same_sym par u v : same par u v -> same par v u.
Proof. intros (r & A & B). exists r. auto. Qed.
Lemma same_trans par u v w : same par u v -> same par v w -> same par u w.
Proof. intros (r & A & B) (r' & C & D). assert (r' = r) by (eapply rooted_fun; eauto). subst. exists r. auto. Qed.
Record uinv (N : nat) (done : list uop) (par : list (option nat)) : Prop := {
  ui_len : length par = N;
  ui_wf : forall i, i < N -> dead par i \/ exists r, rooted par i r;
  ui_dead : forall i, dead par i <-> In (Mark i) done;
  ui_sound : forall u v, same par u v -> clos_refl_sym_trans _ (merged done) u v;
  ui_complete : forall u v, merged done u v -> same par u v }.
Definition uok (N : nat) (live : nat -> Prop) (o : uop) : Prop := match o with Mark i => i < N /\ ~ live i | Merge i j => i < N /\ j < N /\ live i /\ live j end.
Lemma merged_snoc done o u v : merged (done ++ [o]) u v <-> merged done u v \/ o = Merge u v.
Proof. unfold merged. rewrite in_app_iff. cbn. intuition auto. Qed.
Lemma clos_mono {X} (R S : X -> X -> Prop) u v : (forall a b, R a b -> S a b) -> clos_refl_sym_trans X R u v -> clos_refl_sym_trans X S u v.
Proof. intros H. induction 1; eauto using rst_step, rst_refl, rst_sym, rst_trans. Qed.
Lemma clos_isolated {X} (R : X -> X -> Prop) i u v : (forall a b, R a b -> a <> i /\ b <> i) -> clos_refl_sym_trans X R u v -> u = i <-> v = i.
Proof.
  intros H. induction 1 as [a b Hab| | |].
  - destruct (H _ _ Hab). split; intros; contradiction.
  - tauto.
  - tauto.
  - tauto.
Qed.
Lemma ustep_ok N live lf done par o : uinv N done par -> (forall q, In q (done ++ [o]) -> uok N live q) -> exists par', ustep lf par o = Ok par' /\ uinv N (done ++ [o]) par'.
Proof.
  intros [L W D So Co] Hok. pose proof (Hok o ltac:(apply in_or_app; right; now left)) as Ho. assert (Hd : forall q, In q done -> uok N live q) by (intros; apply Hok, in_or_app; auto). destruct o as [i|a b]; cbn [ustep uok] in *.
  - destruct Ho as [Li Nl]. rewrite wr_Ok by lia. eexists. split; [reflexivity|].
    assert (Iso : forall u v, merged done u v -> u <> i /\ v <> i). { intros u v M. pose proof (Hd _ M) as (_ & _ & L1 & L2). split; intros ->; auto. }
    assert (Ei : nth_error (upd par i None) i = Some None) by (apply nth_error_upd_eq; lia).
    assert (Eo : forall k, k <> i -> nth_error (upd par i None) k = nth_error par k) by (intros; apply nth_error_upd_neq; auto).
    assert (Alone : forall k, rooted par k i -> k = i).
    { intros k R. assert (S : same par k i) by (exists i; split; auto; eapply rooted_self; eauto). apply So in S. apply (clos_isolated _ i) in S; auto. tauto. }
    assert (Rr : forall k s, rooted (upd par i None) k s <-> rooted par k s /\ k <> i).
    { intros k s. split.
      - intros (d & H). induction H as [k E|d k j s E Nk H IH].
        + destruct (Nat.eq_dec k i) as [->|]; [congruence|]. rewrite Eo in E by auto. split; auto. exists 0. now constructor.
        + destruct (Nat.eq_dec k i) as [->|]; [congruence|]. rewrite Eo in E by auto. split; auto. destruct IH as [(d2 & IH) _]. exists (S d2). econstructor; eauto.
      - intros [(d & H) Nk]. revert Nk. induction H as [k E|d k j s E Nj H IH]; intros Nk.
        + exists 0. constructor. now rewrite Eo.
        + assert (j <> i). { intros ->. destruct (Nat.eq_dec s i) as [->|Hs]; [apply Nk, Alone; exists (S d); econstructor; eauto|].
            assert (S1 : same par k i). { exists s. split; [exists (S d); econstructor; eauto|eexists; eauto]. } apply So in S1. apply (clos_isolated _ i) in S1; auto. tauto. }
          destruct IH as (d2 & IH); auto. exists (S d2). econstructor; eauto. now rewrite Eo. }
    constructor.
    + now rewrite upd_length.
    + intros k Hk. destruct (Nat.eq_dec k i) as [->|]; [left; exact Ei|]. destruct (W k Hk) as [H|(r & H)]; [left; unfold dead; now rewrite Eo|right; exists r; apply Rr; auto].
    + intros k. unfold dead. rewrite in_app_iff. cbn. destruct (Nat.eq_dec k i) as [->|]; [rewrite Ei; tauto|]. rewrite Eo by auto. fold (dead par k). rewrite D. intuition congruence.
    + intros u v (r & A & B). apply Rr in A, B. eapply clos_mono; [|apply So; exists r; tauto]. intros x y M. apply merged_snoc. auto.
    + intros u v M. apply merged_snoc in M. destruct M as [M|M]; [|discriminate]. destruct (Co u v M) as (r & A & B). destruct (Iso _ _ M). exists r. split; apply Rr; auto.
  - destruct Ho as (La & Lb & Va & Vb).
    assert (Nd : forall x, live x -> x < N -> exists r, rooted par x r). { intros x Vx Lx. destruct (W x Lx) as [H|]; auto. exfalso. apply D in H. apply Hd in H. cbn in H. tauto. }
    destruct (Nd a Va La) as (ra & Ra). destruct (Nd b Vb Lb) as (rb & Rb).
    assert (G : exists par1, merge_sets lf par a b = wr par1 ra (Some rb) /\ compressed par par1).
    { unfold merge_sets. destruct lf.
      - destruct (find_ok par a ra Ra) as (p1 & E1 & C1 & _). destruct (find_ok p1 b rb) as (p2 & E2 & C2 & _). { now apply (co_root _ _ C1). }
        exists p2. rewrite E1. cbn [bind]. rewrite E2. cbn [bind]. split; auto. eapply compressed_trans; eauto.
      - destruct (find_ok par b rb Rb) as (p1 & E1 & C1 & _). destruct (find_ok p1 a ra) as (p2 & E2 & C2 & _). { now apply (co_root _ _ C1). }
        exists p2. rewrite E1. cbn [bind]. rewrite E2. cbn [bind]. split; auto. eapply compressed_trans; eauto. }
    destruct G as (p1 & -> & C). pose proof (co_len _ _ C) as L1.
    assert (Ra1 : rooted p1 a ra) by (now apply (co_root _ _ C)). assert (Rb1 : rooted p1 b rb) by (now apply (co_root _ _ C)).
    assert (Ea : nth_error p1 ra = Some (Some ra)) by (destruct Ra1 as (d & H); eapply root_self; eauto). assert (Eb : nth_error p1 rb = Some (Some rb)) by (destruct Rb1 as (d & H); eapply root_self; eauto).
    assert (Lra : ra < length p1) by (apply nth_error_Some; congruence). rewrite wr_Ok by auto. eexists. split; [reflexivity|].
    assert (Ei : nth_error (upd p1 ra (Some rb)) ra = Some (Some rb)) by (now apply nth_error_upd_eq).
    assert (Eo : forall k, k <> ra -> nth_error (upd p1 ra (Some rb)) k = nth_error p1 k) by (intros; apply nth_error_upd_neq; auto).
    assert (Rr : forall k s, rooted (upd p1 ra (Some rb)) k s <-> exists s0, rooted par k s0 /\ s = if s0 =? ra then rb else s0).
    { intros k s. setoid_rewrite <- (co_root _ _ C). destruct (Nat.eq_dec ra rb) as [Eq|Ne].
      - subst rb. assert (E : upd p1 ra (Some ra) = p1). { apply nth_error_ext. intros x. destruct (Nat.eq_dec x ra) as [->|]; [congruence|auto]. } rewrite E. split.
        + intros R. exists s. split; auto. destruct (Nat.eqb_spec s ra); auto.
        + intros (s0 & R & ->). destruct (Nat.eqb_spec s0 ra) as [->|]; auto.
      - split.
        + intros (d & H). induction H as [k E|d k j s E Nk H IH].
          * destruct (Nat.eq_dec k ra) as [->|Hk]; [congruence|]. rewrite Eo in E by auto. exists k. split; [exists 0; now constructor|]. rewrite (proj2 (Nat.eqb_neq _ _) Hk). auto.
          * destruct (Nat.eq_dec k ra) as [->|Hk].
            { rewrite Ei in E. injection E as <-. destruct IH as (s0 & R & ->). assert (s0 = rb) by (eapply rooted_fun; [|exact R]; eapply rooted_self; eauto). subst s0. exists ra. split; [exists 0; now constructor|]. rewrite Nat.eqb_refl, (proj2 (Nat.eqb_neq rb ra)) by auto. auto. }
            rewrite Eo in E by auto. destruct IH as (s0 & (d2 & R) & ->). exists s0. split; auto. exists (S d2). econstructor; eauto.
        + intros (s0 & (d & H) & ->). induction H as [k E|d k j s E Nk H IH].
          * destruct (Nat.eqb_spec k ra) as [->|Hk]; [|exists 0; constructor; now rewrite Eo]. exists 1. econstructor; eauto. constructor. rewrite Eo; auto.
          * destruct (Nat.eq_dec k ra) as [->|Hk]. { rewrite Ea in E. injection E as <-. congruence. } destruct IH as (d2 & IH). exists (S d2). econstructor; eauto. now rewrite Eo. }
    constructor.
    + rewrite upd_length. congruence.
    + intros k Hk. destruct (W k Hk) as [H|(r & H)].
      * left. unfold dead. destruct (Nat.eq_dec k ra) as [->|]; [|rewrite Eo by auto; now apply (co_dead _ _ C)]. apply (co_dead _ _ C) in H. unfold dead in H. congruence.
      * right. eexists. apply Rr. eauto.
    + intros k. rewrite in_app_iff. cbn. rewrite <- D, <- (co_dead _ _ C). unfold dead. destruct (Nat.eq_dec k ra) as [->|]; [rewrite Ei, Ea|rewrite Eo by auto]; intuition congruence.
    + intros u v (r & A & B). apply Rr in A, B. destruct A as (s1 & A & ->), B as (s2 & B & Es).
      assert (In1 : forall x y, clos_refl_sym_trans _ (merged done) x y -> clos_refl_sym_trans _ (merged (done ++ [Merge a b])) x y). { intros x y. apply clos_mono. intros. apply merged_snoc. auto. }
      assert (Ab : clos_refl_sym_trans _ (merged (done ++ [Merge a b])) a b) by (apply rst_step, merged_snoc; auto).
      assert (Sm : forall x y r, rooted par x r -> rooted par y r -> clos_refl_sym_trans _ (merged (done ++ [Merge a b])) x y). { intros x y r X Y. apply In1, So. exists r. auto. }
      destruct (Nat.eqb_spec s1 ra) as [E1|H1], (Nat.eqb_spec s2 ra) as [E2|H2]; rewrite ?E1, ?E2 in *; rewrite <- ?Es in *.
      * eauto.
      * apply rst_trans with a; [eauto|]. apply rst_trans with b; [auto|]. eauto.
      * rewrite Es in *. apply rst_trans with b; [eauto|]. apply rst_trans with a; [now apply rst_sym|]. eauto.
      * eauto.
    + intros u v M. apply merged_snoc in M. assert (Up : forall x y, same par x y -> same (upd p1 ra (Some rb)) x y). { intros x y (r & X & Y). exists (if r =? ra then rb else r). split; apply Rr; eauto. }
      destruct M as [M|M]; [apply Up, Co, M|]. injection M as <- <-. exists rb. split; apply Rr.
      * exists ra. split; auto. now rewrite Nat.eqb_refl.
      * exists rb. split; auto. destruct (Nat.eqb_spec rb ra); auto.
Qed.
Lemma uinv_start N : uinv N [] (map Some (seq 0 N)).
Proof.
  assert (E : forall i, i < N -> nth_error (map Some (seq 0 N)) i = Some (Some i)). { intros i Hi. rewrite nth_error_map. rewrite (nth_error_nth' _ 0) by (now rewrite seq_length). rewrite seq_nth by auto. reflexivity. }
  assert (O : forall i p, nth_error (map Some (seq 0 N)) i = Some p -> p = Some i). { intros i p H. assert (i < N). { assert (i < length (map (@Some nat) (seq 0 N))) by (apply nth_error_Some; congruence). rewrite map_length, seq_length in *. auto. } rewrite E in H by auto. congruence. }
  constructor.
  - now rewrite map_length, seq_length.
  - intros i Hi. right. exists i, 0. constructor. auto.
  - intros i. unfold dead. split; [intros H; apply O in H; discriminate|intros []].
  - intros u v (r & (d & A) & (d' & B)). inversion A; subst; [|apply O in H; congruence]. inversion B; subst; [|apply O in H0; congruence]. apply rst_refl.
  - intros u v [].
Qed.
Lemma urun_ok N live lf ops : (forall q, In q ops -> uok N live q) -> exists par, foldM (ustep lf) ops (map Some (seq 0 N)) = Ok par /\ uinv N ops par.
Proof.
  intros H. destruct (foldM_inv (ustep lf) ops (uinv N) (map Some (seq 0 N))) as (par & E & I); eauto using uinv_start.
  intros done x rest b El I. apply (ustep_ok N live); auto. intros q Hq. apply H. rewrite El. apply in_app_iff in Hq. apply in_app_iff. cbn in Hq |- *. intuition auto.
Qed.
Lemma uinv_classes N ops par u v : uinv N ops par -> u < N -> ~ dead par u -> (same par u v <-> clos_refl_sym_trans _ (merged ops) u v).
Proof.
  intros I Lu Du. split; [apply I|]. intros H. assert (G : u = v \/ same par u v). { clear Lu Du. induction H as [a b Hab| | |]; auto.
    - right. now apply I.
    - destruct IHclos_refl_sym_trans; auto. right. now apply same_sym.
    - destruct IHclos_refl_sym_trans1 as [->|S1], IHclos_refl_sym_trans2 as [->|S2]; auto. right. eapply same_trans; eauto. }
  destruct G as [->|]; auto. destruct (ui_wf _ _ _ I v Lu) as [|(r & R)]; [contradiction|]. exists r. auto.
Qed.
