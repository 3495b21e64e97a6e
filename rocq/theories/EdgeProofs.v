(** * EdgeProofs: the pointer structures of EdgeModel represent lists. *)
From Verif Require Import Base CondModel EdgeModel PropsCond.
Open Scope nat_scope.

Definition edge_at (m : mem) (p : addr) : option edge := match p with 0 => None | S i => nth_error (edges m) i end.
Definition aedge := (addr * condition * N)%type.
Definition id_of (e : aedge) : addr := fst (fst e).
Definition cond_of (e : aedge) : condition := snd (fst e).
Definition kind_of (e : aedge) : N := snd e.
Definition ids (l : list aedge) : list addr := map id_of l.

Inductive setrep (m : mem) (src snk : nat) : addr -> list aedge -> Prop :=
| setrep_nil : setrep m src snk 0 []
| setrep_cons p e l : edge_at m p = Some e -> e_source e = src -> e_sink e = snk -> setrep m src snk (e_rest e) l ->
    setrep m src snk p ((p, e_cond e, e_kind e) :: l).
(** chain of [next_in_edge_worklist] from p, ending at q *)
Inductive lseg (m : mem) : addr -> list addr -> addr -> Prop :=
| lseg_nil q : lseg m q [] q
| lseg_cons p e l q : edge_at m p = Some e -> lseg m (e_next e) l q -> lseg m p (p :: l) q.
Inductive freerep (m : mem) : addr -> list addr -> Prop :=
| free_nil : freerep m 0 []
| free_cons p e l : edge_at m p = Some e -> e_kind e = 0%N -> freerep m (e_rest e) l -> freerep m p (p :: l).

Definition rm (a : addr) (l : list addr) : list addr := filter (fun b => negb (b =? a)) l.

Record wlinv (m : mem) (g : aug) (wl own : list addr) : Prop := {
  wl_link : lseg m (wl_head g) wl 0;
  wl_last : wl_tail g = last wl 0;
  wl_nodup : NoDup wl;
  wl_incl : incl wl own;
  wl_next : forall a, In a own -> exists e, edge_at m a = Some e /\ (~ In a wl -> e_next e = 0) }.

Definition core (e : edge) := (e_rest e, e_source e, e_sink e, e_cond e, e_kind e).

(** ** heap accesses *)
Lemma load_at m p e : load m p = Ok e <-> edge_at m p = Some e.
Proof. destruct p; cbn; [split; discriminate|apply rd_Ok]. Qed.
Lemma edge_at_pos m p e : edge_at m p = Some e -> p <> 0.
Proof. intros H ->. discriminate. Qed.
Lemma edge_at_le m p e : edge_at m p = Some e -> 0 < p <= length (edges m).
Proof. destruct p; cbn; [discriminate|]. intros H. split; [lia|]. apply nth_error_Some. congruence. Qed.
Lemma store_ok m p e0 e : edge_at m p = Some e0 -> exists m', store m p e = Ok m' /\
  (forall q, edge_at m' q = if q =? p then Some e else edge_at m q) /\ freelist m' = freelist m /\ length (edges m') = length (edges m).
Proof.
  intros H. pose proof (edge_at_le _ _ _ H) as L. destruct p as [|i]; [lia|]. cbn [store]. rewrite wr_Ok by lia. cbn [bind].
  eexists. split; [reflexivity|]. cbn [freelist edges]. ands; auto; [|apply upd_length].
  intros [|q]; cbn [edge_at edges]; auto. rewrite nth_error_upd. cbn [Nat.eqb]. rewrite (Nat.eqb_sym q i). destruct (Nat.eqb_spec i q); auto.
  subst. destruct (Nat.ltb_spec q (length (edges m))); auto. lia.
Qed.
Lemma set_next_ok m p q e : edge_at m p = Some e -> exists m', set_next m p q = Ok m' /\
  (forall r, edge_at m' r = if r =? p then Some (mkEdge (e_rest e) (e_source e) (e_sink e) (e_cond e) (e_kind e) q) else edge_at m r) /\
  freelist m' = freelist m /\ length (edges m') = length (edges m).
Proof. intros H. unfold set_next. rewrite (proj2 (load_at _ _ _) H). cbn [bind]. eapply store_ok; eauto. Qed.
Lemma set_rest_ok m p q e : edge_at m p = Some e -> exists m', set_rest m p q = Ok m' /\
  (forall r, edge_at m' r = if r =? p then Some (mkEdge q (e_source e) (e_sink e) (e_cond e) (e_kind e) (e_next e)) else edge_at m r) /\
  freelist m' = freelist m /\ length (edges m') = length (edges m).
Proof. intros H. unfold set_rest. rewrite (proj2 (load_at _ _ _) H). cbn [bind]. eapply store_ok; eauto. Qed.
Lemma set_kind_ok m p k e : edge_at m p = Some e -> exists m', set_kind m p k = Ok m' /\
  (forall r, edge_at m' r = if r =? p then Some (mkEdge (e_rest e) (e_source e) (e_sink e) (e_cond e) k (e_next e)) else edge_at m r) /\
  freelist m' = freelist m /\ length (edges m') = length (edges m).
Proof. intros H. unfold set_kind. rewrite (proj2 (load_at _ _ _) H). cbn [bind]. eapply store_ok; eauto. Qed.

(** ** frames *)
Lemma setrep_frame m m' src snk p l :
  (forall a e, In a (ids l) -> edge_at m a = Some e -> exists e', edge_at m' a = Some e' /\ core e' = core e) ->
  setrep m src snk p l -> setrep m' src snk p l.
Proof.
  intros H S. induction S; [constructor|]. destruct (H p e) as (e' & E & C); [now left|auto|].
  unfold core in C. injection C as C1 C2 C3 C4 C5. rewrite <- C4, <- C5. constructor; try congruence.
  rewrite C1. apply IHS. intros a e0 Ha. apply H. now right.
Qed.
Lemma lseg_frame m m' p l q :
  (forall a e, In a l -> edge_at m a = Some e -> exists e', edge_at m' a = Some e' /\ e_next e' = e_next e) ->
  lseg m p l q -> lseg m' p l q.
Proof.
  intros H S. induction S; [constructor|]. destruct (H p e) as (e' & E & C); [now left|auto|].
  econstructor; eauto. rewrite C. apply IHS. intros a e0 Ha. apply H. now right.
Qed.
Lemma freerep_frame m m' p l :
  (forall a e, In a l -> edge_at m a = Some e -> exists e', edge_at m' a = Some e' /\ e_rest e' = e_rest e /\ e_kind e' = e_kind e) ->
  freerep m p l -> freerep m' p l.
Proof.
  intros H S. induction S; [constructor|]. destruct (H p e) as (e' & E & C & D); [now left|auto|].
  econstructor; eauto; [congruence|]. rewrite C. apply IHS. intros a e0 Ha. apply H. now right.
Qed.
Lemma setrep_at m src snk p l a c k : setrep m src snk p l -> In (a, c, k) l ->
  exists e, edge_at m a = Some e /\ e_source e = src /\ e_sink e = snk /\ e_cond e = c /\ e_kind e = k.
Proof. induction 1; [intros []|]. intros [E|Hi]; auto. injection E as <- <- <-. eauto 10. Qed.
Lemma setrep_ids_at m src snk p l a : setrep m src snk p l -> In a (ids l) -> exists e, edge_at m a = Some e.
Proof. intros S Hi. apply in_map_iff in Hi. destruct Hi as ([[a' c] k] & <- & Hi). destruct (setrep_at _ _ _ _ _ _ _ _ S Hi) as (e & E & _). eauto. Qed.
Lemma freerep_at m p l a : freerep m p l -> In a l -> exists e, edge_at m a = Some e.
Proof. induction 1; [intros []|]. intros [<-|Hi]; eauto. Qed.
Lemma lseg_at m p l q a : lseg m p l q -> In a l -> exists e, edge_at m a = Some e.
Proof. induction 1; [intros []|]. intros [<-|Hi]; eauto. Qed.
Lemma setrep_head m src snk p l : setrep m src snk p l -> p = hd 0 (ids l).
Proof. now inversion 1. Qed.
Lemma setrep_det m src snk p l1 l2 : setrep m src snk p l1 -> setrep m src snk p l2 -> l1 = l2.
Proof.
  intros S; revert l2. induction S; intros l2 T; inversion T; subst; auto; try (cbn in *; discriminate).
  match goal with A : edge_at m p = Some ?x, B : edge_at m p = Some ?y |- _ => assert (x = y) by congruence; subst end. f_equal; auto.
Qed.

Lemma lseg_app m p l1 l2 q : lseg m p (l1 ++ l2) q <-> exists r, lseg m p l1 r /\ lseg m r l2 q.
Proof.
  revert p; induction l1 as [|a l1 IH]; intros p; cbn [app]; split.
  - intros H. exists p. split; [constructor|auto].
  - intros (r & H1 & H2). inversion H1; subst. auto.
  - intros H. inversion H; subst. match goal with A : lseg m _ (l1 ++ l2) q |- _ => apply IH in A; destruct A as (r & A & B) end. exists r. split; auto. econstructor; eauto.
  - intros (r & H1 & H2). inversion H1; subst. econstructor; eauto. apply IH. eauto.
Qed.
Lemma lseg_hd m p l q : lseg m p l q -> l <> [] -> p = hd 0 l.
Proof. inversion 1; subst; cbn; congruence. Qed.

(** ** rm *)
Lemma in_rm a b l : In b (rm a l) <-> In b l /\ b <> a.
Proof. unfold rm. rewrite filter_In, negb_true_iff, Nat.eqb_neq. tauto. Qed.
Lemma rm_notin a l : ~ In a l -> rm a l = l.
Proof.
  induction l as [|b l IH]; intros H; auto. cbn [rm filter]. destruct (Nat.eqb_spec b a); cbn [negb].
  - subst. exfalso. apply H. now left.
  - f_equal. apply IH. intros G. apply H. now right.
Qed.
Lemma rm_app a l1 l2 : rm a (l1 ++ l2) = rm a l1 ++ rm a l2.
Proof. unfold rm. apply filter_app. Qed.
Lemma rm_cons_eq a l : rm a (a :: l) = rm a l.
Proof. unfold rm. cbn. now rewrite Nat.eqb_refl. Qed.
Lemma rm_split a l1 l2 : NoDup (l1 ++ a :: l2) -> rm a (l1 ++ a :: l2) = l1 ++ l2.
Proof. intros H. pose proof (NoDup_remove_2 _ _ _ H) as N. rewrite rm_app, rm_cons_eq. rewrite !rm_notin; auto; intros G; apply N; apply in_or_app; auto. Qed.
Lemma rm_NoDup a l : NoDup l -> NoDup (rm a l).
Proof. apply NoDup_filter. Qed.

Lemma last_app_cons {A} (l1 : list A) a l2 d : last (l1 ++ a :: l2) d = last (a :: l2) d.
Proof. induction l1 as [|x l1 IH]; auto. cbn [app]. rewrite <- IH. destruct l1; reflexivity. Qed.
Lemma last_snoc {A} (l : list A) a d : last (l ++ [a]) d = a.
Proof. now rewrite last_app_cons. Qed.
Lemma last_in {A} (l : list A) d : l <> [] -> In (last l d) l.
Proof. intros H. destruct (exists_last H) as (l' & a & ->). rewrite last_snoc. apply in_or_app. right. now left. Qed.
Lemma last_cons_default {A} (a : A) l d d' : last (a :: l) d = last (a :: l) d'.
Proof. revert a; induction l as [|b l IH]; intros a; auto. cbn [last] in *. apply IH. Qed.
Lemma last_cons_shift {A} (a : A) l d : last (a :: l) d = last l a.
Proof. destruct l as [|b l]; auto. change (last (a :: b :: l) d) with (last (b :: l) d). apply last_cons_default. Qed.

(** ** the worklist *)
Lemma find_link_ok m a l : forall fuel prev p, lseg m p l a -> ~ In a l -> (forall b, In b l -> b <> 0) -> length l < fuel ->
  find_link fuel m a prev p = Ok (last l prev).
Proof.
  induction l as [|b l IH]; intros fuel prev p S Hn Hz Hf; destruct fuel as [|f]; try (cbn in Hf; lia); cbn [find_link].
  - inversion S; subst. rewrite Nat.eqb_refl. reflexivity.
  - inversion S; subst. destruct (Nat.eqb_spec b a); [subst; exfalso; apply Hn; now left|].
    destruct (Nat.eqb_spec b 0); [exfalso; apply (Hz b); auto; now left|].
    match goal with A : edge_at m b = Some _ |- _ => rewrite (proj2 (load_at _ _ _) A) end. cbn [bind].
    rewrite IH; auto; [|intros G; apply Hn; now right|intros x Hx; apply Hz; now right|cbn in Hf; lia].
    f_equal. symmetry. apply last_cons_shift.
Qed.
Lemma find_pred_ok m a l : forall fuel p, l <> [] -> lseg m p l a -> ~ In a l -> (forall b, In b l -> b <> 0) -> length l < fuel ->
  find_pred fuel m a p = Ok (last l 0).
Proof.
  induction l as [|b l IH]; intros fuel p Hne S Hn Hz Hf; [congruence|]. destruct fuel as [|f]; [cbn in Hf; lia|]. cbn [find_pred].
  inversion S; subst. match goal with A : edge_at m b = Some _ |- _ => rewrite (proj2 (load_at _ _ _) A) end. cbn [bind].
  match goal with A : lseg m (e_next ?x) l a |- _ => rename A into T; set (e1 := x) in * end.
  destruct l as [|b' l].
  - inversion T; subst. match goal with A : _ = _ |- _ => rewrite ?A end. rewrite Nat.eqb_refl. reflexivity.
  - pose proof (lseg_hd _ _ _ _ T ltac:(discriminate)) as E. cbn [hd] in E. rewrite E.
    destruct (Nat.eqb_spec b' a); [subst; exfalso; apply Hn; right; now left|].
    destruct (Nat.eqb_spec b' 0); [exfalso; apply (Hz b'); auto; right; now left|].
    rewrite <- E at 1. rewrite IH; auto; [discriminate|intros G; apply Hn; now right|intros x Hx; apply Hz; now right|cbn in Hf |- *; lia].
Qed.

Lemma lseg_zero_nil m l q : lseg m 0 l q -> l = [] .
Proof. inversion 1; subst; auto. cbn in *. discriminate. Qed.
Lemma wl_pos m g wl own a : wlinv m g wl own -> In a wl -> a <> 0.
Proof. intros W H. destruct (lseg_at _ _ _ _ _ (wl_link _ _ _ _ W) H) as (e & E). eapply edge_at_pos; eauto. Qed.
Lemma wl_len m g wl own : wlinv m g wl own -> length wl <= length (edges m).
Proof.
  intros W. rewrite <- (seq_length (length (edges m)) 1). apply NoDup_incl_length; [apply W|].
  intros a Ha. destruct (lseg_at _ _ _ _ _ (wl_link _ _ _ _ W) Ha) as (e & E). apply edge_at_le in E. apply in_seq. lia.
Qed.

(** only [next] fields of addresses in D change *)
Record nextonly (m m' : mem) (D : list addr) : Prop := {
  no_free : freelist m' = freelist m;
  no_len : length (edges m') = length (edges m);
  no_out : forall q, ~ In q D -> edge_at m' q = edge_at m q;
  no_core : forall q e, edge_at m q = Some e -> exists e', edge_at m' q = Some e' /\ core e' = core e }.
Lemma nextonly_refl m D : nextonly m m D.
Proof. constructor; auto. intros; eauto. Qed.

Lemma NoDup_snoc {A} (l : list A) a : NoDup l -> ~ In a l -> NoDup (l ++ [a]).
Proof.
  induction l as [|b l IH]; intros H N; cbn [app]; [constructor; auto; constructor|]. inversion H; subst. constructor.
  - rewrite in_app_iff. intros [G|[G|[]]]; auto. subst. apply N. now left.
  - apply IH; auto. intros G. apply N. now right.
Qed.

Lemma add_to_worklist_ok m g wl own a : wlinv m g wl own -> In a own -> ~ In a wl ->
  exists m' g', add_to_worklist a m g = Ok (m', g') /\ wlinv m' g' (wl ++ [a]) own /\ nextonly m m' wl /\ graph g' = graph g /\ n_inst g' = n_inst g.
Proof.
  intros W Ha Hn. destruct (wl_next _ _ _ _ W a Ha) as (e & E & Hz). specialize (Hz Hn).
  unfold add_to_worklist. rewrite (proj2 (load_at _ _ _) E). cbn [bind]. rewrite Hz. cbn [Nat.eqb andb].
  assert (Ap : a <> 0) by (eapply edge_at_pos; eauto).
  assert (Tn : wl_tail g <> a).
  { rewrite (wl_last _ _ _ _ W). destruct wl as [|b wl']; [cbn; congruence|]. intros G. apply Hn. rewrite <- G. apply last_in. discriminate. }
  destruct (Nat.eqb_spec (wl_tail g) a); [congruence|]. cbn [negb].
  destruct wl as [|b wl'] eqn:Ew.
  - pose proof (wl_last _ _ _ _ W) as L. cbn in L. rewrite L. cbn [Nat.eqb].
    pose proof (wl_link _ _ _ _ W) as K. assert (Hh : wl_head g = 0) by (inversion K; auto). rewrite Hh. cbn [Nat.eqb negb].
    eexists m, _. split; [reflexivity|]. split; [|split; [apply nextonly_refl|auto]]. constructor; cbn [wl_head wl_tail set_head set_tail app].
    + econstructor; eauto. rewrite Hz. constructor.
    + reflexivity.
    + constructor; [intros []|constructor].
    + intros x [<-|[]]; auto.
    + intros x Hx. destruct (wl_next _ _ _ _ W x Hx) as (e' & E' & G). exists e'. split; auto.
  - rewrite <- Ew in *. assert (Ne : wl <> []) by (rewrite Ew; discriminate). clear Ew b wl'.
    destruct (exists_last Ne) as (l1 & t & Et). assert (Tl : wl_tail g = t) by (rewrite (wl_last _ _ _ _ W), Et; apply last_snoc).
    assert (Tw : In t wl) by (rewrite Et; apply in_or_app; right; now left).
    assert (Tp : t <> 0) by (eapply wl_pos; eauto).
    assert (Hp : wl_head g <> 0).
    { pose proof (wl_link _ _ _ _ W) as K. intros G. rewrite G in K. apply lseg_zero_nil in K. congruence. }
    rewrite Tl. destruct (Nat.eqb_spec t 0); [congruence|]. destruct (Nat.eqb_spec (wl_head g) 0); [congruence|].
    destruct (lseg_at _ _ _ _ _ (wl_link _ _ _ _ W) Tw) as (et & Eet).
    destruct (set_next_ok m t a et Eet) as (m' & -> & Hm & Hf & Hl). cbn [bind].
    eexists m', _. split; [reflexivity|].
    assert (Nd := wl_nodup _ _ _ _ W). rewrite Et in Nd. pose proof (NoDup_remove_2 _ _ _ Nd) as Nt. rewrite app_nil_r in Nt.
    assert (At : a <> t) by (intros ->; auto).
    split; [|split; [|auto]].
    + constructor; cbn [wl_head wl_tail set_tail].
      * pose proof (wl_link _ _ _ _ W) as K. rewrite Et in K |- *. rewrite <- app_assoc. apply lseg_app in K. destruct K as (r & K1 & K2).
        assert (r = t) by (inversion K2; auto). subst r. apply lseg_app. exists t. split.
        { eapply lseg_frame; [|exact K1]. intros x ex Hx Ex. rewrite Hm. destruct (Nat.eqb_spec x t); [congruence|]. eauto. }
        { cbn [app]. econstructor; [rewrite Hm, Nat.eqb_refl; reflexivity|]. cbn [e_next]. econstructor; [rewrite Hm; destruct (Nat.eqb_spec a t); [congruence|exact E]|]. rewrite Hz. constructor. }
      * now rewrite last_snoc.
      * apply NoDup_snoc; auto. apply W.
      * intros x Hx. apply in_app_iff in Hx. destruct Hx as [Hx|[<-|[]]]; auto. apply (wl_incl _ _ _ _ W); auto.
      * intros x Hx. destruct (wl_next _ _ _ _ W x Hx) as (ex & Ex & G). rewrite Hm. destruct (Nat.eqb_spec x t).
        { eexists. split; [reflexivity|]. intros K. exfalso. apply K. apply in_or_app. left. congruence. }
        { exists ex. split; auto. intros K. apply G. intros G'. apply K. apply in_or_app. auto. }
    + constructor; auto.
      * intros q Hq. rewrite Hm. destruct (Nat.eqb_spec q t); auto. subst. contradiction.
      * intros q eq Eq. rewrite Hm. destruct (Nat.eqb_spec q t); eauto. subst. eexists. split; [reflexivity|]. assert (eq = et) by congruence. subst. reflexivity.
Qed.

Lemma remove_from_worklist_ok m g wl own own' a : wlinv m g wl own -> In a own -> ~ In a own' -> incl own' own -> (forall b, In b own -> b = a \/ In b own') ->
  exists m' g' e', remove_from_worklist a m g = Ok (m', g') /\ wlinv m' g' (rm a wl) own' /\ graph g' = graph g /\ n_inst g' = n_inst g /\
    freelist m' = freelist m /\ length (edges m') = length (edges m) /\
    (forall q, ~ In q wl -> q <> a -> edge_at m' q = edge_at m q) /\
    (forall q e, q <> a -> edge_at m q = Some e -> exists e1, edge_at m' q = Some e1 /\ core e1 = core e) /\
    edge_at m' a = Some e' /\ e_kind e' = 0%N /\ (forall e, edge_at m a = Some e -> e_rest e' = e_rest e).
Proof.
  intros W Ha Hna Hincl Hown. destruct (wl_next _ _ _ _ W a Ha) as (e & E & Hz).
  assert (Ap : a <> 0) by (eapply edge_at_pos; eauto).
  assert (Hlen := wl_len _ _ _ _ W).
  (* the middle part *)
  assert (MID : exists m1 g1,
    (if negb (e_next e =? 0) then
       p <- find_link (S (S (length (edges m)))) m a 0 (wl_head g) ;;
       if p =? 0 then Ok (m, set_head g (e_next e)) else m <- set_next m p (e_next e) ;; Ok (m, g)
     else if a =? wl_tail g then
       if a =? wl_head g then Ok (m, set_tail (set_head g 0) 0)
       else p <- find_pred (S (S (length (edges m)))) m a (wl_head g) ;; m <- set_next m p 0 ;; Ok (m, set_tail g p)
     else Ok (m, g)) = Ok (m1, g1) /\ wlinv m1 g1 (rm a wl) own' /\ nextonly m m1 (rm a wl) /\ graph g1 = graph g /\ n_inst g1 = n_inst g).
  { assert (NOT : ~ In a wl -> wlinv m g (rm a wl) own').
    { intros Hn. rewrite rm_notin by auto. destruct W. constructor; auto. intros x Hx. destruct (Hown x) as [->|]; auto. contradiction. }
    assert (NXT : forall m1 l, NoDup (rm a wl) -> l = rm a wl -> (forall q, ~ In q l -> edge_at m1 q = edge_at m q) -> (forall q e, edge_at m q = Some e -> exists e1, edge_at m1 q = Some e1) ->
       forall x, In x own' -> exists ex, edge_at m1 x = Some ex /\ (~ In x l -> e_next ex = 0)).
    { intros m1 l _ -> H1 H2 x Hx. destruct (wl_next _ _ _ _ W x (Hincl x Hx)) as (ex & Ex & G). destruct (H2 _ _ Ex) as (e1 & E1). exists e1. split; auto.
      intros K. rewrite H1 in E1 by auto. assert (ex = e1) by congruence. subst e1. apply G. intros Kx. apply K. apply in_rm. split; auto. intros ->. contradiction. }
    assert (INC : incl (rm a wl) own').
    { intros x Hx. apply in_rm in Hx. destruct Hx as [Hx Hxa]. destruct (Hown x) as [|]; auto. { apply (wl_incl _ _ _ _ W); auto. } contradiction. }
    destruct (Nat.eqb_spec (e_next e) 0) as [En|En]; cbn [negb].
    - destruct (Nat.eqb_spec a (wl_tail g)) as [Et|Et].
      + assert (Ne : wl <> []). { intros ->. pose proof (wl_last _ _ _ _ W) as L. cbn in L. congruence. }
        destruct (exists_last Ne) as (l1 & t & El). assert (t = a). { rewrite Et, (wl_last _ _ _ _ W), El. symmetry. apply last_snoc. } subst t.
        pose proof (wl_link _ _ _ _ W) as K. rewrite El in K. apply lseg_app in K. destruct K as (r & K1 & K2). assert (r = a) by (inversion K2; auto). subst r.
        assert (Nd := wl_nodup _ _ _ _ W). rewrite El in Nd. pose proof (NoDup_remove_2 _ _ _ Nd) as Nt. rewrite app_nil_r in Nt.
        assert (Erm : rm a wl = l1). { rewrite El. rewrite rm_split by auto. apply app_nil_r. }
        destruct (Nat.eqb_spec a (wl_head g)) as [Eh|Eh].
        * destruct l1 as [|b l1].
          2:{ exfalso. apply Nt. pose proof (lseg_hd _ _ _ _ K1 ltac:(discriminate)) as Hh. cbn in Hh. left. congruence. }
          eexists m, _. split; [reflexivity|]. rewrite Erm. split; [|split; [apply nextonly_refl|auto]].
          constructor; cbn [wl_head wl_tail set_head set_tail]; [constructor|reflexivity|constructor|intros x []|].
          rewrite <- Erm. apply NXT; auto. { apply rm_NoDup, W. } intros; eauto.
        * assert (N1 : l1 <> []). { intros ->. inversion K1; subst. congruence. }
          rewrite (find_pred_ok m a l1); auto.
          2:{ intros b Hb. eapply wl_pos; eauto. rewrite El. apply in_or_app. auto. }
          2:{ rewrite El, app_length in Hlen. lia. }
          cbn [bind]. destruct (exists_last N1) as (l2 & p & E2). rewrite E2, last_snoc.
          assert (Pw : In p wl) by (rewrite El, E2; apply in_or_app; left; apply in_or_app; right; now left).
          destruct (lseg_at _ _ _ _ _ (wl_link _ _ _ _ W) Pw) as (ep & Ep). destruct (set_next_ok m p 0 ep Ep) as (m1 & -> & Hm & Hf & Hl). cbn [bind].
          eexists m1, _. split; [reflexivity|].
          assert (NO : nextonly m m1 (rm a wl)).
          { constructor; auto.
            - intros q Hq. rewrite Hm. destruct (Nat.eqb_spec q p); auto. subst q. exfalso. apply Hq. rewrite Erm, E2. apply in_or_app; right; now left.
            - intros q eq Eq. rewrite Hm. destruct (Nat.eqb_spec q p); eauto. subst. eexists. split; [reflexivity|]. assert (eq = ep) by congruence. subst. reflexivity. }
          split; [|split; [exact NO|auto]].
          constructor; cbn [wl_head wl_tail set_tail].
          { rewrite Erm, E2 in *. apply lseg_app in K1. destruct K1 as (r1 & K1 & K3). assert (r1 = p) by (inversion K3; auto). subst r1. apply lseg_app. exists p. split.
            - eapply lseg_frame; [|exact K1]. intros x ex Hx Ex. rewrite Hm. destruct (Nat.eqb_spec x p); eauto. subst x. exfalso.
              rewrite <- app_assoc in Nd. cbn in Nd. pose proof (NoDup_remove_2 _ _ _ Nd) as Z. apply Z. apply in_or_app. auto.
            - econstructor; [rewrite Hm, Nat.eqb_refl; reflexivity|]. constructor. }
          { rewrite Erm, E2. now rewrite last_snoc. }
          { apply rm_NoDup, W. }
          { exact INC. }
          { apply NXT; auto. { apply rm_NoDup, W. } { apply NO. } intros q eq Eq. destruct (no_core _ _ _ NO _ _ Eq) as (e1 & ? & _). eauto. }
      + assert (Hn : ~ In a wl).
        { intros Hw. apply in_split in Hw. destruct Hw as (l1 & l2 & El). pose proof (wl_link _ _ _ _ W) as K. rewrite El in K. apply lseg_app in K. destruct K as (r & K1 & K2).
          inversion K2 as [|p0 e0 l0 q0 E0 K3]; subst. assert (e0 = e) by congruence. subst e0. rewrite En in K3. apply lseg_zero_nil in K3. subst l2.
          apply Et. rewrite (wl_last _ _ _ _ W). now rewrite last_snoc. }
        eexists m, g. split; [reflexivity|]. split; [apply NOT; auto|]. split; [apply nextonly_refl|auto].
    - assert (Hw : In a wl). { destruct (in_dec Nat.eq_dec a wl); auto. exfalso. auto. }
      apply in_split in Hw. destruct Hw as (l1 & l2 & El).
      pose proof (wl_link _ _ _ _ W) as K. rewrite El in K. apply lseg_app in K. destruct K as (r & K1 & K2).
      inversion K2 as [|p0 e0 l0 q0 E0 K3]; subst p0 l0 q0 r. assert (e0 = e) by congruence. subst e0.
      assert (Nd := wl_nodup _ _ _ _ W). rewrite El in Nd. pose proof (NoDup_remove_2 _ _ _ Nd) as Nt.
      assert (Erm : rm a wl = l1 ++ l2) by (rewrite El; apply rm_split; auto).
      assert (N2 : l2 <> []). { intros ->. inversion K3; subst. congruence. }
      rewrite (find_link_ok m a l1); auto.
      2:{ intros G. apply Nt. apply in_or_app. auto. }
      2:{ intros b Hb. eapply wl_pos; eauto. rewrite El. apply in_or_app. auto. }
      2:{ rewrite El, app_length in Hlen. cbn in Hlen. lia. }
      cbn [bind]. assert (Lst : wl_tail g = last (rm a wl) 0).
      { rewrite (wl_last _ _ _ _ W), Erm, El, last_app_cons, last_cons_shift. destruct l2 as [|b l2]; [congruence|]. rewrite last_app_cons. apply last_cons_default. }
      destruct l1 as [|b l1'] eqn:E1.
      + cbn [last Nat.eqb]. eexists m, _. split; [reflexivity|]. split; [|split; [apply nextonly_refl|auto]].
        constructor; cbn [wl_head wl_tail set_head]; auto.
        * rewrite Erm. exact K3.
        * apply rm_NoDup, W.
        * apply NXT; auto. { apply rm_NoDup, W. } intros; eauto.
      + rewrite <- E1 in *. assert (N1 : l1 <> []) by (rewrite E1; discriminate). clear E1 b l1'.
        destruct (exists_last N1) as (l3 & p & E3). rewrite E3, last_snoc.
        assert (Pw : In p wl) by (rewrite El, E3; apply in_or_app; left; apply in_or_app; right; now left).
        destruct (Nat.eqb_spec p 0); [exfalso; eapply wl_pos; eauto|].
        destruct (lseg_at _ _ _ _ _ (wl_link _ _ _ _ W) Pw) as (ep & Ep). destruct (set_next_ok m p (e_next e) ep Ep) as (m1 & -> & Hm & Hf & Hl). cbn [bind].
        eexists m1, _. split; [reflexivity|].
        assert (Pn : ~ In p (l3 ++ l2)).
        { rewrite E3 in Nd. rewrite <- app_assoc in Nd. cbn in Nd. pose proof (NoDup_remove_2 _ _ _ Nd) as Z. intros G. apply Z. rewrite in_app_iff in *. cbn [In]. tauto. }
        assert (NO : nextonly m m1 (rm a wl)).
        { constructor; auto.
          - intros q Hq. rewrite Hm. destruct (Nat.eqb_spec q p); auto. subst q. exfalso. apply Hq. rewrite Erm, E3. apply in_or_app; left. apply in_or_app; right; now left.
          - intros q eq Eq. rewrite Hm. destruct (Nat.eqb_spec q p); eauto. subst. eexists. split; [reflexivity|]. assert (eq = ep) by congruence. subst. reflexivity. }
        split; [|split; [exact NO|auto]].
        constructor; auto.
        * rewrite Erm, E3 in *. rewrite <- app_assoc. apply lseg_app in K1. destruct K1 as (r1 & K1 & K4). assert (r1 = p) by (inversion K4; auto). subst r1. apply lseg_app. exists p. split.
          { eapply lseg_frame; [|exact K1]. intros x ex Hx Ex. rewrite Hm. destruct (Nat.eqb_spec x p); eauto. subst x. exfalso. apply Pn. apply in_or_app. auto. }
          { cbn [app]. econstructor; [rewrite Hm, Nat.eqb_refl; reflexivity|]. cbn [e_next]. eapply lseg_frame; [|exact K3].
            intros x ex Hx Ex. rewrite Hm. destruct (Nat.eqb_spec x p); eauto. subst x. exfalso. apply Pn. apply in_or_app. auto. }
        * apply rm_NoDup, W.
        * apply NXT; auto. { apply rm_NoDup, W. } { apply NO. } intros q eq Eq. destruct (no_core _ _ _ NO _ _ Eq) as (e1 & ? & _). eauto. }
  destruct MID as (m1 & g1 & EM & W1 & NO & G1 & G2).
  unfold remove_from_worklist. rewrite (proj2 (load_at _ _ _) E). cbn [bind]. rewrite EM. cbn [bind].
  destruct (no_core _ _ _ NO _ _ E) as (ea & Ea & Ca).
  destruct (set_kind_ok m1 a no_dependency ea Ea) as (m2 & -> & Hm & Hf & Hl). cbn [bind].
  eexists m2, g1, _. split; [reflexivity|]. ands; auto.
  - constructor.
    + eapply lseg_frame; [|apply W1]. intros x ex Hx Ex. rewrite Hm. destruct (Nat.eqb_spec x a); eauto. subst. apply in_rm in Hx. tauto.
    + apply W1.
    + apply W1.
    + apply W1.
    + intros x Hx. destruct (wl_next _ _ _ _ W1 x Hx) as (ex & Ex & G). rewrite Hm. destruct (Nat.eqb_spec x a); [subst; contradiction|]. eauto.
  - rewrite Hf. apply NO.
  - rewrite Hl. apply NO.
  - intros q Hq Hqa. rewrite Hm. destruct (Nat.eqb_spec q a); [congruence|]. apply (no_out _ _ _ NO). intros G. apply in_rm in G. tauto.
  - intros q eq Hqa Eq. rewrite Hm. destruct (Nat.eqb_spec q a); [congruence|]. apply (no_core _ _ _ NO); auto.
  - rewrite Hm, Nat.eqb_refl. reflexivity.
  - reflexivity.
  - intros e2 E2. cbn [e_rest]. assert (e2 = e) by congruence. subst e2. unfold core in Ca. congruence.
Qed.
