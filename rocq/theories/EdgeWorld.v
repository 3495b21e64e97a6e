(** * EdgeWorld: several graphs sharing one heap and one free list. *)
From Verif Require Import Base CondModel EdgeModel PropsCond EdgeProofs EdgeAddProofs EdgeGraph EdgeSem.
Open Scope nat_scope.

Definition aempty : agraph := mkA 0 [] [].
Record winv (m : mem) (gs : list aug) (As : list agraph) (fl : list addr) : Prop := {
  wi_len : length As = length gs;
  wi_part : forall x g A, nth_error gs x = Some g -> nth_error As x = Some A -> gpart m g A;
  wi_free : freerep m (freelist m) fl;
  wi_disj : disj (flat_map allids As) fl [] }.

Lemma flat_map_upd {X Y} (f : X -> list Y) l i d : i < length l -> f d = [] ->
  exists x y, flat_map f (upd l i d) = x ++ y /\ (forall z, flat_map f (upd l i z) = x ++ f z ++ y) /\ (forall z, nth_error l i = Some z -> flat_map f l = x ++ f z ++ y).
Proof.
  intros H Hd. revert i H; induction l as [|h t IH]; intros [|i] H; cbn in H; try lia.
  - exists [], (flat_map f t). cbn. rewrite Hd. ands; auto. intros z E. injection E as ->. auto.
  - destruct (IH i) as (x & y & E1 & E2 & E3); [lia|]. exists (f h ++ x), y. cbn [upd flat_map nth_error]. ands.
    + rewrite E1. apply app_assoc.
    + intros z. rewrite E2. apply app_assoc.
    + intros z Hz. rewrite (E3 z Hz). apply app_assoc.
Qed.

Definition rest_ids (As : list agraph) (x : nat) : list addr := flat_map allids (upd As x aempty).
Lemma world_focus m gs As fl x g : winv m gs As fl -> nth_error gs x = Some g ->
  exists A, nth_error As x = Some A /\ ginv m g A (rest_ids As x) fl.
Proof.
  intros W E. assert (L : x < length As) by (rewrite (wi_len _ _ _ _ W); apply nth_error_Some; congruence).
  destruct (nth_error As x) as [A|] eqn:EA; [|apply nth_error_None in EA; lia]. exists A. split; auto.
  destruct (flat_map_upd allids As x aempty L eq_refl) as (u & v & E1 & E2 & E3). specialize (E3 A EA).
  destruct (wi_disj _ _ _ _ W) as (D1 & D2 & D3 & D4). rewrite E3 in D1. apply NoDup_mid in D1. destruct D1 as (N1 & N2 & N3).
  constructor.
  - eapply wi_part; eauto.
  - apply W.
  - unfold disj. rewrite E3 in D3. ands; auto.
    + intros a Ha. unfold rest_ids. rewrite E1. split; [apply D3; apply in_mid; auto|apply N3; auto].
    + intros a Ha Hr. unfold rest_ids in Hr. rewrite E1 in Hr. destruct (D3 a) as (X & _); auto. apply in_mid. auto.
  - intros a Ha. apply in_flat_map in Ha. destruct Ha as (B & HB & Ha). apply In_nth_error in HB. destruct HB as (y & Hy). rewrite nth_error_upd in Hy.
    destruct (x =? y). { destruct (y <? length As); [|discriminate]. injection Hy as <-. destruct Ha. }
    assert (Ly : y < length gs) by (rewrite <- (wi_len _ _ _ _ W); apply nth_error_Some; congruence).
    destruct (nth_error gs y) as [gy|] eqn:Egy; [|apply nth_error_None in Egy; lia].
    pose proof (wi_part _ _ _ _ W y gy B Egy Hy) as P. destruct (wl_next _ _ _ _ (gp_wl _ _ _ P) a Ha) as (e & Ee & _). eauto.
Qed.
Lemma world_put m gs As fl x g A m' g' A' fl' : winv m gs As fl -> nth_error gs x = Some g -> nth_error As x = Some A ->
  ginv m' g' A' (rest_ids As x) fl' -> (forall a, In a (rest_ids As x) -> edge_at m' a = edge_at m a) ->
  winv m' (upd gs x g') (upd As x A') fl'.
Proof.
  intros W E EA G Fr. assert (L : x < length As) by (rewrite (wi_len _ _ _ _ W); apply nth_error_Some; congruence).
  destruct (flat_map_upd allids As x aempty L eq_refl) as (u & v & E1 & E2 & E3). specialize (E3 A EA).
  destruct (wi_disj _ _ _ _ W) as (D1 & D2 & D3 & D4). rewrite E3 in D1. apply NoDup_mid in D1. destruct D1 as (N1 & N2 & N3).
  destruct (gi_disj _ _ _ _ _ G) as (C1 & C2 & C3 & C4).
  constructor.
  - rewrite !upd_length. apply W.
  - intros y gy Ay Hg HA. rewrite nth_error_upd in Hg. rewrite nth_error_upd in HA. destruct (Nat.eqb_spec x y) as [->|Hxy].
    + destruct (y <? length gs); [|discriminate]. destruct (y <? length As); [|discriminate]. injection Hg as <-. injection HA as <-. apply G.
    + eapply gpart_frame; [|eapply wi_part; eauto]. intros a Ha. apply Fr. apply in_flat_map. exists Ay. split; auto.
      apply nth_error_In with y. rewrite nth_error_upd. destruct (Nat.eqb_spec x y); [contradiction|auto].
  - apply G.
  - unfold disj. unfold rest_ids in *. rewrite E1 in *. rewrite E2. ands; auto.
    + apply NoDup_mid. ands; auto. intros a Ha. apply C3. auto.
    + intros a Ha. apply in_mid in Ha. split; [|intros []]. destruct Ha as [Ha|Ha]; [apply C3; auto|]. intros Hf. apply (C4 a Hf). auto.
Qed.
Lemma world_nil : winv (mkMem [] 0) [] [] [].
Proof. constructor; auto. - intros [|x]; discriminate. - constructor. - unfold disj. cbn. ands; try apply NoDup_nil; intros ? []. Qed.
Definition new_a (n : nat) : agraph := mkA n (repeat [] (n * n)) [].
Lemma allids_new n : allids (new_a n) = [].
Proof. unfold allids, new_a. cbn [acells]. induction (n * n); auto. Qed.
Lemma world_new m gs As fl n : winv m gs As fl -> winv m (gs ++ [mkAug n (repeat 0 (n * n)) 0 0]) (As ++ [new_a n]) fl.
Proof.
  intros W. constructor.
  - rewrite !app_length, (wi_len _ _ _ _ W). auto.
  - intros x g A Hg HA. destruct (Nat.lt_ge_cases x (length gs)) as [L|L].
    + rewrite nth_error_app1 in Hg by auto. rewrite nth_error_app1 in HA by (rewrite (wi_len _ _ _ _ W); auto). eapply wi_part; eauto.
    + rewrite nth_error_app2 in Hg by auto. rewrite nth_error_app2 in HA by (rewrite (wi_len _ _ _ _ W); auto). rewrite (wi_len _ _ _ _ W) in HA.
      destruct (x - length gs) as [|[|]]; cbn in Hg, HA; try discriminate. injection Hg as <-. injection HA as <-.
      constructor; cbn [n_inst graph an acells awl new_a]; auto; try apply repeat_length.
      * intros i j Hi Hj. exists 0. rewrite nth_error_repeat. pose proof (idx_lt n i j Hi Hj). destruct (Nat.ltb_spec (i * n + j) (n * n)); [|lia]. split; auto.
        unfold cell. cbn [acells an new_a]. rewrite nth_repeat. constructor.
      * intros l Hl. apply repeat_spec in Hl. subst. intros ? ? ? [].
      * rewrite allids_new. constructor; cbn; try constructor; auto; try (intros ? []).
  - apply W.
  - rewrite flat_map_app. cbn [flat_map]. rewrite allids_new, !app_nil_r. apply W.
Qed.

(** the queue after add_edge *)
Lemma addR_queue c k l wl l' wl' : addR c k l wl l' wl' -> NoDup (ids l) ->
  exists D new, wl' = filter (fun b => if in_dec Nat.eq_dec b D then false else true) wl ++ new /\ incl D (ids l) /\
    (new = [] \/ exists a m, new = [a] /\ In (a, m, k) l') /\
    (forall a c0 k0, In (a, c0, k0) l' -> In a new \/ (In (a, c0, k0) l /\ ~ In a D)).
Proof.
  assert (FF : forall a D (w : list addr), filter (fun b => if in_dec Nat.eq_dec b D then false else true) (rm a w) = filter (fun b => if in_dec Nat.eq_dec b (a :: D) then false else true) w).
  { intros a D w. induction w as [|b w IH]; auto. cbn [rm filter]. destruct (Nat.eqb_spec b a); cbn [negb].
    - destruct (in_dec Nat.eq_dec b (a :: D)) as [|n]; [auto|]. exfalso. apply n. now left.
    - cbn [filter]. destruct (in_dec Nat.eq_dec b D) as [i|n0], (in_dec Nat.eq_dec b (a :: D)) as [i'|n']; auto; try (f_equal; auto).
      + exfalso. apply n'. now right.
      + exfalso. destruct i'; congruence. }
  assert (FR : forall a D (w : list addr), rm a (filter (fun b => if in_dec Nat.eq_dec b D then false else true) w) = filter (fun b => if in_dec Nat.eq_dec b (a :: D) then false else true) w).
  { intros a D w. rewrite <- FF. unfold rm. induction w as [|b w IH]; auto. cbn [filter]. destruct (in_dec Nat.eq_dec b D) eqn:E1, (negb (b =? a)) eqn:E2; cbn [filter]; rewrite ?E1, ?E2; auto; f_equal; auto. }
  assert (F0 : forall (w : list addr), filter (fun b => if in_dec Nat.eq_dec b [] then false else true) w = w).
  { induction w as [|b w IH]; auto. cbn [filter]. destruct (in_dec Nat.eq_dec b []) as [[]|]. f_equal; auto. }
  induction 1; intros Nd; try (inversion Nd as [|? ? Na Nd']; subst; destruct (IHaddR Nd') as (D & new & I1 & I2 & I3 & I4)).
  - exists [], [a]. rewrite F0. ands; auto.
    + intros x [].
    + right. exists a, c. split; auto. now left.
    + intros a0 c0 k0 [E|[]]. injection E as <- <- <-. left. now left.
  - exists [], []. rewrite F0, app_nil_r. ands; auto. intros x [].
  - exists (a :: D), new. rewrite <- FF. ands; auto.
    + intros x [<-|Hx]; [now left|right; auto].
    + intros a0 c0 k0 Hi. destruct (I4 _ _ _ Hi) as [|[X Y]]; auto. right. split; [now right|]. intros [<-|Z]; auto. apply Na. apply (in_map id_of) in X. exact X.
  - exists (a :: D), new. ands.
    + rewrite I1, rm_app, FR. f_equal. apply rm_notin. destruct I3 as [->|(a1 & m & -> & Hm)]; [intros []|]. intros [->|[]]. apply H1. apply (in_map id_of) in Hm. exact Hm.
    + intros x [<-|Hx]; [now left|right; auto].
    + auto.
    + intros a0 c0 k0 Hi. destruct (I4 _ _ _ Hi) as [|[X Y]]; auto. right. split; [now right|]. intros [<-|Z]; auto. apply Na. apply (in_map id_of) in X. exact X.
  - exists D, new. ands; auto.
    + intros x Hx. right. auto.
    + destruct I3 as [|(a1 & m & -> & Hm)]; auto. right. exists a1, m. split; auto. now right.
    + intros a0 c0 k0 [E|Hi].
      * injection E as <- <- <-. right. split; [now left|]. intros Hd. apply Na. auto.
      * destruct (I4 _ _ _ Hi) as [|[X Y]]; auto. right. split; auto. now right.
Qed.
