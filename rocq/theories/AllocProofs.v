From Verif Require Import Base AllocModel AllocSpec.
Open Scope Z_scope.

Lemma align_spec n : align n = 8 * ((n + 7) / 8).
Proof.
  unfold align. rewrite <- Z.ldiff_land. change 7 with (Z.ones 3) at 2. rewrite Z.ldiff_ones_r by lia.
  rewrite Z.shiftl_mul_pow2, Z.shiftr_div_pow2 by lia. change (2 ^ 3) with 8. lia.
Qed.
Lemma align_bounds n : n <= align n < n + 8 /\ align n mod 8 = 0.
Proof. rewrite align_spec. pose proof (Z.div_mod (n + 7) 8 ltac:(lia)). pose proof (Z.mod_pos_bound (n + 7) 8 ltac:(lia)). split; [lia|]. rewrite Z.mul_comm. apply Z.mod_mul. lia. Qed.
Lemma BS_mod : BLOCKSIZE mod 8 = 0. Proof. reflexivity. Qed.

Section P.
Variable malloc : nat -> option Z.
Hypothesis MO : malloc_ok malloc.

Definition sep (b c : Z) : Prop := b + BLOCKSIZE <= c - 16 \/ c + BLOCKSIZE <= b - 16.
Definition from (m : nat) (bl : list Z) : Prop := forall b, In b bl -> exists i, (i < m)%nat /\ malloc i = Some b.
Definition pairsep (bl : list Z) : Prop := forall i j b c, i <> j -> nth_error bl i = Some b -> nth_error bl j = Some c -> sep b c.

(** ghost: (address, size, block index or -1) *)
Definition gent := (Z * Z * Z)%type.
Definition ga (g : gent) := fst (fst g). Definition gs (g : gent) := snd (fst g). Definition gb (g : gent) := snd g.
Definition idx (c : option nat) : Z := match c with None => -1 | Some c => Z.of_nat c end.
Definition entok (bl : list Z) (g : gent) : Prop :=
  0 <= gs g /\ ga g mod 8 = 0 /\
  ((gb g = -1 /\ ga g = 0 /\ gs g = 0) \/ (exists i b, gb g = Z.of_nat i /\ nth_error bl i = Some b /\ b <= ga g /\ ga g + align (gs g) <= b + BLOCKSIZE)).
Definition before (g : gent) (c p : Z) : Prop := gb g < c \/ (gb g = c /\ ga g + align (gs g) <= p).
Record ainv (a : arena) (m : nat) (G : list gent) : Prop := {
  ai_from : from m (blocks a);
  ai_sep : pairsep (blocks a);
  ai_cur : match current a with
           | None => ptr a = 0 /\ top a = 0
           | Some c => exists b, nth_error (blocks a) c = Some b /\ top a = b + BLOCKSIZE /\ b <= ptr a <= top a /\ ptr a mod 8 = 0
           end;
  ai_ent : Forall (entok (blocks a)) G;
  ai_ord : forall i j x y, (i < j)%nat -> nth_error G i = Some x -> nth_error G j = Some y -> before x (gb y) (ga y);
  ai_bef : Forall (fun x => before x (idx (current a)) (ptr a)) G }.

Lemma from_block m bl i b : from m bl -> nth_error bl i = Some b -> b mod 8 = 0 /\ 16 < b.
Proof. intros F E. destruct (F b (nth_error_In _ _ E)) as (j & _ & M). now apply (proj1 MO) in M. Qed.
Lemma from_mono m m' bl : (m <= m')%nat -> from m bl -> from m' bl.
Proof. intros L F b Hb. destruct (F b Hb) as (i & Li & M). exists i. split; auto. lia. Qed.
Lemma entok_app bl b g : entok bl g -> entok (bl ++ [b]) g.
Proof.
  intros (S & A & [N|(i & c & E1 & E2 & L)]); split; auto; split; auto. right. exists i, c. ands; auto; try tauto.
  rewrite nth_error_app1; auto. apply nth_error_Some. congruence.
Qed.
Lemma pairsep_app m bl b : from m bl -> pairsep bl -> malloc m = Some b -> pairsep (bl ++ [b]).
Proof.
  intros F P M i j x y N Ex Ey.
  assert (Q : forall i x, nth_error (bl ++ [b]) i = Some x -> (nth_error bl i = Some x /\ (i < length bl)%nat) \/ (i = length bl /\ x = b)).
  { intros i0 x0 E. destruct (Nat.lt_ge_cases i0 (length bl)); [rewrite nth_error_app1 in E by auto; auto|].
    rewrite nth_error_app2 in E by auto. right. destruct (i0 - length bl)%nat as [|[|]] eqn:D; cbn in E; try discriminate. injection E as ->. split; auto. lia. }
  assert (W : forall i x, nth_error bl i = Some x -> sep x b).
  { intros i0 x0 E. destruct (F x0 (nth_error_In _ _ E)) as (k & Lk & Mk). apply ((proj2 MO) k m); auto. lia. }
  destruct (Q _ _ Ex) as [[Ex' _]|[-> ->]], (Q _ _ Ey) as [[Ey' _]|[-> ->]]; eauto.
  - destruct (W _ _ Ey'); [right|left]; auto.
  - lia.
Qed.

(** [add_block] moves to a later (or the first) block. *)
Lemma add_block_spec a m G : ainv a m G ->
  (add_block malloc a m = Exit /\ malloc m = None) \/
  exists a' m' b, add_block malloc a m = Ok (a', m') /\ (m <= m')%nat /\ hs_bottom a' = Ok b /\ hs_top a' = Ok (b + BLOCKSIZE) /\
    (m' = m /\ blocks a' = blocks a \/ m' = S m /\ malloc m = Some b /\ blocks a' = blocks a ++ [b]) /\
    idx (current a) < idx (current a') /\
    ainv (mkArena (blocks a') (current a') b (b + BLOCKSIZE)) m' G.
Proof.
  intros I. unfold add_block.
  assert (NEW : (current a = None -> blocks a = []) -> (forall c, current a = Some c -> S c = length (blocks a)) ->
    (match malloc m with None => Exit | Some b => Ok (mkArena (blocks a ++ [b]) (Some (length (blocks a))) (ptr a) (top a), S m) end = Exit /\ malloc m = None) \/
    exists a' m' b, match malloc m with None => Exit | Some b => Ok (mkArena (blocks a ++ [b]) (Some (length (blocks a))) (ptr a) (top a), S m) end = Ok (a', m') /\ (m <= m')%nat /\ hs_bottom a' = Ok b /\ hs_top a' = Ok (b + BLOCKSIZE) /\
    (m' = m /\ blocks a' = blocks a \/ m' = S m /\ malloc m = Some b /\ blocks a' = blocks a ++ [b]) /\
    idx (current a) < idx (current a') /\
    ainv (mkArena (blocks a') (current a') b (b + BLOCKSIZE)) m' G).
  { intros C0 C1. destruct (malloc m) as [b|] eqn:M; [|auto]. right. eexists _, _, b. split; [reflexivity|].
    assert (EL : nth_error (blocks a ++ [b]) (length (blocks a)) = Some b) by (rewrite nth_error_app2, Nat.sub_diag; auto).
    assert (IX : idx (current a) < idx (Some (length (blocks a)))).
    { destruct (current a) as [c|]; cbn; [rewrite <- (C1 c eq_refl)|]; lia. }
    destruct I as [F P C E O B]. cbn. unfold hs_top, hs_bottom, rd. cbn. rewrite EL. cbn. ands; auto.
    split; cbn; auto.
    - intros x Hx. rewrite in_app_iff in Hx. cbn in Hx. destruct Hx as [Hx|[<-|[]]]; [destruct (F x Hx) as (i & Li & Mi); exists i; split; auto; lia|exists m; split; auto; lia].
    - eapply pairsep_app; eauto.
    - exists b. ands; auto; try lia. unfold BLOCKSIZE. lia. apply ((proj1 MO) m b M).
    - eapply Forall_impl; [|exact E]. intros g. apply entok_app.
    - eapply Forall_impl; [|exact B]. intros g [Q|[Q _]]; left; cbn in *; lia. }
  assert (OLD : forall c', (c' < length (blocks a))%nat -> idx (current a) < Z.of_nat c' ->
    exists a' m' b, Ok (mkArena (blocks a) (Some c') (ptr a) (top a), m) = Ok (a', m') /\ (m <= m')%nat /\ hs_bottom a' = Ok b /\ hs_top a' = Ok (b + BLOCKSIZE) /\
    (m' = m /\ blocks a' = blocks a \/ m' = S m /\ malloc m = Some b /\ blocks a' = blocks a ++ [b]) /\
    idx (current a) < idx (current a') /\
    ainv (mkArena (blocks a') (current a') b (b + BLOCKSIZE)) m' G).
  { intros c' L IX. destruct (nth_error (blocks a) c') as [b|] eqn:Eb; [|apply nth_error_None in Eb; lia].
    eexists _, _, b. split; [reflexivity|]. unfold hs_top, hs_bottom, rd. cbn. rewrite Eb. cbn. destruct I as [F P C E O B]. ands; auto.
    split; cbn; auto.
    - exists b. ands; auto; try lia. unfold BLOCKSIZE; lia. apply (from_block _ _ _ _ F Eb).
    - eapply Forall_impl; [|exact B]. intros g [Q|[Q _]]; left; cbn in *; lia. }
  destruct (blocks a) as [|b0 bl] eqn:EB.
  - apply NEW; auto. intros c Ec. destruct I as [_ _ C _ _ _]. rewrite Ec, EB in C. destruct C as (b & E & _). destruct c; discriminate.
  - destruct (current a) as [c|] eqn:EC.
    + destruct (Nat.eqb_spec (S c) (length (b0 :: bl))) as [Q|Q].
      * apply NEW; [discriminate|]. intros c' [= <-]. auto.
      * right. apply (OLD (S c)); [|cbn; lia]. pose proof (ai_cur _ _ _ I) as C. rewrite EC in C. destruct C as (b & E & _).
        rewrite EB in E. assert (c < length (b0 :: bl))%nat by (apply nth_error_Some; congruence). lia.
    + right. apply (OLD 0%nat); cbn; lia.
Qed.

Lemma ALLOC_S f n a m : ALLOC malloc (S f) n a m = if n + 7 >? INT_MAX then UB else
  if ptr a + align n >? top a then more malloc (ALLOC malloc f) n (mkArena (blocks a) (current a) (ptr a + align n) (top a)) m else Ok (mkArena (blocks a) (current a) (ptr a + align n) (top a), m, ptr a).
Proof. reflexivity. Qed.
Opaque ALLOC.

Lemma ALLOC_ok a m G n fuel : ainv a m G -> 0 <= n -> n + 7 <= INT_MAX -> ptr a + align n <= top a ->
  exists a', ALLOC malloc (S fuel) n a m = Ok (a', m, ptr a) /\ blocks a' = blocks a /\ current a' = current a /\ ainv a' m (G ++ [(ptr a, n, idx (current a))]).
Proof.
  intros I Hn Hi Fit. rewrite ALLOC_S. rewrite Z.gtb_ltb. destruct (Z.ltb_spec INT_MAX (n + 7)); [lia|].
  rewrite Z.gtb_ltb. destruct (Z.ltb_spec (top a) (ptr a + align n)); [lia|]. eexists. split; [reflexivity|]. cbn. ands; auto.
  pose proof (align_bounds n) as [AB AM]. destruct I as [F P C E O B].
  assert (PM : ptr a mod 8 = 0). { destruct (current a); [destruct C as (b & _ & _ & _ & Q); auto|destruct C as [-> _]; auto]. }
  assert (NE : entok (blocks a) (ptr a, n, idx (current a))).
  { split; [auto|]. split; [auto|]. cbn. destruct (current a) as [c|]; [right|left].
    - destruct C as (b & Eb & T & L & _). exists c, b. cbn. ands; auto; lia.
    - destruct C as [P0 T0]. cbn. rewrite P0 in *. ands; auto. lia. }
  assert (PG : ptr a + align n <= ptr a + align n) by lia.
  split; cbn; auto.
  - destruct (current a) as [c|].
    + destruct C as (b & Eb & T & L & M). exists b. ands; auto; try lia. rewrite Z.add_mod, M, AM by lia. auto.
    + destruct C as [P0 T0]. lia.
  - apply Forall_app. split; auto.
  - intros i j x y Lij Ex Ey. destruct (Nat.lt_ge_cases j (length G)).
    + rewrite nth_error_app1 in Ex, Ey by lia. eauto.
    + rewrite nth_error_app2 in Ey by auto. destruct (j - length G)%nat as [|[|]] eqn:D; cbn in Ey; try discriminate. injection Ey as <-. cbn.
      rewrite nth_error_app1 in Ex by lia. rewrite Forall_forall in B. apply (B x (nth_error_In _ _ Ex)).
  - apply Forall_app. split.
    + eapply Forall_impl; [|exact B]. intros g [Q|[Q1 Q2]]; [left; auto|right; split; auto; lia].
    + constructor; auto. right. cbn. split; auto.
Qed.

Lemma ALLOC_spec a m G n : ainv a m G -> 0 <= n -> n + 7 <= INT_MAX ->
  (ALLOC malloc fuel_alloc n a m = Exit /\ (BLOCKSIZE <= n \/ malloc m = None)) \/
  exists a' m' p q, ALLOC malloc fuel_alloc n a m = Ok (a', m', p) /\ (m <= m')%nat /\ ainv a' m' (G ++ [(p, n, q)]) /\
    (blocks a' = blocks a \/ exists b, malloc m = Some b /\ (m < m')%nat /\ blocks a' = blocks a ++ [b]) /\
    (ptr a + align n <= top a -> p = ptr a).
Proof.
  intros I Hn Hi. unfold fuel_alloc. destruct (Z.le_gt_cases (ptr a + align n) (top a)) as [Fit|NF].
  - right. destruct (ALLOC_ok a m G n 2 I Hn Hi Fit) as (a' & E & Bl & Cu & I'). exists a', m, (ptr a), (idx (current a)). ands; auto.
  - rewrite ALLOC_S. rewrite Z.gtb_ltb. destruct (Z.ltb_spec INT_MAX (n + 7)); [lia|].
    rewrite Z.gtb_ltb. destruct (Z.ltb_spec (top a) (ptr a + align n)); [|lia]. unfold more. rewrite Z.geb_leb.
    destruct (Z.leb_spec BLOCKSIZE n); [left; auto|].
    set (a0 := mkArena (blocks a) (current a) (ptr a + align n) (top a)).
    assert (EA : forall r, add_block malloc a0 m = r -> match r with Ok (a1, m1) => exists a2, add_block malloc a m = Ok (a2, m1) /\ blocks a2 = blocks a1 /\ current a2 = current a1 | Exit => add_block malloc a m = Exit | UB => add_block malloc a m = UB | Fuel => add_block malloc a m = Fuel end).
    { intros r <-. unfold add_block, a0. cbn. destruct (blocks a), (current a); cbn; try (destruct (malloc m); cbn; eauto).
      - destruct (n0 =? length l)%nat; eauto.
      - destruct (n0 =? length l)%nat; eauto. }
    specialize (EA _ eq_refl).
    destruct (add_block_spec a m G I) as [[Ex Mm]|(a1 & m1 & b & E1 & Lm & Hb & Ht & Bl & IX & I1)].
    + destruct (add_block malloc a0 m) as [[a1 m1]| | |] eqn:Q; cbn [bind]; auto; try congruence. destruct EA as (a2 & E2 & _). congruence.
    + destruct (add_block malloc a0 m) as [[a2 m2]| | |] eqn:Q; cbn [bind]; try congruence. destruct EA as (a3 & E3 & B3 & C3). rewrite E1 in E3. injection E3 as <- <-.
      assert (Hb2 : hs_bottom a2 = Ok b) by (unfold hs_bottom in *; rewrite <- B3, <- C3; auto).
      assert (Ht2 : hs_top a2 = Ok (b + BLOCKSIZE)) by (unfold hs_top; rewrite Hb2; auto).
      rewrite Hb2, Ht2. cbn [bind]. rewrite <- B3, <- C3.
      destruct (ALLOC_ok _ m1 G n 1 I1 Hn Hi) as (a' & E & Bl' & Cu & I').
      { cbn. pose proof (align_bounds n) as [AB AM]. assert (align n <= BLOCKSIZE); [|lia].
        rewrite align_spec. unfold BLOCKSIZE in *. assert ((n + 7) / 8 < 1250001); [|lia]. apply Z.div_lt_upper_bound; lia. }
      right. cbn in E, Bl', Cu, I'. exists a', m1, b, (idx (current a1)). ands; auto.
      * destruct Bl as [[_ Bl]|(Bm & Mb & Bl)]; rewrite Bl' , Bl; [left; auto|right; exists b; ands; auto; lia].
      * lia.
Qed.

Lemma release_loop_spec bl mark i b : pairsep bl -> nth_error bl i = Some b -> b <= mark <= b + BLOCKSIZE ->
  forall c, (i <= c)%nat -> (c < length bl)%nat -> release_loop bl c mark = Ok i.
Proof.
  intros P E L. induction c as [|c IH]; intros Lc Lb.
  - replace i with 0%nat in * by lia. cbn. unfold rd. rewrite E. cbn. rewrite Z.gtb_ltb. destruct (Z.ltb_spec mark b); [lia|]. destruct (Z.ltb_spec (b + BLOCKSIZE) mark); [lia|]. auto.
  - cbn [release_loop]. destruct (nth_error bl (S c)) as [d|] eqn:Ed; [|apply nth_error_None in Ed; lia]. unfold rd. rewrite Ed. cbn [bind]. rewrite Z.gtb_ltb.
    destruct (Nat.eq_dec i (S c)) as [->|N].
    + rewrite E in Ed. injection Ed as <-. destruct (Z.ltb_spec mark b); [lia|]. destruct (Z.ltb_spec (b + BLOCKSIZE) mark); [lia|]. auto.
    + assert (Q : (mark <? d) || (d + BLOCKSIZE <? mark) = true).
      { destruct (P i (S c) b d N E Ed) as [S|S]; apply orb_true_iff; [left|right]; apply Z.ltb_lt; unfold BLOCKSIZE in *; lia. }
      rewrite Q. apply IH; lia.
Qed.

Lemma firstn_nth {A} (l : list A) : forall k i x, nth_error (firstn k l) i = Some x -> nth_error l i = Some x /\ (i < k)%nat.
Proof.
  induction l as [|h t IH]; intros [|k] [|i] x E; cbn in *; try discriminate; [split; auto; lia|]. destruct (IH k i x E). split; auto. lia.
Qed.
Lemma Forall_firstn {A} (Q : A -> Prop) l : Forall Q l -> forall k, Forall Q (firstn k l).
Proof. induction 1; intros [|k]; cbn; auto. Qed.

Lemma release_spec a m G k g : ainv a m G -> nth_error G k = Some g ->
  exists a', release (ga g) a = Ok a' /\ ainv a' m (firstn k G) /\ blocks a' = blocks a /\ ptr a' = ga g /\
    (ga g <> 0 -> exists b, In b (blocks a) /\ b <= ga g <= b + BLOCKSIZE /\ top a' = b + BLOCKSIZE).
Proof.
  intros [F P C E O B] Eg. pose proof (nth_error_In _ _ Eg) as Ig.
  rewrite Forall_forall in E, B. destruct (E g Ig) as (Sg & Mg & D).
  assert (OF : forall i x, nth_error (firstn k G) i = Some x -> before x (gb g) (ga g)).
  { intros i x Ex. apply firstn_nth in Ex. destruct Ex. eapply O; eauto. }
  assert (EF : Forall (entok (blocks a)) (firstn k G)) by (apply Forall_firstn, Forall_forall; auto).
  assert (OO : forall i j x y, (i < j)%nat -> nth_error (firstn k G) i = Some x -> nth_error (firstn k G) j = Some y -> before x (gb y) (ga y)).
  { intros i j x y L Ex Ey. apply firstn_nth in Ex, Ey. destruct Ex, Ey. eauto. }
  unfold release. destruct D as [(D1 & D2 & D3)|(i & b & D1 & D2 & D3 & D4)].
  - rewrite D2. cbn. eexists. split; [reflexivity|]. cbn. ands; auto; [|congruence]. split; cbn; auto.
    apply Forall_forall. intros x Hx. apply In_nth_error in Hx. destruct Hx as [j Hj]. specialize (OF j x Hj). rewrite D1, D2 in OF. exact OF.
  - destruct (from_block _ _ _ _ F D2) as [Bm B16]. destruct (Z.eqb_spec (ga g) 0); [lia|].
    destruct (B g Ig) as [Q|[Q Q2]]; (destruct (current a) as [c|]; cbn in Q; [|lia]);
    (destruct C as (bc & Ec & _); assert (Lc : (c < length (blocks a))%nat) by (apply nth_error_Some; congruence);
     pose proof (align_bounds (gs g)) as [AB _];
     rewrite (release_loop_spec (blocks a) (ga g) i b P D2 ltac:(lia) c ltac:(lia) Lc); cbn [bind]; unfold rd; rewrite D2; cbn [bind];
     eexists; split; [reflexivity|]; cbn; ands; auto; [|intros _; exists b; ands; auto; try lia; eapply nth_error_In; eauto];
     split; cbn; auto; [exists b; ands; auto; lia|apply Forall_forall; intros x Hx; apply In_nth_error in Hx; destruct Hx as [j Hj]; specialize (OF j x Hj); rewrite D1 in OF; exact OF]).
Qed.

(** ** Whole programs *)
Definition strip (g : gent) : Z * Z := (ga g, gs g).
Record winv (w : world) (GH GS : list gent) : Prop := {
  wi_h : ainv (the_heap w) (mallocs w) GH;
  wi_s : ainv (the_stack w) (mallocs w) GS;
  wi_x : forall b c, In b (blocks (the_heap w)) -> In c (blocks (the_stack w)) -> sep b c;
  wi_lh : hlive w = map strip GH;
  wi_ls : slive w = map strip GS }.

Lemma ainv_mono a m m' G : (m <= m')%nat -> ainv a m G -> ainv a m' G.
Proof. intros L [F P C E O B]. split; auto. eapply from_mono; eauto. Qed.

Lemma astep_spec w GH GS o : winv w GH GS -> sane o ->
  (astep malloc w o = Exit /\ (too_large o \/ malloc (mallocs w) = None)) \/
  exists w' GH' GS', astep malloc w o = Ok w' /\ winv w' GH' GS' /\ (mallocs w <= mallocs w')%nat.
Proof.
  intros [Ih Is X Lh Ls] S. destruct o as [n|n|k]; cbn [astep] in *.
  - destruct (ALLOC_spec (the_heap w) (mallocs w) GH n Ih ltac:(cbn in S; lia) ltac:(cbn in S; lia)) as [[E D]|(a' & m' & p & q & E & Lm & I' & Bl & _)]; rewrite E; cbn [bind]; [left; split; auto|].
    right. eexists _, (GH ++ [(p, n, q)]), GS. split; [reflexivity|]. cbn. split; auto. split; cbn; auto.
    + eapply ainv_mono; eauto.
    + intros b c Hb Hc. destruct Bl as [Bl|(b' & Mb & _ & Bl)]; rewrite Bl in Hb; [auto|]. apply in_app_iff in Hb. destruct Hb as [Hb|[<-|[]]]; auto.
      destruct (ai_from _ _ _ Is c Hc) as (j & Lj & Mj). apply ((proj2 MO) (mallocs w) j); auto. lia.
    + rewrite map_app, Lh. auto.
  - destruct (ALLOC_spec (the_stack w) (mallocs w) GS n Is ltac:(cbn in S; lia) ltac:(cbn in S; lia)) as [[E D]|(a' & m' & p & q & E & Lm & I' & Bl & _)]; rewrite E; cbn [bind]; [left; split; auto|].
    right. eexists _, GH, (GS ++ [(p, n, q)]). split; [reflexivity|]. cbn. split; auto. split; cbn; auto.
    + eapply ainv_mono; eauto.
    + intros c b Hc Hb. destruct Bl as [Bl|(b' & Mb & _ & Bl)]; rewrite Bl in Hb; [auto|]. apply in_app_iff in Hb. destruct Hb as [Hb|[<-|[]]]; auto.
      destruct (ai_from _ _ _ Ih c Hc) as (j & Lj & Mj). apply ((proj2 MO) j (mallocs w)); auto. lia.
    + rewrite map_app, Ls. auto.
  - right. destruct (nth_error (slive w) k) as [[p s]|] eqn:Ek.
    + rewrite Ls in Ek. rewrite nth_error_map in Ek. destruct (nth_error GS k) as [g|] eqn:Eg; [|discriminate]. injection Ek as <- <-.
      destruct (release_spec _ _ _ k g Is Eg) as (a' & E & I' & Bl & _). rewrite E. cbn [bind]. eexists _, GH, (firstn k GS). split; [reflexivity|]. split; auto. split; cbn; auto.
      * rewrite Bl. auto.
      * rewrite Ls. apply firstn_map.
    + exists w, GH, GS. ands; auto. split; auto.
Qed.

Lemma winv0 : winv world0 [] [].
Proof.
  assert (A : ainv empty_arena 0 []).
  { split; cbn; auto; [intros b []|intros [|i] j b c N E; discriminate|intros [|i] j x y L E; discriminate]. }
  split; cbn; auto. intros b c [].
Qed.

Lemma arun_spec ops : Forall sane ops ->
  match arun malloc ops with
  | Ok w => exists GH GS, winv w GH GS
  | Exit => exists o, In o ops /\ (too_large o \/ exists i, malloc i = None)
  | UB | Fuel => False
  end.
Proof.
  intros S. unfold arun. assert (G : forall ops w GH GS, winv w GH GS -> Forall sane ops -> match foldM (astep malloc) ops w with
    | Ok w => exists GH GS, winv w GH GS | Exit => exists o, In o ops /\ (too_large o \/ exists i, malloc i = None) | UB | Fuel => False end).
  { clear ops S. induction ops as [|o ops IH]; intros w GH GS W S; cbn [foldM]; [eauto|]. inversion S; subst.
    destruct (astep_spec w GH GS o W H1) as [[E D]|(w' & GH' & GS' & E & W' & _)]; rewrite E; cbn [bind].
    - exists o. split; [left; auto|]. destruct D; eauto.
    - specialize (IH w' GH' GS' W' H2). destruct (foldM (astep malloc) ops w'); auto. destruct IH as (o' & Ho & D). exists o'. split; [right; auto|auto]. }
  apply (G ops world0 [] []); auto. apply winv0.
Qed.

Lemma ent_placed a m G g : ainv a m G -> In g G -> placed malloc (strip g) /\ aligned (strip g).
Proof.
  intros [F P C E O B] Hg. rewrite Forall_forall in E. destruct (E g Hg) as (S & M & D). split; auto. unfold placed, strip. cbn.
  destruct D as [(_ & -> & ->)|(i & b & _ & Eb & L1 & L2)]; [left; auto|right]. destruct (F b (nth_error_In _ _ Eb)) as (j & _ & Mj). exists j, b.
  pose proof (align_bounds (gs g)). ands; auto. lia.
Qed.
Lemma ent_disjoint a m G i j x y : ainv a m G -> (i < j)%nat -> nth_error G i = Some x -> nth_error G j = Some y -> disjoint (strip x) (strip y).
Proof.
  intros [F P C E O B] L Ex Ey. rewrite Forall_forall in E. destruct (E x (nth_error_In _ _ Ex)) as (Sx & _ & Dx), (E y (nth_error_In _ _ Ey)) as (Sy & _ & Dy).
  pose proof (align_bounds (gs x)). pose proof (align_bounds (gs y)). intros z. cbn.
  destruct Dx as [(Gx & Ax & Zx)|(ix & bx & Gx & Bx & Lx & Ux)]; [lia|]. destruct Dy as [(Gy & Ay & Zy)|(iy & by_ & Gy & By & Ly & Uy)]; [lia|].
  destruct (O i j x y L Ex Ey) as [Q|[Q1 Q2]]; [|lia]. assert (N : ix <> iy) by lia. destruct (P ix iy bx by_ N Bx By); lia.
Qed.
Lemma disjoint_sym x y : disjoint x y -> disjoint y x.
Proof. intros D z [A B]. apply (D z). auto. Qed.
Lemma ent_cross w GH GS x y : winv w GH GS -> In x GH -> In y GS -> disjoint (strip x) (strip y).
Proof.
  intros [Ih Is X _ _] Hx Hy. pose proof (ai_ent _ _ _ Ih) as Eh. pose proof (ai_ent _ _ _ Is) as Es. rewrite Forall_forall in Eh, Es.
  destruct (Eh x Hx) as (Sx & _ & Dx), (Es y Hy) as (Sy & _ & Dy). pose proof (align_bounds (gs x)). pose proof (align_bounds (gs y)). intros z. cbn.
  destruct Dx as [(Gx & Ax & Zx)|(ix & bx & Gx & Bx & Lx & Ux)]; [lia|]. destruct Dy as [(Gy & Ay & Zy)|(iy & by_ & Gy & By & Ly & Uy)]; [lia|].
  destruct (X bx by_ (nth_error_In _ _ Bx) (nth_error_In _ _ By)); lia.
Qed.
Lemma winv_disjoint w GH GS : winv w GH GS -> all_disjoint (hlive w ++ slive w).
Proof.
  intros W. pose proof W as [Ih Is X Lh Ls]. rewrite Lh, Ls. intros i j x y N Ex Ey.
  assert (Q : forall i x, nth_error (map strip GH ++ map strip GS) i = Some x -> (exists g, nth_error GH i = Some g /\ x = strip g) \/ (exists g k, i = (length GH + k)%nat /\ nth_error GS k = Some g /\ x = strip g)).
  { clear. intros i x E. destruct (Nat.lt_ge_cases i (length GH)).
    - rewrite nth_error_app1 in E by (now rewrite map_length). rewrite nth_error_map in E. destruct (nth_error GH i) as [g|] eqn:Eg; [|discriminate]. injection E as <-. eauto.
    - rewrite nth_error_app2 in E by (now rewrite map_length). rewrite map_length in E. rewrite nth_error_map in E. destruct (nth_error GS (i - length GH)) as [g|] eqn:Eg; [|discriminate]. injection E as <-.
      right. exists g, (i - length GH)%nat. ands; auto. lia. }
  destruct (Q _ _ Ex) as [(g & Eg & ->)|(g & k & -> & Eg & ->)], (Q _ _ Ey) as [(g' & Eg' & ->)|(g' & k' & -> & Eg' & ->)].
  - destruct (Nat.lt_ge_cases i j); [apply (ent_disjoint _ _ _ i j _ _ Ih); auto|apply disjoint_sym; apply (ent_disjoint _ _ _ j i _ _ Ih); auto; lia].
  - eapply ent_cross; eauto using nth_error_In.
  - apply disjoint_sym. eapply ent_cross; eauto using nth_error_In.
  - destruct (Nat.lt_ge_cases k k'); [apply (ent_disjoint _ _ _ k k' _ _ Is); auto|apply disjoint_sym; apply (ent_disjoint _ _ _ k' k _ _ Is); auto; lia].
Qed.
End P.
