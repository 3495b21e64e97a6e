(** * ChunkProofs: the chunks and their graph. *)
From Coq Require Import Relations Permutation.
From Verif Require Import Base CondModel EdgeModel DncModel CycleModel OagModel ComponentModel PropsCond ChunkModel SchedSpec.
From Verif Require SccModel SccProofs PropsUtil PropsCto PropsComponent CycleProofs.
Open Scope nat_scope.

Section R.
Variable r : rule.
Let n := length (r_insts r).

(** ** The list of chunks *)
Definition pflag (p : nat) : bool := nth p (cyclic_flags (r_parent r)) false.
Definition halves (p : nat) : list chunk :=
  [mkChunk HalfLeft p (-1) (pflag p) (members r (fun g => group_eqb g (- Z.of_nat p, -1)%Z)); mkChunk HalfRight p (-1) (pflag p) (members r (fun g => group_eqb g (Z.of_nat p, -1)%Z))].
Definition visits (c : nat) : list chunk :=
  match nth_error (r_children r) c with
  | Some (Some ph) => map (fun p => mkChunk Visit p (Z.of_nat c) (nth p (cyclic_flags ph) false) (members r (fun g => Z.eqb (Z.abs (fst g)) (Z.of_nat p) && Z.eqb (snd g) (Z.of_nat c)))) (seq 1 (max_phase ph))
  | _ => []
  end.
Definition kflag (i : nat) : bool := negb (N.eqb (nth (i * n + i) (r_kinds r) 0%N) no_dependency).
Definition singles : list chunk := map (fun i => mkChunk Local 0 0 (kflag i) [i]) (locals r).
Definition chunk_list : list chunk := flat_map halves (seq 1 (last_phase r)) ++ flat_map visits (seq 0 (length (r_children r))) ++ singles.

Definition pushes (chunks cs : list chunk) : res (list chunk) := foldM (push_chunk n) cs chunks.
Lemma pushes_eq cs : forall chunks, pushes chunks cs = if (length chunks + length cs <=? n * 10) || (length cs =? 0) then Ok (chunks ++ cs) else UB.
Proof.
  induction cs as [|c cs IH]; intros chunks; cbn [pushes foldM length].
  - cbn [Nat.eqb]. now rewrite orb_true_r, app_nil_r.
  - fold (pushes). unfold push_chunk at 1. cbn [Nat.eqb]. rewrite orb_false_r. destruct (Nat.ltb_spec (length chunks) (n * 10)) as [H|H]; cbn [bind].
    + change (foldM (push_chunk n) cs (chunks ++ [c])) with (pushes (chunks ++ [c]) cs). rewrite IH, app_length. cbn [length]. rewrite <- app_assoc. cbn [app]. destruct cs as [|d cs].
      * cbn [length Nat.eqb]. rewrite orb_true_r. rewrite (proj2 (Nat.leb_le _ _)) by lia. auto.
      * cbn [length Nat.eqb]. rewrite orb_false_r. replace (length chunks + 1 + S (length cs)) with (length chunks + S (S (length cs))) by lia. auto.
    + rewrite (proj2 (Nat.leb_gt _ _)) by lia. auto.
Qed.
Lemma pushes_app cs ds chunks : pushes chunks (cs ++ ds) = x <- pushes chunks cs ;; pushes x ds.
Proof. apply foldM_app. Qed.
Hypothesis Hlegal : legal_rule r.
Lemma halves_ok chunks p : 1 <= p <= last_phase r -> half_chunks r chunks p = pushes chunks (halves p).
Proof.
  intros Hp. unfold half_chunks. fold n. unfold rd. assert (L := lr_flags r Hlegal). rewrite (nth_error_nth' _ false) by lia. cbn [bind]. unfold halves, pushes. cbn [foldM]. fold (pflag p).
  destruct (push_chunk n chunks _) as [x| | |]; cbn [bind]; auto. destruct (push_chunk n x _); auto.
Qed.
Lemma visits_ok chunks c : c < length (r_children r) -> visit_chunks r chunks c = pushes chunks (visits c).
Proof.
  intros Hc. unfold visit_chunks, visits, rd. fold n. destruct (nth_error (r_children r) c) as [[ph|]|] eqn:Ec; cbn [bind]; auto; [|apply nth_error_None in Ec; lia].
  assert (L := lr_child_flags r Hlegal ph (nth_error_In _ _ Ec)). assert (G : forall l, (forall p, In p l -> p <= max_phase ph) -> forall chunks,
    foldM (fun chunks p => circ <- rd (cyclic_flags ph) p ;; push_chunk n chunks (mkChunk Visit p (Z.of_nat c) circ (members r (fun g => Z.eqb (Z.abs (fst g)) (Z.of_nat p) && Z.eqb (snd g) (Z.of_nat c))))) l chunks =
    pushes chunks (map (fun p => mkChunk Visit p (Z.of_nat c) (nth p (cyclic_flags ph) false) (members r (fun g => Z.eqb (Z.abs (fst g)) (Z.of_nat p) && Z.eqb (snd g) (Z.of_nat c)))) l)).
  { induction l as [|p l IH]; intros Hl ch; cbn [foldM map pushes]; auto. unfold rd at 1. rewrite (nth_error_nth' _ false) by (specialize (Hl p (or_introl eq_refl)); lia). cbn [bind]. destruct (push_chunk n ch _); cbn [bind]; auto. apply IH. intros; apply Hl; now right. }
  apply G. intros p Hp. apply in_seq in Hp. lia.
Qed.
Lemma locals_ok : forall l, (forall i, In i l -> i < n) -> forall chunks, foldM (local_chunk r) l chunks = pushes chunks (map (fun i => mkChunk Local 0 0 (kflag i) [i]) (filter (fun i => match nth_error (r_insts r) i with Some s => group_is_local (si_group s) | None => false end) l)).
Proof.
  induction l as [|i l IH]; intros Hl chunks; cbn [foldM filter map pushes]; auto. unfold local_chunk at 1, rd at 1. destruct (nth_error (r_insts r) i) as [s|] eqn:Ei; cbn [bind]; [|apply nth_error_None in Ei; specialize (Hl i (or_introl eq_refl)); unfold n in Hl; lia].
  assert (Hl' : forall i, In i l -> i < n) by (intros; apply Hl; now right). destruct (group_is_local (si_group s)).
  - cbn [map foldM]. unfold instance_in_aug_cycle. fold n. unfold rd. pose proof (Hl i (or_introl eq_refl)). destruct (lr_kinds r Hlegal) as [Lk _]. fold n in Lk. rewrite (nth_error_nth' _ 0%N) by (rewrite Lk; nia). cbn [bind]. unfold pushes. cbn [foldM]. fold (kflag i). destruct (push_chunk n chunks _); cbn [bind]; auto. now apply IH.
  - cbn [bind]. now apply IH.
Qed.
Lemma foldM_pushes {X} (f : list chunk -> X -> res (list chunk)) (cs : X -> list chunk) : forall l, (forall x chunks, In x l -> f chunks x = pushes chunks (cs x)) -> forall chunks, foldM f l chunks = pushes chunks (flat_map cs l).
Proof.
  induction l as [|x l IH]; intros H chunks; cbn [foldM flat_map]; auto. rewrite H by now left. rewrite pushes_app. destruct (pushes chunks (cs x)); cbn [bind]; auto. apply IH. intros; apply H; now right.
Qed.
Lemma collect_pushes : collect_chunks r = pushes [] chunk_list.
Proof.
  unfold collect_chunks, chunk_list. rewrite (foldM_pushes (half_chunks r) halves) by (intros p ch Hp; apply in_seq in Hp; apply halves_ok; unfold last_phase in *; lia). rewrite !pushes_app. fold (last_phase r). destruct (pushes [] (flat_map halves (seq 1 (last_phase r)))) as [c1| | |]; cbn [bind]; auto.
  rewrite (foldM_pushes (visit_chunks r) visits) by (intros c ch Hc; apply in_seq in Hc; apply visits_ok; lia). rewrite pushes_app. destruct (pushes c1 _) as [c2| | |]; cbn [bind]; auto. unfold singles, locals, members. apply locals_ok. intros i Hi. apply in_seq in Hi. lia.
Qed.
Lemma chunk_list_length : length chunk_list = chunk_count r.
Proof.
  unfold chunk_list, chunk_count. rewrite !app_length. unfold singles. rewrite map_length. rewrite Nat.add_assoc. f_equal. f_equal.
  - assert (G : forall l, length (flat_map halves l) = 2 * length l) by (induction l as [|p' l' IH']; cbn [flat_map length app]; auto; rewrite app_length, IH'; cbn [length halves]; lia). rewrite G, seq_length. auto.
  - induction (seq 0 (length (r_children r))) as [|c l IH]; cbn [flat_map map list_sum fold_right]; auto. rewrite app_length. unfold list_sum in IH |- *. rewrite IH. f_equal. unfold visits, phases_of. destruct (nth_error (r_children r) c) as [[ph|]|]; auto. now rewrite map_length, seq_length.
Qed.
Lemma collect_ok : collect_chunks r = if chunk_count r <=? n * 10 then Ok chunk_list else UB.
Proof.
  rewrite collect_pushes, pushes_eq. cbn [length app]. rewrite chunk_list_length. cbn [Nat.add]. destruct (Nat.leb_spec (chunk_count r) (n * 10)) as [H|H]; auto. cbn [orb]. destruct (Nat.eqb_spec (chunk_count r) 0); [lia|auto].
Qed.

(** ** Chunks and blocks *)
Definition blk (c : chunk) : block :=
  match c_type c with
  | HalfLeft => Inherited (c_ph c)
  | HalfRight => Synthesized (c_ph c)
  | Visit => ChildVisit (Z.to_nat (c_ch c)) (c_ph c)
  | Local => Single (hd 0 (c_insts c))
  end.
Lemma group_eqb_spec (a b : group) : group_eqb a b = true <-> a = b.
Proof. destruct a as [a1 a2], b as [b1 b2]. unfold group_eqb. cbn [fst snd]. rewrite andb_true_iff, !Z.eqb_eq. split; [intros [-> ->]; auto|intros E; injection E; auto]. Qed.
Lemma in_members w i : In i (members r w) <-> exists s, instance r i s /\ w (si_group s) = true.
Proof.
  unfold members, instance. rewrite filter_In, in_seq. split.
  - intros [_ H]. destruct (nth_error (r_insts r) i) as [s|]; [eauto|discriminate].
  - intros (s & Es & H). rewrite Es. split; auto. assert (i < length (r_insts r)) by (apply nth_error_Some; congruence). lia.
Qed.
Lemma in_locals i : In i (locals r) <-> exists s, instance r i s /\ si_group s = (0, 0)%Z.
Proof. unfold locals. rewrite in_members. unfold group_is_local. split; intros (s & Es & H); exists s; (split; [exact Es|]); now apply group_eqb_spec. Qed.
(** the chunks, as a family *)
Definition cflag (c p : nat) : bool := match nth_error (r_children r) c with Some (Some ph) => nth p (cyclic_flags ph) false | _ => false end.
Inductive is_chunk : chunk -> Prop :=
  | is_left p : 1 <= p <= last_phase r -> is_chunk (mkChunk HalfLeft p (-1) (pflag p) (members r (fun g => group_eqb g (- Z.of_nat p, -1)%Z)))
  | is_right p : 1 <= p <= last_phase r -> is_chunk (mkChunk HalfRight p (-1) (pflag p) (members r (fun g => group_eqb g (Z.of_nat p, -1)%Z)))
  | is_visit c p : 1 <= p <= phases_of r c -> c < length (r_children r) -> is_chunk (mkChunk Visit p (Z.of_nat c) (cflag c p) (members r (fun g => Z.eqb (Z.abs (fst g)) (Z.of_nat p) && Z.eqb (snd g) (Z.of_nat c))))
  | is_single i : In i (locals r) -> is_chunk (mkChunk Local 0 0 (kflag i) [i]).
Lemma in_chunk_list c : In c chunk_list -> is_chunk c.
Proof.
  unfold chunk_list. rewrite !in_app_iff, !in_flat_map. intros [(p & Hp & Hc)|[(ch & Hch & Hc)|Hc]].
  - apply in_seq in Hp. destruct Hc as [<-|[<-|[]]]; constructor; lia.
  - unfold visits in Hc. destruct (nth_error (r_children r) ch) as [[ph|]|] eqn:Ec; try destruct Hc as []. apply in_map_iff in Hc. destruct Hc as (p & <- & Hp). apply in_seq in Hp, Hch. replace (nth p (cyclic_flags ph) false) with (cflag ch p) by (unfold cflag; now rewrite Ec). constructor; [unfold phases_of; rewrite Ec|]; lia.
  - unfold singles in Hc. apply in_map_iff in Hc. destruct Hc as (i & <- & Hi). now constructor.
Qed.
Lemma blk_is_block c : is_chunk c -> is_block r (blk c).
Proof. intros [p Hp|p Hp|ch p Hp Hc|i Hi]; unfold blk; cbn [c_type c_ph c_ch c_insts hd is_block]; auto; [now rewrite Nat2Z.id|now apply in_locals]. Qed.
Lemma blk_members c i : is_chunk c -> In i (c_insts c) <-> in_block r i (blk c).
Proof.
  intros [p Hp|p Hp|ch p Hp Hc|j Hj]; unfold blk, in_block; cbn [c_type c_ph c_ch c_insts hd].
  - rewrite in_members. split; intros (s & Es & H); exists s; (split; [exact Es|]); [rewrite group_eqb_spec in H; split; [lia|auto]|apply group_eqb_spec; tauto].
  - rewrite in_members. split; intros (s & Es & H); exists s; (split; [exact Es|]); [rewrite group_eqb_spec in H; split; [lia|auto]|apply group_eqb_spec; tauto].
  - rewrite in_members, Nat2Z.id. split; intros (s & Es & H); exists s; (split; [exact Es|]); destruct (si_group s) as [a b]; cbn [fst snd] in *.
    + apply andb_true_iff in H. rewrite !Z.eqb_eq in H. destruct H as [H1 H2]. split; [lia|]. destruct (Z.abs_spec a) as [[_ E]|[_ E]]; [right|left]; f_equal; lia.
    + destruct H as [_ [E|E]]; injection E as -> ->; apply andb_true_iff; rewrite !Z.eqb_eq; lia.
  - cbn [In]. rewrite in_locals in Hj. destruct Hj as (s & Es & Eg). split.
    + intros [->|[]]. exists s. auto.
    + intros (s' & _ & -> & _). auto.
Qed.
Lemma block_listed b : is_block r b -> exists c, In c chunk_list /\ blk c = b.
Proof.
  unfold chunk_list. setoid_rewrite in_app_iff. setoid_rewrite in_app_iff. setoid_rewrite in_flat_map. destruct b as [p|p|c p|i]; cbn [is_block]; intros H.
  - eexists. split; [left; exists p; split; [apply in_seq; lia|left; reflexivity]|reflexivity].
  - eexists. split; [left; exists p; split; [apply in_seq; lia|right; left; reflexivity]|reflexivity].
  - unfold phases_of in H. destruct (nth_error (r_children r) c) as [[ph|]|] eqn:Ec; try lia. eexists. split; [right; left; exists c; split; [apply in_seq; split; [lia|]; assert (c < length (r_children r)) by (apply nth_error_Some; congruence); lia|]; unfold visits; rewrite Ec; apply in_map_iff; exists p; split; [reflexivity|apply in_seq; lia]|]. unfold blk. cbn [c_type c_ch c_ph]. now rewrite Nat2Z.id.
  - apply in_locals in H. eexists. split; [right; right; unfold singles; apply in_map_iff; exists i; split; [reflexivity|auto]|reflexivity].
Qed.
Lemma NoDup_flat_map {X Y} (f : X -> list Y) l : NoDup l -> (forall x, In x l -> NoDup (f x)) -> (forall x x' y, In x l -> In x' l -> In y (f x) -> In y (f x') -> x = x') -> NoDup (flat_map f l).
Proof.
  induction l as [|x l IH]; cbn [flat_map]; intros Hd H1 H2; [constructor|]. inversion Hd as [|? ? Hx Hl]; subst. 
  assert (G : forall a b : list Y, NoDup a -> NoDup b -> (forall y, In y a -> ~ In y b) -> NoDup (a ++ b)).
  { clear. induction a as [|y a IH]; cbn [app]; auto. intros b Ha Hb H. inversion Ha; subst. constructor; [rewrite in_app_iff; intros [|Hy]; [auto|apply (H y); cbn; auto]|apply IH; auto; intros z Hz; apply H; now right]. }
  apply G; [apply H1; now left|apply IH; auto; intros; [apply H1|apply (H2 _ _ y)]; auto; now right|]. intros y Hy Hy'. apply in_flat_map in Hy'. destruct Hy' as (x' & Hx' & Hy'). assert (x = x') by (apply (H2 x x' y); auto; [now left|now right]). now subst.
Qed.
Lemma NoDup_members w : NoDup (members r w).
Proof. apply NoDup_filter, seq_NoDup. Qed.
Lemma blocks_nodup : NoDup (map blk chunk_list).
Proof.
  assert (G : forall a b : list block, NoDup a -> NoDup b -> (forall y, In y a -> ~ In y b) -> NoDup (a ++ b)).
  { clear. induction a as [|y a IH]; cbn [app]; auto. intros b Ha Hb H. inversion Ha; subst. constructor; [rewrite in_app_iff; intros [|Hy]; [auto|apply (H y); cbn; auto]|apply IH; auto; intros z Hz; apply H; now right]. }
  unfold chunk_list. rewrite !map_app, !flat_map_concat_map, !concat_map, !map_map, <- !flat_map_concat_map.
  assert (S3 : map blk singles = map Single (locals r)) by (unfold singles; rewrite map_map; reflexivity).
  apply G; [|apply G|].
  - apply NoDup_flat_map; [apply seq_NoDup| |].
    + intros p _. cbn [halves map blk c_type c_ph]. repeat constructor; cbn; intuition discriminate.
    + intros p q y _ _. cbn [halves map blk c_type c_ph]. cbn. intros [<-|[<-|[]]] [E|[E|[]]]; congruence.
  - apply NoDup_flat_map; [apply seq_NoDup| |].
    + intros c _. unfold visits. destruct (nth_error (r_children r) c) as [[ph|]|]; try constructor. rewrite map_map. unfold blk. cbn [c_type c_ph c_ch]. apply FinFun.Injective_map_NoDup; [intros p q E; congruence|apply seq_NoDup].
    + intros c c' y _ _. unfold visits. destruct (nth_error (r_children r) c) as [[ph|]|]; try (intros []). destruct (nth_error (r_children r) c') as [[ph'|]|]; try (intros _ []). rewrite !map_map, !in_map_iff. unfold blk. cbn [c_type c_ph c_ch]. rewrite !Nat2Z.id. intros (p & <- & _) (q & E & _). congruence.
  - rewrite S3. apply FinFun.Injective_map_NoDup; [intros a b E; congruence|apply NoDup_members].
  - intros y Hy. rewrite S3. intros Hy'. apply in_map_iff in Hy'. destruct Hy' as (i & <- & _). apply in_flat_map in Hy. destruct Hy as (c & _ & Hy). unfold visits in Hy. destruct (nth_error (r_children r) c) as [[ph|]|]; try destruct Hy as []. rewrite map_map in Hy. apply in_map_iff in Hy. destruct Hy as (p & E & _). discriminate.
  - intros y Hy Hy'. apply in_flat_map in Hy. destruct Hy as (p & _ & Hy). apply in_app_iff in Hy'. destruct Hy' as [Hy'|Hy'].
    + apply in_flat_map in Hy'. destruct Hy' as (c & _ & Hy'). unfold visits in Hy'. destruct (nth_error (r_children r) c) as [[ph|]|]; try destruct Hy' as []. rewrite map_map in Hy'. apply in_map_iff in Hy'. destruct Hy' as (q & <- & _). unfold blk in Hy. cbn [c_type c_ph c_ch halves map] in Hy. destruct Hy as [E|[E|[]]]; discriminate.
    + rewrite S3 in Hy'. apply in_map_iff in Hy'. destruct Hy' as (i & <- & _). unfold blk in Hy. cbn [c_type c_ph c_ch halves map] in Hy. destruct Hy as [E|[E|[]]]; discriminate.
Qed.
(** the block of an instance *)
Lemma block_of i s : instance r i s -> exists b, is_block r b /\ in_block r i b.
Proof.
  intros Es. destruct (lr_groups r Hlegal i s Es) as [Eg|[(p & Hp & Eg)|(c & p & Hp & Eg)]].
  - exists (Single i). split; [exists s; auto|exists s; auto].
  - destruct Eg as [Eg|Eg]; [exists (Synthesized p)|exists (Inherited p)]; (split; [exact Hp|exists s; split; [exact Es|split; [lia|auto]]]).
  - exists (ChildVisit c p). split; [exact Hp|exists s; split; [exact Es|split; [lia|tauto]]].
Qed.
Lemma block_unique i b b' : in_block r i b -> in_block r i b' -> b = b'.
Proof.
  intros (s & Es & H) (s' & Es' & H'). assert (s' = s) by (unfold instance in *; congruence). subst s'. destruct b as [p|p|c p|j], b' as [p'|p'|c' p'|j']; try (destruct H as [H1 H2], H' as [H1' H2']; rewrite H2 in H2'; injection H2' as E; try (f_equal; lia); lia).
  all: try (destruct H as [H1 H2], H' as [H1' H2']; (destruct H2 as [H2|H2] || idtac); (destruct H2' as [H2'|H2'] || idtac); rewrite H2 in H2'; injection H2' as E1 E2; try lia; f_equal; lia).
  destruct H as [<- _], H' as [<- _]. auto.
Qed.
End R.

(** ** The edges *)
Lemma nth_upd (g : list N) a b x : b < length g -> nth a (upd g b x) 0%N = if a =? b then x else nth a g 0%N.
Proof.
  intros H. destruct (Nat.eqb_spec a b) as [->|Ne].
  - erewrite nth_error_nth; [reflexivity|]. now apply nth_error_upd_eq.
  - destruct (Nat.lt_ge_cases a (length g)) as [La|La].
    + erewrite nth_error_nth; [reflexivity|]. rewrite nth_error_upd_neq by auto. rewrite (nth_error_nth' g 0%N) by auto. reflexivity.
    + rewrite !nth_overflow; auto. rewrite upd_length. auto.
Qed.
Lemma upd_same {X} (g : list X) a x : nth_error g a = Some x -> upd g a x = g.
Proof. intros H. apply nth_error_ext. intros i. rewrite nth_error_upd. destruct (Nat.eqb_spec a i) as [->|]; auto. rewrite (proj2 (Nat.ltb_lt _ _)); auto. apply nth_error_Some. congruence. Qed.
Lemma upd_upd {X} (g : list X) a x y : upd (upd g a x) a y = upd g a y.
Proof. apply nth_error_ext. intros i. rewrite !nth_error_upd, upd_length. destruct (a =? i); auto. Qed.
Lemma cell_inj m i j i' j' : j < m -> j' < m -> i * m + j = i' * m + j' -> i = i' /\ j = j'.
Proof. intros. assert (i = i') by nia. subst. split; auto; lia. Qed.
Lemma cell_lt m i j : i < m -> j < m -> i * m + j < m * m.
Proof. nia. Qed.
Lemma table_loop m (f : list N -> nat -> nat -> res (list N)) (F : nat -> nat -> N) :
  (forall g i j, i < m -> j < m -> length g = m * m -> nth (i * m + j) g 0%N = 0%N -> f g i j = Ok (upd g (i * m + j) (F i j))) ->
  exists g, foldM (fun g i => foldM (fun g j => f g i j) (seq 0 m) g) (seq 0 m) (repeat 0%N (m * m)) = Ok g /\ length g = m * m /\ forall i j, i < m -> j < m -> nth (i * m + j) g 0%N = F i j.
Proof.
  intros Hf.
  assert (G : exists g, foldM (fun g i => foldM (fun g j => f g i j) (seq 0 m) g) (seq 0 m) (repeat 0%N (m * m)) = Ok g /\ (length g = m * m /\ forall i j, i < m -> j < m -> nth (i * m + j) g 0%N = if existsb (Nat.eqb i) (seq 0 m) then F i j else 0%N)).
  { apply (foldM_inv _ _ (fun done g => length g = m * m /\ forall i j, i < m -> j < m -> nth (i * m + j) g 0%N = if existsb (Nat.eqb i) done then F i j else 0%N)).
    - rewrite repeat_length. split; auto. intros i j _ _. cbn [existsb]. apply nth_repeat.
    - intros done i rest g El [L Hg]. assert (Hi : In i (seq 0 m)) by (rewrite El; apply in_app_iff; right; now left). apply in_seq in Hi. assert (Ni : existsb (Nat.eqb i) done = false).
      { apply not_true_iff_false. rewrite existsb_exists. intros (x & Hx & E). apply Nat.eqb_eq in E. subst x. pose proof (seq_NoDup m 0) as Nd. rewrite El in Nd. apply NoDup_remove_2 in Nd. apply Nd. apply in_app_iff. auto. }
      destruct (foldM_inv (fun g j => f g i j) (seq 0 m) (fun dj g' => length g' = m * m /\ forall a b, a < m -> b < m -> nth (a * m + b) g' 0%N = if a =? i then (if existsb (Nat.eqb b) dj then F i b else 0%N) else nth (a * m + b) g 0%N) g) as (g' & E' & L' & H').
      + split; auto. intros a b Ha Hb. cbn [existsb]. destruct (Nat.eqb_spec a i) as [->|]; auto. rewrite Hg, Ni by auto. auto.
      + intros dj j rj g1 Ej [L1 H1]. assert (Hj : In j (seq 0 m)) by (rewrite Ej; apply in_app_iff; right; now left). apply in_seq in Hj. assert (Nj : existsb (Nat.eqb j) dj = false).
        { apply not_true_iff_false. rewrite existsb_exists. intros (x & Hx & E). apply Nat.eqb_eq in E. subst x. pose proof (seq_NoDup m 0) as Nd. rewrite Ej in Nd. apply NoDup_remove_2 in Nd. apply Nd. apply in_app_iff. auto. }
        exists (upd g1 (i * m + j) (F i j)). split.
        * apply Hf; try lia. rewrite H1, Nat.eqb_refl, Nj by lia. auto.
        * rewrite upd_length. split; auto. intros a b Ha Hb. rewrite nth_upd by (rewrite L1; apply cell_lt; lia). destruct (Nat.eqb_spec (a * m + b) (i * m + j)) as [E|Ne].
          -- apply cell_inj in E; try lia. destruct E as [-> ->]. rewrite Nat.eqb_refl, existsb_app. cbn [existsb]. rewrite Nat.eqb_refl. cbn. now rewrite orb_true_r.
          -- rewrite H1 by auto. destruct (Nat.eqb_spec a i) as [->|]; auto. rewrite existsb_app. cbn [existsb]. destruct (Nat.eqb_spec b j) as [->|]; [congruence|]. cbn. now rewrite orb_false_r.
      + exists g'. split; auto. split; auto. intros a b Ha Hb. rewrite H' by auto. rewrite existsb_app. cbn [existsb]. destruct (Nat.eqb_spec a i) as [->|Ne].
        * rewrite orb_true_iff || idtac. rewrite (proj2 (existsb_exists _ _)) by (exists b; split; [apply in_seq; lia|apply Nat.eqb_refl]). cbn. now rewrite orb_true_r.
        * cbn. rewrite orb_false_r. now apply Hg. }
  destruct G as (g & E & L & H). exists g. ands; auto. intros i j Hi Hj. rewrite H by auto. rewrite (proj2 (existsb_exists _ _)); auto. exists i. split; [apply in_seq; lia|apply Nat.eqb_refl].
Qed.

Section E.
Variable r : rule.
Hypothesis Hlegal : legal_rule r.
Let n := length (r_insts r).
(** the kind between two instances, and its effect on the kind between two chunks *)
Definition kind_of (j i : nat) : N := nth (j * n + i) (r_kinds r) 0%N.
Definition compatb (j i : nat) : bool := match nth_error (r_insts r) j, nth_error (r_insts r) i with Some s, Some s' => negb (impossible (merge_cond (si_cond s) (si_cond s'))) | _, _ => false end.
Definition pairK (k l : nat) : N := if compatb k l then kind_of k l else 0%N.
Definition cellK (ci cj : chunk) : N := fold_left N.lor (flat_map (fun k => map (pairK k) (c_insts cj)) (c_insts ci)) 0%N.
Definition edgeK (ci cj : chunk) : N := if guiding ci cj then N.lor indirect_control_dependency (cellK ci cj) else cellK ci cj.
Lemma fold_lor l : forall a, fold_left N.lor l a = N.lor a (fold_left N.lor l 0%N).
Proof. induction l as [|x l IH]; intros a; cbn [fold_left]; [now rewrite N.lor_0_r|]. rewrite IH, (IH (N.lor 0 x)), N.lor_0_l, N.lor_assoc. auto. Qed.
Lemma instance_edges_ok m ci cj g i j : (forall k, In k (c_insts ci) -> k < n) -> (forall k, In k (c_insts cj) -> k < n) -> length g = m * m -> i < m -> j < m -> nth (i * m + j) g 0%N = 0%N ->
  instance_edges r m ci cj g i j = Ok (upd g (i * m + j) (cellK ci cj)).
Proof.
  intros Hci Hcj Lg Hi Hj Hz. pose proof (cell_lt m i j Hi Hj) as Hc. set (idx := i * m + j) in *.
  assert (One : forall k l old, k < n -> l < n -> nth_error (r_insts r) k <> None -> forall g, length g = m * m -> nth idx g 0%N = old ->
    (sk <- rd (r_insts r) k ;; sl <- rd (r_insts r) l ;; if impossible (merge_cond (si_cond sk) (si_cond sl)) then Ok g else new <- rd (r_kinds r) (k * n + l) ;; if N.eqb new no_dependency then Ok g else join_kind m g i j new) = Ok (upd g idx (N.lor old (pairK k l)))).
  { intros k l old Hk Hl _ g0 L0 <-. unfold rd at 1 2. unfold pairK, compatb. destruct (nth_error (r_insts r) k) as [sk|] eqn:Ek; [|apply nth_error_None in Ek; fold n in Ek; lia]. destruct (nth_error (r_insts r) l) as [sl|] eqn:El; [|apply nth_error_None in El; fold n in El; lia]. cbn [bind].
    assert (Hrd : nth_error g0 idx = Some (nth idx g0 0%N)) by (apply nth_error_nth'; lia).
    destruct (impossible _); cbn [negb]; [rewrite N.lor_0_r, upd_same; auto|]. unfold rd. destruct (lr_kinds r Hlegal) as [Lk _]. fold n in Lk. rewrite (nth_error_nth' (r_kinds r) 0%N) by (rewrite Lk; nia). cbn [bind]. fold (kind_of k l). destruct (N.eqb_spec (kind_of k l) no_dependency) as [E0|N0].
    - unfold no_dependency in E0. rewrite E0, N.lor_0_r, upd_same; auto.
    - unfold join_kind. fold idx. unfold rd. rewrite Hrd. cbn [bind]. rewrite wr_Ok by lia. unfold dependency_join. now rewrite N.lor_comm. }
  assert (Row : forall k l, k < n -> (forall x, In x l -> x < n) -> forall g, length g = m * m ->
    foldM (fun g l => sk <- rd (r_insts r) k ;; sl <- rd (r_insts r) l ;; if impossible (merge_cond (si_cond sk) (si_cond sl)) then Ok g else new <- rd (r_kinds r) (k * n + l) ;; if N.eqb new no_dependency then Ok g else join_kind m g i j new) l g = Ok (upd g idx (fold_left N.lor (map (pairK k) l) (nth idx g 0%N)))).
  { intros k l Hk. induction l as [|x l IH]; intros Hl g0 L0; cbn [foldM map fold_left].
    - rewrite upd_same; auto. apply nth_error_nth'. lia.
    - rewrite (One k x (nth idx g0 0%N)); auto; [|apply Hl; now left|intros E; apply nth_error_None in E; fold n in E; lia]. cbn [bind]. rewrite IH; [|intros; apply Hl; now right|now rewrite upd_length]. rewrite nth_upd, Nat.eqb_refl by lia. now rewrite upd_upd. }
  assert (All : forall l, (forall x, In x l -> x < n) -> forall g, length g = m * m -> foldM (fun g k => foldM (fun g l => sk <- rd (r_insts r) k ;; sl <- rd (r_insts r) l ;; if impossible (merge_cond (si_cond sk) (si_cond sl)) then Ok g else new <- rd (r_kinds r) (k * n + l) ;; if N.eqb new no_dependency then Ok g else join_kind m g i j new) (c_insts cj) g) l g = Ok (upd g idx (fold_left N.lor (flat_map (fun k => map (pairK k) (c_insts cj)) l) (nth idx g 0%N)))).
  { induction l as [|k l IH]; intros Hl g0 L0; cbn [foldM flat_map].
    - cbn [fold_left]. rewrite upd_same; auto. apply nth_error_nth'. lia.
    - rewrite Row; auto; [|apply Hl; now left]. cbn [bind]. rewrite IH; [|intros; apply Hl; now right|now rewrite upd_length]. rewrite nth_upd, Nat.eqb_refl, upd_upd by lia. now rewrite fold_left_app. }
  unfold instance_edges. fold n. rewrite All by auto. now rewrite Hz.
Qed.
Lemma chunk_edges_ok chunks : (forall c k, In c chunks -> In k (c_insts c) -> k < n) ->
  let m := length chunks in
  exists g, chunk_edges r chunks = Ok g /\ length g = m * m /\ forall a b ca cb, nth_error chunks a = Some ca -> nth_error chunks b = Some cb -> nth (a * m + b) g 0%N = edgeK ca cb.
Proof.
  intros Hc m. unfold chunk_edges. fold m.
  destruct (table_loop m (fun g i j => ci <- rd chunks i ;; cj <- rd chunks j ;; g <- instance_edges r m ci cj g i j ;; if guiding ci cj then join_kind m g i j indirect_control_dependency else Ok g)
    (fun i j => match nth_error chunks i, nth_error chunks j with Some ci, Some cj => edgeK ci cj | _, _ => 0%N end)) as (g & E & L & H).
  - intros g i j Hi Hj Lg Hz. unfold rd at 1 2. destruct (nth_error chunks i) as [ci|] eqn:Ei; [|apply nth_error_None in Ei; fold m in Ei; lia]. destruct (nth_error chunks j) as [cj|] eqn:Ej; [|apply nth_error_None in Ej; fold m in Ej; lia]. cbn [bind].
    assert (Hci := fun k => Hc ci k (nth_error_In _ _ Ei)). assert (Hcj := fun k => Hc cj k (nth_error_In _ _ Ej)). rewrite (instance_edges_ok m ci cj g i j Hci Hcj Lg Hi Hj Hz). cbn [bind]. unfold edgeK. destruct (guiding ci cj); auto. unfold join_kind, rd. pose proof (cell_lt m i j Hi Hj). rewrite nth_error_upd_eq by lia. cbn [bind]. rewrite wr_Ok by (rewrite upd_length; lia). now rewrite upd_upd.
  - exists g. ands; auto. intros a b ca cb Ea Eb. rewrite H; [now rewrite Ea, Eb| |]; apply nth_error_Some; unfold m; congruence.
Qed.
Lemma in_fold_lor l x : N.testbit (fold_left N.lor l 0%N) x = true <-> exists k, In k l /\ N.testbit k x = true.
Proof.
  induction l as [|k l IH]; cbn [fold_left].
  - rewrite N.bits_0. split; [discriminate|intros (k & [] & _)].
  - rewrite fold_lor, N.lor_0_l, N.lor_spec, orb_true_iff, IH. split; [intros [H|(k' & H & H')]; [exists k|exists k']; cbn; auto|intros (k' & [<-|H] & H'); eauto].
Qed.
Lemma cellK_bit ci cj x : N.testbit (cellK ci cj) x = true <-> exists j i, In j (c_insts ci) /\ In i (c_insts cj) /\ compatb j i = true /\ N.testbit (kind_of j i) x = true.
Proof.
  unfold cellK. rewrite in_fold_lor. split.
  - intros (k & Hk & Hx). apply in_flat_map in Hk. destruct Hk as (j & Hj & Hk). apply in_map_iff in Hk. destruct Hk as (i & <- & Hi). unfold pairK in Hx. destruct (compatb j i) eqn:C; [|rewrite N.bits_0 in Hx; discriminate]. eauto 6.
  - intros (j & i & Hj & Hi & C & Hx). exists (pairK j i). split; [apply in_flat_map; exists j; split; auto; now apply in_map|]. unfold pairK. now rewrite C.
Qed.
Lemma nz_bit k : k <> 0%N <-> exists x, N.testbit k x = true.
Proof. split; [intros H; exists (N.log2 k); now apply N.bit_log2|intros (x & Hx) ->; rewrite N.bits_0 in Hx; discriminate]. Qed.

Lemma kind_depends j i : j < n -> i < n -> kind_of j i <> 0%N <-> depends r j i.
Proof.
  intros Hj Hi. unfold depends. fold n. destruct (lr_kinds r Hlegal) as [Lk _]. fold n in Lk. unfold kind_of. rewrite (nth_error_nth' (r_kinds r) 0%N) by (rewrite Lk; nia). split.
  - intros H. exists (nth (j * n + i) (r_kinds r) 0%N). auto.
  - intros (k & _ & _ & E & H). injection E as ->. auto.
Qed.
Lemma compat_spec j i : compatb j i = true <-> exists o, wanted r o j /\ wanted r o i.
Proof.
  unfold compatb, wanted, instance. destruct (nth_error (r_insts r) j) as [s|]; [|split; [discriminate|intros (o & (s & E & _) & _); discriminate]]. destruct (nth_error (r_insts r) i) as [s'|]; [|split; [discriminate|intros (o & _ & (s' & E & _)); discriminate]].
  rewrite negb_true_iff, PropsCto.possible_spec. split.
  - intros (o & M & M'). exists o. split; eexists; eauto.
  - intros (o & (? & E & M) & (? & E' & M')). injection E as <-. injection E' as <-. eauto.
Qed.
Lemma wanted_lt o i : wanted r o i -> i < n.
Proof. intros (s & E & _). apply nth_error_Some. unfold instance in E. congruence. Qed.
Lemma pair_needs j i : compatb j i = true /\ kind_of j i <> 0%N <-> needs r j i.
Proof.
  unfold needs. rewrite compat_spec. split.
  - intros ((o & W & W') & H). split; [|eauto]. apply kind_depends; eauto using wanted_lt.
  - intros (D & o & W & W'). split; [eauto|]. apply kind_depends; eauto using wanted_lt.
Qed.
Lemma edge_precedes ca cb : is_chunk r ca -> is_chunk r cb -> edgeK ca cb <> 0%N <-> precedes r (blk ca) (blk cb).
Proof.
  intros Ha Hb. assert (C : cellK ca cb <> 0%N <-> exists j i, in_block r j (blk ca) /\ in_block r i (blk cb) /\ needs r j i).
  { rewrite nz_bit. split.
    - intros (x & Hx). apply cellK_bit in Hx. destruct Hx as (j & i & Hj & Hi & Hc & Hk). exists j, i. rewrite <- !blk_members by auto. ands; auto. apply pair_needs. split; auto. apply nz_bit. eauto.
    - intros (j & i & Hj & Hi & Hn). rewrite <- !blk_members in * by auto. apply pair_needs in Hn. destruct Hn as [Hc Hk]. apply nz_bit in Hk. destruct Hk as (x & Hx). exists x. apply cellK_bit. eauto 8. }
  assert (G : guiding ca cb = true <-> (exists c p q, blk ca = ChildVisit c p /\ blk cb = ChildVisit c q /\ p < q) \/ (exists p, blk ca = Inherited p /\ blk cb = Synthesized p) \/ (exists p, blk ca = Synthesized p /\ blk cb = Inherited (S p))).
  { unfold guiding. destruct Ha as [p Hp|p Hp|c p Hp Hc|j Hj], Hb as [q Hq|q Hq|c' q Hq Hc'|i Hi]; unfold blk; cbn [c_type c_ph c_ch c_insts hd type_eqb andb orb].
    all: try (split; [discriminate|intros [(? & ? & ? & E1 & E2 & _)|[(? & E1 & E2)|(? & E1 & E2)]]; discriminate]).
    - rewrite orb_false_r, Nat.eqb_eq. split; [intros ->; right; left; eauto|intros [(? & ? & ? & E1 & E2 & _)|[(? & E1 & E2)|(? & E1 & E2)]]; congruence].
    - rewrite Nat.eqb_eq. split; [intros E; right; right; exists p; split; auto; f_equal; lia|intros [(? & ? & ? & E1 & E2 & _)|[(? & E1 & E2)|(? & E1 & E2)]]; try discriminate]. injection E1 as ->. injection E2 as ->. lia.
    - rewrite !orb_false_r, andb_true_iff, Z.eqb_eq, Nat.ltb_lt, !Nat2Z.id. split; [intros [E H]; apply Nat2Z.inj in E; subst c'; left; eauto 8|intros [(? & ? & ? & E1 & E2 & H)|[(? & E1 & E2)|(? & E1 & E2)]]; try discriminate]. injection E1 as -> ->. injection E2 as -> ->. auto. }
  assert (L : edgeK ca cb <> 0%N <-> guiding ca cb = true \/ cellK ca cb <> 0%N).
  { unfold edgeK. destruct (guiding ca cb); [|intuition discriminate]. split; auto. intros _ E. apply N.lor_eq_0_iff in E. destruct E as [E _]. discriminate E. }
  rewrite L, G, C. pose proof (blk_is_block r ca Ha) as Ba. pose proof (blk_is_block r cb Hb) as Bb. split.
  - intros [[(c & p & q & E1 & E2 & H)|[(p & E1 & E2)|(p & E1 & E2)]]|(j & i & Hj & Hi & Hn)]; try (rewrite E1, E2 in *; cbn [is_block] in *).
    + apply by_visits; lia.
    + apply by_halves; auto.
    + apply by_phases; lia.
    + eapply by_need; eauto.
  - intros H. inversion H as [b1 b2 j i B1 B2 Hj Hi Hn E1 E2|c p q H1 H2 H3 E1 E2|p H1 E1 E2|p H1 H2 E1 E2]; subst; [right; eauto 6|left..]; eauto 10.
Qed.

Lemma join_kind_ok a b : kind_ok a -> kind_ok b -> kind_ok (N.lor a b).
Proof. intros Ha Hb. assert (H := all32_2 (fun a b => N.leb (N.lor a b) 31) (eq_refl : all32 (fun a => all32 (fun b => N.leb (N.lor a b) 31)) = true) a b Ha Hb). now apply N.leb_le in H. Qed.
Lemma edge_kind ca cb : kind_ok (edgeK ca cb).
Proof.
  assert (K : forall k l, kind_ok (pairK k l)). { intros k l. unfold pairK, kind_ok. destruct (compatb k l); [|lia]. unfold kind_of. destruct (lr_kinds r Hlegal) as [Lk Hk]. destruct (nth_in_or_default (k * n + l) (r_kinds r) 0%N) as [Hin| ->]; [|lia]. apply (Hk _ Hin). }
  assert (C : kind_ok (cellK ca cb)). { unfold cellK. assert (G : forall l a, (forall k, In k l -> kind_ok k) -> kind_ok a -> kind_ok (fold_left N.lor l a)). { induction l as [|k l IH]; intros a Hl Ha; cbn [fold_left]; auto. apply IH; [intros; apply Hl; now right|]. apply join_kind_ok; auto. apply Hl. now left. }
    apply G; [|unfold kind_ok; lia]. intros k Hk. apply in_flat_map in Hk. destruct Hk as (j & _ & Hk). apply in_map_iff in Hk. destruct Hk as (i & <- & _). apply K. }
  unfold edgeK. destruct (guiding ca cb); auto. apply join_kind_ok; auto. unfold kind_ok. vm_compute. discriminate.
Qed.
End E.

(** ** The closure *)
Section T.
Variable m : nat.
Definition at_ (g : list N) (i j : nat) : N := nth (i * m + j) g 0%N.
Definition nz (g : list N) (i j : nat) : Prop := i < m /\ j < m /\ at_ g i j <> 0%N.
Definition table (g : list N) : Prop := length g = m * m /\ forall k, In k g -> kind_ok k.
Definition pop (k : N) : nat := list_sum (map (fun b => if N.testbit k b then 1 else 0) [0; 1; 2; 3; 4]%N).
Definition bits (g : list N) : nat := list_sum (map pop g).
Lemma pop_join a b : kind_ok a -> kind_ok b -> N.lor a b <> a -> pop a < pop (N.lor a b).
Proof.
  intros Ha Hb Ne. assert (H := all32_2 (fun a b => (N.lor a b =? a)%N || (pop a <? pop (N.lor a b))) (eq_refl : all32 (fun a => all32 (fun b => (N.lor a b =? a)%N || (pop a <? pop (N.lor a b)))) = true) a b Ha Hb). cbv beta in H. rewrite (proj2 (N.eqb_neq _ _) Ne) in H. now apply Nat.ltb_lt.
Qed.
Lemma pop_le k : pop k <= 5.
Proof. unfold pop. cbn [map list_sum fold_right]. repeat destruct (N.testbit k _); lia. Qed.
Lemma bits_le g : bits g <= length g * 5.
Proof. unfold bits. induction g as [|k g IH]; cbn [map list_sum fold_right length]; [lia|]. pose proof (pop_le k). unfold list_sum in IH. lia. Qed.
Lemma bits_upd g x k : nth_error g x = Some k -> forall k', bits (upd g x k') + pop k = bits g + pop k'.
Proof.
  revert x. induction g as [|h g IH]; intros [|x] E k'; cbn [nth_error] in E; try discriminate.
  - injection E as ->. unfold bits. cbn. lia.
  - specialize (IH x E k'). unfold bits in *. cbn [upd map list_sum fold_right]. unfold list_sum in IH. lia.
Qed.
Lemma at_kind g i j : table g -> kind_ok (at_ g i j).
Proof. intros [_ H]. unfold at_. destruct (nth_in_or_default (i * m + j) g 0%N) as [Hin| ->]; [auto|unfold kind_ok; lia]. Qed.
Lemma rd_at g i j : table g -> i < m -> j < m -> rd g (i * m + j) = Ok (at_ g i j).
Proof. intros [L _] Hi Hj. unfold rd, at_. rewrite (nth_error_nth' _ 0%N); auto. rewrite L. now apply cell_lt. Qed.
Lemma at_upd g i j k a b : table g -> i < m -> j < m -> a < m -> b < m -> at_ (upd g (i * m + j) k) a b = if (a =? i) && (b =? j) then k else at_ g a b.
Proof.
  intros [L _] Hi Hj Ha Hb. unfold at_. rewrite nth_upd by (rewrite L; now apply cell_lt). destruct (Nat.eqb_spec (a * m + b) (i * m + j)) as [E|Ne].
  - apply cell_inj in E; auto. destruct E as [-> ->]. now rewrite !Nat.eqb_refl.
  - destruct (Nat.eqb_spec a i) as [->|]; auto. destruct (Nat.eqb_spec b j) as [->|]; auto. congruence.
Qed.
Lemma table_upd g x k : table g -> kind_ok k -> table (upd g x k).
Proof. intros [L H] Hk. split; [now rewrite upd_length|]. intros y Hy. apply In_nth_error in Hy. destruct Hy as (a & Ha). rewrite nth_error_upd in Ha. destruct (x =? a); [destruct (_ <? _); [injection Ha as <-; auto|discriminate]|]. apply H. now apply nth_error_In in Ha. Qed.

Variable g0 : list N.
Hypothesis T0 : table g0.
(** what stays true *)
Record mid (g : list N) : Prop := {
  md_table : table g;
  md_sound : forall i j, nz g i j -> clos_trans nat (nz g0) i j;
  md_mono : forall i j, nz g0 i j -> nz g i j;
  md_direct : forall i j, i < m -> j < m -> direct (at_ g i j) = direct (at_ g0 i j)
}.
Lemma mid_start : mid g0.
Proof. constructor; auto. intros. now apply t_step. Qed.
Definition closed_at (g : list N) (t : nat * nat * nat) : Prop := let '(i, j, k) := t in nz g i j -> nz g j k -> nz g i k.
Lemma trans_step_ok g b i j k : mid g -> i < m -> j < m -> k < m ->
  (trans_step m (g, b) (i, j, k) = Ok (g, b) /\ closed_at g (i, j, k)) \/
  exists g', trans_step m (g, b) (i, j, k) = Ok (g', true) /\ mid g' /\ bits g < bits g'.
Proof.
  intros [T S M D] Hi Hj Hk. unfold trans_step. cbn [fst]. rewrite !rd_at by auto. cbn [bind]. pose proof (at_kind g i j T) as Kij. pose proof (at_kind g j k T) as Kjk. pose proof (at_kind g i k T) as Kik. set (new := dependency_trans (at_ g i j) (at_ g j k)).
  destruct (C38_trans (at_ g i j) (at_ g j k) 0%N Kij Kjk) as (_ & _ & _ & _ & _ & Kn & Dn & Zn); [unfold kind_ok; lia|]. fold new in Kn, Dn, Zn. unfold no_dependency in *.
  destruct (N.eqb_spec (at_ g i j) 0) as [E1|N1]; cbn [negb andb]; [left; split; auto; intros (_ & _ & H); congruence|].
  destruct (N.eqb_spec (at_ g j k) 0) as [E2|N2]; cbn [negb andb]; [left; split; auto; intros _ (_ & _ & H); congruence|].
  assert (Nn : new <> 0%N) by tauto.
  destruct (N.eqb_spec (N.lor (at_ g i k) new) (at_ g i k)) as [E3|N3]; cbn [negb andb].
  - left. split; auto. intros _ _. unfold nz. ands; auto. intros E. rewrite E, N.lor_0_l in E3. auto.
  - right. assert (Lt : i * m + k < length g) by (destruct T as [L _]; rewrite L; now apply cell_lt). rewrite wr_Ok by auto. cbn [bind]. exists (upd g (i * m + k) (dependency_join new (at_ g i k))). split; auto. unfold dependency_join. rewrite N.lor_comm. set (k' := N.lor (at_ g i k) new) in *.
    assert (Kk : kind_ok k') by now apply join_kind_ok. assert (T' : table (upd g (i * m + k) k')) by now apply table_upd. split; [constructor; auto|].
    + intros a b' (Ha & Hb & H). rewrite at_upd in H by auto. destruct (Nat.eqb_spec a i) as [->|]; cbn [andb] in H; [|apply S; unfold nz; auto]. destruct (Nat.eqb_spec b' k) as [->|]; [|apply S; unfold nz; auto]. eapply t_trans; apply S; unfold nz; eauto.
    + intros a b' H. assert (H' := M a b' H). destruct H' as (Ha & Hb & H'). unfold nz. ands; auto. rewrite at_upd by auto. destruct ((a =? i) && (b' =? k)) eqn:E; auto. apply andb_true_iff in E. rewrite !Nat.eqb_eq in E. destruct E as [-> ->]. intros Ez. apply N.lor_eq_0_iff in Ez. tauto.
    + intros a b' Ha Hb. rewrite at_upd by auto. destruct ((a =? i) && (b' =? k)) eqn:E; auto. apply andb_true_iff in E. rewrite !Nat.eqb_eq in E. destruct E as [-> ->]. rewrite <- D by auto. unfold direct, k'. rewrite N.land_lor_distr_l, Dn, N.lor_0_r. auto.
    + assert (En : nth_error g (i * m + k) = Some (at_ g i k)) by (unfold at_; now apply nth_error_nth'). pose proof (bits_upd g (i * m + k) _ En k') as B. pose proof (pop_join (at_ g i k) new Kik Kn N3). fold k' in H. lia.
Qed.
Lemma round_ok g : mid g -> (foldM (trans_step m) (SccModel.triples m) (g, false) = Ok (g, false) /\ forall i j k, nz g i j -> nz g j k -> nz g i k) \/
  exists g', foldM (trans_step m) (SccModel.triples m) (g, false) = Ok (g', true) /\ mid g' /\ bits g < bits g'.
Proof.
  intros Hg. destruct (foldM_inv (trans_step m) (SccModel.triples m) (fun done st => (st = (g, false) /\ forall t, In t done -> closed_at g t) \/ (snd st = true /\ mid (fst st) /\ bits g < bits (fst st))) (g, false)) as (st & E & H).
  - left. split; auto. intros t [].
  - intros done [[i j] k] rest [g1 b] El H. assert (Hin : In (i, j, k) (SccModel.triples m)) by (rewrite El; apply in_app_iff; right; now left). apply SccProofs.in_triples in Hin. destruct Hin as (Hi & Hj & Hk).
    destruct H as [[E H]|(Eb & Hm & Hb)].
    + injection E as -> ->. destruct (trans_step_ok g false i j k Hg Hi Hj Hk) as [[E C]|(g' & E & M & B)].
      * exists (g, false). split; auto. left. split; auto. intros t Ht. apply in_app_iff in Ht. destruct Ht as [Ht|[<-|[]]]; auto.
      * exists (g', true). split; auto.
    + cbn [fst snd] in *. subst b. destruct (trans_step_ok g1 true i j k Hm Hi Hj Hk) as [[E C]|(g' & E & M & B)]; [exists (g1, true)|exists (g', true)]; (split; [auto|right; cbn [fst snd]; ands; auto; lia]).
  - destruct H as [[-> H]|(Eb & Hm & Hb)]; [left; split; auto|right].
    + intros i j k Hij Hjk. apply (H (i, j, k)); auto. apply SccProofs.in_triples. destruct Hij as (? & ? & _), Hjk as (_ & ? & _). auto.
    + destruct st as [g' b]. cbn [fst snd] in *. subst b. eauto.
Qed.
Lemma trans_close_ok : exists g, trans_close (S (m * m * 5)) m g0 = Ok g /\ table g /\ (forall i j, nz g i j <-> clos_trans nat (nz g0) i j) /\ forall i j, i < m -> j < m -> direct (at_ g i j) = direct (at_ g0 i j).
Proof.
  assert (G : forall f g, mid g -> m * m * 5 < f + bits g -> exists g', trans_close f m g = Ok g' /\ mid g' /\ forall i j k, nz g' i j -> nz g' j k -> nz g' i k).
  { induction f as [|f IH]; intros g Hm Hf; [pose proof (bits_le g) as B; destruct (md_table g Hm) as [L _]; rewrite L in B; lia|]. cbn [trans_close]. destruct (round_ok g Hm) as [[-> C]|(g' & -> & M & B)]; cbn [bind].
    - exists g. auto.
    - apply IH; auto. lia. }
  destruct (G (S (m * m * 5)) g0 mid_start) as (g & E & [T S M D] & C); [lia|]. exists g. ands; auto. intros i j. split; auto. induction 1 as [i j H|i j k _ IH1 _ IH2]; eauto.
Qed.
End T.

(** ** All of it *)
Section A.
Variable r : rule.
Hypothesis Hlegal : legal_rule r.
Notation bs := (map blk (chunk_list r)).
Notation m := (length (chunk_list r)).
Lemma precedes_blocks b1 b2 : precedes r b1 b2 -> is_block r b1 /\ is_block r b2.
Proof. intros [? ? j i B1 B2 _ _ _|c p q H1 H2 H3|p H|p H1 H2]; cbn [is_block]; auto; lia. Qed.
Lemma in_bs b : In b bs <-> is_block r b.
Proof.
  split.
  - intros H. apply in_map_iff in H. destruct H as (c & <- & Hc). apply blk_is_block. now apply in_chunk_list.
  - intros H. destruct (block_listed r b H) as (c & Hc & <-). now apply in_map.
Qed.
Lemma bs_chunk a b : nth_error bs a = Some b -> exists c, nth_error (chunk_list r) a = Some c /\ blk c = b /\ is_chunk r c.
Proof. rewrite nth_error_map. destruct (nth_error (chunk_list r) a) as [c|] eqn:E; [|discriminate]. intros H. injection H as <-. exists c. ands; auto. apply in_chunk_list. now apply nth_error_In in E. Qed.
Lemma bs_inj a a' b : nth_error bs a = Some b -> nth_error bs a' = Some b -> a = a'.
Proof. intros H H'. pose proof (blocks_nodup r) as Nd. rewrite NoDup_nth_error in Nd. apply Nd; [|congruence]. apply nth_error_Some. congruence. Qed.
Lemma bs_lt a b : nth_error bs a = Some b -> a < m.
Proof. intros H. rewrite <- (map_length blk). apply nth_error_Some. congruence. Qed.
Lemma lt_bs a : a < m -> exists b, nth_error bs a = Some b.
Proof. intros H. destruct (nth_error bs a) eqn:E; eauto. apply nth_error_None in E. rewrite map_length in E. lia. Qed.
Lemma block_at b : is_block r b -> exists a, nth_error bs a = Some b.
Proof. intros H. apply in_bs in H. now apply In_nth_error. Qed.
Lemma direct_edge ca cb : direct (edgeK r ca cb) = direct (cellK r ca cb).
Proof. unfold edgeK. destruct (guiding ca cb); auto. unfold direct. rewrite N.land_lor_distr_l. reflexivity. Qed.
Lemma direct_bit k : direct k = true <-> N.testbit k 3 = true.
Proof.
  unfold direct. rewrite negb_true_iff, N.eqb_neq. change DEPENDENCY_MAYBE_DIRECT with (2 ^ 3)%N. split.
  - intros H. destruct (N.testbit k 3) eqn:E; auto. exfalso. apply H. apply N.bits_inj_0. intros x. rewrite N.land_spec, N.pow2_bits_eqb. destruct (N.eqb_spec 3 x) as [<-|]; [now rewrite E|now rewrite andb_false_r].
  - intros H E. apply (f_equal (fun z => N.testbit z 3)) in E. rewrite N.land_spec, H, N.bits_0 in E. discriminate.
Qed.
Lemma direct_cell ca cb : is_chunk r ca -> is_chunk r cb -> direct (cellK r ca cb) = true <-> exists j i, in_block r j (blk ca) /\ in_block r i (blk cb) /\ needs r j i /\ direct (kind_of r j i) = true.
Proof.
  intros Ha Hb. rewrite direct_bit, cellK_bit. setoid_rewrite direct_bit. split.
  - intros (j & i & Hj & Hi & C & K). exists j, i. rewrite <- !blk_members by auto. ands; auto. apply pair_needs; auto. split; auto. apply nz_bit. eauto.
  - intros (j & i & Hj & Hi & Hn & K). exists j, i. rewrite <- !blk_members in * by auto. ands; auto. apply pair_needs in Hn; auto. tauto.
Qed.
Variables (ps : PrimeModel.primes) (base size : Z).
Hypothesis Hps : PropsUtil.reachable_sieve ps.
Hypothesis Hroom : room r.
Hypothesis Hfits : PropsComponent.fits (chunk_count r) base size.
Lemma clos_blocks g0 : (forall a b ba bb, nth_error bs a = Some ba -> nth_error bs b = Some bb -> (nz m g0 a b <-> precedes r ba bb)) ->
  forall a b ba bb, nth_error bs a = Some ba -> nth_error bs b = Some bb -> (clos_trans nat (nz m g0) a b <-> clos_trans block (precedes r) ba bb).
Proof.
  intros H a b ba bb Ea Eb. split.
  - intros C. revert ba bb Ea Eb. induction C as [a b E|a c b C1 IH1 C2 IH2]; intros ba bb Ea Eb; [apply t_step; apply (H a b); auto|]. assert (Lc : c < m). { clear -C1. induction C1 as [a b (_ & L & _)|]; auto. } destruct (lt_bs c Lc) as (bc & Ec). eapply t_trans; [apply (IH1 ba bc)|apply (IH2 bc bb)]; auto.
  - intros C. revert a b Ea Eb. induction C as [ba bb E|ba bc bb C1 IH1 C2 IH2]; intros a b Ea Eb; [apply t_step; apply (H a b ba bb); auto|]. assert (Bc : is_block r bc). { clear -C1. induction C1 as [x y P|]; auto. now apply precedes_blocks in P. } destruct (block_at bc Bc) as (c & Ec). eapply t_trans; [apply (IH1 a c)|apply (IH2 c b)]; auto.
Qed.
Lemma chunk_graph_ok : exists g comps, collect_aug_graph_chunks ps base size r = Ok (mkCG (chunk_list r) g comps) /\ table m g /\
  (forall a b ba bb, nth_error bs a = Some ba -> nth_error bs b = Some bb -> (nz m g a b <-> clos_trans block (precedes r) ba bb)) /\
  (forall a b ca cb, nth_error (chunk_list r) a = Some ca -> nth_error (chunk_list r) b = Some cb -> direct (at_ m g a b) = direct (cellK r ca cb)) /\
  PropsComponent.right_components m (nz m g) comps.
Proof.
  unfold collect_aug_graph_chunks. rewrite collect_ok, (proj2 (Nat.leb_le _ _) Hroom) by auto. cbn [bind].
  assert (Hin : forall c k, In c (chunk_list r) -> In k (c_insts c) -> k < length (r_insts r)). { intros c k Hc Hk. apply in_chunk_list in Hc. apply (blk_members r) in Hk; auto. destruct Hk as (s & Es & _). apply nth_error_Some. unfold instance in Es. congruence. }
  destruct (chunk_edges_ok r Hlegal (chunk_list r) Hin) as (g0 & -> & L0 & H0). cbn [bind].
  assert (T0 : table m g0). { split; auto. intros k Hk. apply In_nth_error in Hk. destruct Hk as (x & Hx). assert (Lx : x < m * m) by (rewrite <- L0; apply nth_error_Some; congruence). assert (Lm : m <> 0) by nia. set (a := x / m). set (b := x mod m). assert (Ex : x = a * m + b) by (rewrite (Nat.div_mod x m Lm) at 1; unfold a, b; lia). assert (La : a < m) by (apply Nat.div_lt_upper_bound; lia). assert (Lb : b < m) by (apply Nat.mod_upper_bound; auto).
    destruct (nth_error (chunk_list r) a) as [ca|] eqn:Ea; [|apply nth_error_None in Ea; lia]. destruct (nth_error (chunk_list r) b) as [cb|] eqn:Eb; [|apply nth_error_None in Eb; lia]. specialize (H0 a b ca cb Ea Eb). rewrite <- Ex in H0. apply nth_error_nth with (d := 0%N) in Hx. rewrite Hx in H0. subst k. now apply edge_kind. }
  assert (N0 : forall a b ba bb, nth_error bs a = Some ba -> nth_error bs b = Some bb -> (nz m g0 a b <-> precedes r ba bb)).
  { intros a b ba bb Ea Eb. destruct (bs_chunk a ba Ea) as (ca & Ca & <- & Ia), (bs_chunk b bb Eb) as (cb & Cb & <- & Ib). rewrite <- edge_precedes by auto. rewrite <- (H0 a b ca cb Ca Cb). unfold nz, at_. split; [tauto|]. intros H. ands; auto; eapply bs_lt; eauto. }
  destruct (trans_close_ok m g0 T0) as (g & -> & T & Hg & Hd). cbn [bind]. assert (Fm : PropsComponent.fits m base size) by now rewrite chunk_list_length.
  destruct (PropsComponent.components_ok base size m (fun i j => negb (N.eqb (at_ m g i j) no_dependency)) (fun i j => k <- rd g (i * m + j) ;; Ok (negb (N.eqb k no_dependency))) Fm) with (st := ps) as (st' & comps & E & R); auto.
  { intros i j Hi Hj. rewrite rd_at by auto. reflexivity. }
  rewrite E. cbn [bind].
  assert (R' : PropsComponent.right_components m (nz m g) comps). { eapply PropsComponent.components_iff; [|exact R]. intros a b. unfold PropsComponent.sedge, nz. rewrite negb_true_iff, N.eqb_neq. unfold no_dependency. tauto. }
  assert (Back : forall l acc, (forall c, In c l -> forall i, In i c -> i < m) -> foldM (fun cs comp => c <- foldM (fun l p => i <- inst_index base size m p ;; Ok (l ++ [i])) comp [] ;; Ok (cs ++ [c])) (map (map (inst_addr base size)) l) acc = Ok (acc ++ l)).
  { assert (Row : forall c acc, (forall i, In i c -> i < m) -> foldM (fun l p => i <- inst_index base size m p ;; Ok (l ++ [i])) (map (inst_addr base size) c) acc = Ok (acc ++ c)).
    { induction c as [|i c IH]; intros acc Hc; cbn [map foldM]; [now rewrite app_nil_r|]. rewrite (PropsComponent.index_addr base size m Fm) by (apply Hc; now left). cbn [bind]. rewrite IH by (intros; apply Hc; now right). now rewrite <- app_assoc. }
    induction l as [|c l IH]; intros acc Hl; cbn [map foldM]; [now rewrite app_nil_r|]. rewrite Row by (apply Hl; now left). cbn [bind app]. rewrite IH by (intros; eapply Hl; eauto; now right). now rewrite <- app_assoc. }
  rewrite Back by (intros c Hc i Hi; eapply PropsComponent.comp_lt; eauto). cbn [bind app]. exists g, comps. ands; auto.
  - intros a b ba bb Ea Eb. rewrite Hg. now apply clos_blocks.
  - intros a b ca cb Ca Cb. rewrite Hd by (apply nth_error_Some; congruence). unfold at_. rewrite (H0 a b ca cb Ca Cb). apply direct_edge.
Qed.
End A.
