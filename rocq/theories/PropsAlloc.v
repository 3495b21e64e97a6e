(** * PropsAlloc: C31, C32 (parse/alloc.c). *)
From Verif Require Import Base AllocModel AllocSpec AllocProofs.
Open Scope Z_scope.

(** ** C31: for every program of HALLOC, SALLOC and release calls, what is live
    is aligned, inside a malloc'ed block and pairwise disjoint (heap against stack
    too); the program is never undefined, and exits only on a request of at least
    BLOCKSIZE bytes or when malloc fails. *)
Theorem C31_allocations : forall malloc ops, malloc_ok malloc -> Forall sane ops ->
  match arun malloc ops with
  | Ok w => all_disjoint (hlive w ++ slive w) /\ forall x, In x (hlive w ++ slive w) -> aligned x /\ placed malloc x
  | Exit => exists o, In o ops /\ (too_large o \/ exists i, malloc i = None)
  | UB | Fuel => False
  end.
Proof.
  intros malloc ops MO S. pose proof (arun_spec malloc MO ops S) as A. destruct (arun malloc ops) as [w| | |]; auto. destruct A as (GH & GS & W).
  split; [eapply winv_disjoint; eauto|]. destruct W as [Ih Is X Lh Ls]. rewrite Lh, Ls. intros x Hx. apply in_app_iff in Hx.
  destruct Hx as [Hx|Hx]; apply in_map_iff in Hx; destruct Hx as (g & <- & Hg); [destruct (ent_placed malloc _ _ _ g Ih Hg)|destruct (ent_placed malloc _ _ _ g Is Hg)]; auto.
Qed.
Print Assumptions C31_allocations.

Lemma arun_app malloc ops ops' : arun malloc (ops ++ ops') = w <- arun malloc ops ;; foldM (astep malloc) ops' w.
Proof. apply foldM_app. Qed.

(** The new object has the requested size and is the newest. Requests over
    BLOCKSIZE always exit; NULL is returned only for the empty request. *)
Theorem C31_request : forall malloc ops n w, malloc_ok malloc -> Forall sane ops -> 0 <= n <= INT_MAX - 7 -> arun malloc ops = Ok w ->
  match arun malloc (ops ++ [HAlloc n]) with
  | Ok w' => exists p, hlive w' = hlive w ++ [(p, n)] /\ slive w' = slive w /\ n <= BLOCKSIZE /\ (p = 0 -> n = 0)
  | Exit => BLOCKSIZE <= n \/ exists i, malloc i = None
  | UB | Fuel => False
  end /\
  match arun malloc (ops ++ [SAlloc n]) with
  | Ok w' => exists p, slive w' = slive w ++ [(p, n)] /\ hlive w' = hlive w /\ n <= BLOCKSIZE /\ (p = 0 -> n = 0)
  | Exit => BLOCKSIZE <= n \/ exists i, malloc i = None
  | UB | Fuel => False
  end.
Proof.
  intros malloc ops n w MO S Hn E. rewrite !arun_app, E. cbn [bind foldM].
  pose proof (arun_spec malloc MO ops S) as A. rewrite E in A. destruct A as (GH & GS & W). destruct W as [Ih Is X Lh Ls].
  assert (T : forall a' m' G p q, ainv malloc a' m' (G ++ [(p, n, q)]) -> n <= BLOCKSIZE /\ (p = 0 -> n = 0)).
  { intros a' m' G p q I. assert (Hin : In (p, n, q) (G ++ [(p, n, q)])) by (apply in_app_iff; right; left; auto).
    destruct (ent_placed malloc _ _ _ _ I Hin) as [[Q|(i & b & Mb & L1 & L2)] _]; unfold strip in *; cbn in *.
    - injection Q as -> ->. split; auto. unfold BLOCKSIZE. lia.
    - destruct (proj1 MO _ _ Mb). split; [lia|]. intros ->. lia. }
  split; cbn [astep].
  - destruct (ALLOC_spec malloc MO (the_heap w) (mallocs w) GH n Ih ltac:(lia) ltac:(lia)) as [[E1 D]|(a' & m' & p & q & E1 & Lm & I' & _)]; rewrite E1; cbn [bind]; [destruct D; eauto|].
    cbn. exists p. ands; auto; eapply T; eauto.
  - destruct (ALLOC_spec malloc MO (the_stack w) (mallocs w) GS n Is ltac:(lia) ltac:(lia)) as [[E1 D]|(a' & m' & p & q & E1 & Lm & I' & _)]; rewrite E1; cbn [bind]; [destruct D; eauto|].
    cbn. exists p. ands; auto; eapply T; eauto.
Qed.
Print Assumptions C31_request.

(** ** C32: releasing a live mark always succeeds, kills exactly the allocations
    made from that one on, and its space is what the next SALLOC returns, if it
    fits in the rest of the block. *)
Theorem C32_release : forall malloc ops k p s w, malloc_ok malloc -> Forall sane ops -> arun malloc ops = Ok w ->
  nth_error (slive w) k = Some (p, s) ->
  exists w', arun malloc (ops ++ [Release k]) = Ok w' /\ hlive w' = hlive w /\ slive w' = firstn k (slive w) /\
    (forall n i b, 0 <= n <= INT_MAX - 7 -> malloc i = Some b -> b <= p -> p + n <= b + BLOCKSIZE ->
       exists w'', arun malloc (ops ++ [Release k; SAlloc n]) = Ok w'' /\ slive w'' = firstn k (slive w) ++ [(p, n)]).
Proof.
  intros malloc ops k p s w MO S E Ek. rewrite arun_app, E. cbn [bind foldM].
  pose proof (arun_spec malloc MO ops S) as A. rewrite E in A. destruct A as (GH & GS & [Ih Is X Lh Ls]).
  cbn [astep]. rewrite Ek. rewrite Ls in Ek. rewrite nth_error_map in Ek. destruct (nth_error GS k) as [g|] eqn:Eg; [|discriminate]. injection Ek as <- <-.
  destruct (release_spec malloc MO _ _ _ k g Is Eg) as (a' & E1 & I' & Bl & Pt & Tp). rewrite E1. cbn [bind]. eexists. split; [reflexivity|]. cbn. ands; auto.
  intros n i b Hn Mb L1 L2. rewrite arun_app, E. cbn [bind foldM astep]. rewrite Ls, nth_error_map, Eg. cbn [option_map strip]. rewrite E1. cbn [bind].
  cbn [the_stack mallocs hlive slive the_heap].
  assert (Np : ga g <> 0) by (destruct (proj1 MO _ _ Mb); lia). destruct (Tp Np) as (c & Hc & Lc & Tc).
  destruct (ai_from _ _ _ _ Is c Hc) as (j & _ & Mj).
  assert (c = b). { destruct (Nat.eq_dec i j) as [->|N]; [congruence|]. destruct (proj2 MO i j b c N Mb Mj); unfold BLOCKSIZE in *; lia. } subst c.
  assert (Fit : ptr a' + align n <= top a').
  { rewrite Pt, Tc. destruct (proj1 MO _ _ Mb) as [Bm _].
    assert (Mg : ga g mod 8 = 0) by (apply (ent_placed malloc _ _ _ g Is (nth_error_In _ _ Eg))).
    rewrite align_spec. unfold BLOCKSIZE in *.
    pose proof (Z.div_mod (n + 7) 8 ltac:(lia)). pose proof (Z.mod_pos_bound (n + 7) 8 ltac:(lia)).
    pose proof (Z.div_mod (ga g) 8 ltac:(lia)). pose proof (Z.div_mod b 8 ltac:(lia)). lia. }
  destruct (ALLOC_ok malloc a' (mallocs w) (firstn k GS) n 2 I' ltac:(lia) ltac:(lia) Fit) as (a2 & E2 & _). unfold fuel_alloc. rewrite E2. cbn [bind].
  eexists. split; [reflexivity|]. cbn. rewrite Pt. auto.
Qed.
Print Assumptions C32_release.

(** Boundary: a request of exactly BLOCKSIZE can succeed. *)
Definition one_block_malloc (i : nat) : option Z := Some (8 * (4 + 2000000 * Z.of_nat i)).
Lemma one_block_malloc_ok : malloc_ok one_block_malloc.
Proof.
  unfold one_block_malloc. split.
  - intros i b [= <-]. split; [rewrite Z.mul_comm; apply Z.mod_mul; lia|lia].
  - intros i j b c N [= <-] [= <-]. unfold BLOCKSIZE. lia.
Qed.
Example C31_boundary : exists w, arun one_block_malloc [SAlloc 8; Release 0; SAlloc BLOCKSIZE] = Ok w /\ slive w = [(32, BLOCKSIZE)].
Proof. eexists. vm_compute. split; reflexivity. Qed.
(** Crossing a block boundary and coming back: the second block is reused. *)
Example C32_case : exists w, malloc_ok one_block_malloc /\
  arun one_block_malloc [SAlloc 5; SAlloc 9999990; SAlloc 20; HAlloc 3; Release 1; SAlloc 1; SAlloc 9999999] = Ok w /\
  slive w = [(32, 5); (40, 1); (16000032, 9999999)] /\ hlive w = [(32000032, 3)] /\ mallocs w = 3%nat.
Proof. eexists. split; [apply one_block_malloc_ok|]. vm_compute. ands; reflexivity. Qed.
