(** * PhaseSpec: what phases with circular attributes should be. *)
From Verif Require Import Base CondModel EdgeModel DncModel SummaryProofs CycleModel OagModel PropsOag.
From Coq Require Import Relations.
Open Scope nat_scope.

(** Two instances that need each other, perhaps indirectly. *)
Definition mutual (n : nat) (mg : list N) (i j : nat) : Prop := clos_refl_trans nat (needs n mg) i j /\ clos_refl_trans nat (needs n mg) j i.
(** An instance evaluated by iteration: something it is mutual with needs itself directly.
    (In a closed graph: it needs itself.) *)
Definition circular (n : nat) (mg : list N) (i : nat) : Prop := exists j, mutual n mg i j /\ needs n mg j j.
(** Everything local or on a cycle is circular. *)
Definition phaseable (dirs : list direction) (mg : list N) : Prop :=
  forall i, i < length dirs -> nth_error dirs i = Some instance_local \/ clos_trans nat (needs (length dirs) mg) i i -> circular (length dirs) mg i.
(** The phase of an instance without its sign *)
Definition aphase (sched : list Z) (i : nat) : nat := Z.abs_nat (phase_of sched i).
Definition flag (l : list bool) (p : nat) : bool := nth p l false.

Record right_phases (dirs : list direction) (mg : list N) (sched : list Z) (circ empt : list bool) (mx : nat) : Prop := {
  (* every instance has a phase between 1 and the last; inherited ones negative *)
  rp_len : length sched = length dirs;
  rp_range : forall i, i < length dirs -> 1 <= aphase sched i <= mx;
  rp_sign : forall i d, nth_error dirs i = Some d -> (d = instance_inward -> (phase_of sched i < 0)%Z) /\ (d <> instance_inward -> (0 < phase_of sched i)%Z);
  (* nothing comes before what it needs, except within a group of mutual circular instances *)
  rp_order : forall j i, needs (length dirs) mg j i ->
    visit_of sched j < visit_of sched i \/ (visit_of sched j = visit_of sched i /\ j < i) \/ (circular (length dirs) mg i /\ mutual (length dirs) mg j i);
  (* a circular phase has exactly one group of mutual circular instances *)
  rp_circ : forall i, i < length dirs -> flag circ (aphase sched i) = true <-> circular (length dirs) mg i;
  rp_group : forall i j, i < length dirs -> j < length dirs -> circular (length dirs) mg i -> aphase sched i = aphase sched j <-> mutual (length dirs) mg i j;
  (* the first and last phases are not circular, and neither are two consecutive ones *)
  rp_first : flag circ 1 = false;
  rp_last : flag circ mx = false;
  rp_apart : forall p, 1 <= p < mx -> flag circ p = true -> flag circ (S p) = false;
  (* the phases marked empty are the empty ones; they surround circular ones *)
  rp_empty : forall p, 1 <= p <= mx -> flag empt p = true <-> forall i, i < length dirs -> aphase sched i <> p;
  rp_why : forall p, 1 <= p <= mx -> flag empt p = true -> (p = 1 \/ flag circ (p - 1) = true) /\ (p = mx \/ flag circ (S p) = true) }.
