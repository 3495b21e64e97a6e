(** * CondModel: conditions and dependency kinds of the analyser.

    Models /repo/analyze/aps-cond.c, aps-cond.h and the dependency kinds of
    aps-dnc.h/aps-dnc.c.  C's [unsigned] is N; masks are below 2^32 (a bit per
    if-rule).  [x & ~y] is [N.ldiff x y]. *)
From Verif Require Import Base.
From Coq Require Export NArith.
Open Scope N_scope.

(** aps-cond.h:4-7 *)
Record condition := mkCond { positive : N; negative : N }.
(** aps-cond.h:8 [ONE_BIT]; [v-1] wraps for 0 *)
Definition pred32 (v : N) : N := if v =? 0 then 4294967295 else v - 1.
Definition one_bit (v : N) : bool := N.land v (pred32 v) =? 0.
(** aps-cond.h:10 *)
Inductive condcompare := CONDeq | CONDgt | CONDlt | CONDcomp | CONDnone.
(** aps-cond.c:5-28 [cond_compare].  The subtractions are of a subset mask, so
    they do not wrap. *)
Definition cond_compare (cond1 cond2 : condition) : condcompare :=
  if (positive cond1 =? positive cond2) && (negative cond1 =? negative cond2) then CONDeq
  else if (N.lor (positive cond1) (positive cond2) =? positive cond1) && (N.lor (negative cond1) (negative cond2) =? negative cond1) then CONDlt
  else if (N.lor (positive cond2) (positive cond1) =? positive cond2) && (N.lor (negative cond2) (negative cond1) =? negative cond2) then CONDgt
  else if (N.lor (positive cond1) (positive cond2) =? positive cond1) && (N.lor (negative cond2) (negative cond1) =? negative cond2) then
    let pos := positive cond1 - positive cond2 in
    let neg := negative cond2 - negative cond1 in
    if (pos =? neg) && one_bit pos then CONDcomp else CONDnone
  else if (N.lor (positive cond2) (positive cond1) =? positive cond2) && (N.lor (negative cond1) (negative cond2) =? negative cond1) then
    let pos := positive cond2 - positive cond1 in
    let neg := negative cond1 - negative cond2 in
    if (pos =? neg) && one_bit pos then CONDcomp else CONDnone
  else CONDnone.

(** aps-dnc.h:35-52 *)
Definition SOME_DEPENDENCY : N := 1.
Definition DEPENDENCY_NOT_JUST_FIBER : N := 2.
Definition DEPENDENCY_MAYBE_CARRYING : N := 4.
Definition DEPENDENCY_MAYBE_DIRECT : N := 8.
Definition DEPENDENCY_MAYBE_SIMPLE : N := 16.
Definition no_dependency : N := 0.
Definition max_dependency : N := 31.
Definition at_most (k1 k2 : N) : bool := N.ldiff k1 k2 =? 0.
(** aps-dnc.c:68-71 *)
Definition dependency_join (k1 k2 : N) : N := N.lor k1 k2.
(** aps-dnc.c:73-86 *)
Definition dependency_trans (k1 k2 : N) : N :=
  if (k1 =? no_dependency) || (k2 =? no_dependency) then no_dependency
  else N.lor (N.lor (N.lor (N.lor (N.land k1 DEPENDENCY_NOT_JUST_FIBER) (N.land k2 DEPENDENCY_NOT_JUST_FIBER))
                           (N.land (N.land k1 DEPENDENCY_MAYBE_CARRYING) (N.land k2 DEPENDENCY_MAYBE_CARRYING)))
                    (N.land (N.land k1 DEPENDENCY_MAYBE_SIMPLE) (N.land k2 DEPENDENCY_MAYBE_SIMPLE)))
             SOME_DEPENDENCY.
(** aps-dnc.c:88-91 *)
Definition dependency_indirect (k : N) : N := N.ldiff k DEPENDENCY_MAYBE_DIRECT.
