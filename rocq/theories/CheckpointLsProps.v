(** C144 fails for RiemannianLineSearch. *)
From Coq Require Import Reals List.
From Verif Require Import RVec LineSearchModel LineSearchSpec CheckpointLsModel CheckpointLsInst.
Import ListNotations.
Local Open Scope R_scope.

(** Minimising f(x) = x from 0 with line_search_method="armijo": the first step ends at -1,
    the second at -3.02, but at -2 if the optimizer is saved and loaded in between, because
    the previous loss, from which the first trial step is computed, is not in state_dict().
    Whatever scipy does when the first trial step is not accepted. *)
Theorem C144_line_search_refuted : forall rest, exists r1 o1 r2 o2 r3 o3,
  search rest at_zero = (LOk r1, o1) /\ search rest o1 = (LOk r2, o2) /\ search rest (reload o1) = (LOk r3, o3) /\
  map (fun p => l_val p 0%nat) (ps o1) = [-1] /\ map (fun p => l_val p 0%nat) (ps o2) = [- 302 / 100] /\ map (fun p => l_val p 0%nat) (ps o3) = [-2].
Proof. exact interrupted. Qed.
Print Assumptions C144_line_search_refuted.
