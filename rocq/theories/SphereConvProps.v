(** Property theorems C146: training on the sphere with a linear loss converges to the
    minimiser. *)
From Coq Require Import Reals List.
From Verif Require Import RVec OptimModel OptimInstances CheckpointSpec FixedSpec SphereConvSpec SphereConvProofs SphereConvInst.
From Verif Require SphereSpec.
Import ListNotations.
Local Open Scope R_scope.

(** The distance to the minimiser after n steps is at most
    2 tan(angle / 2) ((1 + lr |a|) / (1 + 2 lr |a|))^n, from every starting point but the
    maximiser. *)
Theorem C146_rate : forall d a h, plain_sgd h -> 0 < nrm d a -> 0 < lr h -> lr h * nrm d a <= 1 ->
  forall s p, man p = Some (sphere d) -> SphereSpec.on_sphere d None (val p) -> dot d a (val p) < nrm d a -> forall n t,
  exists y, linear_run h s a p t n y /\ SphereSpec.on_sphere d None y /\
    nrm d (vsub y (opposite d a)) <= 2 * contraction d a (lr h) ^ n * half_tangent d a (val p).
Proof. exact sphere_rate. Qed.
Print Assumptions C146_rate.
Theorem C146_limit : forall d a h, plain_sgd h -> 0 < nrm d a -> 0 < lr h -> lr h * nrm d a <= 1 ->
  forall s p, man p = Some (sphere d) -> SphereSpec.on_sphere d None (val p) -> dot d a (val p) < nrm d a -> forall e, 0 < e ->
  exists N, forall n t, (N <= n)%nat -> exists y, linear_run h s a p t n y /\ SphereSpec.on_sphere d None y /\ nrm d (vsub y (opposite d a)) < e.
Proof. exact sphere_limit. Qed.
Print Assumptions C146_limit.
Theorem C146_contraction : forall d a h, 0 < nrm d a -> 0 < lr h -> 0 < contraction d a (lr h) < 1.
Proof. exact contraction_range. Qed.
Print Assumptions C146_contraction.
Theorem C146_minimiser : forall d a, 0 < nrm d a -> forall y, SphereSpec.on_sphere d None y ->
  SphereSpec.on_sphere d None (opposite d a) /\ dot d a (opposite d a) <= dot d a y.
Proof. exact opposite_best. Qed.
Print Assumptions C146_minimiser.
(** A bound on the learning rate is needed: with lr |a| = 40/7 the run from (4/5, 3/5)
    alternates between two points for ever. *)
Theorem C146_large_rate_refuted : plain_sgd h_far /\ nrm 2 west = 1 /\ SphereSpec.on_sphere 2 None (val at_side) /\ dot 2 west (val at_side) < nrm 2 west /\
  forall n t, linear_run h_far None west at_side t n (side ((-1) ^ n)).
Proof. exact oscillates. Qed.
Print Assumptions C146_large_rate_refuted.
(** Case: half the unit learning rate, stabilisation every third step. *)
Example C146_case : plain_sgd h_near /\ 0 < nrm 2 west /\ 0 < lr h_near /\ lr h_near * nrm 2 west <= 1 /\
  SphereSpec.on_sphere 2 None (val at_side) /\ dot 2 west (val at_side) < nrm 2 west.
Proof. exact near_case. Qed.
