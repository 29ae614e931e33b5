(** Vocabulary for the descent properties, independent of the models. *)
From Coq Require Import Reals.
From Verif Require Import RVec.
Local Open Scope R_scope.

(** The loss [f] on n coordinates is differentiable at [x] with gradient [g]. *)
Definition differentiable (n : nat) (f : vec -> R) (x g : vec) : Prop :=
  forall eps, 0 < eps -> exists del, 0 < del /\
    forall h, nrm n h < del -> Rabs (f (vadd x h) - f x - dot n g h) <= eps * nrm n h.
(** Every small enough step along the curve [c] is below the loss at [x]. *)
Definition decreases (f : vec -> R) (x : vec) (c : R -> vec) : Prop :=
  exists t0, 0 < t0 /\ forall t, 0 < t < t0 -> f (c t) < f x.
