(** Vocabulary: minimising the linear loss x -> <a, x> on the sphere. *)
From Coq Require Import Reals List.
From Verif Require Import RVec OptimModel CheckpointSpec.
Import ListNotations.
Local Open Scope R_scope.

(** Training the single parameter p, whose gradient is a in every step, for n steps does
    not raise and ends with the value y. *)
Definition linear_run (h : sgd_hyper) (s : option nat) (a : vec) (p : sgd_param) (t n : nat) (y : vec) : Prop :=
  exists o', train_sgd (fun _ h => h) (fun _ _ _ => Dense a) t n [{| hyp := h; steps := s; params := [p] |}] = (o', Ok) /\
    map val (concat (map params o')) = [y].
(** The minimiser *)
Definition opposite (d : nat) (a : vec) : vec := vopp (vdiv a (nrm d a)).
(** The factor by which the bound on the distance shrinks in each step *)
Definition contraction (d : nat) (a : vec) (l : R) : R := (1 + l * nrm d a) / (1 + 2 * (l * nrm d a)).
(** The tangent of half the angle between x and the minimiser *)
Definition half_tangent (d : nat) (a x : vec) : R := sqrt ((nrm d a + dot d a x) / (nrm d a - dot d a x)).
