(** Vocabulary for the gradient properties, independent of the models. *)
From Coq Require Import Reals.
From Coquelicot Require Import Coquelicot.
From Verif Require Import RVec.
Local Open Scope R_scope.

(** [g] is the Euclidean gradient of [f] at [x] (n coordinates): the derivative of
    [f] along every direction [v] is <g, v>.  This is what back-propagation leaves
    in [x.grad] after [f(x).backward()], wherever [f] is differentiable. *)
Definition gradient (n : nat) (f : vec -> R) (x g : vec) : Prop :=
  forall v, is_derive (fun t => f (vadd x (smul t v))) 0 (dot n g v).
(** Half the squared distance to a target. *)
Definition half_square (dist : vec -> vec -> R) (y : vec) : vec -> R :=
  fun x => dist x y ^ 2 / 2.
