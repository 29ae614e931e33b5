(** Vocabulary: smooth and convex losses of a flat parameter. *)
From Coq Require Import Reals.
From Verif Require Import RVec OptimModel RayleighSpec.
Local Open Scope R_scope.

(** g is the gradient of f with respect to the first d coordinates. *)
Definition is_gradient (d : nat) (f : vec -> R) (g : vec -> vec) : Prop :=
  forall x u t, derivable_pt_lim (fun t => f (vadd x (smul t u))) t (dot d (g (vadd x (smul t u))) u).
Definition lipschitz (d : nat) (L : R) (g : vec -> vec) : Prop :=
  forall x y, nrm d (vsub (g x) (g y)) <= L * nrm d (vsub x y).
(** f lies above its tangents. *)
Definition convex (d : nat) (f : vec -> R) (g : vec -> vec) : Prop :=
  forall x y, f x + dot d (g x) (vsub y x) <= f y.
(** f lies above its tangents by at least mu/2 times the squared distance. *)
Definition strongly_convex (d : nat) (mu : R) (f : vec -> R) (g : vec -> vec) : Prop :=
  forall x y, f x + dot d (g x) (vsub y x) + mu / 2 * dot d (vsub y x) (vsub y x) <= f y.
(** The values y 0, y 1, ... that training the single parameter p goes through. *)
Definition trajectory (h : sgd_hyper) (s : option nat) (g : vec -> vec) (p : sgd_param) (y : nat -> vec) : Prop :=
  y O = val p /\ forall n t, gradient_run h s g p t n (y n).
(** The loss a x_0^2 / 2 and its gradient. *)
Definition square_loss (a : R) (x : vec) : R := a / 2 * (x O * x O).
Definition square_grad (a : R) (x : vec) : vec := fun i => match i with O => a * x O | _ => 0 end.
