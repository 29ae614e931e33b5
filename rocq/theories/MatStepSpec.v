(** Vocabulary: both optimizers decrease a loss of a matrix parameter. *)
From mathcomp Require Import all_ssreflect all_algebra.
From Verif Require Import MatSymModel MatDescentSpec.
Import GRing.Theory Num.Theory.
Local Open Scope ring_scope.
Set Implicit Arguments. Unset Strict Implicit. Unset Printing Implicit Defensive.

(** At x with Euclidean gradient g: every small learning rate t of RiemannianSGD without
    momentum and weight decay, whatever the momentum buffer left in the state, and of the
    first step of RiemannianAdam without weight decay, gives a smaller f. *)
Definition small_steps_decrease (F : realFieldType) n p (o : ops F n p) (f : 'M[F]_(n, p) -> F) x g : Prop :=
  (forall dampening nesterov buf, decreases f x (fun t => (sgd_step o (Sgd t 0 dampening 0 nesterov) (x, buf) g).1)) /\
  (forall fsqrt b1 b2 eps ams, (forall s, 0 <= fsqrt s) -> 0 < eps -> b1 < 1 ->
    decreases f x (fun t => t_x (adam_run o fsqrt (Adam t b1 b2 eps 0 ams) [:: fun=> g] x))).
