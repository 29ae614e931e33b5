(** Vocabulary: critical points. *)
From Coq Require Import Reals List.
From Verif Require Import RVec OptimModel.
Import ListNotations.
Local Open Scope R_scope.

(** Every parameter has no gradient, or one whose Riemannian gradient vanishes. *)
Definition critical_gradients {S} (G : nat -> gradient) (ps : list (param S)) : Prop :=
  forall i p, nth_error ps i = Some p -> G i = NoGrad \/ exists g, G i = Dense g /\ egrad2rgrad (manifold_of p) (val p) g = vzero.
(** The zero vector does not move x, and stabilisation leaves x alone. *)
Definition resting (M : manifold) (x : vec) : Prop :=
  retr M x vzero = x /\ retr_transp M x vzero vzero = (x, vzero) /\ projx M x = x /\ proju M x vzero = vzero.
(** SGD without momentum and weight decay, Adam without weight decay; a stabilisation
    period of 0 divides by zero. *)
Definition plain_sgd (h : sgd_hyper) : Prop := momentum h = 0 /\ weight_decay h = 0 /\ stabilize h <> Some O.
Definition plain_adam (h : adam_hyper) : Prop := a_decay h = 0 /\ a_stabilize h <> Some O.
