(** Vocabulary: critical points of losses on the matrix manifolds. *)
From mathcomp Require Import all_ssreflect all_algebra.
From Verif Require Import MatSymModel.
Local Open Scope ring_scope.
Set Implicit Arguments. Unset Strict Implicit. Unset Printing Implicit Defensive.

(** When the Riemannian gradients of all the losses vanish at x, training from x stays
    at x: SGD without momentum and weight decay, Adam without weight decay (whatever
    stands for the square root), each for every other option. *)
Definition stays (F : realFieldType) n p (o : ops F n p) (x : 'M[F]_(n, p)) : Prop :=
  forall gs : seq ('M[F]_(n, p) -> 'M[F]_(n, p)), List.Forall (fun g => o_egrad2rgrad o x (g x) = 0) gs ->
  (forall h, s_momentum h = 0 -> s_decay h = 0 -> (sgd_run o h gs x).1 = x) /\
  (forall fsqrt h, a_decay h = 0 -> t_x (adam_run o fsqrt h gs x) = x).
