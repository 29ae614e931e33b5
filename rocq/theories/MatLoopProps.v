(** Property C141, continued: over the reals the matrix loops of MatSymModel.v are the
    optimizers of OptimModel.v, on the entries of the matrix in row-major order. *)
From mathcomp Require Import all_ssreflect all_algebra.
From Coq Require Import Reals.
From Verif Require Import RVec RStruct MatSymModel MatLoopModel MatLoopProofs.
From Verif Require OptimModel OptimDecaySpec.
Local Open Scope ring_scope.
Set Implicit Arguments. Unset Strict Implicit. Unset Printing Implicit Defensive.

(** The gradient functions [g t] are evaluated at the matrix the first parameter holds;
    nothing is lost by flattening. *)
Theorem C141_flat : forall n p (m : 'M[R]_(n, p)), unflat n p (flat m) = m.
Proof. exact flatK. Qed.
Print Assumptions C141_flat.
Theorem C141_sgd_loop : forall n p (o : ops R_realFieldType n p) px pu (g : nat -> 'M[R]_(n, p) -> 'M[R]_(n, p)) x T h,
  map OptimModel.val (OptimModel.params (OptimDecaySpec.sgd_training (fun=> sgd_options h)
    (fun t xs _ => OptimModel.Dense (flat (g t (unflat n p (head vzero xs)))))
    [:: {| OptimModel.man := Some (flat_manifold o px pu); OptimModel.val := flat x;
           OptimModel.grad := OptimModel.NoGrad; OptimModel.state := None |}] T)) =
  [:: flat (sgd_run o h [seq g t | t <- iota 0 T] x).1].
Proof. exact sgd_values. Qed.
Print Assumptions C141_sgd_loop.
Theorem C141_adam_loop : forall n p (o : ops R_realFieldType n p) px pu (g : nat -> 'M[R]_(n, p) -> 'M[R]_(n, p)) x T h,
  map OptimModel.val (OptimModel.a_params (OptimDecaySpec.adam_training (fun=> adam_options h)
    (fun t xs _ => OptimModel.Dense (flat (g t (unflat n p (head vzero xs)))))
    [:: {| OptimModel.man := Some (flat_manifold o px pu); OptimModel.val := flat x;
           OptimModel.grad := OptimModel.NoGrad; OptimModel.state := None |}] T)) =
  [:: flat (t_x (adam_run o sqrt h [seq g t | t <- iota 0 T] x))].
Proof. exact adam_values. Qed.
Print Assumptions C141_adam_loop.
