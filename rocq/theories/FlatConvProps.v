(** Property theorems C148: gradient descent on flat parameters descends, reaches
    stationary points, and minimises convex losses. *)
From Coq Require Import Reals List.
From Verif Require Import RVec OptimModel FixedSpec RayleighSpec FlatConvSpec FlatConvInst.
Local Open Scope R_scope.

Theorem C148_descent : forall d f g L h, is_gradient d f g -> lipschitz d L g -> plain_sgd h -> 0 < lr h -> lr h * L <= 1 ->
  forall s p, manifold_of p = euclidean -> exists y, trajectory h s g p y /\
  (forall n, f (y (S n)) <= f (y n) - lr h / 2 * dot d (g (y n)) (g (y n))) /\
  forall n, f (y n) + lr h / 2 * Rsum n (fun k => dot d (g (y k)) (g (y k))) <= f (val p).
Proof. exact flat_descent. Qed.
Print Assumptions C148_descent.
Theorem C148_stationary : forall d f g L h, is_gradient d f g -> lipschitz d L g -> plain_sgd h -> 0 < lr h -> lr h * L <= 1 ->
  forall s p B, manifold_of p = euclidean -> (forall x, B <= f x) -> exists y, trajectory h s g p y /\
  (forall n, (0 < n)%nat -> exists k, (k < n)%nat /\ dot d (g (y k)) (g (y k)) <= 2 * (f (val p) - B) / (lr h * INR n)) /\
  forall e, 0 < e -> exists N, forall n, (N <= n)%nat -> nrm d (g (y n)) < e.
Proof. exact flat_stationary. Qed.
Print Assumptions C148_stationary.
Theorem C148_convex_rate : forall d f g L h, is_gradient d f g -> lipschitz d L g -> plain_sgd h -> 0 < lr h -> lr h * L <= 1 ->
  forall s p z, manifold_of p = euclidean -> convex d f g -> exists y, trajectory h s g p y /\
  forall n, (0 < n)%nat -> f (y n) - f z <= dot d (vsub (val p) z) (vsub (val p) z) / (2 * lr h * INR n).
Proof. exact flat_convex_rate. Qed.
Print Assumptions C148_convex_rate.
Theorem C148_nearer_to_minimisers : forall d f g L h, is_gradient d f g -> lipschitz d L g -> plain_sgd h -> 0 < lr h -> lr h * L <= 1 ->
  forall s p z, manifold_of p = euclidean -> convex d f g -> (forall x, f z <= f x) -> exists y, trajectory h s g p y /\
  forall n, nrm d (vsub (y (S n)) z) <= nrm d (vsub (y n) z).
Proof. exact flat_fejer. Qed.
Print Assumptions C148_nearer_to_minimisers.
Theorem C148_strongly_convex_rate : forall d f g L h, is_gradient d f g -> lipschitz d L g -> plain_sgd h -> 0 < lr h -> lr h * L <= 1 ->
  forall s p mu z, manifold_of p = euclidean -> strongly_convex d mu f g -> (forall x, f z <= f x) -> exists y, trajectory h s g p y /\
  forall n, nrm d (vsub (y n) z) ^ 2 <= (1 - lr h * mu) ^ n * nrm d (vsub (val p) z) ^ 2.
Proof. exact flat_strong_rate. Qed.
Print Assumptions C148_strongly_convex_rate.
(** Up to 2 / L the loss still decreases and the gradients still vanish. *)
Theorem C148_stationary_up_to_two : forall d f g L h, is_gradient d f g -> lipschitz d L g -> plain_sgd h -> 0 < lr h -> lr h * L < 2 ->
  forall s p B, manifold_of p = euclidean -> (forall x, B <= f x) -> exists y, trajectory h s g p y /\
  (forall n, f (y (S n)) <= f (y n) - lr h * (1 - lr h * L / 2) * dot d (g (y n)) (g (y n))) /\
  (forall n, (0 < n)%nat -> exists k, (k < n)%nat /\ dot d (g (y k)) (g (y k)) <= (f (val p) - B) / (lr h * (1 - lr h * L / 2) * INR n)) /\
  forall e, 0 < e -> exists N, forall n, (N <= n)%nat -> nrm d (g (y n)) < e.
Proof. exact wide_stationary. Qed.
Print Assumptions C148_stationary_up_to_two.
Example C148_case : is_gradient 1 (square_loss 3) (square_grad 3) /\ lipschitz 1 3 (square_grad 3) /\ convex 1 (square_loss 3) (square_grad 3) /\
  plain_sgd h_flat /\ 0 < lr h_flat /\ lr h_flat * 3 <= 1 /\ (forall x, 0 <= square_loss 3 x).
Proof. exact flat_case. Qed.
(** The bound on the step size matters: from lr = 2 / L on, the loss a x^2 / 2, whose
    gradient is a-Lipschitz, never gets below its initial value, and above it strictly
    increases. *)
Theorem C148_large_step_refuted : forall h s p a, plain_sgd h -> manifold_of p = euclidean -> 0 < a -> 2 <= lr h * a ->
  exists y, trajectory h s (square_grad a) p y /\
  forall n, square_loss a (val p) <= square_loss a (y n) /\ (2 < lr h * a -> val p O <> 0 -> square_loss a (y n) < square_loss a (y (S n))).
Proof. exact square_diverges. Qed.
Print Assumptions C148_large_step_refuted.
Theorem C148_square_loss : forall a, 0 <= a -> is_gradient 1 (square_loss a) (square_grad a) /\ lipschitz 1 a (square_grad a) /\
  convex 1 (square_loss a) (square_grad a) /\ strongly_convex 1 a (square_loss a) (square_grad a).
Proof. exact (fun a A => conj (square_gradient a) (conj (square_lipschitz a A) (conj (square_convex a A) (square_strong a)))). Qed.
Print Assumptions C148_square_loss.
