(** Properties C33, C34, C79, C80 and the Birkhoff part of C32, over every ordered field. *)
From mathcomp Require Import all_ssreflect all_algebra.
From Verif Require Import BirkhoffModel BirkhoffSpec BirkhoffProofs BirkhoffProofs2.
Import GRing.Theory Num.Theory.
Local Open Scope ring_scope.
Set Implicit Arguments. Unset Strict Implicit. Unset Printing Implicit Defensive.

(** ** C33: Sinkhorn on a batch xs of nonnegative matrices, any number of rounds *)
Theorem C33_shape_and_sign : forall (F : realFieldType) (eps tol : F), 0 < eps -> forall n max_iter (xs : seq 'M[F]_n),
  (forall x, x \in xs -> nonnegative x) ->
  size (projx max_iter eps tol xs) = size xs /\
  forall k, (k < size xs)%N -> nonnegative (nth 0 (projx max_iter eps tol xs) k) /\
    (positive (nth 0 xs k) -> positive (nth 0 (projx max_iter eps tol xs) k)).
Proof. exact (fun F eps tol E n m xs X => conj (result_size tol E m X) (fun k K => conj (result_ge0 tol E m X K) (result_gt0 tol E m X K))). Qed.
Print Assumptions C33_shape_and_sign.

(** Row sums are below 1, and below rho/(rho+eps^2) for the input's row sum rho. *)
Theorem C33_rows : forall (F : realFieldType) (eps tol : F), 0 < eps -> forall n max_iter (xs : seq 'M[F]_n),
  (forall x, x \in xs -> nonnegative x) -> forall k i, (k < size xs)%N ->
  0 <= \sum_j nth 0 (projx max_iter eps tol xs) k i j < 1 /\
  \sum_j nth 0 (projx max_iter eps tol xs) k i j <= (\sum_j nth 0 xs k i j) / ((\sum_j nth 0 xs k i j) + eps ^+ 2).
Proof. exact (fun F eps tol E n m xs X k i K => result_rows tol E m X i K). Qed.
Print Assumptions C33_rows.

(** When the tolerance test ends the loop, columns are within tol and rows within n tol. *)
Theorem C33_stopped : forall (F : realFieldType) (eps tol : F), 0 < eps -> forall n max_iter (xs : seq 'M[F]_n),
  (forall x, x \in xs -> nonnegative x) -> forall k, (k < size xs)%N ->
  (proj_doubly_stochastic max_iter eps tol xs).1 ->
  (forall j, `|\sum_i nth 0 (projx max_iter eps tol xs) k i j - 1| <= tol) /\
  (forall i, 1 - n%:R * tol <= \sum_j nth 0 (projx max_iter eps tol xs) k i j < 1).
Proof. exact (fun F eps tol E n m xs X k K B => result_stopped E X K B). Qed.
Print Assumptions C33_stopped.

Theorem C33_stopped_accepted : forall (F : realFieldType) (eps tol : F), 0 < eps -> forall n max_iter (xs : seq 'M[F]_n),
  (forall x, x \in xs -> nonnegative x) -> forall k atol rtol, (k < size xs)%N ->
  (proj_doubly_stochastic max_iter eps tol xs).1 -> (0 < n)%N -> n%:R * tol <= atol -> 0 <= rtol -> 0 <= tol ->
  check_point atol rtol (nth 0 (projx max_iter eps tol xs) k).
Proof. exact (fun F eps tol E n m xs X k atol rtol => @result_accepted F eps tol E n m xs X k atol rtol). Qed.
Print Assumptions C33_stopped_accepted.

Example C33_stopped_case : forall (F : realFieldType) (eps tol : F), 0 < eps -> eps + eps ^+ 2 <= tol ->
  (proj_doubly_stochastic 1 eps tol [:: one1 F]).1.
Proof. exact (one_stops). Qed.

(** Without the test no number of rounds is enough: rows summing to at most eps^2
    end at most at 1/2, so the result fails every reasonable check. *)
Theorem C33_tiny_refuted : forall (F : realFieldType) (eps tol : F), 0 < eps -> forall n max_iter (xs : seq 'M[F]_n),
  (forall x, x \in xs -> nonnegative x) -> forall k i atol rtol, (k < size xs)%N ->
  \sum_j nth 0 xs k i j <= eps ^+ 2 -> atol + rtol < 2%:R^-1 ->
  \sum_j nth 0 (projx max_iter eps tol xs) k i j <= 2%:R^-1 /\
  ~~ check_point atol rtol (nth 0 (projx max_iter eps tol xs) k).
Proof. exact (fun F eps tol E n m xs X k i atol rtol K L A => conj (result_tiny tol E m X K L) (tiny_rejected tol E m X K L A)). Qed.
Print Assumptions C33_tiny_refuted.

Example C33_tiny_case : forall (F : realFieldType) (eps : F), 0 < eps -> forall n,
  positive (tiny eps n) /\ forall i, \sum_j tiny eps n i j <= eps ^+ 2.
Proof. exact (tiny_case). Qed.

(** ** C34: tangent projection and gradient *)
(** The linear system is solvable and the result is tangent. *)
Theorem C34_tangent : forall (F : realFieldType) m (x u : 'M[F]_m.+1), interior x ->
  exists w, proju x u = Some w /\ tangent w.
Proof. exact (fun F m x u X => proj_some (proj1 X) (proj2 X) u). Qed.
Print Assumptions C34_tangent.

(** Any solution of the normal equations would do. *)
Theorem C34_any_solution : forall (F : realFieldType) m (x mu : 'M[F]_m.+1) z, interior x ->
  lhs x *m z = rhs x mu -> tangent (combine x mu z).
Proof. exact (fun F m x mu z X H => combine_tangent (proj1 X) (proj2 X) H (total mu)). Qed.
Print Assumptions C34_any_solution.

(** The gradient pairs with every tangent vector as 1/n times the differential. *)
Theorem C34_gradient : forall (F : realFieldType) m (x u v w : 'M[F]_m.+1), interior x ->
  egrad2rgrad x u = Some w -> tangent v -> inner x w v = pairing u v / m.+1%:R.
Proof. exact (fun F m x u v w X => gradient (proj1 X) (proj2 X) (u := u) (v := v) (w := w)). Qed.
Print Assumptions C34_gradient.

(** and it is the only tangent vector doing so. *)
Theorem C34_gradient_unique : forall (F : realFieldType) m (x u w w' : 'M[F]_m.+1), interior x ->
  egrad2rgrad x u = Some w -> tangent w' ->
  (forall v, tangent v -> inner x w' v = pairing u v / m.+1%:R) -> w' = w.
Proof. exact (fun F m x u w w' X => gradient_unique (proj1 X) (proj2 X) (u := u) (w := w) (w' := w')). Qed.
Print Assumptions C34_gradient_unique.

(** The exact form: x * (u - alpha 1^T - 1 beta^T), determined by tangency. *)
Theorem C34_form : forall (F : realFieldType) m (x u w : 'M[F]_m.+1), interior x ->
  (proju x u = Some w <-> tangent w /\ exists a b, forall i j, w i j = x i j * (u i j - (a i + b j))).
Proof. exact (fun F m x u w X => proj_char (proj1 X) (proj2 X) u w). Qed.
Print Assumptions C34_form.

(** transp(x, y, v) is that projection at the destination y. *)
Theorem C34_transport : forall (F : realFieldType) m (x y v w : 'M[F]_m.+1), interior y ->
  (transp x y v = Some w <-> tangent w /\ exists a b, forall i j, w i j = y i j * (v i j - (a i + b j))).
Proof. exact (fun F m x y v w Y => proj_char (proj1 Y) (proj2 Y) v w). Qed.
Print Assumptions C34_transport.

Theorem C34_metric : forall (F : realFieldType) m (x u : 'M[F]_m.+1), positive x -> u <> 0 -> 0 < inner x u u.
Proof. exact (fun F m x u X => inner_pos X (u := u)). Qed.
Print Assumptions C34_metric.

Example C34_case : forall (F : realFieldType) m, interior (centre F m).
Proof. exact (centre_interior). Qed.

(** ** C80: proju is not a projection and fails at the origin *)
Theorem C80_not_idempotent_refuted : forall (F : realFieldType) m (w : 'M[F]_m.+1), tangent w ->
  proju (centre F m) w = Some (m.+1%:R^-1 *: w).
Proof. exact (centre_shrinks). Qed.
Print Assumptions C80_not_idempotent_refuted.

Theorem C80_transp_refuted : forall (F : realFieldType) m (w : 'M[F]_m.+1), tangent w ->
  transp (centre F m) (centre F m) w = Some (m.+1%:R^-1 *: w).
Proof. exact (centre_shrinks). Qed.
Print Assumptions C80_transp_refuted.

Example C80_case : forall F : realFieldType, tangent (checker F) /\ checker F <> 0.
Proof. exact (checker_case). Qed.

Theorem C80_origin_refuted : forall (F : realFieldType) m (u : 'M[F]_m.+2),
  doubly_stochastic (origin F m.+2) /\ check_point 0 0 (origin F m.+2) /\
  proju (origin F m.+2) u = None /\ egrad2rgrad (origin F m.+2) u = None.
Proof. exact (fun F m u => conj (origin_ds F m.+2) (conj (proj2 (check_exact _) (proj2 (origin_ds F m.+2))) (conj (origin_singular u) (origin_singular u)))). Qed.
Print Assumptions C80_origin_refuted.

(** ** C79: retraction, sampling, batches *)
Theorem C79_retr_entries : forall (F : realFieldType) (exp : F -> F) (eps tol : F), (forall t, 0 < exp t) -> 0 < eps ->
  forall n max_iter (xs us : seq 'M[F]_n), size us = size xs -> (forall x, x \in xs -> positive x) ->
  forall k i j, (k < size xs)%N -> (10%:R ^+ 12)^-1 <= nth 0 (retr exp max_iter eps tol xs us) k i j.
Proof. exact (fun F exp eps tol P E n m xs us S X k i j => @retr_entries F exp eps tol P E n m xs us S X k i j). Qed.
Print Assumptions C79_retr_entries.

Theorem C79_retr_rows : forall (F : realFieldType) (exp : F -> F) (eps tol : F), (forall t, 0 < exp t) -> 0 < eps ->
  forall n max_iter (xs us : seq 'M[F]_n), size us = size xs -> (forall x, x \in xs -> positive x) ->
  forall k i, (k < size xs)%N ->
  0 <= \sum_j nth 0 (retr exp max_iter eps tol xs us) k i j < 1 + n%:R / 10%:R ^+ 12.
Proof. exact (fun F exp eps tol P E n m xs us S X k i => @retr_rows F exp eps tol P E n m xs us S X k i). Qed.
Print Assumptions C79_retr_rows.

Theorem C79_retr_stopped : forall (F : realFieldType) (exp : F -> F) (eps tol : F), (forall t, 0 < exp t) -> 0 < eps ->
  forall n max_iter (xs us : seq 'M[F]_n), size us = size xs -> (forall x, x \in xs -> positive x) ->
  forall k, (k < size xs)%N ->
  (proj_doubly_stochastic max_iter eps tol [seq mult_step exp p.1 p.2 | p <- zip xs us]).1 ->
  let y := nth 0 (retr exp max_iter eps tol xs us) k in
  (forall j, 1 - tol <= \sum_i y i j <= 1 + tol + n%:R / 10%:R ^+ 12) /\
  (forall i, 1 - n%:R * tol <= \sum_j y i j < 1 + n%:R / 10%:R ^+ 12).
Proof. exact (fun F exp eps tol P E n m xs us S X k K B => @retr_stopped' F exp eps tol P E n m xs us S X k K B). Qed.
Print Assumptions C79_retr_stopped.

Theorem C79_random : forall (F : realFieldType) (eps tol : F), 0 < eps -> forall n max_iter (draws : seq 'M[F]_n) k,
  (k < size draws)%N -> (forall i j, nth 0 draws k i j != 0) -> positive (nth 0 (random max_iter eps tol draws) k).
Proof. exact (fun F eps tol E n m ds k => @random_pos F eps tol E n m ds k). Qed.
Print Assumptions C79_random.

(** The projection of a matrix depends on what else is in its batch. *)
Theorem C79_batch_refuted : forall (F : realFieldType) (eps tol : F), 0 < eps -> tol < 1 -> eps + eps ^+ 2 <= tol ->
  nth 0 (projx 1 eps tol [:: one1 F]) 0 <> nth 0 (projx 1 eps tol [:: one1 F; zero1 F]) 0.
Proof. exact (batch_differs). Qed.
Print Assumptions C79_batch_refuted.

(** ** C32 (Birkhoff): membership checks *)
Theorem C32_birkhoff_point : forall (F : realFieldType) n atol rtol (x : 'M[F]_n), check_point atol rtol x <->
  (forall i, `|\sum_j x i j - 1| <= atol + rtol) /\ (forall j, `|\sum_i x i j - 1| <= atol + rtol).
Proof. exact (check_pointE). Qed.
Print Assumptions C32_birkhoff_point.

Theorem C32_birkhoff_negative_refuted : forall (F : realFieldType) (atol rtol : F), 0 <= atol -> 0 <= rtol ->
  exists x : 'M[F]_2, check_point atol rtol x /\ x ord0 ord_max < 0.
Proof. exact (fun F atol rtol A R => ex_intro _ _ (conj (swapped_accepted A R) (swapped_negative F))). Qed.
Print Assumptions C32_birkhoff_negative_refuted.

Theorem C32_birkhoff_vector : forall (F : realFieldType) n (x u : 'M[F]_n), check_vector 0 0 x u <-> tangent u.
Proof. exact (check_vectorE). Qed.
Print Assumptions C32_birkhoff_vector.

