(** Properties C25-C28, C76, C77 and the Stiefel part of C32.  All hold over every
    ordered field [F], all sizes n, p. *)
From mathcomp Require Import all_ssreflect all_algebra.
From Verif Require Import StiefelModel StiefelSpec StiefelProofs.
Import GRing.Theory Num.Theory.
Local Open Scope ring_scope.
Set Implicit Arguments. Unset Strict Implicit. Unset Printing Implicit Defensive.

(** ** C25: Cayley retraction *)
Theorem C25_solvable : forall (F : realFieldType) n p q (x u : 'M[F]_(n, p)) (v y : 'M[F]_(n, q)),
  (y - 2%:R^-1 *: (u *m x^T - x *m u^T) *m y = v + 2%:R^-1 *: (u *m x^T - x *m u^T) *m v)
  <-> y = transp_follow_one x v u.
Proof. exact (cayley_equation). Qed.
Print Assumptions C25_solvable.

Theorem C25_on_manifold : forall (F : realFieldType) n p (x u : 'M[F]_(n, p)),
  on_stiefel x -> on_stiefel (canonical_retr x u).
Proof. exact (retr_on). Qed.
Print Assumptions C25_on_manifold.

Theorem C25_retr_transp : forall (F : realFieldType) n p (x u v : 'M[F]_(n, p)),
  retr_transp x u v = (canonical_retr x u, transp_follow_retr x u v).
Proof. exact (retr_transpE). Qed.
Print Assumptions C25_retr_transp.

Theorem C25_zero : forall (F : realFieldType) n p (x : 'M[F]_(n, p)), canonical_retr x 0 = x.
Proof. exact (retr_0). Qed.
Print Assumptions C25_zero.

(** x = 1 and u = t J (J a quarter turn): a rotation. *)
Example C25_case : forall (F : realFieldType) (t : F), on_stiefel (1%:M : 'M[F]_2) /\
  canonical_retr 1%:M (t *: J F) =
    ((1 - t ^+ 2) / (1 + t ^+ 2)) *: 1%:M + (2%:R * t / (1 + t ^+ 2)) *: J F.
Proof. exact (fun F t => conj (one_on F 2) (retr_turn t)). Qed.

(** ** C26: Cayley transport *)
Theorem C26_tangent : forall (F : realFieldType) n p (x u v : 'M[F]_(n, p)),
  tangent x v -> tangent (canonical_retr x u) (transp_follow_retr x u v).
Proof. exact (transp_tangent). Qed.
Print Assumptions C26_tangent.

Theorem C26_isometry : forall (F : realFieldType) n p (x u v w : 'M[F]_(n, p)),
  canonical_inner (canonical_retr x u) (transp_follow_retr x u v) (transp_follow_retr x u w)
  = canonical_inner x v w.
Proof. exact (transp_inner'). Qed.
Print Assumptions C26_isometry.

Theorem C26_linear : forall (F : realFieldType) n p (x u : 'M[F]_(n, p)) k v w,
  transp_follow_retr x u (k *: v + w) = k *: transp_follow_retr x u v + transp_follow_retr x u w.
Proof. exact (transp_linear). Qed.
Print Assumptions C26_linear.

Theorem C26_reversible_point : forall (F : realFieldType) n p (x u : 'M[F]_(n, p)),
  canonical_retr (canonical_retr x u) (- transp_follow_retr x u u) = x.
Proof. exact (retr_back). Qed.
Print Assumptions C26_reversible_point.

Theorem C26_reversible_vector : forall (F : realFieldType) n p (x u v : 'M[F]_(n, p)),
  transp_follow_retr (canonical_retr x u) (- transp_follow_retr x u u) (transp_follow_retr x u v) = v.
Proof. exact (transp_back). Qed.
Print Assumptions C26_reversible_vector.

Example C26_case : forall (F : realFieldType) t, tangent (1%:M : 'M[F]_2) (t *: J F) /\ J F <> 0.
Proof. exact (fun F t => conj (J_tangent t) (@J_neq0 F)). Qed.

(** ** C27: canonical gradient; proju *)
Theorem C27_tangent : forall (F : realFieldType) n p (x g : 'M[F]_(n, p)),
  on_stiefel x -> tangent x (canonical_proju x g).
Proof. exact (canonical_proju_tangent). Qed.
Print Assumptions C27_tangent.

Theorem C27_gradient : forall (F : realFieldType) n p (x g v : 'M[F]_(n, p)),
  on_stiefel x -> tangent x v -> canonical_inner x (canonical_proju x g) v = pairing g v.
Proof. exact (canonical_gradient'). Qed.
Print Assumptions C27_gradient.

(** The documented metric is the computed one. *)
Theorem C27_inner_is_canonical : forall (F : realFieldType) n p (x u v : 'M[F]_(n, p)),
  canonical_inner x u v = canonical x u v.
Proof. exact (canonicalE). Qed.
Print Assumptions C27_inner_is_canonical.

Theorem C27_projection_refuted : forall (F : realFieldType), exists x u : 'M[F]_2,
  on_stiefel x /\ tangent x u /\ canonical_proju x u <> u /\
  canonical_proju x (canonical_proju x u) <> canonical_proju x u.
Proof. exact (proju_not_fix). Qed.
Print Assumptions C27_projection_refuted.

(** Exactly the tangent vectors orthogonal to the columns of x are fixed. *)
Theorem C27_fixed_vectors : forall (F : realFieldType) n p (x u : 'M[F]_(n, p)),
  on_stiefel x -> tangent x u -> (canonical_proju x u = u <-> x^T *m u = 0).
Proof. exact (canonical_proju_fix). Qed.
Print Assumptions C27_fixed_vectors.

(** ** C28: EuclideanStiefel *)
Theorem C28_proju_tangent : forall (F : realFieldType) n p (x u : 'M[F]_(n, p)),
  on_stiefel x -> tangent x (euclidean_proju x u).
Proof. exact (proju_tangent). Qed.
Print Assumptions C28_proju_tangent.

Theorem C28_proju_fixes : forall (F : realFieldType) n p (x u : 'M[F]_(n, p)),
  tangent x u -> euclidean_proju x u = u.
Proof. exact (proju_fix). Qed.
Print Assumptions C28_proju_fixes.

Theorem C28_proju_orthogonal : forall (F : realFieldType) n p (x u v : 'M[F]_(n, p)),
  tangent x v -> pairing (u - euclidean_proju x u) v = 0.
Proof. exact (proju_ortho). Qed.
Print Assumptions C28_proju_orthogonal.

(** Transport lands in the tangent space of the destination, the nearest vector there. *)
Theorem C28_transport : forall (F : realFieldType) n p (x y v w : 'M[F]_(n, p)), on_stiefel y ->
  tangent y (euclidean_transp x y v) /\ (tangent y w -> pairing (v - euclidean_transp x y v) w = 0).
Proof. exact (fun F n p x y v w Y => conj (proju_tangent v Y) (fun T => proju_ortho v T)). Qed.
Print Assumptions C28_transport.

Theorem C28_gradient : forall (F : realFieldType) n p (x g v : 'M[F]_(n, p)),
  tangent x v -> euclidean_inner x (euclidean_proju x g) v = pairing g v.
Proof. exact (euclidean_gradient). Qed.
Print Assumptions C28_gradient.

(** For every QR factorisation (q, r) of x + u. *)
Theorem C28_retr_on_manifold : forall (F : realFieldType) n p (m q : 'M[F]_(n, p)) r,
  qr_of m q r -> on_stiefel (euclidean_retr q r).
Proof. exact (euclidean_retr_on). Qed.
Print Assumptions C28_retr_on_manifold.

(** The sign fix makes the result independent of the factorisation. *)
Theorem C28_retr_well_defined : forall (F : realFieldType) n p (x u q1 : 'M[F]_(n, p)) r1 (q2 : 'M[F]_(n, p)) r2,
  on_stiefel x -> tangent x u -> qr_of (x + u) q1 r1 -> qr_of (x + u) q2 r2 ->
  euclidean_retr q1 r1 = euclidean_retr q2 r2.
Proof. exact (retr_unique). Qed.
Print Assumptions C28_retr_well_defined.

Theorem C28_retr_zero : forall (F : realFieldType) n p (x q : 'M[F]_(n, p)) r,
  on_stiefel x -> qr_of (x + 0) q r -> euclidean_retr q r = x.
Proof. exact (retr_at_0). Qed.
Print Assumptions C28_retr_zero.

Example C28_qr_case : forall (F : realFieldType), qr_of (1%:M + 0 : 'M[F]_2) (- 1%:M) (- 1%:M) /\
  euclidean_retr (- 1%:M : 'M[F]_2) (- 1%:M) = 1%:M.
Proof. exact (qr_flip). Qed.

Theorem C28_projx_on_manifold : forall (F : realFieldType) n p (x U : 'M[F]_(n, p)) s V,
  svd_of x U s V -> on_stiefel (projx U V).
Proof. exact (projx_on). Qed.
Print Assumptions C28_projx_on_manifold.

Theorem C28_projx_fixes : forall (F : realFieldType) n p (x U : 'M[F]_(n, p)) s V,
  svd_of x U s V -> on_stiefel x -> projx U V = x.
Proof. exact (projx_fix). Qed.
Print Assumptions C28_projx_fixes.

(** projx gives a nearest point. *)
Theorem C28_projx_nearest : forall (F : realFieldType) n p (x U : 'M[F]_(n, p)) s V y,
  svd_of x U s V -> on_stiefel y ->
  pairing (x - projx U V) (x - projx U V) <= pairing (x - y) (x - y).
Proof. exact (projx_nearest). Qed.
Print Assumptions C28_projx_nearest.

Example C28_svd_case : forall (F : realFieldType) n p (x : 'M[F]_(n, p)), on_stiefel x ->
  svd_of (3%:R *: x) x (const_mx 3%:R) 1%:M.
Proof. exact (svd_scaled). Qed.

(** EuclideanStiefelExact: for every matrix function with the stated laws of the
    exponential. *)
Theorem C28_expmap_on_manifold : forall (F : realFieldType) n p expm (x u : 'M[F]_(n, p)),
  exponential expm -> on_stiefel x -> tangent x u -> on_stiefel (euclidean_expmap expm x u).
Proof. exact (expmap_on). Qed.
Print Assumptions C28_expmap_on_manifold.

Example C28_exponential_case : forall (F : realFieldType), exponential (fun m (_ : 'M[F]_m) => 1%:M).
Proof. exact (const_exponential). Qed.

(** ** C32 (Stiefel): membership checks *)
Theorem C32_stiefel_point : forall (F : realFieldType) n p rtol (x : 'M[F]_(n, p)),
  check_point 0 rtol x <-> on_stiefel x.
Proof. exact (check_point_exact). Qed.
Print Assumptions C32_stiefel_point.

Theorem C32_stiefel_point_tolerance : forall (F : realFieldType) n p atol rtol (x : 'M[F]_(n, p)),
  check_point atol rtol x <-> forall i j, `|(x^T *m x) i j - (i == j)%:R| <= atol.
Proof. exact (check_point_tol). Qed.
Print Assumptions C32_stiefel_point_tolerance.

Theorem C32_stiefel_vector : forall (F : realFieldType) n p rtol (x u : 'M[F]_(n, p)),
  check_vector 0 rtol x u <-> tangent x u.
Proof. exact (check_vector_exact). Qed.
Print Assumptions C32_stiefel_vector.

Theorem C32_stiefel_origin : forall (F : realFieldType) n p, check_shape n p -> on_stiefel (origin F n p).
Proof. exact (origin_on). Qed.
Print Assumptions C32_stiefel_origin.

(** ** C76: the Cayley map is not a retraction for the given direction *)
(** To first order it moves by u - x u^T x, exactly: *)
Theorem C76_expansion : forall (F : realFieldType) n p (x u : 'M[F]_(n, p)), on_stiefel x ->
  canonical_retr x u = x + (u - x *m u^T *m x) +
    4%:R^-1 *: (amat x u *m amat x u *m (x + canonical_retr x u)).
Proof. exact (retr_expansion). Qed.
Print Assumptions C76_expansion.

(** so for the tangent direction J at 1 it is off by at least t/2 at every small t. *)
Theorem C76_first_order_refuted : forall (F : realFieldType) (t : F), 0 < t -> t <= 2%:R^-1 ->
  tangent (1%:M : 'M[F]_2) (t *: J F) /\
  t / 2%:R <= (canonical_retr 1%:M (t *: J F) - (1%:M + t *: J F)) (lift ord0 ord0) ord0.
Proof. exact (fun F t H H' => conj (J_tangent t) (retr_not_first_order H H')). Qed.
Print Assumptions C76_first_order_refuted.

(** ** C77: the canonical inner product is a metric *)
Theorem C77_symmetric : forall (F : realFieldType) n p (x u v : 'M[F]_(n, p)),
  canonical_inner x u v = canonical_inner x v u.
Proof. exact (canonical_inner_sym). Qed.
Print Assumptions C77_symmetric.

Theorem C77_linear : forall (F : realFieldType) n p (x : 'M[F]_(n, p)) k u v w,
  canonical_inner x (k *: u + v) w = k * canonical_inner x u w + canonical_inner x v w.
Proof. exact (canonical_inner_lin). Qed.
Print Assumptions C77_linear.

Theorem C77_bound : forall (F : realFieldType) n p (x u : 'M[F]_(n, p)),
  on_stiefel x -> 2%:R^-1 * pairing u u <= canonical_inner x u u.
Proof. exact (canonical_inner_pos). Qed.
Print Assumptions C77_bound.

Theorem C77_definite : forall (F : realFieldType) n p (x u : 'M[F]_(n, p)),
  on_stiefel x -> canonical_inner x u u = 0 -> u = 0.
Proof. exact (canonical_inner_def). Qed.
Print Assumptions C77_definite.

