(** Properties C37 and C43 with the library's constants: [e] is the eps inside
    sabs, 1e-15 in the code. The theorems of StereoProps.v with e = 0 describe
    the exact formulas, those here what is computed. *)
From Coq Require Import Reals Lra List.
From Verif Require Import RVec StereoModel StereoSpec StereoProofs4 StereoApprox StereoApprox2.
Local Open Scope R_scope.

(** ** C37: triangle inequality of the computed distance *)
(** Up to a relative error of 3e6 e/|k| (3e-9/|k| in the library). The clamps of
    artanh are part of the statement: no condition on the distances. *)
Theorem C37_triangle_library : forall n e k x y z, 0 <= e <= / 10 ^ 15 -> closed_form k -> k <> 0 ->
  in_domain n k x -> in_domain n k y -> in_domain n k z ->
  regular n k (vopp x) y -> regular n k (vopp y) z -> regular n k (vopp x) z ->
  dist n e k x z <= (1 + 3 * 10 ^ 6 * e / Rabs k) * (dist n e k x y + dist n e k y z).
Proof. exact triangle_library. Qed.
Print Assumptions C37_triangle_library.
(** In the ball, projected points meet every hypothesis. *)
Theorem C37_triangle_ball : forall n e k x y z, 0 <= e <= / 10 ^ 15 -> k < - / 10 ^ 8 ->
  safe n k x -> safe n k y -> safe n k z ->
  dist n e k x z <= (1 + 3 * 10 ^ 6 * e / (- k)) * (dist n e k x y + dist n e k y z).
Proof. exact triangle_ball. Qed.
Print Assumptions C37_triangle_ball.
Example C37_triangle_ball_case : 0 <= / 10 ^ 15 <= / 10 ^ 15 /\ -1 < - / 10 ^ 8 /\
  safe 1 (-1) (pt (1/2)) /\ safe 1 (-1) (pt (-1/2)) /\ safe 1 (-1) (pt 0).
Proof. exact ex_triangle_ball. Qed.

(** ** C43: distributivity of the computed scalar multiplication *)
(** k < 0: the sum of two multiples is the multiple by the sum, stretched by a
    factor within e/|k| above and e/|k| cosh(M)^2 below 1, where M bounds the
    half-distances of the two multiples from the origin; for multiples of equal
    sign the factor is at least 1. *)
Theorem C43_distributive_ball : forall n e k r1 r2 x M, 0 <= e -> k < - / 10 ^ 8 -> norm_ok n x ->
  let A := artan_k e (nrm n x) k in
  0 <= M <= 15 -> Rabs (r1 * A) * rt e k <= M -> Rabs (r2 * A) * rt e k <= M -> Rabs ((r1 + r2) * A) * rt e k <= 15 ->
  regular n k (mobius_scalar_mul n e k r1 x) (mobius_scalar_mul n e k r2 x) ->
  exists c, 1 - e / (- k) * (cosh M) ^ 2 <= c <= 1 + e / (- k) /\ (0 <= r1 * r2 -> 1 <= c) /\
  (0 < e -> 0 < r1 * r2 -> 0 < nrm n x -> 1 < c) /\
  same n (mobius_add n k (mobius_scalar_mul n e k r1 x) (mobius_scalar_mul n e k r2 x))
         (smul c (mobius_scalar_mul n e k (r1 + r2) x)).
Proof. exact distributive_neg. Qed.
Print Assumptions C43_distributive_ball.
Example C43_distributive_ball_case : 0 <= e15 /\ -1 < - / 10 ^ 8 /\ norm_ok 1 (pt (1/2)) /\ 0 <= 1 <= 15 /\
  Rabs (1 * artan_k e15 (nrm 1 (pt (1/2))) (-1)) * rt e15 (-1) <= 1 /\
  Rabs ((1 + 1) * artan_k e15 (nrm 1 (pt (1/2))) (-1)) * rt e15 (-1) <= 15 /\
  regular 1 (-1) (mobius_scalar_mul 1 e15 (-1) 1 (pt (1/2))) (mobius_scalar_mul 1 e15 (-1) 1 (pt (1/2))).
Proof. exact ex_distributive. Qed.
(** k > 0: the same with M < pi/4. *)
Theorem C43_distributive_sphere : forall n e k r1 r2 x M, 0 <= e -> / 10 ^ 8 < k -> norm_ok n x ->
  let A := artan_k e (nrm n x) k in
  0 <= M < PI / 4 -> Rabs (r1 * A) * rt e k <= M -> Rabs (r2 * A) * rt e k <= M ->
  regular n k (mobius_scalar_mul n e k r1 x) (mobius_scalar_mul n e k r2 x) ->
  exists c, 1 - e / k / (1 - (tan M) ^ 2) <= c <= 1 + e / k /\
  same n (mobius_add n k (mobius_scalar_mul n e k r1 x) (mobius_scalar_mul n e k r2 x))
         (smul c (mobius_scalar_mul n e k (r1 + r2) x)).
Proof. exact distributive_pos. Qed.
Print Assumptions C43_distributive_sphere.
Example C43_distributive_sphere_case : 0 <= e15 /\ / 10 ^ 8 < 1 /\ norm_ok 1 (pt (1/4)) /\ 0 <= 1/2 < PI / 4 /\
  Rabs (1 * artan_k e15 (nrm 1 (pt (1/4))) 1) * rt e15 1 <= 1/2 /\
  regular 1 1 (mobius_scalar_mul 1 e15 1 1 (pt (1/4))) (mobius_scalar_mul 1 e15 1 1 (pt (1/4))).
Proof. exact ex_distributive_pos. Qed.
(** Exact distributivity fails for the computed operation: x + x is not 2x. *)
Theorem C43_distributive_refuted : exists k x, k = -1 /\ safe 1 k x /\
  ~ same 1 (mobius_scalar_mul 1 e15 k (1 + 1) x)
       (mobius_add 1 k (mobius_scalar_mul 1 e15 k 1 x) (mobius_scalar_mul 1 e15 k 1 x)).
Proof. exact distributive_refuted_lemma. Qed.
Print Assumptions C43_distributive_refuted.
