(** Properties C109-C112: Moebius matrix and pointwise products, functions applied in the
    tangent space of the origin, weighted midpoints.  Conventions as in StereoProps.v;
    e = 1e-15 and d = 1e-10 in the library. *)
From Coq Require Import Reals Lra List Permutation ZArith.
From Verif Require Import RVec StereoModel StereoSpec StereoProofs4 NdModel NdSpec StereoExtraModel StereoExtraSpec
  StereoExtraProofs StereoExtraNd StereoMidpoint StereoMidpoint2 StereoMidpoint3 StereoMidpoint4 StereoExtraInst.
Import ListNotations.
Local Open Scope R_scope.

(** ** C109: mobius_matvec *)
(** m (x) x is exp0 of m applied to log0 of x. *)
Theorem C109_exp_log : forall n p e k, 0 <= e -> closed_form k -> forall m x, norm_ok n x -> norm_ok p (apply_mat n m x) ->
  norm_ok p (apply_mat n m (logmap0 n e k x)) ->
  same p (mobius_matvec n e p k m x) (expmap0 p e k (apply_mat n m (logmap0 n e k x))).
Proof. exact (matvec_exp_log). Qed.
Print Assumptions C109_exp_log.

(** Distances to the origin are multiplied by |m x| / |x|. *)
Theorem C109_distance : forall n p e k, 0 <= e -> closed_form k -> forall m x, norm_ok n x -> norm_ok p (apply_mat n m x) ->
  angle_ok e k (nrm p (apply_mat n m x) / nrm n x * artan_k e (nrm n x) k) ->
  dist0 p e k (mobius_matvec n e p k m x) * nrm n x = nrm p (apply_mat n m x) * dist0 n e k x.
Proof. exact (matvec_dist0). Qed.
Print Assumptions C109_distance.

(** A matrix that keeps the length of x acts linearly on it. *)
Theorem C109_isometric : forall n p e k, 0 <= e -> closed_form k -> forall m x, norm_ok n x -> length_ok e k (nrm n x) ->
  nrm p (apply_mat n m x) = nrm n x -> same p (mobius_matvec n e p k m x) (apply_mat n m x).
Proof. exact (matvec_isometric). Qed.
Print Assumptions C109_isometric.

Theorem C109_compose : forall n q p e k A B x, 0 <= e -> closed_form k -> norm_ok n x -> norm_ok q (apply_mat n B x) ->
  norm_ok p (apply_mat n (mat_mul q A B) x) -> norm_ok q (mobius_matvec n e q k B x) ->
  norm_ok p (apply_mat q A (mobius_matvec n e q k B x)) ->
  angle_ok e k (nrm q (apply_mat n B x) / nrm n x * artan_k e (nrm n x) k) ->
  same p (mobius_matvec q e p k A (mobius_matvec n e q k B x)) (mobius_matvec n e p k (mat_mul q A B) x).
Proof. exact (matvec_compose). Qed.
Print Assumptions C109_compose.

(** A multiple of the identity is Moebius scalar multiplication. *)
Theorem C109_scalar : forall n e k r x, 0 <= e -> closed_form k -> norm_ok n x -> norm_ok n (smul r x) ->
  angle_ok e k (Rabs r * artan_k e (nrm n x) k) ->
  same n (mobius_matvec n e n k (mat_scalar r) x) (mobius_scalar_mul n e k r x).
Proof. exact (matvec_scalar_mul). Qed.
Print Assumptions C109_scalar.

Theorem C109_zero : forall n p e k m x, nrm p (apply_mat n m x) = 0 \/ nrm n x = 0 -> mobius_matvec n e p k m x = vzero.
Proof. exact (fun n p e k m x H => match H with or_introl Z => matvec_null n p e k m x Z | or_intror Z => matvec_of_null n p e k m x Z end). Qed.
Print Assumptions C109_zero.

Theorem C109_in_ball : forall n p e k, 0 <= e -> forall m x, k < - / 10 ^ 8 -> in_domain p k (mobius_matvec n e p k m x).
Proof. exact (matvec_in_ball). Qed.
Print Assumptions C109_in_ball.

Example C109_case : 0 <= e15 /\ closed_form (-1) /\ norm_ok 1 (pt (1 / 2)) /\ norm_ok 1 (apply_mat 1 two1 (pt (1 / 2))) /\
  norm_ok 1 (apply_mat 1 two1 (logmap0 1 e15 (-1) (pt (1 / 2)))) /\
  angle_ok e15 (-1) (nrm 1 (apply_mat 1 two1 (pt (1 / 2))) / nrm 1 (pt (1 / 2)) * artan_k e15 (nrm 1 (pt (1 / 2))) (-1)).
Proof. exact (matvec_case). Qed.

Example C109_compose_case :
  norm_ok 1 (apply_mat 1 (mat_mul 1 two1 two1) (pt (1 / 2))) /\ norm_ok 1 (mobius_matvec 1 e15 1 (-1) two1 (pt (1 / 2))) /\
  norm_ok 1 (apply_mat 1 two1 (mobius_matvec 1 e15 1 (-1) two1 (pt (1 / 2)))).
Proof. exact (compose_case). Qed.

Example C109_scalar_case : norm_ok 1 (smul 2 (pt (1 / 2))) /\ angle_ok e15 (-1) (Rabs 2 * artan_k e15 (nrm 1 (pt (1 / 2))) (-1)).
Proof. exact (scalar_case). Qed.

Example C109_isometric_case : length_ok e15 (-1) (nrm 1 (pt (1 / 2))) /\ nrm 1 (apply_mat 1 refl1 (pt (1 / 2))) = nrm 1 (pt (1 / 2)).
Proof. exact (isometric_case). Qed.

(** Tensors of any shape with dim=-1: every row on its own.  (Shapes are listed from the last axis.) *)
Theorem C109_rows : forall e k m x p n B, rsh m = [n; p] -> rsh x = n :: B ->
  exists z, mobius_matvec_nd e k m x (-1) = Some z /\ rsh z = p :: B /\
    forall ix, (ix 0 < p)%nat -> read z ix = mobius_matvec n e p k (mat_of m) (fiber x 0 ix) (ix 0%nat).
Proof. exact (matvec_nd_rows). Qed.
Print Assumptions C109_rows.

(** dim is documented as the reduction dimension, but for another dim the product's new axis is not
    put back: the call raises on most shapes ... *)
Theorem C109_dim_raises_refuted : forall e k m x p n b, rsh m = [n; p] -> rsh x = [b; n] -> p <> b -> p <> 1%nat -> b <> 1%nat ->
  mobius_matvec_nd e k m x (-2) = None.
Proof. exact (matvec_nd_raises). Qed.
Print Assumptions C109_dim_raises_refuted.

(** ... and where it does not, the identity matrix (k = 0) returns something else than x. *)
Theorem C109_dim_value_refuted : forall e, exists z, mobius_matvec_nd e 0 eye2 rows2 (-2) = Some z /\
  read z entry01 = 2 /\ read rows2 entry01 = 1 /\ forall i x, (i < 2)%nat -> apply_mat 2 (mat_of eye2) x i = x i.
Proof. exact (eye2_wrong). Qed.
Print Assumptions C109_dim_value_refuted.

(** ** C110: mobius_fn_apply and mobius_fn_apply_chain *)
Theorem C110_identity : forall n e k, 0 <= e -> closed_form k -> forall x, norm_ok n x -> length_ok e k (nrm n x) ->
  norm_ok n (logmap0 n e k x) -> same n (mobius_fn_apply n e k (fun u => u) x) x.
Proof. exact (fn_apply_id). Qed.
Print Assumptions C110_identity.

Theorem C110_matrix : forall n e k, 0 <= e -> closed_form k -> forall m x, norm_ok n x -> norm_ok n (apply_mat n m x) ->
  norm_ok n (apply_mat n m (logmap0 n e k x)) -> same n (mobius_fn_apply n e k (apply_mat n m) x) (mobius_matvec n e n k m x).
Proof. exact (fn_apply_matvec). Qed.
Print Assumptions C110_matrix.

(** A chain is the functions applied one after the other ([stages]: the vectors on the way). *)
Theorem C110_chain : forall n e k, 0 <= e -> closed_form k -> forall fs, fs <> [] -> forall x, (forall f, In f fs -> on_rows n f) ->
  (forall u, In u (stages (logmap0 n e k x) fs) -> norm_ok n u /\ angle_ok e k (nrm n u) /\ norm_ok n (expmap0 n e k u)) ->
  same n (fold_left (fun x f => mobius_fn_apply n e k f x) fs x) (mobius_fn_apply_chain n e k x fs).
Proof. exact (fold_apply_last). Qed.
Print Assumptions C110_chain.

Theorem C110_short_chains : forall n e k x f,
  mobius_fn_apply_chain n e k x [] = x /\ mobius_fn_apply_chain n e k x [f] = mobius_fn_apply n e k f x /\
  mobiusify n e k f x = mobius_fn_apply n e k f x.
Proof. exact (fun n e k x f => conj eq_refl (conj (chain_one n e k x f) eq_refl)). Qed.
Print Assumptions C110_short_chains.

Theorem C110_in_ball : forall n e k, 0 <= e -> k < - / 10 ^ 8 -> forall x fs f,
  in_domain n k (mobius_fn_apply n e k f x) /\ (in_domain n k x -> in_domain n k (mobius_fn_apply_chain n e k x fs)).
Proof. exact (fun n e k E K x fs f => conj (fn_apply_in_ball n e k E f x K) (fn_apply_chain_in_ball n e k E x fs K)). Qed.
Print Assumptions C110_in_ball.

Example C110_case : chain1 <> [] /\ (forall f, In f chain1 -> on_rows 1 f) /\
  (forall u, In u (stages (logmap0 1 e15 (-1) (pt (1 / 2))) chain1) ->
    norm_ok 1 u /\ angle_ok e15 (-1) (nrm 1 u) /\ norm_ok 1 (expmap0 1 e15 (-1) u)).
Proof. exact (chain_case). Qed.

(** ** C111: mobius_pointwise_mul *)
(** It is mobius_matvec with the diagonal matrix, when some product w_i x_i exceeds 1e-8 ... *)
Theorem C111_diagonal : forall n e k w x, (exists i, (i < n)%nat /\ / 10 ^ 8 < Rabs (w i * x i)) ->
  same n (mobius_pointwise_mul n e k w x) (mobius_matvec n e n k (mat_diag w) x).
Proof. exact (pointwise_as_matvec). Qed.
Print Assumptions C111_diagonal.

Example C111_case : exists i, (i < 1)%nat /\ / 10 ^ 8 < Rabs (pt 2 i * pt (1 / 2) i).
Proof. exact (pointwise_case). Qed.

Theorem C111_in_ball : forall n e k w x, 0 <= e -> k < - / 10 ^ 8 -> in_domain n k (mobius_pointwise_mul n e k w x).
Proof. exact (pointwise_in_ball). Qed.
Print Assumptions C111_in_ball.

(** ... but otherwise it is 0 ... *)
Theorem C111_tiny_is_zero : forall n e k w x, (forall i, (i < n)%nat -> Rabs (w i * x i) <= / 10 ^ 8) -> mobius_pointwise_mul n e k w x = vzero.
Proof. exact (pointwise_tiny). Qed.
Print Assumptions C111_tiny_is_zero.

(** ... so even in the Euclidean case weights 1 do not keep the point 1e-8. *)
Theorem C111_small_refuted : let w := pt 1 in let x := pt (/ 10 ^ 8) in
  mobius_pointwise_mul 1 e15 0 w x 0%nat = 0 /\ mobius_matvec 1 e15 1 0 (mat_diag w) x 0%nat = / 10 ^ 8.
Proof. exact (pointwise_differs). Qed.
Print Assumptions C111_small_refuted.

(** ** C112: weighted_midpoint, over a list of (weight, point) *)
Theorem C112_order : forall n e d k lincomb posweight l l', Permutation l l' ->
  weighted_midpoint n e d k lincomb posweight l = weighted_midpoint n e d k lincomb posweight l'.
Proof. exact (midpoint_perm). Qed.
Print Assumptions C112_order.

Theorem C112_in_ball : forall n e d k lincomb posweight l, 0 <= e -> k < - / 10 ^ 8 ->
  in_domain n k (weighted_midpoint n e d k lincomb posweight l).
Proof. exact (midpoint_in_ball). Qed.
Print Assumptions C112_in_ball.

(** Rotating or reflecting all points rotates or reflects the midpoint. *)
Theorem C112_rotation : forall n e Q, orthogonal n Q -> forall d k lincomb posweight l,
  weighted_midpoint n e d k lincomb posweight (map_points (apply_mat n Q) l) =
  apply_mat n Q (weighted_midpoint n e d k lincomb posweight l).
Proof. exact (midpoint_rot). Qed.
Print Assumptions C112_rotation.

(** Weights count up to a common factor, except for the 1e-10 in the denominator. *)
Theorem C112_weight_scale : forall n e c d k posweight l, 0 < c -> 0 < d ->
  weighted_midpoint n e d k false posweight (scale_weights c l) = weighted_midpoint n e (d / c) k false posweight l.
Proof. exact (midpoint_scale). Qed.
Print Assumptions C112_weight_scale.

(** k = 0: the weighted mean, or with lincomb the weighted sum, with d in the denominator. *)
Theorem C112_euclidean : forall n e d lincomb l, 0 <= wsum l ->
  weighted_midpoint n e d 0 lincomb false l = smul (if lincomb then wsum l else 1) (vdiv (wvsum l) (wsum l + d)).
Proof. exact (midpoint_euclidean). Qed.
Print Assumptions C112_euclidean.

(** posweight, k <= 0: a negative weight of x is a positive weight of -x. *)
Theorem C112_posweight : forall n e d k lincomb l, k <= 0 ->
  weighted_midpoint n e d k lincomb true l = weighted_midpoint n e d k lincomb false (map flip l).
Proof. exact (midpoint_posweight). Qed.
Print Assumptions C112_posweight.

Theorem C112_posweight_positive : forall n e d k lincomb l, (forall p, In p l -> 0 <= fst p) ->
  weighted_midpoint n e d k lincomb true l = weighted_midpoint n e d k lincomb false l.
Proof. exact (midpoint_posweight_id). Qed.
Print Assumptions C112_posweight_positive.

(** On the ball the computed midpoint is a multiple t of the midpoint with e = d = 0, with t between
    1 - d / (sum of the weights) and 1 + 2000 e / |k|; the library has e = 1e-15, d = 1e-10. *)
Theorem C112_library_constants : forall n e k, 0 <= e -> k < - / 10 ^ 8 -> forall d l, positive_weights l ->
  (forall p, In p l -> well_inside_at n e k (snd p)) -> 0 <= d <= wsum l ->
  2 * / 10 ^ 15 <= nrm n (klein_mean n k l) \/ nrm n (klein_mean n k l) = 0 ->
  exists t, 1 - d / wsum l <= t <= 1 + 2000 * e / (- k) /\
    same n (weighted_midpoint n e d k false false l) (smul t (weighted_midpoint n 0 0 k false false l)).
Proof. exact (midpoint_library). Qed.
Print Assumptions C112_library_constants.

Example C112_library_case : forall p, In p two_points -> well_inside_at 1 e15 (-1) (snd p).
Proof. exact (two_points_at). Qed.

(** The midpoint with e = d = 0 is the only minimiser
    of the weighted sum of sinh(sqrt(-k) dist/2)^2 ([spread]) ... *)
Theorem C112_minimises : forall n k, k < - / 10 ^ 8 -> forall l z, positive_weights l -> (forall p, In p l -> well_inside n k (snd p)) ->
  norm_ok n (klein_mean n k l) -> in_domain n k z ->
  let m := weighted_midpoint n 0 0 k false false l in
  spread n k l m <= spread n k l z /\ (spread n k l z = spread n k l m -> same n z m).
Proof. exact (midpoint_minimal). Qed.
Print Assumptions C112_minimises.

(** ... it moves along when all points are translated by a Moebius addition ... *)
Theorem C112_translation : forall n k, k < - / 10 ^ 8 -> forall u l, safe n k u -> positive_weights l ->
  (forall p, In p l -> well_inside n k (snd p) /\ well_inside n k (mobius_add n k u (snd p))) ->
  norm_ok n (klein_mean n k l) -> norm_ok n (klein_mean n k (map_points (mobius_add n k u) l)) ->
  same n (weighted_midpoint n 0 0 k false false (map_points (mobius_add n k u) l))
         (mobius_add n k u (weighted_midpoint n 0 0 k false false l)).
Proof. exact (midpoint_translate). Qed.
Print Assumptions C112_translation.

(** ... it is x for any number of copies of x, and equally far from two points of equal weight. *)
Theorem C112_copies : forall n k, k < - / 10 ^ 8 -> forall l x, positive_weights l -> well_inside n k x ->
  (forall p, In p l -> snd p = x) -> norm_ok n x -> same n (weighted_midpoint n 0 0 k false false l) x.
Proof. exact (midpoint_copies). Qed.
Print Assumptions C112_copies.

Theorem C112_equidistant : forall n k, k < - / 10 ^ 8 -> forall w x y, 0 < w -> well_inside n k x -> well_inside n k y ->
  norm_ok n (klein_mean n k [(w, x); (w, y)]) ->
  let m := weighted_midpoint n 0 0 k false false [(w, x); (w, y)] in dist n 0 k m x = dist n 0 k m y.
Proof. exact (equidistant). Qed.
Print Assumptions C112_equidistant.

Example C112_case : positive_weights two_points /\ (forall p, In p two_points -> well_inside 1 (-1) (snd p)) /\
  2 * / 10 ^ 15 <= nrm 1 (klein_mean 1 (-1) two_points) /\ 0 <= e10 <= wsum two_points.
Proof. exact (two_points_case). Qed.

Example C112_rotation_case : orthogonal 2 swap2 /\ apply_mat 2 swap2 (fun i => match i with O => 1 | _ => 2 end) 0%nat = 2.
Proof. exact (swap2_case). Qed.

(** With the library's constants the midpoint of a single point is not that point (k = 0) ... *)
Theorem C112_single_refuted : weighted_midpoint 1 e15 e10 0 false false [(1, pt 1)] 0%nat < 1.
Proof. exact (single_shrunk). Qed.
Print Assumptions C112_single_refuted.

(** ... and on the sphere posweight does not put the antipode in place of a point of negative weight:
    the conformal factor is still that of the point itself (math.py:1965-1971). *)
Theorem C112_posweight_sphere_refuted : let x := pt (1 / 2) in
  antipode 1 e15 1 x 0%nat < -2 /\ -1 < weighted_midpoint 1 e15 e10 1 false true [(-1, x)] 0%nat.
Proof. exact (posweight_sphere). Qed.
Print Assumptions C112_posweight_sphere_refuted.

