(** C118: the stereographic functions with [dim] and [keepdim] on tensors of any shape. *)
From Coq Require Import Reals List ZArith.
From Verif Require Import RVec StereoModel StereoExtraModel NdModel NdSpec StereoNdModel StereoNdSpec.
From Verif Require Import StereoNdProofs StereoNdProofs2 StereoNdProofs3 StereoNdInst.
Import ListNotations.

(** A batch of two rows of three entries with the rows along the last axis (dim -1 or 1) or
    along the first one (dim 0 or -2); a single row broadcasts against the first. *)
Example C118_cases :
  has_rows two_by_three (-1)%Z 0 3 /\ has_rows two_by_three 1%Z 0 3 /\
  has_rows three_by_two 0%Z 1 3 /\ has_rows three_by_two (-2)%Z 1 3 /\
  has_rows one_row (-1)%Z 0 3 /\ bshape (rsh one_row) (rsh two_by_three) = Some [3; 2] /\
  bshape (rsh weights2) (rsh two_by_three) = Some [3; 2] /\ nth 0 (rsh weights2) 1 = 1.
Proof. exact cases_ok. Qed.

Theorem C118_mobius_add k : by_rows2 (mobius_add_nd k) (fun n => mobius_add n k).
Proof. exact (r_mobius_add k). Qed.
Print Assumptions C118_mobius_add.
Theorem C118_mobius_sub k : by_rows2 (mobius_sub_nd k) (fun n => mobius_sub n k).
Proof. exact (r_mobius_sub k). Qed.
Print Assumptions C118_mobius_sub.
Theorem C118_mobius_coadd k : by_rows2 (mobius_coadd_nd k) (fun n => mobius_coadd n k).
Proof. exact (r_mobius_coadd k). Qed.
Print Assumptions C118_mobius_coadd.
Theorem C118_mobius_cosub k : by_rows2 (mobius_cosub_nd k) (fun n => mobius_cosub n k).
Proof. exact (r_mobius_cosub k). Qed.
Print Assumptions C118_mobius_cosub.
Theorem C118_gyration k : by_rows3 (gyration_nd k) (fun n => gyration n k).
Proof. exact (r_gyration k). Qed.
Print Assumptions C118_gyration.
Theorem C118_scalar_mul e k : by_scaled_rows1 (mobius_scalar_mul_nd e k) (fun n => mobius_scalar_mul n e k).
Proof. exact (r_scalar_mul e k). Qed.
Print Assumptions C118_scalar_mul.
Theorem C118_pointwise_mul e k : by_rows2 (mobius_pointwise_mul_nd e k) (fun n => mobius_pointwise_mul n e k).
Proof. exact (r_pointwise e k). Qed.
Print Assumptions C118_pointwise_mul.
Theorem C118_geodesic e k : by_scaled_rows2 (geodesic_nd e k) (fun n => geodesic n e k).
Proof. exact (r_geodesic e k). Qed.
Print Assumptions C118_geodesic.
Theorem C118_geodesic_unit e k : by_scaled_rows2 (geodesic_unit_nd e k) (fun n => geodesic_unit n e k).
Proof. exact (r_geodesic_unit e k). Qed.
Print Assumptions C118_geodesic_unit.
Theorem C118_expmap e k : by_rows2 (expmap_nd e k) (fun n => expmap n e k).
Proof. exact (r_expmap e k). Qed.
Print Assumptions C118_expmap.
Theorem C118_expmap0 e k : by_rows1 (expmap0_nd e k) (fun n => expmap0 n e k).
Proof. exact (r_expmap0 e k). Qed.
Print Assumptions C118_expmap0.
Theorem C118_logmap e k : by_rows2 (logmap_nd e k) (fun n => logmap n e k).
Proof. exact (r_logmap e k). Qed.
Print Assumptions C118_logmap.
Theorem C118_logmap0 e k : by_rows1 (logmap0_nd e k) (fun n => logmap0 n e k).
Proof. exact (r_logmap0 e k). Qed.
Print Assumptions C118_logmap0.
Theorem C118_parallel_transport k : by_rows3 (parallel_transport_nd k) (fun n => parallel_transport n k).
Proof. exact (r_transport k). Qed.
Print Assumptions C118_parallel_transport.
Theorem C118_parallel_transport0 k : by_rows2 (parallel_transport0_nd k) (fun n => parallel_transport0 n k).
Proof. exact (r_transport0 k). Qed.
Print Assumptions C118_parallel_transport0.
Theorem C118_parallel_transport0back k :
  by_rows2 (parallel_transport0back_nd k) (fun n => parallel_transport0back n k).
Proof. exact (r_transport0back k). Qed.
Print Assumptions C118_parallel_transport0back.
Theorem C118_egrad2rgrad k : by_rows2 (egrad2rgrad_nd k) (fun n => egrad2rgrad n k).
Proof. exact (r_egrad2rgrad k). Qed.
Print Assumptions C118_egrad2rgrad.
Theorem C118_project e eps k : by_rows1 (project_nd e eps k) (fun n => project n e eps k).
Proof. exact (r_project e eps k). Qed.
Print Assumptions C118_project.
Theorem C118_antipode e k : by_rows1 (antipode_nd e k) (fun n => antipode n e k).
Proof. exact (r_antipode e k). Qed.
Print Assumptions C118_antipode.

(** One number for each row, with either value of [keepdim]. *)
Theorem C118_lambda_x k : by_numbers1 (lambda_x_nd k) (fun n => lambda_x n k).
Proof. exact (num_lambda k). Qed.
Print Assumptions C118_lambda_x.
Theorem C118_norm k : by_numbers2 (norm_nd k) (fun n => norm n k).
Proof. exact (num_norm k). Qed.
Print Assumptions C118_norm.
Theorem C118_dist e k : by_numbers2 (dist_nd e k) (fun n => dist n e k).
Proof. exact (num_dist e k). Qed.
Print Assumptions C118_dist.
Theorem C118_dist0 e k : by_numbers1 (dist0_nd e k) (fun n => dist0 n e k).
Proof. exact (num_dist0 e k). Qed.
Print Assumptions C118_dist0.
Theorem C118_inner_keepdim k x u v dim a n s1 s :
  has_rows x dim a n -> has_rows u dim a n -> has_rows v dim a n ->
  bshape (rsh x) (rsh u) = Some s1 -> bshape s1 (rsh v) = Some s ->
  reduced (inner_nd k x u v true dim) s true a
    (fun p => inner n k (row_at x p) (row_at u p) (row_at v p)).
Proof. exact (num_inner k x u v dim a n s1 s). Qed.
Print Assumptions C118_inner_keepdim.
(** Without keepdim the conformal factor keeps its axis and a batch of [b] rows gives a
    [b] by [b] tensor: entry (i, j) pairs the factor of row i with the product of row j. *)
Theorem C118_inner_refuted k x u v b n : rsh x = [n; b] -> rsh u = [n; b] -> rsh v = [n; b] ->
  exists z, inner_nd k x u v false (-1)%Z = Some z /\ rsh z = [b; b] /\
    forall i j, i < b -> j < b -> forall ix, ix 0 = j -> ix 1 = i ->
      read z ix = (lambda_x n k (fun c => read x (fun q => match q with 0 => c | _ => i end)) ^ 2 *
        dot n (fun c => read u (fun q => match q with 0 => c | _ => j end))
              (fun c => read v (fun q => match q with 0 => c | _ => j end)))%R.
Proof. exact (inner_square k x u v b n). Qed.
Print Assumptions C118_inner_refuted.

(** The projections change the number of entries of a row. *)
Theorem C118_sproj e x dim a k n : has_rows x dim a (S n) ->
  exists z, sproj_nd e k x dim = Some z /\ rsh z = set_axis a n (rsh x) /\
    forall ix, ix a < n -> read z ix = sproj n e k (fiber x a ix) (ix a).
Proof. exact (sproj_rows e x dim a k n). Qed.
Print Assumptions C118_sproj.
Theorem C118_inv_sproj e x dim a k n : has_rows x dim a n ->
  exists z, inv_sproj_nd e k x dim = Some z /\ rsh z = set_axis a (n + 1) (rsh x) /\
    forall ix, ix a < n + 1 -> read z ix = inv_sproj n e k (fiber x a ix) (ix a).
Proof. exact (inv_sproj_rows e x dim a k n). Qed.
Print Assumptions C118_inv_sproj.
