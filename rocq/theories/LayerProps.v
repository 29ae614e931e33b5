(** Properties of the hyperplane layer, of dist2plane, and of the [dim]
    argument.  Meanings: LayerSpec, StereoSpec. *)
From Coq Require Import Reals List ZArith Arith.
From Verif Require Import RVec StereoModel StereoSpec NdModel NdSpec NdProofs LayerModel LayerSpec LayerProofs StereoProofs4 StereoPlane StereoPlaneInst.
Import ListNotations.
Local Open Scope R_scope.

(** * C68 *)
(** Entry [b, j, r] of the output is made from the distance of input row
    [b, :, r] to the plane through point j with that point as normal. *)
Theorem C68_forward : forall e l input batch rest d m,
  length rest = l_ndim l -> shape input = batch ++ d :: rest -> shape (l_points l) = [m; d] ->
  exists out, forward e l input = Some out /\ shape out = batch ++ m :: rest /\
    forall b j r, in_range b batch -> (j < m)%nat -> in_range r rest ->
      reports (l_signed l) (l_squared l)
        (dist2plane d e (l_k l) (l_signed l) false
           (fun i => entry input (b ++ i :: r))
           (fun i => entry (l_points l) [j; i]) (fun i => entry (l_points l) [j; i]))
        (entry out (b ++ j :: r)).
Proof. exact (forward_spec). Qed.
Print Assumptions C68_forward.

Example C68_case : length [4; 5]%nat = l_ndim conv_layer /\ shape images = ([3] ++ 2 :: [4; 5])%nat /\
  shape (l_points conv_layer) = [7; 2]%nat /\ in_range [2]%nat [3]%nat /\ in_range [3; 4]%nat [4; 5]%nat.
Proof. exact (layer_case). Qed.

Theorem C68_rejects : forall e l input batch rest d d' m,
  length rest = l_ndim l -> shape input = batch ++ d :: rest -> shape (l_points l) = [m; d'] ->
  d <> d' -> d <> 1%nat -> d' <> 1%nat -> forward e l input = None.
Proof. exact (forward_rejects). Qed.
Print Assumptions C68_rejects.

(** * C93 *)
(** No point of the plane is nearer than the reported distance ... *)
Theorem C93_lower_bound : forall n e k x p a w, 0 <= e -> closed_form k -> (k <= 0 \/ e = 0) ->
  in_domain n k x -> in_domain n k p -> in_domain n k w ->
  regular n k (vopp p) x -> regular n k (vopp p) w -> regular n k (vopp x) w ->
  regular n k (vopp (mobius_add n k (vopp p) x)) (mobius_add n k (vopp p) w) ->
  0 < nrm n a -> / 10 ^ 15 <= dot n (mobius_add n k (vopp p) x) (mobius_add n k (vopp p) x) ->
  length_ok e k (nrm n (mobius_add n k (vopp x) w)) ->
  dot n (mobius_add n k (vopp p) w) a = 0 ->
  dist2plane n e k false false x a p <= dist n e k x w.
Proof. exact (plane_lower). Qed.
Print Assumptions C93_lower_bound.

Example C93_lower_case : let w := v2 0 (1/4) in
  in_domain 2 (-1) w /\ dot 2 (mobius_add 2 (-1) (vopp vzero) w) (v2 1 0) = 0 /\
  regular 2 (-1) (vopp vzero) w /\ regular 2 (-1) (vopp (v2 (1/2) (1/4))) w /\
  length_ok 0 (-1) (nrm 2 (mobius_add 2 (-1) (vopp (v2 (1/2) (1/4))) w)).
Proof. exact (plane_lower_case). Qed.

(** ... and some point of the plane is that near, up to the 1e-15 the library
    adds to the denominator. *)
Theorem C93_attained : forall n k x p a, closed_form k -> k <= 0 ->
  safe n k x -> safe n k p -> safe n k (mobius_add n k (vopp p) x) ->
  0 < nrm n a -> / 10 ^ 15 <= dot n (mobius_add n k (vopp p) x) (mobius_add n k (vopp p) x) ->
  exists w, in_domain n k w /\ dot n (mobius_add n k (vopp p) w) a = 0 /\
    dist n 0 k x w <= dist2plane n 0 k false false x a p
      + 2 * Rabs (dot n (mobius_add n k (vopp p) x) a)
        / (10 ^ 15 * ((1 + k * dot n (mobius_add n k (vopp p) x) (mobius_add n k (vopp p) x)) * nrm n a) ^ 2).
Proof. exact (plane_upper). Qed.
Print Assumptions C93_attained.

Example C93_attained_case : closed_form (-1) /\ safe 2 (-1) (v2 (1/2) (1/4)) /\ safe 2 (-1) vzero /\
  safe 2 (-1) (mobius_add 2 (-1) (vopp vzero) (v2 (1/2) (1/4))) /\ 0 < nrm 2 (v2 1 0) /\
  / 10 ^ 15 <= dot 2 (mobius_add 2 (-1) (vopp vzero) (v2 (1/2) (1/4))) (mobius_add 2 (-1) (vopp vzero) (v2 (1/2) (1/4))) /\
  dot 2 (mobius_add 2 (-1) (vopp vzero) (v2 (1/2) (1/4))) (v2 1 0) <> 0.
Proof. exact (plane_case). Qed.

(** The signed distance is the unsigned one with the sign of the side. *)
Theorem C93_signed : forall n e k x p a, closed_form k ->
  let X := mobius_add n k (vopp p) x in
  / 10 ^ 15 <= dot n X X -> 0 <= 1 + k * dot n X X ->
  2 * Rabs (dot n X a) / ((1 + k * dot n X X) * nrm n a + / 10 ^ 15) * rt e k <= 10 ^ 14 ->
  dist2plane n e k true false x a p =
    if Rlt_dec (dot n X a) 0 then - dist2plane n e k false false x a p
    else dist2plane n e k false false x a p.
Proof. exact (plane_signed). Qed.
Print Assumptions C93_signed.

Theorem C93_on_plane : forall n e k signed scaled x p a, dot n (mobius_add n k (vopp p) x) a = 0 ->
  dist2plane n e k signed scaled x a p = 0.
Proof. exact (plane_zero). Qed.
Print Assumptions C93_on_plane.

Theorem C93_scaled : forall n e k signed x p a,
  dist2plane n e k signed true x a p = dist2plane n e k signed false x a p * nrm n a.
Proof. exact (plane_scaled). Qed.
Print Assumptions C93_scaled.

(** The result depends on the length of the normal: one of length 1e-15 gives
    half the distance. *)
Theorem C93_short_normal_refuted : forall e, dist2plane 1 e 0 false false (pt 1) (pt (/ 10 ^ 15)) (pt 0) = 1 /\
  forall w, dot 1 (mobius_add 1 0 (vopp (pt 0)) w) (pt (/ 10 ^ 15)) = 0 -> dist 1 e 0 (pt 1) w = 2.
Proof. exact (plane_tiny). Qed.
Print Assumptions C93_short_normal_refuted.

(** * C94 *)
(** [read t ix] is the entry of t at ix after broadcasting; [fiber t a ix] the
    row of t along axis a (counted from the right) through ix. *)
Theorem C94_mobius_add : forall k x y s a n,
  bshape (rsh x) (rsh y) = Some s -> nth_error (rsh x) a = Some n -> nth_error (rsh y) a = Some n ->
  exists z, mobius_add_nd k x y (- Z.of_nat a - 1) = Some z /\ rsh z = s /\
    forall ix, read z ix = mobius_add n k (fiber x a ix) (fiber y a ix) (ix a).
Proof. exact (mobius_add_fibres). Qed.
Print Assumptions C94_mobius_add.

Theorem C94_dist2plane : forall e k x a p s s' ax n keep signed scaled,
  bshape (rsh p) (rsh x) = Some s -> bshape s (rsh a) = Some s' ->
  nth_error (rsh x) ax = Some n -> nth_error (rsh a) ax = Some n -> nth_error (rsh p) ax = Some n ->
  exists z, dist2plane_nd e k x a p keep signed scaled (- Z.of_nat ax - 1) = Some z /\
    rsh z = red keep ax s' /\
    forall ix, read z ix =
      dist2plane n e k signed scaled (fun j => read x (place keep ix ax j))
        (fun j => read a (place keep ix ax j)) (fun j => read p (place keep ix ax j)).
Proof. exact (dist2plane_fibres). Qed.
Print Assumptions C94_dist2plane.

Example C94_case : bshape (rsh images) [5; 1; 2]%nat = Some [5; 4; 2; 3]%nat.
Proof. exact (dim_case). Qed.

