(** Model of geoopt/layers/stereographic.py. *)
From Coq Require Import Reals List ZArith Bool.
From Verif Require Import RVec StereoModel NdModel.
Import ListNotations.

(** Distance2StereographicHyperplanes, layers/stereographic.py:5-90: the fields
    forward reads.  [points] has shape (num_planes, plane_shape) (lines 60-62;
    reset_parameters 88-90 keeps the shape). *)
Record layer := { l_ndim : nat; l_signed : bool; l_squared : bool; l_k : R; l_points : nd }.

(** Stereographic.dist2plane, stereographic/manifold.py:353-373, passes its
    arguments on to math.dist2plane (math.py:1417-1557), which swaps [p] and
    [a] for _dist2plane. *)
Definition ball_dist2plane (e k : R) (x p a : nd) (dim : Z) (keepdim signed scaled : bool) : option nd :=
  dist2plane_nd e k x a p keepdim signed scaled dim.

(** forward, layers/stereographic.py:66-79. *)
Definition forward (e : R) (l : layer) (input : nd) : option nd :=
  let nd_ := Z.of_nat (l_ndim l) in
  let* input_p := unsqueeze (- nd_ - 1) input in
  let* pts := permute10 (l_points l) in
  let* pts := view_ (repeat 1 (l_ndim l) ++ rsh pts) pts in
  let* distance := ball_dist2plane e (l_k l) input_p pts pts (- nd_ - 2) false (l_signed l) false in
  if l_squared l && l_signed l then
    let sign := lift1 torch_sign distance in
    lift2 Rmult (lift1 (fun v => (v ^ 2)%R) distance) sign
  else if l_squared l then Some (lift1 (fun v => (v ^ 2)%R) distance)
  else Some distance.
