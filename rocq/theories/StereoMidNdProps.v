(** C119: weighted_midpoint on tensors: batches of groups of weighted points. *)
From Coq Require Import Reals List ZArith Sorted.
From Verif Require Import RVec StereoModel StereoExtraModel NdModel NdSpec StereoNdModel StereoNdSpec StereoMidNdProofs StereoMidNdInst.
Import ListNotations.

(** Two batches of four points with three entries, a weight for each point; the points of
    a batch are combined (axis 1 from the right, position 1), and then all of them. *)
Example C119_case :
  has_rows batch_points (-1)%Z 0 3 /\ names (length (rsh batch_points)) [1%Z] [1] /\
  names (length (rsh batch_points)) [-2]%Z [1] /\ names (length (rsh batch_points)) [0; 1]%Z [2; 1] /\
  Sorted gt [2; 1] /\ NoDup [2; 1] /\ ~ In 0 [2; 1] /\ (forall b, In b [2; 1] -> 0 < b) /\
  weights_fit (Some batch_weights) batch_points (-1)%Z 0 /\ weights_fit None batch_points (-1)%Z 0 /\
  length (group batch_points (Some batch_weights) 0 [1] (fun _ => 0)) = 4.
Proof. exact case_ok. Qed.

(** keepdim=True: each row of the result is the midpoint of the rows of its group. *)
Theorem C119_keepdim e d k xs weights dims l dim a n lincomb posweight :
  has_rows xs dim a n -> names (length (rsh xs)) dims l -> NoDup l -> ~ In a l -> l <> [] ->
  weights_fit weights xs dim a ->
  exists z, weighted_midpoint_nd e d k xs weights (Some dims) dim true lincomb posweight = Some z /\
    rsh z = flat_axes l (rsh xs) /\
    forall ix, inside (rsh z) ix ->
      read z ix = weighted_midpoint n e d k lincomb posweight (group xs weights a l ix) (ix a).
Proof. exact (given_keep e d k xs weights dims l dim a n lincomb posweight). Qed.
Print Assumptions C119_keepdim.
(** keepdim=False with the positions in increasing order from the left, or a single one. *)
Theorem C119_drop e d k xs weights dims l dim a n lincomb posweight :
  has_rows xs dim a n -> names (length (rsh xs)) dims l -> Sorted gt l -> ~ In a l -> l <> [] ->
  Forall (Z.le 0) dims \/ length dims = 1 ->
  weights_fit weights xs dim a ->
  exists z, weighted_midpoint_nd e d k xs weights (Some dims) dim false lincomb posweight = Some z /\
    rsh z = drop_axes l (rsh xs) /\
    forall ix, inside (rsh z) ix ->
      read z ix = weighted_midpoint n e d k lincomb posweight
        (group xs weights a l (insert_axes l ix)) (insert_axes l ix a).
Proof. exact (given_drop e d k xs weights dims l dim a n lincomb posweight). Qed.
Print Assumptions C119_drop.
(** reducedim=None: one midpoint of all the points. *)
Theorem C119_all e d k xs weights dim a n lincomb posweight :
  has_rows xs dim a n -> 2 <= length (rsh xs) -> weights_fit weights xs dim a ->
  exists z, weighted_midpoint_nd e d k xs weights None dim false lincomb posweight = Some z /\
    rsh z = [n] /\
    forall ix, ix 0 < n ->
      read z ix = weighted_midpoint n e d k lincomb posweight
        (group xs weights a (others (length (rsh xs)) a) (fun _ => 0)) (ix 0).
Proof. exact (midpoint_all e d k xs weights dim a n lincomb posweight). Qed.
Print Assumptions C119_all.
Theorem C119_all_keepdim e d k xs weights dim a n lincomb posweight :
  has_rows xs dim a n -> 2 <= length (rsh xs) -> weights_fit weights xs dim a ->
  exists z, weighted_midpoint_nd e d k xs weights None dim true lincomb posweight = Some z /\
    rsh z = flat_axes (others (length (rsh xs)) a) (rsh xs) /\
    forall ix, inside (rsh z) ix ->
      read z ix = weighted_midpoint n e d k lincomb posweight
        (group xs weights a (others (length (rsh xs)) a) ix) (ix a).
Proof. exact (midpoint_all_keep e d k xs weights dim a n lincomb posweight). Qed.
Print Assumptions C119_all_keepdim.

(** The method of the manifold projects each midpoint: with keepdim=True, and otherwise if
    [dim] is negative and only axes to the left of it are combined. *)
Theorem C119_method_keepdim e eps d k xs weights dims l dim a n lincomb posweight :
  has_rows xs dim a n -> names (length (rsh xs)) dims l -> NoDup l -> ~ In a l -> l <> [] ->
  weights_fit weights xs dim a ->
  exists z, m_weighted_midpoint_nd e eps d k xs weights (Some dims) dim true lincomb posweight true = Some z /\
    rsh z = flat_axes l (rsh xs) /\
    forall ix, inside (rsh z) ix ->
      read z ix = project n e eps k (weighted_midpoint n e d k lincomb posweight (group xs weights a l ix)) (ix a).
Proof. exact (given_method_keep e eps d k xs weights dims l dim a n lincomb posweight). Qed.
Print Assumptions C119_method_keepdim.
Theorem C119_method e eps d k xs weights dims l dim a n lincomb posweight :
  has_rows xs dim a n -> names (length (rsh xs)) dims l -> Sorted gt l -> l <> [] ->
  Forall (Z.le 0) dims \/ length dims = 1 -> (dim < 0)%Z -> (forall b, In b l -> a < b) ->
  weights_fit weights xs dim a ->
  exists z, m_weighted_midpoint_nd e eps d k xs weights (Some dims) dim false lincomb posweight true = Some z /\
    rsh z = drop_axes l (rsh xs) /\
    forall ix, inside (rsh z) ix ->
      read z ix = project n e eps k
        (weighted_midpoint n e d k lincomb posweight (group xs weights a l (insert_axes l ix))) (ix a).
Proof. exact (given_method e eps d k xs weights dims l dim a n lincomb posweight). Qed.
Print Assumptions C119_method.
(** Without [project] the method is the function. *)
Theorem C119_method_plain e eps d k xs weights reducedim dim keepdim lincomb posweight :
  m_weighted_midpoint_nd e eps d k xs weights reducedim dim keepdim lincomb posweight false =
  weighted_midpoint_nd e d k xs weights reducedim dim keepdim lincomb posweight.
Proof. exact (method_plain e eps d k xs weights reducedim dim keepdim lincomb posweight). Qed.
Print Assumptions C119_method_plain.

(** The four cases in which the group or the axis is not the one asked for. *)
(** A single point without batch axes: its entries are summed. *)
Theorem C119_one_point_refuted e d k xs n : rsh xs = [n] -> (k <= 0)%R ->
  exists z, weighted_midpoint_nd e d k xs None None (-1)%Z false false false = Some z /\ rsh z = [1].
Proof. exact (one_point_summed e d k xs n). Qed.
Print Assumptions C119_one_point_refuted.
(** Negative positions: with three axes the call raises, with four an axis is left over. *)
Theorem C119_negative_refuted e d k xs n p q m lincomb posweight :
  (rsh xs = [n; p; q] ->
   weighted_midpoint_nd e d k xs None (Some [-3; -2]%Z) (-1)%Z false lincomb posweight = None) /\
  (rsh xs = [n; p; q; m] -> m <> 1 ->
   exists z, weighted_midpoint_nd e d k xs None (Some [-3; -2]%Z) (-1)%Z false lincomb posweight = Some z /\
     rsh z = [n; 1; m]).
Proof.
  exact (conj (negative_dims_raise e d k xs n p q lincomb posweight) (negative_dims e d k xs n p q m lincomb posweight)).
Qed.
Print Assumptions C119_negative_refuted.
(** [b] weightings of the same [p] points: the weightings are summed, not the points, and
    the result has one row for each point. *)
Theorem C119_weightings_refuted e d k xs w n p b : rsh xs = [n; p] -> rsh w = [p; b] -> (k <= 0)%R ->
  exists z, weighted_midpoint_nd e d k xs (Some w) None (-1)%Z false false false = Some z /\ rsh z = [n; p].
Proof. exact (batched_weights e d k xs w n p b). Qed.
Print Assumptions C119_weightings_refuted.
(** A non-negative [dim]: the function succeeds, the method raises. *)
Theorem C119_method_dim_refuted e eps d k xs n p lincomb posweight : rsh xs = [n; p] ->
  (exists y, weighted_midpoint_nd e d k xs None None 1%Z false lincomb posweight = Some y /\ rsh y = [n]) /\
  m_weighted_midpoint_nd e eps d k xs None None 1%Z false lincomb posweight true = None.
Proof. exact (method_raises e eps d k xs n p lincomb posweight). Qed.
Print Assumptions C119_method_dim_refuted.
