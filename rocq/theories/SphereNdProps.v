(** C121: the methods of Sphere on tensors of any shape, with a projector of any batch shape. *)
From Coq Require Import Reals List Arith.
From Verif Require Import RVec NdModel NdSpec StereoNdSpec LorentzNdSpec SphereNdModel SphereNdSpec.
From Verif Require SphereModel.
From Verif Require Import SphereNdInst.
Import ListNotations.

(** Three points of the plane without projector; two groups of three points with one
    projector for each group. *)
Example C121_cases :
  let x := {| rsh := [2; 3]; at_ := fun _ => 1%R |} in
  let y := {| rsh := [2; 3; 2]; at_ := fun _ => 1%R |} in
  let p := {| rsh := [2; 2; 2]; at_ := fun _ => 1%R |} in
  last_size x 2 /\ fits None 2 (rsh x) /\ bshape (rsh x) (batch_of None) = Some [2; 3] /\
  last_size y 2 /\ fits (Some p) 2 (rsh y) /\ bshape (rsh y) (batch_of (Some p)) = Some [2; 3; 2].
Proof. cbn. repeat split. exists [2]. split; [reflexivity|]. auto. Qed.

Theorem C121_subspace : forall P, srows1 P (subspace_nd P) SphereModel.project_on_subspace.
Proof. exact (i_subspace). Qed.
Print Assumptions C121_subspace.

Theorem C121_projx : forall P, srows1 P (sprojx_nd P) SphereModel.projx.
Proof. exact (i_sprojx). Qed.
Print Assumptions C121_projx.

Theorem C121_proju : forall P, srows2 P (sproju_nd P) SphereModel.proju.
Proof. exact (i_sproju). Qed.
Print Assumptions C121_proju.

Theorem C121_retr : forall P, srows2 P (sretr_nd P) SphereModel.retr.
Proof. exact (i_sretr). Qed.
Print Assumptions C121_retr.

Theorem C121_expmap : forall P eps, srows2 P (sexpmap_nd P eps) (fun n M => SphereModel.expmap n M eps).
Proof. exact (i_sexpmap). Qed.
Print Assumptions C121_expmap.

Theorem C121_logmap : forall P eps, srows2 P (slogmap_nd P eps) (fun n M => SphereModel.logmap n M eps).
Proof. exact (i_slogmap). Qed.
Print Assumptions C121_logmap.

(** transp(x, y, v) does not look at x *)
Theorem C121_transp : forall P x x0, srows2 P (stransp_nd P x) (fun n M => SphereModel.transp n M x0).
Proof. exact (i_stransp). Qed.
Print Assumptions C121_transp.

(** inner(x, u, v): one number for each row of the three broadcast tensors *)
Theorem C121_inner : forall x u v keepdim n s1 s, last_size x n -> last_size u n -> last_size v n ->
  bshape (rsh u) (rsh v) = Some s1 -> bshape (rsh x) s1 = Some s ->
  reduced (sinner_nd x u (Some v) keepdim) s keepdim 0
    (fun p => SphereModel.inner n (row_at x p) (row_at u p) (row_at v p)).
Proof. exact (i_sinner). Qed.
Print Assumptions C121_inner.

Theorem C121_inner_self : forall x u keepdim n s, last_size x n -> last_size u n -> bshape (rsh x) (rsh u) = Some s ->
  reduced (sinner_nd x u None keepdim) s keepdim 0
    (fun p => SphereModel.inner n (row_at x p) (row_at u p) (row_at u p)).
Proof. exact (i_sinner1). Qed.
Print Assumptions C121_inner_self.

Theorem C121_dist : forall eps x y keepdim n s, last_size x n -> last_size y n -> bshape (rsh x) (rsh y) = Some s ->
  reduced (sdist_nd eps x y keepdim) s keepdim 0 (fun p => SphereModel.dist n eps (row_at x p) (row_at y p)).
Proof. exact (i_sdist). Qed.
Print Assumptions C121_dist.

Theorem C121_check_point : forall P atol rtol x n, 0 < n -> last_size x n -> fits P n (rsh x) ->
  bshape (rsh x) (batch_of P) = Some (rsh x) ->
  exists b, scheck_point_nd P atol rtol x = Some b /\
    (b = true <-> every_row (rsh x) (fun ix => SphereModel.check_point n (matrix_at P ix) atol rtol (fiber x 0 ix) = true)).
Proof. exact (i_scheck_point). Qed.
Print Assumptions C121_check_point.

Theorem C121_check_vector : forall atol rtol x u n s, 0 < n -> last_size x n -> last_size u n ->
  bshape (rsh x) (rsh u) = Some s ->
  exists b, scheck_vector_nd atol rtol x u = Some b /\
    (b = true <-> every_row s (fun ix => SphereModel.check_vector n atol rtol (fiber x 0 ix) (fiber u 0 ix) = true)).
Proof. exact (i_scheck_vector). Qed.
Print Assumptions C121_check_vector.

(** ** A batch of projectors is not matched with a batch of points: b points and c projectors
    give c times b results, whatever b and c are. *)
Theorem C121_batch_product : forall x p n b c, rsh x = [n; b] -> rsh p = [n; n; c] ->
  exists z, subspace_nd (Some p) x = Some z /\ rsh z = [n; b; c] /\
    forall ix, ix 0 < n ->
      read z ix = SphereModel.project_on_subspace n (matrix_at (Some p) ix) (fiber x 0 ix) (ix 0).
Proof. exact (batch_matmul). Qed.
Print Assumptions C121_batch_product.

Theorem C121_batch_projx_refuted : exists x p, rsh x = [2; 3] /\ rsh p = [2; 2; 3] /\
  forall z, sprojx_nd (Some p) x = Some z -> rsh z <> rsh x.
Proof. exact (batch_refuted). Qed.
Print Assumptions C121_batch_projx_refuted.
