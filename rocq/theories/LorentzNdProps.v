(** C120: the functions of lorentz/math.py and the Lorentz methods with [dim] and [keepdim]
    on tensors of any shape. *)
From Coq Require Import Reals List ZArith.
From Verif Require Import RVec NdModel NdSpec StereoNdModel StereoNdSpec.
From Verif Require LorentzModel.
From Verif Require Import LorentzNdModel LorentzNdSpec LorentzNdProofs3 LorentzNdInst LorentzNdDim.
Import ListNotations.

(** Two points of one space dimension along the first axis (dim 0) or the last (dim -1);
    three coordinates along the first axis. *)
Example C120_cases :
  has_rows steps 0 1 2 /\ has_rows steps (-1) 0 2 /\ has_rows origins 0 1 2 /\
  bshape (rsh origins) (rsh steps) = Some [2; 2] /\ has_rows tall 0 1 3 /\ any_axis 1 /\ last_axis 0.
Proof. repeat split. Qed.

(** ** Functions that work along any axis *)
Theorem C120_inner : lnumbers2 any_axis linner_nd LorentzModel.inner.
Proof. exact (num_inner). Qed.
Print Assumptions C120_inner.

Theorem C120_inner0 k : lnumbers1 any_axis (linner0_nd k) (fun d => LorentzModel.inner0 k).
Proof. exact (num_inner0 k). Qed.
Print Assumptions C120_inner0.

Theorem C120_dist k : lnumbers2 any_axis (ldist_nd k) (fun d => LorentzModel.dist d k).
Proof. exact (num_dist k). Qed.
Print Assumptions C120_dist.

Theorem C120_dist0 k : lnumbers1 any_axis (ldist0_nd k) (fun d => LorentzModel.dist0 k).
Proof. exact (num_dist0 k). Qed.
Print Assumptions C120_dist0.

Theorem C120_project k : lrows1 any_axis (lproject_nd k) (fun d => LorentzModel.project d k).
Proof. exact (i_project k). Qed.
Print Assumptions C120_project.

Theorem C120_project_polar k : lrows1 any_axis (lproject_polar_nd k) (fun d => LorentzModel.project_polar d k).
Proof. exact (i_polar k). Qed.
Print Assumptions C120_project_polar.

Theorem C120_project_u k : lrows2 any_axis (lproject_u_nd k) (fun d => LorentzModel.project_u d k).
Proof. exact (i_project_u k). Qed.
Print Assumptions C120_project_u.

Theorem C120_geodesic_unit k proj : lscaled2 any_axis (m_lgeodesic_unit_nd k proj) (fun d => LorentzModel.l_geodesic_unit d k proj).
Proof. exact (i_geodesic_unit k proj). Qed.
Print Assumptions C120_geodesic_unit.

Theorem C120_method_inner x : lnumbers2 any_axis (fun u v => m_linner_nd x u (Some v)) LorentzModel.inner.
Proof. exact (i_minner x). Qed.
Print Assumptions C120_method_inner.

Theorem C120_method_inner_self x : lnumbers1 any_axis (fun u => m_linner_nd x u None) (fun d u => LorentzModel.inner d u u).
Proof. exact (i_minner1 x). Qed.
Print Assumptions C120_method_inner_self.

(** Points of the Poincare ball with [d] coordinates, and back when [-dim] names the same axis. *)

Theorem C120_poincare_to_lorentz k eps x dim a d : has_rows x dim a d ->
  makes_rows (to_lorentz_nd k eps x dim) (set_axis a (S d) (rsh x)) a (S d)
    (fun ix => LorentzModel.poincare_to_lorentz d k eps (fiber x a ix)).
Proof. exact (to_lorentz_rows k eps x dim a d). Qed.
Print Assumptions C120_poincare_to_lorentz.

Theorem C120_lorentz_to_poincare k x dim a d : has_rows x dim a (S d) -> axis (- dim) (length (rsh x)) = Some a ->
  makes_rows (to_poincare_nd k x dim) (set_axis a d (rsh x)) a d
    (fun ix => LorentzModel.lorentz_to_poincare k (fiber x a ix)).
Proof. exact (to_poincare_rows k x dim a d). Qed.
Print Assumptions C120_lorentz_to_poincare.

Example C120_lorentz_to_poincare_case : has_rows steps 1 0 2 /\ axis (- (1)) (length (rsh steps)) = Some 0.
Proof. repeat split. Qed.

Theorem C120_lorentz_to_poincare_vector_refuted k x n : rsh x = [S n] -> to_poincare_nd k x (-1) = None.
Proof. exact (to_poincare_vector k x n). Qed.
Print Assumptions C120_lorentz_to_poincare_vector_refuted.

Theorem C120_lorentz_to_poincare_batch_refuted k x d m p : rsh x = [S d; m; p] -> 2 <= d -> to_poincare_nd k x (-1) = None.
Proof. exact (to_poincare_batch k x d m p). Qed.
Print Assumptions C120_lorentz_to_poincare_batch_refuted.

(** The checks accept a tensor when they accept every row. *)

Theorem C120_check_point k atol rtol x dim a d : has_rows x dim a (S d) ->
  exists b, check_point_nd k atol rtol x dim = Some b /\
    (b = true <-> every_row (rsh x) (fun ix => LorentzModel.check_point d k atol rtol (fiber x a ix))).
Proof. exact (i_check_point k atol rtol x dim a d). Qed.
Print Assumptions C120_check_point.

Theorem C120_check_vector atol rtol x u dim a d s : has_rows x dim a (S d) -> has_rows u dim a (S d) ->
  bshape (rsh u) (rsh x) = Some s ->
  exists b, check_vector_nd atol rtol x u dim = Some b /\
    (b = true <-> every_row s (fun ix => LorentzModel.check_vector d atol rtol (fiber x a ix) (fiber u a ix))).
Proof. exact (i_check_vector atol rtol x u dim a d s). Qed.
Print Assumptions C120_check_vector.

(** ** Functions that work along the last axis *)

Theorem C120_norm : lnumbers1 last_axis lnorm_nd LorentzModel.norm.
Proof. exact (num_norm). Qed.
Print Assumptions C120_norm.

Theorem C120_expmap k : lrows2 last_axis (lexpmap_nd k) (fun d => LorentzModel.expmap d k).
Proof. exact (i_expmap k). Qed.
Print Assumptions C120_expmap.

Theorem C120_expmap0 k : lrows1 last_axis (lexpmap0_nd k) (fun d => LorentzModel.expmap0 d k).
Proof. exact (i_expmap0 k). Qed.
Print Assumptions C120_expmap0.

Theorem C120_logmap k : lrows2 last_axis (llogmap_nd k) (fun d => LorentzModel.logmap d k).
Proof. exact (i_logmap k). Qed.
Print Assumptions C120_logmap.

Theorem C120_logmap0 k : lrows1 last_axis (llogmap0_nd k) (fun d => LorentzModel.logmap0 d k).
Proof. exact (i_logmap0 k). Qed.
Print Assumptions C120_logmap0.

Theorem C120_logmap0back k : lrows1 last_axis (llogmap0back_nd k) (fun d => LorentzModel.logmap0back d k).
Proof. exact (i_logmap0back k). Qed.
Print Assumptions C120_logmap0back.

Theorem C120_transport k : lrows3 last_axis (ltransport_nd k) (fun d => LorentzModel.parallel_transport d k).
Proof. exact (i_transport k). Qed.
Print Assumptions C120_transport.

Theorem C120_transport0 k : lrows2 last_axis (ltransport0_nd k) (fun d => LorentzModel.parallel_transport0 d k).
Proof. exact (i_transport0 k). Qed.
Print Assumptions C120_transport0.

Theorem C120_transport0back k : lrows2 last_axis (ltransport0back_nd k) (fun d => LorentzModel.parallel_transport0back d k).
Proof. exact (i_transport0back k). Qed.
Print Assumptions C120_transport0back.

Theorem C120_egrad2rgrad k x g dim d s :
  has_rows x dim 0 (S d) -> has_rows g dim 0 (S d) -> bshape (rsh x) (rsh g) = Some s ->
  exists g' z, legrad2rgrad_nd k x g dim = Some (g', z) /\ rsh g' = rsh g /\ rsh z = s /\
    forall ix, ix 0 < S d ->
      read g' ix = fst (LorentzModel.egrad2rgrad d k (fiber x 0 ix) (fiber g 0 ix)) (ix 0) /\
      read z ix = snd (LorentzModel.egrad2rgrad d k (fiber x 0 ix) (fiber g 0 ix)) (ix 0).
Proof. exact (i_egrad2rgrad k x g dim d s). Qed.
Print Assumptions C120_egrad2rgrad.

Theorem C120_method_expmap k norm_tan proj : lrows2 last_axis (m_lexpmap_nd k norm_tan proj) (fun d => LorentzModel.l_expmap d k norm_tan proj).
Proof. exact (i_mexpmap k norm_tan proj). Qed.
Print Assumptions C120_method_expmap.

Theorem C120_method_expmap0 k proj : lrows1 last_axis (m_lexpmap0_nd k proj) (fun d => LorentzModel.l_expmap0 d k proj).
Proof. exact (i_mexpmap0 k proj). Qed.
Print Assumptions C120_method_expmap0.

Theorem C120_method_transp_follow k proj : lrows3 last_axis (m_transp_follow_nd k proj) (fun d => LorentzModel.transp_follow_expmap d k proj).
Proof. exact (i_follow k proj). Qed.
Print Assumptions C120_method_transp_follow.

(** ** They do not work along another axis *)

Theorem C120_norm_dim_refuted : ~ lnumbers1 any_axis lnorm_nd LorentzModel.norm.
Proof. exact (norm_dim). Qed.
Print Assumptions C120_norm_dim_refuted.

Theorem C120_expmap_dim_refuted : ~ lrows2 any_axis (lexpmap_nd 1) (fun d => LorentzModel.expmap d 1).
Proof. exact (expmap_dim). Qed.
Print Assumptions C120_expmap_dim_refuted.

Theorem C120_logmap_dim_refuted : ~ lrows2 any_axis (llogmap_nd 1) (fun d => LorentzModel.logmap d 1).
Proof. exact (logmap_dim). Qed.
Print Assumptions C120_logmap_dim_refuted.

(** three coordinates in, five out *)

Theorem C120_expmap0_shape_refuted : option_map rsh (lexpmap0_nd 1 tall 0) = Some [2; 5].
Proof. exact (expmap0_shape). Qed.
Print Assumptions C120_expmap0_shape_refuted.

Theorem C120_logmap0_shape_refuted : option_map rsh (llogmap0_nd 1 tall 0) = Some [2; 5].
Proof. exact (logmap0_shape). Qed.
Print Assumptions C120_logmap0_shape_refuted.

Theorem C120_expmap0_dim_refuted : ~ lrows1 any_axis (lexpmap0_nd 1) (fun d => LorentzModel.expmap0 d 1).
Proof. exact (expmap0_dim). Qed.
Print Assumptions C120_expmap0_dim_refuted.

Theorem C120_logmap0_dim_refuted : ~ lrows1 any_axis (llogmap0_nd 1) (fun d => LorentzModel.logmap0 d 1).
Proof. exact (logmap0_dim). Qed.
Print Assumptions C120_logmap0_dim_refuted.

Theorem C120_egrad2rgrad_dim_refuted :
  exists g z, legrad2rgrad_nd 1 origins steps 0 = Some (g, z) /\
    read g low_ix <> fst (LorentzModel.egrad2rgrad 1 1 (fiber origins 1 low_ix) (fiber steps 1 low_ix)) 1 /\
    read z low_ix <> snd (LorentzModel.egrad2rgrad 1 1 (fiber origins 1 low_ix) (fiber steps 1 low_ix)) 1.
Proof. exact (egrad2rgrad_dim). Qed.
Print Assumptions C120_egrad2rgrad_dim_refuted.
