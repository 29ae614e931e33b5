(** C131: small gradient steps decrease the loss. *)
From Coq Require Import Reals.
From Verif Require Import RVec DescentSpec DescentProofs DescentProofs2 DescentProofs3 DescentInst.
From Verif Require StereoModel StereoSpec StereoExtraModel SphereModel SphereSpec LorentzModel LorentzSpec GradInst.
Local Open Scope R_scope.

Theorem C131_sphere_retr : forall n P f x g, SphereSpec.valid_subspace n P ->
  SphereSpec.on_sphere n P x -> differentiable n f x g ->
  0 < nrm n (SphereModel.egrad2rgrad n P x g) ->
  decreases f x (fun t => SphereModel.retr n P x (smul (- t) (SphereModel.egrad2rgrad n P x g))).
Proof. exact (fun n P f x g VP => sphere_retr_descent n P VP f x g). Qed.
Print Assumptions C131_sphere_retr.

Theorem C131_sphere_expmap : forall n P eps f x g, SphereSpec.valid_subspace n P -> 0 < eps ->
  SphereSpec.on_sphere n P x -> differentiable n f x g ->
  0 < nrm n (SphereModel.egrad2rgrad n P x g) ->
  decreases f x (fun t => SphereModel.expmap n P eps x (smul (- t) (SphereModel.egrad2rgrad n P x g))).
Proof. exact (fun n P eps f x g VP => sphere_exp_descent n P VP eps f x g). Qed.
Print Assumptions C131_sphere_expmap.

(** the two retractions, whatever the curvature, at points strictly inside the radius project clips to *)
Theorem C131_stereo_retr : forall n e k eps f x g,
  nrm n x < StereoModel.maxnorm e eps k -> / 10 ^ 15 <= StereoModel.maxnorm e eps k ->
  differentiable n f x g -> 0 < nrm n (StereoModel.egrad2rgrad n k x g) ->
  decreases f x (fun t => StereoExtraModel.retr n e eps k x (smul (- t) (StereoModel.egrad2rgrad n k x g))).
Proof. exact stereo_retr_descent. Qed.
Print Assumptions C131_stereo_retr.

Theorem C131_stereo_expmap : forall n e k eps project f x g, 0 <= e <= 1 -> k <= 10 ^ 20 ->
  StereoSpec.in_domain n k x ->
  nrm n x < StereoModel.maxnorm e eps k -> / 10 ^ 15 <= StereoModel.maxnorm e eps k ->
  differentiable n f x g -> 0 < nrm n (StereoModel.egrad2rgrad n k x g) ->
  decreases f x (fun t => StereoExtraModel.m_expmap n e eps k project x
                            (smul (- t) (StereoModel.egrad2rgrad n k x g))).
Proof. exact (fun n e k eps pr f x g E K => stereo_exp_descent n e k E K eps pr f x g). Qed.
Print Assumptions C131_stereo_expmap.

(** Lorentz: the floor 1e-4 on the length of the step rescales the base point, so that with a
    small learning rate the loss goes up although the gradient is not zero. *)
Theorem C131_lorentz_refuted : forall k norm_tan proj, 0 < k -> exists f x g,
  LorentzSpec.on_hyperboloid 1 k x /\ differentiable 2 f x g /\
  0 < LorentzSpec.minkowski 1 (snd (LorentzModel.egrad2rgrad 1 k x g)) (snd (LorentzModel.egrad2rgrad 1 k x g)) /\
  exists t0, 0 < t0 /\ forall t, 0 < t < t0 ->
    f x < f (LorentzModel.l_expmap 1 k norm_tan proj x (smul (- t) (snd (LorentzModel.egrad2rgrad 1 k x g)))).
Proof. exact lorentz_no_descent. Qed.
Print Assumptions C131_lorentz_refuted.

(** Cases meeting the hypotheses: linear losses at (1, 0) on the circle and at 0 in the unit ball. *)
Example C131_sphere_hypotheses : SphereSpec.valid_subspace 2 None /\ SphereSpec.on_sphere 2 None GradInst.ax0 /\
  differentiable 2 (dot 2 GradInst.ax1) GradInst.ax0 GradInst.ax1 /\
  0 < nrm 2 (SphereModel.egrad2rgrad 2 None GradInst.ax0 GradInst.ax1).
Proof. exact sphere_case. Qed.
Example C131_stereo_hypotheses : -1 <= 10 ^ 20 /\ StereoSpec.in_domain 1 (-1) vzero /\
  nrm 1 vzero < StereoModel.maxnorm 0 (/ 10 ^ 5) (-1) /\
  / 10 ^ 15 <= StereoModel.maxnorm 0 (/ 10 ^ 5) (-1) /\
  differentiable 1 (dot 1 GradInst.half) vzero GradInst.half /\
  0 < nrm 1 (StereoModel.egrad2rgrad 1 (-1) vzero GradInst.half).
Proof. exact stereo_case. Qed.
