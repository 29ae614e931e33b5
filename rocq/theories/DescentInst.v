(** Cases meeting the hypotheses of the descent theorems: a linear loss. *)
From Coq Require Import Reals Lra Lia Psatz.
From Verif Require Import RVec DescentSpec.
From Verif Require StereoModel StereoSpec StereoProofs SphereModel SphereSpec GradInst.
Local Open Scope R_scope.

Lemma linear_differentiable n a x : differentiable n (dot n a) x a.
Proof.
  intros eps E. exists 1. split; [lra|]. intros h _. rewrite dot_add_r.
  replace (dot n a x + dot n a h - dot n a x - dot n a h) with 0 by ring.
  rewrite Rabs_R0. apply Rmult_le_pos; [lra|apply nrm_nonneg].
Qed.

(** x = (1, 0), loss <(0, 1), z> *)
Lemma sphere_case : SphereSpec.valid_subspace 2 None /\ SphereSpec.on_sphere 2 None GradInst.ax0 /\
  differentiable 2 (dot 2 GradInst.ax1) GradInst.ax0 GradInst.ax1 /\
  0 < nrm 2 (SphereModel.egrad2rgrad 2 None GradInst.ax0 GradInst.ax1).
Proof.
  split; [exact I|]. split; [split; [unfold dot, GradInst.ax0; simpl; ring|exact I]|].
  split; [apply linear_differentiable|].
  unfold SphereModel.egrad2rgrad, SphereModel.proju. cbv zeta. unfold SphereModel.project_on_subspace.
  unfold nrm. apply sqrt_lt_R0. unfold dot, vsub, smul, GradInst.ax0, GradInst.ax1; simpl Rsum. lra.
Qed.
(** x = 0 in the unit ball, loss <(1/2), z> *)
Lemma stereo_case : -1 <= 10 ^ 20 /\ StereoSpec.in_domain 1 (-1) vzero /\
  nrm 1 vzero < StereoModel.maxnorm 0 (/ 10 ^ 5) (-1) /\
  / 10 ^ 15 <= StereoModel.maxnorm 0 (/ 10 ^ 5) (-1) /\
  differentiable 1 (dot 1 GradInst.half) vzero GradInst.half /\
  0 < nrm 1 (StereoModel.egrad2rgrad 1 (-1) vzero GradInst.half).
Proof.
  assert (E5 : 0 < / 10 ^ 5 < / 2).
  { split; [apply Rinv_0_lt_compat; lra|]. apply Rinv_lt_contravar; lra. }
  assert (E15 : / 10 ^ 15 < / 2) by (apply Rinv_lt_contravar; lra).
  assert (M : StereoModel.maxnorm 0 (/ 10 ^ 5) (-1) = 1 - / 10 ^ 5).
  { unfold StereoModel.maxnorm. destruct (Rlt_dec (-1) 0); [|lra]. unfold StereoModel.sabs.
    rewrite Rabs_left by lra. replace (- -1 + 0) with 1 by ring. rewrite sqrt_1. field. }
  split; [assert (0 <= 10 ^ 20) by (apply pow_le; lra); lra|].
  split; [unfold StereoSpec.in_domain, dot, vzero; simpl Rsum; lra|].
  split; [rewrite nrm_zero, M; lra|]. split; [rewrite M; lra|]. split; [apply linear_differentiable|].
  unfold StereoModel.egrad2rgrad. rewrite StereoProofs.lambda_0.
  unfold nrm. apply sqrt_lt_R0. unfold dot, vdiv, GradInst.half; simpl Rsum. lra.
Qed.
