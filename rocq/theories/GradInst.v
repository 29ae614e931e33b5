(** Cases meeting the hypotheses of the gradient theorems. *)
From Coq Require Import Reals Lra Lia Psatz.
From Coquelicot Require Import Coquelicot.
From Verif Require Import RVec GradSpec GradProofs GradProofs2 GradProofs3.
From Verif Require StereoModel StereoSpec StereoTrig SphereModel SphereSpec LorentzModel LorentzSpec.
Local Open Scope R_scope.

Definition ax0 : vec := fun i => match i with O => 1 | _ => 0 end.
Definition ax1 : vec := fun i => match i with 1%nat => 1 | _ => 0 end.

Lemma sphere_case : SphereSpec.on_sphere 2 None ax0 /\ SphereSpec.on_sphere 2 None ax1 /\
  Rabs (dot 2 ax0 ax1) < 1 - / 10 ^ 4 /\
  exists g, gradient 2 (half_square (SphereModel.dist 2 (/ 10 ^ 4)) ax1) ax0 g.
Proof.
  assert (E : 0 < / 10 ^ 4 <= / 2).
  { split; [apply Rinv_0_lt_compat; lra|]. apply Rinv_le_contravar; lra. }
  assert (A : Rabs (dot 2 ax0 ax1) < 1 - / 10 ^ 4).
  { unfold dot, ax0, ax1; simpl Rsum. replace (0 + 1 * 0 + 0 * 1) with 0 by ring. rewrite Rabs_R0. lra. }
  split; [split; [unfold dot, ax0; simpl; ring|exact I]|].
  split; [split; [unfold dot, ax1; simpl; ring|exact I]|].
  split; [exact A|]. eexists. apply sphere_gradient; [exact E|exact A].
Qed.

(** (1,0) and (5/4,3/4) on the hyperbola *)
Definition hp : vec := fun i => match i with O => 5 / 4 | _ => 3 / 4 end.
Lemma lorentz_case : LorentzSpec.on_hyperboloid 1 1 ax0 /\ LorentzSpec.on_hyperboloid 1 1 hp /\
  LorentzSpec.apart 1 1 ax0 hp /\ / 10 ^ 15 < LorentzSpec.hyp_cos 1 1 ax0 hp ^ 2 - 1 /\
  exists g, gradient 2 (half_square (LorentzModel.dist 1 1) hp) ax0 g.
Proof.
  assert (H : LorentzSpec.hyp_cos 1 1 ax0 hp = 5 / 4)
    by (unfold LorentzSpec.hyp_cos, LorentzSpec.minkowski, ax0, hp; simpl Rsum; field).
  assert (E1 : / 10 ^ 15 < / 2) by (apply Rinv_lt_contravar; lra).
  assert (E2 : / 10 ^ 8 < / 2) by (apply Rinv_lt_contravar; lra).
  assert (H1 : / 10 ^ 15 < LorentzSpec.hyp_cos 1 1 ax0 hp ^ 2 - 1) by (rewrite H; lra).
  split; [split; [unfold LorentzSpec.minkowski, ax0; simpl; ring|unfold ax0; lra]|].
  split; [split; [unfold LorentzSpec.minkowski, hp; simpl; lra|unfold hp; lra]|].
  split; [unfold LorentzSpec.apart; rewrite H; split; lra|].
  split; [exact H1|].
  eexists. apply (lorentz_gradient 1 1 Rlt_0_1 ax0 hp (/ sqrt (LorentzSpec.hyp_cos 1 1 ax0 hp ^ 2 - 1))).
  apply arcosh_deriv; [rewrite H; lra|exact H1].
Qed.

(** 0 and 1/2 in the unit Poincaré interval *)
Definition half : vec := fun _ => / 2.
Lemma half_nrm : nrm 1 half = / 2.
Proof. unfold nrm, dot, half; simpl Rsum. replace (0 + / 2 * / 2) with ((/ 2) ^ 2) by ring. apply sqrt_pow2; lra. Qed.
Lemma stereo_case : let w := StereoModel.mobius_add 1 (-1) (vopp vzero) half in
  StereoSpec.closed_form (-1) /\
  / 10 ^ 15 < 1 + 2 * -1 * dot 1 vzero half + (-1) ^ 2 * dot 1 vzero vzero * dot 1 half half /\
  / 10 ^ 15 <= 1 + -1 * dot 1 vzero vzero /\
  / 10 ^ 15 <= nrm 1 w /\ nrm 1 w * StereoSpec.rt 0 (-1) < 1 - / 10 ^ 7 /\
  exists g, gradient 1 (half_square (StereoModel.dist 1 0 (-1)) half) vzero g.
Proof.
  intros w.
  assert (E15 : / 10 ^ 15 < / 4) by (apply Rinv_lt_contravar; lra).
  assert (E7 : / 10 ^ 7 < / 4) by (apply Rinv_lt_contravar; lra).
  assert (E8 : / 10 ^ 8 < / 4) by (apply Rinv_lt_contravar; lra).
  assert (CF : StereoSpec.closed_form (-1)) by (right; left; lra).
  assert (W : nrm 1 w = / 2).
  { unfold w. rewrite <- half_nrm. f_equal. replace (vopp vzero) with vzero by (apply vec_ext; intros; unfold vopp, vzero; ring).
    apply StereoProofs.add_0_l. }
  assert (Z : dot 1 vzero half = 0) by (unfold dot, vzero; simpl; ring).
  assert (Z2 : dot 1 vzero vzero = 0) by (unfold dot, vzero; simpl; ring).
  assert (RT : StereoSpec.rt 0 (-1) = 1).
  { unfold StereoSpec.rt. rewrite Rabs_left by lra. replace (- -1 + 0) with 1 by ring. apply sqrt_1. }
  assert (H1 : / 10 ^ 15 < 1 + 2 * -1 * dot 1 vzero half + (-1) ^ 2 * dot 1 vzero vzero * dot 1 half half) by (rewrite Z, Z2; lra).
  assert (H2 : / 10 ^ 15 <= 1 + -1 * dot 1 vzero vzero) by (rewrite Z2; lra).
  assert (H3 : nrm 1 w * StereoSpec.rt 0 (-1) < 1 - / 10 ^ 7) by (rewrite W, RT; lra).
  split; [exact CF|]. split; [exact H1|]. split; [exact H2|]. split; [rewrite W; lra|]. split; [exact H3|].
  eexists. apply (stereo_gradient 1 0 (-1) (Rle_refl 0) CF vzero half H1 H2); [fold w; rewrite W; lra|intros _; exact H3].
Qed.
