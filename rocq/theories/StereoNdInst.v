(** The function-by-function instances of StereoNdProofs2 and concrete shapes. *)
From Coq Require Import Reals List ZArith.
From Verif Require Import RVec StereoModel StereoExtraModel NdModel NdSpec StereoNdModel StereoNdSpec.
From Verif Require Import StereoNdProofs StereoNdProofs2.
Import ListNotations.

Definition two_by_three : nd := {| rsh := [3; 2]; at_ := fun ix => (INR (ix 0%nat) / 10 - INR (ix 1%nat) / 4)%R |}.
Definition three_by_two : nd := {| rsh := [2; 3]; at_ := fun ix => (INR (ix 1%nat) / 10 - INR (ix 0%nat) / 4)%R |}.
Definition one_row : nd := {| rsh := [3]; at_ := fun ix => (INR (ix 0%nat) / 5)%R |}.
Definition weights2 : nd := {| rsh := [1; 2]; at_ := fun ix => INR (ix 1%nat) |}.
Lemma cases_ok :
  has_rows two_by_three (-1)%Z 0 3 /\ has_rows two_by_three 1%Z 0 3 /\
  has_rows three_by_two 0%Z 1 3 /\ has_rows three_by_two (-2)%Z 1 3 /\
  has_rows one_row (-1)%Z 0 3 /\ bshape (rsh one_row) (rsh two_by_three) = Some [3; 2] /\
  bshape (rsh weights2) (rsh two_by_three) = Some [3; 2] /\ nth 0 (rsh weights2) 1 = 1.
Proof. repeat split. Qed.

Lemma r_mobius_add k : by_rows2 (mobius_add_nd k) (fun n => mobius_add n k).
Proof. apply rows2. intros. eapply v_mobius_add; eauto. Qed.
Lemma r_mobius_sub k : by_rows2 (mobius_sub_nd k) (fun n => mobius_sub n k).
Proof. apply rows2. intros. eapply v_sub; eauto. Qed.
Lemma r_mobius_coadd k : by_rows2 (mobius_coadd_nd k) (fun n => mobius_coadd n k).
Proof. apply rows2. intros. eapply v_coadd; eauto. Qed.
Lemma r_mobius_cosub k : by_rows2 (mobius_cosub_nd k) (fun n => mobius_cosub n k).
Proof. apply rows2. intros. eapply v_cosub; eauto. Qed.
Lemma r_gyration k : by_rows3 (gyration_nd k) (fun n => gyration n k).
Proof. apply rows3. intros. eapply v_gyration; eauto. Qed.
Lemma r_scalar_mul e k : by_scaled_rows1 (mobius_scalar_mul_nd e k) (fun n => mobius_scalar_mul n e k).
Proof. apply scaled1. intros. eapply v_scalar_mul; eauto. Qed.
Lemma r_pointwise e k : by_rows2 (mobius_pointwise_mul_nd e k) (fun n => mobius_pointwise_mul n e k).
Proof. apply rows2. intros. eapply v_pointwise; eauto. Qed.
Lemma r_geodesic e k : by_scaled_rows2 (geodesic_nd e k) (fun n => geodesic n e k).
Proof. apply scaled2. intros. eapply v_geodesic; eauto. Qed.
Lemma r_geodesic_unit e k : by_scaled_rows2 (geodesic_unit_nd e k) (fun n => geodesic_unit n e k).
Proof. apply scaled2. intros. eapply v_geodesic_unit; eauto. Qed.
Lemma r_expmap e k : by_rows2 (expmap_nd e k) (fun n => expmap n e k).
Proof. apply rows2. intros. eapply v_expmap; eauto. Qed.
Lemma r_expmap0 e k : by_rows1 (expmap0_nd e k) (fun n => expmap0 n e k).
Proof. apply rows1. intros. eapply v_expmap0; eauto. Qed.
Lemma r_logmap e k : by_rows2 (logmap_nd e k) (fun n => logmap n e k).
Proof. apply rows2. intros. eapply v_logmap; eauto. Qed.
Lemma r_logmap0 e k : by_rows1 (logmap0_nd e k) (fun n => logmap0 n e k).
Proof. apply rows1. intros. eapply v_logmap0; eauto. Qed.
Lemma r_transport k : by_rows3 (parallel_transport_nd k) (fun n => parallel_transport n k).
Proof. apply rows3. intros. eapply v_transport; eauto. Qed.
Lemma r_transport0 k : by_rows2 (parallel_transport0_nd k) (fun n => parallel_transport0 n k).
Proof. apply rows2. intros. eapply v_transport0; eauto. Qed.
Lemma r_transport0back k : by_rows2 (parallel_transport0back_nd k) (fun n => parallel_transport0back n k).
Proof. apply rows2. intros. eapply v_transport0back; eauto. Qed.
Lemma r_egrad2rgrad k : by_rows2 (egrad2rgrad_nd k) (fun n => egrad2rgrad n k).
Proof. apply rows2. intros. eapply v_egrad2rgrad; eauto. Qed.
Lemma r_project e eps k : by_rows1 (project_nd e eps k) (fun n => project n e eps k).
Proof. apply rows1. intros. eapply v_project; eauto. Qed.
Lemma r_antipode e k : by_rows1 (antipode_nd e k) (fun n => antipode n e k).
Proof. apply rows1. intros. eapply v_antipode; eauto. Qed.
