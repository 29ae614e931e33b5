(** Concrete cases for the hyperplane properties. *)
From Coq Require Import Reals Lra Psatz List Arith.
From Verif Require Import RVec StereoModel StereoSpec StereoTrig StereoProofs StereoProofs4 StereoPlane.
From Verif Require Import NdModel LayerModel LayerSpec.
Import ListNotations.
Local Open Scope R_scope.

Definition v2 (a b : R) : vec := fun i => match i with O => a | S O => b | _ => 0 end.
Lemma dot_v2 a b c d : dot 2 (v2 a b) (v2 c d) = a * c + b * d.
Proof. unfold dot. cbn. ring. Qed.
Lemma sub_origin x : mobius_add 2 (-1) (vopp vzero) x = x.
Proof. replace (vopp vzero) with vzero by (veq; ring). apply add_0_l. Qed.

Lemma plane_case : closed_form (-1) /\ safe 2 (-1) (v2 (1/2) (1/4)) /\ safe 2 (-1) vzero /\
  safe 2 (-1) (mobius_add 2 (-1) (vopp vzero) (v2 (1/2) (1/4))) /\ 0 < nrm 2 (v2 1 0) /\
  / 10 ^ 15 <= dot 2 (mobius_add 2 (-1) (vopp vzero) (v2 (1/2) (1/4))) (mobius_add 2 (-1) (vopp vzero) (v2 (1/2) (1/4))) /\
  dot 2 (mobius_add 2 (-1) (vopp vzero) (v2 (1/2) (1/4))) (v2 1 0) <> 0.
Proof.
  rewrite sub_origin, !dot_v2. pose proof e15_val as E. unfold e15 in E.
  assert (S : safe 2 (-1) (v2 (1/2) (1/4))).
  { unfold safe. replace (- -1) with 1 by ring. rewrite sqrt_1, Rmult_1_l.
    unfold nrm. rewrite dot_v2. apply Rle_trans with (sqrt ((3/4) ^ 2)).
    - apply sqrt_le_1_alt. lra.
    - rewrite sqrt_pow2 by lra. assert (/ 10 ^ 5 <= 1 / 10) by (replace (10 ^ 5) with 100000 by ring; lra). lra. }
  split; [|split; [exact S|split; [|split; [exact S|]]]].
  - right; left. assert (/ 10 ^ 8 <= 1 / 10) by (replace (10 ^ 8) with 100000000 by ring; lra). lra.
  - unfold safe, nrm. rewrite dot_zero_l, sqrt_0, Rmult_0_r.
    assert (/ 10 ^ 5 <= 1 / 10) by (replace (10 ^ 5) with 100000 by ring; lra). lra.
  - rewrite E. split; [unfold nrm; rewrite dot_v2; apply sqrt_lt_R0; lra|lra].
Qed.

(** A point of the plane other than its base point. *)
Lemma plane_lower_case : let w := v2 0 (1/4) in
  in_domain 2 (-1) w /\ dot 2 (mobius_add 2 (-1) (vopp vzero) w) (v2 1 0) = 0 /\
  regular 2 (-1) (vopp vzero) w /\ regular 2 (-1) (vopp (v2 (1/2) (1/4))) w /\
  length_ok 0 (-1) (nrm 2 (mobius_add 2 (-1) (vopp (v2 (1/2) (1/4))) w)).
Proof.
  intros w. pose proof e15_val as E. unfold e15 in E.
  assert (R : regular 2 (-1) (vopp (v2 (1/2) (1/4))) w).
  { unfold regular. rewrite !dot_opp_l, !dot_opp_r. unfold w. rewrite !dot_v2, E. lra. }
  split; [unfold in_domain, w; rewrite dot_v2; lra|]. rewrite sub_origin. unfold w at 1. rewrite dot_v2.
  split; [lra|]. split.
  { unfold regular. rewrite !dot_opp_l, !dot_opp_r. rewrite !dot_zero_l, E. lra. }
  split; [exact R|]. intros _. unfold rt. replace (Rabs (-1) + 0) with 1 by (rewrite Rabs_left; lra).
  rewrite sqrt_1, Rmult_1_r. rewrite mobius_add_madd by auto. unfold nrm.
  rewrite GyroAlgebra.msub_sq by (apply regular_ne; auto).
  unfold GyroAlgebra.gap2, GyroAlgebra.mden, mobius_den. rewrite !dot_opp_l, !dot_opp_r. unfold w. rewrite !dot_v2.
  apply Rle_trans with (sqrt ((3/4) ^ 2)).
  - apply sqrt_le_1_alt.
    match goal with |- ?a / ?b <= _ => apply (Rmult_le_reg_r b); [lra|]; unfold Rdiv; rewrite Rmult_assoc, Rinv_l by lra; lra end.
  - rewrite sqrt_pow2 by lra. assert (/ 10 ^ 7 <= 1 / 10) by (replace (10 ^ 7) with 10000000 by ring; lra). lra.
Qed.

(** The 1e-15 added to the denominator: a normal of length 1e-15 halves the distance. *)
Lemma plane_tiny e : dist2plane 1 e 0 false false (pt 1) (pt (/ 10 ^ 15)) (pt 0) = 1 /\
  forall w, dot 1 (mobius_add 1 0 (vopp (pt 0)) w) (pt (/ 10 ^ 15)) = 0 -> dist 1 e 0 (pt 1) w = 2.
Proof.
  pose proof e15_pos as E. split.
  - unfold dist2plane. rewrite arsin_k_zero. rewrite pt_opp, pt_add, !dot1, nrm1.
    fold e15.
    assert (C : clamp_min e15 (1 - 2 * 0 * (- 0 * 1) + 0 ^ 2 * (- 0 * - 0) * (1 * 1)) = 1).
    { rewrite clamp_min_id; [ring|pose proof e15_val; lra]. }
    rewrite C. match goal with |- context [clamp_min e15 ?u] => generalize (clamp_min e15 u); intros u' end.
    rewrite (Rabs_pos_eq e15) by lra. replace ((1 + 0 * u') * e15) with e15 by ring.
    unfold clamp_abs. rewrite sign_nonneg by lra. unfold sabs. rewrite (Rabs_pos_eq e15) by lra.
    match goal with |- context [Rabs ?u] => replace u with e15 by field end.
    rewrite Rabs_pos_eq by lra. field. lra.
  - intros w H. rewrite dist_k0. replace (vopp (pt 0)) with vzero in H by (veq; unfold pt; ring).
    rewrite add_0_l in H. unfold dot, pt in H. cbn in H.
    assert (w O = 0).
    { fold e15 in H. rewrite Rplus_0_l in H. apply Rmult_integral in H as [?|?]; lra. }
    unfold nrm, dot, vsub, pt. cbn. rewrite H0. replace (0 + (1 - 0) * (1 - 0)) with 1 by ring. rewrite sqrt_1. ring.
Qed.

(** A batch of 3 images of 2 channels and 4 x 5 pixels against 7 planes. *)
Definition images : nd := {| rsh := [5; 4; 2; 3]%nat; at_ := fun ix => / (10 + INR (ix 0%nat + ix 2%nat)) |}.
Definition planes : nd := {| rsh := [2; 7]%nat; at_ := fun ix => / (20 + INR (ix 1%nat)) |}.
Definition conv_layer : layer := {| l_ndim := 2; l_signed := true; l_squared := true; l_k := -1; l_points := planes |}.
Lemma layer_case : length [4; 5]%nat = l_ndim conv_layer /\ LayerSpec.shape images = ([3] ++ 2 :: [4; 5])%nat /\
  LayerSpec.shape (l_points conv_layer) = [7; 2]%nat /\ in_range [2]%nat [3]%nat /\ in_range [3; 4]%nat [4; 5]%nat.
Proof.
  repeat split; repeat constructor.
Qed.

Lemma dim_case : bshape (rsh images) [5; 1; 2]%nat = Some [5; 4; 2; 3]%nat.
Proof. reflexivity. Qed.
