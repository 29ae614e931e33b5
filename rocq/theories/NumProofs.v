(** utils.py:50-63 sign, sabs, clamp_abs and ManifoldTensor.dist. *)
From Coq Require Import Reals Lra Lia Psatz.
From Verif Require Import RVec StereoModel TensorModel TensorSpec.
Local Open Scope R_scope.

Lemma sign_pos x : 0 <= x -> sign x = 1.
Proof. intros H. unfold sign, torch_sign. repeat destruct (Rlt_dec _ _); lra. Qed.
Lemma sign_neg x : x < 0 -> sign x = -1.
Proof. intros H. unfold sign, torch_sign. repeat destruct (Rlt_dec _ _); lra. Qed.
Lemma sabs_pos eps x : 0 < eps -> eps <= sabs eps x /\ Rabs x <= sabs eps x.
Proof. intros H. unfold sabs. pose proof (Rabs_pos x). lra. Qed.
Lemma clamp_abs_nonneg eps x : 0 <= x -> clamp_abs eps x = x + eps.
Proof. intros H. unfold clamp_abs, sabs. rewrite sign_pos, Rabs_right by lra. ring. Qed.
Lemma clamp_abs_neg eps x : x < 0 -> clamp_abs eps x = x - eps.
Proof. intros H. unfold clamp_abs, sabs. rewrite sign_neg, Rabs_left by lra. ring. Qed.
Lemma clamp_abs_mag eps x : 0 < eps -> eps <= Rabs (clamp_abs eps x).
Proof.
  intros He. destruct (Rlt_dec x 0).
  - rewrite clamp_abs_neg, Rabs_left by lra. lra.
  - rewrite clamp_abs_nonneg, Rabs_right by lra. lra.
Qed.

Lemma dist2_pnorm n g x y : is_pnorm n 2 x y (tensor_dist n g (Number 2) x y).
Proof.
  unfold is_pnorm, tensor_dist. split; [apply nrm_nonneg|]. rewrite nrm_sq2. unfold dot, vsub.
  apply Rsum_ext. intros i _. rewrite pow2_abs. ring.
Qed.
Definition ones2 : vec := fun _ => 1.
Lemma dist_p_refuted g p : (1 <= p)%nat -> p <> 2%nat ->
  exists x y, ~ is_pnorm 2 p x y (tensor_dist 2 g (Number p) x y).
Proof.
  intros H1 H2. exists ones2, vzero. unfold is_pnorm, tensor_dist. intros [_ E].
  assert (N : nrm 2 (vsub ones2 vzero) = sqrt 2).
  { unfold nrm. f_equal. cbn. unfold vsub, ones2, vzero. ring. }
  rewrite N in E. cbn [Rsum] in E. unfold ones2, vzero in E.
  rewrite Rminus_0_r, Rabs_R1, pow1 in E.
  assert (SQ : sqrt 2 * sqrt 2 = 2) by (apply sqrt_sqrt; lra).
  assert (B : 1 < sqrt 2) by (rewrite <- sqrt_1; apply sqrt_lt_1; lra).
  destruct p as [|[|[|p]]]; try lia.
  - simpl in E. nra.
  - assert (1 <= sqrt 2 ^ p) by (apply pow_R1_Rle; lra).
    assert (H3 : sqrt 2 ^ S (S (S p)) = sqrt 2 * sqrt 2 * (sqrt 2 * sqrt 2 ^ p)) by (simpl; ring).
    rewrite H3, SQ in E. nra.
Qed.
