(** Concrete cases for the coaddition properties. *)
From Coq Require Import Reals Lra.
From Verif Require Import RVec StereoModel StereoSpec GyroAlgebra StereoTrig StereoProofs StereoProofs4 StereoPlaneInst StereoCo.
Local Open Scope R_scope.

Lemma v2_ext a b c d : a = c -> b = d -> v2 a b = v2 c d. Proof. intros -> ->. reflexivity. Qed.
Lemma safe_v2 a b : a ^ 2 + b ^ 2 <= (9 / 10) ^ 2 -> safe 2 (-1) (v2 a b).
Proof.
  intros H. unfold safe. replace (- (-1)) with 1 by ring. rewrite sqrt_1. unfold nrm. rewrite dot_v2.
  assert (sqrt (a * a + b * b) <= sqrt ((9 / 10) ^ 2)) by (apply sqrt_le_1_alt; lra).
  rewrite (sqrt_pow2 (9 / 10)) in H0 by lra. assert (V5 : / 10 ^ 5 = 1 / 100000) by (simpl; field). lra.
Qed.
Lemma coadd_v2 a b c d : safe 2 (-1) (v2 a b) -> safe 2 (-1) (v2 c d) ->
  mobius_coadd 2 (-1) (v2 a b) (v2 c d) =
  v2 (((1 - (c * c + d * d)) * a + (1 - (a * a + b * b)) * c) / (1 - (a * a + b * b) * (c * c + d * d)))
     (((1 - (c * c + d * d)) * b + (1 - (a * a + b * b)) * d) / (1 - (a * a + b * b) * (c * c + d * d))).
Proof.
  intros X Y. rewrite ball_coadd_value; [|lra|apply safe_in_domain; [lra|exact X]|exact Y]. unfold conum, coden. rewrite !dot_v2.
  apply vec_ext. intros [|[|i]]; unfold vdiv, vadd, smul, v2; cbn; [f_equal; [ring|f_equal; ring]|f_equal; [ring|f_equal; ring]|]. unfold Rdiv. ring.
Qed.
Lemma co_case : safe 2 (-1) (v2 (1/2) 0) /\ safe 2 (-1) (v2 0 (1/2)) /\ in_domain 2 (-1) (v2 (1/2) 0).
Proof. split; [apply safe_v2; lra|]. split; [apply safe_v2; lra|]. apply safe_in_domain; [lra|apply safe_v2; lra]. Qed.
(** (x boxplus x) boxplus z differs from x boxplus (x boxplus z) *)
Lemma co_not_assoc : ~ forall x y z, safe 2 (-1) x -> safe 2 (-1) y -> safe 2 (-1) z ->
  same 2 (mobius_coadd 2 (-1) (mobius_coadd 2 (-1) x y) z) (mobius_coadd 2 (-1) x (mobius_coadd 2 (-1) y z)).
Proof.
  intros H. specialize (H (v2 (1/2) 0) (v2 (1/2) 0) (v2 0 (1/2))).
  assert (X : safe 2 (-1) (v2 (1/2) 0)) by (apply safe_v2; lra). assert (Z : safe 2 (-1) (v2 0 (1/2))) by (apply safe_v2; lra).
  specialize (H X X Z). rewrite (coadd_v2 (1/2) 0 (1/2) 0 X X), (coadd_v2 (1/2) 0 0 (1/2) X Z) in H.
  rewrite (v2_ext _ _ (4/5) 0) in H by field. rewrite (v2_ext (((1 - (0 * 0 + 1 / 2 * (1 / 2))) * (1 / 2) + (1 - (1 / 2 * (1 / 2) + 0 * 0)) * 0) / (1 - (1 / 2 * (1 / 2) + 0 * 0) * (0 * 0 + 1 / 2 * (1 / 2)))) _ (2/5) (2/5)) in H by field.
  rewrite (coadd_v2 (4/5) 0 0 (1/2)), (coadd_v2 (1/2) 0 (2/5) (2/5)) in H; try (apply safe_v2; lra).
  assert (H0 := H O ltac:(auto)). cbn in H0. lra.
Qed.
(** the denominator of the documented formula, 1 + k^2|x|^2|y|^2 *)
Lemma co_documented : ~ forall x y, safe 2 (-1) x -> safe 2 (-1) y ->
  same 2 (mobius_coadd 2 (-1) x y)
    (vdiv (vadd (smul (1 + -1 * dot 2 y y) x) (smul (1 + -1 * dot 2 x x) y)) (1 + (-1) ^ 2 * dot 2 x x * dot 2 y y)).
Proof.
  intros H. assert (X : safe 2 (-1) (v2 (1/2) 0)) by (apply safe_v2; lra). specialize (H _ _ X X O ltac:(auto)).
  rewrite (coadd_v2 _ _ _ _ X X) in H. rewrite !dot_v2 in H. unfold vdiv, vadd, smul, v2 in H. cbn in H. lra.
Qed.
