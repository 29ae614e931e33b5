(** A rotation of the plane, and concrete cases. *)
From Coq Require Import Reals List Bool Arith Lra Lia.
From Verif Require Import RVec OptimModel OptimSpec OptimInstances OptimDecaySpec RotationSpec RotationProofs ProductOptimInst ScaledOptimProofs.
Import ListNotations.
Local Open Scope R_scope.

Definition rot (x : vec) : vec := fun i => match i with
  | O => 3 / 5 * x O - 4 / 5 * x 1%nat | 1%nat => 4 / 5 * x O + 3 / 5 * x 1%nat | _ => x i end.
Lemma rot_rotation : rotation 2 rot.
Proof.
  split.
  - intros u v. apply vec_ext. intros [|[|i]]; unfold rot, vadd; cbn; lra.
  - intros a u. apply vec_ext. intros [|[|i]]; unfold rot, smul; cbn; lra.
  - intros u v. unfold dot, rot. cbn. lra.
Qed.
Lemma twice_turned T : rotation 2 T -> turned_oracle [T; T] twice twice.
Proof.
  intros H t xs i I. cbn in I. unfold twice.
  assert (Z : T vzero = vzero) by apply (t_zero _ _ H).
  destruct i as [|[|i]]; [| |lia]; cbn [turn_gradient nth]; f_equal; rewrite (turn_smul _ _ H); f_equal;
    destruct xs as [|x [|y xs]]; cbn; auto.
Qed.
Definition circle_and_disc {S} : list (param S) :=
  [{| man := Some (sphere 2); val := g34; grad := NoGrad; state := None |}; {| man := Some (ball 2 (-1)); val := smul (1 / 10) g34; grad := NoGrad; state := None |}].
Lemma circle_case : rotation 2 rot /\ Forall2 (fun T p => equivariant T (manifold_of p)) [rot; rot] (@circle_and_disc vec) /\
  Forall2 (fun T p => equivariant T (manifold_of p) /\ invariant_length T (manifold_of p) /\ single_moments p) [rot; rot] circle_and_disc /\
  turned_oracle [rot; rot] twice twice.
Proof.
  pose proof rot_rotation as H. split; [exact H|].
  pose proof (sphere_equivariant 2 rot H). pose proof (ball_equivariant 2 rot H (-1)). pose proof (sphere_length 2 rot H). pose proof (ball_length 2 rot H (-1)).
  split; [constructor; [assumption|constructor; [assumption|constructor]]|]. split; [|apply twice_turned, H].
  constructor; [split; [assumption|split; [assumption|exact I]]|constructor; [split; [assumption|split; [assumption|exact I]]|constructor]].
Qed.

(** Adam in the plane: gradient (5, 0) at the origin, and the same after turning. *)
Definition g50 : vec := fun i => match i with O => 5 | _ => 0 end.
Definition flat_at : adam_param := {| man := Some euclidean; val := vzero; grad := Dense g50; state := None |}.
Lemma adam_plane_differs h : 0 <= beta1 h < 1 -> 0 <= beta2 h < 1 -> 0 < eps h -> a_decay h = 0 -> amsgrad h = false -> a_lr h <> 0 ->
  val (fst (adam_update h (a_turned rot flat_at))) O = - a_lr h * (3 / (3 + eps h)) /\
  rot (val (fst (adam_update h flat_at))) O = - a_lr h * (3 / (5 + eps h)) /\
  val (fst (adam_update h (a_turned rot flat_at))) O <> rot (val (fst (adam_update h flat_at))) O.
Proof.
  intros B1 B2 E W AM L.
  destruct (adam_euclidean_differs h B1 B2 E W AM L) as [V1 [V2 N]].
  assert (Q : a_turned rot flat_at = plain_at).
  { unfold a_turned, flat_at, plain_at. cbn. f_equal.
    - apply vec_ext. intros [|[|i]]; unfold rot, vzero; cbn; lra.
    - f_equal. apply vec_ext. intros [|[|i]]; unfold rot, g50, g34; cbn; lra. }
  rewrite Q, V1. split; [reflexivity|].
  assert (S25 : sqrt 25 = 5) by (replace 25 with (5 * 5) by ring; apply sqrt_square; lra).
  assert (U0 : val (fst (adam_update h flat_at)) O = - a_lr h * (5 / (5 + eps h))).
  { unfold adam_update, flat_at. cbn [grad val state man manifold_of]. rewrite AM. cbn.
    unfold vadd, smul, adam_direction, vdivv, vdiv, denominator, vadd, vsqrt, vconst, first_moment, second_moment, bias_correction, vadd, smul, vmul, vzero, g50. cbn. rewrite W. unfold vdiv.
    match goal with |- context [sqrt ?a] => replace a with 25 by (field; lra) end. rewrite S25. field. lra. }
  assert (U1 : val (fst (adam_update h flat_at)) 1%nat = 0).
  { unfold adam_update, flat_at. cbn [grad val state man manifold_of]. rewrite AM. cbn.
    unfold vadd, smul, adam_direction, vdivv, vdiv, denominator, vadd, vsqrt, vconst, first_moment, second_moment, bias_correction, vadd, smul, vmul, vzero, g50. cbn. rewrite W. unfold Rdiv. ring. }
  assert (R0 : rot (val (fst (adam_update h flat_at))) O = - a_lr h * (3 / (5 + eps h))).
  { unfold rot. rewrite U0, U1. field. lra. }
  split; [exact R0|]. rewrite R0, <- V2, <- V1. exact N.
Qed.
