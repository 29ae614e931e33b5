(** The convergence statement, and an oscillation for large learning rates. *)
From Coq Require Import Reals List Arith Lra Lia.
From Verif Require Import RVec OptimModel CheckpointSpec FixedSpec FixedProofs FixedInst SphereConvSpec SphereConvProofs.
From Verif Require SphereModel SphereSpec.
From Verif Require Import OptimInstances.
Import ListNotations.
Local Open Scope R_scope.

Lemma sphere_run d a h s (p : sgd_param) n t : plain_sgd h -> (forall x, SphereSpec.on_sphere d None x -> SphereSpec.on_sphere d None (sph_step d a (lr h) x)) ->
  man p = Some (sphere d) -> SphereSpec.on_sphere d None (val p) -> linear_run h s a p t n (Nat.iter n (sph_step d a (lr h)) (val p)).
Proof.
  intros H Ps E X. assert (E' : manifold_of p = sphere d) by (unfold manifold_of; now rewrite E). destruct (one_run (sphere d) (fun _ => a) h (SphereSpec.on_sphere d None) H Ps) with (n := n) (t := t) (s := s) (p := p) as (o' & T & V); auto.
  - intros x Hx. apply sphere_rests in Hx. apply Hx.
  - exists o'. split; [exact T|exact V].
Qed.
Lemma opposite_dist d a y : vadd y (vdiv a (nrm d a)) = vsub y (opposite d a).
Proof. apply vec_ext. intro i. unfold vadd, vsub, opposite, vopp. ring. Qed.
Section Conv.
  Variables (d : nat) (a : vec) (h : sgd_hyper).
  Hypothesis H : plain_sgd h.
  Hypothesis A0 : 0 < nrm d a.
  Hypothesis L0 : 0 < lr h.
  Hypothesis L1 : lr h * nrm d a <= 1.
  Lemma contraction_range : 0 < contraction d a (lr h) < 1.
  Proof.
    unfold contraction. assert (0 < lr h * nrm d a) by (now apply Rmult_lt_0_compat). split; [apply Rdiv_lt_0_compat; lra|].
    apply (Rmult_lt_reg_r (1 + 2 * (lr h * nrm d a))); [lra|]. unfold Rdiv. rewrite Rmult_assoc, Rinv_l by lra. lra.
  Qed.
  Lemma sphere_rate s (p : sgd_param) : man p = Some (sphere d) -> SphereSpec.on_sphere d None (val p) -> dot d a (val p) < nrm d a -> forall n t,
    exists y, linear_run h s a p t n y /\ SphereSpec.on_sphere d None y /\
    nrm d (vsub y (opposite d a)) <= 2 * contraction d a (lr h) ^ n * half_tangent d a (val p).
  Proof.
    intros E X Lt n t. exists (Nat.iter n (sph_step d a (lr h)) (val p)). split; [|].
    - apply sphere_run; auto. intros x Hx. now apply (step_vals d a (lr h)).
    - destruct (iter_gap d a (lr h) A0 L0 L1 n (val p) X Lt) as (I1 & I2 & I3). split; [exact I1|]. rewrite <- opposite_dist.
      pose proof (dist_gap d a _ I1 I2) as Dg. pose proof contraction_range as [C0 _]. pose proof (range d a (val p) X) as Rg.
      assert (G0 : 0 <= gap d a (val p)) by (unfold gap; apply Rmult_le_pos; [lra|]; left; apply Rinv_0_lt_compat; lra).
      assert (Q0 : 0 <= contraction d a (lr h) ^ n) by (apply pow_le; lra).
      apply Rsqr_incr_0; [|apply nrm_nonneg|apply Rmult_le_pos; [apply Rmult_le_pos; [lra|exact Q0]|apply sqrt_pos]].
      unfold half_tangent. fold (gap d a (val p)). rewrite !Rsqr_mult, Rsqr_sqrt by exact G0.
      rewrite Rsqr_pow2. eapply Rle_trans; [exact Dg|]. unfold Rsqr at 1. rewrite Rsqr_pow2. fold (rate d a (lr h)) in I3. change (contraction d a (lr h)) with (rate d a (lr h)). lra.
  Qed.
  Lemma sphere_limit s (p : sgd_param) : man p = Some (sphere d) -> SphereSpec.on_sphere d None (val p) -> dot d a (val p) < nrm d a -> forall e, 0 < e ->
    exists N, forall n t, (N <= n)%nat -> exists y, linear_run h s a p t n y /\ SphereSpec.on_sphere d None y /\ nrm d (vsub y (opposite d a)) < e.
  Proof.
    intros E X Lt e He. pose proof contraction_range as [C0 C1]. set (q := half_tangent d a (val p)). assert (Q : 0 <= q) by apply sqrt_pos.
    destruct (pow_lt_1_zero (contraction d a (lr h))) with (y := e / (2 * (q + 1))) as [N HN]; [rewrite Rabs_pos_eq; lra|apply Rdiv_lt_0_compat; lra|].
    exists N. intros n t Le. destruct (sphere_rate s p E X Lt n t) as (y & R & O & B). exists y. split; [exact R|]. split; [exact O|].
    specialize (HN n Le). rewrite Rabs_pos_eq in HN by (apply pow_le; lra). fold q in B.
    assert (0 <= contraction d a (lr h) ^ n) by (apply pow_le; lra).
    apply (Rmult_lt_compat_r (2 * (q + 1))) in HN; [|lra]. unfold Rdiv in HN. rewrite Rmult_assoc, Rinv_l, Rmult_1_r in HN by lra. nra.
  Qed.
  Lemma opposite_best y : SphereSpec.on_sphere d None y -> SphereSpec.on_sphere d None (opposite d a) /\ dot d a (opposite d a) <= dot d a y.
  Proof.
    intro Y. pose proof (range d a y Y) as Rg. unfold opposite. assert (AA := nrm_sq d a). split; [split; [|exact I]|].
    - rewrite dot_opp_l, dot_opp_r, dot_vdiv_l, dot_vdiv_r, <- AA. field. lra.
    - rewrite dot_opp_r, dot_vdiv_r, <- AA. replace (- (nrm d a * nrm d a / nrm d a)) with (- nrm d a) by (field; lra). lra.
  Qed.
End Conv.

(** ** Learning rate 40/7 with |a| = 1: period two *)
Definition west : vec := fun i => match i with O => -1 | _ => 0 end.
Definition side (s : R) : vec := fun i => match i with O => 4 / 5 | 1%nat => s * (3 / 5) | _ => 0 end.
Definition h_far : sgd_hyper := {| lr := 40 / 7; momentum := 0; dampening := 0; weight_decay := 0; nesterov := false; stabilize := None |}.
Definition at_side : sgd_param := {| man := Some (sphere 2); val := side 1; grad := NoGrad; state := None |}.
Lemma west_nrm : nrm 2 west = 1.
Proof. unfold nrm. replace (dot 2 west west) with 1 by (unfold dot, Rsum, west; simpl; ring). apply sqrt_1. Qed.
Lemma side_on s : s * s = 1 -> SphereSpec.on_sphere 2 None (side s).
Proof. intro S. split; [|exact I]. unfold dot, Rsum, side. simpl. replace (0 + 4 / 5 * (4 / 5) + s * (3 / 5) * (s * (3 / 5))) with (16 / 25 + s * s * (9 / 25)) by field || idtac. rewrite ?S. nra. Qed.
Lemma side_step s : s * s = 1 -> sph_step 2 west (40 / 7) (side s) = side (- s).
Proof.
  intro S. unfold sph_step. cbn [sphere retr egrad2rgrad]. unfold SphereModel.retr, SphereModel.projx, SphereModel.proju, SphereModel.project_on_subspace.
  assert (C : dot 2 (side s) west = - (4 / 5)) by (unfold dot, Rsum, side, west; simpl; lra).
  rewrite C. set (w := vadd _ _).
  assert (W : forall i, w i = 25 / 7 * side (- s) i).
  { intro i. unfold w, vadd, vsub, smul, west, side. destruct i as [|[|i]]; lra. }
  assert (N : nrm 2 w = 25 / 7).
  { unfold nrm. replace (dot 2 w w) with ((25 / 7) ^ 2); [apply sqrt_pow2; lra|]. unfold dot, Rsum. simpl. rewrite !W. unfold side. nra. }
  apply vec_ext. intro i. unfold vdiv. rewrite N, W. field.
Qed.
Lemma pow_sq n : (-1) ^ n * (-1) ^ n = 1.
Proof. rewrite <- Rpow_mult_distr. replace (-1 * -1) with 1 by ring. apply pow1. Qed.
Lemma side_iter n : Nat.iter n (sph_step 2 west (40 / 7)) (side 1) = side ((-1) ^ n).
Proof.
  induction n as [|n IH]; [reflexivity|]. change (Nat.iter (S n) ?f ?x) with (f (Nat.iter n f x)). rewrite IH, side_step by apply pow_sq.
  f_equal. simpl. ring.
Qed.
Lemma oscillates : plain_sgd h_far /\ nrm 2 west = 1 /\ SphereSpec.on_sphere 2 None (val at_side) /\ dot 2 west (val at_side) < nrm 2 west /\
  forall n t, linear_run h_far None west at_side t n (side ((-1) ^ n)).
Proof.
  split; [now repeat split|]. split; [apply west_nrm|]. split; [apply side_on; ring|]. split; [rewrite west_nrm; unfold dot, Rsum, west, at_side, side; simpl; lra|].
  intros n t. rewrite <- side_iter.
  (* the invariant: the two points *)
  destruct (one_run (sphere 2) (fun _ => west) h_far (fun x => exists s, s * s = 1 /\ x = side s)) with (n := n) (t := t) (s := @None nat) (p := at_side) as (o' & T & V).
  - now repeat split.
  - intros x (s & Hs & ->). exists (- s). split; [lra|]. exact (side_step s Hs).
  - intros x (s & Hs & ->). apply (sphere_rests 2 (side s)). now apply side_on.
  - reflexivity.
  - exists 1. split; [ring|reflexivity].
  - exists o'. split; [exact T|exact V].
Qed.
(** ** A case *)
Definition h_near : sgd_hyper := {| lr := 1 / 2; momentum := 0; dampening := 0; weight_decay := 0; nesterov := false; stabilize := Some 3%nat |}.
Lemma near_case : plain_sgd h_near /\ 0 < nrm 2 west /\ 0 < lr h_near /\ lr h_near * nrm 2 west <= 1 /\
  SphereSpec.on_sphere 2 None (val at_side) /\ dot 2 west (val at_side) < nrm 2 west.
Proof.
  rewrite west_nrm. split; [now repeat split|]. split; [lra|]. split; [simpl; lra|]. split; [simpl; lra|]. split; [apply side_on; ring|].
  unfold dot, Rsum, west, at_side, side. simpl. lra.
Qed.
