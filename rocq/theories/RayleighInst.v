(** The convergence statement for quadratic losses and its cases. *)
From Coq Require Import Reals List Arith Lra Lia.
From Verif Require Import RVec OptimModel CheckpointSpec FixedSpec FixedProofs FixedInst RayleighSpec SphereConvProofs RayleighProofs.
From Verif Require SphereModel SphereSpec SphereProofs.
From Verif Require Import OptimInstances.
Import ListNotations.
Local Open Scope R_scope.

Section Conv.
  Variables (d : nat) (m : nat -> nat -> R) (v : nat -> vec) (b : nat -> R) (j : nat) (gap spread : R) (h : sgd_hyper).
  Hypothesis EB : eigenbasis d m v b.
  Hypothesis IS : isolated d b j gap spread.
  Hypothesis H : plain_sgd h.
  Hypothesis L0 : 0 < lr h.
  Hypothesis L1 : 2 * lr h * spread <= 1.
  Let k := shrink (lr h) gap spread.
  Lemma shrink_range : 0 <= k < 1.
  Proof. exact (k_range d b j gap spread (lr h) IS L0). Qed.
  Lemma quad_run s (p : sgd_param) n t : man p = Some (sphere d) -> SphereSpec.on_sphere d None (val p) ->
    gradient_run h s (quad_grad d m) p t n (Nat.iter n (ray_step d m (lr h)) (val p)).
  Proof.
    intros E X. assert (E' : manifold_of p = sphere d) by (unfold manifold_of; now rewrite E). destruct (one_run (sphere d) (quad_grad d m) h (SphereSpec.on_sphere d None) H) with (n := n) (t := t) (s := s) (p := p) as (o' & T & V); auto.
    - intros x Hx. destruct (ray_vals d m v b (lr h) EB x Hx) as (D & _ & _ & O & _). exact O.
    - intros x Hx. apply sphere_rests in Hx. apply Hx.
    - exists o'. split; [exact T|exact V].
  Qed.
  Lemma near_dist y : SphereSpec.on_sphere d None y -> dot d (v j) y <> 0 -> nrm d (vsub y (nearer d (v j) y)) ^ 2 <= 2 * tan2 d v j y.
  Proof.
    intros [Y _] N. assert (J : (j < d)%nat) by apply IS. assert (VV : dot d (v j) (v j) = 1) by (rewrite (e_unit _ _ _ _ EB j j J J), Nat.eqb_refl; reflexivity).
    set (c := dot d (v j) y) in *.
    assert (C : c * c <= 1) by (pose proof (cauchy_schwarz d (v j) y) as Q; rewrite VV, Y in Q; fold c in Q; lra).
    assert (C0 : 0 < c * c) by (now apply Rsqr_pos_lt).
    assert (E : nrm d (vsub y (nearer d (v j) y)) ^ 2 = 2 - 2 * Rabs c).
    { rewrite nrm_sq2. unfold nearer. fold c. destruct Rle_dec as [P|P].
      - rewrite Rabs_pos_eq by exact P. rewrite dot_sub_l, !dot_sub_r, Y, VV, (dot_comm d y). fold c. ring.
      - rewrite Rabs_left by lra. rewrite dot_sub_l, !dot_sub_r, !dot_opp_l, !dot_opp_r, Y, VV, (dot_comm d y). fold c. ring. }
    rewrite E. unfold tan2. fold c.
    assert (A : Rabs c * Rabs c = c * c) by (rewrite <- Rabs_mult; apply Rabs_pos_eq; lra). pose proof (Rabs_pos c) as A0.
    assert (A1 : Rabs c <= 1) by (destruct (Rle_lt_dec (Rabs c) 1); [assumption|]; nra).
    apply Rle_trans with (2 * (1 - c * c)); [nra|]. apply Rmult_le_compat_l; [lra|].
    apply (Rmult_le_reg_r (c * c)); [exact C0|]. unfold Rdiv. rewrite (Rmult_assoc (1 - c * c)), Rinv_l by lra. nra.
  Qed.
  Lemma tan_of x : SphereSpec.on_sphere d None x -> dot d (v j) x <> 0 -> 0 <= tangent_of_angle d (v j) x /\ tangent_of_angle d (v j) x ^ 2 = tan2 d v j x.
  Proof.
    intros [X _] N. assert (J : (j < d)%nat) by apply IS. assert (VV : dot d (v j) (v j) = 1) by (rewrite (e_unit _ _ _ _ EB j j J J), Nat.eqb_refl; reflexivity).
    unfold tangent_of_angle, tan2. set (c := dot d (v j) x) in *.
    assert (C : c * c <= 1) by (pose proof (cauchy_schwarz d (v j) x) as Q; rewrite VV, X in Q; fold c in Q; lra).
    assert (0 < Rabs c) by (now apply Rabs_pos_lt). split.
    - apply Rmult_le_pos; [apply sqrt_pos|left; now apply Rinv_0_lt_compat].
    - unfold Rdiv. rewrite Rpow_mult_distr, pow2_sqrt by (simpl; lra). rewrite pow_inv. rewrite pow2_abs. simpl. now rewrite !Rmult_1_r.
  Qed.
  Lemma quad_rate s (p : sgd_param) : man p = Some (sphere d) -> SphereSpec.on_sphere d None (val p) -> dot d (v j) (val p) <> 0 -> forall n t,
    exists y, gradient_run h s (quad_grad d m) p t n y /\ SphereSpec.on_sphere d None y /\
    nrm d (vsub y (nearer d (v j) (val p))) <= sqrt 2 * k ^ n * tangent_of_angle d (v j) (val p).
  Proof.
    intros E X N n t. exists (Nat.iter n (ray_step d m (lr h)) (val p)). split; [now apply quad_run|].
    destruct (ray_iter d m v b j gap spread (lr h) EB IS L0 L1 n (val p) X N) as (I1 & I2 & I3). set (y := Nat.iter n _ _) in *. split; [exact I1|].
    assert (Ny : dot d (v j) y <> 0) by (intro Z; rewrite Z in I2; lra).
    assert (Nr : nearer d (v j) (val p) = nearer d (v j) y) by (unfold nearer; destruct Rle_dec as [P|P], Rle_dec as [Q|Q]; try reflexivity; exfalso; nra).
    rewrite Nr. pose proof (near_dist y I1 Ny) as Dg. destruct (tan_of (val p) X N) as [T0 T1]. pose proof shrink_range as K.
    assert (Q0 : 0 <= k ^ n) by (apply pow_le; lra).
    apply Rsqr_incr_0; [|apply nrm_nonneg|apply Rmult_le_pos; [apply Rmult_le_pos; [apply sqrt_pos|exact Q0]|exact T0]].
    rewrite !Rsqr_mult, Rsqr_sqrt by lra. rewrite !Rsqr_pow2, T1. eapply Rle_trans; [exact Dg|]. fold k in I3. lra.
  Qed.
  Lemma quad_limit s (p : sgd_param) : man p = Some (sphere d) -> SphereSpec.on_sphere d None (val p) -> dot d (v j) (val p) <> 0 -> forall e, 0 < e ->
    exists N, forall n t, (N <= n)%nat -> exists y, gradient_run h s (quad_grad d m) p t n y /\ SphereSpec.on_sphere d None y /\
      nrm d (vsub y (nearer d (v j) (val p))) < e.
  Proof.
    intros E X Nz e He. pose proof shrink_range as [C0 C1]. destruct (tan_of (val p) X Nz) as [Q _]. set (q := tangent_of_angle d (v j) (val p)) in *.
    assert (S2 : 0 < sqrt 2) by (apply sqrt_lt_R0; lra).
    destruct (pow_lt_1_zero k) with (y := e / (sqrt 2 * (q + 1))) as [N HN]; [rewrite Rabs_pos_eq; lra|apply Rdiv_lt_0_compat; [lra|apply Rmult_lt_0_compat; lra]|].
    exists N. intros n t Le. destruct (quad_rate s p E X Nz n t) as (y & R & O & B). exists y. split; [exact R|]. split; [exact O|].
    specialize (HN n Le). rewrite Rabs_pos_eq in HN by (apply pow_le; lra). fold q in B.
    assert (0 <= k ^ n) by (apply pow_le; lra). assert (P : 0 < sqrt 2 * (q + 1)) by (apply Rmult_lt_0_compat; lra).
    apply (Rmult_lt_compat_r (sqrt 2 * (q + 1))) in HN; [|exact P]. unfold Rdiv in HN. rewrite Rmult_assoc, Rinv_l, Rmult_1_r in HN by lra.
    eapply Rle_lt_trans; [exact B|]. eapply Rle_lt_trans; [|exact HN]. replace (sqrt 2 * k ^ n * q) with (k ^ n * (sqrt 2 * q)) by ring.
    apply Rmult_le_compat_l; [assumption|]. apply Rmult_le_compat_l; lra.
  Qed.
  (** starting points orthogonal to v j stay orthogonal to it *)
  Lemma quad_orthogonal s (p : sgd_param) : man p = Some (sphere d) -> SphereSpec.on_sphere d None (val p) -> dot d (v j) (val p) = 0 -> forall n t,
    exists y, gradient_run h s (quad_grad d m) p t n y /\ SphereSpec.on_sphere d None y /\ dot d (v j) y = 0.
  Proof.
    intros E X Z n t. exists (Nat.iter n (ray_step d m (lr h)) (val p)). split; [now apply quad_run|].
    induction n as [|n [I1 I2]]; [now split|]. change (Nat.iter (S n) ?f ?x) with (f (Nat.iter n f x)).
    destruct (ray_vals d m v b (lr h) EB _ I1) as (D & _ & _ & O & V). split; [exact O|]. rewrite V by apply IS. rewrite I2. unfold Rdiv. ring.
  Qed.
  (** the loss at v j is the smallest on the sphere *)
  Lemma quad_best y : SphereSpec.on_sphere d None y -> dot d (v j) (mat_vec d m (v j)) <= dot d y (mat_vec d m y).
  Proof.
    intros [Y _]. pose proof (rho_range d m v b j gap spread EB IS y Y) as Rg. unfold rho in Rg. assert (J : (j < d)%nat) by apply IS.
    rewrite (coord_mat d m v b EB j (v j) J). rewrite (e_unit _ _ _ _ EB j j J J), Nat.eqb_refl. lra.
  Qed.
End Conv.

(** ** A case: the matrix diag(3, 1), from (4/5, 3/5) *)
Definition diag31 (i k : nat) : R := if Nat.eqb i k then match i with O => 3 | _ => 1 end else 0.
Definition unit_vec (i : nat) : vec := fun k => if Nat.eqb i k then 1 else 0.
Definition eig31 (i : nat) : R := match i with O => 3 | _ => 1 end.
Definition h_ray : sgd_hyper := {| lr := 1 / 4; momentum := 0; dampening := 0; weight_decay := 0; nesterov := false; stabilize := Some 5%nat |}.
Definition start : vec := fun i => match i with O => 4 / 5 | 1%nat => 3 / 5 | _ => 0 end.
Lemma ray_case : eigenbasis 2 diag31 unit_vec eig31 /\ isolated 2 eig31 1 2 2 /\ plain_sgd h_ray /\ 0 < lr h_ray /\ 2 * lr h_ray * 2 <= 1 /\
  SphereSpec.on_sphere 2 None start /\ dot 2 (unit_vec 1) start <> 0.
Proof.
  split; [split|].
  - intros i k _ _. unfold diag31. rewrite (Nat.eqb_sym k i). destruct (Nat.eqb_spec i k) as [->|]; reflexivity.
  - intros [|[|i]] [|[|k]] I K; try lia; unfold mat_vec, Rsum, diag31, unit_vec, eig31; simpl; ring.
  - intros [|[|i]] [|[|k]] I K; try lia; unfold dot, Rsum, unit_vec; simpl; ring.
  - intros x y. unfold dot, Rsum, unit_vec. simpl. ring.
  - split; [|split; [now repeat split|]].
    + split; [lia|]. split; [lra|]. intros [|[|i]] I Ne; try lia. unfold eig31. lra.
    + split; [simpl; lra|]. split; [simpl; lra|]. split; [split; [|exact I]; unfold dot, Rsum, start; simpl; lra|]. unfold dot, Rsum, unit_vec, start. simpl. lra.
Qed.
