(** Gradients of half squared distances: general facts and the sphere. *)
From Coq Require Import Reals Lra Lia Psatz.
From Coquelicot Require Import Coquelicot.
From Verif Require Import RVec GradSpec.
From Verif Require StereoModel StereoSpec SphereModel SphereSpec SphereProofs.
Local Open Scope R_scope.

Definition basis (i : nat) : vec := fun j => if Nat.eqb j i then 1 else 0.
Lemma dot_basis n g i : (i < n)%nat -> dot n g (basis i) = g i.
Proof.
  unfold dot, basis. induction n; intros H; [lia|].
  cbn [Rsum]. destruct (Nat.eq_dec i n) as [->|N].
  - rewrite Nat.eqb_refl.
    replace (Rsum n (fun j => g j * (if Nat.eqb j n then 1 else 0))) with (Rsum n (fun _ => 0)).
    + rewrite Rsum_zero; ring.
    + apply Rsum_ext; intros j Hj. destruct (Nat.eqb_spec j n); [lia|ring].
  - rewrite IHn by lia. destruct (Nat.eqb_spec n i); [lia|ring].
Qed.
Lemma gradient_unique n f x g h : gradient n f x g -> gradient n f x h ->
  StereoSpec.same n g h.
Proof.
  intros G H i Hi. specialize (G (basis i)); specialize (H (basis i)).
  rewrite dot_basis in * by auto.
  apply is_derive_unique in G; apply is_derive_unique in H. congruence.
Qed.

Lemma half_sq_derive (f : R -> R) (l : R) : is_derive f 0 l ->
  is_derive (fun t => f t ^ 2 / 2) 0 (f 0 * l).
Proof.
  intros H. auto_derive.
  - exists l; exact H.
  - replace (Derive (fun x => f x) 0) with l by (symmetry; exact (is_derive_unique _ _ _ H)). field.
Qed.

(** a function equal to another near 0 *)
Lemma derive_near (f g : R -> R) l : locally 0 (fun t => g t = f t) -> is_derive g 0 l -> is_derive f 0 l.
Proof. apply is_derive_ext_loc. Qed.

(** affine functions *)
Lemma affine_derive a b : is_derive (fun t => a + t * b) 0 b.
Proof. auto_derive; auto; ring. Qed.

(** strict inequalities persist near a point of continuity *)
Lemma near_gt (f : R -> R) l c : is_derive f 0 l -> c < f 0 -> locally 0 (fun t => c < f t).
Proof.
  intros D H. assert (C : continuous f 0) by (apply (ex_derive_continuous (V := R_NormedModule) f 0); exists l; exact D).
  apply (C (fun z => c < z)). apply open_gt. exact H.
Qed.
Lemma near_lt (f : R -> R) l c : is_derive f 0 l -> f 0 < c -> locally 0 (fun t => f t < c).
Proof.
  intros D H. assert (C : continuous f 0) by (apply (ex_derive_continuous (V := R_NormedModule) f 0); exists l; exact D).
  apply (C (fun z => z < c)). apply open_lt. exact H.
Qed.

(** ** Sphere *)
Section Sphere.
  Import SphereModel SphereSpec.
  Variables (n : nat) (P : option (nat -> nat -> R)) (eps : R).
  Hypothesis EPS : 0 < eps <= / 2.

  Lemma is_derive_acos x : -1 < x < 1 -> is_derive acos x (- / sqrt (1 - x ^ 2)).
  Proof.
    intros H. apply is_derive_Reals.
    replace (x ^ 2) with (Rsqr x) by (unfold Rsqr; ring).
    replace (- / sqrt (1 - x²)) with (-1 / sqrt (1 - x²)) by (unfold Rdiv; ring).
    rewrite <- (derive_pt_acos x H). unfold derive_pt. exact (proj2_sig (derivable_pt_acos x H)).
  Qed.

  Lemma clamp_in a : -1 + eps < a < 1 - eps -> StereoModel.clamp (-1 + eps) (1 - eps) a = a.
  Proof. intros H; unfold StereoModel.clamp. rewrite Rmax_left, Rmin_left; lra. Qed.
  Lemma clamp_hi a : 1 - eps < a -> StereoModel.clamp (-1 + eps) (1 - eps) a = 1 - eps.
  Proof. intros H; unfold StereoModel.clamp. rewrite Rmax_left, Rmin_right; lra. Qed.
  Lemma clamp_lo a : a < -1 + eps -> StereoModel.clamp (-1 + eps) (1 - eps) a = -1 + eps.
  Proof. intros H; unfold StereoModel.clamp. rewrite Rmax_right, Rmin_left; lra. Qed.

  Lemma dot_line x y v t : dot n (vadd x (smul t v)) y = dot n x y + t * dot n v y.
  Proof. rewrite dot_add_l, dot_smul_l. reflexivity. Qed.

  Lemma dist_deriv x y v : Rabs (dot n x y) < 1 - eps ->
    is_derive (fun t => dist n eps (vadd x (smul t v)) y) 0
      (- / sqrt (1 - dot n x y ^ 2) * dot n v y).
  Proof.
    intros H. apply Rabs_def2 in H.
    set (s := dot n x y). fold s in H. set (p := dot n v y).
    assert (A := affine_derive s p).
    apply derive_near with (f := fun t => dist n eps (vadd x (smul t v)) y) (g := fun t => acos (s + t * p)).
    - assert (L1 := near_gt _ _ (-1 + eps) A ltac:(cbn beta; lra)).
      assert (L2 := near_lt _ _ (1 - eps) A ltac:(cbn beta; lra)).
      generalize (filter_and _ _ L1 L2). apply filter_imp. intros t [B1 B2].
      unfold dist, inner. rewrite dot_line. fold s p. rewrite clamp_in by lra. reflexivity.
    - assert (C : is_derive acos (s + 0 * p) (- / sqrt (1 - s ^ 2))).
      { replace (s + 0 * p) with s by ring. apply is_derive_acos; lra. }
      assert (D := is_derive_comp acos (fun t => s + t * p) 0 _ _ C A).
      replace (- / sqrt (1 - s ^ 2) * p) with (scal p (- / sqrt (1 - s ^ 2)))
        by (unfold scal; simpl; unfold mult; simpl; ring).
      exact D.
  Qed.

  Lemma sphere_gradient x y : Rabs (dot n x y) < 1 - eps ->
    gradient n (half_square (dist n eps) y) x
      (smul (- (dist n eps x y / sqrt (1 - dot n x y ^ 2))) y).
  Proof.
    intros H v. unfold half_square.
    assert (D := half_sq_derive _ _ (dist_deriv x y v H)). cbn beta in D.
    replace (vadd x (smul 0 v)) with x in D
      by (apply vec_ext; intros; unfold vadd, smul; ring).
    rewrite dot_smul_l, (dot_comm n y v).
    replace (- (dist n eps x y / sqrt (1 - dot n x y ^ 2)) * dot n v y)
      with (dist n eps x y * (- / sqrt (1 - dot n x y ^ 2) * dot n v y)) by (unfold Rdiv; ring).
    exact D.
  Qed.

  (** where the clamp of dist is active the distance is locally constant *)
  Lemma sphere_flat x y g : 1 - eps < Rabs (dot n x y) ->
    gradient n (half_square (dist n eps) y) x g -> StereoSpec.same n g vzero.
  Proof.
    intros H G. apply (gradient_unique _ _ _ _ _ G). intros v. unfold half_square.
    set (s := dot n x y) in *. set (p := dot n v y).
    assert (A := affine_derive s p).
    replace (dot n vzero v) with 0
      by (symmetry; unfold dot, vzero; rewrite (Rsum_ext n _ (fun _ => 0)) by (intros; ring); apply Rsum_zero).
    destruct (Rle_dec 0 s) as [S|S].
    - rewrite Rabs_right in H by lra.
      apply derive_near with (g := fun t => acos (1 - eps) ^ 2 / 2).
      + assert (L := near_gt _ _ (1 - eps) A ltac:(cbn beta; lra)).
        revert L; apply filter_imp; intros t B.
        unfold dist, inner. rewrite dot_line. fold s p. rewrite clamp_hi by lra. reflexivity.
      + apply (@is_derive_const R_AbsRing R_NormedModule).
    - rewrite Rabs_left in H by lra.
      apply derive_near with (g := fun t => acos (-1 + eps) ^ 2 / 2).
      + assert (L := near_lt _ _ (-1 + eps) A ltac:(cbn beta; lra)).
        revert L; apply filter_imp; intros t B.
        unfold dist, inner. rewrite dot_line. fold s p. rewrite clamp_lo by lra. reflexivity.
      + apply (@is_derive_const R_AbsRing R_NormedModule).
  Qed.
End Sphere.
