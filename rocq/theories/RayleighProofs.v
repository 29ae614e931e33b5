(** Lemmas: RiemannianSGD on the sphere finds an eigenvector of the smallest eigenvalue. *)
From Coq Require Import Reals List Arith Lra Lia Psatz.
From Verif Require Import RVec OptimModel CheckpointSpec FixedSpec FixedProofs FixedInst RayleighSpec SphereConvProofs.
From Verif Require SphereModel SphereSpec SphereProofs.
From Verif Require Import OptimInstances.
Import ListNotations.
Local Open Scope R_scope.

Lemma Rsum_one n j (u : nat -> R) : (j < n)%nat -> (forall i, (i < n)%nat -> i <> j -> 0 <= u i) -> u j <= Rsum n u.
Proof.
  induction n as [|n IH]; intros J H; [lia|]. simpl. destruct (Nat.eq_dec j n) as [->|Ne].
  - assert (0 <= Rsum n u) by (apply Rsum_nonneg; intros i I; apply H; lia). lra.
  - assert (u j <= Rsum n u) by (apply IH; [lia|]; intros i I1 I2; apply H; lia). assert (0 <= u n) by (apply H; lia). lra.
Qed.
Section Rayleigh.
  Variables (d : nat) (m : nat -> nat -> R) (v : nat -> vec) (b : nat -> R) (j : nat) (gap spread l : R).
  Hypothesis EB : eigenbasis d m v b.
  Hypothesis IS : isolated d b j gap spread.
  Hypothesis L0 : 0 < l.
  Hypothesis L1 : 2 * l * spread <= 1.
  Let c (i : nat) (x : vec) : R := dot d (v i) x.
  Definition ray_step (x : vec) : vec := retr (sphere d) x (smul (- l) (egrad2rgrad (sphere d) x (quad_grad d m x))).
  Lemma coord_mat i x : (i < d)%nat -> dot d (v i) (mat_vec d m x) = b i * c i x.
  Proof.
    intro I. unfold c, dot, mat_vec. rewrite <- Rsum_scal.
    rewrite (Rsum_ext d (fun i0 => v i i0 * _) (fun i0 => Rsum d (fun k => v i i0 * (m i0 k * x k)))) by (intros; now rewrite Rsum_scal).
    rewrite Rsum_swap. apply Rsum_ext. intros k K.
    rewrite (Rsum_ext d _ (fun i0 => m k i0 * v i i0 * x k)) by (intros i0 I0; rewrite (e_sym _ _ _ _ EB i0 k) by assumption; ring).
    rewrite Rsum_scal_r. change (Rsum d (fun i0 => m k i0 * v i i0)) with (mat_vec d m (v i) k). rewrite (e_vec _ _ _ _ EB i k) by assumption. ring.
  Qed.
  Lemma coords x y : dot d x y = Rsum d (fun i => c i x * c i y).
  Proof. apply (e_basis _ _ _ _ EB). Qed.
  Definition rho (x : vec) : R := dot d x (mat_vec d m x).
  Definition fac (x : vec) (i : nat) : R := 1 + 2 * l * (rho x - b i).
  Lemma rho_range x : dot d x x = 1 -> b j <= rho x <= b j + spread.
  Proof.
    intro X. destruct IS as (J & G & Iso). unfold rho. rewrite coords. rewrite coords in X.
    rewrite (Rsum_ext d _ (fun i => b i * (c i x * c i x))) by (intros i I; unfold c at 2; rewrite coord_mat by assumption; ring).
    assert (B : forall i, (i < d)%nat -> b j <= b i <= b j + spread).
    { intros i I. destruct (Nat.eq_dec i j) as [->|Ne]; [lra|]. specialize (Iso i I Ne). lra. }
    split.
    - replace (b j) with (b j * Rsum d (fun i => c i x * c i x)) by (rewrite X; ring). rewrite <- Rsum_scal. apply Rsum_le. intros i I.
      apply Rmult_le_compat_r; [apply Rle_0_sqr|apply B, I].
    - replace (b j + spread) with ((b j + spread) * Rsum d (fun i => c i x * c i x)) by (rewrite X; ring). rewrite <- Rsum_scal. apply Rsum_le. intros i I.
      apply Rmult_le_compat_r; [apply Rle_0_sqr|apply B, I].
  Qed.
  Lemma ray_vals x : SphereSpec.on_sphere d None x ->
    exists D, 0 < D /\ D * D = Rsum d (fun i => (fac x i * c i x) * (fac x i * c i x)) /\
      SphereSpec.on_sphere d None (ray_step x) /\ forall i, (i < d)%nat -> c i (ray_step x) = fac x i * c i x / D.
  Proof.
    intros X. assert (X1 : dot d x x = 1) by apply X.
    set (u := smul (- l) (egrad2rgrad (sphere d) x (quad_grad d m x))). set (w := vadd x u).
    assert (W : forall i, (i < d)%nat -> c i w = fac x i * c i x).
    { intros i I. unfold w, u, c. cbn [sphere egrad2rgrad]. unfold SphereModel.proju, SphereModel.project_on_subspace, quad_grad.
      rewrite dot_add_r, dot_smul_r, dot_sub_r, !dot_smul_r, coord_mat by assumption. unfold c. fold (rho x). unfold fac. ring. }
    assert (U : SphereSpec.tangent d None x u).
    { split; [|exact I]. unfold u. cbn [sphere egrad2rgrad]. unfold SphereModel.proju, SphereModel.project_on_subspace. rewrite dot_smul_r, dot_sub_r, dot_smul_r, X1. ring. }
    exists (nrm d w).
    assert (DD : nrm d w * nrm d w = Rsum d (fun i => (fac x i * c i x) * (fac x i * c i x))).
    { rewrite nrm_sq, coords. apply Rsum_ext. intros i I. now rewrite W. }
    assert (D0 : nrm d w <> 0) by (apply (SphereProofs.step_nz d None); first [assumption|exact I]).
    split; [now apply nrm_pos|]. split; [exact DD|]. split; [apply (SphereProofs.retr_on d None); first [assumption|exact I]|].
    intros i I. unfold ray_step. cbn [sphere retr]. unfold SphereModel.retr, SphereModel.projx, SphereModel.project_on_subspace. fold u w.
    unfold c. rewrite dot_vdiv_r. fold (c i w). now rewrite W.
  Qed.
  (** 1 - c_j^2 over c_j^2: the squared tangent of the angle *)
  Definition tan2 (x : vec) : R := (1 - c j x * c j x) / (c j x * c j x).
  Let k := shrink l gap spread.
  Lemma k_range : 0 <= k < 1.
  Proof.
    destruct IS as (J & G & _). unfold k, shrink. assert (0 < 2 * l * gap) by (apply Rmult_lt_0_compat; lra).
    assert (2 * l * gap <= 2 * l * spread) by (apply Rmult_le_compat_l; lra).
    assert (0 < 2 * l * gap / (1 + 2 * l * spread)) by (apply Rdiv_lt_0_compat; lra).
    assert (2 * l * gap / (1 + 2 * l * spread) <= 1); [|lra].
    apply (Rmult_le_reg_r (1 + 2 * l * spread)); [lra|]. unfold Rdiv. rewrite Rmult_assoc, Rinv_l by lra. lra.
  Qed.
  Lemma fac_range x : dot d x x = 1 -> 1 <= fac x j /\ forall i, (i < d)%nat -> i <> j -> 0 <= fac x i <= k * fac x j.
  Proof.
    intro X. pose proof (rho_range x X) as Rg. destruct IS as (J & G & Iso). unfold fac.
    assert (E : 0 < 2 * l) by lra. assert (0 <= 2 * l * (rho x - b j)) by (apply Rmult_le_pos; lra).
    assert (2 * l * (rho x - b j) <= 2 * l * spread) by (apply Rmult_le_compat_l; lra).
    split; [lra|]. intros i I Ne. specialize (Iso i I Ne).
    assert (2 * l * - spread <= 2 * l * (rho x - b i)) by (apply Rmult_le_compat_l; lra). split; [lra|].
    assert (2 * l * gap <= 2 * l * (b i - b j)) by (apply Rmult_le_compat_l; lra).
    set (f := 2 * l * (rho x - b j)) in *. replace (2 * l * (rho x - b i)) with (f - 2 * l * (b i - b j)) by (unfold f; ring).
    unfold k, shrink. set (q := 2 * l * gap / (1 + 2 * l * spread)).
    assert (Q : q * (1 + 2 * l * spread) = 2 * l * gap) by (unfold q; field; lra).
    assert (Q0 : 0 <= q) by (unfold q; apply Rmult_le_pos; [apply Rmult_le_pos; lra|]; left; apply Rinv_0_lt_compat; lra).
    assert (q * (1 + f) <= q * (1 + 2 * l * spread)) by (apply Rmult_le_compat_l; lra). lra.
  Qed.
  Lemma ray_tan x : SphereSpec.on_sphere d None x -> c j x <> 0 ->
    SphereSpec.on_sphere d None (ray_step x) /\ 0 < c j (ray_step x) * c j x /\ tan2 (ray_step x) <= k * k * tan2 x.
  Proof.
    intros X N. assert (X1 : dot d x x = 1) by apply X. destruct (ray_vals x X) as (D & D0 & DD & O & V). destruct (fac_range x X1) as [F1 F2]. pose proof k_range as K.
    assert (J : (j < d)%nat) by apply IS. split; [exact O|].
    assert (C2 : 0 < c j x * c j x) by (apply Rsqr_pos_lt; exact N).
    rewrite V by exact J. split.
    - replace (fac x j * c j x / D * c j x) with (fac x j * (c j x * c j x) / D) by (field; lra). apply Rdiv_lt_0_compat; [apply Rmult_lt_0_compat; lra|exact D0].
    - unfold tan2. rewrite V by exact J. set (f := fac x j) in *.
      replace ((1 - f * c j x / D * (f * c j x / D)) / (f * c j x / D * (f * c j x / D))) with ((D * D - f * c j x * (f * c j x)) / (f * f * (c j x * c j x))) by (field; repeat split; lra || exact N).
      assert (B : D * D - f * c j x * (f * c j x) <= k * k * (f * f) * (1 - c j x * c j x)).
      { rewrite DD. rewrite coords in X1.
        assert (S : k * k * (f * f) * (c j x * c j x) - f * c j x * (f * c j x) <= Rsum d (fun i => k * k * (f * f) * (c i x * c i x) - fac x i * c i x * (fac x i * c i x))).
        { apply (Rsum_one d j (fun i => k * k * (f * f) * (c i x * c i x) - fac x i * c i x * (fac x i * c i x)) J). intros i I Ne. destruct (F2 i I Ne) as [A1 A2].
          assert (fac x i * fac x i <= k * f * (k * f)) by (apply Rmult_le_compat; lra).
          replace (k * k * (f * f) * (c i x * c i x) - fac x i * c i x * (fac x i * c i x)) with ((k * f * (k * f) - fac x i * fac x i) * (c i x * c i x)) by ring.
          apply Rmult_le_pos; [lra|apply Rle_0_sqr]. }
        rewrite Rsum_minus, Rsum_scal, X1 in S. lra. }
      assert (FF : 0 < f * f) by (apply Rmult_lt_0_compat; lra).
      apply (Rmult_le_reg_r (f * f * (c j x * c j x))); [now apply Rmult_lt_0_compat|].
      replace ((D * D - f * c j x * (f * c j x)) / (f * f * (c j x * c j x)) * (f * f * (c j x * c j x))) with (D * D - f * c j x * (f * c j x)) by (field; split; [exact N|lra]).
      replace (k * k * ((1 - c j x * c j x) / (c j x * c j x)) * (f * f * (c j x * c j x))) with (k * k * (f * f) * (1 - c j x * c j x)) by (field; exact N). exact B.
  Qed.
  Lemma ray_iter n x : SphereSpec.on_sphere d None x -> c j x <> 0 -> let y := Nat.iter n ray_step x in
    SphereSpec.on_sphere d None y /\ 0 < c j y * c j x /\ tan2 y <= (k ^ n) ^ 2 * tan2 x.
  Proof.
    intros X N y. subst y. induction n as [|n (I1 & I2 & I3)]; [simpl; split; [exact X|split; [apply Rsqr_pos_lt; exact N|lra]]|].
    change (Nat.iter (S n) ray_step x) with (ray_step (Nat.iter n ray_step x)). set (z := Nat.iter n ray_step x) in *.
    assert (Nz : c j z <> 0) by (intro Z; rewrite Z in I2; lra). destruct (ray_tan z I1 Nz) as (J1 & J2 & J3). split; [exact J1|]. split.
    - assert (0 < c j z * c j z) by (apply Rsqr_pos_lt; exact Nz). assert (P : 0 < (c j (ray_step z) * c j z) * (c j z * c j x)) by (now apply Rmult_lt_0_compat).
      replace ((c j (ray_step z) * c j z) * (c j z * c j x)) with ((c j z * c j z) * (c j (ray_step z) * c j x)) in P by ring.
      apply (Rmult_lt_reg_l (c j z * c j z)); [assumption|]. lra.
    - eapply Rle_trans; [exact J3|]. replace ((k ^ S n) ^ 2 * tan2 x) with (k * k * ((k ^ n) ^ 2 * tan2 x)) by (simpl; ring).
      apply Rmult_le_compat_l; [apply Rle_0_sqr|exact I3].
  Qed.
End Rayleigh.
