(** Gradient steps of Sphere and the stereographic model decrease the loss. *)
From Coq Require Import Reals Lra Lia Psatz.
From Coquelicot Require Import Coquelicot.
From Verif Require Import RVec GradSpec GradProofs DescentSpec DescentProofs.
From Verif Require StereoModel StereoSpec SphereModel SphereSpec SphereProofs SphereProofs2.
From Verif Require StereoExtraModel StereoTrig StereoProofs StereoProofs2.
Local Open Scope R_scope.

Section Sphere.
  Import SphereModel SphereSpec SphereProofs.
  Variables (n : nat) (P : option (nat -> nat -> R)).
  Hypothesis VP : valid_subspace n P.

  Lemma tan_smul x a u : tangent n P x u -> tangent n P x (smul a u).
  Proof. intros [A B]. split; [rewrite dot_smul_r, A; ring|apply in_smul; auto]. Qed.

  Lemma retr_line x r t : on_sphere n P x -> tangent n P x r ->
    StereoSpec.same n (retr n P x (smul (- t) r)) (smul (/ sqrt (1 + t * t * dot n r r)) (vadd x (smul (- t) r))).
  Proof.
    intros X T. pose proof (retr_formula n P x (smul (- t) r) X (tan_smul x (- t) r T)) as E.
    rewrite dot_smul_l, dot_smul_r in E.
    replace (- t * (- t * dot n r r)) with (t * t * dot n r r) in E by ring. exact E.
  Qed.
  Lemma sphere_curve x r i : on_sphere n P x -> tangent n P x r -> (i < n)%nat ->
    is_derive (fun t => retr n P x (smul (- t) r) i) 0 (- r i).
  Proof.
    intros X T Hi.
    apply is_derive_ext with (f := fun t => / sqrt (1 + t * t * dot n r r) * (x i + - t * r i)).
    - intros t. rewrite (retr_line x r t X T i Hi). reflexivity.
    - set (q := dot n r r). auto_derive.
      + replace (1 + 0 * 0 * q) with 1 by ring. rewrite sqrt_1. repeat split; lra.
      + replace (1 + 0 * 0 * q) with 1 by ring. rewrite sqrt_1. field.
  Qed.
  Lemma sphere_start x r : on_sphere n P x -> tangent n P x r ->
    StereoSpec.same n (retr n P x (smul (- 0) r)) x.
  Proof.
    intros X T i Hi. rewrite (retr_line x r 0 X T i Hi). unfold smul, vadd.
    replace (1 + 0 * 0 * dot n r r) with 1 by ring. rewrite sqrt_1. field.
  Qed.
  Lemma sphere_slope x g : on_sphere n P x ->
    dot n g (vopp (egrad2rgrad n P x g)) = - dot n (egrad2rgrad n P x g) (egrad2rgrad n P x g).
  Proof.
    intros X. rewrite dot_opp_r. f_equal. symmetry. apply proju_pair; auto. apply proju_tan; auto.
  Qed.
  Lemma sphere_retr_descent f x g : on_sphere n P x -> differentiable n f x g ->
    0 < nrm n (egrad2rgrad n P x g) ->
    decreases f x (fun t => retr n P x (smul (- t) (egrad2rgrad n P x g))).
  Proof.
    intros X F G. pose proof (proju_tan n P VP x g X) as T.
    apply (descent n f x g (vopp (egrad2rgrad n P x g))); auto.
    - apply (sphere_start x _ X T).
    - intros i Hi. apply (sphere_curve x _ i X T Hi).
    - rewrite sphere_slope by auto. pose proof (nrm_sq n (egrad2rgrad n P x g)). nra.
  Qed.
  Lemma sphere_exp_descent eps f x g : 0 < eps -> on_sphere n P x -> differentiable n f x g ->
    0 < nrm n (egrad2rgrad n P x g) ->
    decreases f x (fun t => expmap n P eps x (smul (- t) (egrad2rgrad n P x g))).
  Proof.
    intros E X F G. destruct (sphere_retr_descent f x g X F G) as [t0 [P0 D]].
    set (r := egrad2rgrad n P x g) in *.
    exists (Rmin t0 (eps / nrm n r)). split.
    - apply Rmin_pos; auto. apply Rdiv_lt_0_compat; auto.
    - intros t [T1 T2]. assert (T3 : t < t0) by (eapply Rlt_le_trans; [exact T2|apply Rmin_l]).
      assert (T4 : t < eps / nrm n r) by (eapply Rlt_le_trans; [exact T2|apply Rmin_r]).
      unfold expmap. cbv zeta. rewrite nrm_smul, Rabs_left by lra.
      destruct (Rlt_dec eps (- - t * nrm n r)) as [L|_].
      + exfalso. apply (Rmult_lt_compat_r (nrm n r)) in T4; auto.
        replace (eps / nrm n r * nrm n r) with eps in T4 by (field; lra). lra.
      + apply D. lra.
  Qed.
End Sphere.

Section Stereo.
  Import StereoModel StereoSpec StereoExtraModel StereoTrig StereoProofs.
  Variables (n : nat) (e k : R).
  Hypothesis E0 : 0 <= e <= 1.
  Hypothesis K20 : k <= 10 ^ 20.
  Implicit Types x g r : vec.

  Lemma stereo_slope x g : 0 < nrm n (egrad2rgrad n k x g) -> dot n g (vopp (egrad2rgrad n k x g)) < 0.
  Proof.
    intros G. pose proof (lambda_pos n k x) as LP. set (l := lambda_x n k x) in *.
    assert (E : dot n g (egrad2rgrad n k x g) = l ^ 2 * dot n (egrad2rgrad n k x g) (egrad2rgrad n k x g)).
    { unfold egrad2rgrad. fold l. rewrite !dot_vdiv_r, dot_vdiv_l. field. lra. }
    rewrite dot_opp_r, E. pose proof (nrm_sq n (egrad2rgrad n k x g)) as Q. rewrite <- Q.
    assert (0 < l ^ 2) by (apply pow_lt; exact LP).
    assert (0 < nrm n (egrad2rgrad n k x g) * nrm n (egrad2rgrad n k x g)) by (apply Rmult_lt_0_compat; auto).
    assert (0 < l ^ 2 * (nrm n (egrad2rgrad n k x g) * nrm n (egrad2rgrad n k x g))) by (apply Rmult_lt_0_compat; auto). lra.
  Qed.

  (** near a point strictly inside the radius of project, project does nothing on a curve *)
  Lemma proj_near eps (c : R -> vec) x u : same n (c 0) x ->
    (forall i, (i < n)%nat -> is_derive (fun t => c t i) 0 (u i)) ->
    nrm n x < maxnorm e eps k -> e15 <= maxnorm e eps k ->
    locally 0 (fun t => c t = project n e eps k (c t)).
  Proof.
    intros C0 C1 H1 H2.
    assert (D : exists l, is_derive (fun t => dot n (c t) (c t)) 0 l).
    { eexists. unfold dot. apply (Rsum_derive n (fun i t => c t i * c t i) (fun i => u i * c 0 i + c 0 i * u i)).
      intros i Hi. exact (is_derive_mult (fun t => c t i) (fun t => c t i) 0 _ _ (C1 i Hi) (C1 i Hi) Rmult_comm). }
    destruct D as [l D]. pose proof (nrm_nonneg n x) as NX.
    assert (L := near_lt _ _ (maxnorm e eps k * maxnorm e eps k) D).
    cbn beta in L. rewrite (same_dot n (c 0) x (c 0) x C0 C0), <- nrm_sq in L.
    specialize (L ltac:(apply Rmult_le_0_lt_compat; auto)).
    revert L; apply filter_imp; intros t T.
    rewrite <- nrm_sq in T. pose proof (nrm_nonneg n (c t)).
    assert (nrm n (c t) < maxnorm e eps k) by (pose proof e15_pos; nra).
    unfold project. cbv zeta. destruct (Rlt_dec _ _) as [B|B]; [|reflexivity].
    exfalso. revert B. apply Rle_not_lt. unfold clamp_min. apply Rmax_lub; lra.
  Qed.

  Lemma line_curve x r i : is_derive (fun t => vadd x (smul (- t) r) i) 0 (vopp r i).
  Proof. unfold vadd, smul, vopp. auto_derive; auto. ring. Qed.
  Lemma line_start x r : same n (vadd x (smul (- 0) r)) x.
  Proof. intros i Hi. unfold vadd, smul. ring. Qed.

  (** replacing the curve by one equal to it near 0 *)
  Lemma decreases_near f x (c c' : R -> vec) : locally 0 (fun t => c t = c' t) ->
    decreases f x c -> decreases f x c'.
  Proof.
    intros [d L] [t0 [P D]]. exists (Rmin t0 d). split; [apply Rmin_pos; auto; apply cond_pos|].
    intros t [T1 T2]. rewrite <- L.
    - apply D. split; [lra|]. eapply Rlt_le_trans; [exact T2|apply Rmin_l].
    - unfold ball. simpl. unfold AbsRing_ball, abs, minus, plus, opp. simpl.
      rewrite Ropp_0, Rplus_0_r, Rabs_right by lra. eapply Rlt_le_trans; [exact T2|apply Rmin_r].
  Qed.

  Lemma stereo_retr_descent eps f x g : nrm n x < maxnorm e eps k -> e15 <= maxnorm e eps k ->
    differentiable n f x g -> 0 < nrm n (egrad2rgrad n k x g) ->
    decreases f x (fun t => retr n e eps k x (smul (- t) (egrad2rgrad n k x g))).
  Proof.
    intros H1 H2 F G. set (r := egrad2rgrad n k x g) in *.
    apply decreases_near with (c := fun t => vadd x (smul (- t) r)).
    - unfold retr. apply proj_near with (x := x) (u := vopp r); auto.
      + apply line_start.
      + intros; apply line_curve.
    - apply (descent n f x g (vopp r)); auto.
      + apply line_start.
      + intros; apply line_curve.
      + apply stereo_slope; auto.
  Qed.

  (** tan_k of a tiny positive number is positive *)
  Lemma tan_k_tiny b : 0 < b -> (0 < k -> b <= / 10 ^ 15) -> 0 < tan_k e b k.
  Proof.
    intros B H. pose proof e8_pos. unfold tan_k, tan_k_at. destruct (k_zero k) as [Z|Z].
    - unfold tan_k_zero_taylor1. rewrite abs_zero_grad_abs.
      assert (0 <= 1 / 3 * Rabs k * b ^ 3); [|lra]. apply Rmult_le_pos; [|left; apply pow_lt; auto].
      apply Rmult_le_pos; [lra|apply Rabs_pos].
    - assert (KN : k <> 0) by (intros ->; apply Z; rewrite Rabs_R0; lra).
      assert (SP : 0 < k_sqrt e k).
      { unfold k_sqrt, sabs. apply sqrt_lt_R0. pose proof (Rabs_pos_lt k KN). lra. }
      destruct (Rlt_dec k 0) as [N|N].
      + apply Rmult_lt_0_compat; [apply Rinv_0_lt_compat; auto|].
        assert (Q : 0 < b * k_sqrt e k) by (apply Rmult_lt_0_compat; auto).
        unfold tanh_c. rewrite <- tanh_0. apply tanh_incr.
        unfold clamp, Rmin, Rmax. repeat destruct Rle_dec; lra.
      + assert (KP : 0 < k) by lra. specialize (H KP).
        apply Rmult_lt_0_compat; [apply Rinv_0_lt_compat; auto|].
        assert (Q : 0 < b * k_sqrt e k) by (apply Rmult_lt_0_compat; auto).
        assert (SL : k_sqrt e k <= 10 ^ 11).
        { unfold k_sqrt, sabs. rewrite Rabs_right by lra. rewrite <- (sqrt_pow2 (10 ^ 11)) by (apply pow_le; lra).
          apply sqrt_le_1_alt. lra. }
        assert (Q1 : b * k_sqrt e k <= / 10 ^ 15 * 10 ^ 11) by (apply Rmult_le_compat; lra).
        assert (Q2 : / 10 ^ 15 * 10 ^ 11 < 1) by lra.
        rewrite clamp_max_id by (assert (1 <= 10 ^ 38) by (apply pow_R1_Rle; lra); lra).
        apply tan_gt_0; [auto|]. pose proof PI2_1. lra.
  Qed.

  (** Möbius translation along a line *)
  Lemma mobius_line_derive x r i : in_domain n k x ->
    is_derive (fun a => mobius_add n k x (smul a r) i) 0 ((1 + k * dot n x x) * r i).
  Proof.
    intros DX. set (X := dot n x x). set (s := dot n x r). set (q := dot n r r).
    set (D := fun a => 1 + a * (- 2 * k * s) + a * a * (k ^ 2 * X * q)).
    assert (DD : is_derive D 0 (- 2 * k * s)) by (unfold D; auto_derive; auto; ring).
    assert (D0 : D 0 = 1) by (unfold D; ring).
    apply derive_near with (g := fun a => ((1 - 2 * k * (a * s) - k * (a * a * q)) * x i + (1 + k * X) * (a * r i)) / D a).
    - assert (L := near_gt _ _ e15 DD ltac:(rewrite D0; pose proof e15_val; lra)).
      revert L; apply filter_imp; intros a A.
      unfold mobius_add, mobius_num, vdiv, vadd, smul at 3 4 5. unfold mobius_den.
      fold (smul a r). rewrite !dot_smul_r, dot_smul_l. fold X s q.
      replace (1 - 2 * k * (a * s) + k ^ 2 * X * (a * (a * q))) with (D a) by (unfold D; ring).
      rewrite clamp_min_id by lra. unfold smul. rewrite ?dot_smul_r, ?dot_smul_l. f_equal. fold q. ring.
    - unfold D. auto_derive.
      + lra.
      + field.
  Qed.

  Lemma stereo_exp_curve x r : in_domain n k x ->
    let lam := lambda_x n k x in let tau := tan_k e (lam / 2 * e15) k / e15 in
    locally 0 (fun t => mobius_add n k x (smul (- t * tau) r) = expmap n e k x (smul (- t) r)).
  Proof.
    intros DX lam tau. pose proof e15_pos as EP. pose proof (nrm_nonneg n r) as NR.
    assert (RP : 0 < e15 / (nrm n r + 1)) by (apply Rdiv_lt_0_compat; lra).
    exists (mkposreal _ RP). intros t T.
    unfold ball in T; simpl in T; unfold AbsRing_ball, abs, minus, plus, opp in T; simpl in T.
    rewrite Ropp_0, Rplus_0_r in T.
    assert (S : nrm n (smul (- t) r) <= e15).
    { rewrite nrm_smul, Rabs_Ropp. apply (Rmult_lt_compat_r (nrm n r + 1)) in T; [|lra].
      replace (e15 / (nrm n r + 1) * (nrm n r + 1)) with e15 in T by (field; lra).
      pose proof (Rabs_pos t). lra. }
    unfold expmap. cbv zeta. fold lam. unfold clamp_min. rewrite Rmax_right by lra.
    f_equal. apply vec_ext. intros i. unfold smul, vdiv, tau. field. lra.
  Qed.

  Lemma stereo_exp_descent_raw f x g : in_domain n k x -> differentiable n f x g ->
    0 < nrm n (egrad2rgrad n k x g) ->
    decreases f x (fun t => expmap n e k x (smul (- t) (egrad2rgrad n k x g))) /\
    exists c u, 0 < c /\ u = smul (- c) (egrad2rgrad n k x g) /\
      same n (expmap n e k x (smul (- 0) (egrad2rgrad n k x g))) x /\
      forall i, (i < n)%nat -> is_derive (fun t => expmap n e k x (smul (- t) (egrad2rgrad n k x g)) i) 0 (u i).
  Proof.
    intros DX F G. set (r := egrad2rgrad n k x g) in *. pose proof e15_pos as EP.
    set (lam := lambda_x n k x). set (tau := tan_k e (lam / 2 * e15) k / e15).
    pose proof (lambda_pos n k x) as LP. fold lam in LP.
    assert (TP : 0 < tau).
    { unfold tau. apply Rdiv_lt_0_compat; auto. apply tan_k_tiny.
      - apply Rmult_lt_0_compat; lra.
      - intros KP. assert (lam <= 2).
        { unfold lam, lambda_x. assert (1 <= clamp_min e15 (1 + k * dot n x x)).
          { unfold clamp_min. eapply Rle_trans; [|apply Rmax_l].
            assert (0 <= k * dot n x x) by (apply Rmult_le_pos; [lra|apply dot_nonneg]). lra. }
          apply Rmult_le_reg_r with (clamp_min e15 (1 + k * dot n x x)); [lra|].
          unfold Rdiv. rewrite Rmult_assoc, Rinv_l by lra. lra. }
        fold e15. assert (lam / 2 * e15 <= 1 * e15) by (apply Rmult_le_compat_r; lra). lra. }
    set (kap := 1 + k * dot n x x). assert (KP : 0 < kap) by exact DX.
    assert (L := stereo_exp_curve x r DX). fold lam tau in L.
    assert (S0 : same n (mobius_add n k x (smul (- 0 * tau) r)) x).
    { intros i Hi. replace (smul (- 0 * tau) r) with vzero by (apply vec_ext; intros; unfold smul, vzero; ring).
      rewrite (add_0_r n k x). reflexivity. }
    assert (S1 : forall i, (i < n)%nat -> is_derive (fun t => mobius_add n k x (smul (- t * tau) r) i) 0 (smul (- (kap * tau)) r i)).
    { intros i Hi. assert (A : is_derive (fun t => - t * tau) 0 (- tau)) by (auto_derive; auto; ring).
      assert (M : is_derive (fun a => mobius_add n k x (smul a r) i) (- 0 * tau) (kap * r i))
        by (replace (- 0 * tau) with 0 by ring; apply mobius_line_derive; exact DX).
      assert (C := is_derive_comp (fun a => mobius_add n k x (smul a r) i) (fun t => - t * tau) 0 _ _ M A).
      replace (smul (- (kap * tau)) r i) with (scal (- tau) (kap * r i))
        by (unfold scal; simpl; unfold mult; simpl; unfold smul; ring).
      exact C. }
    split.
    - apply decreases_near with (1 := L). apply (descent n f x g (smul (- (kap * tau)) r)); auto.
      pose proof (stereo_slope x g G) as N. fold r in N. rewrite dot_opp_r in N.
      rewrite dot_smul_r. assert (0 < kap * tau) by (apply Rmult_lt_0_compat; auto). nra.
    - exists (kap * tau), (smul (- (kap * tau)) r). split; [apply Rmult_lt_0_compat; auto|]. split; [reflexivity|].
      assert (L0 : mobius_add n k x (smul (- 0 * tau) r) = expmap n e k x (smul (- 0) r))
        by exact (locally_singleton _ _ L).
      split; [rewrite <- L0; exact S0|].
      intros i Hi. apply derive_near with (g := fun t => mobius_add n k x (smul (- t * tau) r) i); [|apply S1; auto].
      revert L; apply filter_imp. intros t TT. exact (f_equal (fun w => w i) TT).
  Qed.

  Lemma stereo_exp_descent eps proj f x g : in_domain n k x ->
    nrm n x < maxnorm e eps k -> e15 <= maxnorm e eps k ->
    differentiable n f x g -> 0 < nrm n (egrad2rgrad n k x g) ->
    decreases f x (fun t => m_expmap n e eps k proj x (smul (- t) (egrad2rgrad n k x g))).
  Proof.
    intros DX H1 H2 F G. destruct (stereo_exp_descent_raw f x g DX F G) as [D [c [u [CP [-> [S0 S1]]]]]].
    unfold m_expmap, maybe_project. destruct proj; [|exact D].
    apply decreases_near with (2 := D).
    apply proj_near with (x := x) (1 := S0) (2 := S1); auto.
  Qed.
End Stereo.
