(** Gradients of half squared distances: sphere and hyperboloid. *)
From Coq Require Import Reals Lra Lia Psatz.
From Coquelicot Require Import Coquelicot.
From Verif Require Import RVec GradSpec GradProofs.
From Verif Require StereoModel StereoSpec SphereModel SphereSpec SphereProofs SphereProofs2.
From Verif Require LorentzModel LorentzSpec LorentzProofs LorentzProofs2.
Local Open Scope R_scope.

Section Sphere.
  Import SphereModel SphereSpec SphereProofs SphereProofs2.
  Variables (n : nat) (P : option (nat -> nat -> R)) (eps : R).
  Hypothesis VP : valid_subspace n P.
  Hypothesis EPS : 0 < eps <= / 2.

  Lemma proju_cong x u v : StereoSpec.same n u v -> StereoSpec.same n (proju n P x u) (proju n P x v).
  Proof.
    intros H. unfold proju. cbv zeta. apply proj_cong.
    intros i Hi. unfold vsub, smul. rewrite (H i Hi).
    rewrite (dot_same n x x u v (same_refl n x) H). reflexivity.
  Qed.

  Lemma sphere_rgrad x y g : on_sphere n P x -> on_sphere n P y -> Rabs (dot n x y) < 1 - eps ->
    gradient n (half_square (dist n eps) y) x g ->
    StereoSpec.same n (egrad2rgrad n P x g) (vopp (logmap n P eps x y)).
  Proof.
    intros X Y H G. assert (H' : Rabs (dot n x y) <= 1 - eps) by lra.
    pose proof (gradient_unique _ _ _ _ _ G (sphere_gradient n eps EPS x y H)) as E.
    apply same_trans with (1 := proju_cong x _ _ E).
    intros i Hi. unfold vopp. rewrite (log_formula n P eps EPS x y X Y H' i Hi).
    unfold proju. cbv zeta. set (c := - (dist n eps x y / sqrt (1 - dot n x y ^ 2))).
    replace (vsub (smul c y) (smul (dot n x (smul c y)) x)) with (smul c (vsub y (smul (dot n x y) x))).
    2: { apply vec_ext; intros j. rewrite dot_smul_r. unfold smul, vsub. ring. }
    rewrite (proj_smul n P).
    assert (S : in_subspace n P (vsub y (smul (dot n x y) x))).
    { destruct X, Y. apply in_sub; auto. apply in_smul; auto. }
    apply (in_sub_iff n P) in S. unfold smul at 1. rewrite (S i Hi).
    unfold c. rewrite (dist_exact n eps x y H').
    replace ((dot n x y)²) with (dot n x y ^ 2) by (unfold Rsqr; ring). unfold smul. ring.
  Qed.

  Lemma expmap_cong x u v : StereoSpec.same n u v ->
    StereoSpec.same n (expmap n P eps x u) (expmap n P eps x v).
  Proof.
    intros H i Hi. unfold expmap. cbv zeta. rewrite (nrm_same n u v H).
    destruct (Rlt_dec eps (nrm n v)).
    - unfold vadd, vdiv, smul. rewrite (H i Hi). reflexivity.
    - unfold projx. cbv zeta.
      assert (A : StereoSpec.same n (vadd x u) (vadd x v)) by (intros j Hj; unfold vadd; rewrite (H j Hj); reflexivity).
      pose proof (proj_cong n P _ _ A) as B.
      unfold vdiv. rewrite (B i Hi), (nrm_same n _ _ B). reflexivity.
  Qed.
  Lemma sphere_step x y g : on_sphere n P x -> on_sphere n P y -> Rabs (dot n x y) < 1 - eps ->
    gradient n (half_square (dist n eps) y) x g ->
    StereoSpec.same n (expmap n P eps x (vopp (egrad2rgrad n P x g))) y.
  Proof.
    intros X Y H G. pose proof (sphere_rgrad x y g X Y H G) as E.
    apply same_trans with (expmap n P eps x (logmap n P eps x y)).
    - apply expmap_cong. intros i Hi. unfold vopp. rewrite (E i Hi). unfold vopp. ring.
    - apply exp_log; auto; lra.
  Qed.
End Sphere.

Section Lorentz.
  Import LorentzModel LorentzSpec LorentzProofs LorentzProofs2.
  Variables (d : nat) (k : R).
  Hypothesis K : 0 < k.
  Notation hc := (hyp_cos d k).

  Lemma arcosh_deriv a : 1 <= a -> / 10 ^ 15 < a ^ 2 - 1 -> is_derive arcosh a (/ sqrt (a ^ 2 - 1)).
  Proof.
    intros A H.
    apply is_derive_ext_loc with (f := fun x => ln (x + sqrt (x ^ 2 - 1))).
    - assert (C : continuous (fun x => x ^ 2 - 1) a).
      { apply (ex_derive_continuous (V := R_NormedModule)). auto_derive. auto. }
      assert (L : locally a (fun x => / 10 ^ 15 < x ^ 2 - 1)).
      { apply (C (fun z => / 10 ^ 15 < z)). apply open_gt. exact H. }
      revert L; apply filter_imp; intros t T. unfold arcosh, StereoModel.clamp_min, StereoModel.e15. rewrite Rmax_left by lra. reflexivity.
    - assert (E : 0 < / 10 ^ 15) by (apply Rinv_0_lt_compat; lra).
      assert (S : 0 < sqrt (a ^ 2 - 1)) by (apply sqrt_lt_R0; lra).
      auto_derive.
      + replace (a * (a * 1) + - (1)) with (a ^ 2 - 1) by ring. repeat split; lra.
      + replace (a * (a * 1) + - (1)) with (a ^ 2 - 1) by ring. field. split; lra.
  Qed.

  (** below the clamp of arcosh: only the argument of the logarithm moves *)
  Lemma arcosh_deriv_low a : 0 < a -> a ^ 2 - 1 < / 10 ^ 15 ->
    is_derive arcosh a (/ (a + sqrt (/ 10 ^ 15))).
  Proof.
    intros A H.
    assert (E : 0 < / 10 ^ 15) by (apply Rinv_0_lt_compat; lra).
    assert (S : 0 < sqrt (/ 10 ^ 15)) by (apply sqrt_lt_R0; lra).
    apply is_derive_ext_loc with (f := fun x => ln (x + sqrt (/ 10 ^ 15))).
    - assert (C : continuous (fun x => x ^ 2 - 1) a).
      { apply (ex_derive_continuous (V := R_NormedModule)). auto_derive. auto. }
      assert (L : locally a (fun x => x ^ 2 - 1 < / 10 ^ 15)).
      { apply (C (fun z => z < / 10 ^ 15)). apply open_lt. exact H. }
      revert L; apply filter_imp; intros t T. unfold arcosh, StereoModel.clamp_min, StereoModel.e15. rewrite Rmax_right by lra. reflexivity.
    - set (c := sqrt (/ 10 ^ 15)) in *. clearbody c. auto_derive; [lra|]. field. lra.
  Qed.

  (** y with the sign of its time coordinate changed: <flip y, v> = <y, v>_L *)
  Lemma dot_flip y v : dot (S d) (flip y) v = minkowski d y v.
  Proof.
    unfold dot. rewrite Rsum_head. unfold minkowski, flip. ring.
  Qed.
  Lemma flip_flip y : flip (flip y) = y.
  Proof. apply vec_ext; intros [|i]; unfold flip; [ring|reflexivity]. Qed.

  Lemma dist_deriv x y v l : is_derive arcosh (hc x y) l ->
    is_derive (fun t => dist d k (vadd x (smul t v)) y) 0 (- (sqrt k * l / k) * minkowski d y v).
  Proof.
    intros A.
    assert (B := affine_derive (hc x y) (- minkowski d y v / k)).
    apply is_derive_ext with (f := fun t => sqrt k * arcosh (hc x y + t * (- minkowski d y v / k))).
    - intros t. rewrite distE. f_equal. f_equal. unfold hyp_cos.
      replace (minkowski d (vadd x (smul t v)) y) with (minkowski d x y + t * minkowski d y v).
      + field. lra.
      + unfold minkowski, vadd, smul.
        rewrite (Rsum_ext d (fun i => (x (S i) + t * v (S i)) * y (S i)) (fun i => x (S i) * y (S i) + t * (y (S i) * v (S i)))) by (intros; ring).
        rewrite Rsum_plus, Rsum_scal. ring.
    - assert (C : is_derive arcosh (hc x y + 0 * (- minkowski d y v / k)) l)
        by (replace (hc x y + 0 * (- minkowski d y v / k)) with (hc x y) by ring; exact A).
      assert (D := is_derive_comp arcosh (fun t => hc x y + t * (- minkowski d y v / k)) 0 _ _ C B).
      assert (F := is_derive_scal _ 0 (sqrt k) _ D).
      replace (- (sqrt k * l / k) * minkowski d y v)
        with (sqrt k * scal (- minkowski d y v / k) l)
        by (unfold scal; simpl; unfold mult; simpl; unfold Rdiv; ring).
      exact F.
  Qed.

  Lemma lorentz_gradient x y l : is_derive arcosh (hc x y) l ->
    gradient (S d) (half_square (dist d k) y) x (smul (- (dist d k x y * (sqrt k * l / k))) (flip y)).
  Proof.
    intros A v. unfold half_square.
    assert (D := half_sq_derive _ _ (dist_deriv x y v l A)). cbn beta in D.
    replace (vadd x (smul 0 v)) with x in D by (apply vec_ext; intros; unfold vadd, smul; ring).
    rewrite dot_smul_l, dot_flip.
    replace (- (dist d k x y * (sqrt k * l / k)) * minkowski d y v)
      with (dist d k x y * (- (sqrt k * l / k) * minkowski d y v)) by ring.
    exact D.
  Qed.

  (** the result of egrad2rgrad on that gradient *)
  Lemma lorentz_rgrad_gen x y g l : is_derive arcosh (hc x y) l ->
    gradient (S d) (half_square (dist d k) y) x g ->
    StereoSpec.same (S d) (snd (egrad2rgrad d k x g))
      (smul (- (dist d k x y * (sqrt k * l / k))) (perp d k x y)).
  Proof.
    intros A G. set (c := - (dist d k x y * (sqrt k * l / k))).
    pose proof (gradient_unique _ _ _ _ _ G (lorentz_gradient x y l A)) as E. fold c in E.
    assert (F : StereoSpec.same (S d) (flip g) (smul c y)).
    { intros i Hi. destruct i; unfold flip.
      - rewrite (E O Hi). unfold smul, flip. ring.
      - rewrite (E (S i) Hi). unfold smul, flip. ring. }
    assert (I : inner d x (flip g) = c * minkowski d x y).
    { rewrite innerE. unfold minkowski. rewrite (F O) by lia.
      rewrite (Rsum_ext d (fun i => x (S i) * flip g (S i)) (fun i => c * (x (S i) * y (S i)))).
      - rewrite Rsum_scal. unfold smul. ring.
      - intros i Hi. rewrite (F (S i)) by lia. unfold smul. ring. }
    intros i Hi. unfold egrad2rgrad. cbv zeta. cbn [snd]. unfold vadd at 1. rewrite (F i Hi), I.
    unfold perp, vadd, smul, vdiv, hyp_cos. field. lra.
  Qed.

  Lemma lorentz_rgrad x y g : on_hyperboloid d k x -> on_hyperboloid d k y ->
    apart d k x y -> / 10 ^ 15 < hyp_cos d k x y ^ 2 - 1 ->
    gradient (S d) (half_square (dist d k) y) x g ->
    StereoSpec.same (S d) (snd (egrad2rgrad d k x g)) (vopp (logmap d k x y)).
  Proof.
    intros X Y AP H G. pose proof (hc_ge1 d k K x y X Y) as G1.
    pose proof (lorentz_rgrad_gen x y g _ (arcosh_deriv _ G1 H) G) as E.
    intros i Hi. rewrite (E i Hi). unfold vopp. rewrite (logE d k K), (perp_regular d k K x y X Y AP).
    assert (0 < / 10 ^ 15) by (apply Rinv_0_lt_compat; lra).
    assert (0 < sqrt (hc x y ^ 2 - 1)) by (apply sqrt_lt_R0; lra).
    pose proof (sqk k K) as SK. pose proof (sqk2 k K) as SK2.
    unfold smul. set (q := sqrt (hc x y ^ 2 - 1)) in *. set (r := sqrt k) in *. rewrite <- SK2. field. lra.
  Qed.

  (** closer than the clamp: still towards y, scaled; zero at y *)
  Lemma lorentz_rgrad_low x y g : on_hyperboloid d k x -> on_hyperboloid d k y ->
    hyp_cos d k x y ^ 2 - 1 < / 10 ^ 15 ->
    gradient (S d) (half_square (dist d k) y) x g ->
    exists c, 0 < c /\
      StereoSpec.same (S d) (snd (egrad2rgrad d k x g)) (vopp (smul c (logmap d k x y))).
  Proof.
    intros X Y H G. pose proof (hc_ge1 d k K x y X Y) as G1.
    assert (E15 : 0 < sqrt (/ 10 ^ 15)) by (apply sqrt_lt_R0, Rinv_0_lt_compat; lra).
    pose proof (lorentz_rgrad_gen x y g _ (arcosh_deriv_low (hc x y) ltac:(lra) H) G) as E.
    pose proof (sqk k K) as SK. pose proof (norm_pos d (perp d k x y)) as NP.
    exists (norm d (perp d k x y) * (sqrt k * / (hc x y + sqrt (/ 10 ^ 15)) / k)). split.
    - apply Rmult_lt_0_compat; auto. apply Rdiv_lt_0_compat; auto.
      apply Rmult_lt_0_compat; auto. apply Rinv_0_lt_compat; lra.
    - intros i Hi. rewrite (E i Hi). unfold vopp. rewrite (logE d k K).
      unfold smul. field. repeat split; lra.
  Qed.
  Lemma lorentz_rgrad_at x g : on_hyperboloid d k x ->
    gradient (S d) (half_square (dist d k) x) x g ->
    StereoSpec.same (S d) (snd (egrad2rgrad d k x g)) vzero.
  Proof.
    intros X G.
    assert (HC : hc x x = 1) by (unfold hyp_cos; rewrite (proj1 X); field; lra).
    assert (H : hc x x ^ 2 - 1 < / 10 ^ 15) by (rewrite HC; assert (0 < / 10 ^ 15) by (apply Rinv_0_lt_compat; lra); lra).
    pose proof (lorentz_rgrad_gen x x g _ (arcosh_deriv_low (hc x x) ltac:(rewrite HC; lra) H) G) as E.
    intros i Hi. rewrite (E i Hi). unfold perp, smul, vadd. rewrite HC. unfold vzero. ring.
  Qed.

  Lemma lorentz_step x y g nt pr : on_hyperboloid d k x -> on_hyperboloid d k y ->
    apart d k x y -> / 10 ^ 15 < hyp_cos d k x y ^ 2 - 1 -> / 10 ^ 8 <= dist d k x y ^ 2 ->
    gradient (S d) (half_square (dist d k) y) x g ->
    StereoSpec.same (S d) (l_expmap d k nt pr x (vopp (snd (egrad2rgrad d k x g)))) y.
  Proof.
    intros X Y AP H L G. pose proof (lorentz_rgrad x y g X Y AP H G) as E.
    assert (SM : StereoSpec.same (S d) (vopp (snd (egrad2rgrad d k x g))) (logmap d k x y)).
    { intros i Hi. unfold vopp. rewrite (E i Hi). unfold vopp. ring. }
    intros i Hi.
    assert (C : forall u v, StereoSpec.same (S d) u v ->
      StereoSpec.same (S d) (l_expmap d k nt pr x u) (l_expmap d k nt pr x v)).
    { clear. intros u v U.
      assert (IN : forall a b a' b', StereoSpec.same (S d) a a' -> StereoSpec.same (S d) b b' -> inner d a b = inner d a' b').
      { clear. intros a b a' b' A B. rewrite !innerE. unfold minkowski. rewrite (A O), (B O) by lia. f_equal.
        apply Rsum_ext. intros i Hi. rewrite (A (S i)), (B (S i)) by lia. reflexivity. }
      assert (EX : forall a b, StereoSpec.same (S d) a b -> StereoSpec.same (S d) (expmap d k x a) (expmap d k x b)).
      { intros a b A i Hi. unfold expmap, norm. cbv zeta. rewrite (IN a a b b A A).
        unfold vadd, vdiv, smul. rewrite (A i Hi). reflexivity. }
      assert (PU : StereoSpec.same (S d) (project_u d k x u) (project_u d k x v)).
      { intros i Hi. unfold project_u. rewrite (IN x u x v (fun _ _ => eq_refl) U).
        unfold vadd. rewrite (U i Hi). reflexivity. }
      assert (Q : StereoSpec.same (S d) (expmap d k x (if nt then project_u d k x u else u))
                                        (expmap d k x (if nt then project_u d k x v else v))).
      { apply EX. destruct nt; auto. }
      unfold l_expmap. cbv zeta. destruct pr; [|exact Q].
      intros i Hi. unfold project. destruct i; unfold cat.
      - f_equal. f_equal. f_equal. unfold nrm. f_equal. apply Rsum_ext. intros j Hj. unfold tl.
        rewrite (Q (S j)) by lia. reflexivity.
      - unfold tl. apply Q. exact Hi. }
    rewrite (C _ _ SM i Hi). apply exp_log; auto.
  Qed.
End Lorentz.
