(** Manifolds on which an optimizer step descends, and a concrete case. *)
From Coq Require Import Reals List Bool Arith Lra Lia Psatz.
From Coquelicot Require Import Coquelicot.
From Verif Require Import RVec OptimModel OptimSpec OptimInstances DescentSpec DescentProofs DescentProofs2 OptimDescentSpec OptimDescentProofs.
From Verif Require Import StereoSpec.
From Verif Require SphereModel SphereSpec SphereProofs StereoModel StereoProofs StereoTrig.
Import ListNotations.
Local Open Scope R_scope.

Lemma euclidean_descent_at n x g : descent_at n euclidean eq x g.
Proof.
  split; cbn [euclidean egrad2rgrad retr retr_transp component_inner fst].
  - intros d _ i _. unfold vadd, smul. ring.
  - intros d _ i _. unfold vadd, smul. auto_derive; auto. ring.
  - intros d [s [S [_ ->]]].
    assert (E : forall i, g i * vmul s g i = s i * (g i * g i)) by (intros; unfold vmul; ring).
    assert (G0 : forall i, 0 <= g i * vmul s g i) by (intros i; rewrite E; specialize (S i); nra).
    split; [apply Rsum_nonneg; auto|]. intros N.
    destruct (Rle_lt_or_eq_dec 0 (dot n g (vmul s g)) (Rsum_nonneg _ _ (fun i _ => G0 i))) as [|Q]; auto.
    exfalso. assert (Z : dot n g g = 0).
    { unfold dot. rewrite (Rsum_ext n _ (fun _ => 0)); [apply Rsum_zero|]. intros i Hi.
      assert (H : g i * vmul s g i = 0).
      { clear - G0 Q Hi. unfold dot in Q. revert Hi Q. induction n as [|m IH]; [lia|]. intros Hi Q. cbn [Rsum] in Q.
        pose proof (Rsum_nonneg m (fun i => g i * vmul s g i) (fun i _ => G0 i)) as A. pose proof (G0 m) as B.
        destruct (Nat.eq_dec i m) as [->|]; [lra|]. apply IH; [lia|lra]. }
      rewrite E in H. specialize (S i). destruct (Rmult_integral _ _ H); lra. }
    unfold nrm in N. rewrite Z, sqrt_0 in N. lra.
  - reflexivity.
  - intros i. unfold vmul. nra.
  - intros i j ->. reflexivity.
Qed.

(** one block: rescaling is multiplication by a number *)
Lemma rescaled_one r d : rescaled (fun _ _ => True) r d -> exists a, 0 < a /\ d = smul a r.
Proof.
  intros [s [S [E ->]]]. exists (s O). split; auto. apply vec_ext. intros i. unfold vmul, smul. rewrite (E i O I). reflexivity.
Qed.

Lemma sphere_descent_at n x g : SphereSpec.on_sphere n None x -> descent_at n (sphere n) (fun _ _ => True) x g.
Proof.
  intros X. assert (V : SphereSpec.valid_subspace n None) by exact I.
  pose proof (SphereProofs.proju_tan n None V x g X) as T.
  split; cbn [sphere egrad2rgrad retr retr_transp component_inner fst].
  - intros d D. destruct (rescaled_one _ _ D) as [a [_ ->]]. apply sphere_start; auto. apply tan_smul; auto.
  - intros d D i Hi. destruct (rescaled_one _ _ D) as [a [_ ->]]. apply sphere_curve; auto. apply tan_smul; auto.
  - intros d D. destruct (rescaled_one _ _ D) as [a [A ->]].
    pose proof (sphere_slope n None V x g X) as Q. rewrite dot_opp_r in Q. change (SphereModel.egrad2rgrad n None x g) with (SphereModel.proju n None x g) in Q.
    pose proof (dot_nonneg n (SphereModel.proju n None x g)) as P. rewrite dot_smul_r.
    replace (dot n g (SphereModel.proju n None x g)) with (dot n (SphereModel.proju n None x g) (SphereModel.proju n None x g)) by lra.
    split; [apply Rmult_le_pos; lra|].
    intros N. rewrite <- nrm_sq. apply Rmult_lt_0_compat; [lra|]. apply Rmult_lt_0_compat; lra.
  - reflexivity.
  - intros i. unfold vconst. apply dot_nonneg.
  - reflexivity.
Qed.

(** inside the radius to which the ball projects *)
Definition inside (n : nat) (k : R) (x : vec) : Prop :=
  nrm n x < StereoModel.maxnorm StereoModel.e15 (/ 10 ^ 5) k /\ StereoModel.e15 <= StereoModel.maxnorm StereoModel.e15 (/ 10 ^ 5) k.
Lemma ball_descent_at n k x g : inside n k x -> descent_at n (ball n k) (fun _ _ => True) x g.
Proof.
  intros [X1 X2].
  assert (N : forall r, locally 0 (fun t => vadd x (smul (- t) r) = StereoModel.project n StereoModel.e15 (/ 10 ^ 5) k (vadd x (smul (- t) r)))).
  { intros r. apply proj_near with (x := x) (u := vopp r); auto; [apply line_start|intros; apply line_curve]. }
  split; cbn [OptimInstances.ball egrad2rgrad retr retr_transp component_inner fst].
  - intros d _ i Hi. rewrite <- (locally_singleton _ _ (N d)). apply (line_start n x d i Hi).
  - intros d _ i Hi. apply (is_derive_ext_loc (fun t => vadd x (smul (- t) d) i)).
    + generalize (N d). apply filter_imp. intros t T. rewrite <- T. reflexivity.
    + apply line_curve.
  - intros d D. destruct (rescaled_one _ _ D) as [a [A ->]]. rewrite dot_smul_r.
    assert (P : 0 <= dot n g (StereoModel.egrad2rgrad n k x g)).
    { unfold StereoModel.egrad2rgrad. rewrite dot_vdiv_r. pose proof (StereoProofs.lambda_pos n k x). pose proof (dot_nonneg n g).
      apply Rdiv_le_0_compat; auto. apply pow_lt; auto. }
    split; [nra|]. intros Q. pose proof (stereo_slope n k x g Q) as S. rewrite dot_opp_r in S. nra.
  - reflexivity.
  - intros i. unfold StereoModel.inner, vconst. pose proof (dot_nonneg n (StereoModel.egrad2rgrad n k x g)). nra.
  - reflexivity.
Qed.

(** ** a concrete case: a parameter on the circle, one in the ball and a plain tensor, for the
    loss x.g1 + y.g2 + z.g3 *)
Definition g_out : vec := fun i => match i with O => 3 | 1%nat => 2 | _ => 0 end.
Definition zeta : vec := fun i => match i with O => / 10 | _ => 0 end.
Definition three {S} : list (param S) :=
  [ {| man := Some (sphere 2); val := north; grad := Dense g_out; state := None |};
    {| man := Some (OptimInstances.ball 2 (-1)); val := zeta; grad := NoGrad; state := None |};
    {| man := None; val := zeta; grad := Dense g_out; state := None |} ].
Definition linear_loss (xs : list vec) : R := products [2%nat; 2%nat; 1%nat] (map grad_of (@three vec)) xs.
Lemma three_case {S} : jointly_differentiable linear_loss [2%nat; 2%nat; 1%nat] (map val (@three S)) (map grad_of (@three S)) /\
  Forall2 ready [2%nat; 2%nat; 1%nat] (@three S) /\ some_gradient [2%nat; 2%nat; 1%nat] (@three S) /\ List.Forall fresh (@three S).
Proof.
  split; [|split; [|split]].
  - intros e E. exists 1. split; [lra|]. intros hs Lh _. destruct hs as [|h1 [|h2 [|h3 [|]]]]; try discriminate Lh.
    replace (_ - _ - _) with 0.
    + rewrite Rabs_R0. apply Rmult_le_pos; [lra|]. cbn. pose proof (nrm_nonneg 2 h1). pose proof (nrm_nonneg 2 h2). pose proof (nrm_nonneg 1 h3). lra.
    + unfold linear_loss. cbn. unfold dot, vadd; cbn; ring.
  - repeat constructor; try discriminate.
    + intros g [= <-]. exists (fun _ _ => True). apply sphere_descent_at. apply north_on.
    + intros g [= <-]. exists eq. apply euclidean_descent_at.
  - left. exists g_out. split; [reflexivity|]. cbn. unfold nrm. apply sqrt_lt_R0.
    unfold SphereModel.proju, dot, Rsum, vadd, vsub, smul, north, g_out. cbn. unfold dot, Rsum. cbn. lra.
  - repeat constructor.
Qed.
