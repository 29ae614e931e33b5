(** Lemmas about the sphere model. *)
From Coq Require Import Reals Lra Lia List Bool Psatz.
From Verif Require Import RVec StereoSpec SphereModel SphereSpec.
From Verif Require StereoModel StereoTrig.
Import ListNotations.
Local Open Scope R_scope.

Lemma dot_same n u u' v v' : same n u u' -> same n v v' -> dot n u v = dot n u' v'.
Proof. intros; apply dot_ext; auto. Qed.
Lemma nrm_same n u u' : same n u u' -> nrm n u = nrm n u'.
Proof. intros H. unfold nrm. rewrite (dot_same n u u' u u'); auto. Qed.
Lemma same_refl n x : same n x x. Proof. intros ? ?; auto. Qed.
Lemma same_sym n x y : same n x y -> same n y x. Proof. intros H ? ?; symmetry; auto. Qed.
Lemma same_trans n x y z : same n x y -> same n y z -> same n x z.
Proof. intros H1 H2 i Hi; rewrite H1; auto. Qed.

Section S.
  Variable n : nat.
  Variable P : option mat.
  Notation proj := (project_on_subspace n P).

  Lemma proj_applym M x : project_on_subspace n (Some M) x = applym n M x.
  Proof. apply vec_ext; intros j. simpl. unfold applym. apply Rsum_ext; intros; ring. Qed.

  Lemma proj_cong x y : same n x y -> same n (proj x) (proj y).
  Proof.
    intros H i Hi. destruct P as [M|]; simpl; [|auto].
    apply Rsum_ext. intros; rewrite H; auto.
  Qed.
  Lemma proj_add x y : proj (vadd x y) = vadd (proj x) (proj y).
  Proof.
    destruct P as [M|]; simpl; [|auto]. apply vec_ext; intros j. unfold vadd.
    rewrite <- Rsum_plus. apply Rsum_ext; intros; ring.
  Qed.
  Lemma proj_smul a x : proj (smul a x) = smul a (proj x).
  Proof.
    destruct P as [M|]; simpl; [|auto]. apply vec_ext; intros j. unfold smul.
    rewrite <- Rsum_scal. apply Rsum_ext; intros; ring.
  Qed.
  Lemma proj_sub x y : proj (vsub x y) = vsub (proj x) (proj y).
  Proof.
    destruct P as [M|]; simpl; [|auto]. apply vec_ext; intros j. unfold vsub.
    rewrite <- Rsum_minus. apply Rsum_ext; intros; ring.
  Qed.
  Lemma proj_vdiv x a : proj (vdiv x a) = vdiv (proj x) a.
  Proof.
    destruct P as [M|]; simpl; [|auto]. apply vec_ext; intros j. unfold vdiv, Rdiv.
    rewrite <- Rsum_scal_r. apply Rsum_ext; intros; ring.
  Qed.
  Lemma in_sub_iff x : in_subspace n P x <-> same n (proj x) x.
  Proof.
    destruct P as [M|]; simpl.
    - rewrite <- proj_applym. reflexivity.
    - split; auto. intros _; apply same_refl.
  Qed.
  Hypothesis VP : valid_subspace n P.
  Lemma proj_idem x : same n (proj (proj x)) (proj x).
  Proof.
    intros j Hj. destruct P as [M|]; simpl; auto. destruct VP as [HS HI].
    transitivity (Rsum n (fun i => Rsum n (fun k => x k * M i k * M j i))).
    { apply Rsum_ext; intros. rewrite Rsum_scal_r. reflexivity. }
    rewrite Rsum_swap. apply Rsum_ext. intros k Hk. rewrite <- (HI j k) by auto.
    rewrite <- Rsum_scal. apply Rsum_ext. intros; ring.
  Qed.
  Lemma proj_adj x y : dot n (proj x) y = dot n x (proj y).
  Proof.
    destruct P as [M|]; simpl; auto. destruct VP as [HS _]. unfold dot.
    transitivity (Rsum n (fun j => Rsum n (fun i => x i * M j i * y j))).
    { apply Rsum_ext; intros. rewrite Rsum_scal_r. reflexivity. }
    rewrite Rsum_swap. apply Rsum_ext. intros i Hi. rewrite <- Rsum_scal.
    apply Rsum_ext. intros j Hj. rewrite (HS j i) by auto. ring.
  Qed.
  Lemma proj_in x : in_subspace n P (proj x).
  Proof. apply in_sub_iff, proj_idem. Qed.
  Lemma in_cong x y : same n x y -> in_subspace n P x -> in_subspace n P y.
  Proof.
    rewrite !in_sub_iff. intros H Hx. eapply same_trans; [apply proj_cong, same_sym, H|].
    eapply same_trans; eauto.
  Qed.
  Lemma in_add x y : in_subspace n P x -> in_subspace n P y -> in_subspace n P (vadd x y).
  Proof.
    rewrite !in_sub_iff, proj_add. intros H1 H2 i Hi. unfold vadd. rewrite H1, H2; auto.
  Qed.
  Lemma in_sub x y : in_subspace n P x -> in_subspace n P y -> in_subspace n P (vsub x y).
  Proof.
    rewrite !in_sub_iff, proj_sub. intros H1 H2 i Hi. unfold vsub. rewrite H1, H2; auto.
  Qed.
  Lemma in_smul a x : in_subspace n P x -> in_subspace n P (smul a x).
  Proof. rewrite !in_sub_iff, proj_smul. intros H1 i Hi. unfold smul. rewrite H1; auto. Qed.
  Lemma in_vdiv a x : in_subspace n P x -> in_subspace n P (vdiv x a).
  Proof. rewrite !in_sub_iff, proj_vdiv. intros H1 i Hi. unfold vdiv. rewrite H1; auto. Qed.

  Lemma unit_nrm x : dot n x x = 1 -> nrm n x = 1.
  Proof. intros H. unfold nrm. rewrite H. apply sqrt_1. Qed.

  Lemma projx_on x : nrm n (proj x) <> 0 -> on_sphere n P (projx n P x).
  Proof.
    intros H. unfold projx. split; [|apply in_vdiv, proj_in].
    vexp. rewrite <- nrm_sq. field; auto.
  Qed.
  Lemma projx_fix x : on_sphere n P x -> same n (projx n P x) x.
  Proof.
    intros [H1 H2]. rewrite in_sub_iff in H2. unfold projx. intros i Hi. unfold vdiv.
    rewrite (nrm_same n _ _ H2), unit_nrm by auto. rewrite H2; auto. field.
  Qed.

  Lemma step_norm x u : on_sphere n P x -> tangent n P x u ->
    dot n (vadd x u) (vadd x u) = 1 + dot n u u.
  Proof. intros [H1 _] [H2 _]. vexp. rewrite (dot_comm n u x), H1, H2. ring. Qed.
  Lemma step_nz x u : on_sphere n P x -> tangent n P x u -> nrm n (proj (vadd x u)) <> 0.
  Proof.
    intros Hx Hu E. assert (S : same n (proj (vadd x u)) (vadd x u)).
    { apply in_sub_iff, in_add; [apply Hx|apply Hu]. }
    rewrite (nrm_same n _ _ S) in E. pose proof (nrm_sq n (vadd x u)) as Q.
    rewrite E, (step_norm x u) in Q; auto. pose proof (dot_nonneg n u). lra.
  Qed.
  Lemma retr_on x u : on_sphere n P x -> tangent n P x u -> on_sphere n P (retr n P x u).
  Proof. intros. apply projx_on, step_nz; auto. Qed.

  Lemma retr_formula x u : on_sphere n P x -> tangent n P x u ->
    same n (retr n P x u) (smul (/ sqrt (1 + dot n u u)) (vadd x u)).
  Proof.
    intros Hx Hu i Hi. assert (S : same n (proj (vadd x u)) (vadd x u)).
    { apply in_sub_iff, in_add; [apply Hx|apply Hu]. }
    unfold retr, projx, vdiv, smul. rewrite (nrm_same n _ _ S), S by auto. unfold nrm.
    rewrite step_norm by auto. unfold Rdiv. ring.
  Qed.

  Lemma expmap_on eps x u : 0 <= eps -> on_sphere n P x -> tangent n P x u ->
    on_sphere n P (expmap n P eps x u).
  Proof.
    intros He Hx Hu. unfold expmap. cbv zeta. destruct (Rlt_dec eps (nrm n u)).
    - split.
      + destruct Hx as [H1 _], Hu as [H2 _]. vexp.
        rewrite (dot_comm n u x), H1, H2, <- nrm_sq.
        pose proof (sin2_cos2 (nrm n u)) as T. unfold Rsqr in T.
        transitivity (sin (nrm n u) * sin (nrm n u) + cos (nrm n u) * cos (nrm n u));
          [field; lra|auto].
      + apply in_add; [apply in_smul, Hx|apply in_vdiv, in_smul, Hu].
    - apply retr_on; auto.
  Qed.

  (** *** tangent projection *)
  Lemma proju_lin x a u b v :
    proju n P x (vadd (smul a u) (smul b v)) = vadd (smul a (proju n P x u)) (smul b (proju n P x v)).
  Proof.
    unfold proju. vexp. rewrite <- !proj_smul, <- proj_add. f_equal. veq. ring.
  Qed.
  Lemma proju_tan x u : on_sphere n P x -> tangent n P x (proju n P x u).
  Proof.
    intros [H1 H2]. split; [|apply proj_in]. unfold proju.
    rewrite <- proj_adj. rewrite in_sub_iff in H2.
    rewrite (dot_same n _ x _ _ H2 (same_refl n _)). vexp. rewrite H1. ring.
  Qed.
  Lemma proju_fix x u : tangent n P x u -> same n (proju n P x u) u.
  Proof.
    intros [H1 H2]. unfold proju. rewrite H1.
    replace (vsub u (smul 0 x)) with u by (veq; ring). apply in_sub_iff; auto.
  Qed.
  Lemma proju_pair x g v : tangent n P x v -> dot n (proju n P x g) v = dot n g v.
  Proof.
    intros [H1 H2]. unfold proju. rewrite proj_adj. rewrite in_sub_iff in H2.
    rewrite (dot_same n _ _ _ _ (same_refl n _) H2). vexp. rewrite H1. ring.
  Qed.
  Lemma proju_adj x u v : on_sphere n P x ->
    dot n (proju n P x u) v = dot n u (proju n P x v).
  Proof.
    intros [H1 H2]. unfold proju. rewrite in_sub_iff in H2.
    assert (Hx : forall w, dot n x (proj w) = dot n x w).
    { intros w. rewrite <- proj_adj. apply dot_same; [auto|apply same_refl]. }
    rewrite proj_adj, !proj_sub, proj_smul. vexp.
    rewrite Hx, (dot_same n u u _ x (same_refl n _) H2), (dot_comm n u x). ring.
  Qed.

  (** *** exp, log, dist *)
  Lemma cs_unit x y : dot n x x = 1 -> dot n y y = 1 -> -1 <= dot n x y <= 1.
  Proof.
    intros Hx Hy. pose proof (cauchy_schwarz_nrm n x y) as C.
    rewrite !unit_nrm in C by auto. pose proof (Rle_abs (dot n x y)).
    pose proof (Rle_abs (- dot n x y)). rewrite Rabs_Ropp in *. lra.
  Qed.
End S.
