(** Short gradient steps on the hyperboloid: the norm floor moves the base point. *)
From Coq Require Import Reals Lra Lia Psatz.
From Coquelicot Require Import Coquelicot.
From Verif Require Import RVec GradSpec GradProofs DescentSpec DescentProofs.
From Verif Require Import StereoModel LorentzModel LorentzSpec LorentzProofs LorentzProofs2.
Local Open Scope R_scope.

Section L.
  Variable k : R.
  Hypothesis K : 0 < k.
  Definition pt : vec := fun i => match i with O => sqrt (k + 1) | _ => 1 end.
  Definition loss : vec -> R := fun z => z 1%nat.
  Definition eg : vec := fun i => match i with O => 0 | _ => 1 end.

  Lemma pt_on : on_hyperboloid 1 k pt.
  Proof.
    split.
    - unfold minkowski, pt; simpl Rsum. rewrite sqrt_sqrt by lra. ring.
    - unfold pt. apply sqrt_lt_R0; lra.
  Qed.
  Lemma loss_diff : differentiable 2 loss pt eg.
  Proof.
    intros eps E. exists 1. split; [lra|]. intros h _.
    replace (loss (vadd pt h) - loss pt - dot 2 eg h) with 0.
    - rewrite Rabs_R0. apply Rmult_le_pos; [lra|apply nrm_nonneg].
    - unfold loss, vadd, dot, eg; simpl Rsum. ring.
  Qed.
  Definition rg : vec := fun i => match i with O => sqrt (k + 1) / k | _ => 1 + / k end.
  Lemma rg_eq i : (i < 2)%nat -> snd (egrad2rgrad 1 k pt eg) i = rg i.
  Proof.
    intros Hi. unfold egrad2rgrad. cbv zeta. cbn [snd]. rewrite innerE.
    assert (M : minkowski 1 pt (flip eg) = 1) by (unfold minkowski, pt, flip, eg; simpl Rsum; ring).
    rewrite M. destruct i as [|[|]]; [| |lia]; unfold vadd, smul, vdiv, flip, eg, pt, rg; field; lra.
  Qed.
  Lemma step_norm t : minkowski 1 (smul (- t) (snd (egrad2rgrad 1 k pt eg))) (smul (- t) (snd (egrad2rgrad 1 k pt eg)))
    = t * t * (1 + / k).
  Proof.
    pose proof (rg_eq 0 ltac:(lia)) as R0. pose proof (rg_eq 1 ltac:(lia)) as R1.
    set (r := snd (egrad2rgrad 1 k pt eg)) in *. clearbody r.
    unfold minkowski, smul; simpl Rsum. rewrite R0, R1. unfold rg.
    replace (- t * (sqrt (k + 1) / k) * (- t * (sqrt (k + 1) / k))) with (t * t * (sqrt (k + 1) * sqrt (k + 1)) / (k * k)) by (field; lra).
    rewrite sqrt_sqrt by lra. field. lra.
  Qed.
  Lemma step_tan t : inner 1 pt (smul (- t) (snd (egrad2rgrad 1 k pt eg))) = 0.
  Proof.
    rewrite innerE. pose proof (rg_eq 0 ltac:(lia)) as R0. pose proof (rg_eq 1 ltac:(lia)) as R1.
    set (r := snd (egrad2rgrad 1 k pt eg)) in *. clearbody r.
    unfold minkowski, smul; simpl Rsum. rewrite R0, R1. unfold rg, pt.
    replace (sqrt (k + 1) * (- t * (sqrt (k + 1) / k))) with (- t * (sqrt (k + 1) * sqrt (k + 1)) / k) by (field; lra).
    rewrite sqrt_sqrt by lra. field. lra.
  Qed.
  Lemma step_loss nt pr t : t * t * (1 + / k) <= e8 ->
    let del := / 10 ^ 4 / sqrt k in
    loss (l_expmap 1 k nt pr pt (smul (- t) (snd (egrad2rgrad 1 k pt eg)))) =
      cosh del - t * (1 + / k) * (sinh del / del).
  Proof.
    intros H del. set (u := smul (- t) (snd (egrad2rgrad 1 k pt eg))).
    pose proof (sqk k K) as SK.
    assert (N : norm 1 u = / 10 ^ 4).
    { unfold norm, clamp_min. rewrite innerE. unfold u. rewrite step_norm, Rmax_right by exact H.
      unfold e8. replace (/ 10 ^ 8) with ((/ 10 ^ 4) ^ 2) by (field; lra).
      apply sqrt_pow2. left; apply Rinv_0_lt_compat; lra. }
    assert (U : (if nt then project_u 1 k pt u else u) = u).
    { destruct nt; auto. unfold project_u. unfold u at 2. rewrite step_tan.
      apply vec_ext; intros; unfold vadd, smul; ring. }
    unfold l_expmap. cbv zeta. rewrite U.
    assert (P : (if pr then project 1 k (expmap 1 k pt u) else expmap 1 k pt u) 1%nat = expmap 1 k pt u 1%nat)
      by (destruct pr; reflexivity).
    unfold loss. rewrite P. unfold expmap. cbv zeta. rewrite N. fold del.
    unfold vadd, smul, vdiv. unfold u, smul. rewrite (rg_eq 1) by lia. unfold pt, rg, del.
    field. split; lra.
  Qed.
  Lemma lorentz_up nt pr : exists t0, 0 < t0 /\ forall t, 0 < t < t0 ->
    loss pt < loss (l_expmap 1 k nt pr pt (smul (- t) (snd (egrad2rgrad 1 k pt eg)))).
  Proof.
    pose proof (sqk k K) as SK. set (del := / 10 ^ 4 / sqrt k).
    assert (DP : 0 < del) by (apply Rdiv_lt_0_compat; [apply Rinv_0_lt_compat; lra|exact SK]).
    pose proof (cosh_gt1 del ltac:(lra)) as C. pose proof (sinh_pos del DP) as S.
    assert (A : 1 < 1 + / k) by (pose proof (Rinv_0_lt_compat k K); lra).
    set (a := 1 + / k) in *. set (b := sinh del / del). assert (B : 0 < b) by (apply Rdiv_lt_0_compat; auto).
    assert (E4 : 0 < / 10 ^ 4 < 1).
    { split; [apply Rinv_0_lt_compat; lra|]. rewrite <- Rinv_1. apply Rinv_lt_contravar; lra. }
    exists (Rmin (/ 10 ^ 4 / a) ((cosh del - 1) / (a * b))). split.
    - apply Rmin_pos; apply Rdiv_lt_0_compat; try lra. apply Rmult_lt_0_compat; lra.
    - intros t [T1 T2].
      assert (T3 : t < / 10 ^ 4 / a) by (eapply Rlt_le_trans; [exact T2|apply Rmin_l]).
      assert (T4 : t < (cosh del - 1) / (a * b)) by (eapply Rlt_le_trans; [exact T2|apply Rmin_r]).
      assert (TA : t * a < / 10 ^ 4).
      { apply (Rmult_lt_compat_r a) in T3; [|lra]. replace (/ 10 ^ 4 / a * a) with (/ 10 ^ 4) in T3 by (field; lra). exact T3. }
      assert (TB : t * (a * b) < cosh del - 1).
      { assert (0 < a * b) by (apply Rmult_lt_0_compat; lra).
        apply (Rmult_lt_compat_r (a * b)) in T4; [|lra].
        replace ((cosh del - 1) / (a * b) * (a * b)) with (cosh del - 1) in T4 by (field; lra). exact T4. }
      assert (TT : t * t * (1 + / k) <= e8).
      { fold a. unfold e8. replace (/ 10 ^ 8) with (/ 10 ^ 4 * / 10 ^ 4) by (field; lra).
        rewrite Rmult_assoc. assert (t * 1 <= t * a) by (apply Rmult_le_compat_l; lra).
        apply Rmult_le_compat; lra. }
      rewrite (step_loss nt pr t TT). fold del a b. replace (loss pt) with 1 by reflexivity. lra.
  Qed.
  Lemma rg_nz : 0 < minkowski 1 (snd (egrad2rgrad 1 k pt eg)) (snd (egrad2rgrad 1 k pt eg)).
  Proof.
    pose proof (step_norm (-1)) as H.
    replace (smul (- -1) (snd (egrad2rgrad 1 k pt eg))) with (snd (egrad2rgrad 1 k pt eg)) in H
      by (apply vec_ext; intros; unfold smul; ring).
    rewrite H. pose proof (Rinv_0_lt_compat k K). lra.
  Qed.
End L.

Lemma lorentz_no_descent k norm_tan proj : 0 < k -> exists f x g,
  on_hyperboloid 1 k x /\ differentiable 2 f x g /\
  0 < minkowski 1 (snd (egrad2rgrad 1 k x g)) (snd (egrad2rgrad 1 k x g)) /\
  exists t0, 0 < t0 /\ forall t, 0 < t < t0 ->
    f x < f (l_expmap 1 k norm_tan proj x (smul (- t) (snd (egrad2rgrad 1 k x g)))).
Proof.
  intros K. exists loss, (pt k), eg. split; [apply pt_on; auto|]. split; [apply loss_diff|].
  split; [apply rg_nz; auto|]. apply lorentz_up; auto.
Qed.
