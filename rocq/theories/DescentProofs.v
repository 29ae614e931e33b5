(** Chain rule along a curve and descent. *)
From Coq Require Import Reals Lra Lia Psatz.
From Coquelicot Require Import Coquelicot.
From Verif Require Import RVec GradSpec GradProofs DescentSpec.
From Verif Require Import StereoSpec.
From Verif Require StereoProofs.
Local Open Scope R_scope.

Lemma Rsum_derive n (f : nat -> R -> R) (l : nat -> R) x :
  (forall i, (i < n)%nat -> is_derive (f i) x (l i)) ->
  is_derive (fun t => Rsum n (fun i => f i t)) x (Rsum n l).
Proof.
  induction n; intros H; cbn [Rsum].
  - apply (@is_derive_const R_AbsRing R_NormedModule).
  - apply (is_derive_plus (V := R_NormedModule) (fun t => Rsum n (fun i => f i t)) (f n)).
    + apply IHn. intros; apply H; lia.
    + apply H; lia.
Qed.

Lemma nrm_sum n h : nrm n h <= Rsum n (fun i => Rabs (h i)).
Proof.
  assert (P : forall m, 0 <= Rsum m (fun i => Rabs (h i))) by (intros; apply Rsum_nonneg; intros; apply Rabs_pos).
  assert (Q : dot n h h <= (Rsum n (fun i => Rabs (h i))) ^ 2).
  { unfold dot. induction n; cbn [Rsum]; [lra|]. specialize (P n). pose proof (Rabs_pos (h n)).
    assert (h n * h n = Rabs (h n) * Rabs (h n)) by (rewrite <- Rabs_mult; symmetry; apply Rabs_right; nra).
    nra. }
  unfold nrm. rewrite <- (sqrt_pow2 (Rsum n (fun i => Rabs (h i)))) by apply P. apply sqrt_le_1_alt, Q.
Qed.

(** epsilon-delta form of the derivative at 0 *)
Lemma derive_eps (f : R -> R) l : is_derive f 0 l <->
  (forall eps, 0 < eps -> exists del, 0 < del /\ forall t, Rabs t < del -> Rabs (f t - f 0 - t * l) <= eps * Rabs t).
Proof.
  split.
  - intros D eps E. apply is_derive_Reals in D. destruct (D eps E) as [del H].
    exists del; split; [apply cond_pos|]. intros t T. destruct (Req_dec t 0) as [->|N].
    + rewrite Rabs_R0. replace (f 0 - f 0 - 0 * l) with 0 by ring. rewrite Rabs_R0. lra.
    + specialize (H t N T). rewrite Rplus_0_l in H.
      replace (f t - f 0 - t * l) with (((f t - f 0) / t - l) * t) by (field; exact N).
      rewrite Rabs_mult. apply Rmult_le_compat_r; [apply Rabs_pos|]. lra.
  - intros H. apply is_derive_Reals. intros eps E. destruct (H (eps / 2)) as [del [DP D]]; [lra|].
    exists (mkposreal del DP). intros t N T. simpl in T. specialize (D t T). rewrite Rplus_0_l.
    replace ((f t - f 0) / t - l) with ((f t - f 0 - t * l) / t) by (field; exact N).
    unfold Rdiv. rewrite Rabs_mult, Rabs_inv. pose proof (Rabs_pos_lt t N).
    apply Rmult_lt_reg_r with (Rabs t); auto. rewrite Rmult_assoc, Rinv_l, Rmult_1_r by lra. nra.
Qed.

Section Curve.
  Variables (n : nat) (f : vec -> R) (x g u : vec) (c : R -> vec).
  Hypothesis F : differentiable n f x g.
  Hypothesis C0 : same n (c 0) x.
  Hypothesis C1 : forall i, (i < n)%nat -> is_derive (fun t => c t i) 0 (u i).
  Let h t := vsub (c t) x.
  Lemma curve_split t : vadd x (h t) = c t.
  Proof. apply vec_ext; intros; unfold h, vadd, vsub; ring. Qed.
  Lemma curve_0 : f (c 0) = f x.
  Proof.
    destruct (F 1 Rlt_0_1) as [del [DP D]].
    assert (Z : nrm n (h 0) = 0).
    { rewrite (StereoProofs.same_nrm n (h 0) vzero).
      - apply nrm_zero.
      - intros i Hi. unfold h, vsub, vzero. rewrite (C0 i Hi). ring. }
    specialize (D (h 0) ltac:(rewrite Z; exact DP)). rewrite curve_split, Z in D.
    assert (dot n g (h 0) = 0).
    { unfold dot. rewrite (Rsum_ext n _ (fun _ => 0)); [apply Rsum_zero|].
      intros i Hi. unfold h, vsub. rewrite (C0 i Hi). ring. }
    rewrite H in D. pose proof (Rle_abs (f (c 0) - f x - 0)).
    pose proof (Rle_abs (- (f (c 0) - f x - 0))). rewrite Rabs_Ropp in *. lra.
  Qed.
  Lemma h_bound : exists del, 0 < del /\ forall t, Rabs t < del ->
    nrm n (h t) <= (Rsum n (fun i => Rabs (u i)) + INR n) * Rabs t.
  Proof.
    assert (B : exists del, 0 < del /\ forall t, Rabs t < del ->
      forall i, (i < n)%nat -> Rabs (h t i) <= (Rabs (u i) + 1) * Rabs t).
    { revert C0 C1. clear. intros C0 C1. unfold h. clear h.
      assert (W : forall m, (m <= n)%nat -> exists del, 0 < del /\ forall t, Rabs t < del ->
        forall i, (i < m)%nat -> Rabs (vsub (c t) x i) <= (Rabs (u i) + 1) * Rabs t).
      { induction m; intros M.
        - exists 1. split; [lra|]. intros; lia.
        - destruct IHm as [d1 [P1 D1]]; [lia|].
          destruct (proj1 (derive_eps _ _) (C1 m ltac:(lia)) 1 Rlt_0_1) as [d2 [P2 D2]].
          exists (Rmin d1 d2). split; [apply Rmin_pos; auto|]. intros t T i Hi.
          assert (T1 : Rabs t < d1) by (eapply Rlt_le_trans; [exact T|apply Rmin_l]).
          assert (T2 : Rabs t < d2) by (eapply Rlt_le_trans; [exact T|apply Rmin_r]).
          destruct (Nat.eq_dec i m) as [->|]; [|apply D1; [auto|lia]].
          specialize (D2 t T2). cbn beta in D2. rewrite (C0 m) in D2 by lia.
          unfold vsub. replace (c t m - x m) with ((c t m - x m - t * u m) + t * u m) by ring.
          eapply Rle_trans; [apply Rabs_triang|]. rewrite (Rabs_mult t). lra. }
      apply (W n). lia. }
    destruct B as [del [P D]]. exists del; split; auto. intros t T.
    eapply Rle_trans; [apply nrm_sum|].
    eapply Rle_trans; [apply Rsum_le; intros i Hi; apply (D t T i Hi)|].
    rewrite Rsum_scal_r, Rsum_plus, Rsum_const. right; ring.
  Qed.
  Lemma chain : is_derive (fun t => f (c t)) 0 (dot n g u).
  Proof.
    assert (G : is_derive (fun t => dot n g (c t)) 0 (dot n g u)).
    { unfold dot. apply (Rsum_derive n (fun i t => g i * c t i)). intros i Hi.
      apply (is_derive_scal (fun t => c t i) 0 (g i)). apply C1; auto. }
    destruct h_bound as [d0 [P0 D0]].
    set (M := Rsum n (fun i => Rabs (u i)) + INR n) in *.
    assert (MP : 0 <= M).
    { unfold M. pose proof (pos_INR n). assert (0 <= Rsum n (fun i => Rabs (u i))) by (apply Rsum_nonneg; intros; apply Rabs_pos). lra. }
    apply derive_eps. intros eps E.
    destruct (F (eps / 2 / (M + 1))) as [d1 [P1 D1]].
    { apply Rdiv_lt_0_compat; lra. }
    destruct (proj1 (derive_eps _ _) G (eps / 2) ltac:(lra)) as [d2 [P2 D2]].
    exists (Rmin d0 (Rmin (d1 / (M + 1)) d2)). split.
    { apply Rmin_pos; auto. apply Rmin_pos; auto. apply Rdiv_lt_0_compat; lra. }
    intros t T.
    assert (T0 : Rabs t < d0) by (eapply Rlt_le_trans; [exact T|apply Rmin_l]).
    assert (T1 : Rabs t < d1 / (M + 1)) by (eapply Rlt_le_trans; [exact T|eapply Rle_trans; [apply Rmin_r|apply Rmin_l]]).
    assert (T2 : Rabs t < d2) by (eapply Rlt_le_trans; [exact T|eapply Rle_trans; [apply Rmin_r|apply Rmin_r]]).
    specialize (D0 t T0). specialize (D2 t T2). cbn beta in D2. rewrite curve_0.
    pose proof (Rabs_pos t) as TP.
    assert (HM : nrm n (h t) <= (M + 1) * Rabs t) by lra.
    assert (HD : nrm n (h t) < d1).
    { eapply Rle_lt_trans; [exact HM|]. apply (Rmult_lt_compat_l (M + 1)) in T1; [|lra].
      replace ((M + 1) * (d1 / (M + 1))) with d1 in T1 by (field; lra). exact T1. }
    specialize (D1 (h t) HD). rewrite curve_split in D1.
    assert (GH : dot n g (h t) = dot n g (c t) - dot n g (c 0)).
    { unfold h. rewrite dot_sub_r. f_equal. unfold dot. apply Rsum_ext. intros i Hi. rewrite (C0 i Hi). reflexivity. }
    rewrite GH in D1.
    replace (f (c t) - f x - t * dot n g u) with
      ((f (c t) - f x - (dot n g (c t) - dot n g (c 0))) + (dot n g (c t) - dot n g (c 0) - t * dot n g u)) by ring.
    eapply Rle_trans; [apply Rabs_triang|].
    assert (X : eps / 2 / (M + 1) * nrm n (h t) <= eps / 2 * Rabs t).
    { replace (eps / 2 * Rabs t) with (eps / 2 / (M + 1) * ((M + 1) * Rabs t)) by (field; lra).
      apply Rmult_le_compat_l; [|exact HM]. left; apply Rdiv_lt_0_compat; lra. }
    lra.
  Qed.
  Lemma descent : dot n g u < 0 -> decreases f x c.
  Proof.
    intros N. pose proof (proj1 (derive_eps _ _) chain (- dot n g u / 2) ltac:(lra)) as [del [P D]].
    exists del; split; auto. intros t T. specialize (D t ltac:(rewrite Rabs_right; lra)).
    cbn beta in D. rewrite curve_0, (Rabs_right t) in D by lra.
    pose proof (Rle_abs (f (c t) - f x - t * dot n g u)).
    assert (t * dot n g u < 0) by nra. lra.
  Qed.
End Curve.
