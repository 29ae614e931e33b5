(** Lemmas behind StereoClassProps.v: the classes of manifold.py. *)
From Coq Require Import Reals Lra Psatz Lia List FunctionalExtensionality Bool Arith.
From Verif Require Import RVec StereoModel StereoSpec GyroAlgebra StereoTrig StereoProofs StereoProofs2 StereoProofs3 StereoProofs4
  StereoExtraModel StereoExtraSpec StereoExtraProofs.
Local Open Scope R_scope.

Lemma all_below_iff n f : all_below n f = true <-> forall i, (i < n)%nat -> f i = true.
Proof.
  induction n; cbn [all_below].
  - split; [intros _ i H; lia|reflexivity].
  - rewrite andb_true_iff, IHn. split.
    + intros [A B] i H. destruct (Nat.eq_dec i n); [subst; exact B|apply A; lia].
    + intros A. split; [intros i H; apply A; lia|apply A; lia].
Qed.

Lemma entry_nrm n (p : vec) i : (i < n)%nat -> Rabs (p i) <= nrm n p.
Proof.
  intros Hi. unfold nrm. rewrite <- sqrt_Rsqr_abs. apply sqrt_le_1_alt. unfold Rsqr, dot.
  assert (NN : forall q, 0 <= Rsum q (fun j => p j * p j)). { induction q; cbn [Rsum]; [lra|nra]. }
  revert Hi. induction n as [|m IH]; intros Hi; [lia|]. cbn [Rsum].
  destruct (Nat.eq_dec i m) as [->|]; [pose proof (NN m); lra|].
  pose proof (IH ltac:(lia)). nra.
Qed.

Section C.
  Variables (n : nat) (e k : R).
  Hypothesis E : 0 <= e.

  Lemma exp_dist x u : closed_form k -> norm_ok n u -> angle_ok e k (lambda_x n k x * nrm n u / 2) ->
    regular n k x (smul (tan_k e (lambda_x n k x * nrm n u / 2) k) (vdiv u (nrm n u))) ->
    regular n k (vopp x) (expmap n e k x u) -> dist n e k x (expmap n e k x u) = norm n k x u.
  Proof.
    intros K N A R1 R2. unfold norm. destruct N as [N|N].
    - fold e15 in N. pose proof e15_pos. pose proof (lambda_pos n k x) as Lp.
      set (b := lambda_x n k x * nrm n u / 2) in *.
      assert (Bp : 0 < b) by (unfold b; apply Rmult_lt_0_compat; [apply Rmult_lt_0_compat|]; lra).
      pose proof (proj1 (angle_ok_free e k b) A) as A'.
      unfold expmap in R2 |- *. cbv zeta in *. rewrite clamp_min_id in R2 |- * by auto.
      replace (lambda_x n k x / 2 * nrm n u) with b in R2 |- * by (unfold b; field).
      set (s := smul (tan_k e b k) (vdiv u (nrm n u))) in *.
      pose proof (tan_k_nonneg e k b E K ltac:(lra) A') as T.
      assert (Ns : nrm n s = tan_k e b k).
      { unfold s. rewrite nrm_smul, nrm_vdiv, !Rabs_right; try lra. field. lra. }
      unfold dist. rewrite left_cancel by auto. rewrite Ns, artan_tan by (auto; lra). unfold b. field.
    - assert (Z : same n u vzero) by (intros i Hi; apply (proj1 (nrm_zero_iff n u)); auto).
      assert (Z2 : same n (expmap n e k x u) x).
      { eapply same_trans; [apply expmap_same; [apply same_refl|apply Z]|]. rewrite expmap_zero. apply same_refl. }
      rewrite N. unfold dist.
      rewrite (same_nrm n _ vzero); [rewrite nrm_zero, artan_k_0; ring|].
      eapply same_trans; [apply mobius_add_same; [apply same_refl|apply Z2]|]. rewrite add_opp_l. apply same_refl.
  Qed.

  Lemma ball_exp_dist x u : k < - / 10 ^ 8 -> safe n k x -> norm_ok n u -> angle_ok e k (lambda_x n k x * nrm n u / 2) ->
    dist n e k x (expmap n e k x u) = norm n k x u.
  Proof.
    intros K S N A. pose proof e8_val as V8. fold e8 in K. assert (K0 : k < 0) by lra.
    pose proof (safe_in_domain n k x K0 S) as D. pose proof (expmap_in_domain n e k x u E K D) as DE.
    destruct N as [N|N].
    - apply exp_dist; [right; left; exact K|left; exact N|exact A| |apply safe_regular; [exact K0|apply safe_opp; exact S|exact DE]].
      fold e15 in N. pose proof e15_pos. apply safe_regular; [exact K0|exact S|].
      apply (short_in_domain n e k (tan_k e (lambda_x n k x * nrm n u / 2) k) (vdiv u (nrm n u))); [exact E|exact K0|apply tan_k_neg_small; [exact E|exact K]|].
      rewrite nrm_vdiv, Rabs_right by lra. right. field. lra.
    - assert (Z : same n u vzero) by (intros i Hi; apply (proj1 (nrm_zero_iff n u)); auto).
      assert (Z2 : same n (expmap n e k x u) x).
      { eapply same_trans; [apply expmap_same; [apply same_refl|apply Z]|]. rewrite expmap_zero. apply same_refl. }
      unfold norm. rewrite N. unfold dist.
      rewrite (same_nrm n _ vzero); [rewrite nrm_zero, artan_k_0; ring|].
      eapply same_trans; [apply mobius_add_same; [apply same_refl|apply Z2]|]. rewrite add_opp_l. apply same_refl.
  Qed.

  Lemma exp0_dist0 u : closed_form k -> norm_ok n u -> angle_ok e k (nrm n u) -> dist0 n e k (expmap0 n e k u) = 2 * nrm n u.
  Proof.
    intros K [U|U] A; unfold dist0.
    - fold e15 in U. pose proof e15_pos. rewrite exp0_nrm by auto. rewrite artan_tan; [ring|exact E|exact K|lra|apply angle_ok_free, A].
    - rewrite (same_nrm n _ vzero (expmap0_null e k n u U)), nrm_zero, artan_k_0, U. ring.
  Qed.

  Section P.
    Variable eps : R.
    Hypothesis EPS : 0 <= eps < 1.
    Hypothesis M : / 10 ^ 15 <= maxnorm e eps k.

    Lemma projected_accepted atol rtol y : 0 <= atol -> 0 <= rtol -> check_point n e eps k atol rtol (project n e eps k y) = true.
    Proof.
      intros A B. unfold check_point. rewrite project_idem by auto. apply all_below_iff. intros i _.
      set (p := project n e eps k y i). replace (p - p) with 0 by ring. rewrite Rabs_R0.
      pose proof (Rabs_pos p). destruct Rle_dec; [reflexivity|exfalso; nra].
    Qed.
    Lemma check_point_exact x : check_point n e eps k 0 0 x = true <-> nrm n x <= maxnorm e eps k.
    Proof.
      split.
      - intros C. unfold check_point in C. pose proof (proj1 (all_below_iff n _) C) as C'.
        assert (S : same n x (project n e eps k x)).
        { intros i Hi. specialize (C' i Hi). cbv beta in C'. destruct Rle_dec as [L|]; [|discriminate].
          pose proof (Rabs_pos (x i - project n e eps k x i)).
          destruct (Req_dec (x i - project n e eps k x i) 0) as [Z|Z]; [lra|]. apply Rabs_pos_lt in Z. lra. }
        rewrite (same_nrm n x _ S). apply project_nrm; auto.
      - intros H. rewrite <- (project_id n e eps k x H M). apply projected_accepted; lra.
    Qed.
    Lemma check_point_bound atol rtol x : 0 <= atol -> 0 <= rtol -> check_point n e eps k atol rtol x = true ->
      forall i, (i < n)%nat -> Rabs (x i) <= (1 + rtol) * maxnorm e eps k + atol.
    Proof.
      intros A B C i Hi. unfold check_point in C. pose proof (proj1 (all_below_iff n _) C i Hi) as L. cbv beta in L.
      destruct Rle_dec as [L'|]; [|discriminate].
      pose proof (project_nrm n e eps k x E EPS) as P. set (p := project n e eps k x) in *.
      assert (Q : Rabs (p i) <= nrm n p).
      { apply entry_nrm, Hi. }
      pose proof (Rabs_triang (x i - p i) (p i)) as T. replace (x i - p i + p i) with (x i) in T by ring.
      nra.
    Qed.

    Lemma retr_inside x u : nrm n (vadd x u) <= maxnorm e eps k -> retr n e eps k x u = vadd x u.
    Proof. intros H. unfold retr. apply project_id; auto. Qed.
    Lemma retr_zero x : nrm n x <= maxnorm e eps k -> retr n e eps k x vzero = x.
    Proof. intros H. unfold retr. replace (vadd x vzero) with x by (apply functional_extensionality; intros i; unfold vadd, vzero; ring). apply project_id; auto. Qed.
  End P.
End C.

(** transport after a move, on the ball *)
Lemma ball_regular n e k x y : 0 <= e -> k < 0 -> in_domain n k x -> regular n k (project n e (/ 10 ^ 5) k y) (vopp x).
Proof.
  intros E K D. apply safe_regular; [exact K|apply project_safe; auto|apply in_domain_opp; exact D].
Qed.
Lemma expmap_transp_inner n e k x u v w : 0 <= e -> k < 0 -> in_domain n k x ->
  let '(y, v') := m_expmap_transp n e (/ 10 ^ 5) k true x u v in
  let '(y2, w') := m_expmap_transp n e (/ 10 ^ 5) k true x u w in
  y2 = y /\ inner n k y v' w' = inner n k x v w.
Proof.
  intros E K D. unfold m_expmap_transp, m_expmap, maybe_project, m_transp. split; [reflexivity|].
  apply transport_inner, ball_regular; auto.
Qed.
Lemma retr_transp_inner n e k x u v w : 0 <= e -> k < 0 -> in_domain n k x ->
  let '(y, v') := m_retr_transp n e (/ 10 ^ 5) k x u v in
  let '(y2, w') := m_retr_transp n e (/ 10 ^ 5) k x u w in
  y2 = y /\ inner n k y v' w' = inner n k x v w.
Proof.
  intros E K D. unfold m_retr_transp, retr, m_transp. split; [reflexivity|].
  apply transport_inner, ball_regular; auto.
Qed.

Lemma follow_is_second n e eps k proj x u v : m_expmap_transp n e eps k proj x u v = (m_expmap n e eps k proj x u, m_transp_follow_expmap n e eps k proj x u v) /\
  m_retr_transp n e eps k x u v = (retr n e eps k x u, m_transp_follow_retr n e eps k x u v) /\
  exact_retr_transp n e eps k proj x u v = (exact_retr n e eps k proj x u, exact_transp_follow_retr n e eps k proj x u v).
Proof. repeat split. Qed.
(** the exact retraction travels the length of the vector *)
Lemma exact_retr_dist n e eps k x u : 0 <= e -> 0 <= eps < 1 -> / 10 ^ 15 <= maxnorm e eps k -> k < - / 10 ^ 8 -> safe n k x -> norm_ok n u ->
  angle_ok e k (lambda_x n k x * nrm n u / 2) -> nrm n (expmap n e k x u) <= maxnorm e eps k ->
  dist n e k x (exact_retr n e eps k true x u) = norm n k x u.
Proof.
  intros E EPS M K S N A H. unfold exact_retr, m_expmap, maybe_project. rewrite project_id by auto. apply ball_exp_dist; auto.
Qed.
(** all projecting methods *)
Definition allowed n e eps k atol rtol y := nrm n y <= maxnorm e eps k /\ check_point n e eps k atol rtol y = true.
Lemma allowed_project n e eps k atol rtol y : 0 <= e -> 0 <= eps < 1 -> / 10 ^ 15 <= maxnorm e eps k -> 0 <= atol -> 0 <= rtol ->
  allowed n e eps k atol rtol (project n e eps k y).
Proof. intros. split; [apply project_nrm; auto|apply projected_accepted; auto]. Qed.

(** random points *)
Lemma smul_nrm_div n c l v : 0 < l -> l * nrm n (vdiv (smul c v) l) = Rabs c * nrm n v.
Proof. intros L. rewrite nrm_vdiv, nrm_smul, (Rabs_right l) by lra. field. lra. Qed.
Lemma wrapped_dist n e eps k mean std draw : 0 <= e -> 0 <= eps < 1 -> / 10 ^ 15 <= maxnorm e eps k -> k < - / 10 ^ 8 ->
  safe n k mean -> norm_ok n (vdiv (smul std draw) (lambda_x n k mean)) -> angle_ok e k (Rabs std * nrm n draw / 2) ->
  nrm n (expmap n e k mean (vdiv (smul std draw) (lambda_x n k mean))) <= maxnorm e eps k ->
  dist n e k mean (wrapped_normal n e eps k mean std draw) = Rabs std * nrm n draw.
Proof.
  intros E EPS M K S N A H. unfold wrapped_normal, m_expmap, maybe_project. rewrite project_id by auto.
  pose proof (lambda_pos n k mean) as L. pose proof (smul_nrm_div n std (lambda_x n k mean) draw L) as Q.
  rewrite ball_exp_dist; [unfold norm; exact Q|exact E|exact K|exact S|exact N|]. rewrite Q. exact A.
Qed.
Lemma random_normal_dist n e eps k mean std draw : 0 <= e -> 0 <= eps < 1 -> / 10 ^ 15 <= maxnorm e eps k -> closed_form k ->
  let v := fun i => draw i * std / sqrt (INR n) + mean in
  norm_ok n v -> angle_ok e k (nrm n v) -> nrm n (expmap0 n e k v) <= maxnorm e eps k ->
  dist0 n e k (random_normal n e eps k mean std draw) = 2 * nrm n v.
Proof.
  intros E EPS M K v N A H. unfold random_normal, m_expmap0, maybe_project. fold v. rewrite project_id by auto.
  apply exp0_dist0; auto.
Qed.

(** radius *)
Lemma radius_ball n k x : k < 0 -> (in_domain n k x <-> nrm n x < radius k).
Proof.
  intros K. rewrite in_domain_scaled by exact K. unfold radius. rewrite Rabs_left by exact K.
  assert (S : 0 < sqrt (- k)) by (apply sqrt_lt_R0; lra). split; intros H.
  - apply Rmult_lt_reg_l with (sqrt (- k)); [exact S|]. rewrite Rinv_r by lra. exact H.
  - apply Rmult_lt_compat_l with (r := sqrt (- k)) in H; [|exact S]. rewrite Rinv_r in H by lra. exact H.
Qed.
Lemma radius_sphere n k x : / 10 ^ 8 < k -> nrm n x = radius k -> dist0 n 0 k x = PI / 2 * radius k.
Proof.
  intros K H. unfold dist0. pose proof e8_val as V8. fold e8 in K. rewrite artan_k_pos by exact K. rewrite H.
  unfold radius, k_sqrt, sabs. rewrite Rplus_0_r. rewrite Rabs_right by lra. assert (S : 0 < sqrt k) by (apply sqrt_lt_R0; lra).
  rewrite Rinv_l, atan_1 by lra. field. lra.
Qed.
Lemma maxnorm_radius e eps k : 0 <= e -> 0 < eps < 1 -> k < 0 -> 0 < maxnorm e eps k < radius k.
Proof.
  intros E EPS K. split; [apply maxnorm_pos; [exact E|lra]|]. unfold maxnorm, radius, sabs. destruct Rlt_dec; [|lra].
  rewrite Rabs_left by exact K. assert (S : 0 < sqrt (- k)) by (apply sqrt_lt_R0; lra).
  assert (S2 : sqrt (- k) <= sqrt (- k + e)) by (apply sqrt_le_1_alt; lra).
  apply Rle_lt_trans with ((1 - eps) / sqrt (- k)).
  - apply Rmult_le_compat_l; [lra|]. apply Rinv_le_contravar; auto.
  - unfold Rdiv. rewrite <- (Rmult_1_l (/ sqrt (- k))) at 2. apply Rmult_lt_compat_r; [apply Rinv_0_lt_compat; exact S|lra].
Qed.

(** softplus *)
Lemma softplus_pos x : 0 < softplus x.
Proof.
  unfold softplus. destruct Rlt_dec; [lra|]. rewrite <- ln_1. apply ln_increasing; [lra|]. pose proof (exp_pos x). lra.
Qed.
Lemma softplus_mono x y : x < y -> y <= 20 -> softplus x < softplus y.
Proof.
  intros H Y. unfold softplus. destruct Rlt_dec; [lra|]. destruct Rlt_dec; [lra|].
  pose proof (exp_pos x). apply ln_increasing; [lra|]. pose proof (exp_increasing x y H). lra.
Qed.
Lemma exp_gt_1 c : 0 < c -> 1 < exp c.
Proof. intros C. rewrite <- exp_0. apply exp_increasing, C. Qed.
Lemma softplus_inv c : 0 < c -> inverse_softplus c <= 20 -> softplus (inverse_softplus c) = c.
Proof.
  intros C H. unfold softplus. destruct Rlt_dec; [lra|]. unfold inverse_softplus. pose proof (exp_gt_1 c C).
  rewrite exp_ln by lra. replace (1 + (exp c - 1)) with (exp c) by ring. apply ln_exp.
Qed.
Lemma inverse_softplus_small c : 0 < c -> c <= 20 -> inverse_softplus c <= 20.
Proof.
  intros C H. unfold inverse_softplus. pose proof (exp_gt_1 c C). rewrite <- (ln_exp 20). left. apply ln_increasing; [lra|].
  assert (exp c <= exp 20) by (destruct H as [H| ->]; [left; apply exp_increasing, H|lra]). lra.
Qed.
Lemma softplus_inv_20 c : 0 < c <= 20 -> softplus (inverse_softplus c) = c.
Proof. intros C. apply softplus_inv; [lra|apply inverse_softplus_small; lra]. Qed.
Lemma ln_shift c : 0 < c -> inverse_softplus c = c + ln (1 - exp (- c)).
Proof.
  intros C. unfold inverse_softplus. pose proof (exp_gt_1 c C). pose proof (exp_pos c).
  assert (exp (- c) < 1) by (rewrite <- exp_0; apply exp_increasing; lra).
  rewrite <- (ln_exp c) at 2. rewrite <- ln_mult by lra. f_equal. rewrite exp_Ropp. field. lra.
Qed.
Lemma exp_m20 c : 20 <= c -> exp (- c) <= / 10 ^ 6.
Proof.
  intros C. rewrite exp_Ropp. apply Rinv_le_contravar; [lra|]. apply Rle_trans with (exp 20).
  - pose proof (exp_INR_ge 20) as H. replace (INR 20) with 20 in H by (rewrite INR_IZR_INZ; reflexivity).
    apply Rle_trans with (2 ^ 20); [lra|exact H].
  - destruct C as [C|<-]; [left; apply exp_increasing, C|lra].
Qed.
Lemma softplus_gap c : 0 < c -> c - / 10 ^ 5 <= softplus (inverse_softplus c) <= c.
Proof.
  intros C. destruct (Rle_dec (inverse_softplus c) 20) as [H|H]; [rewrite softplus_inv by auto; lra|].
  assert (C20 : 20 <= c). { destruct (Rle_dec c 20) as [D|D]; [exfalso; apply H, inverse_softplus_small; auto|lra]. }
  unfold softplus. destruct Rlt_dec; [|lra]. rewrite ln_shift by exact C. pose proof (exp_m20 c C20) as X. pose proof (exp_pos (- c)) as P.
  split.
  - assert (- ln (1 - exp (- c)) <= / 10 ^ 5); [|lra]. rewrite <- ln_Rinv by lra.
    apply Rle_trans with (/ (1 - exp (- c)) - 1).
    + assert (I : 0 < / (1 - exp (- c))) by (apply Rinv_0_lt_compat; lra).
      pose proof (exp_ineq1_le (ln (/ (1 - exp (- c))))) as Q. rewrite exp_ln in Q by exact I. lra.
    + replace (/ (1 - exp (- c)) - 1) with (exp (- c) * / (1 - exp (- c))) by (field; lra).
      apply Rmult_le_reg_r with (1 - exp (- c)); [lra|]. rewrite Rmult_assoc, Rinv_l by lra. lra.
  - assert (ln (1 - exp (- c)) < 0); [|lra]. rewrite <- ln_1. apply ln_increasing; lra.
Qed.
Lemma softplus_not_inverse c : 21 <= c -> softplus (inverse_softplus c) < c.
Proof.
  intros C. pose proof (exp_m20 c ltac:(lra)) as X. pose proof (exp_pos (- c)) as P.
  assert (L : ln (1 - exp (- c)) < 0) by (rewrite <- ln_1; apply ln_increasing; lra).
  assert (H : 20 < inverse_softplus c).
  { unfold inverse_softplus. rewrite <- (ln_exp 20). apply ln_increasing; [apply exp_pos|].
    assert (M : exp (20 + 1) <= exp c) by (destruct (Req_dec c (20 + 1)) as [->|]; [lra|left; apply exp_increasing; lra]).
    rewrite exp_plus in M. pose proof (exp_ineq1_le 1).
    pose proof (exp_INR_ge 20) as Q. replace (INR 20) with 20 in Q by (rewrite INR_IZR_INZ; reflexivity). nra. }
  unfold softplus. destruct Rlt_dec; [|lra]. rewrite ln_shift by lra. lra.
Qed.

(** * cases *)
Lemma k1_sqrt : 1 <= sqrt (sabs e15 (-1)) <= 1 + / 10 ^ 10.
Proof.
  pose proof e15_pos. pose proof e15_val as V. unfold sabs. rewrite Rabs_left by lra. replace (- -1) with 1 by ring.
  rewrite <- sqrt_1 at 1. split; [apply sqrt_le_1_alt; lra|].
  rewrite <- (sqrt_Rsqr (1 + / 10 ^ 10)) by lra. apply sqrt_le_1_alt. unfold Rsqr. lra.
Qed.
Lemma maxnorm_case eps : 0 <= eps < 1 -> (1 - eps) * (1 - / 10 ^ 10) <= maxnorm e15 eps (-1) <= 1 - eps.
Proof.
  intros E. unfold maxnorm. destruct Rlt_dec; [|lra]. pose proof k1_sqrt as [A B]. split.
  - apply Rmult_le_compat_l; [lra|]. apply Rmult_le_reg_r with (sqrt (sabs e15 (-1))); [lra|]. rewrite Rinv_l by lra. nra.
  - rewrite <- (Rmult_1_r (1 - eps)) at 2. apply Rmult_le_compat_l; [lra|]. rewrite <- Rinv_1. apply Rinv_le_contravar; lra.
Qed.
(** float64: a point outside the ball passes with the default tolerances *)
Lemma outside_accepted : ~ in_domain 1 (-1) (pt (1000005 / 1000000)) /\
  check_point 1 e15 (/ 10 ^ 5) (-1) (/ 10 ^ 5) (/ 10 ^ 5) (pt (1000005 / 1000000)) = true.
Proof.
  split; [unfold in_domain; rewrite dot1; lra|]. pose proof e15_val as V.
  pose proof (maxnorm_case (/ 10 ^ 5) ltac:(lra)) as [A B]. set (m := maxnorm e15 (/ 10 ^ 5) (-1)) in *.
  unfold check_point. cbv zeta. apply all_below_iff. intros i _. unfold project. cbv zeta. fold m.
  rewrite nrm1, (Rabs_right (1000005 / 1000000)), clamp_min_id by lra. destruct (Rlt_dec m (1000005 / 1000000)) as [L|L]; [|lra].
  unfold smul, vdiv, pt. replace (m * (1000005 / 1000000 / (1000005 / 1000000))) with m by field.
  rewrite Rabs_right, Rabs_right by lra. destruct Rle_dec as [|F]; [reflexivity|exfalso; apply F; lra].
Qed.
(** float32: a geodesic through two accepted points leaves the set of accepted points *)
Lemma geodesic_rejected : let eps := 4 / 1000 in
  check_point 1 e15 eps (-1) 0 0 vzero = true /\ check_point 1 e15 eps (-1) 0 0 (pt (99 / 100)) = true /\
  check_point 1 e15 eps (-1) (/ 10 ^ 5) (/ 10 ^ 5) (m_geodesic 1 e15 (-1) 2 vzero (pt (99 / 100))) = false.
Proof.
  cbv zeta. pose proof e15_val as V. pose proof e15_pos as P15. pose proof e8_val as V8. pose proof e7_val as V7.
  pose proof (maxnorm_case (4 / 1000) ltac:(lra)) as [A B].
  split; [|split].
  - apply check_point_exact; [lra|lra|unfold e15 in V; rewrite V; lra|]. rewrite nrm_zero. lra.
  - apply check_point_exact; [lra|lra|unfold e15 in V; rewrite V; lra|]. rewrite nrm1, Rabs_right by lra. lra.
  - assert (G : exists g, m_geodesic 1 e15 (-1) 2 vzero (pt (99 / 100)) = pt g /\ 999 / 1000 < g).
    { pose proof k1_sqrt as [S1 S2]. fold (k_sqrt e15 (-1)) in S1, S2. set (s := k_sqrt e15 (-1)) in *.
      set (z := 99 / 100 * s). assert (Z : 98 / 100 <= z <= 992 / 1000) by (unfold z; lra).
      exists (tanh (2 * atanh z) / s). split.
      - unfold m_geodesic, geodesic. replace (vopp vzero) with vzero by (apply functional_extensionality; intros i; unfold vopp, vzero; ring).
        rewrite !add_0_l. unfold mobius_scalar_mul. cbv zeta. rewrite nrm1, Rabs_right, clamp_min_id by lra.
        unfold artan_k, artan_k_at. destruct k_zero as [F|_]; [exfalso; revert F; rewrite Rabs_left by lra; lra|]. cbv zeta. fold s.
        destruct (Rlt_dec (-1) 0) as [_|?]; [|lra]. fold z. rewrite artanh_c_id by lra.
        unfold tan_k, tan_k_at. destruct k_zero as [F|_]; [exfalso; revert F; rewrite Rabs_left by lra; lra|]. cbv zeta. fold s.
        destruct (Rlt_dec (-1) 0) as [_|?]; [|lra]. replace (2 * (/ s * atanh z) * s) with (2 * atanh z) by (field; lra).
        pose proof (atanh_nonneg z ltac:(lra)) as N. unfold tanh_c. rewrite clamp_id.
        + apply functional_extensionality; intros i. unfold smul, vdiv, pt. field. lra.
        + split; [lra|]. destruct (Rle_dec (2 * atanh z) 15) as [|F]; [assumption|exfalso].
          pose proof (exp_atanh z ltac:(lra)) as X. pose proof (exp_increasing 15 (2 * atanh z) ltac:(lra)) as Y. rewrite X in Y.
          pose proof (exp_INR_ge 15) as Q. replace (INR 15) with 15 in Q by (rewrite INR_IZR_INZ; reflexivity).
          assert ((1 + z) / (1 - z) <= 250). { apply Rmult_le_reg_r with (1 - z); [lra|]. unfold Rdiv. rewrite Rmult_assoc, Rinv_l by lra. lra. }
          lra.
      - replace (2 * atanh z) with (atanh z + atanh z) by ring. rewrite tanh_plus, tanh_atanh by lra.
        apply Rmult_lt_reg_r with (s * (1 + z * z)); [nra|].
        replace ((z + z) / (1 + z * z) / s * (s * (1 + z * z))) with (2 * z) by (field; split; nra). unfold z. nra. }
    destruct G as (g & -> & G). apply not_true_is_false. intros C.
    pose proof (check_point_bound 1 e15 (-1) ltac:(lra) (4 / 1000) ltac:(lra) (/ 10 ^ 5) (/ 10 ^ 5) (pt g) ltac:(lra) ltac:(lra) C 0%nat ltac:(lia)) as D.
    unfold pt in D. rewrite Rabs_right in D by lra. nra.
Qed.
Lemma class_case : 0 <= e15 /\ 0 <= / 10 ^ 5 < 1 /\ / 10 ^ 15 <= maxnorm e15 (/ 10 ^ 5) (-1) /\ safe 1 (-1) (pt (1 / 2)) /\ in_domain 1 (-1) (pt (1 / 2)).
Proof.
  pose proof e15_pos. pose proof e15_val as V. pose proof (maxnorm_case (/ 10 ^ 5) ltac:(lra)) as [A B]. unfold e15 in V.
  split; [lra|]. split; [lra|]. split; [rewrite V; lra|].
  assert (S : safe 1 (-1) (pt (1 / 2))) by (unfold safe; replace (- -1) with 1 by ring; rewrite sqrt_1, nrm1, Rabs_right; lra).
  split; [exact S|]. apply safe_in_domain; [lra|exact S].
Qed.
(** draws that are not cut *)
Lemma half_case : norm_ok 1 (pt (1 / 2)) /\ angle_ok e15 (-1) (1 / 2) /\ nrm 1 (expmap0 1 e15 (-1) (pt (1 / 2))) <= maxnorm e15 (/ 10 ^ 5) (-1).
Proof.
  pose proof ex_log_exp as (A & B & C). rewrite lambda_0, nrm1, Rabs_right in B by lra. replace (2 * (1 / 2) / 2) with (1 / 2) in B by field.
  split; [exact A|]. split; [exact B|]. pose proof e15_val as V. pose proof e15_pos. pose proof e8_val as V8. pose proof e7_val as V7.
  pose proof (maxnorm_case (/ 10 ^ 5) ltac:(lra)) as [M _]. apply Rle_trans with (2 := M).
  rewrite exp0_nrm; [|lra|right; left; lra|rewrite nrm1, Rabs_right; lra|rewrite nrm1, Rabs_right; [exact B|lra]].
  rewrite nrm1, Rabs_right by lra. unfold tan_k, tan_k_at. destruct k_zero as [F|_]; [exfalso; revert F; rewrite Rabs_left by lra; lra|]. cbv zeta.
  destruct (Rlt_dec (-1) 0) as [_|?]; [|lra]. pose proof k1_sqrt as [S1 S2]. fold (k_sqrt e15 (-1)) in S1, S2. set (s := k_sqrt e15 (-1)) in *.
  unfold tanh_c. rewrite clamp_id by lra.
  assert (T : tanh (1 / 2 * s) <= 9 / 10).
  { rewrite tanh_exp. replace (2 * (1 / 2 * s)) with s by field. assert (X : exp s <= 19).
    { apply Rle_trans with (exp 2); [left; apply exp_increasing; lra|]. replace 2 with (1 + 1) by ring. rewrite exp_plus. pose proof exp_le_3. pose proof (exp_pos 1). nra. }
    pose proof (exp_pos s). apply Rmult_le_reg_r with (exp s + 1); [lra|]. unfold Rdiv at 1. rewrite Rmult_assoc, Rinv_l by lra. lra. }
  pose proof (tanh_incr 0 (1 / 2 * s) ltac:(lra)) as T0. rewrite tanh_0 in T0.
  assert (I : / s <= 1) by (rewrite <- Rinv_1; apply Rinv_le_contravar; lra). assert (0 < / s) by (apply Rinv_0_lt_compat; lra). nra.
Qed.
Lemma draw_case :
  norm_ok 1 (vdiv (smul 1 (pt 1)) (lambda_x 1 (-1) vzero)) /\ angle_ok e15 (-1) (Rabs 1 * nrm 1 (pt 1) / 2) /\
  nrm 1 (expmap 1 e15 (-1) vzero (vdiv (smul 1 (pt 1)) (lambda_x 1 (-1) vzero))) <= maxnorm e15 (/ 10 ^ 5) (-1) /\
  safe 1 (-1) vzero.
Proof.
  destruct half_case as (A & B & C). rewrite lambda_0. replace (vdiv (smul 1 (pt 1)) 2) with (pt (1 / 2)) by (apply functional_extensionality; intros i; unfold vdiv, smul, pt; field).
  split; [exact A|]. split; [rewrite nrm1, Rabs_R1; replace (1 * 1 / 2) with (1 / 2) by field; exact B|].
  split; [rewrite expmap_at_0; exact C|]. unfold safe. rewrite nrm_zero. lra.
Qed.
Lemma draw0_case : let v := fun i => pt (1 / 2) i * 1 / sqrt (INR 1) + 0 in
  norm_ok 1 v /\ angle_ok e15 (-1) (nrm 1 v) /\ nrm 1 (expmap0 1 e15 (-1) v) <= maxnorm e15 (/ 10 ^ 5) (-1).
Proof.
  cbv zeta. destruct half_case as (A & B & C).
  replace (fun i => pt (1 / 2) i * 1 / sqrt (INR 1) + 0) with (pt (1 / 2)) by (apply functional_extensionality; intros i; cbn [INR]; rewrite sqrt_1; field).
  split; [exact A|]. split; [rewrite nrm1, Rabs_right by lra; exact B|exact C].
Qed.
Lemma softplus_signs isp : ball_k isp < 0 /\ 0 < ball_c isp /\ 0 < sphere_k isp.
Proof. pose proof (softplus_pos isp). unfold ball_k, ball_c, sphere_k. lra. Qed.
Lemma softplus_roundtrip c : 0 < c <= 20 ->
  ball_c (inverse_softplus c) = c /\ ball_k (inverse_softplus c) = - c /\ sphere_k (inverse_softplus c) = c.
Proof. intros C. unfold ball_k, ball_c, sphere_k. rewrite (softplus_inv_20 c C). repeat split. Qed.
Lemma all_allowed n e eps k atol rtol : 0 <= e -> 0 <= eps < 1 -> / 10 ^ 15 <= maxnorm e eps k -> 0 <= atol -> 0 <= rtol ->
  forall x y u w t fn fns lincomb posweight l mean std,
  Forall (fun r => nrm n r <= maxnorm e eps k /\ check_point n e eps k atol rtol r = true)
    (projx n e eps k x :: retr n e eps k x u :: exact_retr n e eps k true x u :: m_expmap n e eps k true x u :: m_expmap0 n e eps k true u ::
     m_mobius_add n e eps k true x y :: m_mobius_sub n e eps k true x y :: m_mobius_coadd n e eps k true x y :: m_mobius_cosub n e eps k true x y ::
     m_scalar_mul n e eps k true t x :: m_pointwise_mul n e eps k true w x :: m_geodesic_unit n e eps k true t x u ::
     m_fn_apply n e eps k true fn x :: m_fn_apply_chain n e eps k true x fns :: m_weighted_midpoint n e eps k true lincomb posweight l ::
     fst (m_expmap_transp n e eps k true x u w) :: fst (m_retr_transp n e eps k x u w) :: fst (exact_retr_transp n e eps k true x u w) ::
     random_normal n e eps k mean std w :: wrapped_normal n e eps k x std w :: nil).
Proof.
  intros E EPS M A B x y u w t fn fns lc pw l mean std. repeat apply Forall_cons; try apply Forall_nil; apply (allowed_project n e eps k atol rtol _ E EPS M A B).
Qed.
Import ListNotations.
Lemma methods_agree : forall n e eps k (proj : bool) x y u w t fn fns lincomb posweight l,
  [m_expmap n e eps k proj x u; m_expmap0 n e eps k proj u; m_mobius_add n e eps k proj x y; m_mobius_sub n e eps k proj x y;
   m_mobius_coadd n e eps k proj x y; m_mobius_cosub n e eps k proj x y; m_scalar_mul n e eps k proj t x;
   m_pointwise_mul n e eps k proj w x; m_geodesic_unit n e eps k proj t x u; m_fn_apply n e eps k proj fn x;
   m_fn_apply_chain n e eps k proj x fns; m_weighted_midpoint n e eps k proj lincomb posweight l] =
  map (fun r => if proj then project n e eps k r else r)
  [expmap n e k x u; expmap0 n e k u; mobius_add n k x y; mobius_sub n k x y;
   mobius_coadd n k x y; mobius_cosub n k x y; mobius_scalar_mul n e k t x;
   mobius_pointwise_mul n e k w x; geodesic_unit n e k t x u; mobius_fn_apply n e k fn x;
   mobius_fn_apply_chain n e k x fns; weighted_midpoint n e e10 k lincomb posweight l].
Proof. intros n e eps k []; reflexivity. Qed.
