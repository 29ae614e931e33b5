(** Lemmas behind StereoProps.v. *)
From Coq Require Import Reals Lra Psatz Lia.
From Verif Require Import RVec StereoModel StereoSpec GyroAlgebra StereoTrig.
Local Open Scope R_scope.

Section P.
  Variable n : nat.
  Implicit Types x y z u v w : vec.

  Lemma regular_mden k x y : regular n k x y <-> e15 <= mden n k x y.
  Proof. reflexivity. Qed.
  Lemma regular_ne k x y : regular n k x y -> mden n k x y <> 0.
  Proof. intros H; change (e15 <= mden n k x y) in H. pose proof e15_pos. lra. Qed.
  Lemma mobius_add_madd k x y : regular n k x y -> mobius_add n k x y = madd n k x y.
  Proof. intros H. unfold mobius_add, madd. rewrite clamp_min_id; auto. Qed.
  Lemma gyration_gyr k u v w : regular n k u v -> gyration n k u v w = gyr n k u v w.
  Proof. intros H. unfold gyration, gyr, gyr_den. cbv zeta. rewrite clamp_min_id; auto. Qed.

  Lemma regular_sym k x y : regular n k x y -> regular n k y x.
  Proof. rewrite !regular_mden, mden_comm; auto. Qed.
  Lemma regular_opp k x y : regular n k (vopp x) y -> regular n k x (vopp y).
  Proof. rewrite !regular_mden, mden_opp_l; auto. Qed.
  Lemma regular_opp' k x y : regular n k x (vopp y) -> regular n k (vopp x) y.
  Proof. rewrite !regular_mden, mden_opp_l; auto. Qed.
  Lemma regular_0_l k x : regular n k vzero x.
  Proof. unfold regular. vexp. fold e15. pose proof e15_val. lra. Qed.
  Lemma regular_0_r k x : regular n k x vzero.
  Proof. unfold regular. vexp. fold e15. pose proof e15_val. lra. Qed.

  Lemma in_domain_cf k x : in_domain n k x <-> 0 < cf n k x.
  Proof. reflexivity. Qed.
  Lemma in_domain_opp k x : in_domain n k x -> in_domain n k (vopp x).
  Proof. unfold in_domain. vexp. intros; replace (- - dot n x x) with (dot n x x) by ring; auto. Qed.
  Lemma safe_opp k x : safe n k x -> safe n k (vopp x).
  Proof. unfold safe. rewrite nrm_opp. auto. Qed.

  Lemma in_domain_scaled k x : k < 0 -> (in_domain n k x <-> sqrt (- k) * nrm n x < 1).
  Proof.
    intros Hk. unfold in_domain. rewrite <- nrm_sq.
    assert (Hs : sqrt (- k) * sqrt (- k) = - k) by (apply sqrt_sqrt; lra).
    pose proof (sqrt_lt_R0 (- k) ltac:(lra)). pose proof (nrm_nonneg n x).
    set (r := sqrt (- k) * nrm n x).
    assert (Er : r * r = - k * (nrm n x * nrm n x)) 
      by (transitivity (sqrt (- k) * sqrt (- k) * (nrm n x * nrm n x)); [unfold r; ring|rewrite Hs; ring]).
    assert (0 <= r) by (unfold r; apply Rmult_le_pos; lra). split; intros; nra.
  Qed.
  Lemma safe_in_domain k x : k < 0 -> safe n k x -> in_domain n k x.
  Proof.
    intros Hk H. apply in_domain_scaled; auto. unfold safe in H.
    assert (0 < / 10 ^ 5) by (apply Rinv_0_lt_compat, pow_lt; lra). lra.
  Qed.

  Lemma safe_regular k x y : k < 0 -> safe n k x -> in_domain n k y -> regular n k x y.
  Proof.
    intros Hk Hx Hy. apply regular_mden. eapply Rle_trans; [|apply mden_lower].
    apply in_domain_scaled in Hy; auto. unfold safe in Hx.
    assert (Hs : sqrt (- k) * sqrt (- k) = - k) by (apply sqrt_sqrt; lra).
    pose proof (sqrt_lt_R0 (- k) ltac:(lra)).
    pose proof (nrm_nonneg n x). pose proof (nrm_nonneg n y).
    assert (E : Rabs k * nrm n x * nrm n y = (sqrt (- k) * nrm n x) * (sqrt (- k) * nrm n y)).
    { rewrite Rabs_left by lra.
      transitivity (sqrt (- k) * sqrt (- k) * (nrm n x * nrm n y)); [rewrite Hs; ring|ring]. }
    rewrite E. set (r := sqrt (- k) * nrm n x) in *. set (q := sqrt (- k) * nrm n y) in *.
    assert (0 <= r) by (unfold r; apply Rmult_le_pos; lra).
    assert (0 <= q) by (unfold q; apply Rmult_le_pos; lra).
    assert (r * q <= 1 - / 10 ^ 5) by nra.
    assert (/ 10 ^ 5 <= 1 - r * q) by lra.
    assert (E5 : / 10 ^ 5 = 1 / 100000) by (simpl; field). rewrite E5 in *.
    pose proof e15_val. nra.
  Qed.
  Lemma safe_regular_r k x y : k < 0 -> in_domain n k x -> safe n k y -> regular n k x y.
  Proof. intros. apply regular_sym, safe_regular; auto. Qed.

  Lemma mden_pos_domain k x y : k < 0 -> in_domain n k x -> in_domain n k y -> 0 < mden n k x y.
  Proof.
    intros Hk Hx Hy. eapply Rlt_le_trans; [|apply mden_lower].
    apply in_domain_scaled in Hy; auto. apply in_domain_scaled in Hx; auto.
    assert (Hs : sqrt (- k) * sqrt (- k) = - k) by (apply sqrt_sqrt; lra).
    pose proof (sqrt_lt_R0 (- k) ltac:(lra)).
    pose proof (nrm_nonneg n x). pose proof (nrm_nonneg n y).
    assert (E : Rabs k * nrm n x * nrm n y = (sqrt (- k) * nrm n x) * (sqrt (- k) * nrm n y)).
    { rewrite Rabs_left by lra.
      transitivity (sqrt (- k) * sqrt (- k) * (nrm n x * nrm n y)); [rewrite Hs; ring|ring]. }
    rewrite E. set (r := sqrt (- k) * nrm n x) in *. set (q := sqrt (- k) * nrm n y) in *.
    assert (0 <= r) by (unfold r; apply Rmult_le_pos; lra).
    assert (0 <= q) by (unfold q; apply Rmult_le_pos; lra).
    assert (r * q < 1) by nra. apply pow_lt. lra.
  Qed.

  (** *** C35 *)
  Lemma add_0_l k y : mobius_add n k vzero y = y.
  Proof. rewrite mobius_add_madd by apply regular_0_l. apply madd_zero_l. Qed.
  Lemma add_0_r k y : mobius_add n k y vzero = y.
  Proof. rewrite mobius_add_madd by apply regular_0_r. apply madd_zero_r. Qed.
  Lemma add_opp_l k x : mobius_add n k (vopp x) x = vzero.
  Proof.
    unfold mobius_add, mobius_num. vexp. veq. unfold Rdiv. ring_simplify. ring.
  Qed.

  Lemma regular_left_cancel_cf k x y : regular n k x y ->
    regular n k (vopp x) (mobius_add n k x y) -> cf n k x <> 0.
  Proof.
    intros H1 H2 Z. rewrite mobius_add_madd in H2 by auto. rewrite regular_mden in H2.
    rewrite mden_left_cancel, Z in H2 by (apply regular_ne; auto). pose proof e15_pos.
    unfold Rdiv in H2. simpl in H2. ring_simplify in H2. lra.
  Qed.
  Lemma left_cancel k x y : regular n k x y -> regular n k (vopp x) (mobius_add n k x y) ->
    mobius_add n k (vopp x) (mobius_add n k x y) = y.
  Proof.
    intros H1 H2. assert (Hc := regular_left_cancel_cf k x y H1 H2).
    rewrite (mobius_add_madd k (vopp x)) by auto. rewrite mobius_add_madd by auto.
    apply madd_left_cancel; auto. apply regular_ne; auto.
  Qed.
  Lemma left_cancel' k x y : regular n k (vopp x) y -> regular n k x (mobius_add n k (vopp x) y) ->
    mobius_add n k x (mobius_add n k (vopp x) y) = y.
  Proof.
    intros H1 H2. assert (E : x = vopp (vopp x)) by (veq; ring).
    rewrite E in H2 at 1. rewrite E at 1. apply left_cancel; auto.
  Qed.

  Lemma gyr_iso k u v w z : regular n k u v ->
    dot n (gyration n k u v w) (gyration n k u v z) = dot n w z.
  Proof. intros. rewrite !gyration_gyr by auto. apply gyr_isometry, regular_ne; auto. Qed.

  Lemma gyro_assoc k u v w :
    regular n k v w -> regular n k u v -> regular n k u (mobius_add n k v w) ->
    regular n k (mobius_add n k u v) (gyration n k u v w) ->
    mobius_add n k u (mobius_add n k v w) =
    mobius_add n k (mobius_add n k u v) (gyration n k u v w).
  Proof.
    intros H1 H2 H3 H4.
    rewrite (mobius_add_madd k u (mobius_add n k v w)) by auto.
    rewrite (mobius_add_madd k (mobius_add n k u v)) by auto.
    rewrite !mobius_add_madd, gyration_gyr by auto.
    apply gyroassociative; try apply regular_ne; auto.
    rewrite mobius_add_madd in H3 by auto. auto.
  Qed.

  Lemma gyro_comm k u v : regular n k u v ->
    mobius_add n k u v = gyration n k u v (mobius_add n k v u).
  Proof.
    intros H. rewrite gyration_gyr, !mobius_add_madd by (auto using regular_sym).
    apply gyrocommutative, regular_ne; auto.
  Qed.

  Lemma gyro_loop k u v w : regular n k u v -> regular n k (mobius_add n k u v) v ->
    gyration n k (mobius_add n k u v) v w = gyration n k u v w.
  Proof.
    intros H1 H2. rewrite !gyration_gyr by auto. rewrite mobius_add_madd in * by auto.
    apply left_loop; apply regular_ne; auto.
  Qed.

  Lemma gyr_inverse k u v w : regular n k u v ->
    gyration n k v u (gyration n k u v w) = w.
  Proof.
    intros H. rewrite !gyration_gyr by (auto using regular_sym). apply gyr_inv, regular_ne; auto.
  Qed.

  (** *** C36: the ball is closed *)
  Lemma nrm_scale_down x c d : 0 < c -> c <= d -> dot n (vdiv x d) (vdiv x d) <= dot n (vdiv x c) (vdiv x c).
  Proof.
    intros Hc Hd. vexp. pose proof (dot_nonneg n x). unfold Rdiv.
    assert (/ d <= / c) by (apply Rinv_le_contravar; lra).
    assert (0 < / d) by (apply Rinv_0_lt_compat; lra).
    rewrite !Rmult_assoc. apply Rmult_le_compat_l; auto. apply Rmult_le_compat; lra.
  Qed.
  Lemma in_domain_le k x y : k < 0 -> in_domain n k x -> dot n y y <= dot n x x -> in_domain n k y.
  Proof. unfold in_domain. intros. nra. Qed.

  Lemma add_in_domain k x y : k < 0 -> in_domain n k x -> in_domain n k y ->
    in_domain n k (mobius_add n k x y).
  Proof.
    intros Hk Hx Hy. pose proof (mden_pos_domain k x y Hk Hx Hy) as Hd.
    assert (Hm : in_domain n k (madd n k x y)).
    { apply in_domain_cf. rewrite cf_madd by lra. rewrite in_domain_cf in Hx, Hy.
      unfold Rdiv. repeat apply Rmult_lt_0_compat; auto. apply Rinv_0_lt_compat; auto. }
    apply in_domain_le with (madd n k x y); auto. unfold mobius_add, madd.
    apply nrm_scale_down; auto. apply clamp_min_ge_x.
  Qed.

  Lemma in_domain_0 k : in_domain n k vzero.
  Proof. unfold in_domain. vexp. lra. Qed.

  (** a vector of norm <= 1 times something below 1/k_sqrt is in the ball *)
  Lemma short_in_domain e k c v : 0 <= e -> k < 0 -> Rabs c * k_sqrt e k < 1 -> nrm n v <= 1 ->
    in_domain n k (smul c v).
  Proof.
    intros He Hk Hc Hv. apply in_domain_scaled; auto. rewrite nrm_smul.
    assert (Hs : sqrt (- k) <= k_sqrt e k).
    { unfold k_sqrt, sabs. rewrite Rabs_left by auto. apply sqrt_le_1_alt. lra. }
    pose proof (sqrt_pos (- k)). pose proof (nrm_nonneg n v). pose proof (Rabs_pos c).
    assert (sqrt (- k) * (Rabs c * nrm n v) <= k_sqrt e k * (Rabs c * 1)).
    { apply Rmult_le_compat; auto. apply Rmult_le_pos; auto. apply Rmult_le_compat_l; auto. }
    lra.
  Qed.
  Lemma nrm_unit_le v : nrm n (vdiv v (clamp_min e15 (nrm n v))) <= 1.
  Proof.
    assert (Hp : 0 < clamp_min e15 (nrm n v)) by (apply clamp_min_pos, e15_pos).
    rewrite nrm_vdiv by lra. rewrite Rabs_right by lra.
    apply (Rmult_le_reg_r (clamp_min e15 (nrm n v))); auto. unfold Rdiv.
    rewrite Rmult_assoc, Rinv_l, Rmult_1_r by lra. pose proof (clamp_min_ge_x e15 (nrm n v)). lra.
  Qed.
  Lemma tan_k_neg_small e k b : 0 <= e -> k < - e8 -> Rabs (tan_k e b k) * k_sqrt e k < 1.
  Proof.
    intros He Hk. pose proof e8_pos.
    assert (Hs : 0 < k_sqrt e k) by (apply k_sqrt_pos; auto; left; lra).
    rewrite tan_k_neg by auto. rewrite Rabs_mult, Rabs_inv, (Rabs_right (k_sqrt e k)) by lra.
    replace (/ k_sqrt e k * Rabs (tanh_c (b * k_sqrt e k)) * k_sqrt e k)
      with (Rabs (tanh_c (b * k_sqrt e k))) by (field; lra).
    apply Rabs_def1; apply tanh_c_bound.
  Qed.
  Lemma scalar_mul_in_domain e k r x : 0 <= e -> k < - e8 ->
    in_domain n k (mobius_scalar_mul n e k r x).
  Proof.
    intros. unfold mobius_scalar_mul. apply short_in_domain with e; auto.
    - pose proof e8_pos; lra.
    - apply tan_k_neg_small; auto.
    - apply nrm_unit_le.
  Qed.
  Lemma expmap_in_domain e k x u : 0 <= e -> k < - e8 -> in_domain n k x ->
    in_domain n k (expmap n e k x u).
  Proof.
    intros. pose proof e8_pos. unfold expmap. apply add_in_domain; auto; [lra|].
    apply short_in_domain with e; auto; [lra|apply tan_k_neg_small; auto|apply nrm_unit_le].
  Qed.
  Lemma expmap0_in_domain e k u : 0 <= e -> k < - e8 -> in_domain n k (expmap0 n e k u).
  Proof.
    intros. pose proof e8_pos. unfold expmap0.
    apply short_in_domain with e; auto; [lra|apply tan_k_neg_small; auto|apply nrm_unit_le].
  Qed.
  Lemma geodesic_in_domain e k t x y : 0 <= e -> k < - e8 -> in_domain n k x ->
    in_domain n k (geodesic n e k t x y).
  Proof.
    intros. pose proof e8_pos. unfold geodesic. apply add_in_domain; auto; [lra|].
    apply scalar_mul_in_domain; auto.
  Qed.
  Lemma geodesic_unit_in_domain e k t x u : 0 <= e -> k < - e8 -> in_domain n k x ->
    in_domain n k (geodesic_unit n e k t x u).
  Proof.
    intros. pose proof e8_pos. unfold geodesic_unit. apply add_in_domain; auto; [lra|].
    apply short_in_domain with e; auto; [lra|apply tan_k_neg_small; auto|apply nrm_unit_le].
  Qed.

  (** project *)
  Lemma maxnorm_pos e eps k : 0 <= e -> 0 <= eps < 1 -> 0 < maxnorm e eps k.
  Proof.
    intros He H. unfold maxnorm. destruct Rlt_dec as [Hk|Hk]; [|apply pow_lt; lra].
    unfold Rdiv. apply Rmult_lt_0_compat; [lra|]. apply Rinv_0_lt_compat.
    apply (k_sqrt_pos e k); auto. left; lra.
  Qed.
  Lemma project_nrm e eps k x : 0 <= e -> 0 <= eps < 1 ->
    nrm n (project n e eps k x) <= maxnorm e eps k.
  Proof.
    intros He H. pose proof (maxnorm_pos e eps k He H). unfold project.
    destruct Rlt_dec as [L|L].
    - rewrite nrm_smul, Rabs_right by lra. pose proof (nrm_unit_le x).
      pose proof (nrm_nonneg n (vdiv x (clamp_min e15 (nrm n x)))). nra.
    - pose proof (clamp_min_ge_x e15 (nrm n x)). lra.
  Qed.
  Lemma project_id e eps k x : nrm n x <= maxnorm e eps k -> e15 <= maxnorm e eps k ->
    project n e eps k x = x.
  Proof.
    intros H1 H2. unfold project. destruct Rlt_dec as [L|L]; auto. exfalso.
    unfold clamp_min, Rmax in L. destruct Rle_dec; lra.
  Qed.
  Lemma project_idem e eps k x : 0 <= e -> 0 <= eps < 1 -> e15 <= maxnorm e eps k ->
    project n e eps k (project n e eps k x) = project n e eps k x.
  Proof. intros. apply project_id; auto. apply project_nrm; auto. Qed.
  Lemma project_boundary e eps k x : 0 <= e -> 0 <= eps < 1 -> e15 <= nrm n x ->
    maxnorm e eps k < nrm n x -> nrm n (project n e eps k x) = maxnorm e eps k.
  Proof.
    intros He H H1 H2. pose proof (maxnorm_pos e eps k He H). unfold project.
    rewrite clamp_min_id by auto. destruct Rlt_dec; [|lra].
    rewrite nrm_smul, nrm_vdiv, !Rabs_right by lra. field. pose proof e15_pos. lra.
  Qed.
  Lemma project_safe e k x : 0 <= e -> k < 0 -> safe n k (project n e (/ 10 ^ 5) k x).
  Proof.
    intros He Hk. unfold safe.
    assert (E5 : / 10 ^ 5 = 1 / 100000) by (simpl; field).
    assert (H5 : 0 <= / 10 ^ 5 < 1) by (rewrite E5; lra).
    pose proof (project_nrm e (/ 10 ^ 5) k x He H5) as H.
    unfold maxnorm in H. destruct Rlt_dec; [|lra]. fold (k_sqrt e k) in H.
    assert (Hs : sqrt (- k) <= k_sqrt e k).
    { unfold k_sqrt, sabs. rewrite Rabs_left by auto. apply sqrt_le_1_alt. lra. }
    pose proof (sqrt_pos (- k)). pose proof (nrm_nonneg n (project n e (/ 10 ^ 5) k x)).
    assert (Hp : 0 < k_sqrt e k) by (apply k_sqrt_pos; auto; left; lra).
    apply Rle_trans with (k_sqrt e k * ((1 - / 10 ^ 5) / k_sqrt e k)).
    - apply Rmult_le_compat; auto.
    - right. field. lra.
  Qed.

  (** *** C37 *)
  Lemma exact_closed k : closed_form k <-> exact_k k.
  Proof. reflexivity. Qed.

  Lemma num_sq k x y : dot n (mobius_num n k x y) (mobius_num n k x y) =
    (dot n x x + 2 * dot n x y + dot n y y) * mden n k x y.
  Proof. unfold mobius_num, mden, mobius_den. vexp. rewrite (dot_comm n y x). ring. Qed.

  Lemma sub_nrm_sym k x y : nrm n (mobius_add n k (vopp x) y) = nrm n (mobius_add n k (vopp y) x).
  Proof.
    unfold nrm, mobius_add. vexp. rewrite !num_sq.
    fold (mden n k (vopp x) y). fold (mden n k (vopp y) x).
    assert (E : mden n k (vopp y) x = mden n k (vopp x) y)
      by (rewrite mden_opp_l, mden_comm; reflexivity).
    rewrite E. vexp. rewrite (dot_comm n y x). f_equal. f_equal. f_equal. f_equal. ring.
  Qed.
  Lemma dist_sym e k x y : dist n e k x y = dist n e k y x.
  Proof. unfold dist. rewrite sub_nrm_sym. reflexivity. Qed.
  Lemma dist_nonneg e k x y : 0 <= e -> closed_form k -> 0 <= dist n e k x y.
  Proof.
    intros. unfold dist. pose proof (artan_k_nonneg e k (nrm n (mobius_add n k (vopp x) y)) H H0 (nrm_nonneg _ _)). lra.
  Qed.
  Lemma dist_self e k x : dist n e k x x = 0.
  Proof. unfold dist. rewrite add_opp_l, nrm_zero, artan_k_0. ring. Qed.
  Lemma dist_zero e k x y : 0 <= e -> closed_form k -> regular n k (vopp x) y ->
    dist n e k x y = 0 -> same n x y.
  Proof.
    intros He K R H. unfold dist in H.
    assert (Hz : nrm n (mobius_add n k (vopp x) y) = 0).
    { pose proof (nrm_nonneg n (mobius_add n k (vopp x) y)) as [P|P]; auto.
      apply (artan_k_gt0 e k) in P; auto; lra. }
    rewrite mobius_add_madd in Hz by auto.
    assert (Hd : dot n (madd n k (vopp x) y) (madd n k (vopp x) y) = 0)
      by (rewrite <- nrm_sq, Hz; ring).
    rewrite msub_sq in Hd by (apply regular_ne; auto).
    assert (Hg : gap2 n x y = 0).
    { apply regular_ne in R. unfold Rdiv in Hd. apply Rmult_integral in Hd. destruct Hd; auto.
      apply Rinv_neq_0_compat in R. lra. }
    rewrite gap2_dot in Hg. intros i Hi. apply dot_zero_iff with (i := i) in Hg; auto.
    unfold vsub in Hg. lra.
  Qed.
  Lemma dist_from_0 e k x : dist n e k vzero x = dist0 n e k x.
  Proof.
    unfold dist, dist0. replace (vopp vzero) with vzero by (veq; ring). rewrite add_0_l. reflexivity.
  Qed.
  Lemma dist_k0 e x y : dist n e 0 x y = 2 * nrm n (vsub x y).
  Proof.
    unfold dist. rewrite artan_k_zero. f_equal. unfold nrm, mobius_add. f_equal.
    rewrite clamp_min_id by (unfold mobius_den; pose proof e15_val; lra).
    unfold mobius_den, mobius_num. vexp. rewrite (dot_comm n y x). field.
  Qed.
  Lemma dist_translate e k u x y :
    regular n k u x -> regular n k u y -> regular n k (vopp x) y -> cf n k u <> 0 ->
    regular n k (vopp (mobius_add n k u x)) (mobius_add n k u y) ->
    dist n e k (mobius_add n k u x) (mobius_add n k u y) = dist n e k x y.
  Proof.
    intros H1 H2 H3 H4 H5. unfold dist. do 2 f_equal.
    rewrite (mobius_add_madd k (vopp (mobius_add n k u x))) by auto.
    rewrite !mobius_add_madd by auto.
    unfold nrm. f_equal. apply msub_translate; try apply regular_ne; auto.
  Qed.

  (** *** C38 *)
  Lemma lambda_pos k x : 0 < lambda_x n k x.
  Proof.
    unfold lambda_x. pose proof (clamp_min_pos e15 (1 + k * dot n x x) e15_pos).
    unfold Rdiv. apply Rmult_lt_0_compat; [lra|apply Rinv_0_lt_compat; auto].
  Qed.

  Lemma smul_vdiv c d v : smul c (vdiv v d) = smul (c / d) v.
  Proof. veq. unfold Rdiv. ring. Qed.
  Lemma smul_1 v : smul 1 v = v.
  Proof. veq. ring. Qed.
  Lemma smul_smul c d v : smul c (smul d v) = smul (c * d) v.
  Proof. veq. ring. Qed.
  Lemma smul_0 v : smul 0 v = vzero.
  Proof. veq. ring. Qed.

  (** exp(x, c * sub) in terms of the gyrovector sub *)
  Lemma exp_of_log e k x s : 0 <= e -> closed_form k -> nrm n s <> 0 ->
    e15 <= nrm n s -> artan_free e k (nrm n s) ->
    e15 <= 2 * artan_k e (nrm n s) k / lambda_x n k x ->
    let l := smul (2 * artan_k e (clamp_min e15 (nrm n s)) k)
                  (vdiv s (lambda_x n k x * clamp_min e15 (nrm n s))) in
    expmap n e k x l = mobius_add n k x s.
  Proof.
    intros He K Hs Hs2 Hf Hl l. unfold l. rewrite clamp_min_id by auto.
    pose proof (lambda_pos k x) as Lp. pose proof (nrm_pos n s Hs) as Sp.
    assert (Ap : 0 < artan_k e (nrm n s) k) by (apply artan_k_gt0; auto).
    rewrite smul_vdiv.
    set (c := 2 * artan_k e (nrm n s) k / (lambda_x n k x * nrm n s)).
    assert (Cp : 0 < c).
    { unfold c, Rdiv. apply Rmult_lt_0_compat; [lra|]. apply Rinv_0_lt_compat.
      apply Rmult_lt_0_compat; auto. }
    assert (Ec : c * nrm n s = 2 * artan_k e (nrm n s) k / lambda_x n k x) by (unfold c; field; lra).
    unfold expmap. rewrite nrm_smul, (Rabs_right c), Ec by lra.
    rewrite clamp_min_id by auto.
    replace (lambda_x n k x / 2 * (2 * artan_k e (nrm n s) k / lambda_x n k x))
      with (artan_k e (nrm n s) k) by (field; lra).
    rewrite tan_artan by (auto using nrm_nonneg; exact K). f_equal. rewrite smul_vdiv, smul_smul.
    rewrite <- (smul_1 s) at 4. f_equal. unfold c. field. lra.
  Qed.

  Lemma log_self_zero e k x s : nrm n s = 0 ->
    same n (smul (2 * artan_k e (clamp_min e15 (nrm n s)) k)
                  (vdiv s (lambda_x n k x * clamp_min e15 (nrm n s)))) vzero.
  Proof.
    intros H i Hi. rewrite nrm_zero_iff in H. unfold smul, vdiv, vzero. rewrite H by auto.
    unfold Rdiv. ring.
  Qed.

  Lemma same_dot x x' y y' : same n x x' -> same n y y' -> dot n x y = dot n x' y'.
  Proof. intros; apply dot_ext; auto. Qed.
  Lemma same_nrm x x' : same n x x' -> nrm n x = nrm n x'.
  Proof. intros; unfold nrm; f_equal; apply same_dot; auto. Qed.
  Lemma same_refl x : same n x x. Proof. intros i Hi; auto. Qed.
  Lemma same_sym x y : same n x y -> same n y x.
  Proof. intros H i Hi; symmetry; auto. Qed.
  Lemma same_trans x y z : same n x y -> same n y z -> same n x z.
  Proof. intros H1 H2 i Hi; rewrite H1; auto. Qed.
  Lemma same_eq x y : x = y -> same n x y. Proof. intros -> i Hi; auto. Qed.
  Lemma mobius_add_same k x x' y y' : same n x x' -> same n y y' ->
    same n (mobius_add n k x y) (mobius_add n k x' y').
  Proof.
    intros Hx Hy i Hi. unfold mobius_add, mobius_num, mobius_den, vdiv, vadd, smul.
    rewrite (same_dot x x' y y'), (same_dot x x' x x'), (same_dot y y' y y') by auto.
    rewrite (Hx i), (Hy i) by auto. reflexivity.
  Qed.
  Lemma expmap_same e k x x' u u' : same n x x' -> same n u u' ->
    same n (expmap n e k x u) (expmap n e k x' u').
  Proof.
    intros Hx Hu. unfold expmap. apply mobius_add_same; auto. intros i Hi.
    unfold smul, vdiv, lambda_x. rewrite (same_nrm u u'), (same_dot x x' x x'), (Hu i) by auto.
    reflexivity.
  Qed.
  Lemma expmap_zero e k x : expmap n e k x vzero = x.
  Proof.
    unfold expmap. match goal with |- mobius_add _ _ _ ?v = _ => replace v with vzero end.
    - apply add_0_r.
    - veq. unfold Rdiv. ring.
  Qed.

  Lemma exp_log e k x y : 0 <= e -> closed_form k ->
    regular n k (vopp x) y -> regular n k x (mobius_add n k (vopp x) y) ->
    norm_ok n (mobius_add n k (vopp x) y) ->
    length_ok e k (nrm n (mobius_add n k (vopp x) y)) ->
    norm_ok n (logmap n e k x y) ->
    same n (expmap n e k x (logmap n e k x y)) y.
  Proof.
    intros He K R1 R2 N1 L N2. unfold logmap in *. cbv zeta in *.
    set (s := mobius_add n k (vopp x) y) in *.
    assert (Z : nrm n s = 0 -> same n (expmap n e k x
       (smul (2 * artan_k e (clamp_min e15 (nrm n s)) k) (vdiv s (lambda_x n k x * clamp_min e15 (nrm n s))))) y).
    { intros H0. eapply same_trans.
      - apply expmap_same; [apply same_refl|apply log_self_zero; auto].
      - rewrite expmap_zero. eapply same_trans; [|apply same_eq; apply (left_cancel' k x y); auto].
        fold s. eapply same_trans; [apply same_eq; symmetry; apply (add_0_r k x)|].
        apply mobius_add_same; [apply same_refl|]. intros i Hi.
        symmetry. apply (proj1 (nrm_zero_iff n s)); auto. }
    destruct N1 as [N1|N1]; [|auto].
    fold e15 in N1. pose proof e15_pos. assert (Hs : nrm n s <> 0) by lra.
    apply same_eq. rewrite exp_of_log; auto.
    - apply left_cancel'; auto.
    - pose proof (lambda_pos k x) as Lp. pose proof (nrm_pos n s Hs) as Sp.
      assert (Ap : 0 < artan_k e (nrm n s) k) by (apply artan_k_gt0; auto).
      rewrite clamp_min_id in N2 by auto.
      unfold norm_ok in N2. rewrite smul_vdiv, nrm_smul in N2.
      assert (E : Rabs (2 * artan_k e (nrm n s) k / (lambda_x n k x * nrm n s)) * nrm n s
         = 2 * artan_k e (nrm n s) k / lambda_x n k x).
      { rewrite Rabs_right; [field; lra|]. apply Rle_ge. unfold Rdiv. apply Rmult_le_pos; [lra|].
        left; apply Rinv_0_lt_compat, Rmult_lt_0_compat; auto. }
      rewrite E in N2. destruct N2 as [N2|N2]; auto. exfalso.
      assert (0 < 2 * artan_k e (nrm n s) k / lambda_x n k x).
      { unfold Rdiv. apply Rmult_lt_0_compat; [lra|apply Rinv_0_lt_compat; auto]. }
      lra.
  Qed.

  Lemma angle_ok_free e k b : angle_ok e k b <-> tan_free e k b.
  Proof.
    unfold angle_ok, tan_free, rt, k_sqrt, sabs, atanh. fold e7.
    replace (1 + (1 - e7)) with (2 - e7) by ring. replace (1 - (1 - e7)) with e7 by ring.
    replace ((ln (2 - e7) - ln e7) / 2) with ((ln (2 - e7) - ln e7) * (1 / 2)) by field. reflexivity.
  Qed.
  Lemma length_ok_free e k a : length_ok e k a <-> artan_free e k a.
  Proof. reflexivity. Qed.

  Lemma log_exp e k x u : 0 <= e -> closed_form k ->
    norm_ok n u -> angle_ok e k (lambda_x n k x * nrm n u / 2) ->
    e15 <= tan_k e (lambda_x n k x * nrm n u / 2) k \/ nrm n u = 0 ->
    let g := mobius_add n k (vopp x) (expmap n e k x u) in
    (* the gyrovector from x to exp is the second term, when the denominators are regular *)
    regular n k x (smul (tan_k e (lambda_x n k x * nrm n u / 2) k) (vdiv u (nrm n u))) ->
    regular n k (vopp x) (expmap n e k x u) ->
    same n (logmap n e k x (expmap n e k x u)) u.
  Proof.
    intros He K N A T g R1 R2.
    destruct N as [N|N].
    - destruct T as [T|T]; [|pose proof e15_pos; unfold e15 in *; lra].
      fold e15 in N. pose proof e15_pos.
      set (b := lambda_x n k x * nrm n u / 2) in *.
      assert (Eb : lambda_x n k x / 2 * nrm n u = b) by (unfold b; field).
      pose proof (lambda_pos k x) as Lp.
      assert (Bp : 0 < b) by (unfold b; apply Rmult_lt_0_compat; [apply Rmult_lt_0_compat|]; lra).
      apply angle_ok_free in A.
      unfold expmap in R2 |- *. cbv zeta in *. rewrite clamp_min_id, Eb in R2 |- * by auto.
      set (s := smul (tan_k e b k) (vdiv u (nrm n u))) in *.
      assert (Ns : nrm n s = tan_k e b k).
      { unfold s. rewrite nrm_smul, nrm_vdiv, !Rabs_right; try lra. field. lra. }
      apply same_eq. unfold logmap. cbv zeta. rewrite left_cancel by auto.
      rewrite Ns, clamp_min_id by auto. rewrite artan_tan by (auto; lra).
      unfold s. rewrite !smul_vdiv, smul_smul. rewrite <- (smul_1 u) at 3. f_equal.
      replace (2 * b) with (lambda_x n k x * nrm n u) by (unfold b; field). field. repeat split; lra.
    - assert (Z : same n u vzero) by (intros i Hi; apply (proj1 (nrm_zero_iff n u)); auto).
      assert (Z2 : same n (expmap n e k x u) x).
      { eapply same_trans; [apply expmap_same; [apply same_refl|apply Z]|].
        rewrite expmap_zero. apply same_refl. }
      eapply same_trans; [|apply same_sym; apply Z]. unfold logmap. cbv zeta.
      apply log_self_zero. rewrite (same_nrm _ vzero); [apply nrm_zero|].
      eapply same_trans; [apply mobius_add_same; [apply same_refl|apply Z2]|].
      rewrite add_opp_l. apply same_refl.
  Qed.

  Lemma norm_log e k x y : 0 <= e -> closed_form k -> norm_ok n (mobius_add n k (vopp x) y) ->
    norm n k x (logmap n e k x y) = dist n e k x y.
  Proof.
    intros He K N. unfold norm, logmap, dist. cbv zeta. set (s := mobius_add n k (vopp x) y) in *.
    pose proof (lambda_pos k x) as Lp. pose proof e15_pos.
    destruct N as [N|N].
    - fold e15 in N. rewrite clamp_min_id by auto. rewrite smul_vdiv, nrm_smul.
      pose proof (artan_k_nonneg e k (nrm n s) He K (nrm_nonneg _ _)).
      rewrite Rabs_right; [field; lra|]. apply Rle_ge. unfold Rdiv. apply Rmult_le_pos; [lra|].
      left; apply Rinv_0_lt_compat, Rmult_lt_0_compat; lra.
    - rewrite (same_nrm _ vzero) by (apply log_self_zero; auto). rewrite N, nrm_zero, artan_k_0. ring.
  Qed.

  Lemma lambda_0 k : lambda_x n k vzero = 2.
  Proof. unfold lambda_x. vexp. rewrite clamp_min_id by (pose proof e15_val; lra). field. Qed.
  Lemma expmap_at_0 e k u : expmap n e k vzero u = expmap0 n e k u.
  Proof.
    unfold expmap, expmap0. cbv zeta. rewrite add_0_l, lambda_0.
    replace (2 / 2 * clamp_min e15 (nrm n u)) with (clamp_min e15 (nrm n u)) by field. reflexivity.
  Qed.
  Lemma logmap_at_0 e k y : logmap n e k vzero y = logmap0 n e k y.
  Proof.
    unfold logmap, logmap0. cbv zeta. replace (vopp vzero) with vzero by (veq; ring).
    rewrite add_0_l, lambda_0. rewrite !smul_vdiv. f_equal. field.
    pose proof (clamp_min_pos e15 (nrm n y) e15_pos). lra.
  Qed.
End P.
