(** Lemmas behind StereoProps.v: ambient surface, triangle inequality,
    distributivity, refutations. *)
From Coq Require Import Reals Lra Psatz Lia.
From Verif Require Import RVec StereoModel StereoSpec GyroAlgebra StereoTrig StereoProofs StereoProofs2.
Local Open Scope R_scope.

(** ** addition theorems *)
Lemma atanh_plus x y : -1 < x < 1 -> -1 < y < 1 -> atanh ((x + y) / (1 + x * y)) = atanh x + atanh y.
Proof.
  intros Hx Hy. apply tanh_inj. rewrite tanh_plus, !tanh_atanh; auto.
  assert (0 < 1 + x * y) by nra.
  assert (E1 : (x + y) / (1 + x * y) - 1 = - ((1 - x) * (1 - y)) / (1 + x * y)) by (field; lra).
  assert (E2 : (x + y) / (1 + x * y) + 1 = ((1 + x) * (1 + y)) / (1 + x * y)) by (field; lra).
  assert (0 < / (1 + x * y)) by (apply Rinv_0_lt_compat; auto).
  assert (0 < (1 - x) * (1 - y)) by (apply Rmult_lt_0_compat; lra).
  assert (0 < (1 + x) * (1 + y)) by (apply Rmult_lt_0_compat; lra).
  unfold Rdiv in *. split; nra.
Qed.

Lemma atan_plus x y : 0 <= x -> 0 <= y -> x * y < 1 -> atan ((x + y) / (1 - x * y)) = atan x + atan y.
Proof.
  intros Hx Hy H.
  destruct (Req_dec x 0) as [->|Nx].
  { rewrite atan_0, Rmult_0_l. replace ((0 + y) / (1 - 0)) with y by field. ring. }
  assert (Bx := atan_bound x). assert (By := atan_bound y).
  assert (0 <= atan x) by (rewrite <- atan_0; destruct Hx as [Hx|Hx]; [left; apply atan_increasing; auto|rewrite <- Hx; lra]).
  assert (0 <= atan y) by (rewrite <- atan_0; destruct Hy as [Hy|Hy]; [left; apply atan_increasing; auto|rewrite <- Hy; lra]).
  assert (Hs : atan x + atan y < PI / 2).
  { assert (y < / x).
    { apply (Rmult_lt_reg_l x); [lra|]. rewrite Rinv_r by lra. lra. }
    apply atan_increasing in H2. rewrite atan_inv in H2 by lra. lra. }
  rewrite <- (atan_tan (atan x + atan y)) by lra. f_equal.
  rewrite tan_plus; rewrite ?tan_atan; auto; try lra.
  - apply Rgt_not_eq. apply cos_gt_0; lra.
  - apply Rgt_not_eq. apply cos_gt_0; lra.
  - apply Rgt_not_eq. apply cos_gt_0; lra.
Qed.

Lemma atan_sub_add x y z : 0 <= x -> 0 <= y -> (x * y < 1 -> z <= (x + y) / (1 - x * y)) ->
  atan z <= atan x + atan y.
Proof.
  intros Hx Hy H. destruct (Rlt_le_dec (x * y) 1) as [L|L].
  - rewrite <- atan_plus by auto. destruct (H L) as [G|G]; [left; apply atan_increasing; auto|rewrite G; lra].
  - assert (x <> 0) by nra. assert (/ x <= y).
    { apply (Rmult_le_reg_l x); [lra|]. rewrite Rinv_r by lra. lra. }
    assert (atan (/ x) <= atan y).
    { destruct H1 as [G|G]; [left; apply atan_increasing; auto|rewrite G; lra]. }
    rewrite atan_inv in H2 by lra. pose proof (atan_bound z). lra.
Qed.

Lemma artanh_c_sub_add x y z : 0 <= x < 1 -> 0 <= y < 1 -> z <= (x + y) / (1 + x * y) ->
  artanh_c z <= artanh_c x + artanh_c y.
Proof.
  intros Hx Hy H. pose proof e7_pos. pose proof e7_val.
  assert (Hz : artanh_c z <= atanh (1 - e7)).
  { rewrite artanh_c_as. destruct (clamp_range (-1 + e7) (1 - e7) z); [lra|]. apply atanh_le; lra. }
  pose proof (artanh_c_nonneg x ltac:(lra)). pose proof (artanh_c_nonneg y ltac:(lra)).
  destruct (Rle_lt_dec x (1 - e7)) as [Lx|Lx].
  2:{ assert (artanh_c x = atanh (1 - e7)).
      { rewrite artanh_c_as. f_equal. unfold clamp, Rmin, Rmax; repeat destruct Rle_dec; lra. } lra. }
  destruct (Rle_lt_dec y (1 - e7)) as [Ly|Ly].
  2:{ assert (artanh_c y = atanh (1 - e7)).
      { rewrite artanh_c_as. f_equal. unfold clamp, Rmin, Rmax; repeat destruct Rle_dec; lra. } lra. }
  rewrite (artanh_c_id x), (artanh_c_id y) by lra. rewrite <- atanh_plus by lra.
  apply artanh_c_mono in H. eapply Rle_trans; [apply H|].
  assert (0 < 1 + x * y) by nra.
  assert (E1 : (x + y) / (1 + x * y) - 1 = - ((1 - x) * (1 - y)) * / (1 + x * y)) by (field; lra).
  assert (0 < / (1 + x * y)) by (apply Rinv_0_lt_compat; auto).
  assert (0 < (1 - x) * (1 - y)) by (apply Rmult_lt_0_compat; lra).
  assert (0 <= (x + y) / (1 + x * y)) by (unfold Rdiv; apply Rmult_le_pos; lra).
  rewrite artanh_c_as. apply atanh_le; unfold clamp, Rmin, Rmax; repeat destruct Rle_dec; nra.
Qed.

Section P.
  Variable n : nat.
  Implicit Types x y z u v w : vec.

  Lemma k_sqrt0_sq k : k_sqrt 0 k * k_sqrt 0 k = Rabs k.
  Proof. rewrite k_sqrt_sq by lra. ring. Qed.

  Lemma nrm_le_of_sq x c : 0 <= c -> dot n x x <= c ^ 2 -> nrm n x <= c.
  Proof.
    intros Hc H. unfold nrm. rewrite <- (sqrt_pow2 c) by auto. apply sqrt_le_1_alt; auto.
  Qed.

  (** triangle inequality for e = 0 *)
  Lemma triangle k x y z : closed_form k ->
    in_domain n k x -> in_domain n k y -> in_domain n k z ->
    regular n k (vopp x) y -> regular n k (vopp y) z -> regular n k (vopp x) z ->
    dist n 0 k x z <= dist n 0 k x y + dist n 0 k y z.
  Proof.
    intros K Dx Dy Dz R1 R2 R3. unfold dist. rewrite !mobius_add_madd by auto.
    apply regular_ne in R1 as M1. apply regular_ne in R2 as M2. apply regular_ne in R3 as M3.
    rewrite in_domain_cf in Dx, Dy, Dz.
    assert (Tri := gyrotriangle n k x y z M2 (Rgt_not_eq _ _ Dy) M1 M3).
    set (A := madd n k (vopp x) y) in *. set (B := madd n k (vopp y) z) in *.
    set (G := gyr n k (vopp x) y B) in *.
    assert (NG : nrm n G = nrm n B).
    { unfold nrm. f_equal. unfold G. apply gyr_isometry; auto. }
    assert (cfo : forall v, cf n k (vopp v) = cf n k v).
    { intros v. unfold cf. vexp. ring. }
    assert (CA : 0 < cf n k A).
    { unfold A. rewrite cf_madd, cfo by auto. unfold Rdiv. apply Rmult_lt_0_compat.
      - apply Rmult_lt_0_compat; auto.
      - apply Rinv_0_lt_compat. pose proof (mden_nonneg n k (vopp x) y). lra. }
    assert (CB : 0 < cf n k B).
    { unfold B. rewrite cf_madd, cfo by auto. unfold Rdiv. apply Rmult_lt_0_compat.
      - apply Rmult_lt_0_compat; auto.
      - apply Rinv_0_lt_compat. pose proof (mden_nonneg n k (vopp y) z). lra. }
    assert (CG : 0 < cf n k G).
    { unfold cf in *. rewrite <- (nrm_sq n G), NG, nrm_sq. auto. }
    assert (Ha := nrm_nonneg n A). assert (Hb := nrm_nonneg n B).
    assert (MA : mden n k A G <> 0).
    { intros Z.
      assert (E : y = vopp (vopp y)) by (veq; ring).
      assert (Dyb : mden n k y B <> 0).
      { rewrite E at 1. unfold B. rewrite mden_left_cancel, cfo by auto. unfold Rdiv.
        apply Rmult_integral_contrapositive_currified.
        - apply pow_nonzero. lra.
        - apply Rinv_neq_0_compat; auto. }
      pose proof (mden_assoc n k (vopp x) y B Dyb M1) as Ea. fold A G in Ea. rewrite Z, Rmult_0_l in Ea.
      apply Rmult_integral in Ea. destruct Ea as [Ea|Ea]; auto.
      assert (EB : madd n k y B = z).
      { unfold B. rewrite E at 1. apply madd_left_cancel; auto. rewrite cfo. lra. }
      rewrite EB in Ea. auto. }
    assert (MAp : 0 < mden n k A G) by (pose proof (mden_nonneg n k A G); lra).
    assert (Bd : 0 < 1 - k * (nrm n A * nrm n B) ->
       nrm n (madd n k (vopp x) z) <= (nrm n A + nrm n B) / (1 - k * (nrm n A * nrm n B))).
    { intros Hd. apply nrm_le_of_sq.
      - unfold Rdiv. apply Rmult_le_pos; [lra|]. left. apply Rinv_0_lt_compat; auto.
      - rewrite Tri. rewrite <- NG in Hd |- *. apply madd_sq_le; auto; lra. }
    clear Tri MA. set (c := nrm n (madd n k (vopp x) z)) in *.
    destruct K as [->|[K|K]].
    - rewrite !artan_k_zero. assert (0 < 1 - 0 * (nrm n A * nrm n B)) by lra.
      specialize (Bd H). replace ((nrm n A + nrm n B) / (1 - 0 * (nrm n A * nrm n B)))
        with (nrm n A + nrm n B) in Bd by (field; lra). lra.
    - fold e8 in K. pose proof e8_pos. rewrite !artan_k_neg by auto.
      assert (Hs : 0 < k_sqrt 0 k) by (apply k_sqrt_pos; [lra|left; lra]).
      pose proof (k_sqrt0_sq k) as Sq. rewrite Rabs_left in Sq by lra.
      set (s := k_sqrt 0 k) in *.
      assert (H3 : artanh_c (c * s) <= artanh_c (nrm n A * s) + artanh_c (nrm n B * s)).
      { unfold cf in CA, CB. rewrite <- nrm_sq in CA, CB.
        assert (Hk : k = - (s * s)) by lra. rewrite Hk in CA, CB.
        apply artanh_c_sub_add.
        - split; [apply Rmult_le_pos; lra|]. assert (0 <= nrm n A * s) by (apply Rmult_le_pos; lra). nra.
        - split; [apply Rmult_le_pos; lra|]. assert (0 <= nrm n B * s) by (apply Rmult_le_pos; lra). nra.
        - assert (0 <= nrm n A * nrm n B) by (apply Rmult_le_pos; lra).
          assert (Hd : 0 < 1 - k * (nrm n A * nrm n B)) by nra.
          specialize (Bd Hd). apply (Rmult_le_compat_r s) in Bd; [|lra].
          eapply Rle_trans; [apply Bd|]. right. rewrite Hk in *. field; repeat split; nra. }
      assert (Hi : 0 < / s) by (apply Rinv_0_lt_compat; auto). nra.
    - fold e8 in K. pose proof e8_pos. rewrite !artan_k_pos by auto.
      assert (Hs : 0 < k_sqrt 0 k) by (apply k_sqrt_pos; [lra|left; lra]).
      pose proof (k_sqrt0_sq k) as Sq. rewrite Rabs_right in Sq by lra.
      set (s := k_sqrt 0 k) in *.
      assert (H3 : atan (c * s) <= atan (nrm n A * s) + atan (nrm n B * s)).
      { assert (Hk : k = s * s) by lra. apply atan_sub_add; try (apply Rmult_le_pos; lra).
        intros L. assert (Hd : 0 < 1 - k * (nrm n A * nrm n B)) by (rewrite Hk; nra).
        specialize (Bd Hd). apply (Rmult_le_compat_r s) in Bd; [|lra].
        eapply Rle_trans; [apply Bd|]. right. rewrite Hk in *. field; repeat split; nra. }
      assert (Hi : 0 < / s) by (apply Rinv_0_lt_compat; auto). nra.
  Qed.

  (** scalar distributivity for e = 0 *)
  Lemma tan_k_plus k A B : closed_form k ->
    (k < 0 -> Rabs A * k_sqrt 0 k <= 15 /\ Rabs B * k_sqrt 0 k <= 15 /\ Rabs (A + B) * k_sqrt 0 k <= 15) ->
    (0 < k -> Rabs A * k_sqrt 0 k < PI / 2 /\ Rabs B * k_sqrt 0 k < PI / 2 /\ Rabs (A + B) * k_sqrt 0 k < PI / 2) ->
    1 - k * tan_k 0 A k * tan_k 0 B k <> 0 /\
    tan_k 0 (A + B) k = (tan_k 0 A k + tan_k 0 B k) / (1 - k * tan_k 0 A k * tan_k 0 B k).
  Proof.
    intros K Hn Hp. pose proof e8_pos. destruct K as [->|[K|K]].
    - rewrite !tan_k_zero. split; [lra|field].
    - fold e8 in K. rewrite !tan_k_neg by auto. destruct (Hn ltac:(lra)) as (H1 & H2 & H3).
      assert (Hs : 0 < k_sqrt 0 k) by (apply k_sqrt_pos; [lra|left; lra]).
      pose proof (k_sqrt0_sq k) as Sq. rewrite Rabs_left in Sq by lra.
      set (s := k_sqrt 0 k) in *.
      assert (Cl : forall t, Rabs t * s <= 15 -> tanh_c (t * s) = tanh (t * s)).
      { intros t Ht. unfold tanh_c. rewrite clamp_id; auto.
        rewrite <- (Rabs_right s) in Ht at 1 by lra. rewrite <- Rabs_mult in Ht.
        pose proof (Rle_abs (t * s)). pose proof (Rle_abs (- (t * s))) as H5.
        rewrite Rabs_Ropp in H5. lra. }
      rewrite !Cl by auto. replace ((A + B) * s) with (A * s + B * s) by ring.
      pose proof (tanh_den_pos (A * s) (B * s)) as Dp.
      assert (E : 1 - k * (/ s * tanh (A * s)) * (/ s * tanh (B * s)) = 1 + tanh (A * s) * tanh (B * s)).
      { replace k with (- (s * s)) by lra. field. lra. }
      rewrite E. split; [lra|]. rewrite tanh_plus. field. lra.
    - fold e8 in K. rewrite !tan_k_pos by auto. destruct (Hp ltac:(lra)) as (H1 & H2 & H3).
      assert (Hs : 0 < k_sqrt 0 k) by (apply k_sqrt_pos; [lra|left; lra]).
      pose proof (k_sqrt0_sq k) as Sq. rewrite Rabs_right in Sq by lra.
      set (s := k_sqrt 0 k) in *. pose proof PI2_lt_10.
      assert (Cl : forall t, Rabs t * s < PI / 2 -> - (PI / 2) < t * s < PI / 2).
      { intros t Ht. rewrite <- (Rabs_right s) in Ht at 1 by lra. rewrite <- Rabs_mult in Ht.
        apply Rabs_def2 in Ht. lra. }
      apply Cl in H1. apply Cl in H2. apply Cl in H3.
      rewrite !clamp_max_id by lra. replace ((A + B) * s) with (A * s + B * s) in * by ring.
      assert (C1 : 0 < cos (A * s)) by (apply cos_gt_0; lra).
      assert (C2 : 0 < cos (B * s)) by (apply cos_gt_0; lra).
      assert (C3 : 0 < cos (A * s + B * s)) by (apply cos_gt_0; lra).
      assert (Dn : 1 - tan (A * s) * tan (B * s) <> 0).
      { unfold tan. replace (1 - sin (A * s) / cos (A * s) * (sin (B * s) / cos (B * s)))
          with (cos (A * s + B * s) * / (cos (A * s) * cos (B * s)))
          by (rewrite cos_plus; field; lra).
        apply Rgt_not_eq, Rmult_lt_0_compat; auto. apply Rinv_0_lt_compat, Rmult_lt_0_compat; auto. }
      assert (E : 1 - k * (/ s * tan (A * s)) * (/ s * tan (B * s)) = 1 - tan (A * s) * tan (B * s)).
      { replace k with (s * s) by lra. field. lra. }
      rewrite E. split; auto. rewrite tan_plus by (auto; lra). field. lra.
  Qed.

  Definition small_angle (k A : R) : Prop :=
    (k < 0 -> Rabs A * sqrt (Rabs k) <= 15) /\ (0 < k -> Rabs A * sqrt (Rabs k) < PI / 2).

  Lemma scalar_mul_plus k r1 r2 x : closed_form k -> norm_ok n x ->
    let A := artan_k 0 (nrm n x) k in
    small_angle k (r1 * A) -> small_angle k (r2 * A) -> small_angle k ((r1 + r2) * A) ->
    regular n k (mobius_scalar_mul n 0 k r1 x) (mobius_scalar_mul n 0 k r2 x) ->
    same n (mobius_scalar_mul n 0 k (r1 + r2) x)
      (mobius_add n k (mobius_scalar_mul n 0 k r1 x) (mobius_scalar_mul n 0 k r2 x)).
  Proof.
    intros K N A [S1 S1'] [S2 S2'] [S3 S3'] R. destruct N as [N|N].
    - fold e15 in N. pose proof e15_pos. apply same_eq. rewrite mobius_add_madd by auto. clear R.
      set (v := vdiv x (nrm n x)).
      assert (Ev : dot n v v = 1).
      { unfold v. vexp. rewrite <- nrm_sq. field. lra. }
      assert (F : forall r, mobius_scalar_mul n 0 k r x = smul (tan_k 0 (r * A) k) v).
      { intros r. unfold mobius_scalar_mul. rewrite clamp_min_id by auto. reflexivity. }
      assert (Q : k_sqrt 0 k = sqrt (Rabs k)) by (unfold k_sqrt, sabs; f_equal; ring).
      destruct (tan_k_plus k (r1 * A) (r2 * A) K) as [D E].
      + rewrite Q. intros Hk. rewrite <- Rmult_plus_distr_r. auto.
      + rewrite Q. intros Hk. rewrite <- Rmult_plus_distr_r. auto.
      + rewrite !F, madd_collinear by auto. rewrite <- E. f_equal. f_equal. ring.
    - eapply same_trans; [apply scalar_mul_zero_vec; auto|]. apply same_sym.
      eapply same_trans; [apply mobius_add_same; apply scalar_mul_zero_vec; auto|].
      apply same_eq, add_0_l.
  Qed.

  (** surface *)
  Lemma inv_sproj_surface e k x : 0 <= e -> k <> 0 \/ 0 < e -> e15 <= 1 + k * dot n x x ->
    k * dot n (inv_sproj n e k x) (inv_sproj n e k x) + (Rabs k + e) * (inv_sproj n e k x n) ^ 2 = 1
    /\ 0 < 1 + sqrt (Rabs k + e) * inv_sproj n e k x n.
  Proof.
    intros He Hk H. pose proof e15_pos. pose proof (k_sqrt_pos e k He Hk) as Sp.
    pose proof (k_sqrt_sq e k He) as Sq.
    assert (E : dot n (inv_sproj n e k x) (inv_sproj n e k x) = lambda_x n k x ^ 2 * dot n x x).
    { transitivity (dot n (smul (lambda_x n k x) x) (smul (lambda_x n k x) x)).
      - apply dot_ext; intros i Hi; unfold inv_sproj, smul; rewrite (proj2 (Nat.ltb_lt i n)) by auto; reflexivity.
      - vexp. ring. }
    assert (En : inv_sproj n e k x n = 1 / k_sqrt e k * (lambda_x n k x - 1)).
    { unfold inv_sproj. rewrite (proj2 (Nat.ltb_ge n n)) by lia. reflexivity. }
    rewrite E, En. fold (sabs e k). fold (k_sqrt e k). unfold sabs. rewrite <- Sq.
    unfold lambda_x. rewrite clamp_min_id by auto. split.
    - field. split; lra.
    - replace (1 + k_sqrt e k * (1 / k_sqrt e k * (2 / (1 + k * dot n x x) - 1)))
        with (2 * / (1 + k * dot n x x)) by (field; lra).
      apply Rmult_lt_0_compat; [lra|apply Rinv_0_lt_compat; lra].
  Qed.
  Lemma inv_sproj_sproj e k z : 0 <= e -> k <> 0 \/ 0 < e ->
    k * dot n z z + (Rabs k + e) * z n ^ 2 = 1 ->
    0 < 1 + sqrt (Rabs k + e) * z n <= 2 * 10 ^ 15 ->
    same (S n) (inv_sproj n e k (sproj n e k z)) z.
  Proof.
    intros He Hk H [P Q]. pose proof e15_pos. pose proof (k_sqrt_pos e k He Hk) as Sp.
    pose proof (k_sqrt_sq e k He) as Sq. rewrite <- Sq in H.
    fold (sabs e k) in P, Q. fold (k_sqrt e k) in P, Q. set (s := k_sqrt e k) in *.
    assert (C : 1 + k * dot n (sproj n e k z) (sproj n e k z) = 2 / (1 + s * z n)).
    { unfold sproj. fold (k_sqrt e k). fold s. cbv zeta. vexp.
      replace (k * (1 / (1 + s * z n) * (1 / (1 + s * z n) * dot n z z)))
        with (k * dot n z z / (1 + s * z n) ^ 2) by (field; lra).
      replace (k * dot n z z) with (1 - (s * z n) ^ 2) by lra. field. lra. }
    assert (L : lambda_x n k (sproj n e k z) = 1 + s * z n).
    { unfold lambda_x. rewrite C. rewrite clamp_min_id.
      - field; lra.
      - unfold e15. apply (Rmult_le_reg_r (1 + s * z n)); auto.
        replace (2 / (1 + s * z n) * (1 + s * z n)) with 2 by (field; lra).
        apply (Rmult_le_reg_l (10 ^ 15)); [apply pow_lt; lra|].
        rewrite <- Rmult_assoc, Rinv_r by (apply pow_nonzero; lra). lra. }
    intros i Hi. unfold inv_sproj. rewrite L. fold (k_sqrt e k). fold s. cbv zeta.
    destruct (Nat.ltb_spec i n).
    - unfold sproj. fold (k_sqrt e k). fold s. cbv zeta. unfold smul. field. lra.
    - assert (i = n) by lia. subst i. field. lra.
  Qed.

  (** full gyrogroup laws in the ball *)
  Lemma ball_left_cancel k x y : k < 0 -> safe n k x -> in_domain n k y ->
    mobius_add n k (vopp x) (mobius_add n k x y) = y.
  Proof.
    intros Hk Sx Dy. apply left_cancel.
    - apply safe_regular; auto.
    - apply safe_regular; auto using safe_opp. apply add_in_domain; auto. apply safe_in_domain; auto.
  Qed.
  Lemma ball_assoc k u v w : k < 0 -> safe n k u -> safe n k v -> safe n k w ->
    mobius_add n k u (mobius_add n k v w) =
    mobius_add n k (mobius_add n k u v) (gyration n k u v w).
  Proof.
    intros Hk Su Sv Sw.
    assert (Du := safe_in_domain n k u Hk Su). assert (Dv := safe_in_domain n k v Hk Sv).
    assert (Dw := safe_in_domain n k w Hk Sw).
    assert (Ruv : regular n k u v) by (apply safe_regular; auto).
    apply gyro_assoc; auto.
    - apply safe_regular; auto.
    - apply safe_regular; auto. apply add_in_domain; auto.
    - apply safe_regular_r; auto. apply add_in_domain; auto. unfold safe in *.
      assert (E : nrm n (gyration n k u v w) = nrm n w) by (unfold nrm; f_equal; apply gyr_iso; auto).
      rewrite E. auto.
  Qed.

  Lemma ball_dist_translate e k u x y : k < 0 -> safe n k u -> safe n k x -> safe n k y ->
    regular n k (vopp (mobius_add n k u x)) (mobius_add n k u y) ->
    dist n e k (mobius_add n k u x) (mobius_add n k u y) = dist n e k x y.
  Proof.
    intros Hk Su Sx Sy R. assert (Du := safe_in_domain n k u Hk Su).
    apply dist_translate; auto using safe_regular, safe_in_domain, safe_opp.
    unfold in_domain in Du. unfold cf. lra.
  Qed.
End P.
