(** Lemmas behind StereoProps.v: geodesics, transport, scalar multiplication,
    projection, triangle inequality. *)
From Coq Require Import Reals Lra Psatz Lia.
From Verif Require Import RVec StereoModel StereoSpec GyroAlgebra StereoTrig StereoProofs.
Local Open Scope R_scope.

(** ** tan_k is odd and additive *)
Lemma tanh_c_odd x : tanh_c (- x) = - tanh_c x.
Proof.
  unfold tanh_c. rewrite <- tanh_opp. f_equal.
  unfold clamp, Rmin, Rmax; repeat destruct Rle_dec; lra.
Qed.
Lemma tan_k_odd e k b : Rabs (b * k_sqrt e k) <= 10 ^ 38 -> tan_k e (- b) k = - tan_k e b k.
Proof.
  intros H. unfold tan_k, tan_k_at. destruct (k_zero k).
  - unfold tan_k_zero_taylor1. ring.
  - cbv zeta. replace (- b * k_sqrt e k) with (- (b * k_sqrt e k)) by ring.
    destruct Rlt_dec.
    + rewrite tanh_c_odd. ring.
    + pose proof (Rle_abs (b * k_sqrt e k)). pose proof (Rle_abs (- (b * k_sqrt e k))) as H2.
      rewrite Rabs_Ropp in H2. rewrite !clamp_max_id by lra.
      rewrite tan_neg. ring.
Qed.

Section P.
  Variable n : nat.
  Implicit Types x y z u v w : vec.

  (** *** scalar multiplication *)
  Lemma scalar_mul_zero_vec e k r x : nrm n x = 0 -> same n (mobius_scalar_mul n e k r x) vzero.
  Proof.
    intros H i Hi. rewrite nrm_zero_iff in H. unfold mobius_scalar_mul, smul, vdiv, vzero.
    rewrite H by auto. unfold Rdiv. ring.
  Qed.
  Lemma scalar_mul_0 e k x : mobius_scalar_mul n e k 0 x = vzero.
  Proof. unfold mobius_scalar_mul. rewrite Rmult_0_l, tan_k_0. apply smul_0. Qed.
  Lemma scalar_mul_form e k r x : e15 <= nrm n x ->
    mobius_scalar_mul n e k r x = smul (tan_k e (r * artan_k e (nrm n x) k) k / nrm n x) x.
  Proof. intros. unfold mobius_scalar_mul. rewrite clamp_min_id by auto. apply smul_vdiv. Qed.
  Lemma scalar_mul_nrm e k r x : e15 <= nrm n x ->
    nrm n (mobius_scalar_mul n e k r x) = Rabs (tan_k e (r * artan_k e (nrm n x) k) k).
  Proof.
    intros H. pose proof e15_pos. rewrite scalar_mul_form by auto.
    rewrite nrm_smul. unfold Rdiv. rewrite Rabs_mult, Rabs_inv, (Rabs_right (nrm n x)) by lra.
    field. lra.
  Qed.
  Lemma scalar_mul_1 e k x : 0 <= e -> closed_form k -> norm_ok n x -> length_ok e k (nrm n x) ->
    same n (mobius_scalar_mul n e k 1 x) x.
  Proof.
    intros He K [N|N] L.
    - fold e15 in N. pose proof e15_pos. apply same_eq. rewrite scalar_mul_form by auto.
      rewrite Rmult_1_l, tan_artan by (auto using nrm_nonneg; exact K).
      replace (nrm n x / nrm n x) with 1 by (field; lra). apply smul_1.
    - eapply same_trans; [apply scalar_mul_zero_vec; auto|]. intros i Hi. symmetry.
      apply (proj1 (nrm_zero_iff n x)); auto.
  Qed.

  Lemma tan_free_big e k b : 0 <= e -> 0 <= b -> closed_form k -> 0 < k -> tan_free e k b ->
    Rabs (b * k_sqrt e k) <= 10 ^ 38.
  Proof.
    intros He Hb K Hk [_ F]. specialize (F Hk). pose proof PI2_lt_10.
    assert (0 < k_sqrt e k) by (apply k_sqrt_pos; auto; left; lra).
    rewrite Rabs_right; [lra|]. apply Rle_ge, Rmult_le_pos; lra.
  Qed.

  (** |tan_k(r A)| = tan_k(|r| A) *)
  Lemma tan_k_abs e k r A : 0 <= e -> closed_form k -> 0 <= A -> tan_free e k (Rabs r * A) ->
    tan_k e (r * A) k = (if Rle_dec 0 r then 1 else -1) * tan_k e (Rabs r * A) k.
  Proof.
    intros He K HA F. destruct Rle_dec as [Hr|Hr].
    - rewrite Rabs_right in * by lra. ring.
    - rewrite Rabs_left in * by lra.
      assert (Hb : 0 <= - r * A) by (apply Rmult_le_pos; lra).
      replace (r * A) with (- (- r * A)) by ring.
      destruct (Rlt_le_dec 0 k).
      + rewrite tan_k_odd; [ring|]. apply tan_free_big; auto.
      + destruct K as [->|[K|K]].
        * rewrite !tan_k_zero. ring.
        * rewrite !tan_k_neg by auto.
          replace (- (- r * A) * k_sqrt e k) with (- (- r * A * k_sqrt e k)) by ring.
          rewrite tanh_c_odd. ring.
        * exfalso. assert (0 < / 10 ^ 8) by (apply Rinv_0_lt_compat, pow_lt; lra). lra.
  Qed.
  Lemma abs_tan_k e k r A : 0 <= e -> closed_form k -> 0 <= A -> tan_free e k (Rabs r * A) ->
    Rabs (tan_k e (r * A) k) = tan_k e (Rabs r * A) k.
  Proof.
    intros He K HA F. rewrite tan_k_abs by auto.
    assert (0 <= tan_k e (Rabs r * A) k).
    { apply tan_k_nonneg; auto. apply Rmult_le_pos; auto. apply Rabs_pos. }
    rewrite Rabs_mult, (Rabs_right (tan_k e _ k)) by lra.
    destruct Rle_dec; [rewrite Rabs_right by lra|rewrite Rabs_left by lra]; ring.
  Qed.

  Lemma dist0_scalar_mul e k r x : 0 <= e -> closed_form k -> norm_ok n x ->
    angle_ok e k (Rabs r * artan_k e (nrm n x) k) ->
    dist0 n e k (mobius_scalar_mul n e k r x) = Rabs r * dist0 n e k x.
  Proof.
    intros He K N A. apply angle_ok_free in A. unfold dist0. destruct N as [N|N].
    - fold e15 in N. rewrite scalar_mul_nrm by auto.
      pose proof (artan_k_nonneg e k (nrm n x) He K (nrm_nonneg _ _)) as HA.
      rewrite abs_tan_k by auto. rewrite artan_tan; auto.
      + ring.
      + apply Rmult_le_pos; auto. apply Rabs_pos.
    - rewrite (same_nrm n _ vzero) by (apply scalar_mul_zero_vec; auto).
      rewrite N, nrm_zero, artan_k_0. ring.
  Qed.

  Lemma scalar_mul_mul e k r1 r2 x : 0 <= e -> closed_form k -> norm_ok n x ->
    angle_ok e k (Rabs r2 * artan_k e (nrm n x) k) ->
    angle_ok e k (Rabs (r1 * r2) * artan_k e (nrm n x) k) ->
    norm_ok n (mobius_scalar_mul n e k r2 x) ->
    same n (mobius_scalar_mul n e k r1 (mobius_scalar_mul n e k r2 x))
           (mobius_scalar_mul n e k (r1 * r2) x).
  Proof.
    intros He K N A1 A2 N2. apply angle_ok_free in A1. apply angle_ok_free in A2.
    destruct N as [N|N].
    2:{ eapply same_trans; [|apply same_sym, scalar_mul_zero_vec; auto].
        apply scalar_mul_zero_vec. rewrite (same_nrm n _ vzero); [apply nrm_zero|].
        apply scalar_mul_zero_vec; auto. }
    fold e15 in N. pose proof e15_pos.
    pose proof (artan_k_nonneg e k (nrm n x) He K (nrm_nonneg _ _)) as HA.
    destruct N2 as [N2|N2].
    - fold e15 in N2. apply same_eq. rewrite (scalar_mul_form e k r1) by auto.
      assert (Nn : nrm n (mobius_scalar_mul n e k r2 x) = tan_k e (Rabs r2 * artan_k e (nrm n x) k) k)
        by (rewrite scalar_mul_nrm, abs_tan_k by auto; reflexivity).
      rewrite Nn in *. rewrite artan_tan; auto; [|apply Rmult_le_pos; auto; apply Rabs_pos].
      rewrite (scalar_mul_form e k r2), (scalar_mul_form e k (r1 * r2)) by auto.
      rewrite smul_smul. f_equal.
      rewrite (tan_k_abs e k r2) by auto. rewrite (tan_k_abs e k (r1 * r2)) by auto.
      replace (r1 * (Rabs r2 * artan_k e (nrm n x) k)) with (r1 * Rabs r2 * artan_k e (nrm n x) k) by ring.
      rewrite (tan_k_abs e k (r1 * Rabs r2)) by (auto; rewrite Rabs_mult, Rabs_Rabsolu, <- Rabs_mult; auto).
      rewrite (Rabs_mult r1 (Rabs r2)), Rabs_Rabsolu, <- Rabs_mult.
      set (T := tan_k e (Rabs r2 * artan_k e (nrm n x) k) k) in *.
      assert (T <> 0) by lra. assert (nrm n x <> 0) by lra.
      assert (r2 <> 0).
      { intros ->. unfold T in N2. rewrite Rabs_R0, Rmult_0_l, tan_k_0 in N2. lra. }
      assert (Es : (if Rle_dec 0 (r1 * Rabs r2) then 1 else -1) * (if Rle_dec 0 r2 then 1 else -1)
         * tan_k e (Rabs (r1 * r2) * artan_k e (nrm n x) k) k
         = (if Rle_dec 0 (r1 * r2) then 1 else -1) * tan_k e (Rabs (r1 * r2) * artan_k e (nrm n x) k) k).
      { destruct (Req_dec r1 0) as [->|R1].
        - rewrite !Rmult_0_l, Rabs_R0, Rmult_0_l, tan_k_0. ring.
        - f_equal. destruct (Rlt_le_dec r2 0) as [L|L].
          + rewrite (Rabs_left r2) by auto.
            repeat destruct Rle_dec; try lra; exfalso; nra.
          + rewrite (Rabs_right r2) by lra. repeat destruct Rle_dec; lra. }
      transitivity ((if Rle_dec 0 (r1 * Rabs r2) then 1 else -1) * (if Rle_dec 0 r2 then 1 else -1)
         * tan_k e (Rabs (r1 * r2) * artan_k e (nrm n x) k) k / nrm n x).
      + field. auto.
      + rewrite Es. reflexivity.
    - assert (Hz : r2 = 0 \/ tan_k e (Rabs r2 * artan_k e (nrm n x) k) k = 0).
      { right. rewrite scalar_mul_nrm, abs_tan_k in N2 by auto. auto. }
      assert (Ez : Rabs r2 * artan_k e (nrm n x) k = 0).
      { destruct Hz as [->|Hz]; [rewrite Rabs_R0; ring|].
        rewrite <- (artan_tan e k (Rabs r2 * artan_k e (nrm n x) k)); auto;
          [rewrite Hz; apply artan_k_0|apply Rmult_le_pos; auto; apply Rabs_pos]. }
      eapply same_trans; [apply scalar_mul_zero_vec; auto|]. apply same_eq.
      rewrite scalar_mul_form by auto.
      assert (Ez2 : r1 * r2 * artan_k e (nrm n x) k = 0).
      { apply Rmult_integral in Ez. destruct Ez as [Ez|Ez]; [|rewrite Ez; ring].
        destruct (Req_dec r2 0) as [->|R2]; [ring|]. apply Rabs_no_R0 in R2. lra. }
      rewrite Ez2, tan_k_0. unfold Rdiv. rewrite Rmult_0_l. symmetry. apply smul_0.
  Qed.

  (** *** geodesics *)
  Lemma geodesic_0 e k x y : geodesic n e k 0 x y = x.
  Proof. unfold geodesic. rewrite scalar_mul_0. apply add_0_r. Qed.
  Lemma geodesic_1 e k x y : 0 <= e -> closed_form k ->
    regular n k (vopp x) y -> regular n k x (mobius_add n k (vopp x) y) ->
    norm_ok n (mobius_add n k (vopp x) y) -> length_ok e k (nrm n (mobius_add n k (vopp x) y)) ->
    same n (geodesic n e k 1 x y) y.
  Proof.
    intros He K R1 R2 N L. unfold geodesic.
    eapply same_trans; [apply mobius_add_same; [apply same_refl|apply scalar_mul_1; auto]|].
    apply same_eq, left_cancel'; auto.
  Qed.
  Lemma regular_same k x x' y y' : same n x x' -> same n y y' -> regular n k x y -> regular n k x' y'.
  Proof.
    intros Hx Hy. unfold regular.
    rewrite (same_dot n x x' y y'), (same_dot n x x' x x'), (same_dot n y y' y y') by auto. auto.
  Qed.
  Lemma geodesic_dist e k t x y : 0 <= e -> closed_form k -> 0 <= t <= 1 ->
    norm_ok n (mobius_add n k (vopp x) y) ->
    regular n k x (mobius_scalar_mul n e k t (mobius_add n k (vopp x) y)) ->
    regular n k (vopp x) (geodesic n e k t x y) ->
    dist n e k x (geodesic n e k t x y) = t * dist n e k x y.
  Proof.
    intros He K Ht N R1 R2. unfold dist, geodesic in *.
    rewrite left_cancel by auto. set (s := mobius_add n k (vopp x) y) in *.
    pose proof (dist0_scalar_mul e k t s He K N) as D. unfold dist0 in D.
    rewrite (Rabs_right t) in D by lra. rewrite D; [ring|].
    apply angle_ok_free. apply artan_tan_free; auto. apply nrm_nonneg.
  Qed.
  Lemma geodesic_unit_0 e k x u : geodesic_unit n e k 0 x u = x.
  Proof.
    unfold geodesic_unit. replace (0 / 2) with 0 by field. rewrite tan_k_0, smul_0. apply add_0_r.
  Qed.
  Lemma geodesic_unit_dist e k t x u : 0 <= e -> closed_form k -> 0 <= t ->
    e15 <= nrm n u -> angle_ok e k (t / 2) ->
    regular n k x (smul (tan_k e (t / 2) k) (vdiv u (nrm n u))) ->
    regular n k (vopp x) (geodesic_unit n e k t x u) ->
    dist n e k x (geodesic_unit n e k t x u) = t.
  Proof.
    intros He K Ht Hu A R1 R2. pose proof e15_pos. apply angle_ok_free in A.
    unfold dist, geodesic_unit in *. rewrite clamp_min_id in * by auto.
    rewrite left_cancel by auto. rewrite nrm_smul, nrm_vdiv by lra.
    pose proof (tan_k_nonneg e k (t / 2) He K ltac:(lra) A).
    rewrite !Rabs_right by lra. replace (tan_k e (t / 2) k * (nrm n u / nrm n u))
      with (tan_k e (t / 2) k) by (field; lra).
    rewrite artan_tan by (auto; lra). field.
  Qed.

  (** *** transport *)
  Lemma transport_add k x y u v : parallel_transport n k x y (vadd u v) =
    vadd (parallel_transport n k x y u) (parallel_transport n k x y v).
  Proof.
    unfold parallel_transport, gyration. cbv zeta. vexp. veq. unfold Rdiv. ring.
  Qed.
  Lemma transport_smul k c x y u : parallel_transport n k x y (smul c u) =
    smul c (parallel_transport n k x y u).
  Proof. unfold parallel_transport, gyration. cbv zeta. vexp. veq. unfold Rdiv. ring. Qed.
  Lemma transport_inner k x y u v : regular n k y (vopp x) ->
    inner n k y (parallel_transport n k x y u) (parallel_transport n k x y v) = inner n k x u v.
  Proof.
    intros R. unfold inner, parallel_transport. vexp. rewrite gyr_iso by auto.
    pose proof (lambda_pos n k x). pose proof (lambda_pos n k y). field. lra.
  Qed.
  Lemma transport_inv k x y u : regular n k y (vopp x) ->
    parallel_transport n k y x (parallel_transport n k x y u) = u.
  Proof.
    intros R. assert (R' : regular n k x (vopp y)) by (apply regular_opp, regular_sym; auto).
    pose proof (lambda_pos n k x). pose proof (lambda_pos n k y).
    assert (E : parallel_transport n k x y u =
      smul (lambda_x n k x / lambda_x n k y) (gyration n k y (vopp x) u)).
    { unfold parallel_transport. veq. field. lra. }
    rewrite E, transport_smul. unfold parallel_transport.
    rewrite (gyration_gyr n k x (vopp y)), (gyration_gyr n k y (vopp x)) by auto.
    rewrite <- (gyr_opp_opp n k x (vopp y)). replace (vopp (vopp y)) with y by (veq; ring).
    rewrite gyr_inv by (apply regular_ne; auto). veq. field. lra.
  Qed.
  Lemma transport_from_0 k y v : parallel_transport n k vzero y v = parallel_transport0 n k y v.
  Proof.
    unfold parallel_transport, parallel_transport0.
    replace (vopp vzero) with vzero by (veq; ring).
    rewrite gyration_gyr, gyr_zero_r, lambda_0 by apply regular_0_r. unfold lambda_x.
    pose proof (clamp_min_pos e15 (1 + k * dot n y y) e15_pos). veq. field. lra.
  Qed.
  Lemma transport_to_0 k x v : parallel_transport n k x vzero v = parallel_transport0back n k x v.
  Proof.
    unfold parallel_transport, parallel_transport0back.
    rewrite gyration_gyr, gyr_zero_l, lambda_0 by apply regular_0_l. unfold lambda_x.
    pose proof (clamp_min_pos e15 (1 + k * dot n x x) e15_pos). veq. field. lra.
  Qed.
  Lemma transport0_inv k x v : parallel_transport0back n k x (parallel_transport0 n k x v) = v.
  Proof.
    unfold parallel_transport0, parallel_transport0back.
    pose proof (clamp_min_pos e15 (1 + k * dot n x x) e15_pos). veq. field. lra.
  Qed.
  Lemma transport0_inv' k x v : parallel_transport0 n k x (parallel_transport0back n k x v) = v.
  Proof.
    unfold parallel_transport0, parallel_transport0back.
    pose proof (clamp_min_pos e15 (1 + k * dot n x x) e15_pos). veq. field. lra.
  Qed.

  (** *** metric *)
  Lemma inner_sym k x u v : inner n k x u v = inner n k x v u.
  Proof. unfold inner. rewrite dot_comm. reflexivity. Qed.
  Lemma inner_add k x u v w : inner n k x (vadd u v) w = inner n k x u w + inner n k x v w.
  Proof. unfold inner. vexp. ring. Qed.
  Lemma inner_smul k x c u w : inner n k x (smul c u) w = c * inner n k x u w.
  Proof. unfold inner. vexp. ring. Qed.
  Lemma inner_pos k x u : ~ same n u vzero -> 0 < inner n k x u u.
  Proof.
    intros H. unfold inner. pose proof (lambda_pos n k x).
    assert (0 < dot n u u).
    { pose proof (dot_nonneg n u) as [P|P]; auto. exfalso; apply H.
      intros i Hi. apply (proj1 (dot_zero_iff n u)); auto. }
    apply Rmult_lt_0_compat; auto. apply pow_lt; auto.
  Qed.
  Lemma rgrad k x g v : inner n k x (egrad2rgrad n k x g) v = dot n g v.
  Proof. unfold inner, egrad2rgrad. vexp. pose proof (lambda_pos n k x). field. lra. Qed.
  Lemma norm_inner k x u : norm n k x u ^ 2 = inner n k x u u.
  Proof. unfold norm, inner. rewrite Rpow_mult_distr, nrm_sq2. reflexivity. Qed.

  (** *** sproj *)
  Lemma sproj_inv e k x : 0 <= e -> k <> 0 \/ 0 < e ->
    same n (sproj n e k (inv_sproj n e k x)) x.
  Proof.
    intros He Hk i Hi. pose proof (k_sqrt_pos e k He Hk). unfold sproj, inv_sproj, smul.
    fold (k_sqrt e k). cbv zeta.
    rewrite (proj2 (Nat.ltb_ge n n)) by lia. rewrite (proj2 (Nat.ltb_lt i n)) by auto.
    pose proof (lambda_pos n k x). field. split; [lra|].
    replace (k_sqrt e k * 1 + (k_sqrt e k * (lambda_x n k x - 1))) with (k_sqrt e k * lambda_x n k x) by ring.
    try (apply Rmult_integral_contrapositive_currified); lra.
  Qed.
End P.
