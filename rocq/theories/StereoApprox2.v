(** Lemmas: distributivity of scalar multiplication with the library's 1e-15. *)
From Coq Require Import Reals Lra Psatz Lia.
From Verif Require Import RVec StereoModel StereoSpec GyroAlgebra StereoTrig StereoProofs StereoProofs2 StereoProofs3
  StereoProofs4 StereoTaylor StereoApprox.
Local Open Scope R_scope.

Lemma abs_both t c : Rabs t <= c -> - c <= t <= c.
Proof. unfold Rabs. destruct Rcase_abs; lra. Qed.
Lemma tanh_cosh t : 1 - tanh t * tanh t = / (cosh t * cosh t).
Proof.
  pose proof (cosh_ge_1 t). unfold tanh. assert (E : cosh t * cosh t - sinh t * sinh t = 1).
  { unfold cosh, sinh. assert (exp t * exp (- t) = 1) by (rewrite <- exp_plus, Rplus_opp_r; apply exp_0). lra. }
  replace (1 - sinh t / cosh t * (sinh t / cosh t)) with ((cosh t * cosh t - sinh t * sinh t) / (cosh t * cosh t)) by (field; lra).
  rewrite E. field. lra.
Qed.
Lemma tanh_abs t : Rabs (tanh t) = tanh (Rabs t).
Proof.
  unfold Rabs at 2. destruct Rcase_abs as [H|H].
  - rewrite tanh_opp. apply Rabs_left. rewrite <- tanh_0. apply tanh_incr, H.
  - apply Rabs_right. rewrite <- tanh_0. apply Rle_ge, tanh_le. lra.
Qed.
Lemma tan_abs t : Rabs t < PI / 2 -> Rabs (tan t) = tan (Rabs t).
Proof.
  intros H. unfold Rabs at 2. apply Rabs_def2 in H. destruct Rcase_abs as [N|N].
  - rewrite tan_neg. apply Rabs_left. rewrite <- tan_0. apply tan_increasing; lra.
  - apply Rabs_right. destruct N as [N|N]; [|rewrite N, tan_0; lra].
    left. rewrite <- tan_0. apply tan_increasing; lra.
Qed.
Lemma inv_ratio e p : 0 <= e -> 0 < p -> 0 <= 1 - p / (p + e) <= e / p.
Proof.
  intros E P. assert (Q : 1 - p / (p + e) = e * / (p + e)) by (field; lra). rewrite Q. split.
  - apply Rmult_le_pos; [lra|left; apply Rinv_0_lt_compat; lra].
  - apply Rmult_le_compat_l; [lra|]. apply Rinv_le_contravar; lra.
Qed.

(** the correction factor (1 + T)/(1 + qT) *)
Lemma factor_pos q h T : 0 < q <= 1 -> 1 / q = 1 + h -> 0 <= T -> 1 <= (1 + T) / (1 + q * T) <= 1 + h.
Proof.
  intros Q H T0. assert (D : 0 < 1 + q * T) by nra. split; apply Rmult_le_reg_r with (1 + q * T); try exact D;
    unfold Rdiv; rewrite Rmult_assoc, Rinv_l by lra.
  - nra.
  - replace (1 + h) with (/ q) by (rewrite <- H; field; lra). rewrite Rmult_1_r.
    replace (/ q * (1 + q * T)) with (/ q + T) by (field; lra).
    assert (1 <= / q) by (rewrite <- Rinv_1 at 1; apply Rinv_le_contravar; lra). lra.
Qed.
Lemma factor_neg q T B : 0 < q <= 1 -> 0 <= T <= B -> B < 1 ->
  1 - (1 - q) * / (1 - B) <= (1 - T) / (1 - q * T) <= 1.
Proof.
  intros Q T0 B1. assert (D : 0 < 1 - q * T) by nra. split.
  - assert (E : (1 - T) / (1 - q * T) = 1 - (1 - q) * (T * / (1 - q * T))) by (field; lra). rewrite E.
    assert (T * / (1 - q * T) <= / (1 - B)).
    { rewrite <- (Rmult_1_l (/ (1 - B))). apply Rmult_le_compat; [lra|left; apply Rinv_0_lt_compat, D|lra|].
      apply Rinv_le_contravar; nra. }
    nra.
  - apply Rmult_le_reg_r with (1 - q * T); [exact D|]. unfold Rdiv. rewrite Rmult_assoc, Rinv_l by lra. nra.
Qed.

Section P.
  Variable n : nat.
  Implicit Types x y z u v w : vec.

  (** adding two multiples of one vector *)
  Lemma scalar_mul_add e k r1 r2 x (P1 P2 P3 c : R) : e15 <= nrm n x ->
    let A := artan_k e (nrm n x) k in
    tan_k e (r1 * A) k = P1 -> tan_k e (r2 * A) k = P2 -> tan_k e ((r1 + r2) * A) k = P3 ->
    1 - k * P1 * P2 <> 0 -> (P1 + P2) / (1 - k * P1 * P2) = c * P3 ->
    regular n k (mobius_scalar_mul n e k r1 x) (mobius_scalar_mul n e k r2 x) ->
    mobius_add n k (mobius_scalar_mul n e k r1 x) (mobius_scalar_mul n e k r2 x)
    = smul c (mobius_scalar_mul n e k (r1 + r2) x).
  Proof.
    intros N A H1 H2 H3 D E R. pose proof e15_pos. rewrite mobius_add_madd by auto. clear R.
    set (v := vdiv x (nrm n x)).
    assert (Ev : dot n v v = 1).
    { unfold v. vexp. rewrite <- nrm_sq. field. lra. }
    assert (F : forall r, mobius_scalar_mul n e k r x = smul (tan_k e (r * A) k) v).
    { intros r. unfold mobius_scalar_mul. rewrite clamp_min_id by auto. reflexivity. }
    rewrite !F, H1, H2, H3, madd_collinear by auto. rewrite E. unfold smul.
    apply FunctionalExtensionality.functional_extensionality. intros i. ring.
  Qed.

  Lemma distributive_neg e k r1 r2 x M : 0 <= e -> k < - / 10 ^ 8 -> norm_ok n x ->
    let A := artan_k e (nrm n x) k in
    0 <= M <= 15 -> Rabs (r1 * A) * rt e k <= M -> Rabs (r2 * A) * rt e k <= M -> Rabs ((r1 + r2) * A) * rt e k <= 15 ->
    regular n k (mobius_scalar_mul n e k r1 x) (mobius_scalar_mul n e k r2 x) ->
    exists c, 1 - e / (- k) * (cosh M) ^ 2 <= c <= 1 + e / (- k) /\ (0 <= r1 * r2 -> 1 <= c) /\
    (0 < e -> 0 < r1 * r2 -> 0 < nrm n x -> 1 < c) /\
    same n (mobius_add n k (mobius_scalar_mul n e k r1 x) (mobius_scalar_mul n e k r2 x))
           (smul c (mobius_scalar_mul n e k (r1 + r2) x)).
  Proof.
    intros E K N A M15 H1 H2 H3 R. pose proof e8_pos as E8. fold e8 in K. pose proof e15_pos as E15.
    assert (Kn : k <> 0) by lra. change (rt e k) with (k_sqrt e k) in *.
    assert (S1 := k_sqrt_pos e k E (or_introl Kn)). assert (Q1 := k_sqrt_sq e k E). rewrite Rabs_left in Q1 by lra.
    assert (He : 0 <= e / - k) by (apply Rmult_le_pos; [lra|left; apply Rinv_0_lt_compat; lra]).
    destruct N as [N|N].
    2:{ exists 1. assert (0 <= e / - k * cosh M ^ 2) by (apply Rmult_le_pos; [lra|apply pow2_ge_0]).
        split; [lra|]. split; [lra|]. split; [lra|].
        eapply same_trans; [apply mobius_add_same; apply scalar_mul_zero_vec; auto|].
        assert (Z := scalar_mul_zero_vec n e k (r1 + r2) x N).
        intros i Hi. unfold smul. rewrite Z by auto. rewrite add_0_l. unfold vzero. ring. }
    fold e15 in N. set (s := k_sqrt e k) in *.
    assert (Cl : forall t, Rabs t * s <= 15 -> tanh_c (t * s) = tanh (t * s)).
    { intros t Ht. rewrite <- (Rabs_right s) in Ht at 1 by lra. rewrite <- Rabs_mult in Ht.
      apply abs_both in Ht. unfold tanh_c. rewrite clamp_id; auto. }
    set (a := r1 * A * s). set (b := r2 * A * s). set (T := tanh a * tanh b). set (q := - k / (- k + e)).
    destruct (inv_ratio e (- k) E ltac:(lra)) as [Qa Qb]. fold q in Qa, Qb.
    assert (Qp : 0 < q) by (apply Rdiv_lt_0_compat; lra).
    assert (Ab : forall t, Rabs t * s = Rabs (t * s)) by (intros t; rewrite Rabs_mult, (Rabs_right s) by lra; reflexivity).
    assert (Ta : Rabs (tanh a) <= tanh M) by (rewrite tanh_abs; apply tanh_le; unfold a; rewrite <- Ab; exact H1).
    assert (Tb : Rabs (tanh b) <= tanh M) by (rewrite tanh_abs; apply tanh_le; unfold b; rewrite <- Ab; exact H2).
    assert (TT : Rabs T <= tanh M * tanh M).
    { unfold T. rewrite Rabs_mult. apply Rmult_le_compat; auto using Rabs_pos. }
    pose proof (tanh_lt_1 M) as TM. assert (tanh M * tanh M < 1) by nra.
    assert (Tr : - (tanh M * tanh M) <= T <= tanh M * tanh M) by (apply abs_both, TT).
    assert (Dq : 0 < 1 + q * T) by nra.
    assert (Iq : 1 / q = 1 + e / - k) by (unfold q; field; lra).
    exists ((1 + T) / (1 + q * T)). 
    assert (Ap : 0 < A).
    { apply artan_k_gt0; [exact E|right; left; exact K|lra]. }
    assert (Sg : forall p, 0 <= p -> 0 <= tanh p) by (intros p P; rewrite <- tanh_0; apply tanh_le, P).
    assert (Sg' : forall p, p <= 0 -> tanh p <= 0) by (intros p P; rewrite <- tanh_0; apply tanh_le, P).
    assert (Tsign : 0 <= r1 * r2 -> 0 <= T).
    { intros P. assert (As : 0 < A * s) by (apply Rmult_lt_0_compat; assumption). unfold T.
      destruct (Rle_lt_dec 0 r1) as [P1|P1]; destruct (Rle_lt_dec 0 r2) as [P2|P2].
      - apply Rmult_le_pos; apply Sg; unfold a, b; rewrite Rmult_assoc; apply Rmult_le_pos; lra.
      - assert (r1 = 0) by nra. unfold a. subst r1. rewrite !Rmult_0_l, tanh_0. lra.
      - assert (r2 = 0) by nra. unfold b. subst r2. rewrite !Rmult_0_l, tanh_0. lra.
      - assert (a < 0) by (unfold a; nra). assert (b < 0) by (unfold b; nra).
        pose proof (Sg' a ltac:(lra)). pose proof (Sg' b ltac:(lra)). nra. }
    repeat split.
    - destruct (Rle_lt_dec 0 T) as [P|P].
      + destruct (factor_pos q (e / - k) T ltac:(lra) Iq P) as [L _].
        assert (0 <= e / - k * cosh M ^ 2) by (apply Rmult_le_pos; [lra|apply pow2_ge_0]). lra.
      + destruct (factor_neg q (- T) (tanh M * tanh M) ltac:(lra) ltac:(lra) H) as [L _].
        replace (1 - - T) with (1 + T) in L by ring. replace (1 - q * - T) with (1 + q * T) in L by ring.
        rewrite tanh_cosh, Rinv_inv in L.
        assert (0 <= cosh M * cosh M) by nra. eapply Rle_trans; [|apply L].
        assert ((1 - q) * (cosh M * cosh M) <= e / - k * (cosh M * cosh M)) by (apply Rmult_le_compat_r; lra).
        cbn [pow]. lra.
    - destruct (Rle_lt_dec 0 T) as [P|P].
      + destruct (factor_pos q (e / - k) T ltac:(lra) Iq P) as [_ L]. exact L.
      + destruct (factor_neg q (- T) (tanh M * tanh M) ltac:(lra) ltac:(lra) H) as [_ L].
        replace (1 - - T) with (1 + T) in L by ring. replace (1 - q * - T) with (1 + q * T) in L by ring. lra.
    - intros P. destruct (factor_pos q (e / - k) T ltac:(lra) Iq (Tsign P)) as [L _]. exact L.
    - intros E0 P _. assert (As : 0 < A * s) by (apply Rmult_lt_0_compat; assumption).
      assert (Tp : 0 < T).
      { unfold T. destruct (Rtotal_order r1 0) as [P1|[P1|P1]]; [|subst; lra|].
        - assert (r2 < 0) by nra. assert (a < 0) by (unfold a; nra). assert (b < 0) by (unfold b; nra).
          pose proof (tanh_incr a 0 ltac:(lra)). pose proof (tanh_incr b 0 ltac:(lra)). rewrite tanh_0 in *. nra.
        - assert (0 < r2) by nra. assert (0 < a) by (unfold a; nra). assert (0 < b) by (unfold b; nra).
          pose proof (tanh_incr 0 a ltac:(lra)). pose proof (tanh_incr 0 b ltac:(lra)). rewrite tanh_0 in *. nra. }
      assert (q < 1).
      { unfold q. apply Rmult_lt_reg_r with (- k + e); [lra|]. unfold Rdiv. rewrite Rmult_assoc, Rinv_l by lra. lra. }
      apply Rmult_lt_reg_r with (1 + q * T); [exact Dq|]. unfold Rdiv. rewrite Rmult_assoc, Rinv_l by lra. nra.
    - apply same_eq.
      assert (Pl := tanh_plus a b). pose proof (tanh_den_pos a b) as Dp. fold T in Pl, Dp.
      apply scalar_mul_add with (P1 := / s * tanh a) (P2 := / s * tanh b) (P3 := / s * tanh (a + b)); auto.
      + fold A. rewrite tan_k_neg by auto. fold s. rewrite Cl by lra. reflexivity.
      + fold A. rewrite tan_k_neg by auto. fold s. rewrite Cl by lra. reflexivity.
      + fold A. rewrite tan_k_neg by auto. fold s. rewrite Cl by lra. f_equal. f_equal. unfold a, b. ring.
      + replace (1 - k * (/ s * tanh a) * (/ s * tanh b)) with (1 + - k / (s * s) * T) by (unfold T; field; lra).
        rewrite Q1. fold q. lra.
      + replace (1 - k * (/ s * tanh a) * (/ s * tanh b)) with (1 + - k / (s * s) * T) by (unfold T; field; lra).
        rewrite Q1. fold q. rewrite Pl. fold T. field. repeat split; lra.
  Qed.

  Lemma distributive_pos e k r1 r2 x M : 0 <= e -> / 10 ^ 8 < k -> norm_ok n x ->
    let A := artan_k e (nrm n x) k in
    0 <= M < PI / 4 -> Rabs (r1 * A) * rt e k <= M -> Rabs (r2 * A) * rt e k <= M ->
    regular n k (mobius_scalar_mul n e k r1 x) (mobius_scalar_mul n e k r2 x) ->
    exists c, 1 - e / k / (1 - (tan M) ^ 2) <= c <= 1 + e / k /\
    same n (mobius_add n k (mobius_scalar_mul n e k r1 x) (mobius_scalar_mul n e k r2 x))
           (smul c (mobius_scalar_mul n e k (r1 + r2) x)).
  Proof.
    intros E K N A M15 H1 H2 R. pose proof e8_pos as E8. fold e8 in K. pose proof e15_pos as E15.
    assert (Kn : k <> 0) by lra. change (rt e k) with (k_sqrt e k) in *. pose proof PI2_lt_10. pose proof PI_RGT_0.
    assert (S1 := k_sqrt_pos e k E (or_introl Kn)). assert (Q1 := k_sqrt_sq e k E). rewrite Rabs_right in Q1 by lra.
    assert (He : 0 <= e / k) by (apply Rmult_le_pos; [lra|left; apply Rinv_0_lt_compat; lra]).
    assert (TM : 0 <= tan M < 1).
    { split.
      - rewrite <- tan_0. destruct (proj1 M15) as [P|<-]; [left; apply tan_increasing; lra|lra].
      - assert (tan M < tan (PI / 4)) by (apply tan_increasing; lra). rewrite tan_PI4 in H3. exact H3. }
    assert (TT1 : 0 <= tan M * tan M < 1) by nra.
    assert (Bp : 0 <= e / k / (1 - tan M ^ 2)).
    { apply Rmult_le_pos; [exact He|left; apply Rinv_0_lt_compat]. cbn [pow]. lra. }
    destruct N as [N|N].
    2:{ exists 1. split; [lra|].
        eapply same_trans; [apply mobius_add_same; apply scalar_mul_zero_vec; auto|].
        assert (Z := scalar_mul_zero_vec n e k (r1 + r2) x N).
        intros i Hi. unfold smul. rewrite Z by auto. rewrite add_0_l. unfold vzero. ring. }
    fold e15 in N. set (s := k_sqrt e k) in *.
    set (a := r1 * A * s). set (b := r2 * A * s). set (T := tan a * tan b). set (q := k / (k + e)).
    destruct (inv_ratio e k E ltac:(lra)) as [Qa Qb]. fold q in Qa, Qb.
    assert (Qp : 0 < q) by (apply Rdiv_lt_0_compat; lra).
    assert (Ab : forall t, Rabs t * s = Rabs (t * s)) by (intros t; rewrite Rabs_mult, (Rabs_right s) by lra; reflexivity).
    rewrite Ab in H1, H2. fold a in H1. fold b in H2.
    assert (Mono : forall t, Rabs t <= M -> Rabs (tan t) <= tan M).
    { intros t Ht. rewrite tan_abs by lra. destruct Ht as [Ht|Ht]; [left; apply tan_increasing|rewrite Ht]; pose proof (Rabs_pos t); lra. }
    assert (TT : Rabs T <= tan M * tan M).
    { unfold T. rewrite Rabs_mult. apply Rmult_le_compat; auto using Rabs_pos. }
    assert (Tr : - (tan M * tan M) <= T <= tan M * tan M) by (apply abs_both, TT).
    assert (Dq : 0 < 1 - q * T) by nra.
    assert (Iq : 1 / q = 1 + e / k) by (unfold q; field; lra).
    apply abs_both in H1 as Ha. apply abs_both in H2 as Hb.
    exists ((1 - T) / (1 - q * T)). split; [split|].
    - destruct (Rle_lt_dec 0 T) as [P|P].
      + destruct (factor_neg q T (tan M * tan M) ltac:(lra) ltac:(lra) ltac:(lra)) as [L _].
        eapply Rle_trans; [|apply L]. cbn [pow]. rewrite Rmult_1_r. unfold Rdiv.
        assert ((1 - q) * / (1 - tan M * tan M) <= e / k * / (1 - tan M * tan M)).
        { apply Rmult_le_compat_r; [left; apply Rinv_0_lt_compat; lra|lra]. }
        unfold Rdiv in *. lra.
      + destruct (factor_pos q (e / k) (- T) ltac:(lra) Iq ltac:(lra)) as [L _].
        replace (1 + - T) with (1 - T) in L by ring. replace (1 + q * - T) with (1 - q * T) in L by ring. lra.
    - destruct (Rle_lt_dec 0 T) as [P|P].
      + destruct (factor_neg q T (tan M * tan M) ltac:(lra) ltac:(lra) ltac:(lra)) as [_ L]. lra.
      + destruct (factor_pos q (e / k) (- T) ltac:(lra) Iq ltac:(lra)) as [_ L].
        replace (1 + - T) with (1 - T) in L by ring. replace (1 + q * - T) with (1 - q * T) in L by ring. exact L.
    - apply same_eq.
      assert (Ca : 0 < cos a) by (apply cos_gt_0; lra). assert (Cb : 0 < cos b) by (apply cos_gt_0; lra).
      assert (Cc : 0 < cos (a + b)) by (apply cos_gt_0; lra).
      assert (D1 : 1 - T <> 0) by lra.
      assert (Pl := tan_plus a b ltac:(lra) ltac:(lra) ltac:(lra) D1). fold T in Pl.
      apply scalar_mul_add with (P1 := / s * tan a) (P2 := / s * tan b) (P3 := / s * tan (a + b)); auto.
      + fold A. rewrite tan_k_pos by auto. fold s. fold a. rewrite clamp_max_id by lra. reflexivity.
      + fold A. rewrite tan_k_pos by auto. fold s. fold b. rewrite clamp_max_id by lra. reflexivity.
      + fold A. rewrite tan_k_pos by auto. fold s. replace ((r1 + r2) * A * s) with (a + b) by (unfold a, b; ring).
        rewrite clamp_max_id by lra. reflexivity.
      + replace (1 - k * (/ s * tan a) * (/ s * tan b)) with (1 - k / (s * s) * T) by (unfold T; field; lra).
        rewrite Q1. fold q. lra.
      + replace (1 - k * (/ s * tan a) * (/ s * tan b)) with (1 - k / (s * s) * T) by (unfold T; field; lra).
        rewrite Q1. fold q. rewrite Pl. fold T. field. repeat split; lra.
  Qed.
End P.

(** ** instances *)
Lemma ex_triangle_ball : 0 <= e15 <= e15 /\ -1 < - / 10 ^ 8 /\ safe 1 (-1) (pt (1/2)) /\ safe 1 (-1) (pt (-1/2)) /\ safe 1 (-1) (pt 0).
Proof.
  pose proof e15_pos. pose proof e8_val as V8. unfold e8 in V8. rewrite V8. repeat split; try lra;
    apply safe_pt; [rewrite Rabs_right|rewrite Rabs_left|rewrite Rabs_R0]; lra.
Qed.

Lemma half_angle : artan_k e15 (nrm 1 (pt (1/2))) (-1) * rt e15 (-1) < 1.
Proof.
  pose proof e15_pos. pose proof e15_val as V15. pose proof e8_val. pose proof e7_val.
  rewrite nrm1, Rabs_right by lra. rewrite artan_k_neg by lra. change (rt e15 (-1)) with (k_sqrt e15 (-1)).
  assert (Sq := k_sqrt_sq e15 (-1) ltac:(lra)). rewrite Rabs_left in Sq by lra.
  assert (Sp : 0 < k_sqrt e15 (-1)) by (apply k_sqrt_pos; lra).
  set (s := k_sqrt e15 (-1)) in *. assert (1 < s < 11 / 10) by nra.
  replace (/ s * artanh_c (1 / 2 * s) * s) with (artanh_c (1 / 2 * s)) by (field; lra).
  rewrite artanh_c_id by lra. cut (atanh (1 / 2 * s) < atanh (tanh 1)); [rewrite atanh_tanh; trivial|].
  apply atanh_incr; [lra| |apply tanh_lt_1].
  assert (T : tanh 1 = (exp 2 - 1) / (exp 2 + 1)) by (rewrite tanh_exp; replace (2 * 1) with 2 by ring; reflexivity).
  assert (E2 : 4 <= exp 2).
  { replace 2 with (INR 2) by (cbn; ring). pose proof (exp_INR_ge 2). cbn [pow] in *. lra. }
  rewrite T. apply Rmult_lt_reg_r with (exp 2 + 1); [lra|].
  replace ((exp 2 - 1) / (exp 2 + 1) * (exp 2 + 1)) with (exp 2 - 1) by (field; lra). nra.
Qed.
Lemma half_regular r1 r2 : 0 < r1 -> 0 < r2 ->
  regular 1 (-1) (mobius_scalar_mul 1 e15 (-1) r1 (pt (1/2))) (mobius_scalar_mul 1 e15 (-1) r2 (pt (1/2))).
Proof.
  intros R1 R2. pose proof e15_pos. pose proof e15_val as V15. pose proof e8_val. unfold e15 in V15.
  assert (N : e15 <= nrm 1 (pt (1/2))) by (rewrite nrm1, Rabs_right, e15_val by lra; lra).
  rewrite !scalar_mul_form by exact N. unfold regular. fold e15.
  assert (Ap : 0 < artan_k e15 (nrm 1 (pt (1/2))) (-1)).
  { apply artan_k_gt0; [lra|right; left; lra|]. rewrite nrm1, Rabs_right; lra. }
  assert (Tp : forall r, 0 < r -> 0 <= tan_k e15 (r * artan_k e15 (nrm 1 (pt (1/2))) (-1)) (-1)).
  { intros r Hr. rewrite tan_k_neg by lra. assert (Sp : 0 < k_sqrt e15 (-1)) by (apply k_sqrt_pos; lra).
    apply Rmult_le_pos; [left; apply Rinv_0_lt_compat, Sp|]. unfold tanh_c. rewrite <- tanh_0. apply tanh_le.
    assert (0 < r * artan_k e15 (nrm 1 (pt (1 / 2))) (-1) * k_sqrt e15 (-1)) by (repeat apply Rmult_lt_0_compat; assumption).
    unfold clamp. apply Rmin_glb; [|lra]. eapply Rle_trans; [|apply Rmax_l]. lra. }
  pose proof (Tp r1 R1). pose proof (Tp r2 R2). rewrite nrm1, (Rabs_right (1/2)) in * by lra.
  set (a := tan_k e15 (r1 * artan_k e15 (1 / 2) (-1)) (-1)) in *. set (b := tan_k e15 (r2 * artan_k e15 (1 / 2) (-1)) (-1)) in *.
  assert (F : forall c, smul (c / (1 / 2)) (pt (1 / 2)) = pt c).
  { intros c. apply FunctionalExtensionality.functional_extensionality. intros i. unfold smul, pt. destruct i; field. }
  rewrite !F, !dot1. assert (0 <= a * b) by (apply Rmult_le_pos; assumption). unfold e15. rewrite V15. nra.
Qed.
Lemma ex_distributive : 0 <= e15 /\ -1 < - / 10 ^ 8 /\ norm_ok 1 (pt (1/2)) /\ 0 <= 1 <= 15 /\
  Rabs (1 * artan_k e15 (nrm 1 (pt (1/2))) (-1)) * rt e15 (-1) <= 1 /\
  Rabs ((1 + 1) * artan_k e15 (nrm 1 (pt (1/2))) (-1)) * rt e15 (-1) <= 15 /\
  regular 1 (-1) (mobius_scalar_mul 1 e15 (-1) 1 (pt (1/2))) (mobius_scalar_mul 1 e15 (-1) 1 (pt (1/2))).
Proof.
  pose proof e15_pos. pose proof e8_val as V8. unfold e8 in V8. pose proof e15_val as V15. unfold e15 in V15.
  assert (Ap : 0 < artan_k e15 (nrm 1 (pt (1/2))) (-1)).
  { apply artan_k_gt0; [lra|right; left; unfold e8; lra|]. rewrite nrm1, Rabs_right; lra. }
  pose proof half_angle. rewrite V8. split; [lra|]. split; [lra|]. split; [|split; [lra|split; [|split]]].
  - left. rewrite V15, nrm1, Rabs_right; lra.
  - rewrite Rabs_right by lra. lra.
  - rewrite Rabs_right by lra. lra.
  - apply half_regular; lra.
Qed.

Lemma distributive_refuted_lemma : exists k x, k = -1 /\ safe 1 k x /\
  ~ same 1 (mobius_scalar_mul 1 e15 k (1 + 1) x)
       (mobius_add 1 k (mobius_scalar_mul 1 e15 k 1 x) (mobius_scalar_mul 1 e15 k 1 x)).
Proof.
  exists (-1), (pt (1/2)). split; [reflexivity|]. split; [apply safe_pt; rewrite Rabs_right; lra|].
  destruct ex_distributive as (E & K & N & M & A1 & A2 & R).
  pose proof e15_pos. pose proof e15_val as V15. pose proof e8_val.
  destruct (distributive_neg 1 e15 (-1) 1 1 (pt (1/2)) 1 E K N M A1 A1 A2 R) as (c & _ & _ & C & S).
  assert (Np : 0 < nrm 1 (pt (1/2))) by (rewrite nrm1, Rabs_right; lra).
  specialize (C ltac:(lra) ltac:(lra) Np). intros G.
  specialize (G 0%nat ltac:(lia)). rewrite (S 0%nat ltac:(lia)) in G. unfold smul in G.
  assert (Nn : e15 <= nrm 1 (pt (1/2))) by (rewrite nrm1, Rabs_right; lra).
  assert (Z : 0 < mobius_scalar_mul 1 e15 (-1) (1 + 1) (pt (1/2)) 0%nat).
  { rewrite scalar_mul_form by exact Nn. unfold smul.
    assert (Ap : 0 < artan_k e15 (nrm 1 (pt (1/2))) (-1)) by (apply artan_k_gt0; [lra|right; left; lra|exact Np]).
    assert (Sp : 0 < k_sqrt e15 (-1)) by (apply k_sqrt_pos; lra).
    apply Rmult_lt_0_compat; [|unfold pt; lra]. apply Rdiv_lt_0_compat; [|exact Np].
    rewrite tan_k_neg by lra. apply Rmult_lt_0_compat; [apply Rinv_0_lt_compat, Sp|]. unfold tanh_c.
    rewrite <- tanh_0. apply tanh_incr.
    assert (0 < (1 + 1) * artan_k e15 (nrm 1 (pt (1 / 2))) (-1) * k_sqrt e15 (-1)) by (repeat apply Rmult_lt_0_compat; lra).
    unfold clamp. apply Rmin_glb_lt; [|lra]. eapply Rlt_le_trans; [|apply Rmax_l]. lra. }
  nra.
Qed.

Lemma ex_distributive_pos : 0 <= e15 /\ / 10 ^ 8 < 1 /\ norm_ok 1 (pt (1/4)) /\ 0 <= 1/2 < PI / 4 /\
  Rabs (1 * artan_k e15 (nrm 1 (pt (1/4))) 1) * rt e15 1 <= 1/2 /\
  regular 1 1 (mobius_scalar_mul 1 e15 1 1 (pt (1/4))) (mobius_scalar_mul 1 e15 1 1 (pt (1/4))).
Proof.
  pose proof e15_pos. pose proof e8_val as V8. unfold e8 in V8. pose proof e15_val as V15. pose proof PI2_1.
  assert (N : norm_ok 1 (pt (1/4))) by (left; fold e15; rewrite V15, nrm1, Rabs_right; lra).
  assert (Sq := k_sqrt_sq e15 1 ltac:(lra)). rewrite Rabs_right in Sq by lra.
  assert (Sp : 0 < k_sqrt e15 1) by (apply k_sqrt_pos; lra).
  change (rt e15 1) with (k_sqrt e15 1).
  assert (Kk : e8 < 1) by (unfold e8; rewrite V8; lra).
  split; [lra|]. split; [rewrite V8; lra|]. split; [exact N|]. split; [lra|]. split.
  - rewrite nrm1, (Rabs_right (1/4)) by lra. rewrite artan_k_pos by exact Kk. set (s := k_sqrt e15 1) in *.
    assert (1 < s < 11 / 10) by nra. assert (Pa : 0 <= atan (1 / 4 * s)) by (rewrite <- atan_0; left; apply atan_increasing; lra).
    assert (Pi : 0 < / s) by (apply Rinv_0_lt_compat; lra).
    rewrite Rabs_right by (apply Rle_ge; rewrite Rmult_1_l; apply Rmult_le_pos; lra).
    replace (1 * (/ s * atan (1 / 4 * s)) * s) with (atan (1 / 4 * s)) by (field; lra).
    assert (atan (1 / 4 * s) <= 1 / 4 * s); [|lra].
    apply (bounds atan (fun q : R => q) (fun q : R => / (1 + q ^ 2)) (fun _ => 1)); [lra|apply atan_0| | |].
    + intros q _. apply atan_derive.
    + intros q _. apply (@Coquelicot.Derive.is_derive_id Coquelicot.Hierarchy.R_AbsRing q).
    + intros q _. rewrite <- Rinv_1. apply Rinv_le_contravar; nra.
  - assert (S := scalar_mul_1 1 e15 1 (pt (1/4)) ltac:(lra) (or_intror (or_intror Kk)) N (fun F : 1 < 0 => False_ind _ (Rlt_asym _ _ F Rlt_0_1))).
    unfold regular. rewrite !(same_dot 1 _ (pt (1/4)) _ (pt (1/4)) S S). rewrite !dot1. fold e15. rewrite V15. lra.
Qed.
