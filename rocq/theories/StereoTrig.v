(** Scalar lemmas: tanh/artanh, clamps, tan_k/artan_k. *)
From Coq Require Import Reals Lra Psatz.
From Verif Require Import RVec StereoModel.
Local Open Scope R_scope.

(** ** constants *)
Lemma e15_pos : 0 < e15. Proof. unfold e15. apply Rinv_0_lt_compat, pow_lt; lra. Qed.
Lemma e7_pos : 0 < e7. Proof. unfold e7. apply Rinv_0_lt_compat, pow_lt; lra. Qed.
Lemma e8_pos : 0 < e8. Proof. unfold e8. apply Rinv_0_lt_compat, pow_lt; lra. Qed.
Lemma e10_pos : 0 < e10. Proof. unfold e10. apply Rinv_0_lt_compat, pow_lt; lra. Qed.
Lemma e7_val : e7 = 1 / 10000000. Proof. unfold e7; simpl; field. Qed.
Lemma e8_val : e8 = 1 / 100000000. Proof. unfold e8; simpl; field. Qed.
Lemma e15_val : e15 = 1 / 1000000000000000. Proof. unfold e15; simpl; field. Qed.
Lemma e10_val : e10 = 1 / 10000000000. Proof. unfold e10; simpl; field. Qed.

(** ** clamps *)
Lemma clamp_min_id m x : m <= x -> clamp_min m x = x.
Proof. intros; unfold clamp_min. apply Rmax_left; auto. Qed.
Lemma clamp_min_low m x : x <= m -> clamp_min m x = m.
Proof. intros; unfold clamp_min. apply Rmax_right; auto. Qed.
Lemma clamp_min_ge m x : m <= clamp_min m x. Proof. apply Rmax_r. Qed.
Lemma clamp_min_ge_x m x : x <= clamp_min m x. Proof. apply Rmax_l. Qed.
Lemma clamp_min_pos m x : 0 < m -> 0 < clamp_min m x.
Proof. intros; eapply Rlt_le_trans; [eauto|apply clamp_min_ge]. Qed.
Lemma clamp_id lo hi x : lo <= x <= hi -> clamp lo hi x = x.
Proof. intros; unfold clamp. rewrite Rmax_left, Rmin_left; lra. Qed.
Lemma clamp_range lo hi x : lo <= hi -> lo <= clamp lo hi x <= hi.
Proof. intros; unfold clamp, Rmin, Rmax; repeat destruct Rle_dec; lra. Qed.
Lemma clamp_max_id m x : x <= m -> clamp_max m x = x.
Proof. intros; unfold clamp_max; apply Rmin_left; auto. Qed.

(** ** sign *)
Lemma sign_nonneg x : 0 <= x -> sign x = 1.
Proof. intros; unfold sign, torch_sign; repeat destruct Rlt_dec; lra. Qed.
Lemma sign_neg x : x < 0 -> sign x = -1.
Proof. intros; unfold sign, torch_sign; repeat destruct Rlt_dec; lra. Qed.
Lemma abs_zero_grad_abs x : abs_zero_grad x = Rabs x.
Proof.
  unfold abs_zero_grad. destruct (Rlt_le_dec x 0).
  - rewrite sign_neg, Rabs_left by auto. ring.
  - rewrite sign_nonneg, Rabs_right by lra. ring.
Qed.

(** ** tanh and artanh *)
Definition atanh (x : R) : R := (ln (1 + x) - ln (1 - x)) * (1 / 2).

Lemma tanh_exp x : tanh x = (exp (2 * x) - 1) / (exp (2 * x) + 1).
Proof.
  unfold tanh, sinh, cosh. rewrite exp_Ropp. pose proof (exp_pos x).
  replace (2 * x) with (x + x) by ring. rewrite exp_plus. field. split; nra.
Qed.
Lemma tanh_0 : tanh 0 = 0. Proof. rewrite tanh_exp, Rmult_0_r, exp_0. field. Qed.
Lemma tanh_lt_1 x : -1 < tanh x < 1.
Proof.
  rewrite tanh_exp. pose proof (exp_pos (2 * x)). split.
  - apply (Rmult_lt_reg_r (exp (2*x) + 1)); [lra|]. unfold Rdiv.
    rewrite Rmult_assoc, Rinv_l by lra. lra.
  - apply (Rmult_lt_reg_r (exp (2*x) + 1)); [lra|]. unfold Rdiv.
    rewrite Rmult_assoc, Rinv_l by lra. lra.
Qed.
Lemma tanh_opp x : tanh (- x) = - tanh x.
Proof.
  rewrite !tanh_exp. replace (2 * - x) with (- (2 * x)) by ring. rewrite exp_Ropp.
  pose proof (exp_pos (2 * x)). field. split; [lra|]. nra.
Qed.
Lemma exp_atanh x : -1 < x < 1 -> exp (2 * atanh x) = (1 + x) / (1 - x).
Proof.
  intros. unfold atanh. replace (2 * ((ln (1 + x) - ln (1 - x)) * (1 / 2)))
    with (ln (1 + x) + - ln (1 - x)) by field.
  rewrite exp_plus, exp_Ropp, !exp_ln by lra. unfold Rdiv; ring.
Qed.
Lemma tanh_atanh x : -1 < x < 1 -> tanh (atanh x) = x.
Proof. intros. rewrite tanh_exp, exp_atanh by auto. field. lra. Qed.
Lemma tanh_inj x y : tanh x = tanh y -> x = y.
Proof.
  rewrite !tanh_exp. intros E. pose proof (exp_pos (2 * x)). pose proof (exp_pos (2 * y)).
  assert (exp (2 * x) = exp (2 * y)).
  { apply (Rmult_eq_compat_r ((exp (2*x)+1)*(exp (2*y)+1))) in E.
    replace ((exp (2 * x) - 1) / (exp (2 * x) + 1) * ((exp (2 * x) + 1) * (exp (2 * y) + 1)))
      with ((exp (2*x) - 1) * (exp (2*y) + 1)) in E by (field; lra).
    replace ((exp (2 * y) - 1) / (exp (2 * y) + 1) * ((exp (2 * x) + 1) * (exp (2 * y) + 1)))
      with ((exp (2*y) - 1) * (exp (2*x) + 1)) in E by (field; lra). nra. }
  apply exp_inv in H1. lra.
Qed.
Lemma atanh_tanh x : atanh (tanh x) = x.
Proof. apply tanh_inj. apply tanh_atanh, tanh_lt_1. Qed.
Lemma atanh_0 : atanh 0 = 0.
Proof. unfold atanh. rewrite Rplus_0_r, Rminus_0_r. ring. Qed.
Lemma atanh_incr x y : -1 < x -> x < y -> y < 1 -> atanh x < atanh y.
Proof.
  intros. unfold atanh. assert (ln (1 + x) < ln (1 + y)) by (apply ln_increasing; lra).
  assert (ln (1 - y) < ln (1 - x)) by (apply ln_increasing; lra). lra.
Qed.
Lemma atanh_le x y : -1 < x -> x <= y -> y < 1 -> atanh x <= atanh y.
Proof.
  intros ? [?| -> ] ?; [|lra]. left; apply atanh_incr; lra.
Qed.
Lemma tanh_incr x y : x < y -> tanh x < tanh y.
Proof.
  intros. destruct (Rlt_le_dec (tanh x) (tanh y)) as [|[L|L]]; auto.
  - apply atanh_incr in L; try apply tanh_lt_1. rewrite !atanh_tanh in L. lra.
  - symmetry in L. apply tanh_inj in L. lra.
Qed.
Lemma tanh_le x y : x <= y -> tanh x <= tanh y.
Proof. intros [?| ->]; [left; apply tanh_incr; auto|lra]. Qed.
Lemma atanh_nonneg x : 0 <= x < 1 -> 0 <= atanh x.
Proof. intros. rewrite <- atanh_0. apply atanh_le; lra. Qed.
Lemma tanh_plus x y : tanh (x + y) = (tanh x + tanh y) / (1 + tanh x * tanh y).
Proof.
  rewrite !tanh_exp. replace (2 * (x + y)) with (2 * x + 2 * y) by ring. rewrite exp_plus.
  pose proof (exp_pos (2 * x)). pose proof (exp_pos (2 * y)).
  pose proof (Rmult_lt_0_compat _ _ H H0).
  field. repeat split; nra.
Qed.
Lemma tanh_den_pos x y : 0 < 1 + tanh x * tanh y.
Proof. pose proof (tanh_lt_1 x). pose proof (tanh_lt_1 y). nra. Qed.

(** the artanh clamp lies inside the tanh clamp *)
Lemma exp_INR_ge n : 2 ^ n <= exp (INR n).
Proof.
  induction n.
  - simpl. rewrite exp_0. lra.
  - rewrite S_INR, exp_plus. simpl pow. pose proof (exp_ineq1_le 1).
    assert (0 < 2 ^ n) by (apply pow_lt; lra). pose proof (exp_pos (INR n)).
    assert (2 ^ n * 2 <= exp (INR n) * exp 1) by (apply Rmult_le_compat; lra). lra.
Qed.
Lemma atanh_clamp_15 : atanh (1 - e7) < 15.
Proof.
  destruct (Rlt_le_dec (atanh (1 - e7)) 15) as [|L]; auto. exfalso.
  pose proof e7_pos. pose proof e7_val.
  assert (Hx : -1 < 1 - e7 < 1) by lra.
  pose proof (exp_atanh (1 - e7) Hx) as E.
  assert (H1 : exp 30 <= exp (2 * atanh (1 - e7))).
  { destruct L as [L|L]; [left; apply exp_increasing; lra|]. rewrite <- L. right; f_equal; lra. }
  pose proof (exp_INR_ge 30) as H3. replace (INR 30) with 30 in H3 by (simpl; lra).
  replace (2 ^ 30) with 1073741824 in H3 by (simpl; ring).
  rewrite E in H1. replace (1 - (1 - e7)) with e7 in H1 by ring. rewrite H0 in H1.
  assert ((1 + (1 - 1 / 10000000)) / (1 / 10000000) = 19999999) by field. lra.
Qed.

(** ** the code's tanh / artanh inside their clamps *)
Lemma tanh_c_bound x : -1 < tanh_c x < 1.
Proof. unfold tanh_c. apply tanh_lt_1. Qed.
Lemma tanh_c_0 : tanh_c 0 = 0.
Proof. unfold tanh_c. rewrite clamp_id by lra. apply tanh_0. Qed.
Lemma artanh_c_id x : -1 + e7 <= x <= 1 - e7 -> artanh_c x = atanh x.
Proof. intros. unfold artanh_c, atanh. cbv zeta. rewrite clamp_id by lra. reflexivity. Qed.
Lemma artanh_c_as x : artanh_c x = atanh (clamp (-1 + e7) (1 - e7) x).
Proof. reflexivity. Qed.
Lemma artanh_c_nonneg x : 0 <= x -> 0 <= artanh_c x.
Proof.
  intros. rewrite artanh_c_as. pose proof e7_pos. pose proof e7_val.
  apply atanh_nonneg. unfold clamp, Rmin, Rmax; repeat destruct Rle_dec; lra.
Qed.
Lemma artanh_c_0 : artanh_c 0 = 0.
Proof. pose proof e7_val. rewrite artanh_c_id by lra. apply atanh_0. Qed.
Lemma artanh_c_pos x : 0 < x -> 0 < artanh_c x.
Proof.
  intros. rewrite artanh_c_as. pose proof e7_pos. pose proof e7_val.
  rewrite <- atanh_0. apply atanh_incr; unfold clamp, Rmin, Rmax; repeat destruct Rle_dec; lra.
Qed.
Lemma artanh_c_mono x y : x <= y -> artanh_c x <= artanh_c y.
Proof.
  intros. rewrite !artanh_c_as. pose proof e7_pos. pose proof e7_val.
  apply atanh_le; unfold clamp, Rmin, Rmax; repeat destruct Rle_dec; lra.
Qed.

(** ** tan_k and artan_k *)
Lemma k_sqrt_pos e k : 0 <= e -> (k <> 0 \/ 0 < e) -> 0 < k_sqrt e k.
Proof.
  intros He H. unfold k_sqrt, sabs. apply sqrt_lt_R0. pose proof (Rabs_pos k).
  destruct H as [H|H]; [apply Rabs_pos_lt in H|]; lra.
Qed.
Lemma k_sqrt_sq e k : 0 <= e -> k_sqrt e k * k_sqrt e k = Rabs k + e.
Proof. intros. unfold k_sqrt, sabs. apply sqrt_sqrt. pose proof (Rabs_pos k). lra. Qed.

Lemma tan_k_neg e x k : k < - e8 -> tan_k e x k = / k_sqrt e k * tanh_c (x * k_sqrt e k).
Proof.
  intros. pose proof e8_pos. unfold tan_k, tan_k_at. destruct (k_zero k) as [Hz|Hz].
  - rewrite Rabs_left in Hz; lra.
  - destruct Rlt_dec; [reflexivity|lra].
Qed.
Lemma tan_k_pos e x k : e8 < k ->
  tan_k e x k = / k_sqrt e k * tan (clamp_max (10 ^ 38) (x * k_sqrt e k)).
Proof.
  intros. pose proof e8_pos. unfold tan_k, tan_k_at. destruct (k_zero k) as [Hz|Hz].
  - rewrite Rabs_right in Hz; lra.
  - destruct Rlt_dec; [lra|reflexivity].
Qed.
Lemma artan_k_neg e x k : k < - e8 -> artan_k e x k = / k_sqrt e k * artanh_c (x * k_sqrt e k).
Proof.
  intros. pose proof e8_pos. unfold artan_k, artan_k_at. destruct (k_zero k) as [Hz|Hz].
  - rewrite Rabs_left in Hz; lra.
  - destruct Rlt_dec; [reflexivity|lra].
Qed.
Lemma artan_k_pos e x k : e8 < k -> artan_k e x k = / k_sqrt e k * atan (x * k_sqrt e k).
Proof.
  intros. pose proof e8_pos. unfold artan_k, artan_k_at. destruct (k_zero k) as [Hz|Hz].
  - rewrite Rabs_right in Hz; lra.
  - destruct Rlt_dec; [lra|reflexivity].
Qed.
Lemma tan_k_zero e x : tan_k e x 0 = x.
Proof.
  unfold tan_k, tan_k_at. destruct (k_zero 0) as [Hz|Hz].
  - unfold tan_k_zero_taylor1. rewrite abs_zero_grad_abs, Rabs_R0. ring.
  - exfalso; apply Hz. rewrite Rabs_R0. pose proof e8_pos; lra.
Qed.
Lemma artan_k_zero e x : artan_k e x 0 = x.
Proof.
  unfold artan_k, artan_k_at. destruct (k_zero 0) as [Hz|Hz].
  - unfold artan_k_zero_taylor1. rewrite abs_zero_grad_abs, Rabs_R0. ring.
  - exfalso; apply Hz. rewrite Rabs_R0. pose proof e8_pos; lra.
Qed.
Lemma tan_k_0 e k : tan_k e 0 k = 0.
Proof.
  unfold tan_k, tan_k_at. destruct (k_zero k).
  - unfold tan_k_zero_taylor1. ring.
  - destruct Rlt_dec; rewrite Rmult_0_l.
    + rewrite tanh_c_0. ring.
    + rewrite clamp_max_id by (apply pow_le; lra). rewrite tan_0. ring.
Qed.
Lemma artan_k_0 e k : artan_k e 0 k = 0.
Proof.
  unfold artan_k, artan_k_at. destruct (k_zero k).
  - unfold artan_k_zero_taylor1. ring.
  - destruct Rlt_dec; rewrite Rmult_0_l.
    + rewrite artanh_c_0. ring.
    + rewrite atan_0. ring.
Qed.

(** curvatures handled exactly (not by the truncated series) *)
Definition exact_k (k : R) : Prop := k = 0 \/ k < - e8 \/ e8 < k.

(** argument region where artan_k's clamp is inactive *)
Definition artan_free (e k a : R) : Prop := k < 0 -> a * k_sqrt e k <= 1 - e7.
(** argument region where tan_k's clamp/period is not exceeded and artan_k recovers it *)
Definition tan_free (e k a : R) : Prop :=
  (k < 0 -> a * k_sqrt e k <= atanh (1 - e7)) /\
  (0 < k -> a * k_sqrt e k < PI / 2).

Lemma artan_k_nonneg e k a : 0 <= e -> exact_k k -> 0 <= a -> 0 <= artan_k e a k.
Proof.
  intros He [->|[Hk|Hk]] Ha.
  - rewrite artan_k_zero; auto.
  - assert (Hs : 0 < k_sqrt e k) by (apply k_sqrt_pos; auto; pose proof e8_pos; left; lra).
    rewrite artan_k_neg by auto. apply Rmult_le_pos; [left; apply Rinv_0_lt_compat; auto|].
    apply artanh_c_nonneg. apply Rmult_le_pos; lra.
  - assert (Hs : 0 < k_sqrt e k) by (apply k_sqrt_pos; auto; pose proof e8_pos; left; lra).
    rewrite artan_k_pos by auto. apply Rmult_le_pos; [left; apply Rinv_0_lt_compat; auto|].
    assert (0 <= a * k_sqrt e k) as [H|H] by (apply Rmult_le_pos; lra).
    + left. rewrite <- atan_0. apply atan_increasing; auto.
    + rewrite <- H, atan_0. lra.
Qed.
Lemma artan_k_gt0 e k a : 0 <= e -> exact_k k -> 0 < a -> 0 < artan_k e a k.
Proof.
  intros He [->|[Hk|Hk]] Ha.
  - rewrite artan_k_zero; auto.
  - assert (Hs : 0 < k_sqrt e k) by (apply k_sqrt_pos; auto; pose proof e8_pos; left; lra).
    rewrite artan_k_neg by auto. apply Rmult_lt_0_compat; [apply Rinv_0_lt_compat; auto|].
    apply artanh_c_pos. apply Rmult_lt_0_compat; lra.
  - assert (Hs : 0 < k_sqrt e k) by (apply k_sqrt_pos; auto; pose proof e8_pos; left; lra).
    rewrite artan_k_pos by auto. apply Rmult_lt_0_compat; [apply Rinv_0_lt_compat; auto|].
    rewrite <- atan_0. apply atan_increasing. apply Rmult_lt_0_compat; lra.
Qed.

Lemma PI2_lt_10 : PI / 2 < 10 ^ 38.
Proof. pose proof PI_4. assert (1 <= 10 ^ 37) by (apply pow_R1_Rle; lra). simpl in *. lra. Qed.

(** tan_k inverts artan_k, also after scaling down the angle *)
Lemma tan_artan e k a : 0 <= e -> exact_k k -> 0 <= a -> artan_free e k a ->
  tan_k e (artan_k e a k) k = a.
Proof.
  intros He [->|[Hk|Hk]] Ha F.
  - rewrite artan_k_zero, tan_k_zero; auto.
  - assert (Hs : 0 < k_sqrt e k) by (apply k_sqrt_pos; auto; pose proof e8_pos; left; lra).
    pose proof e8_pos. pose proof e7_pos. pose proof e7_val.
    assert (Hr : 0 <= a * k_sqrt e k <= 1 - e7).
    { split; [apply Rmult_le_pos; lra|]. apply F; lra. }
    rewrite tan_k_neg, artan_k_neg by auto.
    replace (/ k_sqrt e k * artanh_c (a * k_sqrt e k) * k_sqrt e k)
      with (artanh_c (a * k_sqrt e k)) by (field; lra).
    rewrite artanh_c_id by lra. unfold tanh_c.
    rewrite clamp_id.
    + rewrite tanh_atanh by lra. field. lra.
    + split.
      * assert (0 <= atanh (a * k_sqrt e k)) by (apply atanh_nonneg; lra). lra.
      * apply Rle_trans with (atanh (1 - e7)); [apply atanh_le; lra|].
        left; apply atanh_clamp_15.
  - assert (Hs : 0 < k_sqrt e k) by (apply k_sqrt_pos; auto; pose proof e8_pos; left; lra).
    rewrite tan_k_pos, artan_k_pos by auto.
    replace (/ k_sqrt e k * atan (a * k_sqrt e k) * k_sqrt e k)
      with (atan (a * k_sqrt e k)) by (field; lra).
    rewrite clamp_max_id.
    + rewrite tan_atan. field. lra.
    + pose proof (atan_bound (a * k_sqrt e k)). pose proof PI2_lt_10. lra.
Qed.

Lemma artan_tan e k b : 0 <= e -> exact_k k -> 0 <= b -> tan_free e k b ->
  artan_k e (tan_k e b k) k = b.
Proof.
  intros He [->|[Hk|Hk]] Hb [F1 F2].
  - rewrite tan_k_zero, artan_k_zero; auto.
  - assert (Hs : 0 < k_sqrt e k) by (apply k_sqrt_pos; auto; pose proof e8_pos; left; lra).
    pose proof e8_pos. pose proof e7_pos. pose proof e7_val.
    rewrite tan_k_neg, artan_k_neg by auto.
    assert (Hr : 0 <= b * k_sqrt e k <= atanh (1 - e7)).
    { split; [apply Rmult_le_pos; lra|]. apply F1; lra. }
    pose proof atanh_clamp_15. unfold tanh_c. rewrite clamp_id by lra.
    replace (/ k_sqrt e k * tanh (b * k_sqrt e k) * k_sqrt e k)
      with (tanh (b * k_sqrt e k)) by (field; lra).
    rewrite artanh_c_id, atanh_tanh.
    + field. lra.
    + split.
      * apply Rle_trans with (tanh 0); [rewrite tanh_0; lra|apply tanh_le; lra].
      * rewrite <- (tanh_atanh (1 - e7)) by lra. apply tanh_le; lra.
  - assert (Hs : 0 < k_sqrt e k) by (apply k_sqrt_pos; auto; pose proof e8_pos; left; lra).
    pose proof e8_pos. rewrite tan_k_pos, artan_k_pos by auto.
    assert (Hr : 0 <= b * k_sqrt e k < PI / 2).
    { split; [apply Rmult_le_pos; lra|]. apply F2; lra. }
    pose proof PI2_lt_10. rewrite clamp_max_id by lra.
    replace (/ k_sqrt e k * tan (b * k_sqrt e k) * k_sqrt e k)
      with (tan (b * k_sqrt e k)) by (field; lra).
    rewrite atan_tan by lra. field. lra.
Qed.

Lemma tan_k_nonneg e k b : 0 <= e -> exact_k k -> 0 <= b -> tan_free e k b -> 0 <= tan_k e b k.
Proof.
  intros He [->|[Hk|Hk]] Hb [F1 F2].
  - rewrite tan_k_zero; auto.
  - assert (Hs : 0 < k_sqrt e k) by (apply k_sqrt_pos; auto; pose proof e8_pos; left; lra).
    rewrite tan_k_neg by auto. apply Rmult_le_pos; [left; apply Rinv_0_lt_compat; auto|].
    assert (0 <= b * k_sqrt e k) by (apply Rmult_le_pos; lra).
    unfold tanh_c. rewrite <- tanh_0. apply tanh_le.
    unfold clamp, Rmin, Rmax; repeat destruct Rle_dec; lra.
  - assert (Hs : 0 < k_sqrt e k) by (apply k_sqrt_pos; auto; pose proof e8_pos; left; lra).
    pose proof e8_pos. rewrite tan_k_pos by auto.
    assert (Hr : 0 <= b * k_sqrt e k < PI / 2).
    { split; [apply Rmult_le_pos; lra|]. apply F2; lra. }
    pose proof PI2_lt_10. rewrite clamp_max_id by lra.
    apply Rmult_le_pos; [left; apply Rinv_0_lt_compat; auto|].
    destruct (Req_dec (b * k_sqrt e k) 0) as [->|N]; [rewrite tan_0; lra|].
    left. apply tan_gt_0; lra.
Qed.

(** the angle returned by artan_k, scaled by t in [0,1], is in tan_k's free region *)
Lemma artan_tan_free e k a t : 0 <= e -> exact_k k -> 0 <= a -> 0 <= t <= 1 ->
  tan_free e k (t * artan_k e a k).
Proof.
  intros He K Ha Ht. pose proof e8_pos. pose proof (artan_k_nonneg e k a He K Ha).
  assert (t * artan_k e a k <= artan_k e a k) by nra.
  split; intros Hk.
  - destruct K as [->|[K|K]]; try lra.
    assert (Hs : 0 < k_sqrt e k) by (apply k_sqrt_pos; auto; left; lra).
    apply Rle_trans with (artan_k e a k * k_sqrt e k); [apply Rmult_le_compat_r; lra|].
    rewrite artan_k_neg by auto.
    replace (/ k_sqrt e k * artanh_c (a * k_sqrt e k) * k_sqrt e k)
      with (artanh_c (a * k_sqrt e k)) by (field; lra).
    rewrite artanh_c_as. pose proof e7_val.
    destruct (clamp_range (-1 + e7) (1 - e7) (a * k_sqrt e k)); [lra|].
    apply atanh_le; lra.
  - destruct K as [->|[K|K]]; try lra.
    assert (Hs : 0 < k_sqrt e k) by (apply k_sqrt_pos; auto; left; lra).
    apply Rle_lt_trans with (artan_k e a k * k_sqrt e k); [apply Rmult_le_compat_r; lra|].
    rewrite artan_k_pos by auto.
    replace (/ k_sqrt e k * atan (a * k_sqrt e k) * k_sqrt e k)
      with (atan (a * k_sqrt e k)) by (field; lra).
    apply atan_bound.
Qed.
