(** Cancellation: arsinh at negative arguments, and the Lorentz distance far from the origin. *)
From Coq Require Import ZArith Reals List Bool Lra Lia Psatz.
From Flocq Require Import Core IEEE754.BinarySingleNaN Relative.
From Verif Require Import FloatModel FloatSpec FloatProofs FloatProofs2 FloatProofs3 FloatProofs4.
Open Scope R_scope.

Lemma ln_le_of_exp a t : 0 < a -> a <= exp t -> ln a <= t.
Proof. intros A H. rewrite <- (ln_exp t). destruct H as [L|E]; [left; now apply ln_increasing | rewrite E; lra]. Qed.
Lemma ln_ge_of_exp a t : exp t <= a -> t <= ln a.
Proof. intros H. rewrite <- (ln_exp t) at 1. destruct H as [L|E]; [left; apply ln_increasing; [apply exp_pos|auto] | rewrite E; lra]. Qed.
Lemma exp_pow t n : exp (INR n * t) = exp t ^ n.
Proof.
  induction n as [|n IH]. { cbn. rewrite Rmult_0_l. apply exp_0. }
  rewrite S_INR. replace ((INR n + 1) * t) with (t + INR n * t) by ring. rewrite exp_plus, IH. reflexivity.
Qed.
Lemma ln_2_tight : 2 / 3 <= ln 2 <= 72 / 100.
Proof.
  split.
  - apply ln_ge_of_exp. replace (2 / 3) with (INR 15 * (2 / 45)) by (cbn; field). rewrite exp_pow.
    assert (E : exp (2 / 45) <= 45 / 43).
    { assert (H := exp_ineq1_le (- (2 / 45))). rewrite exp_Ropp in H.
      assert (P := exp_pos (2 / 45)). apply Rmult_le_reg_r with (/ exp (2 / 45)); [now apply Rinv_0_lt_compat|].
      rewrite Rinv_r by lra. lra. }
    apply Rle_trans with ((45 / 43) ^ 15).
    + apply pow_incr. split; [left; apply exp_pos|auto].
    + cbn. lra.
  - apply ln_le_of_exp; [lra|]. replace (72 / 100) with (INR 16 * (45 / 1000)) by (cbn; field). rewrite exp_pow.
    apply Rle_trans with ((1045 / 1000) ^ 16).
    + cbn. lra.
    + apply pow_incr. split; [lra|]. generalize (exp_ineq1_le (45 / 1000)). lra.
Qed.
Lemma ln_upper_neg n a : 0 < a <= / 2 ^ n -> ln a <= - INR n * (2 / 3).
Proof.
  intros [A B]. apply Rle_trans with (ln (/ 2 ^ n)).
  - destruct B as [L|E]; [left; now apply ln_increasing | rewrite E; lra].
  - assert (0 < 2 ^ n) by (apply pow_lt; lra). rewrite ln_Rinv, ln_pow2 by auto.
    generalize ln_2_tight (pos_INR n). nra.
Qed.
Lemma ln_upper_pos n a : 0 < a <= 2 ^ n -> ln a <= INR n * (72 / 100).
Proof.
  intros [A B]. apply Rle_trans with (ln (2 ^ n)).
  - destruct B as [L|E]; [left; now apply ln_increasing | rewrite E; lra].
  - rewrite ln_pow2. generalize ln_2_tight (pos_INR n). nra.
Qed.

Section D.
  Context {d : dtype}.
  Implicit Types x y k n : float d.
  Notation top := (half_emax (d := d) - 1)%Z.

  Lemma u_eq : @u d = bpow radix2 (- prec d).
  Proof. unfold u. change (/ 2) with (bpow radix2 (-1)). rewrite <- bpow_plus. f_equal. lia. Qed.

  Lemma sqrt_upper a s : 0 <= a -> 0 <= s -> s <= a * a * (1 + @u d) -> sqrt s <= a * (1 + @u d / 2).
  Proof.
    intros A S H. assert (U := @u_small d). apply Rsqr_incr_0; [|apply sqrt_pos|nra].
    unfold Rsqr. rewrite sqrt_def by auto. nra.
  Qed.
  Lemma sqrt_lower a s : 0 <= a -> 0 <= s -> a * a * (1 - @u d) <= s ->
    a * (1 - @u d / 2 - @u d * @u d / 2) <= sqrt s.
  Proof.
    intros A S H. assert (U := @u_small d). set (w := @u d) in *. apply Rsqr_incr_0; [|apply Rmult_le_pos; nra|apply sqrt_pos].
    unfold Rsqr. rewrite sqrt_def by auto.
    assert (Q : (1 - w / 2 - w * w / 2) * (1 - w / 2 - w * w / 2) <= 1 - w).
    { replace ((1 - w / 2 - w * w / 2) * (1 - w / 2 - w * w / 2))
        with (1 - w - w * w * (1 - (1 + w) * (1 + w) / 4)) by field.
      assert (0 <= w * w * (1 - (1 + w) * (1 + w) / 4)) by (apply Rmult_le_pos; nra). lra. }
    assert (A2 : 0 <= a * a) by nra. apply Rle_trans with (2 := H).
    replace (a * (1 - w / 2 - w * w / 2) * (a * (1 - w / 2 - w * w / 2)))
      with (a * a * ((1 - w / 2 - w * w / 2) * (1 - w / 2 - w * w / 2))) by ring.
    now apply Rmult_le_compat_l.
  Qed.

  (** The root of a rounded square is exact. *)
  Lemma sqrt_sqr (a : R) : gf d a -> 1 <= a -> rnd d (sqrt (rnd d (a * a))) = a.
  Proof.
    intros G A. assert (U := @u_small d). set (s := rnd d (a * a)).
    assert (N : bpow radix2 (- half_emax (d := d) - 2) <= a * a).
    { apply Rle_trans with (bpow radix2 0); [apply low_le; lia|]. cbn. nra. }
    destruct (normal _ N) as [S1 S2]. fold s in S1, S2.
    assert (S0 : 0 <= s) by nra.
    set (e := mag radix2 a : Z).
    assert (E1 : bpow radix2 (e - 1) <= a) by (generalize (bpow_mag_le radix2 a); unfold e; rewrite Rabs_pos_eq; lra).
    assert (E2 : a < bpow radix2 e) by (generalize (bpow_mag_gt radix2 a); unfold e; rewrite Rabs_pos_eq; lra).
    assert (E0 : (1 <= e)%Z).
    { apply (mag_ge_bpow radix2 a 1). cbn. rewrite Rabs_pos_eq; lra. }
    assert (UL : ulp radix2 (fx d) a = bpow radix2 e * @u d).
    { rewrite ulp_neq_0 by lra. rewrite u_eq, <- bpow_plus. f_equal. unfold cexp. fold e.
      unfold SpecFloat.fexp. rewrite Z.max_l; [lia|]. unfold SpecFloat.emin. destruct d; cbn; lia. }
    assert (EP : 0 < bpow radix2 e) by apply bpow_gt_0.
    apply Rle_antisym.
    - apply round_N_le_midp; auto with typeclass_instances.
      rewrite succ_eq_pos by lra. rewrite UL.
      apply Rle_lt_trans with (a * (1 + @u d / 2)); [apply sqrt_upper; lra|]. nra.
    - destruct (Req_dec a (bpow radix2 (e - 1))) as [Q|Q].
      + assert (s = a * a) as ->.
        { unfold s. apply rnd_id. rewrite Q, <- bpow_plus. apply gf_bpow. destruct d; cbn; lia. }
        rewrite sqrt_square by lra. rewrite rnd_id; auto. lra.
      + apply round_N_ge_midp; auto with typeclass_instances.
        rewrite pred_eq_pos by lra. unfold pred_pos. fold e. rewrite Req_bool_false by auto. rewrite UL.
        apply Rlt_le_trans with (a * (1 - @u d / 2 - @u d * @u d / 2)); [|apply sqrt_lower; lra].
        assert (P := id_p_ulp_le_bpow radix2 (fx d) a e). rewrite UL in P.
        assert (A0 : 0 < a) by lra. specialize (P A0 G E2). 
        assert (a * (1 + @u d) < bpow radix2 e).
        { assert (a <= bpow radix2 e * (1 - @u d)) by lra.
          assert (a * (1 + @u d) <= bpow radix2 e * (1 - @u d) * (1 + @u d)) by (apply Rmult_le_compat_r; lra). nra. }
        nra.
  Qed.
  Lemma large_bounds : 1 <= large d /\ bpow radix2 (prec d + 1) <= large d * large d.
  Proof. unfold large. destruct d; cbn; lra. Qed.
  Lemma top_big a : a <= bpow radix2 top -> 0 <= a -> a * a <= @big d.
  Proof.
    intros A P. apply Rle_trans with (bpow radix2 top * bpow radix2 top); [apply Rmult_le_compat; lra|].
    rewrite <- bpow_plus. apply bpow_le. unfold half_emax. destruct d; cbv; discriminate.
  Qed.
  Lemma sqr_val x : finite x -> Rabs (val x) <= bpow radix2 top ->
    finite (sqr x) /\ val (sqr x) = rnd d (Rabs (val x) * Rabs (val x)).
  Proof.
    intros F B. rewrite <- Rabs_mult, Rabs_pos_eq by nra.
    apply mul_val; auto. rewrite Rabs_mult. apply top_big; auto. apply Rabs_pos.
  Qed.
  (** sqrt(1 + x^2) is |x| for large x *)
  Lemma hypot_large x y : finite x -> large d <= Rabs (val x) <= bpow radix2 top ->
    finite y -> val y = 1 ->
    finite (fsqrt (add y (sqr x))) /\ val (fsqrt (add y (sqr x))) = Rabs (val x).
  Proof.
    intros F B Fy Vy. destruct (sqr_val x F) as [Fs Vs]; [lra|]. destruct large_bounds as [L1 L2].
    set (a := Rabs (val x)) in *.
    assert (G : gf d (bpow radix2 (prec d + 1))) by (apply gf_bpow; destruct d; cbv; discriminate).
    assert (S1 : bpow radix2 (prec d + 1) <= rnd d (a * a)).
    { apply rnd_ge; auto. apply Rle_trans with (1 := L2). apply Rmult_le_compat; lra. }
    assert (P := bpow_gt_0 radix2 (prec d + 1)).
    assert (S2 : rnd d (a * a) <= bpow radix2 (2 * top)).
    { apply rnd_le. { apply gf_bpow. unfold half_emax. destruct d; cbv; discriminate. }
      replace (2 * top)%Z with (top + top)%Z by lia. rewrite bpow_plus. apply Rmult_le_compat; lra. }
    destruct (add_val y (sqr x) Fy Fs) as [Fa Va].
    { rewrite Vy, Vs, Rabs_pos_eq by lra. unfold big.
      assert (bpow radix2 0 <= bpow radix2 (2 * top)) by (apply bpow_le; unfold half_emax; destruct d; cbv; discriminate).
      change (bpow radix2 0) with 1 in H. apply Rle_trans with (2 * bpow radix2 (2 * top)); [lra|].
      change 2 with (bpow radix2 1). rewrite <- bpow_plus. apply bpow_le. unfold half_emax. destruct d; cbv; discriminate. }
    assert (V : val (add y (sqr x)) = rnd d (a * a)).
    { rewrite Va, Vy, Vs. rewrite Rplus_comm. apply absorb; [|exact S1|lra]. rewrite <- Vs. apply gf_val. }
    destruct (sqrt_val (add y (sqr x)) Fa) as [Fq Vq]; [rewrite V; lra|]. split; auto.
    rewrite Vq, V. apply sqrt_sqr; [|lra]. unfold a. rewrite <- abs_val. apply gf_val.
  Qed.

  Section Fns.
    Variable log : forall d, float d -> float d.
    Hypothesis Hlog : log_ok log.
    Lemma arsinh_negative x : finite x -> - bpow radix2 top <= val x <= - large d ->
      arsinh log x = log d tiny.
    Proof.
      intros F B. destruct large_bounds as [L1 _]. destruct (one_val (d := d)) as [F1 V1].
      destruct (hypot_large x (of_Z 1) F) as [Fh Vh]; auto. { rewrite Rabs_left by lra. lra. }
      rewrite Rabs_left in Vh by lra. unfold arsinh. set (h := fsqrt _) in *.
      destruct (add_val x h F Fh) as [Fa Va].
      { rewrite Vh. replace (val x + - val x) with 0 by ring. rewrite Rabs_R0. generalize (@big_100 d). lra. }
      replace (val x + val h) with 0 in Va by lra. rewrite round_0 in Va by auto with typeclass_instances.
      destruct (@tiny_val d) as (Ft & _ & Bt). f_equal. change (cast e15) with (@tiny d). unfold clamp_min.
      rewrite lt_val by auto. rewrite Va, Rlt_bool_true by lra. reflexivity.
    Qed.
    Lemma log_tiny : finite (log d tiny) /\ val (log d tiny) <= -32.
    Proof.
      destruct (@tiny_val d) as (Ft & _ & Bt). destruct (proj1 Hlog d tiny Ft) as [F E]; [lra|]. split; auto.
      assert (L : ln (val (@tiny d)) <= - INR 49 * (2 / 3)).
      { apply ln_upper_neg. replace (2 ^ 49) with 562949953421312 by ring. lra. }
      assert (INR 49 = 49) by (cbn; ring). rewrite H in L.
      revert E. unfold Rabs. repeat destruct Rcase_abs; lra.
    Qed.
    (** With an overflowing square, the value is +infinity whatever the sign. *)
    Lemma arsinh_overflow x : finite x -> bpow radix2 (half_emax (d := d)) <= Rabs (val x) -> arsinh log x = infinity.
    Proof.
      intros F B.
      assert (S : sqr x = infinity).
      { unfold sqr. destruct (mul_cases x x F F) as [[A V]|[A _]].
        - exfalso. assert (G : gf d (bpow radix2 (emax d))) by (apply gf_bpow; destruct d; cbv; discriminate).
          assert (bpow radix2 (emax d) <= val (mul x x)).
          { rewrite V. apply rnd_ge; auto.
            replace (val x * val x) with (Rabs (val x) * Rabs (val x)) by (rewrite <- Rabs_mult; apply Rabs_pos_eq; nra).
            replace (emax d) with (half_emax (d := d) + half_emax (d := d))%Z by (unfold half_emax; destruct d; reflexivity).
            rewrite bpow_plus. assert (0 < bpow radix2 (half_emax (d := d))) by apply bpow_gt_0.
            apply Rmult_le_compat; lra. }
          assert (K := fin_lt _ A). generalize (Rle_abs (val (mul x x))). lra.
        - rewrite A. now rewrite xorb_nilpotent. }
      unfold arsinh. rewrite S. destruct (one_val (d := d)) as [F1 _].
      assert (add (of_Z 1) infinity = infinity) as ->.
      { clear - F1. unfold finite in F1. destruct (of_Z 1) as [s|s| |s m e H]; try discriminate F1; reflexivity. }
      change (fsqrt infinity) with (@infinity d).
      assert (add x infinity = infinity) as ->.
      { clear - F. unfold finite in F. destruct x as [s|s| |s m e H]; try discriminate F; reflexivity. }
      destruct (@tiny_val d) as (Ft & _). change (cast e15) with (@tiny d). unfold clamp_min.
      assert (lt infinity (@tiny d) = false) as ->.
      { clear - Ft. unfold finite in Ft. destruct (@tiny d) as [|s| |[]]; try reflexivity; discriminate Ft. }
      apply (proj2 Hlog).
    Qed.
  End Fns.
End D.
