(** Elementary functions that meet the contracts of FloatSpec: the real functions, rounded. *)
From Coq Require Import ZArith Reals Lra Lia List Bool Ratan.
From Flocq Require Import Core IEEE754.BinarySingleNaN.
From Verif Require Import FloatModel FloatSpec FloatProofs FloatProofs2 FloatProofs3 FloatProofs5 FloatProofs6 FloatProofs7.
Import ListNotations.
Open Scope R_scope.

Definition rounded (d : dtype) (v : R) : float d :=
  binary_normalize (prec d) (emax d) _ _ mode_NE
    (ZnearestE (scaled_mantissa radix2 (SpecFloat.fexp (prec d) (emax d)) v))
    (cexp radix2 (SpecFloat.fexp (prec d) (emax d)) v) false.
Lemma rounded_val d v : Rabs v <= @big d -> finite (rounded d v) /\ val (rounded d v) = rnd d v.
Proof.
  intros B. unfold rounded.
  assert (K := binary_normalize_correct (prec d) (emax d) _ _ mode_NE
    (ZnearestE (scaled_mantissa radix2 (SpecFloat.fexp (prec d) (emax d)) v))
    (cexp radix2 (SpecFloat.fexp (prec d) (emax d)) v) false).
  cbv zeta in K. change (round_mode mode_NE) with ZnearestE in K.
  change (F2R _) with (rnd d v) in K.
  assert (G : gf d (rnd d v)) by (apply generic_format_round; auto with typeclass_instances).
  rewrite (rnd_id _ G) in K.
  assert (A : Rabs (rnd d v) <= @big d).
  { apply Rabs_le_inv in B. apply Rabs_le. split; [apply rnd_ge|apply rnd_le]; try lra.
    - apply generic_format_opp, gf_big.
    - apply gf_big. }
  rewrite Rlt_bool_true in K.
  2:{ apply Rle_lt_trans with (1 := A). apply bpow_lt. lia. }
  destruct K as (K1 & K2 & _). split; auto.
Qed.

(** A relative error of 1/1024 away from the subnormal numbers. *)
Lemma u_small d : @u d <= / 1024.
Proof. unfold u. destruct d; cbn; lra. Qed.
Lemma rnd_close d v : bpow radix2 (-60) <= Rabs v -> Rabs (rnd d v - v) <= Rabs v / 1024.
Proof.
  intros H. apply Rle_trans with (@u d * Rabs v).
  - apply rnd_rel. apply Rle_trans with (2 := H). apply bpow_le. destruct d; cbv; discriminate.
  - assert (U := u_small d). assert (0 <= Rabs v) by apply Rabs_pos. unfold Rdiv. nra.
Qed.
(** No float is close to 1 except 1. *)
Lemma near_1 d (x : float d) : val x <> 1 -> bpow radix2 (-54) <= Rabs (val x - 1).
Proof.
  intros N. assert (G := gf_val x). assert (G1 : gf d 1) by (apply gf_int; destruct d; reflexivity).
  destruct (Rtotal_order (val x) 1) as [L|[E|L]]; [|contradiction|].
  - assert (P := pred_ge_gt _ _ _ _ G G1 L). change 1 with (bpow radix2 0) in P. rewrite pred_bpow in P.
    rewrite Rabs_left by lra. change (bpow radix2 0) with 1 in P.
    apply Rle_trans with (bpow radix2 (SpecFloat.fexp (prec d) (emax d) 0)); [|lra].
    apply bpow_le. destruct d; cbv; discriminate.
  - assert (P := succ_le_lt _ _ _ _ G1 G L). rewrite succ_eq_pos in P by lra.
    change 1 with (bpow radix2 0) in P. rewrite ulp_bpow in P. change (bpow radix2 0) with 1 in P.
    rewrite Rabs_pos_eq by lra.
    apply Rle_trans with (bpow radix2 (SpecFloat.fexp (prec d) (emax d) (0 + 1))); [|lra].
    apply bpow_le. destruct d; cbv; discriminate.
Qed.

Lemma ln_away d (x : float d) : 0 < val x -> val x <> 1 -> bpow radix2 (-60) <= Rabs (ln (val x)).
Proof.
  intros P N. assert (A := near_1 d x N). set (v := val x) in *. clearbody v.
  assert (D : bpow radix2 (-60) <= bpow radix2 (-54) / 2) by (cbn; lra).
  destruct (Rtotal_order v 1) as [L|[E|L]]; [|contradiction|].
  - assert (B : ln v <= v - 1).
    { apply ln_le_of_exp; auto. generalize (exp_ineq1_le (v - 1)). lra. }
    rewrite Rabs_left in A by lra. rewrite Rabs_left by lra. 
    assert (0 < bpow radix2 (-54)) by apply bpow_gt_0. lra.
  - rewrite (Rabs_pos_eq (v - 1)) in A by lra.
    assert (B : 1 - / v <= ln v).
    { rewrite <- (Ropp_involutive (ln v)), <- ln_Rinv by lra.
      assert (0 < / v) by (apply Rinv_0_lt_compat; lra).
      assert (ln (/ v) <= / v - 1); [|lra].
      apply ln_le_of_exp; auto. generalize (exp_ineq1_le (/ v - 1)). lra. }
    assert (0 < / v <= 1). { split; [apply Rinv_0_lt_compat; lra|]. rewrite <- Rinv_1. apply Rinv_le_contravar; lra. }
    rewrite Rabs_pos_eq by lra.
    assert (0 < bpow radix2 (-54)) by apply bpow_gt_0.
    destruct (Rle_or_lt v 2) as [S|S].
    + assert (1 - / v = (v - 1) * / v) by (field; lra).
      assert (/ 2 <= / v) by (apply Rinv_le_contravar; lra). nra.
    + assert (/ v < / 2) by (apply Rinv_lt_contravar; lra).
      assert (bpow radix2 (-54) <= / 2) by (cbn; lra). lra.
Qed.
Lemma ln_bound d (x : float d) : finite x -> 0 < val x -> Rabs (ln (val x)) <= @big d.
Proof.
  intros F P.
  assert (S : is_finite_strict x = true).
  { destruct x as [s|s| |s m e H]; try discriminate F; auto. unfold val in P. cbn in P. lra. }
  assert (L := abs_B2R_ge_emin _ _ _ S). assert (U := abs_B2R_lt_emax _ _ x).
  change (B2R x) with (val x) in *. rewrite Rabs_pos_eq in L, U by lra.
  apply Rle_trans with 1100; [|apply Rle_trans with (bpow radix2 127); [cbn; lra | apply bpow_le; destruct d; cbv; discriminate]].
  assert (U' : val x <= 2 ^ 1024).
  { replace (2 ^ 1024) with (bpow radix2 1024) by (rewrite (pow_IZR 2 1024); reflexivity).
    apply Rlt_le, Rlt_le_trans with (1 := U). apply bpow_le. destruct d; cbv; discriminate. }
  assert (L' : / 2 ^ 1080 <= val x).
  { replace (/ 2 ^ 1080) with (bpow radix2 (-1080)).
    2:{ replace (2 ^ 1080) with (bpow radix2 1080) by (rewrite (pow_IZR 2 1080); reflexivity).
        now rewrite <- bpow_opp. }
    apply Rle_trans with (2 := L). apply bpow_le. destruct d; cbv; discriminate. }
  apply ln_lower in L'. assert (H := ln_upper 1024 (val x) (conj P U')).
  rewrite INR_IZR_INZ in L', H. change (Z.of_nat 1024) with 1024%Z in H. change (Z.of_nat 1080) with 1080%Z in L'.
  apply Rabs_le. lra.
Qed.

Definition log_r (d : dtype) (x : float d) : float d :=
  match x with B754_infinity false => infinity | _ => rounded d (ln (val x)) end.
Lemma log_r_ok : log_ok log_r.
Proof.
  split; [|reflexivity]. intros d x F P.
  replace (log_r d x) with (rounded d (ln (val x))) by (destruct x as [s|s| |s m e H]; auto; discriminate F).
  destruct (rounded_val d (ln (val x))) as [G V]; [now apply ln_bound|]. split; auto. rewrite V.
  destruct (Req_dec (val x) 1) as [E|N].
  - rewrite E, ln_1. rewrite rnd_id by apply generic_format_0. rewrite Rminus_0_r, Rabs_R0. lra.
  - apply rnd_close. now apply ln_away.
Qed.

Definition tanh_r (d : dtype) (x : float d) : float d := rounded d (tanh (val x)).
Lemma tanh_r_ok : tanh_ok tanh_r.
Proof.
  intros d x F.
  assert (T : -1 <= tanh (val x) <= 1).
  { unfold tanh, sinh, cosh. assert (A := exp_pos (val x)). assert (B := exp_pos (- val x)).
    set (a := exp (val x)) in *. set (b := exp (- val x)) in *.
    replace ((a - b) / 2 / ((a + b) / 2)) with ((a - b) * / (a + b)) by (field; lra).
    assert (I : 0 < / (a + b)) by (apply Rinv_0_lt_compat; lra).
    assert (J : (a + b) * / (a + b) = 1) by (apply Rinv_r; lra). split; nra. }
  assert (G1 : gf d 1) by (apply gf_int; destruct d; reflexivity).
  destruct (rounded_val d (tanh (val x))) as [G V].
  { apply Rle_trans with 1; [apply Rabs_le; lra|]. generalize (@big_100 d). lra. }
  split; auto. unfold tanh_r. rewrite V. split.
  - apply Rabs_le. split; [apply rnd_ge|apply rnd_le]; auto; try lra.
    apply (gf_int (-1)). destruct d; reflexivity.
  - apply Rle_trans with (1 := rnd_abs d _).
    assert (Rabs (tanh (val x)) <= 1) by (apply Rabs_le; lra). lra.
Qed.

Definition acos_r (d : dtype) (x : float d) : float d := rounded d (Ratan.acos (val x)).
Lemma acos_r_ok : acos_ok acos_r.
Proof.
  intros d x F B.
  assert (R := acos_bound (val x)).
  destruct (rounded_val d (Ratan.acos (val x))) as [G V].
  { apply Rle_trans with 4; [apply Rabs_le; generalize PI_4; lra|]. generalize (@big_100 d). lra. }
  split; auto. unfold acos_r. rewrite V.
  assert (L : bpow radix2 (-60) <= Ratan.acos (val x)).
  { assert (P := proj1 (acos_bound_lt _ B)). assert (C := cos_acos (val x) ltac:(lra)).
    assert (A := near_1 d x ltac:(lra)). rewrite Rabs_left in A by lra.
    set (t := Ratan.acos (val x)) in *. set (v := val x) in *. clearbody t v.
    destruct (Rle_or_lt 1 t) as [T|T]; [apply Rle_trans with 1; auto; cbn; lra|].
    assert (0 < cos t). { apply cos_gt_0; generalize PI2_1; lra. }
    assert (S := sin_lt_x t P). assert (S0 : 0 < sin t). { apply sin_gt_0; generalize PI2_1; lra. }
    assert (Q := sin2_cos2 t). unfold Rsqr in Q. rewrite C in *.
    apply Rnot_lt_le. intros N.
    assert (E : bpow radix2 (-60) * bpow radix2 (-60) <= bpow radix2 (-54)).
    { rewrite <- bpow_plus. apply bpow_le. lia. }
    assert (sin t * sin t <= bpow radix2 (-60) * bpow radix2 (-60)) by (apply Rmult_le_compat; lra).
    nra. }
  assert (0 < bpow radix2 (-60)) by apply bpow_gt_0.
  assert (K := rnd_close d (Ratan.acos (val x))). rewrite (Rabs_pos_eq (Ratan.acos (val x))) in K by lra. auto.
Qed.

(** A row outside the ball, and its norm. *)
Definition row34 : list (float float32) := [of_Z 3; of_Z 4].
Lemma small_Z d n : (0 < n < 1000)%Z -> finite (of_Z n : float d) /\ val (of_Z n : float d) = IZR n.
Proof. intros H. apply of_Z_val. destruct d; cbn; lia. Qed.
