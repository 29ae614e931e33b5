(** [project] of FloatModel ends strictly inside the ball. *)
From Coq Require Import ZArith Reals List Bool Lra Lia Psatz.
From Flocq Require Import Core IEEE754.BinarySingleNaN Relative.
From Verif Require Import FloatModel FloatSpec FloatProofs FloatProofs2 FloatProofs3.
Open Scope R_scope.

Definition shrink {d} : float d := cast (sub (of_Z 1) (default_eps d)).
Definition N2 {d} (x : list (float d)) : R := fold_right (fun xi s => val xi * val xi + s) 0 x.
Lemma N2_nonneg {d} (x : list (float d)) : 0 <= N2 x.
Proof. induction x as [|a x IH]; cbn; [lra|]. fold (N2 x). nra. Qed.
Lemma N2_ge {d} (x : list (float d)) a : In a x -> val a * val a <= N2 x.
Proof.
  induction x as [|b x IH]; [easy|]. intros [->|H]; cbn; fold (N2 x).
  - generalize (N2_nonneg x). lra.
  - generalize (IH H). nra.
Qed.
Lemma norm_ge {d} (x : list (float d)) a : In a x -> Rabs (val a) <= norm x.
Proof.
  intros H. unfold norm. fold (N2 x). rewrite <- sqrt_Rsqr_abs. apply sqrt_le_1_alt. now apply N2_ge.
Qed.
(** Entries bounded by a multiple and a constant. *)
Lemma N2_bound {d} (f : float d -> float d) (al be tau : R) (x : list (float d)) :
  0 < tau -> 0 <= al -> 0 <= be ->
  (forall a, In a x -> Rabs (val (f a)) <= al * Rabs (val a) + be) ->
  N2 (map f x) <= (1 + tau) * (al * al) * N2 x + (1 + / tau) * (be * be) * INR (length x).
Proof.
  intros T A B. induction x as [|a x IH]; intros H. { cbn. lra. }
  cbn [map length]. rewrite S_INR. cbn; fold (N2 x) (N2 (map f x)).
  assert (I := IH (fun b Hb => H b (or_intror Hb))).
  assert (P := H a (or_introl eq_refl)).
  assert (Q : val (f a) * val (f a) <= (1 + tau) * (al * al) * (val a * val a) + (1 + / tau) * (be * be)).
  { set (v := al * Rabs (val a)) in *.
    assert (V : al * al * (val a * val a) = v * v).
    { unfold v. assert (Rabs (val a) * Rabs (val a) = val a * val a) by (rewrite <- Rabs_mult; apply Rabs_pos_eq; nra).
      nra. }
    assert (0 <= v) by (unfold v; apply Rmult_le_pos; [lra|apply Rabs_pos]).
    assert (W : val (f a) * val (f a) <= (v + be) * (v + be)).
    { assert (Rabs (val (f a)) * Rabs (val (f a)) = val (f a) * val (f a)) by (rewrite <- Rabs_mult; apply Rabs_pos_eq; nra).
      rewrite <- H1. apply Rmult_le_compat; auto using Rabs_pos. }
    assert (X : 2 * v * be <= tau * (v * v) + / tau * (be * be)).
    { assert (E : tau * (v * v) + / tau * (be * be) - 2 * v * be = / tau * ((tau * v - be) * (tau * v - be)))
        by (field; lra).
      assert (0 < / tau) by now apply Rinv_0_lt_compat.
      assert (0 <= / tau * ((tau * v - be) * (tau * v - be))) by (apply Rmult_le_pos; [lra|apply Rle_0_sqr]).
      lra. }
    rewrite Rmult_assoc, V. nra. }
  nra.
Qed.

Definition cc (d : dtype) : R := match d with float32 => 997 / 1000 | float64 => 99999001 / 100000000 end.
Section D.
  Context {d : dtype}.
  Implicit Types k n : float d.
  Lemma shrink_val : finite (shrink : float d) /\ / 2 <= val (shrink : float d) <= cc d.
  Proof.
    destruct d.
    - destruct (const_val (shrink : float float32) false 16710107 (-24)) as [F V]; [vm_compute; reflexivity|].
      split; auto. rewrite V. unfold cc. cbn. lra.
    - destruct (const_val (shrink : float float64) false 9007109182748445 (-53)) as [F V]; [vm_compute; reflexivity|].
      split; auto. rewrite V. unfold cc. cbn. lra.
  Qed.
  Notation low := (- half_emax (d := d) - 2)%Z.
  Lemma normal v : bpow radix2 low <= v -> v * (1 - @u d) <= rnd d v <= v * (1 + @u d).
  Proof.
    intros H. assert (0 < bpow radix2 low) by apply bpow_gt_0.
    assert (E := @rnd_rel d v). rewrite Rabs_pos_eq in E by lra.
    assert (L : bpow radix2 (emin d + prec d - 1) <= v).
    { apply Rle_trans with (2 := H). apply bpow_le. unfold half_emax. destruct d; cbv; discriminate. }
    specialize (E L). apply Rabs_le_inv in E. lra.
  Qed.
  Lemma u_small : 0 < @u d <= / 16777216.
  Proof. split; [apply u_pos|]. unfold u. destruct d; cbn; lra. Qed.
  Lemma low_le e : (-60 <= e)%Z -> bpow radix2 low <= bpow radix2 e.
  Proof. intros. apply bpow_le. unfold half_emax. destruct d; cbn; lia. Qed.

  Definition gg : R := (1 + @u d) * (1 + @u d) * cc d / (1 - @u d).
  Definition hh : R := / (1 - accuracy d).
  Lemma recip_upper k : finite k -> val k < 0 ->
    val (recip (k_sqrt k)) * sqrt (- val k) * (1 - @u d) <= 1 + @u d.
  Proof.
    intros F K. destruct (recip_val k F) as (_ & Vr & Br). destruct (k_sqrt_val k F) as (_ & Vs & Bs).
    destruct (sabs_val k F) as (_ & _ & A & _). rewrite Rabs_left in A by auto.
    assert (U := u_small). assert (P25 : 0 < bpow radix2 (-25)) by apply bpow_gt_0.
    set (r := val (recip (k_sqrt k))) in *. set (s := val (k_sqrt k)) in *.
    assert (S1 : sqrt (- val k) <= sqrt (val (sabs k))) by now apply sqrt_le_1_alt.
    assert (S0 : 0 < sqrt (- val k)) by (apply sqrt_lt_R0; lra).
    assert (Ss : sqrt (val (sabs k)) * (1 - @u d) <= s).
    { rewrite Vs. apply normal. 
      destruct (@tiny_val d) as (_ & _ & Bt). destruct (sabs_val k F) as (_ & _ & _ & B).
      apply Rle_trans with (bpow radix2 (-25)); [apply low_le; lia|].
      rewrite <- (sqrt_Rsqr (bpow radix2 (-25))) by apply bpow_ge_0. apply sqrt_le_1_alt.
      rewrite p25. unfold Rsqr. lra. }
    assert (Rr : r <= / s * (1 + @u d)).
    { rewrite Vr. apply normal. apply Rle_trans with (bpow radix2 (- half_emax (d := d))).
      - apply bpow_le. lia.
      - rewrite bpow_opp. apply Rinv_le_contravar; lra. }
    assert (r * s <= 1 + @u d).
    { apply Rle_trans with (/ s * (1 + @u d) * s); [apply Rmult_le_compat_r; lra|]. right. field. lra. }
    assert (0 < bpow radix2 (- half_emax (d := d))) by apply bpow_gt_0.
    assert (sqrt (- val k) * (1 - @u d) <= s) by nra.
    apply Rle_trans with (r * s); [|auto]. rewrite Rmult_assoc. apply Rmult_le_compat_l; lra.
  Qed.
  Lemma maxnorm_ok k : finite k -> val k < 0 ->
    finite (maxnorm k) /\ bpow radix2 low <= val (maxnorm k) <= bpow radix2 26 /\
    val (maxnorm k) * sqrt (- val k) <= gg.
  Proof.
    intros F K. destruct (@of_Z_val d 0) as [F0 V0]; [destruct d; reflexivity|].
    unfold maxnorm, where_. rewrite lt_val by auto. rewrite V0, Rlt_bool_true by auto.
    change (cast (sub (of_Z 1) (default_eps d))) with (@shrink d).
    destruct (recip_val k F) as (Fr & Vr & Br). destruct shrink_val as [Fc Bc].
    assert (C1 : cc d < 1) by (destruct d; cbn; lra). assert (U := u_small).
    assert (0 < bpow radix2 (- half_emax (d := d))) by apply bpow_gt_0.
    destruct (mul_val (recip (k_sqrt k)) shrink Fr Fc) as [G V].
    { rewrite Rabs_pos_eq by nra. apply Rle_trans with (bpow radix2 25); [nra|]. apply big_ge. lia. }
    split; auto. assert (RU := recip_upper k F K).
    set (M := val (mul _ _)) in *. set (r := val (recip (k_sqrt k))) in *.
    set (c := val (@shrink d)) in *.
    assert (N : 2 * bpow radix2 low <= r * c).
    { unfold Zminus. rewrite bpow_plus. change (bpow radix2 (- (2))) with (/ 4). nra. }
    assert (0 < bpow radix2 low) by apply bpow_gt_0.
    assert (D := normal (r * c)). rewrite <- V in D. destruct D as [D1 D2]; [lra|].
    assert (S0 : 0 < sqrt (- val k)) by (apply sqrt_lt_R0; lra).
    split; [split|].
    - nra.
    - change 26%Z with (25 + 1)%Z. rewrite bpow_plus. change (bpow radix2 1) with 2. nra.
    - unfold gg. apply Rmult_le_reg_r with (1 - @u d); [lra|].
      replace ((1 + @u d) * (1 + @u d) * cc d / (1 - @u d) * (1 - @u d)) with ((1 + @u d) * (1 + @u d) * cc d) by (field; lra).
      apply Rle_trans with (r * c * (1 + @u d) * (sqrt (- val k) * (1 - @u d))).
      + rewrite Rmult_assoc. apply Rmult_le_compat_r; auto. apply Rmult_le_pos; lra.
      + replace (r * c * (1 + @u d) * (sqrt (- val k) * (1 - @u d)))
          with (r * sqrt (- val k) * (1 - @u d) * (c * (1 + @u d))) by ring.
        apply Rle_trans with ((1 + @u d) * (c * (1 + @u d))).
        * apply Rmult_le_compat_r; auto. apply Rmult_le_pos; lra.
        * apply Rle_trans with ((1 + @u d) * (cc d * (1 + @u d))); [|right; ring].
          apply Rmult_le_compat_l; [lra|]. apply Rmult_le_compat_r; lra.
  Qed.

  (** The computed norm, after the clamp, is not much less than the norm. *)
  Lemma acc_bounds : @u d <= accuracy d <= / 1024.
  Proof. unfold u. destruct d; cbn; lra. Qed.
  Lemma norm_nonneg (x : list (float d)) : 0 <= norm x.
  Proof. apply sqrt_pos. Qed.
  Lemma norm_upper (x : list (float d)) n : finite n ->
    Rabs (val n - norm x) <= accuracy d * Rmax (norm x) (/ 1000000000000000) ->
    finite (clamp_min n tiny) /\ 0 < val (clamp_min n tiny) /\ norm x <= hh * val (clamp_min n tiny).
  Proof.
    intros F E. destruct (@tiny_val d) as (Ft & Et & Bt). assert (A := acc_bounds). assert (U := u_small).
    split; [now apply clamp_min_fin|]. rewrite clamp_min_val by auto.
    assert (N0 := norm_nonneg x).
    assert (L : norm x * (1 - accuracy d) <= Rmax (val n) (val (@tiny d))).
    { apply Rabs_le_inv in E. apply Rabs_le_inv in Et. revert E. unfold Rmax.
      destruct (Rle_dec (norm x)); destruct Rle_dec; intros; nra. }
    split.
    - unfold Rmax. destruct Rle_dec; lra.
    - unfold hh. apply Rmult_le_reg_r with (1 - accuracy d); [lra|].
      replace (/ (1 - accuracy d) * Rmax (val n) (val (@tiny d)) * (1 - accuracy d))
        with (Rmax (val n) (val (@tiny d))) by (field; lra). exact L.
  Qed.
  Lemma hh_bounds : 1 <= hh <= 513 / 512.
  Proof.
    unfold hh. assert (A := acc_bounds). assert (U := u_small). split.
    - rewrite <- Rinv_1. apply Rinv_le_contravar; lra.
    - apply Rmult_le_reg_r with (1 - accuracy d); [lra|]. rewrite Rinv_l by lra. lra.
  Qed.

  (** One entry of a row that is scaled. *)
  Lemma entry_ok (a n M : float d) : finite a -> finite n -> 0 < val n -> Rabs (val a) <= hh * val n ->
    finite M -> 0 < val M <= bpow radix2 26 ->
    finite (mul (div a n) M) /\
    Rabs (val (mul (div a n) M))
      <= val M * (1 + @u d) * (1 + @u d) / val n * Rabs (val a) + @eta d * (val M * (1 + @u d) + 1).
  Proof.
    intros Fa Fn Pn B FM PM. assert (H := hh_bounds). assert (U := u_small). assert (T := @eta_pos d).
    assert (0 < / val n) by now apply Rinv_0_lt_compat.
    assert (Q : Rabs (val a / val n) = Rabs (val a) / val n).
    { unfold Rdiv. rewrite Rabs_mult, (Rabs_pos_eq (/ val n)); lra. }
    assert (Q2 : Rabs (val a / val n) <= 2).
    { rewrite Q. apply Rle_trans with (hh * val n / val n).
      - apply Rmult_le_compat_r; lra.
      - unfold Rdiv. rewrite Rmult_assoc, Rinv_r; lra. }
    destruct (div_val a n Fa) as [Fq Vq]; [lra| |].
    { apply Rle_trans with (1 := Q2). generalize (@big_100 d). lra. }
    set (q := div a n) in *.
    assert (q2 : Rabs (val q) <= 2).
    { rewrite Vq. apply abs_round_le_generic; auto with typeclass_instances. apply gf_2. }
    destruct (mul_val q M Fq FM) as [Fp Vp].
    { rewrite Rabs_mult, (Rabs_pos_eq (val M)) by lra. apply Rle_trans with (bpow radix2 27).
      - change 27%Z with (1 + 26)%Z. rewrite bpow_plus. change (bpow radix2 1) with 2.
        apply Rmult_le_compat; auto using Rabs_pos; lra.
      - apply big_ge. lia. }
    split; auto.
    assert (E : forall v, Rabs (rnd d v) <= Rabs v * (1 + @u d) + @eta d).
    { intros v. destruct (@rnd_err d v) as (e & m & He & Hm & ->).
      apply Rle_trans with (Rabs (v * (1 + e)) + Rabs m); [apply Rabs_triang|]. rewrite Rabs_mult.
      assert (Rabs (1 + e) <= 1 + @u d).
      { apply Rle_trans with (Rabs 1 + Rabs e); [apply Rabs_triang|]. rewrite Rabs_R1. lra. }
      generalize (Rabs_pos v). nra. }
    rewrite Vp. apply Rle_trans with (1 := E _). rewrite Rabs_mult, (Rabs_pos_eq (val M)) by lra.
    assert (I : Rabs (val q) <= Rabs (val a) / val n * (1 + @u d) + @eta d).
    { rewrite Vq, <- Q. apply E. }
    apply Rle_trans with ((Rabs (val a) / val n * (1 + @u d) + @eta d) * val M * (1 + @u d) + @eta d).
    - apply Rplus_le_compat_r. apply Rmult_le_compat_r; [lra|]. apply Rmult_le_compat_r; lra.
    - right. field. lra.
  Qed.

  Definition gs : R := match d with float32 => 9971 / 10000 | float64 => 9999902 / 10000000 end.
  Definition hs : R := match d with float32 => 1001 / 1000 | float64 => 10000042 / 10000000 end.
  Lemma gg_le : 0 < gg <= gs.
  Proof.
    assert (U := u_small). assert (0 < cc d) by (destruct d; cbn; lra).
    assert (0 < / (1 - @u d)) by (apply Rinv_0_lt_compat; lra). unfold gg. split.
    - unfold Rdiv. repeat apply Rmult_lt_0_compat; lra.
    - apply Rmult_le_reg_r with (1 - @u d); [lra|].
      replace ((1 + @u d) * (1 + @u d) * cc d / (1 - @u d) * (1 - @u d)) with ((1 + @u d) * (1 + @u d) * cc d) by (field; lra).
      unfold gs, cc. destruct d; nra.
  Qed.
  Lemma hh_le : hh * (1 + @u d) * (1 + @u d) <= hs.
  Proof.
    assert (U := u_small). assert (A := acc_bounds). assert (H := hh_bounds).
    assert (E : hh * (1 - accuracy d) = 1) by (unfold hh; field; lra).
    assert (hh <= match d with float32 => 100099 / 100000 | float64 => 10000039 / 10000000 end).
    { unfold accuracy in *. destruct d; lra. }
    unfold hs. destruct d; nra.
  Qed.
  Notation tau := (/ 1048576).
  Lemma gap : gs * gs * ((1 + tau) * (hs * hs) + / 1125899906842624) < 1.
  Proof. unfold gs, hs. destruct d; lra. Qed.
  Lemma gap1 : gs * hh < 1.
  Proof.
    assert (U := u_small). assert (H := hh_le). assert (B := hh_bounds).
    assert (hh <= hs). { apply Rle_trans with (2 := H). nra. }
    revert H0. unfold gs, hs. destruct d; nra.
  Qed.

  Lemma lt_sqr a b : 0 <= a -> 0 < b -> a * a < b * b -> a < b.
  Proof. intros. nra. Qed.
  (** What is left of underflow. *)
  Lemma eta_small M len : bpow radix2 low <= M <= bpow radix2 26 -> 0 <= len <= bpow radix2 64 ->
    (1 + / tau) * ((@eta d * (M * (1 + @u d) + 1)) * (@eta d * (M * (1 + @u d) + 1))) * len
      <= / 1125899906842624 * (M * M).
  Proof.
    intros B L. assert (U := u_small). assert (T := @eta_pos d). assert (P := bpow_gt_0 radix2 low).
    assert (Z : @eta d <= bpow radix2 (- 60 - 24) * M /\ @eta d <= bpow radix2 (- 60 - 24)).
    { split.
      - apply Rle_trans with (bpow radix2 (-60 - 24) * bpow radix2 low).
        + unfold eta. rewrite <- bpow_plus. change (/ 2) with (bpow radix2 (-1)). rewrite <- bpow_plus.
          apply bpow_le. unfold half_emax. destruct d; cbv; discriminate.
        + apply Rmult_le_compat_l; [apply bpow_ge_0|lra].
      - unfold eta. apply Rle_trans with (bpow radix2 (emin d)).
        + generalize (bpow_gt_0 radix2 (emin d)). lra.
        + apply bpow_le. destruct d; cbv; discriminate. }
    set (b := @eta d * (M * (1 + @u d) + 1)).
    assert (Q : 0 <= b <= bpow radix2 (-82) * M).
    { unfold b. split; [apply Rmult_le_pos; nra|].
      assert (0 < bpow radix2 (-60 - 24)) by apply bpow_gt_0.
      replace (bpow radix2 (-82)) with (4 * bpow radix2 (-60 - 24)) by (cbn; lra).
      destruct Z as [Z1 Z2]. set (B0 := bpow radix2 (-60 - 24)) in *.
      assert (@eta d * M <= B0 * M) by (apply Rmult_le_compat_r; lra).
      assert (@eta d * M * (1 + @u d) <= B0 * M * 2) by (apply Rmult_le_compat; nra). lra. }
    assert (Q2 : b * b <= bpow radix2 (-164) * (M * M)).
    { change (-164)%Z with (-82 + -82)%Z. rewrite bpow_plus.
      replace (bpow radix2 (-82) * bpow radix2 (-82) * (M * M)) with ((bpow radix2 (-82) * M) * (bpow radix2 (-82) * M)) by ring.
      apply Rmult_le_compat; lra. }
    assert (M2 : 0 <= M * M) by nra.
    rewrite Rinv_inv.
    apply Rle_trans with (1048577 * (bpow radix2 (-164) * (M * M)) * bpow radix2 64).
    - apply Rmult_le_compat; try lra; nra.
    - replace (1048577 * (bpow radix2 (-164) * (M * M)) * bpow radix2 64)
        with (1048577 * (bpow radix2 (-164) * bpow radix2 64) * (M * M)) by ring.
      rewrite <- bpow_plus. apply Rmult_le_compat_r; auto. cbn. lra.
  Qed.

  Theorem project_in_ball (x : list (float d)) n k :
    Forall finite x -> (Z.of_nat (length x) <= 2 ^ 64)%Z -> norm_ok x n -> finite k -> val k < 0 ->
    in_ball k (project x n k).
  Proof.
    intros Fx Lx Hn Fk Kk. destruct (maxnorm_ok k Fk Kk) as (FM & BM & GM).
    assert (PM := bpow_gt_0 radix2 low).
    assert (S0 : 0 < sqrt (- val k)) by (apply sqrt_lt_R0; lra).
    assert (I0 : 0 < / sqrt (- val k)) by now apply Rinv_0_lt_compat.
    unfold project. change (cast e15) with (@tiny d). set (M := maxnorm k) in *.
    destruct gg_le as [G0 G1].
    assert (MG : val M <= gs * / sqrt (- val k)).
    { apply Rmult_le_reg_r with (sqrt (- val k)); auto. rewrite Rmult_assoc, Rinv_l by lra. lra. }
    assert (GS : 0 < gs) by (unfold gs; destruct d; lra).
    destruct (@tiny_val d) as (Ft & _ & Bt).
    destruct Hn as [->|[Fn En]].
    - (* the norm overflowed *)
      assert (clamp_min infinity (@tiny d) = infinity) as ->.
      { unfold clamp_min. assert (lt infinity (@tiny d) = false) as ->.
        { clear - Ft. unfold finite in Ft. destruct (@tiny d) as [|s| |[]]; try reflexivity; discriminate Ft. }
        reflexivity. }
      assert (lt M infinity = true) as ->.
      { clear - FM. unfold finite in FM. destruct M as [|s| |[]]; try reflexivity; discriminate FM. }
      cbn [where_].
      assert (Z : forall a, finite a -> finite (mul (div a infinity) M) /\ val (mul (div a infinity) M) = 0).
      { intros a Fa. assert (exists s, div a infinity = B754_zero s) as [s ->].
        { clear - Fa. unfold finite in Fa. destruct a as [s|s| |s m e H]; try discriminate Fa; eexists; reflexivity. }
        clear - FM. unfold finite in *. destruct M as [t|t| |t m e H]; try discriminate FM; split; reflexivity. }
      split.
      + apply Forall_map. apply Forall_impl with (2 := Fx). intros a Fa. apply Z, Fa.
      + unfold norm. match goal with |- sqrt ?v < _ => assert (v = 0) as -> end.
        { clear - Z Fx. induction Fx as [|a x Fa Fx IH]; cbn; auto. rewrite IH. destruct (Z a Fa) as [_ ->]. ring. }
        rewrite sqrt_0. auto.
    - destruct (norm_upper x n Fn En) as (Fc & Pc & Uc). set (c := clamp_min n tiny) in *.
      rewrite lt_val by auto. case Rlt_bool_spec; intros C; cbn [where_].
      + (* scaled *)
        assert (E : forall a, In a x -> finite (mul (div a c) M) /\
           Rabs (val (mul (div a c) M)) <= val M * (1 + @u d) * (1 + @u d) / val c * Rabs (val a)
                                          + @eta d * (val M * (1 + @u d) + 1)).
        { intros a Ha. assert (Fa : finite a) by (revert a Ha; now apply Forall_forall).
          apply entry_ok; auto; try lra. apply Rle_trans with (2 := Uc). now apply norm_ge. }
        split.
        * apply Forall_map. apply Forall_forall. intros a Ha. apply E, Ha.
        * assert (U := u_small). assert (T := @eta_pos d).
          assert (HH := hh_bounds).
          set (al := val M * (1 + @u d) * (1 + @u d) / val c).
          assert (A0 : 0 <= al).
          { unfold al, Rdiv. assert (0 < / val c) by now apply Rinv_0_lt_compat. repeat apply Rmult_le_pos; lra. }
          assert (B0 : 0 <= @eta d * (val M * (1 + @u d) + 1)) by (apply Rmult_le_pos; nra).
          assert (T0 : 0 < tau) by lra.
          assert (B := N2_bound (fun xi => mul (div xi c) M) al _ tau x T0 A0 B0 (fun a Ha => proj2 (E a Ha))).
          set (y := map _ x) in *.
          assert (L : 0 <= INR (length x) <= bpow radix2 64).
          { split; [apply pos_INR|]. rewrite INR_IZR_INZ. apply Rle_trans with (IZR (2 ^ 64)); [now apply IZR_le|].
            right. reflexivity. }
          assert (ES := eta_small (val M) _ BM L).
          assert (AN : al * norm x <= val M * hs).
          { apply Rle_trans with (al * (hh * val c)); [now apply Rmult_le_compat_l|].
            unfold al. replace (val M * (1 + @u d) * (1 + @u d) / val c * (hh * val c))
              with (val M * (hh * (1 + @u d) * (1 + @u d))) by (field; lra).
            apply Rmult_le_compat_l; [lra|apply hh_le]. }
          assert (NN : N2 x = norm x * norm x).
          { unfold norm. fold (N2 x). rewrite sqrt_def; auto. apply N2_nonneg. }
          assert (N0 := norm_nonneg x).
          assert (AN2 : al * al * N2 x <= val M * hs * (val M * hs)).
          { rewrite NN. replace (al * al * (norm x * norm x)) with (al * norm x * (al * norm x)) by ring.
            apply Rmult_le_compat; auto; apply Rmult_le_pos; auto. }
          assert (K : N2 y <= val M * val M * ((1 + tau) * (hs * hs) + / 1125899906842624)) by lra.
          unfold norm. fold (N2 y). apply lt_sqr; [apply sqrt_pos|auto|].
          rewrite sqrt_def by apply N2_nonneg.
          apply Rle_lt_trans with (1 := K).
          assert (MM : val M * val M <= gs * gs * (/ sqrt (- val k) * / sqrt (- val k))).
          { replace (gs * gs * (/ sqrt (- val k) * / sqrt (- val k)))
              with (gs * / sqrt (- val k) * (gs * / sqrt (- val k))) by ring.
            apply Rmult_le_compat; lra. }
          assert (GP := gap). set (w := (1 + tau) * (hs * hs) + / 1125899906842624) in *.
          assert (W0 : 0 < w) by (unfold w, hs; destruct d; lra).
          apply Rle_lt_trans with (gs * gs * (/ sqrt (- val k) * / sqrt (- val k)) * w).
          -- apply Rmult_le_compat_r; lra.
          -- replace (gs * gs * (/ sqrt (- val k) * / sqrt (- val k)) * w)
               with (gs * gs * w * (/ sqrt (- val k) * / sqrt (- val k))) by ring.
             rewrite <- (Rmult_1_l (/ sqrt (- val k) * / sqrt (- val k))) at 2.
             apply Rmult_lt_compat_r; auto. now apply Rmult_lt_0_compat.
      + (* kept *)
        rewrite map_id. split; auto.
        apply Rle_lt_trans with (1 := Uc). assert (HH := hh_bounds). assert (G2 := gap1).
        apply Rle_lt_trans with (hh * (gs * / sqrt (- val k))).
        * apply Rmult_le_compat_l; lra.
        * replace (hh * (gs * / sqrt (- val k))) with (gs * hh * / sqrt (- val k)) by ring.
          rewrite <- (Rmult_1_l (/ sqrt (- val k))) at 2. now apply Rmult_lt_compat_r.
  Qed.
End D.
