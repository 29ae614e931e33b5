(** arsinh at nonnegative arguments, and the Lorentz distance. *)
From Coq Require Import ZArith Reals List Bool Lra Lia Psatz.
From Flocq Require Import Core IEEE754.BinarySingleNaN Relative.
From Verif Require Import FloatModel FloatSpec FloatProofs FloatProofs2 FloatProofs3 FloatProofs4 FloatProofs5.
Open Scope R_scope.

Lemma ln_near a b de : 0 < a -> 0 < de <= / 1000 -> a * (1 - de) <= b <= a * (1 + de) ->
  Rabs (ln b - ln a) <= 2 * de.
Proof.
  intros Pa D B. assert (P : 0 < b) by nra.
  assert (I : 0 < / a) by now apply Rinv_0_lt_compat.
  assert (Q : ln b - ln a = ln (b / a)) by (unfold Rdiv; rewrite ln_mult, ln_Rinv by auto; ring).
  rewrite Q.
  assert (R1 : 1 - de <= b / a <= 1 + de).
  { split; apply Rmult_le_reg_r with a; auto; unfold Rdiv; rewrite (Rmult_assoc b), Rinv_l by lra; lra. }
  set (r := b / a) in *. assert (0 < r) by lra.
  assert (U : forall t, 0 < t -> ln t <= t - 1).
  { intros t T. assert (E := exp_ineq1_le (ln t)). rewrite exp_ln in E by auto. lra. }
  apply Rabs_le. split.
  - assert (V := U (/ r) (Rinv_0_lt_compat _ H)). rewrite ln_Rinv in V by auto.
    assert (/ r <= 1 + 2 * de).
    { apply Rmult_le_reg_r with r; auto. rewrite Rinv_l by lra. nra. }
    lra.
  - generalize (U r H). lra.
Qed.

Lemma cast_val {d d'} (x : float d') : finite x -> Rabs (val x) <= @big d ->
  finite (cast x : float d) /\ val (cast x : float d) = rnd d (val x).
Proof.
  intros F B. destruct x as [s|s| |s m e H]; try discriminate F.
  - split; [reflexivity|]. unfold val. cbn. now rewrite round_0 by auto with typeclass_instances.
  - assert (K := binary_normalize_correct (prec d) (emax d) _ _ mode_NE (cond_Zopp s (Zpos m)) e s).
    cbv zeta in K. change (round_mode mode_NE) with ZnearestE in K.
    change (F2R (Float radix2 (cond_Zopp s (Zpos m)) e)) with (val (B754_finite s m e H : float d')) in K.
    rewrite (fits _ B) in K. destruct K as (K1 & K2 & _). split; auto.
Qed.
Lemma bpow_pow_101 : bpow radix2 101 = 2 ^ 101.
Proof. rewrite (pow_IZR 2 101). reflexivity. Qed.

Section D.
  Context {d : dtype}.
  Implicit Types x y k n : float d.
  Notation top := (half_emax (d := d) - 1)%Z.

  Lemma near_one v : 1 <= v -> v * (1 - @u d) <= rnd d v <= v * (1 + @u d).
  Proof. intros H. apply normal. apply Rle_trans with (bpow radix2 0); [apply low_le; lia|]. exact H. Qed.
  Lemma eta_le_u : @eta d <= @u d.
  Proof. unfold eta, u. apply Rmult_le_compat_l; [lra|]. apply bpow_le. destruct d; cbv; discriminate. Qed.

  (** sqrt(1 + x^2) *)
  Lemma hypot_near x : finite x -> Rabs (val x) <= bpow radix2 top ->
    let h := fsqrt (add (of_Z 1) (sqr x)) in
    finite h /\ 1 <= val h <= bpow radix2 (half_emax (d := d)) /\
    sqrt (1 + val x * val x) * (1 - 5 * @u d) <= val h <= sqrt (1 + val x * val x) * (1 + 5 * @u d).
  Proof.
    intros F B h. assert (U := @u_small d). assert (T := @eta_pos d). assert (TU := eta_le_u).
    destruct (one_val (d := d)) as [F1 V1]. destruct (sqr_val x F B) as [Fs Vs].
    replace (Rabs (val x) * Rabs (val x)) with (val x * val x) in Vs by (rewrite <- Rabs_mult; symmetry; apply Rabs_pos_eq; nra).
    set (q := val x * val x) in *. assert (Q0 : 0 <= q) by (unfold q; nra).
    assert (S0 : 0 <= val (sqr x)) by (rewrite Vs; now apply rnd_nonneg).
    assert (S1 : q * (1 - @u d) - @u d <= val (sqr x) <= q * (1 + @u d) + @u d).
    { rewrite Vs. destruct (@rnd_err d q) as (e & m & He & Hm & ->).
      apply Rabs_le_inv in He. apply Rabs_le_inv in Hm. split; nra. }
    assert (S2 : val (sqr x) <= bpow radix2 (2 * top)).
    { rewrite Vs. apply rnd_le. { apply gf_bpow. unfold half_emax. destruct d; cbv; discriminate. }
      replace (2 * top)%Z with (top + top)%Z by lia. rewrite bpow_plus.
      replace q with (Rabs (val x) * Rabs (val x)) by (rewrite <- Rabs_mult; apply Rabs_pos_eq; auto).
      apply Rmult_le_compat; auto using Rabs_pos. }
    assert (T1 : 1 + val (sqr x) <= bpow radix2 (2 * top + 1)).
    { assert (bpow radix2 0 <= bpow radix2 (2 * top)) by (apply bpow_le; unfold half_emax; destruct d; cbv; discriminate).
      change (bpow radix2 0) with 1 in H. rewrite bpow_plus. change (bpow radix2 1) with 2. lra. }
    destruct (add_val (of_Z 1) (sqr x) F1 Fs) as [Fa Va].
    { rewrite V1, Rabs_pos_eq by lra. apply Rle_trans with (1 := T1). unfold big. apply bpow_le.
      unfold half_emax. destruct d; cbv; discriminate. }
    rewrite V1 in Va. set (a := val (add (of_Z 1) (sqr x))) in *.
    assert (N1 : 1 <= 1 + val (sqr x)) by lra.
    destruct (near_one _ N1) as [A1 A2]. rewrite <- Va in A1, A2.
    assert (A0 : 1 <= a) by (rewrite Va; apply rnd_ge; [apply gf_1|lra]).
    assert (A3 : (1 + q) * (1 - 3 * @u d) <= a <= (1 + q) * (1 + 3 * @u d)) by (split; nra).
    destruct (sqrt_val (add (of_Z 1) (sqr x)) Fa) as [Fh Vh]; [fold a; lra|]. fold a in Vh.
    fold h in Fh, Vh. split; auto.
    assert (R0 : 1 <= sqrt a) by (rewrite <- sqrt_1; apply sqrt_le_1_alt; lra).
    destruct (near_one _ R0) as [H1 H2]. rewrite <- Vh in H1, H2.
    split; [split|].
    - rewrite Vh. apply rnd_ge; [apply gf_1|lra].
    - rewrite Vh. apply rnd_le. { apply gf_bpow. unfold half_emax. destruct d; cbv; discriminate. }
      rewrite <- (sqrt_Rsqr (bpow radix2 (half_emax (d := d)))) by apply bpow_ge_0. apply sqrt_le_1_alt.
      unfold Rsqr. rewrite <- bpow_plus. rewrite Va. apply rnd_le. { apply gf_bpow. unfold half_emax. destruct d; cbv; discriminate. }
      apply Rle_trans with (1 := T1). apply bpow_le. lia.
    - set (w := @u d) in *. set (r := sqrt (1 + q)) in *.
      assert (RR : r * r = 1 + q) by (apply sqrt_def; lra).
      assert (R1 : 0 <= r) by apply sqrt_pos.
      assert (K1 : sqrt a <= r * (1 + 2 * w)).
      { apply Rsqr_incr_0; [|apply sqrt_pos|nra]. unfold Rsqr. rewrite sqrt_def by lra.
        replace (r * (1 + 2 * w) * (r * (1 + 2 * w))) with (r * r * ((1 + 2 * w) * (1 + 2 * w))) by ring. rewrite RR.
        apply Rle_trans with (1 := proj2 A3). apply Rmult_le_compat_l; nra. }
      assert (K2 : r * (1 - 3 * w) <= sqrt a).
      { apply Rsqr_incr_0; [|apply Rmult_le_pos; lra|apply sqrt_pos]. unfold Rsqr. rewrite sqrt_def by lra.
        replace (r * (1 - 3 * w) * (r * (1 - 3 * w))) with (r * r * ((1 - 3 * w) * (1 - 3 * w))) by ring. rewrite RR.
        apply Rle_trans with (2 := proj1 A3). apply Rmult_le_compat_l; nra. }
      split.
      + apply Rle_trans with (2 := H1). apply Rle_trans with (r * (1 - 3 * w) * (1 - w)).
        * rewrite Rmult_assoc. apply Rmult_le_compat_l; nra.
        * apply Rmult_le_compat_r; lra.
      + apply Rle_trans with (1 := H2). apply Rle_trans with (r * (1 + 2 * w) * (1 + w)).
        * apply Rmult_le_compat_r; lra.
        * rewrite Rmult_assoc. apply Rmult_le_compat_l; nra.
  Qed.

  Section Fns.
    Variable log : forall d, float d -> float d.
    Hypothesis Hlog : log_ok log.

    Lemma arsinh_positive x : finite x -> 0 <= val x <= bpow radix2 top ->
      finite (arsinh log x) /\ 0 <= val (arsinh log x) /\
      Rabs (val (arsinh log x) - arcsinh (val x)) <= arcsinh (val x) / 1024 + / 1000000.
    Proof.
      intros F B. assert (U := @u_small d).
      destruct (hypot_near x F) as (Fh & Bh & Nh). { rewrite Rabs_pos_eq; lra. } cbv zeta in *.
      unfold arsinh. set (h := fsqrt (add (of_Z 1) (sqr x))) in *.
      set (r := sqrt (1 + val x * val x)) in *.
      assert (R1 : 1 <= r) by (unfold r; rewrite <- sqrt_1 at 1; apply sqrt_le_1_alt; nra).
      destruct (add_val x h F Fh) as [Fa Va].
      { rewrite Rabs_pos_eq by lra. apply Rle_trans with (bpow radix2 (half_emax (d := d)) + bpow radix2 (half_emax (d := d))).
        - apply Rplus_le_compat; [|lra]. apply Rle_trans with (1 := proj2 B). apply bpow_le. lia.
        - replace (bpow radix2 (half_emax (d := d)) + bpow radix2 (half_emax (d := d))) with (bpow radix2 (half_emax (d := d) + 1)).
          + apply bpow_le. unfold half_emax. destruct d; cbv; discriminate.
          + rewrite bpow_plus. change (bpow radix2 1) with 2. ring. }
      assert (A1 : 1 <= val x + val h) by lra. assert (A2 := near_one _ A1). rewrite <- Va in A2.
      assert (A3 : 1 <= val (add x h)) by (rewrite Va; apply rnd_ge; [apply gf_1|lra]).
      destruct (@tiny_val d) as (Ft & _ & Bt). change (cast e15) with (@tiny d).
      assert (C : clamp_min (add x h) tiny = add x h).
      { unfold clamp_min. rewrite lt_val by auto. rewrite Rlt_bool_false by lra. reflexivity. }
      rewrite C. destruct (proj1 Hlog d (add x h) Fa) as [Fl El]; [lra|]. split; auto.
      assert (L0 := ln_nonneg _ A3). split; [apply log_nonneg; auto|].
      set (b := val (add x h)) in *. set (E := val x + r).
      assert (AE : arcsinh (val x) = ln E).
      { unfold arcsinh, E, r. do 2 f_equal. f_equal. ring. }
      rewrite AE. set (w := @u d) in *.
      assert (NE : E * (1 - 7 * w) <= b <= E * (1 + 7 * w)).
      { assert (M1 : E * (1 - 5 * w) <= val x + val h <= E * (1 + 5 * w)) by (unfold E; split; nra).
        assert (E0 : 1 <= E) by (unfold E; lra). split.
        - apply Rle_trans with (2 := proj1 A2). apply Rle_trans with (E * (1 - 5 * w) * (1 - w)).
          + rewrite Rmult_assoc. apply Rmult_le_compat_l; nra.
          + apply Rmult_le_compat_r; lra.
        - apply Rle_trans with (1 := proj2 A2). apply Rle_trans with (E * (1 + 5 * w) * (1 + w)).
          + apply Rmult_le_compat_r; lra.
          + rewrite Rmult_assoc. apply Rmult_le_compat_l; nra. }
      assert (E0 : 1 <= E) by (unfold E; lra).
      assert (LN := ln_near E b (7 * w) ltac:(lra)). destruct NE as [NE1 NE2].
      assert (LN' : Rabs (ln b - ln E) <= 2 * (7 * w)) by (apply LN; split; lra).
      assert (LE := ln_nonneg _ E0).
      rewrite (Rabs_pos_eq (ln b)) in El by auto.
      apply Rabs_le_inv in LN'. apply Rabs_le_inv in El. apply Rabs_le. lra.
    Qed.
    Lemma top_large : 2 * large d <= bpow radix2 top.
    Proof.
      apply Rle_trans with (bpow radix2 60); [unfold large; destruct d; cbn; lra|].
      apply bpow_le. unfold half_emax. destruct d; cbv; discriminate.
    Qed.
    Lemma arsinh_not_odd x : finite x -> large d <= val x <= 2 * large d ->
      0 <= val (arsinh log x) <= 23 /\ val (arsinh log (opp x)) <= -32.
    Proof.
      intros F B. assert (T := top_large). destruct (@large_bounds d) as [L1 _].
      destruct (arsinh_positive x F) as (_ & P & E); [lra|]. split.
      - split; auto.
        assert (A : 0 <= arcsinh (val x) <= INR 31 * (72 / 100)).
        { unfold arcsinh.
          assert (S1 : sqrt (val x ^ 2 + 1) <= val x + 1).
          { rewrite <- (sqrt_Rsqr (val x + 1)) by lra. apply sqrt_le_1_alt. unfold Rsqr. cbn. lra. }
          assert (S0 : 0 <= sqrt (val x ^ 2 + 1)) by apply sqrt_pos.
          split; [apply ln_nonneg; lra|]. apply ln_upper_pos. split; [lra|].
          replace (2 ^ 31) with 2147483648 by ring.
          assert (large d <= 268435456) by (unfold large; destruct d; lra). lra. }
        assert (I : INR 31 = 31) by (cbn; ring). rewrite I in A.
        apply Rabs_le_inv in E. lra.
      - rewrite arsinh_negative; [apply log_tiny; auto | now apply opp_fin |]. rewrite opp_val. lra.
    Qed.

    (** * Lorentz *)
    Lemma zero_of x : finite x -> val x = 0 -> exists s, x = B754_zero s.
    Proof.
      intros F V. destruct x as [s|s| |s m e H]; try discriminate F; [eauto|]. exfalso.
      unfold val, B2R in V. apply eq_0_F2R in V. destruct s; discriminate V.
    Qed.
    (** arcosh of zero: the logarithm of the root of the floor *)
    Lemma arcosh_zero s : arcosh log (B754_zero s : float d) = cast (log float64 (fsqrt e15)).
    Proof.
      unfold arcosh.
      replace (add (cast (B754_zero s : float d)) (fsqrt (clamp_min (sub (sqr (cast (B754_zero s : float d))) (of_Z 1)) e15)))
        with (fsqrt e15); [reflexivity|].
      cbn [cast]. destruct s; apply B2SF_inj; vm_compute; reflexivity.
    Qed.
    Lemma arcosh_zero_val s : finite (arcosh log (B754_zero s : float d)) /\ -1024 <= val (arcosh log (B754_zero s : float d)) <= -15.
    Proof.
      rewrite arcosh_zero.
      destruct (const_val (fsqrt e15 : float float64) false 4778698890210112 (-77)) as [F V]; [vm_compute; reflexivity|].
      set (c := fsqrt e15) in *.
      assert (B : / 2 ^ 25 <= val c <= / 2 ^ 24).
      { rewrite V. cbn. lra. }
      assert (P : 0 < / 2 ^ 25) by (apply Rinv_0_lt_compat, pow_lt; lra).
      destruct (proj1 Hlog float64 c F) as [G E]; [lra|].
      assert (L1 : - INR 25 <= ln (val c)) by (apply ln_lower; lra).
      assert (L2 : ln (val c) <= - INR 24 * (2 / 3)) by (apply ln_upper_neg; lra).
      assert (I1 : INR 25 = 25) by (cbn; ring). assert (I2 : INR 24 = 24) by (cbn; ring). rewrite I1, I2 in *.
      rewrite (Rabs_left (ln (val c))) in E by lra. apply Rabs_le_inv in E.
      destruct (cast_val (d := d) (log float64 c) G) as [K W].
      { apply Rabs_le. generalize (@big_100 d). lra. }
      split; auto. rewrite W. split; [apply rnd_ge|apply rnd_le]; try lra; apply gf_int; destruct d; reflexivity.
    Qed.
    Theorem lorentz_self_dist (x0 x1 : float d) : finite x1 -> large d <= Rabs (val x1) <= bpow radix2 top ->
      let p := lorentz_project (x0, x1) (of_Z 1) in
      finite (lorentz_dist log p p (of_Z 1)) /\ val (lorentz_dist log p p (of_Z 1)) <= -15.
    Proof.
      intros F B p. destruct (one_val (d := d)) as [F1 V1].
      destruct (hypot_large (norm1 x1) (of_Z 1)) as [Fp Vp]; auto.
      { now apply abs_fin. } { unfold norm1. rewrite abs_val, Rabs_Rabsolu. auto. }
      unfold norm1 in Vp at 2. rewrite abs_val, Rabs_Rabsolu in Vp.
      assert (P1 : fst p = fsqrt (add (of_Z 1) (sqr (norm1 x1)))) by reflexivity.
      assert (P2 : snd p = x1) by reflexivity.
      assert (I : exists s, opp (inner2 p p) = B754_zero s).
      { unfold inner2. rewrite P1, P2. set (a := fsqrt _) in *.
        destruct (mul_val a a Fp Fp) as [Fm Vm].
        { rewrite Rabs_mult, Vp, Rabs_Rabsolu. apply top_big; [lra|apply Rabs_pos]. }
        destruct (mul_val x1 x1 F F) as [Fn Vn].
        { rewrite Rabs_mult. apply top_big; [lra|apply Rabs_pos]. }
        assert (E : val (mul a a) = val (mul x1 x1)).
        { rewrite Vm, Vn, Vp. f_equal. rewrite <- Rabs_mult. apply Rabs_pos_eq. nra. }
        destruct (add_val (opp (mul a a)) (mul x1 x1)) as [Fs Vs]; auto.
        { now apply opp_fin. }
        { rewrite opp_val, E. replace (- val (mul x1 x1) + val (mul x1 x1)) with 0 by ring. rewrite Rabs_R0. generalize (@big_100 d). lra. }
        rewrite opp_val, E in Vs. replace (- val (mul x1 x1) + val (mul x1 x1)) with 0 in Vs by ring.
        rewrite round_0 in Vs by auto with typeclass_instances.
        apply zero_of; [now apply opp_fin|]. rewrite opp_val, Vs. ring. }
      destruct I as [s I]. unfold lorentz_dist. rewrite I.
      assert (D : exists t, div (B754_zero s) (of_Z 1 : float d) = B754_zero t).
      { destruct (div_val (B754_zero s) (of_Z 1 : float d)) as [G V]; [reflexivity|lra| |].
        { unfold val at 1. cbn [B2R]. unfold Rdiv. rewrite Rmult_0_l, Rabs_R0. generalize (@big_100 d). lra. }
        apply zero_of; auto. rewrite V. unfold val at 1. cbn [B2R]. unfold Rdiv. rewrite Rmult_0_l.
        now rewrite round_0 by auto with typeclass_instances. }
      destruct D as [t ->]. destruct (arcosh_zero_val t) as [G V]. set (ac := arcosh log (B754_zero t)) in *.
      destruct (sqrt_val (of_Z 1 : float d) F1) as [Fq Vq]; [lra|].
      rewrite V1, sqrt_1 in Vq. rewrite rnd_id in Vq by apply gf_1.
      destruct (mul_val (fsqrt (of_Z 1)) ac Fq G) as [H W].
      { rewrite Vq, Rmult_1_l. apply Rabs_le. generalize (@big_100 d). lra. }
      split; auto. rewrite W, Vq, Rmult_1_l. rewrite rnd_id by apply gf_val. lra.
    Qed.
    (** The guard works when the ratio of the inner product is at least 1. *)
    Lemma arcosh_nonneg x : finite x -> 1 <= val x <= bpow radix2 100 ->
      finite (arcosh log x) /\ 0 <= val (arcosh log x).
    Proof.
      intros F B.
      assert (T : bpow radix2 100 <= @big d) by (apply bpow_le; destruct d; cbv; discriminate).
      assert (TT : bpow radix2 201 <= @big float64) by (apply bpow_le; cbv; discriminate).
      assert (M2 : bpow radix2 200 = bpow radix2 100 * bpow radix2 100) by (now rewrite <- bpow_plus).
      assert (M3 : bpow radix2 201 = 2 * bpow radix2 200).
      { change 2 with (bpow radix2 1) at 1. now rewrite <- bpow_plus. }
      assert (M1 : bpow radix2 101 = 2 * bpow radix2 100).
      { change 2 with (bpow radix2 1) at 1. now rewrite <- bpow_plus. }
      assert (N : bpow radix2 101 = 2 ^ 101) by (rewrite bpow_pow_101; reflexivity).
      assert (gb : forall n : Z, (0 <= n)%Z -> gf float64 (bpow radix2 n)).
      { intros n H. apply gf_bpow. cbv [SpecFloat.emin emax prec]. lia. }
      assert (g0 : gf float64 0) by apply generic_format_0.
      assert (g1 : gf float64 1) by (apply gf_int; reflexivity).
      assert (g100 := gb 100%Z ltac:(lia)). assert (g101 := gb 101%Z ltac:(lia)). assert (g200 := gb 200%Z ltac:(lia)).
      clear gb.
      set (h := bpow radix2 100) in *. set (h1 := bpow radix2 101) in *.
      set (h2 := bpow radix2 200) in *. set (h3 := bpow radix2 201) in *.
      assert (H1 : 1 <= h) by lra.
      assert (H2 : h <= h2) by (rewrite M2; nra).
      destruct (cast_val (d := float64) x F) as [Fx Vx]; [rewrite Rabs_pos_eq; lra|].
      unfold arcosh. set (xd := cast x : float float64) in *.
      assert (Bx : 1 <= val xd <= h).
      { rewrite Vx. split; [apply rnd_ge|apply rnd_le]; auto; lra. }
      destruct (mul_val xd xd Fx Fx) as [Fs Vs]; [rewrite Rabs_pos_eq; nra|]. change (mul xd xd) with (sqr xd) in *.
      assert (Bs : 1 <= val (sqr xd) <= h2).
      { rewrite Vs. split; [apply rnd_ge|apply rnd_le]; auto; nra. }
      destruct (one_val (d := float64)) as [F1 V1].
      destruct (sub_val (sqr xd) (of_Z 1) Fs F1) as [Fm Vm]; [rewrite Rabs_pos_eq; lra|].
      rewrite V1 in Vm. set (m := sub (sqr xd) (of_Z 1)) in *.
      assert (Bm : 0 <= val m <= h2).
      { rewrite Vm. split; [apply rnd_ge|apply rnd_le]; auto; lra. }
      destruct (const_val (e15 : float float64) false 5070602400912918 (-102)) as [Fe Ve]; [vm_compute; reflexivity|].
      assert (Be : 0 <= val (e15 : float float64) <= 1) by (rewrite Ve; cbn; lra).
      assert (Fc := clamp_min_fin m e15 Fm Fe). assert (Vc := clamp_min_val m e15 Fm Fe).
      set (c := clamp_min m e15) in *.
      assert (Bc : 0 <= val c <= h2).
      { rewrite Vc. unfold Rmax. destruct Rle_dec; lra. }
      destruct (sqrt_val c Fc) as [Fz Vz]; [lra|]. set (z := fsqrt c) in *.
      assert (Bz : 0 <= val z <= h).
      { rewrite Vz. split; [apply rnd_ge; auto; apply sqrt_pos | apply rnd_le; auto].
        rewrite <- (sqrt_Rsqr h) by lra. apply sqrt_le_1_alt. unfold Rsqr. lra. }
      destruct (add_val xd z Fx Fz) as [Fa Va]; [rewrite Rabs_pos_eq; lra|]. set (a := add xd z) in *.
      assert (Ba : 1 <= val a <= h1).
      { rewrite Va. split; [apply rnd_ge|apply rnd_le]; auto; lra. }
      destruct (proj1 Hlog float64 a Fa) as [Fl El]; [lra|].
      assert (L1 : 0 <= ln (val a)) by (apply ln_nonneg; lra).
      assert (L2 : ln (val a) <= INR 101 * (72 / 100)) by (apply ln_upper_pos; lra).
      assert (I1 : INR 101 = 101) by (rewrite INR_IZR_INZ; reflexivity). rewrite I1 in *.
      rewrite (Rabs_pos_eq (ln (val a))) in El by lra. apply Rabs_le_inv in El.
      destruct (cast_val (d := d) (log float64 a) Fl) as [K W].
      { apply Rabs_le. generalize (@big_100 d). lra. }
      split; auto. rewrite W. apply rnd_ge; [apply generic_format_0|lra].
    Qed.
  End Fns.
End D.
