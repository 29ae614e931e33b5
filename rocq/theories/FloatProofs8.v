(** Accuracy of the Lorentz arcosh. *)
From Coq Require Import ZArith Reals List Bool Lra Lia Psatz.
From Flocq Require Import Core IEEE754.BinarySingleNaN Relative.
From Verif Require Import FloatModel FloatSpec FloatProofs FloatProofs2 FloatProofs3 FloatProofs4 FloatProofs5 FloatProofs6 FloatProofs7.
Open Scope R_scope.

Lemma sqrt_diff a b e : 0 <= a -> 0 <= b -> 0 <= e -> Rabs (a - b) <= e * e -> Rabs (sqrt a - sqrt b) <= e.
Proof.
  intros A B E H. apply Rabs_le_inv in H.
  assert (G : forall p q, 0 <= p -> 0 <= q -> p <= q + e * e -> sqrt p <= sqrt q + e).
  { intros p q P Q L. assert (S := sqrt_pos q). assert (Z : 0 <= sqrt q + e) by lra.
    rewrite <- (sqrt_Rsqr _ Z). apply sqrt_le_1_alt. unfold Rsqr. assert (S2 := sqrt_sqrt q Q). nra. }
  assert (G1 := G a b A B). assert (G2 := G b a B A). apply Rabs_le. lra.
Qed.
Definition v53 : R := / 9007199254740992.
Lemma u64 : @u float64 = v53.
Proof. unfold u, v53. cbn. lra. Qed.
Lemma normal64 v : / 16777216 <= v -> v * (1 - v53) <= rnd float64 v <= v * (1 + v53).
Proof.
  intros H. rewrite <- u64. apply normal. apply Rle_trans with (bpow radix2 (-24)); [apply low_le; lia|]. exact H.
Qed.

Lemma rnd_abs64 v : Rabs (rnd float64 v - v) <= v53 * (Rabs v + 1).
Proof.
  destruct (@rnd_err float64 v) as (e & n & E & N & ->). rewrite u64 in E.
  assert (T : @eta float64 <= v53).
  { unfold eta. assert (bpow radix2 (emin float64) <= bpow radix2 (-53)) by (apply bpow_le; cbv; discriminate).
    assert (bpow radix2 (-53) = v53) by reflexivity. assert (0 < bpow radix2 (emin float64)) by apply bpow_gt_0. lra. }
  replace (v * (1 + e) + n - v) with (v * e + n) by ring.
  apply Rle_trans with (1 := Rabs_triang _ _). rewrite Rabs_mult.
  assert (0 <= Rabs v) by apply Rabs_pos. assert (0 <= Rabs e) by apply Rabs_pos. nra.
Qed.

Section D.
  Context {d : dtype}.
  Implicit Types x : float d.
  Variable log : forall d, float d -> float d.
  Hypothesis Hlog : log_ok log.
  Lemma arcosh_acc x : finite x -> 1 <= val x <= bpow radix2 100 ->
    Rabs (val (arcosh log x) - acosh (val x)) <= acosh (val x) / 1000 + / 1000000.
  Proof.
    intros F B.
    assert (T : bpow radix2 100 <= @big d) by (apply bpow_le; destruct d; cbv; discriminate).
    assert (TT : bpow radix2 210 <= @big float64) by (apply bpow_le; cbv; discriminate).
    assert (M2 : bpow radix2 210 = bpow radix2 100 * bpow radix2 100 * 1024).
    { change 1024 with (bpow radix2 10). rewrite <- !bpow_plus. reflexivity. }
    assert (N : 8 * bpow radix2 100 = 2 ^ 103).
    { replace (2 ^ 103) with (2 ^ 100 * 8) by ring. rewrite Rmult_comm. f_equal. rewrite (pow_IZR 2 100). reflexivity. }
    set (h := bpow radix2 100) in *. set (h3 := bpow radix2 210) in *.
    assert (H1 : 1 <= h) by lra. assert (H2 : h <= h3) by nra. assert (H5 : 8 * h <= h3) by nra. clearbody h h3.
    assert (U : 0 < v53 <= / 9000000000000000) by (unfold v53; lra).
    destruct (cast_val (d := float64) x F) as [Fx Vx]; [rewrite Rabs_pos_eq; lra|].
    unfold arcosh. set (xd := cast x : float float64) in *.
    set (v := val x) in *. clearbody v.
    assert (Nx := normal64 v ltac:(lra)). rewrite <- Vx in Nx.
    assert (X1 : 1 <= val xd). { rewrite Vx. apply rnd_ge; [apply gf_int; reflexivity|lra]. }
    assert (X2 : val xd <= 2 * h) by nra.
    set (w := val xd) in *. 
    destruct (mul_val xd xd Fx Fx) as [Fs Vs]; [fold w; rewrite Rabs_pos_eq; nra|]. change (mul xd xd) with (sqr xd) in *.
    fold w in Vs. assert (Ns := normal64 (w * w) ltac:(nra)). rewrite <- Vs in Ns.
    assert (S1 : 1 <= val (sqr xd)). { rewrite Vs. apply rnd_ge; [apply gf_int; reflexivity|nra]. }
    set (q := val (sqr xd)) in *.
    assert (W2 : v * v * (1 - 3 * v53) <= w * w <= v * v * (1 + 3 * v53)).
    { assert (0 < v53 * v53 <= v53 * / 9000000000000000) by (split; [nra|apply Rmult_le_compat_l; lra]).
      assert (V2 : 0 <= v * v) by nra. split.
      - apply Rle_trans with (v * (1 - v53) * (v * (1 - v53))); [|apply Rmult_le_compat; nra].
        replace (v * (1 - v53) * (v * (1 - v53))) with (v * v * (1 - 2 * v53 + v53 * v53)) by ring.
        apply Rmult_le_compat_l; lra.
      - apply Rle_trans with (v * (1 + v53) * (v * (1 + v53))); [apply Rmult_le_compat; nra|].
        replace (v * (1 + v53) * (v * (1 + v53))) with (v * v * (1 + 2 * v53 + v53 * v53)) by ring.
        apply Rmult_le_compat_l; lra. }
    assert (Sq : q <= h3).
    { assert (w * w <= 4 * (h * h)) by nra. nra. }
    assert (Q2 : Rabs (q - v * v) <= v * v * (6 * v53)).
    { set (vv := v * v) in *. set (ww := w * w) in *. assert (1 <= vv) by (unfold vv; nra). clearbody vv ww.
      apply Rabs_le. assert (ww * v53 <= 2 * vv * v53) by (apply Rmult_le_compat_r; nra). nra. }
    destruct (one_val (d := float64)) as [F1 V1].
    destruct (sub_val (sqr xd) (of_Z 1) Fs F1) as [Fm Vm]; [fold q; rewrite V1, Rabs_pos_eq; lra|].
    fold q in Vm. rewrite V1 in Vm. set (mm := sub (sqr xd) (of_Z 1)) in *.
    assert (M0 : 0 <= val mm). { rewrite Vm. apply rnd_ge; [apply generic_format_0|lra]. }
    assert (Rm := rnd_abs64 (q - 1)). rewrite <- Vm in Rm. rewrite (Rabs_pos_eq (q - 1)) in Rm by lra.
    set (vv := v * v) in *. assert (VV : 1 <= vv) by (unfold vv; nra).
    assert (Q3 : q <= 2 * vv). { apply Rabs_le_inv in Q2. nra. }
    assert (Dm : Rabs (val mm - (vv - 1)) <= vv * (8 * v53)).
    { replace (val mm - (vv - 1)) with ((val mm - (q - 1)) + (q - vv)) by ring.
      apply Rle_trans with (1 := Rabs_triang _ _).
      assert (v53 * (q - 1 + 1) <= v53 * (2 * vv)) by (apply Rmult_le_compat_l; lra). lra. }
    destruct (const_val (e15 : float float64) false 5070602400912918 (-102)) as [Fe Ve]; [vm_compute; reflexivity|].
    assert (Be : 0 <= val (e15 : float float64) <= 101 / 100000000000000000) by (rewrite Ve; cbn; lra).
    assert (Fc := clamp_min_fin mm e15 Fm Fe). assert (Vc := clamp_min_val mm e15 Fm Fe).
    set (c := clamp_min mm e15) in *.
    assert (C0 : 0 <= val c). { rewrite Vc. apply Rle_trans with (1 := M0), Rmax_l. }
    assert (Dc : Rabs (val c - (vv - 1)) <= (/ 20000000 * v) * (/ 20000000 * v)).
    { replace (val c - (vv - 1)) with ((val c - val mm) + (val mm - (vv - 1))) by ring.
      assert (Rabs (val c - val mm) <= 101 / 100000000000000000).
      { rewrite Vc. apply Rabs_le. unfold Rmax. destruct Rle_dec; lra. }
      apply Rle_trans with (1 := Rabs_triang _ _).
      replace (/ 20000000 * v * (/ 20000000 * v)) with (vv / 400000000000000) by (unfold vv; field).
      assert (vv * v53 <= vv * / 9000000000000000) by (apply Rmult_le_compat_l; lra). lra. }
    assert (SD := sqrt_diff (val c) (vv - 1) (/ 20000000 * v) C0 ltac:(lra) ltac:(lra) Dc).
    set (r := sqrt (vv - 1)) in *. assert (R0 : 0 <= r) by apply sqrt_pos.
    assert (R1 : r <= v). { unfold r. rewrite <- (sqrt_Rsqr v) by lra. apply sqrt_le_1_alt. unfold Rsqr. fold vv. lra. }
    destruct (sqrt_val c Fc C0) as [Fz Vz]. set (z := fsqrt c) in *.
    assert (Rz := rnd_abs64 (sqrt (val c))). rewrite <- Vz in Rz.
    assert (Sc := sqrt_pos (val c)). rewrite (Rabs_pos_eq (sqrt (val c))) in Rz by lra.
    set (sc := sqrt (val c)) in *. apply Rabs_le_inv in SD.
    assert (Dz : Rabs (val z - r) <= v * (/ 19000000)).
    { replace (val z - r) with ((val z - sc) + (sc - r)) by ring. apply Rle_trans with (1 := Rabs_triang _ _).
      assert (Rabs (sc - r) <= / 20000000 * v) by (apply Rabs_le; lra).
      assert (v53 * (sc + 1) <= / 9000000000000000 * (sc + 1)) by (apply Rmult_le_compat_r; lra). lra. }
    assert (Z0 : 0 <= val z). { rewrite Vz. apply rnd_ge; [apply generic_format_0|lra]. }
    apply Rabs_le_inv in Dz.
    destruct (add_val xd z Fx Fz) as [Fa Va]; [fold w; rewrite Rabs_pos_eq by lra; lra|]. set (a := add xd z) in *.
    fold w in Va. assert (Na := normal64 (w + val z) ltac:(lra)). rewrite <- Va in Na.
    assert (A1 : 1 <= val a). { rewrite Va. apply rnd_ge; [apply gf_int; reflexivity|lra]. }
    assert (A2 : val a <= 2 ^ 103). { rewrite <- N.
      assert ((w + val z) * v53 <= (w + val z) * / 9000000000000000) by (apply Rmult_le_compat_l; lra). lra. }
    set (E := v + r). assert (AE : acosh v = ln E) by reflexivity.
    assert (NE : E * (1 - / 10000000) <= val a <= E * (1 + / 10000000)).
    { unfold E. assert (v * v53 <= v * / 9000000000000000) by (apply Rmult_le_compat_l; lra).
      assert (val z * v53 <= val z * / 9000000000000000) by (apply Rmult_le_compat_l; lra).
      assert (w * v53 <= w * / 9000000000000000) by (apply Rmult_le_compat_l; lra). lra. }
    assert (LN := ln_near E (val a) (/ 10000000) ltac:(unfold E; lra) ltac:(lra) NE).
    destruct (proj1 Hlog float64 a Fa) as [Fl El]; [lra|].
    assert (L0 : 0 <= ln E) by (apply ln_nonneg; unfold E; lra).
    assert (L1 : 0 <= ln (val a)) by (apply ln_nonneg; lra).
    assert (L2 : ln (val a) <= INR 103 * (72 / 100)) by (apply ln_upper_pos; lra).
    assert (I1 : INR 103 = 103) by (rewrite INR_IZR_INZ; reflexivity). rewrite I1 in *.
    rewrite (Rabs_pos_eq (ln (val a))) in El by lra. apply Rabs_le_inv in El. apply Rabs_le_inv in LN.
    destruct (cast_val (d := d) (log float64 a) Fl) as [_ W].
    { apply Rabs_le. generalize (@big_100 d). lra. }
    rewrite AE, W. assert (Rl := rnd_abs d (val (log float64 a))).
    rewrite (Rabs_pos_eq (val (log float64 a))) in Rl by lra. apply Rabs_le_inv in Rl. apply Rabs_le. lra.
  Qed.
End D.

(** arsin_k inherits the cancellation. *)
Lemma arsin_k_flat {d} log (H : log_ok log) (x y k : float d) : finite x -> finite y -> moderate k ->
  Rabs (val x) <= 1000000 -> Rabs (val y) <= 1000000 ->
  val x * sqrt (Rabs (val k)) <= - (large d * (1001 / 1000)) ->
  val y * sqrt (Rabs (val k)) <= - (large d * (1001 / 1000)) -> arsin_k log x k = arsin_k log y k.
Proof.
  intros Fx Fy M Bx By Lx Ly. assert (T := @top_large d). assert (L := @large_bounds d). assert (RB := root_bounds k M).
  assert (P : bpow radix2 60 <= bpow radix2 (half_emax (d := d) - 1)).
  { apply bpow_le. unfold half_emax. clear. destruct d; cbv; discriminate. }
  assert (P60 : 2000000000 <= bpow radix2 60) by (cbn; lra).
  assert (LB : 8192 <= large d) by (clear; unfold large; destruct d; lra).
  assert (K : forall z : float d, finite z -> Rabs (val z) <= 1000000 ->
    val z * sqrt (Rabs (val k)) <= - (large d * (1001 / 1000)) -> arsinh log (mul z (k_sqrt k)) = log d tiny).
  { intros z Fz Bz Lz. destruct (arg_acc z k Fz M Bz) as [Fm Em]. apply arsinh_negative; auto.
    assert (Z : Rabs (val z * sqrt (Rabs (val k))) <= 1000000000).
    { rewrite Rabs_mult, (Rabs_pos_eq (sqrt _)) by lra.
      replace 1000000000 with (1000000 * 1000) by ring. apply Rmult_le_compat; auto using Rabs_pos; lra. }
    rewrite (Rabs_left (val z * _)) in Em, Z by lra. apply Rabs_le_inv in Em. lra. }
  unfold arsin_k. rewrite (K x), (K y) by auto. reflexivity.
Qed.
