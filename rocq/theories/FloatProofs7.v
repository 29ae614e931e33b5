(** Accuracy of artanh, tan_k, artan_k and the distances. *)
From Coq Require Import ZArith Reals List Bool Lra Lia Psatz.
From Flocq Require Import Core IEEE754.BinarySingleNaN Relative Mult_error.
From Verif Require StereoTrig StereoTaylor.
From Verif Require Import FloatModel FloatSpec FloatProofs FloatProofs2 FloatProofs3 FloatProofs4 FloatProofs5 FloatProofs6.
Open Scope R_scope.

Lemma eta_bound d : @eta d <= / 16777216.
Proof.
  unfold eta. assert (bpow radix2 (emin d) <= bpow radix2 (-24)) by (apply bpow_le; destruct d; cbv; discriminate).
  change (bpow radix2 (-24)) with (/ 16777216) in *. lra.
Qed.
Lemma rnd_abs d v : Rabs (rnd d v - v) <= (Rabs v + 1) / 16777216.
Proof.
  destruct (@rnd_err d v) as (e & n & E & N & ->).
  assert (U := FloatProofs4.u_small (d := d)). assert (T := eta_bound d).
  replace (v * (1 + e) + n - v) with (v * e + n) by ring.
  apply Rle_trans with (1 := Rabs_triang _ _). rewrite Rabs_mult.
  assert (0 <= Rabs v) by apply Rabs_pos.
  assert (Rabs v * Rabs e <= Rabs v * / 16777216) by (apply Rmult_le_compat_l; lra). lra.
Qed.
Ltac absle := match goal with H : Rabs _ <= _ |- _ => apply Rabs_le_inv in H end.

Lemma atanh_signs v : -1 < v < 1 -> Rabs (ln (1 + v)) + Rabs (ln (1 - v)) = 2 * Rabs (atanh v).
Proof.
  intros B. unfold atanh. destruct (Rle_or_lt 0 v) as [P|P].
  - assert (0 <= ln (1 + v)) by (apply ln_nonneg; lra). assert (ln (1 - v) <= 0) by (apply ln_nonpos; lra).
    rewrite (Rabs_pos_eq (ln (1 + v))), (Rabs_left1 (ln (1 - v))), Rabs_pos_eq by lra. lra.
  - assert (0 <= ln (1 - v)) by (apply ln_nonneg; lra). assert (ln (1 + v) <= 0) by (apply ln_nonpos; lra).
    rewrite (Rabs_pos_eq (ln (1 - v))), (Rabs_left1 (ln (1 + v))), Rabs_left1 by lra. lra.
Qed.
Lemma atanh_near a y : Rabs y <= 9 / 10 -> Rabs (a - y) <= / 100000 -> Rabs (atanh a - atanh y) <= / 1000.
Proof.
  intros Y A. apply Rabs_le_inv in Y. apply Rabs_le_inv in A.
  assert (L1 := ln_near (1 + y) (1 + a) (/ 5000) ltac:(lra) ltac:(lra) ltac:(lra)).
  assert (L2 := ln_near (1 - y) (1 - a) (/ 5000) ltac:(lra) ltac:(lra) ltac:(lra)).
  apply Rabs_le_inv in L1. apply Rabs_le_inv in L2. unfold atanh. apply Rabs_le. lra.
Qed.

Notation th := Rtrigo_def.tanh.
Lemma tanh_step y h : 0 <= h <= / 100 -> 0 <= th (y + h) - th y <= 2 * h.
Proof.
  intros H. split.
  - assert (th y <= th (y + h)); [|lra]. apply StereoTrig.tanh_le. lra.
  - destruct (proj1 H) as [P|E]; [|rewrite <- E, Rplus_0_r; lra].
    rewrite StereoTrig.tanh_plus. assert (B := StereoTaylor.tanh_below h P).
    assert (Y := StereoTrig.tanh_lt_1 y). assert (P0 : 0 < th h).
    { rewrite <- StereoTrig.tanh_0. now apply StereoTrig.tanh_incr. }
    set (a := th y) in *. set (b := th h) in *. clearbody a b.
    assert (D : 9 / 10 <= 1 + a * b) by nra.
    replace ((a + b) / (1 + a * b) - a) with (b * (1 - a * a) * / (1 + a * b)) by (field; lra).
    assert (I : 0 < / (1 + a * b) <= / (9 / 10)).
    { split; [apply Rinv_0_lt_compat; lra | apply Rinv_le_contravar; lra]. }
    set (i := / (1 + a * b)) in *. clearbody i.
    apply Rle_trans with (h * 1 * (/ (9 / 10))); [|lra].
    assert (A2 : 0 <= 1 - a * a <= 1) by nra.
    apply Rmult_le_compat; try lra; [apply Rmult_le_pos; lra | apply Rmult_le_compat; lra].
Qed.
Lemma tanh_near a y : Rabs (a - y) <= / 1000 -> Rabs (th a - th y) <= / 500.
Proof.
  intros A. apply Rabs_le_inv in A. destruct (Rle_or_lt y a) as [L|L].
  - assert (S := tanh_step y (a - y) ltac:(lra)). replace (y + (a - y)) with a in S by ring. apply Rabs_le. lra.
  - assert (S := tanh_step a (y - a) ltac:(lra)). replace (a + (y - a)) with y in S by ring. apply Rabs_le. lra.
Qed.
Lemma tanh_14 y : 14 <= y -> 1 - / 2000 <= th y <= 1.
Proof.
  intros Y. split; [|left; apply StereoTrig.tanh_lt_1].
  apply Rle_trans with (th 14); [|now apply StereoTrig.tanh_le].
  rewrite StereoTrig.tanh_exp.
  assert (E : 4096 <= exp (2 * 14)).
  { replace (2 * 14) with (7 + 7 + (7 + 7)) by ring. rewrite !exp_plus.
    assert (8 <= exp 7) by (generalize (exp_ineq1_le 7); lra).
    assert (64 <= exp 7 * exp 7) by nra. nra. }
  set (e := exp (2 * 14)) in *. clearbody e.
  apply Rmult_le_reg_r with (e + 1); [lra|]. replace ((e - 1) / (e + 1) * (e + 1)) with (e - 1) by (field; lra). lra.
Qed.
Lemma tanh_m14 y : y <= -14 -> -1 <= th y <= -1 + / 2000.
Proof.
  intros Y. assert (B := tanh_14 (- y) ltac:(lra)). rewrite StereoTrig.tanh_opp in B. lra.
Qed.

Section D.
  Context {d : dtype}.
  Implicit Types x k n : float d.
  Lemma clamp_unit_id x : finite x -> Rabs (val x) <= 1 - / 1000000 -> val (clamp_unit x) = val x.
  Proof.
    intros F B. destruct (@lo_hi d) as (Fl & Fh & E & _). unfold FloatProofs2.lo, FloatProofs2.hi in Fl, Fh, E. apply Rabs_le_inv in B.
    assert (H : 1 - / 1000000 <= val (cast (sub (of_Z 1) e7) : float d)).
    { destruct d.
      - destruct (const_val (cast (sub (of_Z 1) e7) : float float32) false 16777214 (-24)) as [_ V]; [vm_compute; reflexivity|].
        rewrite V. cbn. lra.
      - destruct (const_val (cast (sub (of_Z 1) e7) : float float64) false 9007198354021067 (-53)) as [_ V]; [vm_compute; reflexivity|].
        rewrite V. cbn. lra. }
    unfold clamp_unit, clamp. rewrite clamp_max_val, clamp_min_val; auto using clamp_min_fin.
    set (hi := val (cast (sub (of_Z 1) e7))) in *. set (lo := val (cast (add _ _))) in *. clearbody lo hi.
    rewrite Rmax_left by lra. rewrite Rmin_left by lra. reflexivity.
  Qed.
  (** The root of a moderate curvature and its reciprocal. *)
  Notation root k := (sqrt (Rabs (val k))).
  Lemma root_bounds k : moderate k -> / 1000 <= root k <= 1000.
  Proof.
    intros [_ [A B]]. split.
    - rewrite <- (sqrt_Rsqr (/ 1000)) by lra. apply sqrt_le_1_alt. unfold Rsqr. lra.
    - rewrite <- (sqrt_Rsqr 1000) by lra. apply sqrt_le_1_alt. unfold Rsqr. lra.
  Qed.
  Lemma k_sqrt_acc k : moderate k ->
    root k * (1 - / 1000000) <= val (k_sqrt k) <= root k * (1 + / 1000000).
  Proof.
    intros M. assert (RB := root_bounds k M). destruct M as [F [A B]].
    destruct (k_sqrt_val k F) as (_ & Vs & _). destruct (sabs_val k F) as (Fs & V & A1 & _).
    destruct (@tiny_val d) as (_ & _ & Bt). assert (U := FloatProofs4.u_small (d := d)).
    assert (Sq : root k * root k = Rabs (val k)) by (apply sqrt_sqrt; lra).
    set (w := Rabs (val k)) in *. set (r := sqrt w) in *. clearbody w r.
    assert (N := normal (d := d) (w + val (tiny : float d))). rewrite <- V in N.
    destruct N as [_ N2]. { apply Rle_trans with (bpow radix2 (-24)); [apply low_le; lia|].
      change (bpow radix2 (-24)) with (/ 16777216). lra. }
    assert (S2 : val (sabs k) <= w * (1 + / 10000000)) by nra.
    set (a := val (sabs k)) in *. clearbody a.
    assert (Q1 : r <= sqrt a).
    { rewrite <- (sqrt_Rsqr r) by lra. apply sqrt_le_1_alt. unfold Rsqr. lra. }
    assert (Q2 : sqrt a <= r * (1 + / 10000000)).
    { assert (P : 0 <= r * (1 + / 10000000)) by nra.
      rewrite <- (sqrt_Rsqr _ P). apply sqrt_le_1_alt. unfold Rsqr. nra. }
    assert (N := normal (d := d) (sqrt a)). rewrite <- Vs in N.
    destruct N as [N3 N4]. { apply Rle_trans with (bpow radix2 (-24)); [apply low_le; lia|].
      change (bpow radix2 (-24)) with (/ 16777216). lra. }
    nra.
  Qed.
  Lemma recip_acc k : moderate k ->
    1 - / 500000 <= val (recip (k_sqrt k)) * root k <= 1 + / 500000.
  Proof.
    intros M. assert (RB := root_bounds k M). assert (K := k_sqrt_acc k M). destruct M as [F _].
    destruct (recip_val k F) as (_ & V & _). assert (U := FloatProofs4.u_small (d := d)).
    set (r := root k) in *. set (s := val (k_sqrt k)) in *. clearbody r s.
    assert (Ps : 0 < s) by nra.
    assert (I : / 2000 <= / s).
    { apply Rinv_le_contravar; nra. }
    assert (N := normal (d := d) (/ s)). rewrite <- V in N.
    destruct N as [N3 N4]. { apply Rle_trans with (bpow radix2 (-24)); [apply low_le; lia|].
      change (bpow radix2 (-24)) with (/ 16777216). lra. }
    set (q := val (recip (k_sqrt k))) in *. clearbody q. 
    assert (J : 1 - / 900000 <= / s * r <= 1 + / 900000).
    { split; apply Rmult_le_reg_r with s; auto; replace (/ s * r * s) with r by (field; lra); nra. }
    assert (0 < r) by lra. set (w := @u d) in *. clearbody w.
    assert (q * r <= / s * r * (1 + w)) by nra. assert (/ s * r * (1 - w) <= q * r) by nra.
    set (z := / s * r) in *. clearbody z. nra.
  Qed.
  (** The argument of the trigonometric functions. *)
  Lemma arg_acc x k : finite x -> moderate k -> Rabs (val x) <= 1000000 ->
    finite (mul x (k_sqrt k)) /\
    Rabs (val (mul x (k_sqrt k)) - val x * root k) <= Rabs (val x * root k) / 500000 + / 16000000.
  Proof.
    intros Fx M B. assert (RB := root_bounds k M). assert (K := k_sqrt_acc k M). destruct M as [F _].
    destruct (k_sqrt_val k F) as (Fs & _ & _).
    set (r := root k) in *. 
    assert (X := Rabs_pos (val x)).
    destruct (mul_val x (k_sqrt k) Fx Fs) as [G V].
    { rewrite Rabs_mult. rewrite (Rabs_pos_eq (val (k_sqrt k))) by nra.
      apply Rle_trans with 1000000000000; [nra|]. generalize (@big_1e30 d). lra. }
    split; auto. rewrite V. set (s := val (k_sqrt k)) in *. clearbody s. set (v := val x) in *.
    assert (R := rnd_abs d (v * s)). set (q := rnd d (v * s)) in *. clearbody q.
    assert (E1 : Rabs (v * s - v * r) <= Rabs (v * r) / 1000000).
    { replace (v * s - v * r) with (v * (s - r)) by ring. rewrite !Rabs_mult.
      rewrite (Rabs_pos_eq r) by lra. unfold Rdiv. rewrite Rmult_assoc. apply Rmult_le_compat_l; auto.
      apply Rabs_le. lra. }
    assert (E2 : Rabs (v * s) <= Rabs (v * r) * 2).
    { rewrite !Rabs_mult, (Rabs_pos_eq r), (Rabs_pos_eq s) by nra. nra. }
    replace (q - v * r) with ((q - v * s) + (v * s - v * r)) by ring.
    apply Rle_trans with (1 := Rabs_triang _ _). assert (Y := Rabs_pos (v * r)). lra.
  Qed.
  Lemma scaled q r t ty : / 1000 <= r <= 1000 -> 1 - / 500000 <= q * r <= 1 + / 500000 ->
    Rabs (t - ty) <= 42 / 10000 -> Rabs t <= 4 -> Rabs (rnd d (q * t) * r - ty) <= / 200.
  Proof.
    intros RB RA D T. assert (R := rnd_abs d (q * t)). set (z := rnd d (q * t)) in *. clearbody z.
    replace (z * r - ty) with ((z - q * t) * r + ((q * r - 1) * t + (t - ty))) by ring.
    assert (Q : 0 < q) by nra.
    assert (E1 : Rabs ((z - q * t) * r) <= 1005 / 16777216).
    { rewrite Rabs_mult, (Rabs_pos_eq r) by lra.
      apply Rle_trans with ((Rabs (q * t) + 1) / 16777216 * r); [apply Rmult_le_compat_r; lra|].
      rewrite Rabs_mult, (Rabs_pos_eq q) by lra.
      replace ((q * Rabs t + 1) / 16777216 * r) with ((q * r * Rabs t + r) / 16777216) by field.
      assert (0 <= Rabs t) by apply Rabs_pos. nra. }
    assert (E2 : Rabs ((q * r - 1) * t) <= / 500000 * 4).
    { rewrite Rabs_mult. apply Rmult_le_compat; auto; try apply Rabs_pos. apply Rabs_le. lra. }
    apply Rle_trans with (1 := Rabs_triang _ _).
    assert (T3 := Rabs_triang ((q * r - 1) * t) (t - ty)). lra.
  Qed.
  (** Rounded quotients and the clamp of the sphere. *)
  Lemma guarded_div_acc (a b : float d) : finite a -> finite b -> / 999999900000000 <= val b -> Rabs (val a / val b) <= @big d ->
    val (guarded_div a b) = rnd d (val a / val b).
  Proof.
    intros Fa Fb B A. destruct (@tiny_val d) as (Ft & _ & Bt). unfold guarded_div.
    change (cast e15) with (@tiny d). unfold clamp_min. rewrite lt_val by auto.
    rewrite Rlt_bool_false by lra. apply div_val; auto. lra.
  Qed.
  Lemma sphere_arg_id x : finite x -> Rabs (val x) <= 999 / 1000 -> val (sphere_arg x) = val x.
  Proof.
    intros F B. apply Rabs_le_inv in B.
    assert (K : exists lo hi : float d, finite lo /\ finite hi /\ val lo <= - (999 / 1000) /\ 999 / 1000 <= val hi /\
      sphere_arg x = clamp x lo hi).
    { exists (cast (add (of_Z (-1)) (sphere_eps d))), (cast (sub (of_Z 1) (sphere_eps d))). clear F B. destruct d.
      - destruct (const_val (cast (add (of_Z (-1)) (sphere_eps float32)) : float float32) true 16775538 (-24)) as [F1 V1]; [vm_compute; reflexivity|].
        destruct (const_val (cast (sub (of_Z 1) (sphere_eps float32)) : float float32) false 16775538 (-24)) as [F2 V2]; [vm_compute; reflexivity|].
        refine (conj F1 (conj F2 _)). rewrite V1, V2. split; [cbn; lra|]. split; [cbn; lra|]. reflexivity.
      - destruct (const_val (cast (add (of_Z (-1)) (sphere_eps float64)) : float float64) true 9007198354021067 (-53)) as [F1 V1]; [vm_compute; reflexivity|].
        destruct (const_val (cast (sub (of_Z 1) (sphere_eps float64)) : float float64) false 9007198354021067 (-53)) as [F2 V2]; [vm_compute; reflexivity|].
        refine (conj F1 (conj F2 _)). rewrite V1, V2. split; [cbn; lra|]. split; [cbn; lra|]. reflexivity. }
    destruct K as (lo & hi & Fl & Fh & Bl & Bh & ->). unfold clamp.
    rewrite clamp_max_val, clamp_min_val; auto using clamp_min_fin. rewrite Rmax_left, Rmin_left; lra.
  Qed.
  (** project: rows inside are kept, rows outside keep their direction. *)
  Lemma maxnorm_acc k : moderate k -> val k < 0 -> finite (maxnorm k) /\ 0 < val (maxnorm k) /\
    1 - margin d <= val (maxnorm k) * root k <= 1.
  Proof.
    intros M K. assert (RB := root_bounds k M). assert (RA := recip_acc k M).
    destruct (maxnorm_ok k (proj1 M) K) as (F & B & G). assert (U := FloatProofs4.u_small (d := d)).
    rewrite <- (Rabs_left (val k)) in G by auto.
    assert (P := bpow_gt_0 radix2 (- half_emax (d := d) - 2)).
    split; auto. split; [lra|]. split.
    - assert (C : 1 - margin d + / 300000 <= val (shrink : float d) <= 1).
      { clear. unfold margin. destruct d.
        - destruct (const_val (shrink : float float32) false 16710107 (-24)) as [_ V]; [vm_compute; reflexivity|].
          rewrite V. cbn. lra.
        - destruct (const_val (shrink : float float64) false 9007109182748445 (-53)) as [_ V]; [vm_compute; reflexivity|].
          rewrite V. cbn. lra. }
      clear G B P.
      destruct (@of_Z_val d 0) as [F0 V0]; [clear; destruct d; reflexivity|].
      revert F. unfold maxnorm, where_. rewrite lt_val by (auto; apply M). rewrite V0, Rlt_bool_true by auto.
      change (cast (sub (of_Z 1) (default_eps d))) with (@shrink d). intros F.
      destruct (recip_val k (proj1 M)) as (Fr & Vr & Br). destruct (@shrink_val d) as [Fc Bc].
      set (r := root k) in *. set (q := val (recip (k_sqrt k))) in *.
      assert (Q : 0 < q) by nra.
      assert (Q1 : q <= 2000). { apply Rmult_le_reg_r with r; [lra|]. nra. }
      destruct (mul_val (recip (k_sqrt k)) shrink Fr Fc) as [G V].
      { fold q. rewrite Rabs_pos_eq by nra. apply Rle_trans with 2000; [nra|]. generalize (@big_1e30 d). lra. }
      fold q in V. rewrite V. set (c := val (@shrink d)) in *. clearbody c.
      assert (N := normal (d := d) (q * c)). destruct N as [N1 _].
      { apply Rle_trans with (bpow radix2 (-24)); [apply low_le; lia|].
        change (bpow radix2 (-24)) with (/ 16777216).
        assert (/ 2000 <= q). { apply Rmult_le_reg_r with r; [lra|]. nra. } nra. }
      clearbody q r. set (w := rnd d (q * c)) in *. clearbody w.
      assert (W : q * c * (1 - @u d) * r <= w * r) by (apply Rmult_le_compat_r; lra).
      replace (q * c * (1 - @u d) * r) with (q * r * (c * (1 - @u d))) in W by ring.
      set (z := q * r) in *. clearbody z. set (e := @u d) in *. clearbody e.
      apply Rle_trans with (2 := W). clear - RA C U Bc.
      apply Rle_trans with ((1 - / 500000) * (c * (1 - e))); [nra|]. apply Rmult_le_compat_r; nra.
    - apply Rle_trans with (1 := G). unfold gg. apply Rmult_le_reg_r with (1 - @u d); [lra|].
      replace ((1 + @u d) * (1 + @u d) * cc d / (1 - @u d) * (1 - @u d)) with ((1 + @u d) * (1 + @u d) * cc d) by (field; lra).
      assert (cc d <= 99999001 / 100000000) by (clear; unfold cc; destruct d; lra).
      assert (0 < cc d) by (clear; unfold cc; destruct d; lra).
      assert ((1 + @u d) * (1 + @u d) <= 1 + / 5000000) by nra.
      apply Rle_trans with ((1 + / 5000000) * (99999001 / 100000000)); [apply Rmult_le_compat; nra | lra].
  Qed.
  Lemma margin_small : 0 < margin d <= / 200.
  Proof. unfold margin. destruct d; lra. Qed.
  Lemma project_inside (x : list (float d)) n k : finite n -> moderate k -> val k < 0 -> val n * root k <= 1 - margin d ->
    project x n k = x.
  Proof.
    intros Fn M K H. destruct (maxnorm_acc k M K) as (FM & PM & A & _). assert (RB := root_bounds k M).
    destruct (@tiny_val d) as (Ft & _ & Bt). assert (MS := margin_small).
    assert (N1 : val n <= val (maxnorm k)). { apply Rmult_le_reg_r with (root k); lra. }
    assert (N2 : val (@tiny d) <= val (maxnorm k)).
    { apply Rmult_le_reg_r with (root k); [lra|]. apply Rle_trans with (/ 999999900000000 * 1000); [|lra].
      apply Rmult_le_compat; lra. }
    unfold project. change (cast e15) with (@tiny d). rewrite lt_val; auto using clamp_min_fin.
    rewrite clamp_min_val by auto. rewrite Rlt_bool_false by (unfold Rmax; destruct Rle_dec; lra).
    unfold where_. apply map_id.
  Qed.
  Lemma project_outside (x : list (float d)) n k : Forall finite x -> finite n -> moderate k -> val k < 0 ->
    1 < val n * root k -> Forall (fun xi => Rabs (val xi) <= 2 * val n) x ->
    Forall2 (fun xi yi => Rabs (val yi * root k - val xi / val n) <= / 80) x (project x n k).
  Proof.
    intros Fx Fn M K H Bx. destruct (maxnorm_acc k M K) as (FM & PM & A1 & A2). assert (RB := root_bounds k M).
    destruct (@tiny_val d) as (Ft & _ & Bt). assert (MS := margin_small).
    assert (N0 : / 1000 < val n). { apply Rmult_lt_reg_r with (root k); [lra|]. lra. }
    assert (N1 : val (maxnorm k) < val n). { apply Rmult_lt_reg_r with (root k); lra. }
    unfold project. change (cast e15) with (@tiny d).
    assert (C : clamp_min n tiny = n). { unfold clamp_min. rewrite lt_val by auto. rewrite Rlt_bool_false; auto. lra. }
    rewrite C, lt_val, Rlt_bool_true by auto. unfold where_.
    set (mx := maxnorm k) in *. clearbody mx. clear C. set (r := root k) in *. clearbody r.
    induction Fx as [|xi x Fi Fx IH]; [constructor|]. inversion_clear Bx as [|? ? Bi Bx']. cbn [map].
    constructor; auto. clear IH.
    assert (Q : Rabs (val xi / val n) <= 2).
    { unfold Rdiv. rewrite Rabs_mult, (Rabs_pos_eq (/ val n)) by (left; apply Rinv_0_lt_compat; lra).
      apply Rmult_le_reg_r with (val n); [lra|]. rewrite Rmult_assoc, Rinv_l by lra. lra. }
    destruct (div_val xi n Fi) as [Fd Vd]; [lra| |].
    { generalize (@big_100 d). lra. }
    assert (R1 := rnd_abs d (val xi / val n)). rewrite <- Vd in R1.
    set (b := val xi / val n) in *. set (q := val (div xi n)) in *.
    assert (Q2 : Rabs q <= 3).
    { replace q with (q - b + b) by ring. apply Rle_trans with (1 := Rabs_triang _ _). lra. }
    assert (M1000 : val mx <= 1000). { apply Rmult_le_reg_r with r; nra. }
    destruct (mul_val (div xi n) mx Fd FM) as [Fm Vm].
    { fold q. rewrite Rabs_mult, (Rabs_pos_eq (val mx)) by lra. apply Rle_trans with 3000; [|generalize (@big_1e30 d); lra].
      replace 3000 with (3 * 1000) by ring. apply Rmult_le_compat; auto using Rabs_pos; lra. }
    fold q in Vm. assert (R2 := rnd_abs d (q * val mx)). rewrite <- Vm in R2.
    set (y := val (mul (div xi n) mx)) in *. clearbody y b q.
    replace (y * r - b) with ((y - q * val mx) * r + (q * (val mx * r - 1) + (q - b))) by ring.
    assert (E1 : Rabs ((y - q * val mx) * r) <= 1003 / 16777216).
    { rewrite Rabs_mult, (Rabs_pos_eq r) by lra.
      apply Rle_trans with ((Rabs (q * val mx) + 1) / 16777216 * r); [apply Rmult_le_compat_r; lra|].
      rewrite Rabs_mult, (Rabs_pos_eq (val mx)) by lra.
      replace ((Rabs q * val mx + 1) / 16777216 * r) with ((Rabs q * (val mx * r) + r) / 16777216) by field.
      assert (0 <= Rabs q) by apply Rabs_pos.
      assert (Rabs q * (val mx * r) <= 3 * 1) by (apply Rmult_le_compat; lra). lra. }
    assert (E2 : Rabs (q * (val mx * r - 1)) <= 201 / 100 * / 200).
    { rewrite Rabs_mult. apply Rmult_le_compat; auto using Rabs_pos.
      - replace q with (q - b + b) by ring. apply Rle_trans with (1 := Rabs_triang _ _). lra.
      - apply Rabs_le. lra. }
    apply Rle_trans with (1 := Rabs_triang _ _).
    assert (T := Rabs_triang (q * (val mx * r - 1)) (q - b)). lra.
  Qed.
  Section Fns.
    Variable log tanh acos : forall d, float d -> float d.
    Hypothesis Hlog : log_ok log.
    Hypothesis Htanh : tanh_ok tanh.

    (** The logarithm of a rounded number. *)
    Lemma log_rnd (a : float d) v : finite a -> bpow radix2 (-24) <= v <= 2 -> val a = rnd d v ->
      Rabs (val (log d a) - ln v) <= Rabs (ln v) / 1024 + / 8000000.
    Proof.
      intros F B V. assert (P24 : 0 < bpow radix2 (-24)) by apply bpow_gt_0.
      assert (N := normal (d := d) v). rewrite <- V in N.
      destruct N as [N1 N2]. { apply Rle_trans with (2 := proj1 B). apply low_le. lia. }
      assert (U := FloatProofs4.u_small (d := d)).
      assert (L := ln_near v (val a) (@u d) ltac:(lra) ltac:(lra) ltac:(lra)).
      destruct (proj1 Hlog d a F) as [_ E]; [nra|].
      replace (val (log d a) - ln v) with ((val (log d a) - ln (val a)) + (ln (val a) - ln v)) by ring.
      apply Rle_trans with (1 := Rabs_triang _ _).
      assert (T := Rabs_triang (ln (val a) - ln v) (ln v)).
      replace (ln (val a) - ln v + ln v) with (ln (val a)) in T by ring. lra.
    Qed.
    Lemma artanh_acc x : finite x -> Rabs (val x) <= 1 - / 1000000 ->
      Rabs (val (artanh log x) - atanh (val x)) <= Rabs (atanh (val x)) / 1000 + / 1000000.
    Proof.
      intros F B. destruct (artanh_val log Hlog x (fin_not_nan x F)) as (_ & _ & V). cbv zeta in V.
      destruct (clamp_unit_ok x (fin_not_nan x F)) as (Fc & _ & A). assert (C := clamp_unit_id x F B).
      destruct (log_arg _ Fc A) as (F1 & B1 & V1). destruct (log_arg' _ Fc A) as (F2 & B2 & V2).
      rewrite C in *. set (v := val x) in *. 
      assert (S := atanh_signs v). apply Rabs_le_inv in B.
      assert (P24 : bpow radix2 (-24) <= / 1000000) by (change (bpow radix2 (-24)) with (/ 16777216); lra).
      assert (E1 := log_rnd _ (1 + v) F1 ltac:(lra) V1). assert (E2 := log_rnd _ (1 - v) F2 ltac:(lra) V2).
      rewrite V. set (l1 := val (log d (add (of_Z 1) (clamp_unit x)))) in *.
      set (l2 := val (log d (sub (of_Z 1) (clamp_unit x)))) in *.
      specialize (S ltac:(lra)).
      assert (A0 := Rabs_pos (atanh v)). set (t := Rabs (atanh v)) in *.
      assert (D : Rabs ((l1 - l2) - 2 * atanh v) <= 2 * t / 1024 + 2 / 8000000).
      { replace ((l1 - l2) - 2 * atanh v) with ((l1 - ln (1 + v)) - (l2 - ln (1 - v))) by (unfold atanh; field).
        unfold Rminus at 1. apply Rle_trans with (1 := Rabs_triang _ _). rewrite Rabs_Ropp. lra. }
      assert (D' : Rabs (l1 - l2) <= 3 * t + 1).
      { replace (l1 - l2) with ((l1 - l2 - 2 * atanh v) + 2 * atanh v) by ring.
        apply Rle_trans with (1 := Rabs_triang _ _). rewrite (Rabs_mult 2), (Rabs_pos_eq 2) by lra. fold t. lra. }
      assert (R1 := rnd_abs d (l1 - l2)). set (r := rnd d (l1 - l2)) in *.
      assert (R2 := rnd_abs d (r * / 2)). set (r2 := rnd d (r * / 2)) in *.
      assert (D2 : Rabs (r * / 2) <= 2 * t + 1).
      { rewrite Rabs_mult, (Rabs_pos_eq (/ 2)) by lra.
        assert (T := Rabs_triang (r - (l1 - l2)) (l1 - l2)). replace (r - (l1 - l2) + (l1 - l2)) with r in T by ring. lra. }
      replace (r2 - atanh v) with ((r2 - r * / 2) + (/ 2 * (r - (l1 - l2)) + / 2 * (l1 - l2 - 2 * atanh v))) by field.
      apply Rle_trans with (1 := Rabs_triang _ _).
      assert (T := Rabs_triang (/ 2 * (r - (l1 - l2))) (/ 2 * (l1 - l2 - 2 * atanh v))).
      rewrite !Rabs_mult, (Rabs_pos_eq (/ 2)) in T by lra. lra.
    Qed.
    Lemma artan_k_acc x k : finite x -> moderate k -> Rabs (val x) * root k <= 9 / 10 ->
      Rabs (val (artan_k log x k) * root k - atanh (val x * root k)) <= / 200.
    Proof.
      intros Fx M B. assert (RB := root_bounds k M). assert (X := Rabs_pos (val x)).
      destruct (arg_acc x k Fx M) as [Fa Ea]; [nra|].
      assert (Y : Rabs (val x * root k) <= 9 / 10) by (rewrite Rabs_mult, (Rabs_pos_eq (root k)); lra).
      assert (RA := recip_acc k M).
      destruct (artan_k_ok log Hlog x k (fin_not_nan x Fx) (proj1 M)) as (_ & _ & V).
      assert (Ea' : Rabs (val (mul x (k_sqrt k)) - val x * root k) <= / 100000) by lra.
      assert (E0 := atanh_near _ _ Y Ea').
      set (a := mul x (k_sqrt k)) in *. set (y := val x * root k) in *.
      assert (Ya : Rabs (val a) <= 91 / 100).
      { replace (val a) with (val a - y + y) by ring. apply Rle_trans with (1 := Rabs_triang _ _). lra. }
      assert (E1 := artanh_acc a Fa ltac:(lra)).
      assert (T2 : Rabs (atanh y) <= 3).
      { assert (S := atanh_signs y). apply Rabs_le_inv in Y.
        assert (L1 : - INR 4 <= ln (1 + y)) by (apply ln_lower; lra).
        assert (L2 : - INR 4 <= ln (1 - y)) by (apply ln_lower; lra).
        assert (L3 : ln (1 + y) <= INR 1 * (72 / 100)) by (apply ln_upper_pos; lra).
        assert (L4 : ln (1 - y) <= INR 1 * (72 / 100)) by (apply ln_upper_pos; lra).
        cbn in L1, L2, L3, L4. unfold atanh. apply Rabs_le. lra. }
      rewrite V. set (q := val (recip (k_sqrt k))) in *. set (r := root k) in *.
      set (t := val (artanh log a)) in *. set (ty := atanh y) in *. set (ta := atanh (val a)) in *.
      assert (Ta : Rabs ta <= 301 / 100).
      { replace ta with (ta - ty + ty) by ring. apply Rle_trans with (1 := Rabs_triang _ _). lra. }
      assert (D : Rabs (t - ty) <= 42 / 10000).
      { replace (t - ty) with ((t - ta) + (ta - ty)) by ring. apply Rle_trans with (1 := Rabs_triang _ _). lra. }
      assert (T3 : Rabs t <= 4).
      { replace t with (t - ty + ty) by ring. apply Rle_trans with (1 := Rabs_triang _ _). lra. }
      apply scaled; auto; lra.
    Qed.
    Lemma stereo_dist_acc x k : finite x -> moderate k -> Rabs (val x) * root k <= 9 / 10 ->
      Rabs (val (stereo_dist log x k) * root k - 2 * atanh (val x * root k)) <= / 90.
    Proof.
      intros Fx M B. assert (A := artan_k_acc x k Fx M B).
      destruct (artan_k_ok log Hlog x k (fin_not_nan x Fx) (proj1 M)) as (Fa & Ba & _).
      destruct (stereo_dist_ok log Hlog x k (fin_not_nan x Fx) (proj1 M)) as [_ V]. rewrite V.
      assert (RB := root_bounds k M).
      assert (G : rnd d (2 * val (artan_k log x k)) = 2 * val (artan_k log x k)).
      { apply rnd_id. rewrite Rmult_comm. change 2 with (bpow radix2 1).
        apply (mult_bpow_pos_exact_FLT radix2 (emin d) (prec d)); [apply gf_val | lia]. }
      rewrite G. set (a := val (artan_k log x k)) in *. set (t := atanh _) in *.
      replace (2 * a * root k - 2 * t) with (2 * (a * root k - t)) by ring.
      rewrite Rabs_mult, (Rabs_pos_eq 2) by lra. lra.
    Qed.

    (** tan_k *)
    Lemma tan_k_acc x k : finite x -> moderate k -> Rabs (val x) <= 1000000 ->
      Rabs (val (tan_k tanh x k) * root k - Rtrigo_def.tanh (val x * root k)) <= / 200.
    Proof.
      intros Fx M B. assert (RB := root_bounds k M). assert (RA := recip_acc k M).
      destruct (arg_acc x k Fx M B) as [Fa Ea]. set (y := val x * root k) in *.
      set (a := mul x (k_sqrt k)) in *.
      destruct (of_Z_val (d := d) (-15)) as [Fl Vl]; [clear; destruct d; reflexivity|].
      destruct (of_Z_val (d := d) 15) as [Fh Vh]; [clear; destruct d; reflexivity|].
      assert (Fc : finite (clamp a (of_Z (-15)) (of_Z 15))) by (apply clamp_ok; auto using fin_not_nan; lra).
      assert (Vc : val (clamp a (of_Z (-15)) (of_Z 15)) = Rmin (Rmax (val a) (-15)) 15).
      { unfold clamp. rewrite clamp_max_val, clamp_min_val, Vl, Vh; auto using clamp_min_fin. }
      destruct (Htanh d _ Fc) as (Ft & Bt & Et).
      destruct (recip_val k (proj1 M)) as (Fr & _ & Br).
      destruct (mul_val (recip (k_sqrt k)) (tanh_ tanh a) Fr Ft) as [G V].
      { rewrite Rabs_mult. apply Rle_trans with (bpow radix2 25 * 1).
        - apply Rmult_le_compat; auto using Rabs_pos. rewrite Rabs_pos_eq; [lra|].
          apply Rle_trans with (2 := proj1 Br), bpow_ge_0.
        - rewrite Rmult_1_r. apply big_ge. lia. }
      unfold tan_k. fold a. rewrite V. apply scaled; auto.
      - unfold tanh_. set (T := val (tanh d _)) in *. rewrite Vc in Et. clearbody T.
        assert (K : Rabs (th (Rmin (Rmax (val a) (-15)) 15) - th y) <= / 500).
        { assert (Y : y <= Rabs y /\ - y <= Rabs y). { split; [apply Rle_abs|]. rewrite <- Rabs_Ropp. apply Rle_abs. }
          apply Rabs_le_inv in Ea. set (v := val a) in *. clearbody v y.
          destruct (Rlt_or_le 15 v) as [C1|C1]; [|destruct (Rlt_or_le v (-15)) as [C2|C2]].
          - rewrite Rmax_left, Rmin_right by lra.
            assert (Y14 : 14 <= y). { revert Ea Y. unfold Rabs. destruct Rcase_abs; lra. }
            assert (P := tanh_14 y Y14). assert (Q := tanh_14 15 ltac:(lra)). apply Rabs_le. lra.
          - rewrite Rmax_right, Rmin_left by lra.
            assert (Y14 : y <= -14). { revert Ea Y. unfold Rabs. destruct Rcase_abs; lra. }
            assert (P := tanh_m14 y Y14). assert (Q := tanh_m14 (-15) ltac:(lra)). apply Rabs_le. lra.
          - rewrite Rmax_left, Rmin_left by lra. apply tanh_near. apply Rabs_le.
            revert Ea Y. unfold Rabs. destruct Rcase_abs; lra. }
        replace (T - th y) with ((T - th (Rmin (Rmax (val a) (-15)) 15)) + (th (Rmin (Rmax (val a) (-15)) 15) - th y)) by ring.
        apply Rle_trans with (1 := Rabs_triang _ _). lra.
      - apply Rle_trans with 1; [exact Bt|lra].
    Qed.
  End Fns.
End D.
