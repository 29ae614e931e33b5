(** Lemmas: the triangle inequality and distributivity with the library's 1e-15
    under the square root of |k|. *)
From Coq Require Import Reals Lra Psatz Lia.
From Coquelicot Require Import Coquelicot.
From Verif Require Import RVec StereoModel StereoSpec GyroAlgebra StereoTrig StereoProofs StereoProofs2 StereoProofs3
  StereoProofs4 StereoTaylor.
Local Open Scope R_scope.

Lemma ln_le_sub u : 0 < u -> ln u <= u - 1.
Proof.
  intros U. destruct (Req_dec u 1) as [->|N]; [rewrite ln_1; lra|].
  assert (ln u <> 0) by (intros E; apply N, ln_inv; [assumption|lra|rewrite ln_1; assumption]).
  pose proof (exp_ineq1 (ln u) H). rewrite exp_ln in H0 by assumption. lra.
Qed.
Lemma ln_diff_le a b : 0 < a -> 0 < b -> ln b - ln a <= (b - a) / a.
Proof.
  intros A B. assert (Q : ln b - ln a = ln (b / a)).
  { unfold Rdiv. rewrite ln_mult, ln_Rinv by (assumption || apply Rinv_0_lt_compat, A). ring. }
  rewrite Q. eapply Rle_trans; [apply ln_le_sub|].
  - apply Rdiv_lt_0_compat; assumption.
  - right. field. lra.
Qed.
Lemma atanh_diff z w : 0 <= z -> z <= w -> w < 1 -> atanh w - atanh z <= (w - z) * (1 + / (1 - w)) / 2.
Proof.
  intros Z W L. unfold atanh.
  assert (A := ln_diff_le (1 + z) (1 + w) ltac:(lra) ltac:(lra)).
  assert (B := ln_diff_le (1 - w) (1 - z) ltac:(lra) ltac:(lra)).
  assert (C : (1 + w - (1 + z)) / (1 + z) <= w - z).
  { replace (1 + w - (1 + z)) with (w - z) by ring. unfold Rdiv. rewrite <- (Rmult_1_r (w - z)) at 2.
    apply Rmult_le_compat_l; [lra|]. rewrite <- Rinv_1. apply Rinv_le_contravar; lra. }
  replace ((1 - z - (1 - w)) / (1 - w)) with ((w - z) * / (1 - w)) in B by (field; lra). lra.
Qed.

(** artanh at slightly larger arguments, relatively *)
Lemma atanh_stretch z t : 0 <= z -> 1 <= t -> t * z <= 1 - e7 ->
  atanh (t * z) <= t * ((1 + 5000001 * (t - 1)) * atanh z).
Proof.
  intros Z T L. pose proof e7_val as V. destruct Z as [Z|<-].
  2:{ rewrite Rmult_0_r, atanh_0. lra. }
  assert (z <= t * z) by nra. assert (A := atanh_diff z (t * z) ltac:(lra) H ltac:(lra)).
  assert (B : / (1 - t * z) <= 10000000).
  { replace 10000000 with (/ e7) by (rewrite V; field). apply Rinv_le_contravar; lra. }
  assert (C := atanh_above z ltac:(lra)).
  assert (D : (t * z - z) * (1 + / (1 - t * z)) / 2 <= 5000001 * (t - 1) * z).
  { replace (t * z - z) with ((t - 1) * z) by ring. assert (0 <= (t - 1) * z) by (apply Rmult_le_pos; lra). nra. }
  assert (E : 5000001 * (t - 1) * z <= 5000001 * (t - 1) * atanh z) by (apply Rmult_le_compat_l; lra).
  assert (F : atanh (t * z) <= (1 + 5000001 * (t - 1)) * atanh z) by lra.
  assert (0 <= (1 + 5000001 * (t - 1)) * atanh z) by (apply Rmult_le_pos; lra). nra.
Qed.
Lemma artanh_c_min a : 0 <= a -> artanh_c a = atanh (Rmin a (1 - e7)).
Proof.
  intros A. pose proof e7_val. rewrite artanh_c_as. f_equal. unfold clamp. rewrite Rmax_left by lra. reflexivity.
Qed.
Lemma artanh_c_stretch z t : 0 <= z -> 1 <= t -> artanh_c (t * z) <= t * ((1 + 5000001 * (t - 1)) * artanh_c z).
Proof.
  intros Z T. pose proof e7_val. assert (z <= t * z) by nra. rewrite !artanh_c_min by lra.
  destruct (Rle_lt_dec (t * z) (1 - e7)) as [L|L].
  - rewrite !Rmin_left by lra. apply atanh_stretch; assumption.
  - rewrite (Rmin_right (t * z)) by lra.
    set (w := (1 - e7) / t). assert (Ew : t * w = 1 - e7) by (unfold w; field; lra).
    assert (Wp : 0 < w) by (apply Rdiv_lt_0_compat; lra).
    assert (W : w <= Rmin z (1 - e7)).
    { apply Rmin_glb; [apply Rmult_le_reg_l with t; lra|nra]. }
    rewrite <- Ew at 1. eapply Rle_trans; [apply atanh_stretch; lra|].
    apply Rmult_le_compat_l; [lra|]. apply Rmult_le_compat_l; [nra|].
    apply atanh_le; [lra|assumption|]. pose proof (Rmin_r z (1 - e7)). lra.
Qed.

Section P.
  Variable n : nat.
  Implicit Types x y z u v w : vec.

  Lemma rt_ratio e k : 0 <= e -> k <> 0 ->
    k_sqrt 0 k <= k_sqrt e k /\ k_sqrt e k / k_sqrt 0 k <= 1 + e / Rabs k / 2.
  Proof.
    intros E K. assert (Kp : 0 < Rabs k) by (apply Rabs_pos_lt, K).
    assert (S0 := k_sqrt_pos 0 k ltac:(lra) (or_introl K)). assert (S1 := k_sqrt_pos e k E (or_introl K)).
    assert (Q0 := k_sqrt_sq 0 k ltac:(lra)). assert (Q1 := k_sqrt_sq e k E).
    set (a := k_sqrt 0 k) in *. set (b := k_sqrt e k) in *. assert (L : a <= b) by nra. split; [exact L|].
    replace (e / Rabs k) with ((b * b - a * a) / (a * a)) by (rewrite Q0, Q1; field; lra).
    set (r := b / a). assert (Er : b = r * a) by (unfold r; field; lra). rewrite Er.
    replace ((r * a * (r * a) - a * a) / (a * a)) with (r * r - 1) by (field; lra).
    pose proof (Rle_0_sqr (r - 1)). unfold Rsqr in *. nra.
  Qed.

  (** the two computed artan's of one length *)
  Lemma artan_k_stretch e k a : 0 <= e -> k < - e8 \/ e8 < k -> 0 <= a ->
    let t := k_sqrt e k / k_sqrt 0 k in
    artan_k e a k <= (1 + 5000001 * (t - 1)) * artan_k 0 a k /\ artan_k 0 a k <= t * artan_k e a k.
  Proof.
    intros E K A t. pose proof e8_pos. assert (Kn : k <> 0) by (destruct K; lra).
    destruct (rt_ratio e k E Kn) as [L _].
    assert (S0 := k_sqrt_pos 0 k ltac:(lra) (or_introl Kn)). assert (S1 := k_sqrt_pos e k E (or_introl Kn)).
    assert (T1 : 1 <= t).
    { unfold t. apply Rmult_le_reg_r with (k_sqrt 0 k); [assumption|]. unfold Rdiv. rewrite Rmult_assoc, Rinv_l by lra. lra. }
    assert (Et : k_sqrt e k = t * k_sqrt 0 k) by (unfold t; field; lra).
    assert (Ri : 0 < / k_sqrt 0 k) by (apply Rinv_0_lt_compat, S0).
    set (s := k_sqrt 0 k) in *.
    assert (As : 0 <= a * s) by (apply Rmult_le_pos; lra).
    assert (Inv : / (t * s) = / t * / s) by (field; lra).
    assert (Rt : 0 < / t) by (apply Rinv_0_lt_compat; lra).
    destruct K as [K|K].
    - rewrite !artan_k_neg by auto. fold s. rewrite Et, Inv. replace (a * (t * s)) with (t * (a * s)) by ring. split.
      + assert (H1 := artanh_c_stretch (a * s) t As T1).
        apply (Rmult_le_compat_l (/ t * / s)) in H1; [|apply Rmult_le_pos; lra].
        eapply Rle_trans; [apply H1|]. right. field. lra.
      + replace (t * (/ t * / s * artanh_c (t * (a * s)))) with (/ s * artanh_c (t * (a * s))) by (field; lra).
        apply Rmult_le_compat_l; [lra|]. apply artanh_c_mono. nra.
    - rewrite !artan_k_pos by auto. fold s. rewrite Et, Inv. replace (a * (t * s)) with (t * (a * s)) by ring.
      assert (At : forall p q, p <= q -> atan p <= atan q).
      { intros p q [P|<-]; [left; apply atan_increasing, P|lra]. }
      assert (Pa : 0 <= atan (a * s)) by (rewrite <- atan_0; apply At, As).
      split.
      + assert (H1 : atan (t * (a * s)) <= t * atan (a * s)).
        { set (b := a * s) in *.
          apply (bounds (fun q : R => atan (t * q)) (fun q : R => t * atan q) (fun q : R => t * / (1 + (t * q) ^ 2))
            (fun q : R => t * / (1 + q ^ 2)) b).
          - exact As.
          - rewrite Rmult_0_r, atan_0. ring.
          - intros q V. apply (is_derive_comp atan (fun q : R => t * q) q (/ (1 + (t * q) ^ 2)) t); [apply atan_derive|].
            auto_derive; [trivial|ring].
          - intros q V. apply (is_derive_scal atan q t (/ (1 + q ^ 2))), atan_derive.
          - intros q V. apply Rmult_le_compat_l; [lra|]. apply Rinv_le_contravar; [nra|].
            assert (q ^ 2 <= (t * q) ^ 2); [|lra]. rewrite Rpow_mult_distr. rewrite <- (Rmult_1_l (q ^ 2)) at 1.
            apply Rmult_le_compat_r; [apply pow2_ge_0|]. nra. }
        apply (Rmult_le_compat_l (/ t * / s)) in H1; [|apply Rmult_le_pos; lra].
        replace (/ t * / s * (t * atan (a * s))) with (1 * (/ s * atan (a * s))) in H1 by (field; lra).
        eapply Rle_trans; [apply H1|]. apply Rmult_le_compat_r; [apply Rmult_le_pos; lra|]. nra.
      + replace (t * (/ t * / s * atan (t * (a * s)))) with (/ s * atan (t * (a * s))) by (field; lra).
        apply Rmult_le_compat_l; [lra|]. apply At. nra.
  Qed.

  Lemma triangle_library e k x y z : 0 <= e <= e15 -> closed_form k -> k <> 0 ->
    in_domain n k x -> in_domain n k y -> in_domain n k z ->
    regular n k (vopp x) y -> regular n k (vopp y) z -> regular n k (vopp x) z ->
    dist n e k x z <= (1 + 3 * 10 ^ 6 * e / Rabs k) * (dist n e k x y + dist n e k y z).
  Proof.
    intros [E E1] K Kn Dx Dy Dz R1 R2 R3.
    assert (K' : k < - e8 \/ e8 < k) by (destruct K as [K|K]; [contradiction|exact K]).
    assert (Tri := triangle n k x y z K Dx Dy Dz R1 R2 R3). unfold dist in *.
    destruct (artan_k_stretch e k _ E K' (nrm_nonneg n (mobius_add n k (vopp x) z))) as [A _].
    destruct (artan_k_stretch e k _ E K' (nrm_nonneg n (mobius_add n k (vopp x) y))) as [_ B].
    destruct (artan_k_stretch e k _ E K' (nrm_nonneg n (mobius_add n k (vopp y) z))) as [_ C].
    destruct (rt_ratio e k E Kn) as [L T]. cbv zeta in *.
    assert (S0 := k_sqrt_pos 0 k ltac:(lra) (or_introl Kn)).
    assert (Nb := artan_k_nonneg e k _ E K (nrm_nonneg n (mobius_add n k (vopp x) y))).
    assert (Nc := artan_k_nonneg e k _ E K (nrm_nonneg n (mobius_add n k (vopp y) z))).
    set (t := k_sqrt e k / k_sqrt 0 k) in *.
    assert (T1 : 1 <= t).
    { unfold t. apply Rmult_le_reg_r with (k_sqrt 0 k); [assumption|]. unfold Rdiv. rewrite Rmult_assoc, Rinv_l by lra. lra. }
    set (a := artan_k e _ k) in *.
    set (b := artan_k e (nrm n (mobius_add n k (vopp x) y)) k) in *.
    set (c := artan_k e (nrm n (mobius_add n k (vopp y) z)) k) in *.
    set (a0 := artan_k 0 (nrm n (mobius_add n k (vopp x) z)) k) in *.
    assert (Kp : e8 < Rabs k).
    { destruct K'; pose proof e8_pos; [rewrite Rabs_left by lra|rewrite Rabs_right by lra]; lra. }
    pose proof e8_val as V8. pose proof e15_val as V15.
    assert (Hh : 0 <= e / Rabs k <= / 10000000).
    { split; [apply Rmult_le_pos; [lra|left; apply Rinv_0_lt_compat; lra]|].
      apply Rmult_le_reg_r with (Rabs k); [lra|]. unfold Rdiv. rewrite Rmult_assoc, Rinv_l by lra. lra. }
    replace (3 * 10 ^ 6 * e / Rabs k) with (3000000 * (e / Rabs k)) by (unfold Rdiv; ring).
    set (h := e / Rabs k) in *.
    assert (F : (1 + 5000001 * (t - 1)) * t <= 1 + 3000000 * h).
    { set (d := t - 1) in *. replace t with (1 + d) by (unfold d; ring). assert (0 <= d <= h / 2) by (unfold d; lra).
      assert (d * d <= h / 2 * (/ 10000000 / 2)) by (apply Rmult_le_compat; lra). nra. }
    assert (G : (1 + 5000001 * (t - 1)) * a0 <= (1 + 5000001 * (t - 1)) * (t * (b + c))).
    { apply Rmult_le_compat_l; [nra|]. lra. }
    assert (H := Rmult_le_compat_r (b + c) _ _ ltac:(lra) F). lra.
  Qed.

  (** in the ball every hypothesis follows from the points being projected ones *)
  Lemma triangle_ball e k x y z : 0 <= e <= e15 -> k < - / 10 ^ 8 -> safe n k x -> safe n k y -> safe n k z ->
    dist n e k x z <= (1 + 3 * 10 ^ 6 * e / (- k)) * (dist n e k x y + dist n e k y z).
  Proof.
    intros E K X Y Z. pose proof e8_pos as E8. unfold e8 in E8. rewrite <- (Rabs_left k) by lra.
    apply triangle_library; [exact E|right; left; exact K|lra| | | | | |].
    - apply safe_in_domain; [lra|exact X].
    - apply safe_in_domain; [lra|exact Y].
    - apply safe_in_domain; [lra|exact Z].
    - apply safe_regular; [lra|apply safe_opp, X|apply safe_in_domain; [lra|exact Y]].
    - apply safe_regular; [lra|apply safe_opp, Y|apply safe_in_domain; [lra|exact Z]].
    - apply safe_regular; [lra|apply safe_opp, X|apply safe_in_domain; [lra|exact Z]].
  Qed.
End P.
