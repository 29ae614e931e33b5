(** Lemmas: the antipode function. *)
From Coq Require Import Reals Lra Psatz FunctionalExtensionality.
From Coquelicot Require Import Coquelicot.
From Verif Require Import RVec StereoModel StereoSpec StereoTrig StereoProofs4 StereoTaylor PiBounds.
Local Open Scope R_scope.

Notation code_pi := (3141592653589793 / 10 ^ 15).

Lemma tan_code_pi : 8 * 10 ^ 15 <= tan (code_pi / 2).
Proof.
  pose proof PI_code as [L H]. set (d := PI / 2 - code_pi / 2).
  assert (D : 0 < d <= 12 / 10 ^ 17) by (unfold d; lra).
  replace (code_pi / 2) with (PI / 2 - d) by (unfold d; ring).
  unfold tan. rewrite sin_shift, cos_shift.
  assert (S0 : 0 < sin d) by (apply sin_gt_0; [lra|]; pose proof PI_code; lra).
  pose proof (sin_t1 d ltac:(lra)) as S1. pose proof (cos_t2 d ltac:(lra)) as C1.
  apply Rmult_le_reg_r with (sin d); [exact S0|]. unfold Rdiv at 1. rewrite (Rmult_assoc (cos d)), Rinv_l, Rmult_1_r by lra.
  assert (8 * 10 ^ 15 * sin d <= 96 / 100) by (apply Rle_trans with (8 * 10 ^ 15 * (12 / 10 ^ 17)); [apply Rmult_le_compat_l; lra|lra]).
  assert (d ^ 2 <= 1 / 100) by (simpl; assert (d <= 1 / 10) by lra; nra). lra.
Qed.

(** the angle handed to tan_k *)
Lemma tan_k_half e k : 0 <= e -> e8 < k ->
  tan_k e (code_pi * / sqrt (sabs e k) / 2) k = / k_sqrt e k * tan (code_pi / 2).
Proof.
  intros E K. pose proof e8_pos. rewrite tan_k_pos by exact K. fold (k_sqrt e k).
  pose proof (k_sqrt_pos e k E ltac:(left; lra)) as S0.
  replace (code_pi * / k_sqrt e k / 2 * k_sqrt e k) with (code_pi / 2) by (field; lra).
  rewrite clamp_max_id; [reflexivity|]. pose proof PI_code. pose proof PI2_lt_10. lra.
Qed.

Section Row.
  Variable n : nat.
  Implicit Types x : vec.

  Lemma add_collinear k c x : e15 <= (1 - k * c * dot n x x) ^ 2 ->
    mobius_add n k x (smul c x) = smul ((1 + c) / (1 - k * c * dot n x x)) x.
  Proof.
    intros D. pose proof e15_pos.
    assert (NZ : 1 - k * c * dot n x x <> 0) by (intros Z; rewrite Z in D; simpl in D; lra).
    unfold mobius_add, mobius_num, mobius_den. rewrite !dot_smul_l, !dot_smul_r.
    set (R2 := dot n x x) in *. rewrite clamp_min_id.
    - apply functional_extensionality. intros i. unfold vdiv, vadd, smul. field.
      replace (1 - 2 * k * (c * R2) + k ^ 2 * R2 * (c * (c * R2))) with ((1 - k * c * R2) ^ 2) by ring.
      split; [exact NZ|apply pow_nonzero, NZ].
    - replace (1 - 2 * k * (c * R2) + k ^ 2 * R2 * (c * (c * R2))) with ((1 - k * c * R2) ^ 2) by ring. exact D.
  Qed.

  Definition reach e k : R := / k_sqrt e k * tan (code_pi / 2).
  Lemma reach_big e k : 0 <= e -> e8 < k -> 8 * 10 ^ 15 / k_sqrt e k <= reach e k.
  Proof.
    intros E K. pose proof e8_pos. unfold reach, Rdiv. rewrite Rmult_comm. apply Rmult_le_compat_l.
    - left. apply Rinv_0_lt_compat, k_sqrt_pos; [exact E|left; lra].
    - apply tan_code_pi.
  Qed.
  Lemma antipode_value e k x : 0 <= e -> e8 < k -> e15 <= nrm n x ->
    2 * k_sqrt e k <= k * nrm n x * (8 * 10 ^ 15) ->
    1 <= k * nrm n x * reach e k - 1 /\
    antipode n e k x = smul ((1 + reach e k / nrm n x) / (1 - k * nrm n x * reach e k)) x.
  Proof.
    intros E K N G. pose proof e8_pos. pose proof e15_pos. set (r := nrm n x) in *.
    pose proof (k_sqrt_pos e k E ltac:(left; lra)) as S0. pose proof (reach_big e k E K) as T1.
    assert (W : 1 <= k * r * reach e k - 1).
    { assert (KR : 0 < k * r) by (apply Rmult_lt_0_compat; lra).
      apply Rle_trans with (k * r * (8 * 10 ^ 15 / k_sqrt e k) - 1).
      - assert (2 <= k * r * (8 * 10 ^ 15 / k_sqrt e k)); [|lra].
        apply Rmult_le_reg_r with (k_sqrt e k); [exact S0|].
        replace (k * r * (8 * 10 ^ 15 / k_sqrt e k) * k_sqrt e k) with (k * r * (8 * 10 ^ 15)) by (field; lra). exact G.
      - assert (k * r * (8 * 10 ^ 15 / k_sqrt e k) <= k * r * reach e k) by (apply Rmult_le_compat_l; lra). lra. }
    split; [exact W|].
    unfold antipode. destruct (Rle_dec k 0) as [?|_]; [lra|]. cbv zeta. unfold geodesic_unit.
    rewrite tan_k_half by assumption. fold (reach e k). fold r. rewrite clamp_min_id by exact N.
    rewrite nrm_vdiv by lra. fold r. rewrite (Rabs_right r) by lra. replace (r / r) with 1 by (field; lra).
    rewrite clamp_min_id by (rewrite e15_val; lra).
    replace (smul (reach e k) (vdiv (vdiv x r) 1)) with (smul (reach e k / r) x)
      by (apply functional_extensionality; intros i; unfold smul, vdiv; field; lra).
    rewrite add_collinear.
    - rewrite <- nrm_sq. fold r. f_equal. f_equal. f_equal. field. lra.
    - rewrite <- nrm_sq. fold r. replace (k * (reach e k / r) * (r * r)) with (k * r * reach e k) by (field; lra).
      rewrite e15_val. nra.
  Qed.
  Lemma antipode_close e k x : 0 <= e -> e8 < k -> e15 <= nrm n x ->
    2 * sqrt (k + e) <= k * nrm n x * (8 * 10 ^ 15) ->
    nrm n (vsub (antipode n e k x) (smul (- / (k * nrm n x ^ 2)) x)) <=
      (1 + k * nrm n x ^ 2) / (k * nrm n x) * / (k * nrm n x * (8 * 10 ^ 15) / sqrt (k + e) - 1).
  Proof.
    intros E K N G. pose proof e8_pos. pose proof e15_pos.
    assert (EQ : k_sqrt e k = sqrt (k + e)) by (unfold k_sqrt, sabs; rewrite Rabs_right by lra; reflexivity).
    rewrite <- EQ in *. pose proof (k_sqrt_pos e k E ltac:(left; lra)) as S0. pose proof (reach_big e k E K) as T1.
    destruct (antipode_value e k x E K N G) as [W ->]. set (r := nrm n x) in *. set (T := reach e k) in *.
    assert (KR : 0 < k * r) by (apply Rmult_lt_0_compat; lra).
    replace (vsub (smul ((1 + T / r) / (1 - k * r * T)) x) (smul (- / (k * r ^ 2)) x))
      with (smul ((1 + k * r ^ 2) / (k * r ^ 2 * (1 - k * r * T))) x).
    2:{ apply functional_extensionality; intros i. unfold vsub, vadd, vopp, smul. field. repeat split; lra. }
    rewrite nrm_smul. fold r.
    assert (A : Rabs ((1 + k * r ^ 2) / (k * r ^ 2 * (1 - k * r * T))) = (1 + k * r ^ 2) / (k * r ^ 2) * / (k * r * T - 1)).
    { replace ((1 + k * r ^ 2) / (k * r ^ 2 * (1 - k * r * T))) with (- ((1 + k * r ^ 2) / (k * r ^ 2) * / (k * r * T - 1))) by (field; repeat split; lra).
      rewrite Rabs_Ropp, Rabs_right; [reflexivity|]. apply Rle_ge. assert (0 < r ^ 2) by (apply pow_lt; lra).
      assert (0 < k * r ^ 2) by (apply Rmult_lt_0_compat; lra).
      apply Rmult_le_pos; [apply Rmult_le_pos; [lra|left; apply Rinv_0_lt_compat; lra]|left; apply Rinv_0_lt_compat; lra]. }
    rewrite A. replace ((1 + k * r ^ 2) / (k * r ^ 2) * / (k * r * T - 1) * r) with ((1 + k * r ^ 2) / (k * r) * / (k * r * T - 1)) by (field; repeat split; lra).
    assert (0 < k * r ^ 2) by (apply Rmult_lt_0_compat; [lra|apply pow_lt; lra]).
    apply Rmult_le_compat_l; [apply Rmult_le_pos; [lra|left; apply Rinv_0_lt_compat; lra]|].
    assert (2 <= k * r * (8 * 10 ^ 15) / k_sqrt e k).
    { apply Rmult_le_reg_r with (k_sqrt e k); [exact S0|]. unfold Rdiv. rewrite (Rmult_assoc (k * r * (8 * 10 ^ 15))), Rinv_l, Rmult_1_r by lra. exact G. }
    apply Rinv_le_contravar; [lra|].
    assert (k * r * (8 * 10 ^ 15) / k_sqrt e k <= k * r * T); [|lra].
    replace (k * r * (8 * 10 ^ 15) / k_sqrt e k) with (k * r * (8 * 10 ^ 15 / k_sqrt e k)) by (unfold Rdiv; ring).
    apply Rmult_le_compat_l; lra.
  Qed.
  Lemma antipode_flat e k x : k <= 0 -> antipode n e k x = vopp x.
  Proof. intros K. unfold antipode. destruct Rle_dec; [reflexivity|lra]. Qed.
  Lemma antipode_origin e k : antipode n e k vzero = vzero.
  Proof.
    unfold antipode. assert (V : forall c, vdiv vzero c = vzero) by (intros c; apply functional_extensionality; intros i; unfold vdiv, vzero, Rdiv; ring).
    assert (M : forall c, smul c vzero = vzero) by (intros c; apply functional_extensionality; intros i; unfold smul, vzero; ring).
    destruct Rle_dec.
    - apply functional_extensionality; intros i; unfold vopp, vzero; ring.
    - cbv zeta. unfold geodesic_unit. rewrite !V, M. unfold mobius_add, mobius_num. rewrite !M.
      replace (vadd vzero vzero) with vzero by (apply functional_extensionality; intros i; unfold vadd, vzero; ring). apply V.
  Qed.
End Row.

(** * concrete points *)
Lemma ks_one : k_sqrt e15 1 <= 1 + e15 /\ 1 <= k_sqrt e15 1.
Proof.
  pose proof e15_pos. unfold k_sqrt, sabs. rewrite (Rabs_right 1) by lra. split.
  - apply Rsqr_incr_0_var; [|lra]. unfold Rsqr. rewrite sqrt_sqrt; nra.
  - rewrite <- sqrt_1 at 1. apply sqrt_le_1_alt. lra.
Qed.
Lemma antipode_half_hyps : e15 <= nrm 1 (pt (1 / 2)) /\ 2 * k_sqrt e15 1 <= 1 * nrm 1 (pt (1 / 2)) * (8 * 10 ^ 15).
Proof. rewrite nrm1, Rabs_right by lra. pose proof ks_one as [A _]. rewrite e15_val in *. lra. Qed.
(** [dist(x, antipode(x))] is not half a great circle *)
Lemma antipode_dist : dist 1 e15 1 (pt (1 / 2)) (antipode 1 e15 1 (pt (1 / 2))) < 2.
Proof.
  pose proof e15_pos as P15. pose proof e15_val as V15. pose proof e8_val as V8. destruct antipode_half_hyps as [H1 H2].
  destruct (antipode_value 1 e15 1 (pt (1 / 2)) ltac:(lra) ltac:(lra) H1 H2) as [W ->].
  pose proof (reach_big e15 1 ltac:(lra) ltac:(lra)) as TB. destruct ks_one as [S1 S2].
  set (T := reach e15 1) in *. rewrite nrm1, Rabs_right in * by lra. rewrite pt_smul.
  assert (TB' : 79 * 10 ^ 14 <= T).
  { eapply Rle_trans; [|exact TB]. apply Rmult_le_reg_r with (k_sqrt e15 1); [lra|]. replace (8 * 10 ^ 15 / k_sqrt e15 1 * k_sqrt e15 1) with (8 * 10 ^ 15) by (field; lra). rewrite V15 in *. lra. }
  set (q := 1 - 1 * (1 / 2) * T) in *. assert (Q : q <= - 39 * 10 ^ 14) by (unfold q; lra).
  set (a := (1 + T / (1 / 2)) / q * (1 / 2)).
  assert (Ea : a = - 2 + 5 / 2 / q).
  { unfold a. replace T with (2 - 2 * q) by (unfold q; field). field. lra. }
  assert (Iq : - 1 / (39 * 10 ^ 14) <= / q < 0).
  { split; [|apply Rinv_lt_0_compat; lra]. replace (/ q) with (- / (- q)) by (field; lra). replace (- 1 / (39 * 10 ^ 14)) with (- / (39 * 10 ^ 14)) by field. apply Ropp_le_contravar, Rinv_le_contravar; lra. }
  unfold dist. rewrite pt_opp, pt_add, nrm1.
  rewrite artan_k_pos by lra.
  set (num := (1 - 2 * 1 * (- (1 / 2) * a) - 1 * (a * a)) * - (1 / 2) + (1 + 1 * (- (1 / 2) * - (1 / 2))) * a).
  set (cm := clamp_min e15 _). assert (CM : e15 <= cm) by apply clamp_min_ge.
  assert (En : num = (1 + a / 2) * (a - 1 / 2)) by (unfold num; clearbody a; field).
  clearbody num.
  assert (Bn : Rabs num <= 9 / 10 * e15).
  { rewrite En, Rabs_mult. set (z := / q) in *. assert (A1 : Rabs (1 + a / 2) <= 125 / 100 / (39 * 10 ^ 14)).
    { replace (1 + a / 2) with (5 / 4 * z) by (rewrite Ea; unfold z; field; lra). rewrite Rabs_left1 by lra. lra. }
    assert (A2 : Rabs (a - 1 / 2) <= 26 / 10) by (replace (a - 1 / 2) with (5 / 2 * z - 5 / 2) by (rewrite Ea; unfold z; field; lra); rewrite Rabs_left; lra).
    apply Rle_trans with (125 / 100 / (39 * 10 ^ 14) * (26 / 10)); [apply Rmult_le_compat; try apply Rabs_pos; assumption|rewrite V15; lra]. }
  assert (B : 0 <= Rabs (num / cm) <= 9 / 10).
  { split; [apply Rabs_pos|]. unfold Rdiv. rewrite Rabs_mult, Rabs_inv, (Rabs_right cm) by lra.
    apply Rmult_le_reg_r with cm; [lra|]. rewrite Rmult_assoc, Rinv_l, Rmult_1_r by lra. nra. }
  set (z := Rabs (num / cm)) in *. set (s := k_sqrt e15 1) in *.
  assert (SZ : 0 <= z * s) by (apply Rmult_le_pos; lra).
  assert (AT : atan (z * s) <= z * s).
  { apply (bounds atan (fun u => u) (fun t => / (1 + t ^ 2)) (fun _ => 1) (z * s) SZ).
    - apply atan_0. - intros; apply atan_derive. - intros; auto_derive; trivial.
    - intros t _. rewrite <- Rinv_1 at 2. apply Rinv_le_contravar; [lra|]. nra. }
  assert (/ s * atan (z * s) <= z); [|lra].
  apply Rmult_le_reg_l with s; [lra|]. rewrite <- Rmult_assoc, Rinv_r, Rmult_1_l by lra. lra.
Qed.
(** for curvatures in (0, 1e-8] the series replaces tan and the result is not the antipode *)
Lemma antipode_small : antipode 1 e15 e8 (pt 10000) 0%nat < - 15000.
Proof.
  pose proof e15_val as V15. pose proof e8_val as V8. unfold antipode. destruct Rle_dec as [?|_]; [lra|]. cbv zeta.
  rewrite nrm1, Rabs_right, clamp_min_id by lra. rewrite pt_vdiv. unfold geodesic_unit. rewrite nrm1.
  replace (10000 / 10000) with 1 by field. rewrite Rabs_right, clamp_min_id by lra. rewrite pt_vdiv. replace (1 / 1) with 1 by field.
  assert (SB : 1 / 10000 <= sqrt (sabs e15 e8) <= 10001 / 100000000).
  { unfold sabs. rewrite Rabs_right by lra. split.
    - apply Rsqr_incr_0_var; [|apply sqrt_pos]. unfold Rsqr. rewrite sqrt_sqrt; lra.
    - apply Rsqr_incr_0_var; [|lra]. unfold Rsqr. rewrite sqrt_sqrt; lra. }
  set (s := sqrt (sabs e15 e8)) in *. set (w := code_pi * / s / 2).
  assert (SI : 9999 <= / s <= 10000).
  { split; [replace 9999 with (/ (1 / 9999)) by field|replace 10000 with (/ (1 / 10000)) by field]; apply Rinv_le_contravar; lra. }
  assert (WB : 15700 <= w <= 15708) by (unfold w; lra).
  unfold tan_k, tan_k_at. destruct k_zero as [_|NZ]; [|exfalso; apply NZ; rewrite Rabs_right; lra].
  unfold tan_k_zero_taylor1. rewrite azg_pos by lra. rewrite pt_smul, pt_add.
  set (T := (w + 1 / 3 * e8 * w ^ 3) * 1).
  assert (W3 : 3869893000000 <= w ^ 3 <= 3875905000000).
  { assert (W2 : 246490000 <= w * w <= 246741264) by nra. replace (w ^ 3) with (w * (w * w)) by ring. nra. }
  assert (TB : 28500 <= T <= 28700) by (unfold T; rewrite V8; lra).
  clearbody T.
  unfold pt. rewrite V8. 
  replace (1 - 2 * (1 / 100000000) * (10000 * T) + (1 / 100000000) ^ 2 * (10000 * 10000) * (T * T)) with ((1 - T / 10000) * (1 - T / 10000)) by field.
  rewrite clamp_min_id by (rewrite V15; assert (T / 10000 - 1 >= 1) by lra; nra).
  replace ((1 - 2 * (1 / 100000000) * (10000 * T) - 1 / 100000000 * (T * T)) * 10000 + (1 + 1 / 100000000 * (10000 * 10000)) * T)
    with ((1 - T / 10000) * (10000 + T)) by field.
  set (b := T / 10000 - 1). assert (Bb : 0 < b) by (unfold b; lra).
  replace (1 - T / 10000) with (- b) by (unfold b; ring).
  replace (- b * (10000 + T) / (- b * - b)) with (- ((10000 + T) / b)) by (field; lra).
  assert (15000 < (10000 + T) / b) by (apply lt_div; [exact Bb|unfold b; lra]). lra.
Qed.
(** the closed formula of the documentation is not what is computed *)
Lemma antipode_documented : let x := pt 2 in
  let doc := smul ((1 + 1 * nrm 1 x ^ 2) / (2 * 1 * nrm 1 x ^ 2)) (vopp x) in
  1 / 2 < Rabs (antipode 1 e15 1 x 0%nat - doc 0%nat).
Proof.
  cbv zeta. pose proof e15_pos as P15. pose proof e15_val as V15. pose proof e8_val as V8. destruct ks_one as [S1 S2].
  assert (N2 : nrm 1 (pt 2) = 2) by (rewrite nrm1, Rabs_right; lra).
  destruct (antipode_value 1 e15 1 (pt 2)) as [W ->]; [lra|lra|rewrite N2; lra|rewrite N2; lra|].
  rewrite N2 in *. rewrite pt_opp, !pt_smul. unfold pt.
  pose proof (reach_big e15 1 ltac:(lra) ltac:(lra)) as TB. set (T := reach e15 1) in *.
  assert (T5 : 1000 <= T).
  { eapply Rle_trans; [|exact TB]. apply Rmult_le_reg_r with (k_sqrt e15 1); [lra|]. replace (8 * 10 ^ 15 / k_sqrt e15 1 * k_sqrt e15 1) with (8 * 10 ^ 15) by (field; lra). lra. }
  replace ((1 + 1 * 2 ^ 2) / (2 * 1 * 2 ^ 2) * -2) with (- (5 / 4)) by field.
  replace ((1 + T / 2) / (1 - 1 * 2 * T) * 2) with (- ((2 + T) / (2 * T - 1))) by (field; lra).
  assert ((2 + T) / (2 * T - 1) < 6 / 10) by (apply div_lt; lra). rewrite Rabs_right; lra.
Qed.
Lemma antipode_half_case : e15 <= nrm 1 (pt (1 / 2)) /\ 2 * sqrt (1 + e15) <= 1 * nrm 1 (pt (1 / 2)) * (8 * 10 ^ 15).
Proof. destruct antipode_half_hyps as [A B]. split; [exact A|]. unfold k_sqrt, sabs in B. rewrite (Rabs_right 1) in B by lra. exact B. Qed.
Lemma antipode_two : e15 <= nrm 1 (pt 2). Proof. rewrite nrm1, Rabs_right, e15_val; lra. Qed.
Lemma antipode_small_true : smul (- / (e8 * nrm 1 (pt 10000) ^ 2)) (pt 10000) 0%nat = - 10000.
Proof. rewrite nrm1, Rabs_right, e8_val by lra. unfold smul, pt. field. Qed.
