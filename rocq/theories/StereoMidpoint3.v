(** Lemmas behind StereoExtraProps.v: two points, the effect of 1e-10, counterexamples, cases. *)
From Coq Require Import Reals Lra Psatz Lia List FunctionalExtensionality Bool Arith Permutation.
From Verif Require Import StereoTaylor.
From Verif Require Import RVec StereoModel StereoSpec GyroAlgebra StereoTrig StereoProofs StereoProofs2 StereoProofs3 StereoProofs4
  StereoAntipode StereoExtraModel StereoExtraSpec StereoExtraProofs StereoMidpoint StereoMidpoint2.
Import ListNotations.
Local Open Scope R_scope.

Section H.
  Variables (n : nat) (k : R).
  Hypothesis K : k < - / 10 ^ 8.

  Lemma DD_wsum l : positive_weights l -> inside n k l -> wsum l <= DD n k l.
  Proof.
    intros [_ W] I. rewrite wsum_total. apply total_le. intros p Hp. pose proof (W p Hp).
    pose proof (hgt_ge n k K (snd p) (well_domain n k _ (I p Hp))). nra.
  Qed.
  Lemma midpoint_shift' d l : positive_weights l -> inside n k l -> 0 <= d <= wsum l ->
    2 * / 10 ^ 15 <= nrm n (klein_mean n k l) \/ nrm n (klein_mean n k l) = 0 ->
    exists t, 1 - d / wsum l <= t <= 1 /\
      same n (weighted_midpoint n 0 d k false false l) (smul t (weighted_midpoint n 0 0 k false false l)).
  Proof.
    intros P I D N. pose proof (DD_pos n k K l P I) as DP. pose proof (DD_wsum l P I) as DW. pose proof e15_pos as P15. unfold e15 in P15.
    apply (midpoint_shift n k K); [assumption..|lra| |].
    - destruct N as [N|N]; [left; lra|right; exact N].
    - assert (S1 : 1 / 2 <= DD n k l / (DD n k l + d)).
      { apply Rmult_le_reg_r with (DD n k l + d); [lra|]. unfold Rdiv. rewrite (Rmult_assoc (DD n k l)), Rinv_l by lra. lra. }
      unfold norm_ok. rewrite nrm_smul, Rabs_right by lra. destruct N as [N|N]; [left; nra|right; rewrite N; ring].
  Qed.

  Lemma well_safe x : well_inside n k x -> safe n k x.
  Proof.
    intros [W D]. unfold safe. pose proof (kneg k K) as KN. set (s := sqrt (- k)) in *.
    assert (SP : 0 < s) by (apply sqrt_lt_R0; lra). assert (SS : s * s = - k) by (apply sqrt_sqrt; lra).
    set (r := nrm n x) in *. assert (R0 : 0 <= r) by apply nrm_nonneg. assert (RR : dot n x x = r * r) by (unfold r; rewrite nrm_sq; reflexivity).
    rewrite RR in *. set (y := s * r) in *. assert (Y0 : 0 <= y) by (apply Rmult_le_pos; lra).
    assert (YY : k * (r * r) = - (y * y)) by (unfold y; replace (s * r * (s * r)) with (s * s * (r * r)) by ring; rewrite SS; ring).
    replace (2 * s * r) with (2 * y) in W by (unfold y; ring). replace (1 - k * (r * r)) with (1 + y * y) in W by lra. rewrite YY in D.
    pose proof e7_val as V7. unfold e7 in V7. rewrite V7 in W. assert (y < 1) by nra. nra.
  Qed.
  Lemma equidistant w x y : 0 < w -> well_inside n k x -> well_inside n k y ->
    norm_ok n (klein_mean n k [(w, x); (w, y)]) ->
    let m := weighted_midpoint n 0 0 k false false [(w, x); (w, y)] in
    dist n 0 k m x = dist n 0 k m y.
  Proof.
    intros W X Y N m. pose proof (kneg k K) as KN. set (l := [(w, x); (w, y)]) in *.
    assert (P : positive_weights l) by (split; [discriminate|intros p [<-|[<-|[]]]; exact W]).
    assert (I : inside n k l) by (intros p [<-|[<-|[]]]; assumption).
    pose proof (midpoint_exact n k K l P I N) as S. fold m in S.
    destruct (lift_mid n k K l P I) as (Q & LN & LD & MD). set (m' := half n k (klein_mean n k l)) in *.
    set (c := DD n k l * qf n k (klein_mean n k l)) in *.
    pose proof (DD_pos n k K l P I) as DP. assert (C : 0 < c) by (apply Rmult_lt_0_compat; assumption).
    pose proof (well_domain n k x X) as XD. pose proof (well_domain n k y Y) as YD.
    assert (EN : NN n k l = smul w (vadd (lift n k x) (lift n k y))).
    { apply functional_extensionality; intros i. unfold NN, l, vtotal, vadd, smul. cbn. ring. }
    assert (ED : DD n k l = w * (hgt n k x + hgt n k y)) by (unfold DD, l; cbn; ring).
    pose proof (lift_sq n k x XD) as LX. pose proof (lift_sq n k y YD) as LY.
    assert (PE : c * (hgt n k m' * hgt n k x + k * dot n (lift n k m') (lift n k x)) = c * (hgt n k m' * hgt n k y + k * dot n (lift n k m') (lift n k y))).
    { assert (A : forall z, c * (hgt n k m' * hgt n k z + k * dot n (lift n k m') (lift n k z)) = DD n k l * hgt n k z + k * dot n (NN n k l) (lift n k z)).
      { intros z. rewrite LN, dot_smul_l. rewrite LD at 1. ring. }
      rewrite !A, EN, ED, !dot_smul_l, !dot_add_l, (dot_comm n (lift n k y) (lift n k x)).
      replace (w * (hgt n k x + hgt n k y) * hgt n k x + k * (w * (dot n (lift n k x) (lift n k x) + dot n (lift n k x) (lift n k y))))
        with (w * ((hgt n k x * hgt n k x + k * dot n (lift n k x) (lift n k x)) + hgt n k x * hgt n k y + k * dot n (lift n k x) (lift n k y))) by ring.
      replace (w * (hgt n k x + hgt n k y) * hgt n k y + k * (w * (dot n (lift n k x) (lift n k y) + dot n (lift n k y) (lift n k y))))
        with (w * ((hgt n k y * hgt n k y + k * dot n (lift n k y) (lift n k y)) + hgt n k x * hgt n k y + k * dot n (lift n k x) (lift n k y))) by ring.
      rewrite LX, LY. reflexivity. }
    apply Rmult_eq_reg_l in PE; [|lra]. rewrite !pairing in PE by assumption.
    assert (DE : forall z, in_domain n k z -> safe n k z -> nrm n (mobius_add n k (vopp m) z) =
      let r := dot n (vsub m' z) (vsub m' z) / ((1 + k * dot n m' m') * (1 + k * dot n z z)) in sqrt (r / (1 - k * r))).
    { intros z ZD ZS. cbv zeta.
      assert (SO : same n (vopp m) (vopp m')) by (intros i Hi; unfold vopp; rewrite (S i Hi); reflexivity).
      rewrite (same_nrm n _ _ (mobius_add_same n k _ _ z z SO (same_refl n z))).
      assert (G : regular n k (vopp m') z) by (apply safe_regular_r; [exact KN|apply in_domain_opp, MD|exact ZS]).
      rewrite mobius_add_madd by exact G. unfold nrm. f_equal.
      pose proof (mden_pos_domain n k (vopp m') z KN (in_domain_opp n k m' MD) ZD) as MP. change (0 < mden n k (vopp m') z) in MP.
      rewrite msub_sq by lra. rewrite mden_gap in *. rewrite gap2_dot in *. unfold cf, in_domain in *. field. repeat split; try lra; nra. }
    unfold dist. rewrite !DE by (try assumption; apply well_safe; assumption). cbv zeta.
    replace (dot n (vsub m' x) (vsub m' x) / ((1 + k * dot n m' m') * (1 + k * dot n x x)))
      with (dot n (vsub m' y) (vsub m' y) / ((1 + k * dot n m' m') * (1 + k * dot n y y))); [reflexivity|].
    apply Rmult_eq_reg_l with (2 * k); lra.
  Qed.
End H.

(** * counterexamples *)
(** one point, k = 0: the 1e-10 moves it *)
Lemma single_shrunk : weighted_midpoint 1 e15 e10 0 false false [(1, pt 1)] 0%nat < 1.
Proof.
  rewrite midpoint_flat. unfold lincomb_factor, smul, vdiv, clamp_abs, sabs, wsum, wvsum, vadd, smul, vzero, pt. cbn [fold_right fst snd].
  assert (0 < e10) by (unfold e10; apply Rinv_0_lt_compat, pow_lt; lra).
  rewrite sign_nonneg, Rabs_right by lra. apply Rmult_lt_reg_r with (1 * (1 + 0 + e10)); [lra|].
  unfold Rdiv. rewrite !Rmult_assoc, Rinv_l by lra. lra.
Qed.

(** posweight on the sphere *)
Lemma tan_half_bound z : 0 <= z -> tan (1 / 2 * atan z) < 1.
Proof.
  intros Z. pose proof (atan_bound z) as B. pose proof PI_RGT_0. assert (0 <= atan z).
  { destruct Z as [Z|<-]; [left; rewrite <- atan_0; apply atan_increasing, Z|rewrite atan_0; lra]. }
  apply Rlt_le_trans with (tan (PI / 4)); [apply tan_increasing; lra|rewrite tan_PI4; lra].
Qed.
Lemma tan_half_low z : 1 <= z -> 1 / 4 < tan (1 / 2 * atan z).
Proof.
  intros Z. pose proof (atan_bound z) as B. pose proof PI_RGT_0.
  assert (A : PI / 4 <= atan z) by (rewrite <- atan_1; destruct Z as [Z|<-]; [left; apply atan_increasing, Z|lra]).
  pose proof PI2_3_2 as P3. assert (L : 3 / 8 < 1 / 2 * atan z) by lra.
  pose proof (tan_bounds (3 / 8) ltac:(lra)) as [TB _]. assert (tan (3 / 8) < tan (1 / 2 * atan z)) by (apply tan_increasing; lra).
  lra.
Qed.
Lemma antipode_half : let x := pt (1 / 2) in exists v, antipode 1 e15 1 x = pt v /\ v < -2 /\ -3 < v.
Proof.
  cbv zeta. pose proof e15_pos as P15. pose proof e15_val as V15. pose proof e8_val as V8. destruct antipode_half_hyps as [H1 H2].
  destruct (antipode_value 1 e15 1 (pt (1 / 2)) ltac:(lra) ltac:(lra) H1 H2) as [W ->].
  pose proof (reach_big e15 1 ltac:(lra) ltac:(lra)) as TB. destruct ks_one as [S1 S2].
  rewrite nrm1, Rabs_right in * by lra. set (T := reach e15 1) in *.
  assert (TL : 1000 <= T).
  { apply Rle_trans with (8 * 10 ^ 15 / k_sqrt e15 1); [|exact TB]. apply Rmult_le_reg_r with (k_sqrt e15 1); [lra|].
    unfold Rdiv. rewrite Rmult_assoc, Rinv_l by lra. assert (1000 * k_sqrt e15 1 <= 1000 * 2) by (apply Rmult_le_compat_l; lra). lra. }
  exists ((1 + T / (1 / 2)) / (1 - 1 * (1 / 2) * T) * (1 / 2)). split; [reflexivity|].
  replace ((1 + T / (1 / 2)) / (1 - 1 * (1 / 2) * T) * (1 / 2)) with (-2 - 5 / (T - 2)) by (field; lra).
  assert (0 < 5 / (T - 2) < 1).
  { split; [apply Rmult_lt_0_compat; [lra|apply Rinv_0_lt_compat; lra]|]. apply Rmult_lt_reg_r with (T - 2); [lra|].
    unfold Rdiv. rewrite Rmult_assoc, Rinv_l by lra. lra. }
  lra.
Qed.
Lemma antipode_positive r : 1 / 8 <= r <= 1 -> 0 < antipode 1 e15 1 (pt (- r)) 0%nat.
Proof.
  intros R1. pose proof e15_pos as P15. pose proof e15_val as V15. pose proof e8_val as V8. destruct ks_one as [S1 S2].
  assert (N : nrm 1 (pt (- r)) = r) by (rewrite nrm1, Rabs_Ropp, Rabs_right; lra).
  destruct (antipode_value 1 e15 1 (pt (- r)) ltac:(lra) ltac:(lra) ltac:(rewrite N; lra)) as [W ->].
  - rewrite N. assert (2 * k_sqrt e15 1 <= 4) by lra. assert (1 <= 1 * r * (8 * 10 ^ 15)) by lra. lra.
  - pose proof (reach_big e15 1 ltac:(lra) ltac:(lra)) as TB. rewrite N in *. set (T := reach e15 1) in *.
    assert (0 < T). { apply Rlt_le_trans with (8 * 10 ^ 15 / k_sqrt e15 1); [|exact TB]. apply Rmult_lt_0_compat; [lra|apply Rinv_0_lt_compat; lra]. }
    unfold smul, pt. replace ((1 + T / r) / (1 - 1 * r * T) * - r) with ((r + T) / (1 * r * T - 1)) by (field; lra).
    apply Rmult_lt_0_compat; [lra|apply Rinv_0_lt_compat; lra].
Qed.
Lemma posweight_sphere : let x := pt (1 / 2) in
  antipode 1 e15 1 x 0%nat < -2 /\ -1 < weighted_midpoint 1 e15 e10 1 false true [(-1, x)] 0%nat.
Proof.
  cbv zeta. destruct antipode_half as (v & A & V1 & V2). cbv zeta in A. rewrite A. split; [exact V1|].
  pose proof e15_pos as P15. pose proof e15_val as V15. pose proof e8_val as V8. destruct ks_one as [S1 S2].
  assert (P10 : 0 < e10 <= 1 / 100) by (unfold e10; lra).
  rewrite midpoint_parts. unfold entries_of. cbv zeta. cbn [map existsb andb]. destruct (Rlt_dec (-1) 0) as [_|?]; [|lra]. cbn [orb map].
  rewrite A. replace (Rabs (-1)) with 1 by (rewrite Rabs_left; lra).
  assert (L : lambda_x 1 1 (pt (1 / 2)) = 8 / 5).
  { unfold lambda_x. rewrite dot1, clamp_min_id by lra. field. }
  destruct (Rlt_dec (-1) 0) as [_|?]; [|lra]. rewrite L. unfold mid_of. cbv zeta.
  assert (T : two_mean_of e10 [(8 / 5, 1, pt v)] = pt (8 / 5 * v / (3 / 5 + e10))).
  { unfold two_mean_of, vtotal, total. cbn [fold_right]. apply functional_extensionality; intros i. unfold vdiv, smul, pt, clamp_abs, sabs.
    replace ((8 / 5 - 1) * 1 + 0) with (3 / 5) by field. rewrite sign_nonneg, Rabs_right by lra. field. lra. }
  rewrite T. set (z := 8 / 5 * - v / (3 / 5 + e10)).
  assert (Z : 2 <= z). { unfold z. apply Rmult_le_reg_r with (3 / 5 + e10); [lra|]. unfold Rdiv at 2. rewrite Rmult_assoc, Rinv_l by lra. lra. }
  replace (8 / 5 * v / (3 / 5 + e10)) with (- z) by (unfold z; field; lra).
  assert (M : exists r, mobius_scalar_mul 1 e15 1 (1 / 2) (pt (- z)) = pt (- r) /\ 1 / 8 <= r < 1).
  { exists (tan (1 / 2 * atan (z * k_sqrt e15 1)) / k_sqrt e15 1).
    assert (N : nrm 1 (pt (- z)) = z) by (rewrite nrm1, Rabs_Ropp, Rabs_right; lra).
    assert (ZS : 1 <= z * k_sqrt e15 1) by nra.
    pose proof (tan_half_bound (z * k_sqrt e15 1) ltac:(lra)) as TB. pose proof (tan_half_low _ ZS) as TL. set (t := tan (1 / 2 * atan (z * k_sqrt e15 1))) in *.
    split.
    - rewrite scalar_mul_form by (rewrite N; lra). rewrite N, artan_k_pos, tan_k_pos by lra.
      replace (1 / 2 * (/ k_sqrt e15 1 * atan (z * k_sqrt e15 1)) * k_sqrt e15 1) with (1 / 2 * atan (z * k_sqrt e15 1)) by (field; lra).
      pose proof (atan_bound (z * k_sqrt e15 1)). pose proof PI2_lt_10. rewrite clamp_max_id by lra. fold t.
      apply functional_extensionality; intros i. unfold smul, pt. field. split; lra.
    - split.
      + apply Rmult_le_reg_r with (k_sqrt e15 1); [lra|]. unfold Rdiv at 2. rewrite Rmult_assoc, Rinv_l by lra. lra.
      + apply Rmult_lt_reg_r with (k_sqrt e15 1); [lra|]. unfold Rdiv. rewrite Rmult_assoc, Rinv_l by lra. lra. }
  destruct M as (r & -> & R1 & R2). unfold choose. destruct Rlt_dec; [|lra]. cbv zeta. destruct Rlt_dec.
  - pose proof (antipode_positive r ltac:(lra)). lra.
  - unfold pt. lra.
Qed.

(** * cases *)
Lemma well_pt a : Rabs a <= 9 / 10 -> well_inside 1 (-1) (pt a).
Proof.
  intros A. unfold well_inside. replace (- -1) with 1 by ring. rewrite sqrt_1, nrm1, dot1.
  pose proof (Rabs_pos a). assert (a * a = Rabs a * Rabs a) by (unfold Rabs; destruct Rcase_abs; ring). rewrite H0.
  pose proof e7_val as V7. unfold e7 in V7. rewrite V7. split; [nra|nra].
Qed.
Definition two_points : list (R * vec) := [(1, pt (1 / 2)); (2, pt (1 / 4))].
Lemma two_points_case : positive_weights two_points /\ (forall p, In p two_points -> well_inside 1 (-1) (snd p)) /\
  2 * / 10 ^ 15 <= nrm 1 (klein_mean 1 (-1) two_points) /\ 0 <= e10 <= wsum two_points.
Proof.
  assert (P10 : 0 < e10 <= 1 / 100) by (unfold e10; lra).
  split; [|split; [|split]].
  - split; [discriminate|]. intros p [<-|[<-|[]]]; cbn; lra.
  - intros p [<-|[<-|[]]]; cbn; apply well_pt; rewrite Rabs_right; lra.
  - assert (E : klein_mean 1 (-1) two_points = pt (36 / 59)).
    { apply functional_extensionality; intros i. unfold klein_mean, two_points, wvsum, wsum, conformal, vdiv, vadd, smul, vzero, pt. cbn [map fold_right fst snd].
      unfold dot, Rsum. field. }
    rewrite E, nrm1, Rabs_right by lra. pose proof e15_val as V. unfold e15 in V. rewrite V. lra.
  - unfold wsum, two_points. cbn. lra.
Qed.
