(** Lemmas: accuracy of the truncated series used for |k| <= 1e-8. *)
From Coq Require Import Reals Lra Psatz.
From Coquelicot Require Import Coquelicot.
From Verif Require Import RVec StereoModel StereoSpec StereoTrig.
Local Open Scope R_scope.

(** a function with nonnegative derivative on [0,u] *)
Lemma grow (f f' : R -> R) (u : R) : 0 <= u -> (forall t, 0 <= t <= u -> is_derive f t (f' t)) ->
  (forall t, 0 <= t <= u -> 0 <= f' t) -> f 0 <= f u.
Proof.
  intros U D P. destruct U as [U|<-]; [|lra].
  destruct (MVT_gen f 0 u f') as [c [C E]].
  - intros x X. rewrite Rmin_left, Rmax_right in X by lra. apply D. lra.
  - intros x X. rewrite Rmin_left, Rmax_right in X by lra. apply continuity_pt_filterlim. apply (ex_derive_continuous f x). exists (f' x). apply D. lra.
  - rewrite Rmin_left, Rmax_right in C by lra. assert (0 <= f' c) by (apply P; lra). nra.
Qed.
Lemma bounds (f g : R -> R) (f' g' : R -> R) (u : R) : 0 <= u -> f 0 = g 0 ->
  (forall t, 0 <= t <= u -> is_derive f t (f' t)) -> (forall t, 0 <= t <= u -> is_derive g t (g' t)) ->
  (forall t, 0 <= t <= u -> f' t <= g' t) -> f u <= g u.
Proof.
  intros U E F G L. pose proof (grow (fun t => g t - f t) (fun t => g' t - f' t) u U) as H. cbv beta in H.
  assert (0 <= g u - f u); [|lra]. replace 0 with (g 0 - f 0) by lra. apply H.
  - intros t T. apply (is_derive_minus g f t (g' t) (f' t)); [apply G|apply F]; exact T.
  - intros t T. specialize (L t T). lra.
Qed.

(** * atan *)
Lemma atan_derive t : is_derive atan t (/ (1 + t ^ 2)).
Proof. apply is_derive_Reals. exact (derivable_pt_lim_atan t). Qed.
Lemma atan_lower u : 0 <= u -> u - u ^ 3 / 3 <= atan u.
Proof.
  intros U. apply (bounds (fun u => u - u ^ 3 / 3) atan (fun t => 1 - t ^ 2) (fun t => / (1 + t ^ 2)) u U).
  - rewrite atan_0. field.
  - intros t T. auto_derive; [trivial|field].
  - intros t T. apply atan_derive.
  - intros t T. apply Rmult_le_reg_r with (1 + t ^ 2); [nra|]. rewrite Rinv_l by nra. assert (0 <= t ^ 4) by (replace (t ^ 4) with ((t ^ 2) ^ 2) by ring; apply pow2_ge_0). nra.
Qed.
Lemma atan_upper u : 0 <= u -> atan u <= u - u ^ 3 / 3 + u ^ 5 / 5.
Proof.
  intros U. apply (bounds atan (fun u => u - u ^ 3 / 3 + u ^ 5 / 5) (fun t => / (1 + t ^ 2)) (fun t => 1 - t ^ 2 + t ^ 4) u U).
  - rewrite atan_0. field.
  - intros t T. apply atan_derive.
  - intros t T. auto_derive; [trivial|field].
  - intros t T. apply Rmult_le_reg_r with (1 + t ^ 2); [nra|]. rewrite Rinv_l by nra. assert (0 <= t ^ 6) by (replace (t ^ 6) with ((t ^ 3) ^ 2) by ring; apply pow2_ge_0). nra.
Qed.
Lemma atan_of g t g' d : is_derive g t g' -> d = g' / (1 + g t ^ 2) -> is_derive (fun u => atan (g u)) t d.
Proof.
  intros G ->. replace (g' / (1 + g t ^ 2)) with (scal g' (/ (1 + g t ^ 2))) by reflexivity.
  apply (is_derive_comp atan g t); [apply atan_derive|exact G].
Qed.
(** * tan *)
Lemma tan_bounds u : 0 <= u <= 1 / 2 -> u + u ^ 3 / 3 <= tan u <= u + u ^ 3 / 3 + u ^ 5 / 5.
Proof.
  intros [U V].
  assert (P : 1 / 2 < PI / 2) by (pose proof PI2_1; lra).
  assert (T : atan (tan u) = u) by (apply atan_tan; lra).
  assert (S : forall y, 0 <= y -> atan y <= u -> y <= tan u).
  { intros y Y H. destruct (Rle_lt_dec y (tan u)) as [|L]; [assumption|]. apply atan_increasing in L. lra. }
  assert (S' : forall y, u <= atan y -> tan u <= y).
  { intros y H. destruct (Rle_lt_dec (tan u) y) as [|L]; [assumption|]. apply atan_increasing in L. lra. }
  split.
  - apply S; [nra|]. apply (bounds (fun u => atan (u + u ^ 3 / 3)) (fun u => u) (fun t => (1 + t ^ 2) / (1 + (t + t ^ 3 / 3) ^ 2)) (fun _ => 1) u U).
    + replace (0 + 0 ^ 3 / 3) with 0 by field. apply atan_0.
    + intros t [T1 T2]. eapply atan_of; [auto_derive; [trivial|reflexivity]|field; nra].
    + intros t _. apply (is_derive_id t).
    + intros t [T1 T2]. apply Rmult_le_reg_r with (1 + (t + t ^ 3 / 3) ^ 2); [nra|]. unfold Rdiv. rewrite Rmult_assoc, Rinv_l by nra. assert (0 <= t ^ 4) by (apply pow_le; lra). assert (0 <= t ^ 6) by (apply pow_le; lra). nra.
  - apply S'. apply (bounds (fun u => u) (fun u => atan (u + u ^ 3 / 3 + u ^ 5 / 5)) (fun _ => 1) (fun t => (1 + t ^ 2 + t ^ 4) / (1 + (t + t ^ 3 / 3 + t ^ 5 / 5) ^ 2)) u U).
    + replace (0 + 0 ^ 3 / 3 + 0 ^ 5 / 5) with 0 by field. symmetry. apply atan_0.
    + intros t _. apply (is_derive_id t).
    + intros t [T1 T2]. eapply atan_of; [auto_derive; [trivial|reflexivity]|field; nra].
    + intros t [T1 T2]. apply Rmult_le_reg_r with (1 + (t + t ^ 3 / 3 + t ^ 5 / 5) ^ 2); [nra|]. unfold Rdiv. rewrite Rmult_assoc, Rinv_l by nra.
      assert (A2 : 0 <= t ^ 2 <= 1 / 4) by (split; [apply pow_le; lra|nra]).
      set (z := t ^ 2) in *. replace (t ^ 4) with (z ^ 2) by (unfold z; ring).
      replace ((t + t ^ 3 * / 3 + t ^ 5 * / 5) ^ 2) with (z * (1 + z / 3 + z ^ 2 / 5) ^ 2) by (unfold z; field).
      assert (z * (1 + z / 3 + z ^ 2 / 5) ^ 2 <= z + z ^ 2); [|lra].
      assert ((1 + z / 3 + z ^ 2 / 5) ^ 2 <= 1 + z); [|nra]. assert (0 <= z ^ 2 <= z / 4) by (split; nra). set (w := z ^ 2) in *. nra.
Qed.

(** * sin *)
Lemma sin_derive t : is_derive sin t (cos t). Proof. apply is_derive_Reals, derivable_pt_lim_sin. Qed.
Lemma cos_derive t : is_derive cos t (- sin t). Proof. apply is_derive_Reals, derivable_pt_lim_cos. Qed.
Ltac poly_derive := intros t _; auto_derive; [trivial|field].
Lemma cos_t1 u : 0 <= u -> cos u <= 1. Proof. intros _. apply COS_bound. Qed.
Lemma sin_t1 u : 0 <= u -> sin u <= u.
Proof.
  intros U. apply (bounds sin (fun u => u) cos (fun t => 1) u U); [rewrite sin_0; field|intros; apply sin_derive|poly_derive|intros t [T _]; apply cos_t1, T].
Qed.
Lemma cos_t2 u : 0 <= u -> 1 - u ^ 2 / 2 <= cos u.
Proof.
  intros U. apply (bounds (fun u => 1 - u ^ 2 / 2) cos (fun t => - (t)) (fun t => - sin t) u U); [rewrite cos_0; field|poly_derive|intros; apply cos_derive|intros t [T _]; apply Ropp_le_contravar, sin_t1, T].
Qed.
Lemma sin_t2 u : 0 <= u -> u - u ^ 3 / 6 <= sin u.
Proof.
  intros U. apply (bounds (fun u => u - u ^ 3 / 6) sin (fun t => 1 - t ^ 2 / 2) cos u U); [rewrite sin_0; field|poly_derive|intros; apply sin_derive|intros t [T _]; apply cos_t2, T].
Qed.
Lemma cos_t3 u : 0 <= u -> cos u <= 1 - u ^ 2 / 2 + u ^ 4 / 24.
Proof.
  intros U. apply (bounds cos (fun u => 1 - u ^ 2 / 2 + u ^ 4 / 24) (fun t => - sin t) (fun t => - (t - t ^ 3 / 6)) u U); [rewrite cos_0; field|intros; apply cos_derive|poly_derive|intros t [T _]; apply Ropp_le_contravar, sin_t2, T].
Qed.
Lemma sin_t3 u : 0 <= u -> sin u <= u - u ^ 3 / 6 + u ^ 5 / 120.
Proof.
  intros U. apply (bounds sin (fun u => u - u ^ 3 / 6 + u ^ 5 / 120) cos (fun t => 1 - t ^ 2 / 2 + t ^ 4 / 24) u U); [rewrite sin_0; field|intros; apply sin_derive|poly_derive|intros t [T _]; apply cos_t3, T].
Qed.
Lemma cos_t4 u : 0 <= u -> 1 - u ^ 2 / 2 + u ^ 4 / 24 - u ^ 6 / 720 <= cos u.
Proof.
  intros U. apply (bounds (fun u => 1 - u ^ 2 / 2 + u ^ 4 / 24 - u ^ 6 / 720) cos (fun t => - (t - t ^ 3 / 6 + t ^ 5 / 120)) (fun t => - sin t) u U); [rewrite cos_0; field|poly_derive|intros; apply cos_derive|intros t [T _]; apply Ropp_le_contravar, sin_t3, T].
Qed.
Lemma sin_t4 u : 0 <= u -> u - u ^ 3 / 6 + u ^ 5 / 120 - u ^ 7 / 5040 <= sin u.
Proof.
  intros U. apply (bounds (fun u => u - u ^ 3 / 6 + u ^ 5 / 120 - u ^ 7 / 5040) sin (fun t => 1 - t ^ 2 / 2 + t ^ 4 / 24 - t ^ 6 / 720) cos u U); [rewrite sin_0; field|poly_derive|intros; apply sin_derive|intros t [T _]; apply cos_t4, T].
Qed.
Lemma cos_t5 u : 0 <= u -> cos u <= 1 - u ^ 2 / 2 + u ^ 4 / 24 - u ^ 6 / 720 + u ^ 8 / 40320.
Proof.
  intros U. apply (bounds cos (fun u => 1 - u ^ 2 / 2 + u ^ 4 / 24 - u ^ 6 / 720 + u ^ 8 / 40320) (fun t => - sin t) (fun t => - (t - t ^ 3 / 6 + t ^ 5 / 120 - t ^ 7 / 5040)) u U); [rewrite cos_0; field|intros; apply cos_derive|poly_derive|intros t [T _]; apply Ropp_le_contravar, sin_t4, T].
Qed.
Lemma sin_t5 u : 0 <= u -> sin u <= u - u ^ 3 / 6 + u ^ 5 / 120 - u ^ 7 / 5040 + u ^ 9 / 362880.
Proof.
  intros U. apply (bounds sin (fun u => u - u ^ 3 / 6 + u ^ 5 / 120 - u ^ 7 / 5040 + u ^ 9 / 362880) cos (fun t => 1 - t ^ 2 / 2 + t ^ 4 / 24 - t ^ 6 / 720 + t ^ 8 / 40320) u U); [rewrite sin_0; field|intros; apply sin_derive|poly_derive|intros t [T _]; apply cos_t5, T].
Qed.
Lemma cos_t6 u : 0 <= u -> 1 - u ^ 2 / 2 + u ^ 4 / 24 - u ^ 6 / 720 + u ^ 8 / 40320 - u ^ 10 / 3628800 <= cos u.
Proof.
  intros U. apply (bounds (fun u => 1 - u ^ 2 / 2 + u ^ 4 / 24 - u ^ 6 / 720 + u ^ 8 / 40320 - u ^ 10 / 3628800) cos (fun t => - (t - t ^ 3 / 6 + t ^ 5 / 120 - t ^ 7 / 5040 + t ^ 9 / 362880)) (fun t => - sin t) u U); [rewrite cos_0; field|poly_derive|intros; apply cos_derive|intros t [T _]; apply Ropp_le_contravar, sin_t5, T].
Qed.
Lemma sin_t6 u : 0 <= u -> u - u ^ 3 / 6 + u ^ 5 / 120 - u ^ 7 / 5040 + u ^ 9 / 362880 - u ^ 11 / 39916800 <= sin u.
Proof.
  intros U. apply (bounds (fun u => u - u ^ 3 / 6 + u ^ 5 / 120 - u ^ 7 / 5040 + u ^ 9 / 362880 - u ^ 11 / 39916800) sin (fun t => 1 - t ^ 2 / 2 + t ^ 4 / 24 - t ^ 6 / 720 + t ^ 8 / 40320 - t ^ 10 / 3628800) cos u U); [rewrite sin_0; field|poly_derive|intros; apply sin_derive|intros t [T _]; apply cos_t6, T].
Qed.
Lemma cos_t7 u : 0 <= u -> cos u <= 1 - u ^ 2 / 2 + u ^ 4 / 24 - u ^ 6 / 720 + u ^ 8 / 40320 - u ^ 10 / 3628800 + u ^ 12 / 479001600.
Proof.
  intros U. apply (bounds cos (fun u => 1 - u ^ 2 / 2 + u ^ 4 / 24 - u ^ 6 / 720 + u ^ 8 / 40320 - u ^ 10 / 3628800 + u ^ 12 / 479001600) (fun t => - sin t) (fun t => - (t - t ^ 3 / 6 + t ^ 5 / 120 - t ^ 7 / 5040 + t ^ 9 / 362880 - t ^ 11 / 39916800)) u U); [rewrite cos_0; field|intros; apply cos_derive|poly_derive|intros t [T _]; apply Ropp_le_contravar, sin_t6, T].
Qed.
Lemma sin_t7 u : 0 <= u -> sin u <= u - u ^ 3 / 6 + u ^ 5 / 120 - u ^ 7 / 5040 + u ^ 9 / 362880 - u ^ 11 / 39916800 + u ^ 13 / 6227020800.
Proof.
  intros U. apply (bounds sin (fun u => u - u ^ 3 / 6 + u ^ 5 / 120 - u ^ 7 / 5040 + u ^ 9 / 362880 - u ^ 11 / 39916800 + u ^ 13 / 6227020800) cos (fun t => 1 - t ^ 2 / 2 + t ^ 4 / 24 - t ^ 6 / 720 + t ^ 8 / 40320 - t ^ 10 / 3628800 + t ^ 12 / 479001600) u U); [rewrite sin_0; field|intros; apply sin_derive|poly_derive|intros t [T _]; apply cos_t7, T].
Qed.
Definition sin11 (u : R) : R := u - u ^ 3 / 6 + u ^ 5 / 120 - u ^ 7 / 5040 + u ^ 9 / 362880 - u ^ 11 / 39916800.
Lemma sin_bounds u : 0 <= u -> sin11 u <= sin u <= sin11 u + u ^ 13 / 6227020800.
Proof. intros U. split; [apply sin_t6, U|apply sin_t7, U]. Qed.

(** * asin *)
Definition asin11 (u : R) : R := u + u ^ 3 / 6 + 3 / 40 * u ^ 5 + 5 / 112 * u ^ 7 + 35 / 1152 * u ^ 9 + 63 / 2816 * u ^ 11.
Definition dasin11 (z : R) : R := 1 + z / 2 + 3 / 8 * z ^ 2 + 5 / 16 * z ^ 3 + 35 / 128 * z ^ 4 + 63 / 256 * z ^ 5.
Lemma asin_derive t : -1 < t < 1 -> is_derive asin t (/ sqrt (1 - t ^ 2)).
Proof.
  intros T. apply is_derive_Reals. replace (/ sqrt (1 - t ^ 2)) with (derive_pt asin t (derivable_pt_asin t T)).
  - apply (proj2_sig (derivable_pt_asin t T)).
  - rewrite derive_pt_asin. unfold Rdiv. rewrite Rmult_1_l. do 3 f_equal. unfold Rsqr. ring.
Qed.
Lemma dasin_square z : 0 <= z <= 1 -> 1 - z ^ 6 <= dasin11 z ^ 2 * (1 - z) <= 1.
Proof.
  intros [Z1 Z2]. assert (E : dasin11 z ^ 2 * (1 - z) = 1 - z ^ 6 * (231 / 512 + 99 / 512 * z + 2079 / 16384 * z ^ 2 + 385 / 4096 * z ^ 3 + 4851 / 65536 * z ^ 4 + 3969 / 65536 * z ^ 5)) by (unfold dasin11; field).
  rewrite E. assert (P6 : 0 <= z ^ 6) by (apply pow_le; lra).
  assert (Q : forall m, 0 <= z ^ m <= 1) by (intros m; split; [apply pow_le; lra|rewrite <- (pow1 m); apply pow_incr; lra]).
  pose proof (Q 2%nat). pose proof (Q 3%nat). pose proof (Q 4%nat). pose proof (Q 5%nat).
  set (r := 231 / 512 + 99 / 512 * z + 2079 / 16384 * z ^ 2 + 385 / 4096 * z ^ 3 + 4851 / 65536 * z ^ 4 + 3969 / 65536 * z ^ 5).
  assert (0 <= r <= 1) by (unfold r; lra). nra.
Qed.
Lemma dasin_bounds z : 0 <= z <= 1 / 4 -> dasin11 z <= / sqrt (1 - z) <= dasin11 z + 2 * z ^ 6.
Proof.
  intros [Z1 Z2]. destruct (dasin_square z) as [L H]; [lra|].
  assert (P6 : 0 <= z ^ 6) by (apply pow_le; lra).
  assert (D1 : 1 <= dasin11 z).
  { unfold dasin11. assert (Q : forall m, 0 <= z ^ m) by (intros m; apply pow_le; lra). pose proof (Q 2%nat). pose proof (Q 3%nat). pose proof (Q 4%nat). pose proof (Q 5%nat). lra. }
  set (s := sqrt (1 - z)). assert (S2 : s * s = 1 - z) by (apply sqrt_sqrt; lra). assert (S0 : 0 < s) by (apply sqrt_lt_R0; lra).
  assert (S1 : 1 / 2 <= s) by (apply Rnot_lt_le; intros N; nra).
  set (d := dasin11 z) in *. assert (SQ : (d * s) * (d * s) = d ^ 2 * (1 - z)) by (rewrite <- S2; ring).
  split.
  - apply Rmult_le_reg_r with s; [exact S0|]. rewrite Rinv_l by lra. apply Rnot_lt_le. intros N. nra.
  - apply Rmult_le_reg_r with s; [exact S0|]. rewrite Rinv_l by lra.
    assert (A : 0 < d * s) by nra. assert (B : 1 - z ^ 6 <= d * s).
    { apply Rnot_lt_le. intros N. assert (z ^ 6 < 1) by lra. nra. }
    nra.
Qed.
Lemma asin_bounds u : 0 <= u <= 1 / 2 -> asin11 u <= asin u <= asin11 u + 2 * u ^ 13 / 13.
Proof.
  intros [U V]. split.
  - apply (bounds asin11 asin (fun t => dasin11 (t ^ 2)) (fun t => / sqrt (1 - t ^ 2)) u U).
    + rewrite asin_0. unfold asin11. field.
    + intros t _. unfold asin11, dasin11. auto_derive; [trivial|field].
    + intros t T. apply asin_derive. lra.
    + intros t T. apply dasin_bounds. nra.
  - apply (bounds asin (fun u => asin11 u + 2 * u ^ 13 / 13) (fun t => / sqrt (1 - t ^ 2)) (fun t => dasin11 (t ^ 2) + 2 * (t ^ 2) ^ 6) u U).
    + rewrite asin_0. unfold asin11. field.
    + intros t T. apply asin_derive. lra.
    + intros t _. unfold asin11, dasin11. auto_derive; [trivial|field].
    + intros t T. apply dasin_bounds. nra.
Qed.

(** * the branch |k| <= 1e-8 of the k-functions *)
Lemma odd_bound (D : R -> Prop) (F P : R -> R) c m : (forall u, F (- u) = - F u) -> (forall u, P (- u) = - P u) ->
  (forall u, 0 <= u -> D u -> Rabs (P u - F u) <= c * u ^ m) -> forall u, D (Rabs u) -> Rabs (P u - F u) <= c * Rabs u ^ m.
Proof.
  intros OF OP B u Du. destruct (Rle_or_lt 0 u) as [U|U].
  - rewrite (Rabs_right u) in * by lra. apply B; assumption.
  - rewrite (Rabs_left u) in * by lra. replace (P u - F u) with (- (P (- u) - F (- u))) by (rewrite OF, OP; ring).
    rewrite Rabs_Ropp. apply B; [lra|assumption].
Qed.
Lemma scale_bound (D : R -> Prop) (F P : R -> R) c m k x t : 0 < k ->
  (forall u, D (Rabs u) -> Rabs (P u - F u) <= c * Rabs u ^ S (2 * m)) -> D (sqrt k * Rabs x) ->
  t = P (sqrt k * x) / sqrt k -> Rabs (t - F (sqrt k * x) / sqrt k) <= c * (k ^ m * Rabs x ^ S (2 * m)).
Proof.
  intros K B Dx ->. pose proof (sqrt_lt_R0 k K) as S0. assert (S2 : sqrt k ^ 2 = k) by (apply pow2_sqrt; lra).
  set (s := sqrt k) in *. replace (P (s * x) / s - F (s * x) / s) with ((P (s * x) - F (s * x)) * / s) by (field; lra).
  assert (A : Rabs (s * x) = s * Rabs x) by (rewrite Rabs_mult, (Rabs_right s); lra).
  rewrite Rabs_mult, (Rabs_right (/ s)) by (left; apply Rinv_0_lt_compat, S0).
  apply Rmult_le_reg_r with s; [exact S0|]. rewrite Rmult_assoc, Rinv_l, Rmult_1_r by lra.
  eapply Rle_trans; [apply B; rewrite A; exact Dx|]. rewrite A, Rpow_mult_distr.
  replace (s ^ S (2 * m)) with (k ^ m * s) by (rewrite <- S2, <- pow_mult; simpl; ring).
  right. ring.
Qed.
Lemma azg_pos k : 0 < k -> abs_zero_grad k = k.
Proof. intros K. unfold abs_zero_grad, sign, torch_sign. repeat (destruct Rlt_dec; try lra). Qed.
Lemma azg_neg k : k < 0 -> abs_zero_grad k = - k.
Proof. intros K. unfold abs_zero_grad, sign, torch_sign. repeat (destruct Rlt_dec; try lra). Qed.
Lemma abs_between a b c : a <= b <= a + c -> Rabs (a - b) <= c.
Proof. intros [L H]. rewrite Rabs_minus_sym, Rabs_right; lra. Qed.
Ltac small_k K := unfold tan_k_at, artan_k_at, sin_k_at, arsin_k_at; destruct k_zero as [Kz|Kz];
  [|exfalso; apply Kz; rewrite Rabs_right; lra].
Ltac scaled_poly k K := rewrite (azg_pos k) by lra; pose proof (sqrt_lt_R0 k (proj1 K)) as S0;
  assert (S2 : sqrt k * sqrt k = k) by (apply sqrt_sqrt; lra); set (s := sqrt k) in *; rewrite <- S2; field; lra.

Lemma artan_accurate e k x : 0 < k <= e8 ->
  Rabs (artan_k_at e x k - atan (sqrt k * x) / sqrt k) <= 1 / 5 * (k ^ 2 * Rabs x ^ 5).
Proof.
  intros K. small_k K.
  apply (scale_bound (fun _ => True) atan (fun u => u - u ^ 3 / 3) (1 / 5) 2 k x); [lra| |trivial|].
  - apply (odd_bound (fun _ => True)); [apply atan_opp|intros; field|]. intros u U _. rewrite Rabs_minus_sym.
    pose proof (atan_lower u U). pose proof (atan_upper u U). rewrite Rabs_right; cbn [Nat.mul Nat.add] in *; lra.
  - unfold artan_k_zero_taylor1. cbv zeta. scaled_poly k K.
Qed.
Lemma tan_accurate e k x : 0 < k <= e8 -> sqrt k * Rabs x <= 1 / 2 ->
  Rabs (tan_k_at e x k - tan (sqrt k * x) / sqrt k) <= 1 / 5 * (k ^ 2 * Rabs x ^ 5).
Proof.
  intros K U. small_k K.
  apply (scale_bound (fun u => u <= 1 / 2) tan (fun u => u + u ^ 3 / 3) (1 / 5) 2 k x); [lra| |exact U|].
  - apply (odd_bound (fun u => u <= 1 / 2)); [apply tan_neg|intros; field|]. intros u U0 U1.
    cbn [Nat.mul Nat.add]. apply abs_between. pose proof (tan_bounds u (conj U0 U1)). lra.
  - unfold tan_k_zero_taylor1. cbv zeta. scaled_poly k K.
Qed.
Lemma sin_accurate e k x : 0 < k <= e8 ->
  Rabs (sin_k_at e x k - sin (sqrt k * x) / sqrt k) <= 1 / 6227020800 * (k ^ 6 * Rabs x ^ 13).
Proof.
  intros K. small_k K.
  apply (scale_bound (fun _ => True) sin sin11 (1 / 6227020800) 6 k x); [lra| |trivial|].
  - apply (odd_bound (fun _ => True)); [apply sin_neg|intros; unfold sin11; field|]. intros u U _.
    cbn [Nat.mul Nat.add]. apply abs_between. pose proof (sin_bounds u U). lra.
  - unfold sin_k_zero_taylor5, sin11. cbv zeta. scaled_poly k K.
Qed.
Lemma arsin_accurate e k x : 0 < k <= e8 -> sqrt k * Rabs x <= 1 / 2 ->
  Rabs (arsin_k_at e x k - asin (sqrt k * x) / sqrt k) <= 2 / 13 * (k ^ 6 * Rabs x ^ 13).
Proof.
  intros K U. small_k K.
  apply (scale_bound (fun u => u <= 1 / 2) asin asin11 (2 / 13) 6 k x); [lra| |exact U|].
  - apply (odd_bound (fun u => u <= 1 / 2)); [apply asin_opp|intros; unfold asin11; field|]. intros u U0 U1.
    cbn [Nat.mul Nat.add]. apply abs_between. pose proof (asin_bounds u (conj U0 U1)). lra.
  - unfold arsin_k_zero_taylor5, asin11. cbv zeta. scaled_poly k K.
Qed.

(** * negative curvature: the series are those of the positive curvature |k| *)
Lemma atanh_derive t : -1 < t < 1 -> is_derive atanh t (/ (1 - t ^ 2)).
Proof. intros T. unfold atanh. auto_derive; [lra|field]. repeat split; nra. Qed.
Lemma atanh_above u : 0 < u < 1 -> u < atanh u.
Proof.
  intros [U V]. apply Rlt_le_trans with (u + u ^ 3 / 3); [pose proof (pow_lt u 3 U); lra|].
  apply (bounds (fun u => u + u ^ 3 / 3) atanh (fun t => 1 + t ^ 2) (fun t => / (1 - t ^ 2)) u).
  - lra.
  - rewrite atanh_0. field.
  - poly_derive.
  - intros t T. apply atanh_derive. lra.
  - intros t T. assert (0 < 1 - t ^ 2) by nra. apply Rmult_le_reg_r with (1 - t ^ 2); [assumption|]. rewrite Rinv_l by lra. nra.
Qed.
Lemma tanh_below u : 0 < u -> tanh u < u.
Proof.
  intros U. pose proof (tanh_incr 0 u U) as W. rewrite tanh_0 in W. pose proof (tanh_lt_1 u).
  rewrite <- (atanh_tanh u) at 2. apply atanh_above. lra.
Qed.
Lemma sinh_derive t : is_derive sinh t (cosh t). Proof. apply is_derive_Reals, derivable_pt_lim_sinh. Qed.
Lemma cosh_derive t : is_derive cosh t (sinh t). Proof. apply is_derive_Reals, derivable_pt_lim_cosh. Qed.
Lemma cosh_ge_1 t : 1 <= cosh t.
Proof.
  unfold cosh. assert (E : exp t * exp (- t) = 1) by (rewrite <- exp_plus, Rplus_opp_r; apply exp_0).
  pose proof (exp_pos t). pose proof (exp_pos (- t)). pose proof (Rle_0_sqr (exp t - exp (- t))) as Q. unfold Rsqr in Q. nra.
Qed.
Lemma sinh_above u : 0 < u -> u < sinh u.
Proof.
  intros U. assert (S1 : forall v, 0 <= v -> v <= sinh v).
  { intros v V. apply (bounds (fun v => v) sinh (fun _ => 1) cosh v V); [symmetry; apply sinh_0|intros; auto_derive; [trivial|reflexivity]|intros; apply sinh_derive|intros; apply cosh_ge_1]. }
  assert (C1 : forall v, 0 <= v -> 1 + v ^ 2 / 2 <= cosh v).
  { intros v V. apply (bounds (fun v => 1 + v ^ 2 / 2) cosh (fun t => t) sinh v V); [rewrite cosh_0; field|poly_derive|intros; apply cosh_derive|intros t [T _]; apply S1, T]. }
  apply Rlt_le_trans with (u + u ^ 3 / 6); [pose proof (pow_lt u 3 U); lra|].
  apply (bounds (fun v => v + v ^ 3 / 6) sinh (fun t => 1 + t ^ 2 / 2) cosh u); [lra|rewrite sinh_0; field|poly_derive|intros; apply sinh_derive|intros t [T _]; apply C1, T].
Qed.
Lemma arcsinh_below u : 0 < u -> arcsinh u < u.
Proof.
  intros U. assert (W : 0 < arcsinh u) by (rewrite <- arcsinh_0; apply arcsinh_lt, U).
  rewrite <- (sinh_arcsinh u) at 2. apply sinh_above, W.
Qed.
Ltac small_neg K := unfold tan_k_at, artan_k_at, sin_k_at, arsin_k_at; destruct k_zero as [Kz|Kz];
  [|exfalso; apply Kz; rewrite Rabs_left; lra].
Lemma div_lt a b s : 0 < s -> a < s * b -> a / s < b.
Proof. intros S0 L. apply Rmult_lt_reg_r with s; [exact S0|]. unfold Rdiv. rewrite Rmult_assoc, Rinv_l by lra. lra. Qed.
Lemma lt_div a b s : 0 < s -> s * b < a -> b < a / s.
Proof. intros S0 L. apply Rmult_lt_reg_r with s; [exact S0|]. unfold Rdiv. rewrite Rmult_assoc, Rinv_l by lra. lra. Qed.
Lemma tan_negative e k x : - e8 <= k < 0 -> 0 < x ->
  tanh (sqrt (- k) * x) / sqrt (- k) < x < tan_k_at e x k.
Proof.
  intros K X. pose proof (sqrt_lt_R0 (- k) ltac:(lra)) as S0. split.
  - apply div_lt; [exact S0|]. apply tanh_below. apply Rmult_lt_0_compat; assumption.
  - small_neg K. unfold tan_k_zero_taylor1. cbv zeta. rewrite azg_neg by lra. pose proof (pow_lt x 3 X).
    assert (0 < - k * x ^ 3) by (apply Rmult_lt_0_compat; lra). lra.
Qed.
Lemma artan_negative e k x : - e8 <= k < 0 -> 0 < x -> sqrt (- k) * x < 1 ->
  artan_k_at e x k < x < atanh (sqrt (- k) * x) / sqrt (- k).
Proof.
  intros K X D. pose proof (sqrt_lt_R0 (- k) ltac:(lra)) as S0. split.
  - small_neg K. unfold artan_k_zero_taylor1. cbv zeta. rewrite azg_neg by lra. pose proof (pow_lt x 3 X).
    assert (0 < - k * x ^ 3) by (apply Rmult_lt_0_compat; lra). lra.
  - apply lt_div; [exact S0|]. apply atanh_above. split; [apply Rmult_lt_0_compat; assumption|exact D].
Qed.
Lemma sin_strict u : 0 < u -> sin u < u.
Proof. intros U. apply sin_lt_x, U. Qed.
Lemma sin_negative e k x : - e8 <= k < 0 -> 0 < x ->
  sin_k_at e x k < x < sinh (sqrt (- k) * x) / sqrt (- k).
Proof.
  intros K X. pose proof (sqrt_lt_R0 (- k) ltac:(lra)) as S0. split.
  - small_neg K. unfold sin_k_zero_taylor5. cbv zeta. rewrite azg_neg by lra.
    assert (S2 : sqrt (- k) * sqrt (- k) = - k) by (apply sqrt_sqrt; lra). set (s := sqrt (- k)) in *.
    assert (P : 0 < s * x) by (apply Rmult_lt_0_compat; assumption).
    apply Rle_lt_trans with (sin (s * x) / s).
    + apply Rmult_le_reg_r with s; [exact S0|]. unfold Rdiv at 6. rewrite Rmult_assoc, Rinv_l, Rmult_1_r by lra.
      eapply Rle_trans; [|apply (proj1 (sin_bounds (s * x) (Rlt_le _ _ P)))]. rewrite <- S2. right. unfold sin11. field.
    + apply div_lt; [exact S0|]. apply sin_strict, P.
  - apply lt_div; [exact S0|]. apply sinh_above. apply Rmult_lt_0_compat; assumption.
Qed.
Lemma arsin_negative e k x : - e8 <= k < 0 -> 0 < x ->
  arcsinh (sqrt (- k) * x) / sqrt (- k) < x < arsin_k_at e x k.
Proof.
  intros K X. pose proof (sqrt_lt_R0 (- k) ltac:(lra)) as S0. split.
  - apply div_lt; [exact S0|]. apply arcsinh_below. apply Rmult_lt_0_compat; assumption.
  - small_neg K. unfold arsin_k_zero_taylor5. cbv zeta. rewrite azg_neg by lra.
    assert (Q : forall i j, 0 < (- k) ^ i * x ^ j) by (intros i j; apply Rmult_lt_0_compat; apply pow_lt; lra).
    pose proof (Q 1 3)%nat as Q1. rewrite pow_1 in Q1. pose proof (Q 2 5)%nat. pose proof (Q 3 7)%nat. pose proof (Q 4 9)%nat. pose proof (Q 5 11)%nat. lra.
Qed.
Lemma at_zero e x : artan_k_at e x 0 = x /\ tan_k_at e x 0 = x /\ sin_k_at e x 0 = x /\ arsin_k_at e x 0 = x.
Proof.
  unfold artan_k_at, tan_k_at, sin_k_at, arsin_k_at. pose proof e8_pos. destruct k_zero as [_|N]; [|exfalso; apply N; rewrite Rabs_R0; lra].
  unfold artan_k_zero_taylor1, tan_k_zero_taylor1, sin_k_zero_taylor5, arsin_k_zero_taylor5, abs_zero_grad.
  repeat split; field.
Qed.
Lemma sqrt_e8 : sqrt e8 = 1 / 10000.
Proof. rewrite e8_val. replace (1 / 100000000) with (1 / 10000 * (1 / 10000)) by field. apply sqrt_square. lra. Qed.
Lemma taylor_case : 0 < e8 <= e8 /\ sqrt e8 * Rabs 5000 <= 1 / 2.
Proof. rewrite sqrt_e8, Rabs_right by lra. pose proof e8_pos. lra. Qed.
(** at k = -1e-8, x = 1000: the true correction is about -1/3, the code's +1/3 *)
Lemma negative_refuted :
  ~ forall e k x, - e8 <= k < 0 -> 0 <= x -> Rabs (tan_k_at e x k - tanh (sqrt (- k) * x) / sqrt (- k)) <= 1 / 5 * (k ^ 2 * Rabs x ^ 5).
Proof.
  intros H. pose proof e8_pos. pose proof e8_val as V8. specialize (H 0 (- e8) 1000 ltac:(lra) ltac:(lra)).
  destruct (tan_negative 0 (- e8) 1000 ltac:(lra) ltac:(lra)) as [A _].
  assert (T : tan_k_at 0 1000 (- e8) = 1000 + 10 / 3).
  { unfold tan_k_at. destruct k_zero as [_|N]; [|exfalso; apply N; rewrite Rabs_left; lra]. unfold tan_k_zero_taylor1. rewrite azg_neg by lra. rewrite V8. field. }
  rewrite T in H. rewrite (Rabs_right 1000) in H by lra.
  rewrite Rabs_right in H by lra.
  assert (E : 1 / 5 * ((- e8) ^ 2 * 1000 ^ 5) = 2 / 100) by (rewrite V8; field). rewrite E in H. lra.
Qed.
