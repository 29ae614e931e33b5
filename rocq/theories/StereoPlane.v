(** Lemmas: distance to a hyperplane in the kappa-stereographic model. *)
From Coq Require Import Reals Lra Psatz FunctionalExtensionality.
From Verif Require Import RVec StereoModel StereoSpec GyroAlgebra StereoTrig StereoProofs StereoProofs2 StereoProofs3.
Local Open Scope R_scope.

(** ** inverse sines of a double angle *)
Lemma arsinh_c_arcsinh x : 0 <= x -> arsinh_c x = arcsinh x.
Proof.
  intros H. unfold arsinh_c, arcsinh. f_equal. replace (1 + x ^ 2) with (x ^ 2 + 1) by ring.
  apply clamp_min_id. pose proof e15_val. assert (1 <= sqrt (x ^ 2 + 1)).
  { rewrite <- sqrt_1 at 1. apply sqrt_le_1_alt. nra. }
  lra.
Qed.
Lemma arsinh_double u : 0 <= u < 1 -> arcsinh (2 * u / (1 - u ^ 2)) = 2 * atanh u.
Proof.
  intros H. assert (0 < 1 - u ^ 2) by nra. unfold arcsinh.
  assert (E : (2 * u / (1 - u ^ 2)) ^ 2 + 1 = ((1 + u ^ 2) / (1 - u ^ 2)) ^ 2) by (field; lra).
  rewrite E, sqrt_pow2.
  - replace (2 * u / (1 - u ^ 2) + (1 + u ^ 2) / (1 - u ^ 2)) with ((1 + u) / (1 - u)) by (field; nra).
    unfold atanh. unfold Rdiv at 1. rewrite ln_mult, ln_Rinv by (try apply Rinv_0_lt_compat; lra). field.
  - apply Rlt_le, Rdiv_lt_0_compat; nra.
Qed.
Lemma arcsinh_mono x y : x <= y -> arcsinh x <= arcsinh y.
Proof. intros [H| ->]; [left; apply arcsinh_lt; auto|lra]. Qed.
Lemma arcsinh_lip x y : x <= y -> arcsinh y - arcsinh x <= y - x.
Proof.
  intros [H| ->]; [|lra].
  destruct (MVT_cor2 arcsinh (fun x => / sqrt (x ^ 2 + 1)) x y H) as (c & Hc & _).
  { intros c _. apply derivable_pt_lim_arcsinh. }
  rewrite Hc. assert (1 <= sqrt (c ^ 2 + 1)).
  { rewrite <- sqrt_1 at 1. apply sqrt_le_1_alt. nra. }
  set (q := sqrt (c ^ 2 + 1)) in *. assert (I : / q * q = 1) by (apply Rinv_l; lra).
  assert (0 < / q) by (apply Rinv_0_lt_compat; lra). assert (/ q <= 1) by nra. nra.
Qed.
Lemma sin_2atan u : sin (2 * atan u) = 2 * u / (1 + u ^ 2).
Proof.
  rewrite sin_2a, sin_atan, cos_atan. assert (0 < 1 + u²) by (unfold Rsqr; nra).
  assert (Q : sqrt (1 + u²) * sqrt (1 + u²) = 1 + u²) by (apply sqrt_sqrt; lra).
  assert (0 < sqrt (1 + u²)) by (apply sqrt_lt_R0; lra).
  unfold Rsqr in *. replace (1 + u ^ 2) with (sqrt (1 + u * u) * sqrt (1 + u * u)) by (rewrite Q; ring).
  field. lra.
Qed.
Lemma asin_double u x : 0 <= u -> 0 <= x -> x <= 2 * u / (1 + u ^ 2) -> asin x <= 2 * atan u.
Proof.
  intros Hu Hx H. assert (x <= 1).
  { pose proof (pow2_ge_0 u). pose proof (pow2_ge_0 (u - 1)).
    eapply Rle_trans; [exact H|]. apply (Rmult_le_reg_r (1 + u ^ 2)); [lra|].
    unfold Rdiv. rewrite Rmult_assoc, Rinv_l by lra. nra. }
  destruct (Rle_lt_dec (asin x) (2 * atan u)) as [?|L]; auto. exfalso.
  pose proof (asin_bound x). pose proof (atan_bound u).
  assert (0 <= atan u). { rewrite <- atan_0. destruct Hu as [Hu| <-]; [left; apply atan_increasing; auto|lra]. }
  assert (SI : sin (2 * atan u) < sin (asin x)) by (apply sin_increasing_1; lra).
  rewrite sin_asin, sin_2atan in SI by lra. lra.
Qed.
Lemma asin_double_eq u : 0 <= u <= 1 -> asin (2 * u / (1 + u ^ 2)) = 2 * atan u.
Proof.
  intros Hu. rewrite <- sin_2atan. apply asin_sin. pose proof PI_RGT_0.
  assert (0 <= atan u). { rewrite <- atan_0. destruct Hu as [[Hu| <-] _]; [left; apply atan_increasing; auto|lra]. }
  assert (atan u <= PI / 4).
  { rewrite <- atan_1. destruct Hu as [_ [Hu| ->]]; [left; apply atan_increasing; auto|lra]. }
  lra.
Qed.

Lemma arsin_k_zero e x : arsin_k e x 0 = x.
Proof.
  unfold arsin_k, arsin_k_at. destruct (k_zero 0) as [|N].
  - unfold arsin_k_zero_taylor5, abs_zero_grad. cbv zeta. rewrite Rmult_0_l. field.
  - exfalso. apply N. rewrite Rabs_R0. pose proof e8_pos. lra.
Qed.
Lemma arsin_k_neg e x k : k < - e8 -> arsin_k e x k = / k_sqrt e k * arsinh_c (x * k_sqrt e k).
Proof.
  intros H. unfold arsin_k, arsin_k_at. pose proof e8_pos. destruct (k_zero k) as [Z|_].
  - rewrite Rabs_left in Z by lra. lra.
  - destruct Rlt_dec; [reflexivity|lra].
Qed.
Lemma arsin_k_pos e x k : e8 < k -> arsin_k e x k = / k_sqrt e k * asin (x * k_sqrt e k).
Proof.
  intros H. unfold arsin_k, arsin_k_at. pose proof e8_pos. destruct (k_zero k) as [Z|_].
  - rewrite Rabs_right in Z by lra. lra.
  - destruct Rlt_dec; [lra|reflexivity].
Qed.

(** ** algebra: the gap between X and a point orthogonal to a *)
Lemma plane_poly k s2 X2 B c : 0 <= B -> s2 <= X2 -> c * c <= (X2 - s2) * B ->
  s2 * (1 + k * B) ^ 2 <= (X2 + B - 2 * c) * (1 + k ^ 2 * X2 * B + 2 * k * c).
Proof.
  intros HB HX Hc. destruct HB as [HB|HB].
  - apply (Rmult_le_reg_l B); auto. apply Rminus_le.
    replace (B * (s2 * (1 + k * B) ^ 2) - B * ((X2 + B - 2 * c) * (1 + k ^ 2 * X2 * B + 2 * k * c)))
      with (- ((k * B * s2 + c * (1 - k * B) - B * (1 - k * (X2 - s2))) ^ 2
               + ((X2 - s2) * B - c * c) * (1 + k * B) ^ 2)) by ring.
    pose proof (pow2_ge_0 (k * B * s2 + c * (1 - k * B) - B * (1 - k * (X2 - s2)))).
    assert (0 <= ((X2 - s2) * B - c * c) * (1 + k * B) ^ 2).
    { apply Rmult_le_pos; [lra|apply pow2_ge_0]. }
    lra.
  - subst B. assert (c = 0) by nra. subst c. nra.
Qed.

Section Plane.
  Variable n : nat.
  Implicit Types X W Y a x p w : vec.

  Definition sc2 X a := dot n X a * dot n X a / dot n a a.
  Lemma component X W a : 0 < dot n a a -> dot n W a = 0 ->
    sc2 X a <= dot n X X /\ dot n X W * dot n X W <= (dot n X X - sc2 X a) * dot n W W.
  Proof.
    intros Ha HW. set (Y := vsub X (smul (dot n X a / dot n a a) a)).
    assert (EY : dot n Y Y = dot n X X - sc2 X a).
    { unfold Y, sc2. vexp. rewrite (dot_comm n a X). field. lra. }
    assert (EW : dot n Y W = dot n X W).
    { unfold Y. vexp. rewrite (dot_comm n a W), HW. ring. }
    split.
    - pose proof (dot_nonneg n Y). lra.
    - rewrite <- EY, <- EW. apply cauchy_schwarz.
  Qed.

  Lemma plane_gap k X W a : 0 < dot n a a -> dot n W a = 0 ->
    sc2 X a * cf n k W ^ 2 <= gap2 n X W * mden n k (vopp X) W.
  Proof.
    intros Ha HW. destruct (component X W a Ha HW) as [C1 C2].
    pose proof (plane_poly k (sc2 X a) (dot n X X) (dot n W W) (dot n X W) (dot_nonneg n W) C1 C2) as H.
    unfold cf, gap2, mden, mobius_den. vexp.
    replace (1 - 2 * k * - dot n X W + k ^ 2 * - - dot n X X * dot n W W)
      with (1 + k ^ 2 * dot n X X * dot n W W + 2 * k * dot n X W) by ring.
    replace (dot n X X - 2 * dot n X W + dot n W W) with (dot n X X + dot n W W - 2 * dot n X W) by ring.
    exact H.
  Qed.

  (** The argument the library should hand to arsin_k. *)
  Definition plane_arg k X a := 2 * Rabs (dot n X a) / (cf n k X * nrm n a).

  Lemma plane_arg_le k X W a t : 0 < dot n a a -> dot n W a = 0 -> 0 <= t ->
    0 < cf n k X -> 0 < cf n k W -> 0 < mden n k (vopp X) W ->
    t * t = gap2 n X W / mden n k (vopp X) W ->
    0 <= plane_arg k X a /\ 0 < 1 + k * (t * t) /\ plane_arg k X a <= 2 * t / (1 + k * (t * t)).
  Proof.
    intros Ha HW Ht CX CW M ET.
    assert (Na : 0 < nrm n a) by (unfold nrm; apply sqrt_lt_R0; auto).
    assert (E1 : 1 + k * (t * t) = cf n k X * cf n k W / mden n k (vopp X) W).
    { rewrite ET, (mden_gap n k X W) in *. field. lra. }
    assert (P1 : 0 < 1 + k * (t * t)).
    { rewrite E1. apply Rdiv_lt_0_compat; auto. apply Rmult_lt_0_compat; auto. }
    split; [|split; auto].
    - unfold plane_arg. apply Rmult_le_pos; [|apply Rlt_le, Rinv_0_lt_compat, Rmult_lt_0_compat; auto].
      pose proof (Rabs_pos (dot n X a)). lra.
    - assert (S : Rabs (dot n X a) / nrm n a * cf n k W <= t * mden n k (vopp X) W).
      { apply Rsqr_incr_0_var; [|apply Rmult_le_pos; lra]. unfold Rsqr.
        replace (t * mden n k (vopp X) W * (t * mden n k (vopp X) W))
          with (t * t * mden n k (vopp X) W * mden n k (vopp X) W) by ring.
        rewrite ET. replace (gap2 n X W / mden n k (vopp X) W * mden n k (vopp X) W * mden n k (vopp X) W)
          with (gap2 n X W * mden n k (vopp X) W) by (field; lra).
        replace (Rabs (dot n X a) / nrm n a * cf n k W * (Rabs (dot n X a) / nrm n a * cf n k W))
          with (sc2 X a * cf n k W ^ 2). { apply plane_gap; auto. }
        unfold sc2. rewrite <- (nrm_sq n a).
        replace (dot n X a * dot n X a) with (Rabs (dot n X a) * Rabs (dot n X a)).
        2:{ rewrite <- Rabs_mult. apply Rabs_pos_eq. nra. }
        field. lra. }
      rewrite E1. unfold plane_arg.
      replace (2 * Rabs (dot n X a) / (cf n k X * nrm n a))
        with (2 / (cf n k X * cf n k W) * (Rabs (dot n X a) / nrm n a * cf n k W)) by (field; repeat split; lra).
      replace (2 * t / (cf n k X * cf n k W / mden n k (vopp X) W))
        with (2 / (cf n k X * cf n k W) * (t * mden n k (vopp X) W)) by (field; repeat split; lra).
      apply Rmult_le_compat_l; auto. apply Rlt_le, Rdiv_lt_0_compat; [lra|apply Rmult_lt_0_compat; auto].
  Qed.

  (** from arguments to lengths *)
  Lemma arsin_le_artan e k t z : 0 <= e -> closed_form k -> (k <= 0 \/ e = 0) -> 0 <= t -> length_ok e k t ->
    0 < 1 + k * (t * t) -> 0 <= z -> z <= 2 * t / (1 + k * (t * t)) ->
    arsin_k e z k <= 2 * artan_k e t k.
  Proof.
    intros He CF KE Ht LO P Hz H. apply exact_closed in CF as [->|[Hk|Hk]].
    - rewrite arsin_k_zero, artan_k_zero. rewrite Rmult_0_l, Rplus_0_r in H. lra.
    - pose proof e8_pos. pose proof e7_val.
      assert (Hs : 0 < k_sqrt e k) by (apply k_sqrt_pos; auto; left; lra).
      rewrite arsin_k_neg, artan_k_neg by auto.
      specialize (LO ltac:(lra)). change (rt e k) with (k_sqrt e k) in LO.
      set (s := k_sqrt e k) in *. assert (SS : s * s = Rabs k + e) by (apply k_sqrt_sq; auto).
      rewrite Rabs_left in SS by lra.
      assert (T1 : 0 <= t * s < 1) by (split; [apply Rmult_le_pos; lra|unfold e7 in *; lra]).
      rewrite artanh_c_id by (unfold e7 in *; lra).
      rewrite arsinh_c_arcsinh by (apply Rmult_le_pos; lra).
      replace (2 * (/ s * atanh (t * s))) with (/ s * (2 * atanh (t * s))) by ring.
      apply Rmult_le_compat_l; [apply Rlt_le, Rinv_0_lt_compat; auto|].
      rewrite <- arsinh_double by auto. apply arcsinh_mono.
      assert (Q : 0 < 1 - (t * s) ^ 2) by nra.
      apply Rle_trans with (2 * t / (1 + k * (t * t)) * s); [apply Rmult_le_compat_r; lra|].
      replace (2 * t / (1 + k * (t * t)) * s) with (2 * (t * s) * / (1 + k * (t * t))) by (field; lra).
      unfold Rdiv. apply Rmult_le_compat_l; [lra|]. apply Rinv_le_contravar; auto.
      replace ((t * s) ^ 2) with (t * t * (s * s)) by ring. rewrite SS. nra.
    - pose proof e8_pos. destruct KE as [KE| ->]; [lra|].
      assert (Hs : 0 < k_sqrt 0 k) by (apply k_sqrt_pos; [lra|left; lra]).
      rewrite arsin_k_pos, artan_k_pos by auto.
      set (s := k_sqrt 0 k) in *. assert (SS : s * s = Rabs k + 0) by (apply k_sqrt_sq; lra).
      rewrite Rabs_right in SS by lra.
      replace (2 * (/ s * atan (t * s))) with (/ s * (2 * atan (t * s))) by ring.
      apply Rmult_le_compat_l; [apply Rlt_le, Rinv_0_lt_compat; auto|].
      apply asin_double; try (apply Rmult_le_pos; lra).
      replace (1 + (t * s) ^ 2) with (1 + k * (t * t)).
      2:{ replace ((t * s) ^ 2) with (t * t * (s * s)) by ring. rewrite SS. ring. }
      replace (2 * (t * s) / (1 + k * (t * t))) with (2 * t / (1 + k * (t * t)) * s) by (field; lra).
      apply Rmult_le_compat_r; lra.
  Qed.

  (** the argument the library does hand over: 1e-15 more in the denominator *)
  Definition lib_arg k X a := 2 * Rabs (dot n X a) / (cf n k X * nrm n a + e15).
  Lemma dist2plane_form e k x a p : e15 <= dot n (mobius_add n k (vopp p) x) (mobius_add n k (vopp p) x) ->
    0 <= cf n k (mobius_add n k (vopp p) x) ->
    dist2plane n e k false false x a p = arsin_k e (lib_arg k (mobius_add n k (vopp p) x) a) k.
  Proof.
    intros F C. unfold dist2plane. rewrite clamp_min_id by auto. fold (cf n k (mobius_add n k (vopp p) x)).
    unfold clamp_abs. assert (0 <= cf n k (mobius_add n k (vopp p) x) * nrm n a).
    { apply Rmult_le_pos; auto. apply nrm_nonneg. }
    rewrite sign_nonneg, Rmult_1_l by auto. unfold sabs. rewrite (Rabs_pos_eq (cf n k (mobius_add n k (vopp p) x) * nrm n a)) by auto. reflexivity.
  Qed.
  Lemma lib_arg_le k X a : 0 < nrm n a -> 0 < cf n k X -> 0 <= lib_arg k X a <= plane_arg k X a.
  Proof.
    intros Na C. pose proof e15_pos. assert (0 < cf n k X * nrm n a) by (apply Rmult_lt_0_compat; auto).
    unfold lib_arg, plane_arg. pose proof (Rabs_pos (dot n X a)). split.
    - apply Rmult_le_pos; [lra|apply Rlt_le, Rinv_0_lt_compat; lra].
    - unfold Rdiv. apply Rmult_le_compat_l; [lra|]. apply Rinv_le_contravar; lra.
  Qed.

  Lemma cf_sub k p x : in_domain n k p -> in_domain n k x -> regular n k (vopp p) x ->
    0 < cf n k (mobius_add n k (vopp p) x).
  Proof.
    intros Dp Dx R. rewrite mobius_add_madd by auto. pose proof (regular_ne n k _ _ R) as NZ.
    rewrite cf_madd by auto. pose proof (mden_nonneg n k (vopp p) x).
    apply in_domain_opp, in_domain_cf in Dp. apply in_domain_cf in Dx.
    apply Rdiv_lt_0_compat; [apply Rmult_lt_0_compat; auto|lra].
  Qed.

  Lemma nrm_pos_dot a : 0 < nrm n a -> 0 < dot n a a.
  Proof. intros H. rewrite <- nrm_sq. nra. Qed.

  Lemma plane_lower e k x p a w : 0 <= e -> closed_form k -> (k <= 0 \/ e = 0) ->
    in_domain n k x -> in_domain n k p -> in_domain n k w ->
    regular n k (vopp p) x -> regular n k (vopp p) w -> regular n k (vopp x) w ->
    regular n k (vopp (mobius_add n k (vopp p) x)) (mobius_add n k (vopp p) w) ->
    0 < nrm n a -> / 10 ^ 15 <= dot n (mobius_add n k (vopp p) x) (mobius_add n k (vopp p) x) ->
    length_ok e k (nrm n (mobius_add n k (vopp x) w)) ->
    dot n (mobius_add n k (vopp p) w) a = 0 ->
    dist2plane n e k false false x a p <= dist n e k x w.
  Proof.
    intros He CF KE Dx Dp Dw R1 R2 R3 R4 Na F LO HW.
    pose proof (cf_sub k p x Dp Dx R1) as CX. pose proof (cf_sub k p w Dp Dw R2) as CW.
    assert (U : 1 + k * dot n (vopp p) (vopp p) <> 0).
    { apply in_domain_opp in Dp. unfold in_domain in Dp. lra. }
    assert (ED := dist_translate n e k (vopp p) x w R1 R2 R3 U R4).
    rewrite dist2plane_form by (auto; lra).
    assert (ET : nrm n (mobius_add n k (vopp (mobius_add n k (vopp p) x)) (mobius_add n k (vopp p) w))
                 = nrm n (mobius_add n k (vopp x) w)).
    { rewrite (mobius_add_madd n k (vopp (mobius_add n k (vopp p) x))) by auto.
      rewrite !(mobius_add_madd n) by auto.
      unfold nrm. f_equal. apply msub_translate; try apply regular_ne; auto. }
    rewrite <- ET in LO. rewrite <- ED. unfold dist.
    set (X := mobius_add n k (vopp p) x) in *. set (W := mobius_add n k (vopp p) w) in *.
    set (t := nrm n (mobius_add n k (vopp X) W)) in *.
    pose proof (nrm_nonneg n (mobius_add n k (vopp X) W)) as Ht. fold t in Ht.
    pose proof (regular_ne n k _ _ R4) as NZ. pose proof (mden_nonneg n k (vopp X) W).
    assert (TT : t * t = gap2 n X W / mden n k (vopp X) W).
    { unfold t. rewrite nrm_sq. rewrite mobius_add_madd by auto. apply msub_sq; auto. }
    destruct (plane_arg_le k X W a t (nrm_pos_dot a Na) HW Ht CX CW ltac:(lra) TT) as (Z0 & P & Z1).
    destruct (lib_arg_le k X a Na CX) as [L0 L1].
    apply arsin_le_artan; auto. lra.
  Qed.

  (** ** the nearest point of the plane *)
  Definition foot_r k X a := sqrt (cf n k X ^ 2 - 4 * k * sc2 X a).
  Definition foot_t k X a := 1 - k * dot n X X + foot_r k X a.
  Definition foot k X a := smul (2 / foot_t k X a) (vsub X (smul (dot n X a / dot n a a) a)).

  Lemma foot_facts k X a : k <= 0 -> 0 < dot n a a -> 0 < cf n k X ->
    dot n (foot k X a) a = 0 /\ 0 < cf n k (foot k X a) /\
    gap2 n X (foot k X a) * mden n k (vopp X) (foot k X a) = sc2 X a * cf n k (foot k X a) ^ 2.
  Proof.
    intros Hk Ha CX. set (Y := vsub X (smul (dot n X a / dot n a a) a)).
    assert (EYa : dot n Y a = 0). { unfold Y. vexp. field. lra. }
    assert (EYX : dot n X Y = dot n X X - sc2 X a).
    { unfold Y, sc2. vexp. field. lra. }
    assert (EYY : dot n Y Y = dot n X X - sc2 X a).
    { unfold Y, sc2. vexp. rewrite (dot_comm n a X). field. lra. }
    pose proof (dot_nonneg n Y) as PY. pose proof (dot_nonneg n X) as PX.
    assert (S0 : 0 <= sc2 X a).
    { unfold sc2. apply Rmult_le_pos; [|apply Rlt_le, Rinv_0_lt_compat; auto]. nra. }
    assert (PR : 0 < cf n k X ^ 2 - 4 * k * sc2 X a) by nra.
    assert (R0 : 0 < foot_r k X a) by (apply sqrt_lt_R0; auto).
    assert (RR : foot_r k X a * foot_r k X a = cf n k X ^ 2 - 4 * k * sc2 X a) by (apply sqrt_sqrt; lra).
    unfold foot. fold Y. set (T := foot_t k X a).
    assert (T0 : 0 < T) by (unfold T, foot_t; nra).
    assert (TT : T * T = 2 * (1 - k * dot n X X) * T + 4 * k * dot n Y Y).
    { rewrite EYY. unfold T, foot_t. unfold cf in RR. nra. }
    set (A := dot n Y Y) in *. set (s2 := sc2 X a) in *.
    assert (EX : dot n X X = A + s2) by lra. assert (EXY : dot n X Y = A) by lra.
    assert (CW : cf n k (smul (2 / T) Y) = 2 * foot_r k X a / T).
    { unfold cf. vexp. fold A. apply (Rmult_eq_reg_r (T * T)); [|nra].
      replace ((1 + k * (2 / T * (2 / T * A))) * (T * T)) with (T * T + 4 * k * A) by (field; lra).
      replace (2 * foot_r k X a / T * (T * T)) with (2 * foot_r k X a * T) by (field; lra).
      replace (foot_r k X a) with (T - (1 - k * dot n X X)) by (unfold T, foot_t; ring). lra. }
    split; [|split].
    - vexp. rewrite EYa. ring.
    - rewrite CW. apply Rdiv_lt_0_compat; lra.
    - assert (EW : dot n (smul (2 / T) Y) (smul (2 / T) Y) = 4 * A / (T * T)) by (vexp; fold A; field; lra).
      assert (EC : dot n X (smul (2 / T) Y) = 2 * A / T) by (vexp; rewrite EXY; field; lra).
      unfold gap2, mden, mobius_den, cf. rewrite !dot_opp_l, !dot_opp_r, EW, EC, EX.
      set (B := 4 * A / (T * T)). set (c := 2 * A / T).
      assert (Dl : A * B - c * c = 0) by (unfold B, c; field; lra).
      assert (E : k * B * s2 + c * (1 - k * B) - B * (1 - k * A) = 0).
      { replace (k * B * s2 + c * (1 - k * B) - B * (1 - k * A))
          with (2 * A / (T * T * T) * (T * T - 4 * k * A - 2 * (1 - k * (A + s2)) * T)) by (unfold B, c; field; lra).
        rewrite <- EX. replace (T * T - 4 * k * A - 2 * (1 - k * dot n X X) * T) with 0 by lra. ring. }
      destruct PY as [PA|PA].
      + assert (B0 : 0 < B) by (unfold B; apply Rdiv_lt_0_compat; nra).
        apply (Rmult_eq_reg_l B); [|lra]. apply Rminus_diag_uniq.
        replace (B * ((A + s2 - 2 * c + B) * (1 - 2 * k * - c + k ^ 2 * - - (A + s2) * B)) - B * (s2 * (1 + k * B) ^ 2))
          with ((k * B * s2 + c * (1 - k * B) - B * (1 - k * A)) ^ 2 + (A * B - c * c) * (1 + k * B) ^ 2) by ring.
        rewrite E, Dl. ring.
      + unfold B, c. rewrite <- PA. field. lra.
  Qed.

  Lemma foot_arg k X W a t : 0 < dot n a a -> 0 <= t -> 0 < cf n k X -> 0 < cf n k W ->
    0 < mden n k (vopp X) W -> t * t = gap2 n X W / mden n k (vopp X) W ->
    gap2 n X W * mden n k (vopp X) W = sc2 X a * cf n k W ^ 2 ->
    plane_arg k X a = 2 * t / (1 + k * (t * t)).
  Proof.
    intros Ha Ht CX CW M ET EG. assert (Na : 0 < nrm n a) by (unfold nrm; apply sqrt_lt_R0; auto).
    assert (E1 : 1 + k * (t * t) = cf n k X * cf n k W / mden n k (vopp X) W).
    { rewrite ET, (mden_gap n k X W) in *. field. lra. }
    assert (S : Rabs (dot n X a) / nrm n a * cf n k W = t * mden n k (vopp X) W).
    { apply Rsqr_inj.
      - apply Rmult_le_pos; [|lra]. apply Rmult_le_pos; [apply Rabs_pos|apply Rlt_le, Rinv_0_lt_compat; auto].
      - apply Rmult_le_pos; lra.
      - unfold Rsqr.
        replace (t * mden n k (vopp X) W * (t * mden n k (vopp X) W))
          with (t * t * mden n k (vopp X) W * mden n k (vopp X) W) by ring.
        rewrite ET. replace (gap2 n X W / mden n k (vopp X) W * mden n k (vopp X) W * mden n k (vopp X) W)
          with (gap2 n X W * mden n k (vopp X) W) by (field; lra).
        rewrite EG. unfold sc2. rewrite <- (nrm_sq n a).
        replace (dot n X a * dot n X a) with (Rabs (dot n X a) * Rabs (dot n X a)).
        2:{ rewrite <- Rabs_mult. apply Rabs_pos_eq. nra. }
        field. lra. }
    rewrite E1. unfold plane_arg.
    replace (2 * Rabs (dot n X a) / (cf n k X * nrm n a))
      with (2 / (cf n k X * cf n k W) * (Rabs (dot n X a) / nrm n a * cf n k W)) by (field; repeat split; lra).
    rewrite S. field. repeat split; lra.
  Qed.

  Lemma arg_gap k X a : 0 < nrm n a -> 0 < cf n k X ->
    plane_arg k X a - lib_arg k X a <= 2 * Rabs (dot n X a) / (10 ^ 15 * (cf n k X * nrm n a) ^ 2).
  Proof.
    intros Na C. pose proof e15_pos as E. assert (D : 0 < cf n k X * nrm n a) by (apply Rmult_lt_0_compat; auto).
    unfold plane_arg, lib_arg. set (d := cf n k X * nrm n a) in *. set (v := Rabs (dot n X a)).
    assert (V : 0 <= v) by apply Rabs_pos.
    replace (2 * v / d - 2 * v / (d + e15)) with (2 * v * e15 * / (d * (d + e15))) by (field; lra).
    replace (2 * v / (10 ^ 15 * d ^ 2)) with (2 * v * e15 * / (d * d)) by (unfold e15; field; lra).
    apply Rmult_le_compat_l; [nra|]. apply Rinv_le_contravar; nra.
  Qed.

  Lemma artan_le_arsin k t z z' : closed_form k -> k <= 0 -> 0 <= t ->
    0 < 1 + k * (t * t) -> 0 <= z' <= z -> z = 2 * t / (1 + k * (t * t)) ->
    2 * artan_k 0 t k <= arsin_k 0 z' k + (z - z').
  Proof.
    intros CF K0 Ht P Hz E. apply exact_closed in CF as [->|[Hk|Hk]].
    - rewrite arsin_k_zero, artan_k_zero. rewrite Rmult_0_l, Rplus_0_r in E. lra.
    - pose proof e8_pos. pose proof e7_pos. pose proof e7_val.
      assert (Hs : 0 < k_sqrt 0 k) by (apply k_sqrt_pos; [lra|left; lra]).
      rewrite arsin_k_neg, artan_k_neg by auto.
      set (s := k_sqrt 0 k) in *. assert (SS : s * s = Rabs k + 0) by (apply k_sqrt_sq; lra).
      rewrite Rabs_left in SS by lra.
      assert (EQ : (t * s) ^ 2 = - (k * (t * t))).
      { replace ((t * s) ^ 2) with (t * t * (s * s)) by ring. rewrite SS. ring. }
      assert (T1 : 0 <= t * s < 1) by (split; [apply Rmult_le_pos; lra|nra]).
      assert (CL : artanh_c (t * s) <= atanh (t * s)).
      { rewrite artanh_c_as. apply atanh_le; unfold clamp, Rmin, Rmax; repeat destruct Rle_dec; lra. }
      rewrite arsinh_c_arcsinh by (apply Rmult_le_pos; lra).
      apply (Rmult_le_reg_l s); auto.
      replace (s * (2 * (/ s * artanh_c (t * s)))) with (2 * artanh_c (t * s)) by (field; lra).
      replace (s * (/ s * arcsinh (z' * s) + (z - z'))) with (arcsinh (z' * s) + (z * s - z' * s)) by (field; lra).
      pose proof (arcsinh_lip (z' * s) (z * s) ltac:(nra)) as LIP.
      assert (EZ : arcsinh (z * s) = 2 * atanh (t * s)).
      { rewrite <- arsinh_double by auto. f_equal. rewrite E, EQ. field. lra. }
      lra.
    - pose proof e8_pos. lra.
  Qed.

  Lemma regular_flat x y : regular n 0 x y.
  Proof. unfold regular. pose proof e15_val as E. unfold e15 in E. rewrite E. lra. Qed.
  Lemma safe_reg k x y : k <= 0 -> safe n k x -> in_domain n k y -> regular n k x y.
  Proof. intros [H| ->] S D; [apply safe_regular; auto|apply regular_flat]. Qed.
  Lemma safe_dom k x : k <= 0 -> safe n k x -> in_domain n k x.
  Proof. intros [H| ->] S; [apply safe_in_domain; auto|unfold in_domain; lra]. Qed.
  Lemma add_dom k x y : k <= 0 -> safe n k x -> in_domain n k y -> in_domain n k (mobius_add n k x y).
  Proof.
    intros [H| ->] S D; [apply add_in_domain; auto using safe_in_domain|unfold in_domain; lra].
  Qed.

  Lemma plane_upper k x p a : closed_form k -> k <= 0 ->
    safe n k x -> safe n k p -> safe n k (mobius_add n k (vopp p) x) ->
    0 < nrm n a -> / 10 ^ 15 <= dot n (mobius_add n k (vopp p) x) (mobius_add n k (vopp p) x) ->
    exists w, in_domain n k w /\ dot n (mobius_add n k (vopp p) w) a = 0 /\
      dist n 0 k x w <= dist2plane n 0 k false false x a p
        + 2 * Rabs (dot n (mobius_add n k (vopp p) x) a)
          / (10 ^ 15 * ((1 + k * dot n (mobius_add n k (vopp p) x) (mobius_add n k (vopp p) x)) * nrm n a) ^ 2).
  Proof.
    intros CF K0 Sx Sp SX Na F. set (X := mobius_add n k (vopp p) x) in *.
    pose proof (safe_dom k x K0 Sx) as Dx. pose proof (safe_dom k p K0 Sp) as Dp.
    pose proof (safe_dom k X K0 SX) as DX. assert (CX : 0 < cf n k X) by exact DX.
    destruct (foot_facts k X a K0 (nrm_pos_dot a Na) CX) as (Wa & CW & EG).
    set (W := foot k X a) in *. assert (DW : in_domain n k W) by exact CW.
    exists (mobius_add n k p W).
    assert (LC : mobius_add n k (vopp p) (mobius_add n k p W) = W).
    { apply left_cancel; apply safe_reg; auto using safe_opp, add_dom. }
    split; [apply add_dom; auto|]. rewrite LC. split; [exact Wa|].
    assert (R4 : regular n k (vopp X) W) by (apply safe_reg; auto using safe_opp).
    assert (ED : dist n 0 k X W = dist n 0 k x (mobius_add n k p W)).
    { rewrite <- LC at 1. apply dist_translate.
      - apply safe_reg; auto using safe_opp.
      - apply safe_reg; auto using safe_opp, add_dom.
      - apply safe_reg; auto using safe_opp, add_dom.
      - apply in_domain_opp in Dp. unfold in_domain in Dp. unfold cf. lra.
      - rewrite LC. exact R4. }
    rewrite <- ED. rewrite dist2plane_form by (fold X; auto; lra). fold X.
    unfold dist. set (t := nrm n (mobius_add n k (vopp X) W)).
    pose proof (nrm_nonneg n (mobius_add n k (vopp X) W)) as Ht. fold t in Ht.
    pose proof (regular_ne n k _ _ R4) as NZ. pose proof (mden_nonneg n k (vopp X) W).
    assert (TT : t * t = gap2 n X W / mden n k (vopp X) W).
    { unfold t. rewrite nrm_sq. rewrite mobius_add_madd by auto. apply msub_sq; auto. }
    pose proof (foot_arg k X W a t (nrm_pos_dot a Na) Ht CX CW ltac:(lra) TT EG) as EA.
    destruct (plane_arg_le k X W a t (nrm_pos_dot a Na) Wa Ht CX CW ltac:(lra) TT) as (_ & P & _).
    pose proof (lib_arg_le k X a Na CX) as LA.
    pose proof (artan_le_arsin k t (plane_arg k X a) (lib_arg k X a) CF K0 Ht P LA EA).
    pose proof (arg_gap k X a Na CX). unfold cf in *. lra.
  Qed.

  (** ** sign and zero set *)
  Lemma arsinh_c_odd (x : R) : 0 <= x <= 10 ^ 14 -> arsinh_c (- x) = - arsinh_c x.
  Proof.
    intros H. rewrite (arsinh_c_arcsinh x) by lra. unfold arsinh_c, arcsinh.
    replace (1 + (- x) ^ 2) with (x ^ 2 + 1) by ring. set (q := sqrt (x ^ 2 + 1)).
    assert (Q : q * q = x ^ 2 + 1) by (apply sqrt_sqrt; nra). assert (Q0 : 0 <= q) by apply sqrt_pos.
    assert (Q1 : 1 <= q) by nra. assert (Q2 : q <= x + 1) by nra.
    rewrite <- ln_Rinv by lra.
    assert (I : - x + q = / (x + q)). { apply (Rmult_eq_reg_r (x + q)); [|lra]. rewrite Rinv_l by lra. nra. }
    rewrite I. f_equal. apply clamp_min_id. unfold e15.
    apply Rinv_le_contravar; [lra|]. replace (10 ^ 15) with (10 * 10 ^ 14) by ring.
    assert (1 <= 10 ^ 14) by (apply pow_R1_Rle; lra). lra.
  Qed.
  Lemma arsin_k_odd e k z : closed_form k -> 0 <= z -> z * k_sqrt e k <= 10 ^ 14 ->
    arsin_k e (- z) k = - arsin_k e z k.
  Proof.
    intros CF Hz B. apply exact_closed in CF as [->|[Hk|Hk]].
    - rewrite !arsin_k_zero. reflexivity.
    - rewrite !arsin_k_neg by auto. rewrite Ropp_mult_distr_l_reverse, arsinh_c_odd; [ring|].
      split; auto. apply Rmult_le_pos; auto. apply sqrt_pos.
    - rewrite !arsin_k_pos by auto. rewrite Ropp_mult_distr_l_reverse, asin_opp. ring.
  Qed.
  Lemma plane_signed e k x p a : closed_form k ->
    let X := mobius_add n k (vopp p) x in
    / 10 ^ 15 <= dot n X X -> 0 <= 1 + k * dot n X X ->
    2 * Rabs (dot n X a) / ((1 + k * dot n X X) * nrm n a + / 10 ^ 15) * rt e k <= 10 ^ 14 ->
    dist2plane n e k true false x a p =
      if Rlt_dec (dot n X a) 0 then - dist2plane n e k false false x a p
      else dist2plane n e k false false x a p.
  Proof.
    intros CF X F C B. unfold dist2plane. fold X. destruct Rlt_dec as [L|L].
    - rewrite (Rabs_left (dot n X a)) by auto. rewrite <- arsin_k_odd; auto.
      + f_equal. unfold Rdiv. ring.
      + rewrite clamp_min_id by auto. unfold clamp_abs.
        assert (0 <= (1 + k * dot n X X) * nrm n a) by (apply Rmult_le_pos; auto; apply nrm_nonneg).
        rewrite sign_nonneg, Rmult_1_l by auto. unfold sabs. rewrite Rabs_pos_eq by auto.
        apply Rmult_le_pos; [lra|]. apply Rlt_le, Rinv_0_lt_compat. pose proof e15_pos. lra.
      + rewrite clamp_min_id by auto. unfold clamp_abs.
        assert (0 <= (1 + k * dot n X X) * nrm n a) by (apply Rmult_le_pos; auto; apply nrm_nonneg).
        rewrite sign_nonneg, Rmult_1_l by auto. unfold sabs.
        rewrite (Rabs_pos_eq ((1 + k * dot n X X) * nrm n a)) by auto.
        rewrite Rabs_left in B by auto. exact B.
    - rewrite (Rabs_pos_eq (dot n X a)) by lra. reflexivity.
  Qed.
  Lemma plane_zero e k signed scaled x p a : dot n (mobius_add n k (vopp p) x) a = 0 ->
    dist2plane n e k signed scaled x a p = 0.
  Proof.
    intros H. unfold dist2plane. rewrite H, Rabs_R0.
    assert (E : arsin_k e (2 * (if signed then 0 else 0) / clamp_abs e15
       ((1 + k * clamp_min e15 (dot n (mobius_add n k (vopp p) x) (mobius_add n k (vopp p) x))) * nrm n a)) k = 0).
    { replace (2 * (if signed then 0 else 0)) with 0 by (destruct signed; ring). unfold Rdiv. rewrite Rmult_0_l.
      unfold arsin_k, arsin_k_at. destruct (k_zero k); [unfold arsin_k_zero_taylor5; cbv zeta; field|].
      rewrite Rmult_0_l. destruct Rlt_dec; [|rewrite asin_0; ring].
      rewrite arsinh_c_arcsinh, arcsinh_0 by lra. ring. }
    rewrite E. destruct scaled; ring.
  Qed.
  Lemma plane_scaled e k signed x p a :
    dist2plane n e k signed true x a p = dist2plane n e k signed false x a p * nrm n a.
  Proof. reflexivity. Qed.
End Plane.
