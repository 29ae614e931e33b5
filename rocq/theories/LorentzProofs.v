(** Lemmas for the Lorentz model. *)
From Coq Require Import Reals Lra Lia Psatz.
From Verif Require Import RVec StereoModel LorentzModel LorentzSpec.
Local Open Scope R_scope.

(** * Minkowski algebra *)
Lemma innerE d u v : inner d u v = minkowski d u v.
Proof. unfold inner, minkowski, tl. lra. Qed.
Lemma mk_sym d u v : minkowski d u v = minkowski d v u.
Proof. unfold minkowski. rewrite (Rsum_ext d (fun i => u (S i) * v (S i)) (fun i => v (S i) * u (S i))) by (intros; lra). lra. Qed.
Lemma mk_addl d u v w : minkowski d (vadd u v) w = minkowski d u w + minkowski d v w.
Proof.
  unfold minkowski, vadd. rewrite (Rsum_ext d _ (fun i => u (S i) * w (S i) + v (S i) * w (S i))) by (intros; lra).
  rewrite Rsum_plus. lra.
Qed.
Lemma mk_smull d a u w : minkowski d (smul a u) w = a * minkowski d u w.
Proof.
  unfold minkowski, smul. rewrite (Rsum_ext d _ (fun i => a * (u (S i) * w (S i)))) by (intros; lra).
  rewrite Rsum_scal. lra.
Qed.
Lemma mk_addr d u v w : minkowski d w (vadd u v) = minkowski d w u + minkowski d w v.
Proof. rewrite mk_sym, mk_addl, (mk_sym d u), (mk_sym d v). reflexivity. Qed.
Lemma mk_smulr d a u w : minkowski d w (smul a u) = a * minkowski d w u.
Proof. rewrite mk_sym, mk_smull, (mk_sym d u). reflexivity. Qed.
Lemma vdiv_smul u a : vdiv u a = smul (/ a) u.
Proof. veq. unfold Rdiv. lra. Qed.
Lemma vsub_add u v : vsub u v = vadd u (smul (-1) v).
Proof. veq. lra. Qed.
Lemma vopp_smul u : vopp u = smul (-1) u.
Proof. veq. lra. Qed.
#[global] Hint Rewrite vdiv_smul vsub_add vopp_smul mk_addl mk_addr mk_smull mk_smulr : mk.
Ltac mk := autorewrite with mk.

(** * Tangent spaces are positive definite *)
Section Geometry.
  Variables (d : nat) (k : R).
  Hypothesis K : 0 < k.
  Notation mkd := (minkowski d).
  Notation sp := (fun u : vec => dot d (tl u) (tl u)).
  Lemma mk_split u v : mkd u v = dot d (tl u) (tl v) - u O * v O.
  Proof. reflexivity. Qed.
  Lemma hyp_time x : on_hyperboloid d k x -> x O * x O = k + dot d (tl x) (tl x).
  Proof. intros [H _]. rewrite mk_split in H. lra. Qed.
  Lemma tangent_nonneg x v : on_hyperboloid d k x -> tangent d x v -> 0 <= mkd v v.
  Proof.
    intros X T. pose proof (hyp_time x X) as E. destruct X as [_ P]. unfold tangent in T. rewrite mk_split in T. rewrite mk_split.
    pose proof (cauchy_schwarz d (tl x) (tl v)) as C. pose proof (dot_nonneg d (tl v)) as V. pose proof (dot_nonneg d (tl x)) as Xn.
    assert (dot d (tl x) (tl v) = x O * v O) by lra. rewrite H in C.
    assert (0 < x O * x O) by nra.
    apply (Rmult_le_reg_l (x O * x O)); [nra|]. rewrite Rmult_0_r.
    replace (x O * x O * (dot d (tl v) (tl v) - v O * v O)) with ((k + dot d (tl x) (tl x)) * dot d (tl v) (tl v) - (x O * v O)^2) by (rewrite <- E; ring).
    nra.
  Qed.
  Lemma tangent_zero x v : on_hyperboloid d k x -> tangent d x v -> mkd v v = 0 -> forall i, (i <= d)%nat -> v i = 0.
  Proof.
    intros X T Z. pose proof (hyp_time x X) as E. destruct X as [_ P]. unfold tangent in T. rewrite mk_split in T. rewrite mk_split in Z.
    pose proof (cauchy_schwarz d (tl x) (tl v)) as C. pose proof (dot_nonneg d (tl v)) as V. pose proof (dot_nonneg d (tl x)) as Xn.
    assert (H : dot d (tl x) (tl v) = x O * v O) by lra. rewrite H in C.
    assert (Q : k * dot d (tl v) (tl v) <= 0).
    { replace (x O * v O * (x O * v O)) with ((x O * x O) * (v O * v O)) in C by ring. rewrite E in C.
      replace (v O * v O) with (dot d (tl v) (tl v)) in C by lra. nra. }
    assert (S0 : dot d (tl v) (tl v) = 0) by nra.
    assert (V0 : v O = 0) by nra.
    intros [|i] Hi; [exact V0|]. unfold dot in S0.
    pose proof (Rsum_nonneg_zero d (fun i => tl v i * tl v i)) as N. specialize (N ltac:(intros; nra) S0 i ltac:(lia)).
    cbv beta in N. unfold tl in N. nra.
  Qed.
  Lemma tangent_lin x u v a : tangent d x u -> tangent d x v -> tangent d x (vadd u (smul a v)).
  Proof. unfold tangent. intros U V. mk. rewrite U, V. ring. Qed.
  Lemma tangent_cs x u v : on_hyperboloid d k x -> tangent d x u -> tangent d x v -> mkd u v ^ 2 <= mkd u u * mkd v v.
  Proof.
    intros X U V. pose proof (tangent_nonneg x v X V) as Vn. pose proof (tangent_nonneg x u X U) as Un.
    assert (Q : forall a, 0 <= mkd u u + 2 * a * mkd u v + a ^ 2 * mkd v v).
    { intros a. pose proof (tangent_nonneg x _ X (tangent_lin x u v a U V)) as N. autorewrite with mk in N.
      rewrite (mk_sym d v u) in N. nra. }
    destruct (Req_dec (mkd v v) 0) as [Z|Z].
    - rewrite Z in *. destruct (Req_dec (mkd u v) 0) as [Y|Y]; [rewrite Y; lra|].
      specialize (Q (- (mkd u u + 1) / (2 * mkd u v))). replace (2 * (- (mkd u u + 1) / (2 * mkd u v)) * mkd u v) with (- (mkd u u + 1)) in Q by (field; auto). nra.
    - specialize (Q (- mkd u v / mkd v v)).
      replace (mkd u u + 2 * (- mkd u v / mkd v v) * mkd u v + (- mkd u v / mkd v v) ^ 2 * mkd v v) with ((mkd u u * mkd v v - mkd u v ^ 2) / mkd v v) in Q by (field; auto).
      assert (0 < mkd v v) by lra. apply Rmult_le_compat_r with (r := mkd v v) in Q; [|lra]. unfold Rdiv in Q. rewrite Rmult_assoc, Rinv_l, Rmult_1_r, Rmult_0_l in Q; lra.
  Qed.

  (** * Hyperbolic cosine of two points *)
  Notation hc := (hyp_cos d k).
  Lemma hc_mk x y : mkd x y = - k * hc x y.
  Proof. unfold hyp_cos. field. lra. Qed.
  Lemma hc_sym x y : hc x y = hc y x.
  Proof. unfold hyp_cos. rewrite mk_sym. reflexivity. Qed.
  Lemma hc_self x : on_hyperboloid d k x -> hc x x = 1.
  Proof. intros [H _]. unfold hyp_cos. rewrite H. field. lra. Qed.
  Lemma hc_ge1 x y : on_hyperboloid d k x -> on_hyperboloid d k y -> 1 <= hc x y.
  Proof.
    intros X Y. pose proof (hyp_time x X) as EX. pose proof (hyp_time y Y) as EY. destruct X as [_ PX], Y as [_ PY].
    pose proof (cauchy_schwarz d (tl x) (tl y)) as C. pose proof (dot_nonneg d (tl x)) as NX. pose proof (dot_nonneg d (tl y)) as NY.
    unfold hyp_cos. rewrite mk_split. apply (Rmult_le_reg_r k); [lra|]. unfold Rdiv. rewrite Rmult_assoc, Rinv_l, Rmult_1_r by lra.
    set (c := dot d (tl x) (tl y)) in *. set (a := dot d (tl x) (tl x)) in *. set (b := dot d (tl y) (tl y)) in *.
    assert (S : (k + c) ^ 2 <= (x O * y O) ^ 2).
    { replace ((x O * y O) ^ 2) with ((x O * x O) * (y O * y O)) by ring. rewrite EX, EY.
      assert (2 * c <= a + b). { apply Rsqr_incr_0_var; unfold Rsqr; [|lra]. pose proof (pow2_ge_0 (a - b)). nra. }
      nra. }
    assert (0 < x O * y O) by nra.
    assert (k + c <= x O * y O) by (destruct (Rle_dec (k + c) 0); [lra|]; apply Rsqr_incr_0_var; unfold Rsqr; nra). lra.
  Qed.
  (** component of y orthogonal to x *)
  Definition perp (x y : vec) : vec := vadd y (smul (- hc x y) x).
  Lemma perp_tangent x y : on_hyperboloid d k x -> tangent d x (perp x y).
  Proof. intros X. unfold tangent, perp. mk. rewrite (hc_mk x y). destruct X as [-> _]. ring. Qed.
  Lemma perp_norm x y : on_hyperboloid d k x -> mkd y y = - k -> mkd (perp x y) (perp x y) = k * (hc x y ^ 2 - 1).
  Proof. intros [X _] Y. unfold perp. mk. rewrite X, Y, (mk_sym d y x), (hc_mk x y). ring. Qed.
  Lemma hc_one x y : on_hyperboloid d k x -> on_hyperboloid d k y -> hc x y = 1 -> forall i, (i <= d)%nat -> x i = y i.
  Proof.
    intros X Y H i Hi. pose proof (perp_norm x y X (proj1 Y)) as N. rewrite H in N.
    pose proof (tangent_zero x (perp x y) X (perp_tangent x y X) ltac:(lra) i Hi) as Z. unfold perp, vadd, smul in Z. rewrite H in Z. lra.
  Qed.
  Lemma hc_triangle x y z : on_hyperboloid d k x -> on_hyperboloid d k y -> on_hyperboloid d k z ->
    hc x z <= hc x y * hc y z + sqrt (hc x y ^ 2 - 1) * sqrt (hc y z ^ 2 - 1).
  Proof.
    intros X Y Z. pose proof (hc_ge1 x y X Y). pose proof (hc_ge1 y z Y Z).
    pose proof (tangent_cs y _ _ Y (perp_tangent y x Y) (perp_tangent y z Y)) as C.
    rewrite (perp_norm y x Y (proj1 X)), (perp_norm y z Y (proj1 Z)) in C.
    assert (E : mkd (perp y x) (perp y z) = k * (hc x y * hc y z - hc x z)).
    { unfold perp. mk. destruct Y as [-> _]. rewrite !(hc_mk x y), !(hc_mk y z), (hc_mk x z), (hc_sym y x). ring. }
    rewrite E, (hc_sym y x) in C. rewrite <- sqrt_mult by nra.
    set (a := hc x y) in *. set (b := hc y z) in *. set (c := hc x z) in *.
    assert (Q : (c - a * b) ^ 2 <= (a ^ 2 - 1) * (b ^ 2 - 1)).
    { apply (Rmult_le_reg_l (k ^ 2)); [nra|]. nra. }
    assert (c - a * b <= sqrt ((a ^ 2 - 1) * (b ^ 2 - 1))); [|lra].
    destruct (Rle_dec (c - a * b) 0); [pose proof (sqrt_pos ((a ^ 2 - 1) * (b ^ 2 - 1))); lra|].
    rewrite <- (sqrt_pow2 (c - a * b)) by lra. apply sqrt_le_1; nra.
  Qed.
End Geometry.
