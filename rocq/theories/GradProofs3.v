(** Gradients of half squared distances: the stereographic model. *)
From Coq Require Import Reals Lra Lia Psatz.
From Coquelicot Require Import Coquelicot.
From Verif Require Import RVec GradSpec GradProofs StereoModel StereoSpec StereoTrig StereoProofs StereoProofs2.
Local Open Scope R_scope.

(** the curvature after the root's epsilon: sign k * (|k| + e), 0 at 0 *)
Definition keff (e k : R) : R :=
  if Rlt_dec k 0 then k - e else if Rlt_dec 0 k then k + e else 0.

Lemma keff_0 k : keff 0 k = k.
Proof. unfold keff. destruct (Rlt_dec k 0); [ring|]. destruct (Rlt_dec 0 k); lra. Qed.

Lemma k_sqrt_sq e k : 0 <= e -> k_sqrt e k * k_sqrt e k = Rabs k + e.
Proof. intros. unfold k_sqrt, sabs. apply sqrt_sqrt. pose proof (Rabs_pos k). lra. Qed.
Lemma k_sqrt_gt0 e k : 0 <= e -> k <> 0 -> 0 < k_sqrt e k.
Proof. intros. unfold k_sqrt, sabs. apply sqrt_lt_R0. pose proof (Rabs_pos_lt k H0). lra. Qed.

Lemma artan_deriv e k z : 0 <= e -> closed_form k -> 0 <= z ->
  (k < 0 -> z * rt e k < 1 - / 10 ^ 7) ->
  0 < 1 + keff e k * z ^ 2 /\
  is_derive (fun a => artan_k e a k) z (/ (1 + keff e k * z ^ 2)).
Proof.
  intros He K Z F.
  assert (E8 : 0 < / 10 ^ 8) by (apply Rinv_0_lt_compat; lra).
  assert (E7 : 0 < / 10 ^ 7 < 1).
  { split; [apply Rinv_0_lt_compat; lra|]. rewrite <- Rinv_1. apply Rinv_lt_contravar; lra. }
  destruct K as [-> | [K|K]].
  - unfold keff. destruct (Rlt_dec 0 0); [lra|]. replace (1 + 0 * z ^ 2) with 1 by ring. split; [lra|].
    apply is_derive_ext with (f := fun a => a); [intros; rewrite artan_k_zero; reflexivity|].
    rewrite Rinv_1. apply (@is_derive_id R_AbsRing).
  - assert (k < 0) by lra. specialize (F ltac:(lra)). change (rt e k) with (k_sqrt e k) in F.
    pose proof (k_sqrt_sq e k He) as S2. pose proof (k_sqrt_gt0 e k He ltac:(lra)) as SP.
    rewrite Rabs_left in S2 by lra. set (s := k_sqrt e k) in *.
    unfold keff. destruct (Rlt_dec k 0); [|lra].
    replace (k - e) with (- (s * s)) by lra.
    assert (Q : 0 <= z * s) by (apply Rmult_le_pos; lra).
    replace (1 + - (s * s) * z ^ 2) with ((1 - z * s) * (1 + z * s)) by ring.
    split; [apply Rmult_lt_0_compat; lra|].
    apply is_derive_ext_loc with (f := fun a => / s * ((ln (1 + a * s) - ln (1 - a * s)) * (1 / 2))).
    + assert (C : continuous (fun a => a * s) z)
        by (apply (ex_derive_continuous (V := R_NormedModule)); auto_derive; auto).
      assert (L1 : locally z (fun a => a * s < 1 - / 10 ^ 7)) by (apply (C (fun q => q < 1 - / 10 ^ 7)); apply open_lt; exact F).
      assert (L2 : locally z (fun a => -1 + / 10 ^ 7 < a * s)) by (apply (C (fun q => -1 + / 10 ^ 7 < q)); apply open_gt; lra).
      generalize (filter_and _ _ L1 L2). apply filter_imp. intros a [A1 A2].
      rewrite artan_k_neg by (unfold e8; lra). fold s. unfold artanh_c. cbv zeta.
      rewrite clamp_id by (unfold e7; lra). reflexivity.
    + auto_derive; [lra|]. field. repeat split; lra.
  - pose proof (k_sqrt_sq e k He) as S2. pose proof (k_sqrt_gt0 e k He ltac:(lra)) as SP.
    rewrite Rabs_right in S2 by lra. set (s := k_sqrt e k) in *.
    unfold keff. destruct (Rlt_dec k 0); [lra|]. destruct (Rlt_dec 0 k); [|lra].
    replace (k + e) with (s * s) by lra.
    assert (0 <= s * s * z ^ 2) by (apply Rmult_le_pos; [nra|apply pow2_ge_0]). split; [lra|].
    apply is_derive_ext with (f := fun a => / s * atan (a * s)).
    + intros a. rewrite artan_k_pos by (unfold e8; lra). reflexivity.
    + auto_derive; [auto|]. assert (0 < 1 + (z * s) ^ 2) by (pose proof (pow2_ge_0 (z * s)); lra).
      field. split; try lra; nra.
Qed.

Section Stereo.
  Variables (n : nat) (e k : R).
  Hypothesis E0 : 0 <= e.
  Hypothesis CF : closed_form k.
  Notation D x y := (1 + 2 * k * dot n x y + k ^ 2 * dot n x x * dot n y y).
  Notation N x y := (dot n x x - 2 * dot n x y + dot n y y).

  Lemma den_opp x y : mobius_den n k (vopp x) y = D x y.
  Proof. unfold mobius_den. rewrite !dot_opp_l, dot_opp_r. ring. Qed.
  Lemma sub_sq x y : D x y <> 0 ->
    / 10 ^ 15 <= D x y ->
    dot n (mobius_add n k (vopp x) y) (mobius_add n k (vopp x) y) = N x y / D x y.
  Proof.
    intros NZ H. unfold mobius_add. rewrite den_opp. unfold clamp_min, e15. rewrite Rmax_left by lra.
    rewrite dot_vdiv_l, dot_vdiv_r. unfold mobius_num.
    rewrite ?dot_add_l, ?dot_add_r, ?dot_smul_l, ?dot_smul_r, ?dot_add_l, ?dot_add_r, ?dot_smul_l, ?dot_smul_r.
    rewrite !dot_opp_l, !dot_opp_r, (dot_comm n y x). field. exact NZ.
  Qed.
  (** 1 + k |(-x)+y|^2 *)
  Lemma sub_cf x y : D x y <> 0 ->
    1 + k * (N x y / D x y) = (1 + k * dot n x x) * (1 + k * dot n y y) / D x y.
  Proof. intros. field. exact H. Qed.

  Lemma quad_deriv a b c : is_derive (fun t => a + t * b + t * t * c) 0 b.
  Proof. auto_derive; auto. ring. Qed.

  (** the length of (-x)+y along a line through x *)
  Lemma sub_nrm_deriv x y v :
    let w := mobius_add n k (vopp x) y in
    / 10 ^ 15 < D x y -> / 10 ^ 15 <= 1 + k * dot n x x -> 0 < nrm n w ->
    is_derive (fun t => nrm n (mobius_add n k (vopp (vadd x (smul t v))) y)) 0
      (- ((1 + k * nrm n w ^ 2) * lambda_x n k x / (2 * nrm n w)) * dot n w v).
  Proof.
    intros w HD HL HW.
    assert (E15 : 0 < / 10 ^ 15) by (apply Rinv_0_lt_compat; lra).
    set (X := dot n x x) in *. set (Y := dot n y y) in *. set (S := dot n x y) in *.
    set (p := dot n x v). set (r := dot n y v). set (V := dot n v v).
    set (Nt := fun t : R => (X - 2 * S + Y) + t * (2 * (p - r)) + t * t * V).
    set (Dt := fun t : R => (1 + 2 * k * S + k ^ 2 * X * Y) + t * (2 * k * r + 2 * k ^ 2 * Y * p) + t * t * (k ^ 2 * V * Y)).
    assert (XX : forall t, dot n (vadd x (smul t v)) (vadd x (smul t v)) = X + 2 * t * p + t * t * V).
    { intros t. rewrite dot_add_l, !dot_add_r, !dot_smul_l, !dot_smul_r, (dot_comm n v x). unfold X, p, V. ring. }
    assert (XY : forall t, dot n (vadd x (smul t v)) y = S + t * r).
    { intros t. rewrite dot_add_l, dot_smul_l, (dot_comm n v y). reflexivity. }
    assert (ND : is_derive Nt 0 (2 * (p - r))) by apply quad_deriv.
    assert (DD : is_derive Dt 0 (2 * k * r + 2 * k ^ 2 * Y * p)) by apply quad_deriv.
    assert (D0 : Dt 0 = 1 + 2 * k * S + k ^ 2 * X * Y) by (unfold Dt; ring).
    assert (N0 : Nt 0 = X - 2 * S + Y) by (unfold Nt; ring).
    assert (W2 : nrm n w ^ 2 = (X - 2 * S + Y) / (1 + 2 * k * S + k ^ 2 * X * Y)).
    { replace (nrm n w ^ 2) with (nrm n w * nrm n w) by ring. rewrite nrm_sq.
      unfold w. rewrite sub_sq; fold X Y S; [reflexivity|lra|lra]. }
    set (q := fun t => Nt t / Dt t).
    assert (Q0 : q 0 = nrm n w ^ 2) by (unfold q; rewrite N0, D0, W2; reflexivity).
    set (q' := (2 * (p - r) * Dt 0 - Nt 0 * (2 * k * r + 2 * k ^ 2 * Y * p)) / Dt 0 ^ 2).
    assert (QD : is_derive q 0 q').
    { unfold q, q'. apply (is_derive_div Nt Dt 0); auto. rewrite D0. lra. }
    assert (ZD : is_derive (fun t => sqrt (q t)) 0 (q' / (2 * nrm n w))).
    { assert (SD := is_derive_sqrt q 0 q' QD). rewrite Q0, sqrt_pow2 in SD by lra.
      apply SD. apply pow_lt; lra. }
    apply derive_near with (g := fun t => sqrt (q t)).
    - assert (L := near_gt _ _ (/ 10 ^ 15) DD ltac:(rewrite D0; lra)).
      revert L; apply filter_imp; intros t T.
      assert (DT : D (vadd x (smul t v)) y = Dt t).
      { rewrite XX, XY. fold Y. unfold Dt. ring. }
      unfold nrm. rewrite sub_sq; rewrite ?DT; try lra. rewrite XX, XY. fold Y.
      unfold q. f_equal. f_equal. unfold Nt. ring.
    - match goal with |- is_derive _ _ ?l => replace l with (q' / (2 * nrm n w)); [exact ZD|] end.
      assert (WV : dot n w v = (- (1 + 2 * k * S - k * Y) * p + (1 + k * X) * r) / Dt 0).
      { unfold w, mobius_add. rewrite den_opp. fold X Y S. unfold clamp_min, e15. rewrite Rmax_left by lra.
        rewrite dot_vdiv_l, D0. f_equal. unfold mobius_num.
        rewrite dot_add_l, !dot_smul_l, !dot_opp_l, !dot_opp_r. fold X Y S p r. ring. }
      assert (LX : lambda_x n k x = 2 / (1 + k * X)).
      { unfold lambda_x, clamp_min, e15. fold X. rewrite Rmax_left by lra. reflexivity. }
      assert (KW : 1 + k * nrm n w ^ 2 = (1 + k * X) * (1 + k * Y) / Dt 0).
      { rewrite W2, D0. field. lra. }
      rewrite KW, LX, WV. unfold q'. rewrite N0. rewrite D0 in *.
      set (z := nrm n w) in *. clearbody z.
      field. repeat split; lra.
  Qed.

  Lemma line_0 x v : vadd x (smul 0 v) = x.
  Proof. apply vec_ext; intros; unfold vadd, smul; ring. Qed.
  Lemma stereo_dist_deriv x y v :
    let w := mobius_add n k (vopp x) y in
    / 10 ^ 15 < D x y -> / 10 ^ 15 <= 1 + k * dot n x x ->
    0 < nrm n w -> (k < 0 -> nrm n w * rt e k < 1 - / 10 ^ 7) ->
    is_derive (fun t => dist n e k (vadd x (smul t v)) y) 0
      (- ((1 + k * nrm n w ^ 2) / (1 + keff e k * nrm n w ^ 2) * lambda_x n k x / nrm n w) * dot n w v).
  Proof.
    intros w HD HL HW HF.
    destruct (artan_deriv e k (nrm n w) E0 CF ltac:(lra) HF) as [PA DA].
    assert (ZD := sub_nrm_deriv x y v HD HL HW). fold w in ZD.
    set (z := fun t => nrm n (mobius_add n k (vopp (vadd x (smul t v))) y)) in *.
    assert (Z0 : z 0 = nrm n w) by (unfold z; rewrite line_0; reflexivity).
    unfold dist. fold (z). rewrite <- Z0 in DA at 1.
    assert (C := is_derive_comp (fun a => artan_k e a k) z 0 _ _ DA ZD).
    assert (F := is_derive_scal _ 0 2 _ C).
    match goal with |- is_derive _ _ ?l => match type of F with is_derive _ _ ?m =>
      replace l with m; [exact F|] end end.
    match goal with |- 2 * scal ?a ?b = _ => change (scal a b) with (a * b) end.
    field. split; lra.
  Qed.
  (** beyond the clamp of artanh the distance is locally constant *)
  Lemma stereo_flat x y g :
    let w := mobius_add n k (vopp x) y in
    / 10 ^ 15 < D x y -> / 10 ^ 15 <= 1 + k * dot n x x ->
    k < - / 10 ^ 8 -> 1 - / 10 ^ 7 < nrm n w * rt e k ->
    gradient n (half_square (dist n e k) y) x g -> same n g vzero.
  Proof.
    intros w HD HL K HF G. apply (gradient_unique _ _ _ _ _ G). intros v. unfold half_square.
    assert (E7 : 0 < / 10 ^ 7 < / 2).
    { split; [apply Rinv_0_lt_compat; lra|]. apply Rinv_lt_contravar; lra. }
    assert (E8 : 0 < / 10 ^ 8) by (apply Rinv_0_lt_compat; lra).
    change (rt e k) with (k_sqrt e k) in HF.
    pose proof (k_sqrt_gt0 e k E0 ltac:(lra)) as SP. set (s := k_sqrt e k) in *.
    assert (HW : 0 < nrm n w).
    { destruct (Rle_lt_or_eq_dec 0 (nrm n w) (nrm_nonneg n w)) as [|Z]; auto. rewrite <- Z in HF. lra. }
    assert (ZD := sub_nrm_deriv x y v HD HL HW). fold w in ZD.
    set (z := fun t => nrm n (mobius_add n k (vopp (vadd x (smul t v))) y)) in *.
    assert (Z0 : z 0 = nrm n w) by (unfold z; rewrite line_0; reflexivity).
    replace (dot n vzero v) with 0
      by (symmetry; unfold dot, vzero; rewrite (Rsum_ext n _ (fun _ => 0)) by (intros; ring); apply Rsum_zero).
    apply derive_near with (g := fun t => (2 * (/ s * atanh (1 - / 10 ^ 7))) ^ 2 / 2).
    - assert (L := near_gt z _ ((1 - / 10 ^ 7) / s) ZD).
      rewrite Z0 in L. specialize (L ltac:(apply Rmult_lt_reg_r with s; auto; field_simplify; lra)).
      revert L; apply filter_imp; intros t T. unfold dist. fold (z t).
      rewrite artan_k_neg by (unfold e8; lra). fold s. rewrite artanh_c_as.
      assert (1 - / 10 ^ 7 < z t * s).
      { apply (Rmult_lt_compat_r s) in T; auto. replace ((1 - / 10 ^ 7) / s * s) with (1 - / 10 ^ 7) in T by (field; lra). exact T. }
      unfold clamp, e7. rewrite Rmax_left, Rmin_right by lra. reflexivity.
    - apply (@is_derive_const R_AbsRing R_NormedModule).
  Qed.

  Lemma stereo_gradient x y :
    let w := mobius_add n k (vopp x) y in
    / 10 ^ 15 < D x y -> / 10 ^ 15 <= 1 + k * dot n x x ->
    0 < nrm n w -> (k < 0 -> nrm n w * rt e k < 1 - / 10 ^ 7) ->
    gradient n (half_square (dist n e k) y) x
      (smul (- (dist n e k x y * ((1 + k * nrm n w ^ 2) / (1 + keff e k * nrm n w ^ 2) * lambda_x n k x / nrm n w))) w).
  Proof.
    intros w HD HL HW HF v. unfold half_square.
    assert (D := half_sq_derive _ _ (stereo_dist_deriv x y v HD HL HW HF)). cbn beta in D.
    replace (vadd x (smul 0 v)) with x in D by (apply vec_ext; intros; unfold vadd, smul; ring).
    fold w in D. rewrite dot_smul_l.
    match goal with |- is_derive _ _ ?l => match type of D with is_derive _ _ ?m =>
      replace l with m by ring; exact D end end.
  Qed.

  Lemma stereo_rgrad x y g :
    let w := mobius_add n k (vopp x) y in
    / 10 ^ 15 < D x y -> / 10 ^ 15 <= 1 + k * dot n x x ->
    / 10 ^ 15 <= nrm n w -> (k < 0 -> nrm n w * rt e k < 1 - / 10 ^ 7) ->
    gradient n (half_square (dist n e k) y) x g ->
    same n (egrad2rgrad n k x g)
      (vopp (smul ((1 + k * nrm n w ^ 2) / (1 + keff e k * nrm n w ^ 2)) (logmap n e k x y))).
  Proof.
    intros w HD HL HW HF G.
    assert (E15 : 0 < / 10 ^ 15) by (apply Rinv_0_lt_compat; lra).
    assert (HW' : 0 < nrm n w) by lra.
    destruct (artan_deriv e k (nrm n w) E0 CF ltac:(lra) HF) as [PA _].
    pose proof (gradient_unique _ _ _ _ _ G (stereo_gradient x y HD HL HW' HF)) as E. fold w in E.
    pose proof (lambda_pos n k x) as LP.
    intros i Hi. unfold egrad2rgrad, vdiv, vopp. rewrite (E i Hi).
    unfold logmap. cbv zeta. fold w. unfold clamp_min, e15. rewrite Rmax_left by lra.
    unfold dist. fold w. unfold smul, vdiv. field. lra.
  Qed.

  Lemma expmap_cong x u v : same n u v -> same n (expmap n e k x u) (expmap n e k x v).
  Proof. intros H. apply expmap_same; [apply same_refl|exact H]. Qed.
End Stereo.

Lemma stereo_rgrad_exact n k x y g : closed_form k ->
  let w := mobius_add n k (vopp x) y in
  / 10 ^ 15 < 1 + 2 * k * dot n x y + k ^ 2 * dot n x x * dot n y y ->
  / 10 ^ 15 <= 1 + k * dot n x x ->
  / 10 ^ 15 <= nrm n w -> (k < 0 -> nrm n w * rt 0 k < 1 - / 10 ^ 7) ->
  gradient n (half_square (dist n 0 k) y) x g ->
  same n (egrad2rgrad n k x g) (vopp (logmap n 0 k x y)).
Proof.
  intros CF w HD HL HW HF G.
  assert (E15 : 0 < / 10 ^ 15) by (apply Rinv_0_lt_compat; lra).
  pose proof (stereo_rgrad n 0 k (Rle_refl 0) CF x y g HD HL HW HF G) as E. fold w in E.
  destruct (artan_deriv 0 k (nrm n w) (Rle_refl 0) CF ltac:(lra) HF) as [PA _].
  rewrite (keff_0 k) in *.
  intros i Hi. rewrite (E i Hi). unfold vopp, smul. field. lra.
Qed.

Lemma stereo_rgrad_ball n e k x y g : 0 <= e -> k < - / 10 ^ 8 ->
  let w := mobius_add n k (vopp x) y in
  / 10 ^ 15 < 1 + 2 * k * dot n x y + k ^ 2 * dot n x x * dot n y y ->
  / 10 ^ 15 <= 1 + k * dot n x x ->
  / 10 ^ 15 <= nrm n w -> nrm n w * rt e k < 1 - / 10 ^ 7 ->
  gradient n (half_square (dist n e k) y) x g ->
  exists c, 1 <= c <= 1 + 10 ^ 7 * e / (- k) /\ same n (egrad2rgrad n k x g) (vopp (smul c (logmap n e k x y))).
Proof.
  intros E0 K w HD HL HW HF G.
  assert (E8 : 0 < / 10 ^ 8) by (apply Rinv_0_lt_compat; lra).
  assert (E15 : 0 < / 10 ^ 15) by (apply Rinv_0_lt_compat; lra).
  assert (CF : closed_form k) by (right; left; exact K).
  pose proof (stereo_rgrad n e k E0 CF x y g HD HL HW (fun _ => HF) G) as E. fold w in E.
  exists ((1 + k * nrm n w ^ 2) / (1 + keff e k * nrm n w ^ 2)). split; [|exact E].
  unfold keff. destruct (Rlt_dec k 0) as [KN|]; [|lra].
  change (rt e k) with (k_sqrt e k) in HF.
  pose proof (k_sqrt_sq e k E0) as S2. pose proof (k_sqrt_gt0 e k E0 ltac:(lra)) as SP.
  rewrite Rabs_left in S2 by lra. set (s := k_sqrt e k) in *. set (z := nrm n w) in *.
  set (r := z * s) in *. assert (R0 : 0 <= r) by (unfold r; apply Rmult_le_pos; lra).
  assert (RR : (- k + e) * z ^ 2 = r * r) by (rewrite <- S2; unfold r; ring).
  assert (E7 : 0 < / 10 ^ 7 < 1).
  { split; [apply Rinv_0_lt_compat; lra|]. rewrite <- Rinv_1. apply Rinv_lt_contravar; lra. }
  assert (B : / 10 ^ 7 <= 1 - r * r).
  { assert (r * r <= 1 * (1 - / 10 ^ 7)) by (apply Rmult_le_compat; lra). lra. }
  replace (1 + (k - e) * z ^ 2) with (1 - r * r) by lra.
  replace (1 + k * z ^ 2) with (1 - r * r + e * z ^ 2) by lra.
  assert (P : 0 <= e * z ^ 2) by (apply Rmult_le_pos; [lra|apply pow2_ge_0]).
  replace ((1 - r * r + e * z ^ 2) / (1 - r * r)) with (1 + e * z ^ 2 / (1 - r * r)) by (field; lra).
  assert (I : 0 <= / (1 - r * r) <= 10 ^ 7).
  { split; [left; apply Rinv_0_lt_compat; lra|]. rewrite <- (Rinv_involutive (10 ^ 7)) by lra.
    apply Rinv_le_contravar; lra. }
  split.
  - assert (0 <= e * z ^ 2 / (1 - r * r)) by (apply Rmult_le_pos; lra). lra.
  - apply Rplus_le_compat_l. unfold Rdiv.
    assert (Z2 : z ^ 2 <= / - k).
    { apply Rmult_le_reg_r with (- k); [lra|]. rewrite Rinv_l by lra.
      pose proof (pow2_ge_0 z). assert (r * r < 1) by lra.
      assert (0 <= e * z ^ 2) by auto. lra. }
    replace (10 ^ 7 * e * / - k) with (e * / - k * 10 ^ 7) by ring.
    apply Rmult_le_compat; try lra. apply Rmult_le_compat_l; lra.
Qed.

Lemma stereo_rgrad_sphere n e k x y g : 0 <= e -> / 10 ^ 8 < k ->
  let w := mobius_add n k (vopp x) y in
  / 10 ^ 15 < 1 + 2 * k * dot n x y + k ^ 2 * dot n x x * dot n y y ->
  / 10 ^ 15 <= nrm n w ->
  gradient n (half_square (dist n e k) y) x g ->
  exists c, 1 - e / k <= c <= 1 /\ same n (egrad2rgrad n k x g) (vopp (smul c (logmap n e k x y))).
Proof.
  intros E0 K w HD HW G.
  assert (E8 : 0 < / 10 ^ 8) by (apply Rinv_0_lt_compat; lra).
  assert (E15 : 0 < / 10 ^ 15 < 1).
  { split; [apply Rinv_0_lt_compat; lra|]. rewrite <- Rinv_1. apply Rinv_lt_contravar; lra. }
  assert (CF : closed_form k) by (right; right; exact K).
  assert (HL : / 10 ^ 15 <= 1 + k * dot n x x).
  { assert (0 <= k * dot n x x) by (apply Rmult_le_pos; [lra|apply dot_nonneg]). lra. }
  pose proof (stereo_rgrad n e k E0 CF x y g HD HL HW ltac:(intros; lra) G) as E. fold w in E.
  exists ((1 + k * nrm n w ^ 2) / (1 + keff e k * nrm n w ^ 2)). split; [|exact E].
  unfold keff. destruct (Rlt_dec k 0); [lra|]. destruct (Rlt_dec 0 k); [|lra].
  set (q := nrm n w ^ 2). assert (Q : 0 <= q) by (apply pow2_ge_0). clearbody q.
  assert (KQ : 0 <= k * q) by (apply Rmult_le_pos; lra).
  assert (EQ : 0 <= e * q) by (apply Rmult_le_pos; lra).
  assert (PP : 0 < 1 + (k + e) * q) by lra.
  split.
  - apply Rmult_le_reg_r with (1 + (k + e) * q); [exact PP|].
    replace ((1 + k * q) / (1 + (k + e) * q) * (1 + (k + e) * q)) with (1 + k * q) by (field; lra).
    assert (0 <= e / k) by (apply Rmult_le_pos; [lra|left; apply Rinv_0_lt_compat; lra]).
    assert (e / k * (k * q) = e * q) by (field; lra).
    assert (0 <= e / k * (e * q)) by (apply Rmult_le_pos; lra).
    replace ((1 - e / k) * (1 + (k + e) * q)) with (1 + k * q + e * q - e / k - e / k * (k * q) - e / k * (e * q)) by ring. lra.
  - apply Rmult_le_reg_r with (1 + (k + e) * q); [exact PP|].
    replace ((1 + k * q) / (1 + (k + e) * q) * (1 + (k + e) * q)) with (1 + k * q) by (field; lra). lra.
Qed.

Lemma stereo_step n k x y g : closed_form k ->
  let w := mobius_add n k (vopp x) y in
  / 10 ^ 15 < 1 + 2 * k * dot n x y + k ^ 2 * dot n x x * dot n y y ->
  / 10 ^ 15 <= 1 + k * dot n x x ->
  regular n k x w ->
  / 10 ^ 15 <= nrm n w -> (k < 0 -> nrm n w * rt 0 k < 1 - / 10 ^ 7) ->
  / 10 ^ 15 <= nrm n (logmap n 0 k x y) ->
  gradient n (half_square (dist n 0 k) y) x g ->
  same n (expmap n 0 k x (vopp (egrad2rgrad n k x g))) y.
Proof.
  intros CF w HD HL HR HW HF HN G.
  pose proof (stereo_rgrad_exact n k x y g CF HD HL HW HF G) as E.
  apply same_trans with (expmap n 0 k x (logmap n 0 k x y)).
  - apply expmap_cong. intros i Hi. unfold vopp. rewrite (E i Hi). unfold vopp. ring.
  - apply exp_log; auto; try lra.
    + unfold regular. fold (mobius_den n k (vopp x) y). rewrite den_opp. lra.
    + left; exact HW.
    + intros N. left. apply HF, N.
    + left; exact HN.
Qed.
