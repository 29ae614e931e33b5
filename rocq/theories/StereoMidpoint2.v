(** Lemmas behind StereoExtraProps.v: the weighted midpoint in the hyperbolic ball. *)
From Coq Require Import Reals Lra Psatz Lia List FunctionalExtensionality Bool Arith Permutation.
From Verif Require Import RVec StereoModel StereoSpec GyroAlgebra StereoTrig StereoProofs StereoProofs2 StereoProofs3
  StereoAntipode StereoExtraModel StereoExtraSpec StereoExtraProofs StereoMidpoint.
Import ListNotations.
Local Open Scope R_scope.

Lemma clamp_abs_0 x : clamp_abs 0 x = x.
Proof.
  unfold clamp_abs, sabs. destruct (sign_pm x) as [[X ->]|[X ->]].
  - rewrite Rabs_right; lra.
  - rewrite Rabs_left; lra.
Qed.

Section H.
  Variables (n : nat) (k : R).
  Hypothesis K : k < - / 10 ^ 8.
  Let s := sqrt (- k).
  Lemma kneg : k < 0. Proof. pose proof e8_pos. unfold e8 in *. lra. Qed.
  Lemma s_pos : 0 < s. Proof. apply sqrt_lt_R0. pose proof kneg. lra. Qed.
  Lemma s_sq : s * s = - k. Proof. apply sqrt_sqrt. pose proof kneg. lra. Qed.
  Lemma s_k_sqrt : k_sqrt 0 k = s.
  Proof. unfold k_sqrt, sabs, s. rewrite Rabs_left by apply kneg. f_equal. ring. Qed.

  (** ** halving *)
  Definition dbl (x : vec) : vec := vdiv (smul 2 x) (1 - k * dot n x x).
  Lemma dbl_den x : 0 < 1 - k * dot n x x.
  Proof. pose proof (dot_nonneg n x). pose proof kneg. nra. Qed.
  Lemma dbl_nrm x : nrm n (dbl x) = 2 * nrm n x / (1 - k * dot n x x).
  Proof.
    pose proof (dbl_den x). unfold dbl. rewrite nrm_vdiv, nrm_smul by lra.
    rewrite (Rabs_right 2), (Rabs_right (1 - _)) by lra. reflexivity.
  Qed.
  Lemma half_dbl x : in_domain n k x -> norm_ok n (dbl x) -> nrm n (dbl x) * s <= 1 - / 10 ^ 7 ->
    same n (mobius_scalar_mul n 0 k (1 / 2) (dbl x)) x.
  Proof.
    intros D [N|N] L.
    2:{ eapply same_trans; [apply scalar_mul_zero_vec, N|]. apply same_sym, same_null.
        rewrite dbl_nrm in N. pose proof (dbl_den x) as P. pose proof (nrm_nonneg n x).
        assert (Q : 0 < / (1 - k * dot n x x)) by (apply Rinv_0_lt_compat, P).
        unfold Rdiv in N. nra. }
    fold e15 in N. pose proof e15_pos. pose proof s_pos as SP. pose proof s_sq as SS. pose proof e7_pos as P7. fold e7 in L.
    rewrite scalar_mul_form by exact N. set (b := nrm n (dbl x)) in *. set (r := nrm n x).
    assert (R0 : 0 <= r) by apply nrm_nonneg. assert (RR : dot n x x = r * r) by (unfold r; rewrite nrm_sq; reflexivity).
    pose proof (dbl_den x) as P. rewrite RR in P.
    set (y := r * s). assert (Y0 : 0 <= y) by (apply Rmult_le_pos; lra).
    assert (YY : y * y = - k * (r * r)) by (unfold y; rewrite <- SS; ring).
    assert (Y1 : y < 1). { unfold in_domain in D. rewrite RR in D. nra. }
    assert (B : b * s = (y + y) / (1 + y * y)).
    { unfold b. rewrite dbl_nrm, RR. fold r. rewrite YY. unfold y. replace (1 + - k * (r * r)) with (1 - k * (r * r)) by ring. field. lra. }
    assert (BP : 0 < b) by lra.
    assert (BS : 0 < b * s) by (apply Rmult_lt_0_compat; assumption).
    assert (A1 : artan_k 0 b k = / s * (2 * atanh y)).
    { rewrite artan_k_neg by exact K. rewrite s_k_sqrt, artanh_c_id by (split; [lra|exact L]). rewrite B, atanh_plus by lra. ring. }
    rewrite A1. replace (1 / 2 * (/ s * (2 * atanh y))) with (/ s * atanh y) by (field; lra).
    assert (YB : y <= b * s).
    { rewrite B. apply Rmult_le_reg_r with (1 + y * y); [nra|]. unfold Rdiv. rewrite Rmult_assoc, Rinv_l by nra. nra. }
    pose proof (atanh_nonneg y ltac:(lra)) as AN.
    assert (A15 : atanh y <= 15) by (pose proof atanh_clamp_15; pose proof (atanh_le y (1 - e7) ltac:(lra) ltac:(lra) ltac:(lra)); lra).
    rewrite tan_k_neg by exact K. rewrite s_k_sqrt. replace (/ s * atanh y * s) with (atanh y) by (field; lra).
    unfold tanh_c. rewrite clamp_id by lra. rewrite tanh_atanh by lra.
    apply same_eq. unfold dbl. rewrite RR. apply functional_extensionality; intros i. unfold smul, vdiv.
    assert (bE : b = 2 * r / (1 - k * (r * r))) by (unfold b; rewrite dbl_nrm, RR; reflexivity).
    assert (RP : 0 < r). { destruct (Req_dec r 0) as [Z|Z]; [rewrite Z in bE; unfold Rdiv in bE; rewrite bE in BP; nra|lra]. }
    rewrite bE. unfold y. field. repeat split; lra.
  Qed.

  (** explicit square root *)
  Definition qf (y : vec) : R := sqrt (1 + k * dot n y y).
  Definition half (y : vec) : vec := smul (/ (1 + qf y)) y.
  Lemma qf_pos y : in_domain n k y -> 0 < qf y. Proof. intros D. apply sqrt_lt_R0, D. Qed.
  Lemma qf_sq y : in_domain n k y -> qf y * qf y = 1 + k * dot n y y.
  Proof. intros D. apply sqrt_sqrt. unfold in_domain in D. lra. Qed.
  Lemma half_k y : in_domain n k y -> k * dot n (half y) (half y) = (qf y - 1) / (1 + qf y).
  Proof.
    intros D. pose proof (qf_pos y D) as Q. pose proof (qf_sq y D) as QQ. unfold half. rewrite dot_smul_l, dot_smul_r.
    set (q := qf y) in *. replace (k * (/ (1 + q) * (/ (1 + q) * dot n y y))) with (k * dot n y y * / (1 + q) * / (1 + q)) by ring.
    replace (k * dot n y y) with (q * q - 1) by lra. field. lra.
  Qed.
  Lemma half_cf y : in_domain n k y -> 1 + k * dot n (half y) (half y) = 2 * qf y / (1 + qf y).
  Proof. intros D. pose proof (qf_pos y D). rewrite half_k by exact D. field. lra. Qed.
  Lemma half_in_domain y : in_domain n k y -> in_domain n k (half y).
  Proof. intros D. pose proof (qf_pos y D). unfold in_domain. rewrite half_cf by exact D. apply Rmult_lt_0_compat; [lra|apply Rinv_0_lt_compat; lra]. Qed.
  Lemma dbl_half y : in_domain n k y -> dbl (half y) = y.
  Proof.
    intros D. pose proof (qf_pos y D). unfold dbl. rewrite half_k by exact D. unfold half.
    apply functional_extensionality; intros i. unfold smul, vdiv. field. split; lra.
  Qed.
  Lemma short_domain y : nrm n y * s < 1 -> in_domain n k y.
  Proof. intros L. apply in_domain_scaled; [apply kneg|]. fold s. lra. Qed.
  Lemma scalar_half y : norm_ok n y -> nrm n y * s <= 1 - / 10 ^ 7 -> same n (mobius_scalar_mul n 0 k (1 / 2) y) (half y).
  Proof.
    intros N L. pose proof e7_pos as P7. unfold e7 in P7. assert (D : in_domain n k y) by (apply short_domain; lra).
    rewrite <- (dbl_half y D) at 1. apply half_dbl; [apply half_in_domain, D| |]; rewrite dbl_half by exact D; assumption.
  Qed.

  (** ** the lift of a point: g x and g - 1, with g the conformal factor *)
  Definition gam (x : vec) : R := conformal n k x.
  Definition hgt (x : vec) : R := gam x - 1.
  Definition lift (x : vec) : vec := smul (gam x) x.
  Lemma gam_cf x : in_domain n k x -> gam x * (1 + k * dot n x x) = 2.
  Proof. intros D. unfold in_domain in D. unfold gam, conformal. field. lra. Qed.
  Lemma hgt_val x : in_domain n k x -> hgt x = (1 - k * dot n x x) / (1 + k * dot n x x).
  Proof. intros D. unfold in_domain in D. unfold hgt, gam, conformal. field. lra. Qed.
  Lemma hgt_ge x : in_domain n k x -> 1 <= hgt x.
  Proof.
    intros D. rewrite hgt_val by exact D. unfold in_domain in D. pose proof kneg. pose proof (dot_nonneg n x).
    apply Rmult_le_reg_r with (1 + k * dot n x x); [exact D|]. unfold Rdiv. rewrite Rmult_assoc, Rinv_l by lra. nra.
  Qed.
  Lemma lift_sq x : in_domain n k x -> hgt x * hgt x + k * dot n (lift x) (lift x) = 1.
  Proof.
    intros D. unfold lift. rewrite dot_smul_l, dot_smul_r, hgt_val by exact D. unfold gam, conformal. unfold in_domain in D. field. lra.
  Qed.
  Lemma dbl_lift x : in_domain n k x -> dbl x = vdiv (lift x) (hgt x).
  Proof.
    intros D. pose proof (dbl_den x). rewrite hgt_val by exact D. unfold dbl, lift, gam, conformal. unfold in_domain in D.
    apply functional_extensionality; intros i. unfold smul, vdiv. field. repeat split; lra.
  Qed.
  (** translation acts linearly on lifts *)
  Lemma hgt_add u x : in_domain n k u -> in_domain n k x -> regular n k u x ->
    hgt (mobius_add n k u x) = hgt u * hgt x - k * dot n (lift u) (lift x).
  Proof.
    intros U X G. pose proof (regular_ne n k u x G) as NZ. rewrite mobius_add_madd by exact G.
    unfold hgt at 1, gam, conformal. change (1 + k * dot n (madd n k u x) (madd n k u x)) with (cf n k (madd n k u x)).
    rewrite cf_madd by exact NZ. unfold lift. rewrite dot_smul_l, dot_smul_r, !hgt_val by assumption. unfold gam, conformal.
    unfold in_domain in *. unfold cf, mden, mobius_den in *. field. repeat split; lra.
  Qed.
  Lemma lift_add u x : in_domain n k u -> in_domain n k x -> regular n k u x ->
    lift (mobius_add n k u x) = vadd (lift x) (smul (hgt x - k * dot n u (lift x)) (lift u)).
  Proof.
    intros U X G. pose proof (regular_ne n k u x G) as NZ. rewrite mobius_add_madd by exact G.
    unfold lift at 1, gam, conformal. change (1 + k * dot n (madd n k u x) (madd n k u x)) with (cf n k (madd n k u x)).
    rewrite cf_madd by exact NZ. unfold lift. rewrite dot_smul_r, !hgt_val by assumption. unfold gam, conformal.
    unfold madd, mobius_num. apply functional_extensionality; intros i. unfold vadd, vdiv, smul.
    unfold in_domain in *. unfold cf, mden, mobius_den in *. field. repeat split; lra.
  Qed.
  (** the lift pairing measures distance *)
  Lemma pairing z x : in_domain n k z -> in_domain n k x ->
    hgt z * hgt x + k * dot n (lift z) (lift x) =
    1 - 2 * k * (dot n (vsub z x) (vsub z x) / ((1 + k * dot n z z) * (1 + k * dot n x x))).
  Proof.
    intros Z X. unfold lift. rewrite dot_smul_l, dot_smul_r, !hgt_val by assumption. unfold gam, conformal.
    rewrite dot_sub_l, !dot_sub_r, (dot_comm n x z). unfold in_domain in *. field. split; lra.
  Qed.
  Lemma pairing_ge z x : in_domain n k z -> in_domain n k x -> 1 <= hgt z * hgt x + k * dot n (lift z) (lift x).
  Proof.
    intros Z X. rewrite pairing by assumption. pose proof (dot_nonneg n (vsub z x)) as G. pose proof kneg.
    unfold in_domain in *. assert (0 < / ((1 + k * dot n z z) * (1 + k * dot n x x))) by (apply Rinv_0_lt_compat, Rmult_lt_0_compat; assumption).
    unfold Rdiv. assert (0 <= dot n (vsub z x) (vsub z x) * / ((1 + k * dot n z z) * (1 + k * dot n x x))) by (apply Rmult_le_pos; lra). nra.
  Qed.

  (** ** sums *)
  Definition NN (l : list (R * vec)) : vec := vtotal (fun p => smul (fst p) (lift (snd p))) l.
  Definition DD (l : list (R * vec)) : R := total (fun p => fst p * hgt (snd p)) l.
  Lemma klein_ND l : klein_mean n k l = vdiv (NN l) (DD l).
  Proof.
    unfold klein_mean, NN, DD. rewrite wvsum_vtotal, wsum_total, vtotal_map, total_map. f_equal.
    apply vtotal_ext. intros p _. cbn. unfold lift, gam. apply functional_extensionality; intros i. unfold smul. ring.
  Qed.
  Definition inside (l : list (R * vec)) : Prop := forall p, In p l -> well_inside n k (snd p).
  Lemma well_domain x : well_inside n k x -> in_domain n k x. Proof. intros [_ D]; exact D. Qed.
  Lemma well_cf x : well_inside n k x -> e15 <= 1 + k * dot n x x.
  Proof.
    intros [W D]. pose proof e15_val as V. fold s in W. pose proof s_pos as SP. pose proof s_sq as SS.
    set (r := nrm n x) in *. assert (R0 : 0 <= r) by apply nrm_nonneg. assert (RR : dot n x x = r * r) by (unfold r; rewrite nrm_sq; reflexivity).
    rewrite RR in *. set (y := r * s). assert (Y0 : 0 <= y) by (apply Rmult_le_pos; lra).
    assert (YY : k * (r * r) = - (y * y)) by (unfold y; replace (r * s * (r * s)) with (r * r * (s * s)) by ring; rewrite SS; ring).
    replace (2 * s * r) with (2 * y) in W by (unfold y; ring).
    replace (1 - k * (r * r)) with (1 + y * y) in W by lra. rewrite YY in *.
    pose proof e7_val as V7. unfold e7 in V7. rewrite V7 in W.
    assert (y < 1) by nra. nra.
  Qed.
  Lemma lambda_gam x : well_inside n k x -> lambda_x n k x = gam x.
  Proof. intros W. unfold lambda_x, gam, conformal. rewrite clamp_min_id by (apply well_cf, W). reflexivity. Qed.
  Lemma lift_short x : well_inside n k x -> nrm n (lift x) * s <= (1 - / 10 ^ 7) * hgt x.
  Proof.
    intros [W D]. fold s in W. unfold lift. rewrite nrm_smul, hgt_val by exact D. unfold in_domain in D.
    assert (G : 0 < gam x) by (unfold gam, conformal; apply Rmult_lt_0_compat; [lra|apply Rinv_0_lt_compat, D]).
    rewrite Rabs_right by lra. unfold gam, conformal. apply Rmult_le_reg_r with (1 + k * dot n x x); [exact D|].
    replace (2 / (1 + k * dot n x x) * nrm n x * s * (1 + k * dot n x x)) with (2 * s * nrm n x) by (field; lra).
    replace ((1 - / 10 ^ 7) * ((1 - k * dot n x x) / (1 + k * dot n x x)) * (1 + k * dot n x x)) with ((1 - / 10 ^ 7) * (1 - k * dot n x x)) by (field; lra).
    exact W.
  Qed.
  Lemma DD_pos l : positive_weights l -> inside l -> 0 < DD l.
  Proof.
    intros [NE W] I. apply total_pos; [exact NE|]. intros p Hp. pose proof (hgt_ge (snd p) (well_domain _ (I p Hp))). pose proof (W p Hp). nra.
  Qed.
  Lemma klein_short l : positive_weights l -> inside l -> nrm n (klein_mean n k l) * s <= 1 - / 10 ^ 7.
  Proof.
    intros P I. pose proof (DD_pos l P I) as DP. pose proof s_pos as SP. rewrite klein_ND, nrm_vdiv, (Rabs_right (DD l)) by lra.
    apply Rmult_le_reg_r with (DD l); [exact DP|]. replace (nrm n (NN l) / DD l * s * DD l) with (nrm n (NN l) * s) by (field; lra).
    assert (B : nrm n (NN l) <= total (fun p => fst p * ((1 - / 10 ^ 7) * hgt (snd p) / s)) l).
    { apply nrm_vtotal. intros p Hp. destruct P as [_ W]. specialize (W p Hp). rewrite nrm_smul, Rabs_right by lra.
      apply Rmult_le_compat_l; [lra|]. pose proof (lift_short (snd p) (I p Hp)) as L.
      apply Rmult_le_reg_r with s; [exact SP|]. unfold Rdiv. rewrite (Rmult_assoc _ (/ s)), Rinv_l by lra. lra. }
    rewrite (total_ext _ (fun p => ((1 - / 10 ^ 7) / s) * (fst p * hgt (snd p)))) in B by (intros p _; field; lra).
    rewrite total_scal in B. fold (DD l) in B. apply Rmult_le_compat_r with (r := s) in B; [|lra].
    replace ((1 - / 10 ^ 7) / s * DD l * s) with ((1 - / 10 ^ 7) * DD l) in B by (field; lra). exact B.
  Qed.
  Lemma klein_domain l : positive_weights l -> inside l -> in_domain n k (klein_mean n k l).
  Proof. intros P I. apply short_domain. pose proof (klein_short l P I). pose proof e7_pos. unfold e7 in *. lra. Qed.

  (** ** what the code computes *)
  Lemma two_mean_klein d l : positive_weights l -> inside l -> 0 <= d ->
    two_mean_of d (entries_of n 0 k false l) = smul (DD l / (DD l + d)) (klein_mean n k l).
  Proof.
    intros P I D. pose proof (DD_pos l P I) as DP. unfold entries_of. cbv zeta. cbn [andb]. unfold two_mean_of. rewrite vtotal_map, total_map.
    rewrite klein_ND.
    rewrite (total_ext _ (fun p => fst p * hgt (snd p))) by (intros [w x] Hp; cbn; rewrite (lambda_gam x (I _ Hp)); unfold hgt; ring).
    fold (DD l). rewrite (vtotal_ext _ (fun p => smul (fst p) (lift (snd p)))).
    2:{ intros [w x] Hp. cbn. rewrite (lambda_gam x (I _ Hp)). unfold lift. apply functional_extensionality; intros i. unfold smul. ring. }
    fold (NN l). unfold clamp_abs, sabs. rewrite sign_nonneg, Rabs_right by lra.
    apply functional_extensionality; intros i. unfold smul, vdiv. field. split; lra.
  Qed.
  Lemma scalar_mul_same r x y : same n x y -> same n (mobius_scalar_mul n 0 k r x) (mobius_scalar_mul n 0 k r y).
  Proof. intros H i Hi. unfold mobius_scalar_mul, smul, vdiv. rewrite (same_nrm n x y H), (H i Hi). reflexivity. Qed.
  Lemma midpoint_value d l : positive_weights l -> inside l -> 0 <= d ->
    norm_ok n (smul (DD l / (DD l + d)) (klein_mean n k l)) ->
    same n (weighted_midpoint n 0 d k false false l) (half (smul (DD l / (DD l + d)) (klein_mean n k l))).
  Proof.
    intros P I D N. pose proof (DD_pos l P I) as DP. pose proof kneg. rewrite midpoint_parts. unfold mid_of, choose. cbv zeta.
    destruct Rlt_dec; [lra|]. rewrite two_mean_klein by assumption. apply scalar_half; [exact N|].
    pose proof (klein_short l P I) as L. rewrite nrm_smul. pose proof s_pos. pose proof (nrm_nonneg n (klein_mean n k l)).
    assert (Q : 0 < DD l / (DD l + d) <= 1).
    { split; [apply Rmult_lt_0_compat; [exact DP|apply Rinv_0_lt_compat; lra]|].
      apply Rmult_le_reg_r with (DD l + d); [lra|]. unfold Rdiv. rewrite Rmult_assoc, Rinv_l by lra. lra. }
    rewrite Rabs_right by lra. assert (0 <= nrm n (klein_mean n k l) * s) by (apply Rmult_le_pos; lra). nra.
  Qed.
  Lemma midpoint_exact l : positive_weights l -> inside l -> norm_ok n (klein_mean n k l) ->
    same n (weighted_midpoint n 0 0 k false false l) (half (klein_mean n k l)).
  Proof.
    intros P I N. pose proof (DD_pos l P I) as DP.
    assert (Q : smul (DD l / (DD l + 0)) (klein_mean n k l) = klein_mean n k l).
    { replace (DD l / (DD l + 0)) with 1 by (field; lra). apply smul_1. }
    rewrite <- Q. apply midpoint_value; [assumption..|lra|rewrite Q; exact N].
  Qed.
  (** the lift of the midpoint is the normalised sum of the lifts *)
  Lemma lift_mid l : positive_weights l -> inside l -> let m := half (klein_mean n k l) in
    0 < qf (klein_mean n k l) /\ NN l = smul (DD l * qf (klein_mean n k l)) (lift m) /\ DD l = DD l * qf (klein_mean n k l) * hgt m /\ in_domain n k m.
  Proof.
    intros P I m. pose proof (DD_pos l P I) as DP. pose proof (klein_domain l P I) as D. set (y := klein_mean n k l) in *.
    pose proof (qf_pos y D) as Q. pose proof (half_in_domain y D) as HD. fold m in HD.
    assert (HM : hgt m = / qf y). { unfold hgt, gam, conformal. unfold m. rewrite half_cf by exact D. field. split; lra. }
    split; [exact Q|]. split; [|split; [rewrite HM; field; lra|exact HD]].
    assert (NY : NN l = smul (DD l) y) by (unfold y; rewrite klein_ND; apply functional_extensionality; intros i; unfold smul, vdiv; field; lra).
    rewrite NY. unfold lift, gam, conformal. unfold m at 1. rewrite half_cf by exact D. unfold m, half.
    apply functional_extensionality; intros i. unfold smul. field. split; lra.
  Qed.

  (** ** translation equivariance *)
  Lemma NN_translate u l : in_domain n k u -> (forall p, In p l -> in_domain n k (snd p) /\ regular n k u (snd p)) ->
    NN (map_points (mobius_add n k u) l) = vadd (NN l) (smul (DD l - k * dot n u (NN l)) (lift u)) /\
    DD (map_points (mobius_add n k u) l) = hgt u * DD l - k * dot n (lift u) (NN l).
  Proof.
    intros U H. unfold NN, DD, map_points. rewrite vtotal_map, total_map, !dot_vtotal. split.
    - apply functional_extensionality; intros i. unfold vadd, smul at 3. unfold vtotal.
      rewrite (total_ext _ (fun p => (smul (fst p) (lift (snd p)) i) + (lift u i * (fst p * hgt (snd p)) + - k * lift u i * dot n u (smul (fst p) (lift (snd p)))))).
      + rewrite total_plus, total_plus, !total_scal. ring.
      + intros p Hp. destruct (H p Hp) as [X G]. cbn [fst snd]. rewrite lift_add by assumption. rewrite dot_smul_r. unfold smul, vadd. ring.
    - rewrite (total_ext _ (fun p => hgt u * (fst p * hgt (snd p)) + - k * dot n (lift u) (smul (fst p) (lift (snd p))))).
      + rewrite total_plus, !total_scal. ring.
      + intros p Hp. destruct (H p Hp) as [X G]. cbn [fst snd]. rewrite hgt_add by assumption. rewrite dot_smul_r. ring.
  Qed.
  Lemma positive_map f l : positive_weights l -> positive_weights (map_points f l).
  Proof.
    intros [NE W]. split.
    - destruct l; [contradiction|discriminate].
    - intros p Hp. unfold map_points in Hp. apply in_map_iff in Hp as (q & <- & Hq). apply (W q Hq).
  Qed.
  Lemma midpoint_translate u l : safe n k u -> positive_weights l ->
    (forall p, In p l -> well_inside n k (snd p) /\ well_inside n k (mobius_add n k u (snd p))) ->
    norm_ok n (klein_mean n k l) -> norm_ok n (klein_mean n k (map_points (mobius_add n k u) l)) ->
    same n (weighted_midpoint n 0 0 k false false (map_points (mobius_add n k u) l))
           (mobius_add n k u (weighted_midpoint n 0 0 k false false l)).
  Proof.
    intros U P H N1 N2. pose proof kneg as KN. pose proof (safe_in_domain n k u KN U) as UD.
    assert (I : inside l) by (intros p Hp; apply H, Hp).
    assert (P' : positive_weights (map_points (mobius_add n k u) l)) by (apply positive_map, P).
    assert (I' : inside (map_points (mobius_add n k u) l)).
    { intros p Hp. unfold map_points in Hp. apply in_map_iff in Hp as (q & <- & Hq). apply H, Hq. }
    destruct (lift_mid l P I) as (Q & LN & LD & MD). set (m := half (klein_mean n k l)) in *. set (c := DD l * qf (klein_mean n k l)) in *.
    pose proof (DD_pos l P I) as DP. assert (C : 0 < c) by (apply Rmult_lt_0_compat; assumption).
    assert (G : regular n k u m) by (apply safe_regular; assumption).
    pose proof (add_in_domain n k u m KN UD MD) as AD.
    destruct (NN_translate u l UD) as [TN TD].
    { intros p Hp. pose proof (well_domain _ (I p Hp)). split; [assumption|apply safe_regular; assumption]. }
    assert (KM : klein_mean n k (map_points (mobius_add n k u) l) = dbl (mobius_add n k u m)).
    { rewrite dbl_lift by exact AD. rewrite klein_ND, TN, TD, lift_add, hgt_add by assumption. rewrite LN, dot_smul_r, dot_smul_r.
      pose proof (hgt_ge _ AD) as HG. rewrite hgt_add in HG by assumption.
      replace (DD l - k * (c * dot n u (lift m))) with (c * (hgt m - k * dot n u (lift m))) by (rewrite Rmult_minus_distr_l, <- LD; ring).
      replace (hgt u * DD l - k * (c * dot n (lift u) (lift m))) with (c * (hgt u * hgt m - k * dot n (lift u) (lift m)))
        by (rewrite LD; ring).
      apply functional_extensionality; intros i. unfold vdiv, vadd, smul. field. split; lra. }
    eapply same_trans; [apply midpoint_exact; assumption|].
    rewrite KM. pose proof (klein_domain _ P' I') as KD.
    apply same_trans with (mobius_scalar_mul n 0 k (1 / 2) (dbl (mobius_add n k u m))).
    - rewrite <- KM. apply same_sym, scalar_half; [exact N2|apply klein_short; assumption].
    - eapply same_trans; [apply half_dbl; [exact AD|rewrite <- KM; exact N2|rewrite <- KM; apply klein_short; assumption]|].
      apply mobius_add_same; [apply same_refl|]. apply same_sym, midpoint_exact; assumption.
  Qed.

  (** ** the midpoint minimises the spread *)
  Lemma spread_pairing l z : inside l -> in_domain n k z ->
    hgt z * DD l + k * dot n (lift z) (NN l) = wsum l - 2 * k * spread n k l z.
  Proof.
    intros I Z. unfold spread, DD, NN. rewrite dot_vtotal, wsum_total, (wsum_total (map _ l)), total_map. cbn [fst].
    rewrite <- !total_scal, <- total_plus.
    transitivity (total (fun p : R * vec => fst p + - (2 * k) * (fst p * (dot n (vsub z (snd p)) (vsub z (snd p)) / ((1 + k * dot n z z) * (1 + k * dot n (snd p) (snd p)))))) l).
    - apply total_ext. intros p Hp. pose proof (pairing z (snd p) Z (well_domain _ (I p Hp))) as PR. rewrite dot_smul_r.
      replace (hgt z * (fst p * hgt (snd p)) + k * (fst p * dot n (lift z) (lift (snd p)))) with (fst p * (hgt z * hgt (snd p) + k * dot n (lift z) (lift (snd p)))) by ring.
      rewrite PR. ring.
    - rewrite total_plus, !total_scal. ring.
  Qed.
  Lemma lift_same x y : same n x y -> gam x = gam y /\ same n (lift x) (lift y).
  Proof.
    intros H. assert (G : gam x = gam y) by (unfold gam, conformal; rewrite (same_dot n x y x y H H); reflexivity).
    split; [exact G|]. intros i Hi. unfold lift, smul. rewrite G, (H i Hi). reflexivity.
  Qed.
  Lemma spread_total l z : spread n k l z =
    total (fun p => fst p * (dot n (vsub z (snd p)) (vsub z (snd p)) / ((1 + k * dot n z z) * (1 + k * dot n (snd p) (snd p))))) l.
  Proof. unfold spread. rewrite (wsum_total (map _ l)), total_map. reflexivity. Qed.
  Lemma spread_same l x y : same n x y -> spread n k l x = spread n k l y.
  Proof.
    intros H. rewrite !spread_total. apply total_ext. intros p _. cbn [fst].
    assert (S : same n (vsub x (snd p)) (vsub y (snd p))) by (intros i Hi; unfold vsub; rewrite (H i Hi); reflexivity).
    rewrite (same_dot n _ _ _ _ S S), (same_dot n _ _ _ _ H H). reflexivity.
  Qed.
  Lemma midpoint_minimal l z : positive_weights l -> inside l -> norm_ok n (klein_mean n k l) -> in_domain n k z ->
    let m := weighted_midpoint n 0 0 k false false l in
    spread n k l m <= spread n k l z /\ (spread n k l z = spread n k l m -> same n z m).
  Proof.
    intros P I N Z m. pose proof kneg as KN. pose proof (midpoint_exact l P I N) as S. fold m in S.
    destruct (lift_mid l P I) as (Q & LN & LD & MD). set (m' := half (klein_mean n k l)) in *. set (c := DD l * qf (klein_mean n k l)) in *.
    pose proof (DD_pos l P I) as DP. assert (C : 0 < c) by (apply Rmult_lt_0_compat; assumption).
    rewrite (spread_same l m m' S).
    pose proof (spread_pairing l z I Z) as E1. pose proof (spread_pairing l m' I MD) as E2.
    rewrite LN, dot_smul_r in E1, E2. rewrite LD in E1, E2.
    pose proof (pairing_ge z m' Z MD) as G. pose proof (lift_sq m' MD) as G2.
    assert (F1 : c * (hgt z * hgt m' + k * dot n (lift z) (lift m')) = wsum l - 2 * k * spread n k l z) by lra.
    assert (F2 : c = wsum l - 2 * k * spread n k l m') by (rewrite <- E2; replace c with (c * (hgt m' * hgt m' + k * dot n (lift m') (lift m'))) at 1 by (rewrite G2; ring); ring).
    split.
    - assert (c * 1 <= c * (hgt z * hgt m' + k * dot n (lift z) (lift m'))) by (apply Rmult_le_compat_l; lra).
      assert (0 <= - k * (spread n k l z - spread n k l m')) by lra. nra.
    - intros EQ. rewrite EQ, <- F2 in F1.
      assert (PE : hgt z * hgt m' + k * dot n (lift z) (lift m') = 1) by (apply Rmult_eq_reg_l with c; lra).
      rewrite pairing in PE by assumption.
      assert (ZD : 0 < (1 + k * dot n z z) * (1 + k * dot n m' m')) by (apply Rmult_lt_0_compat; assumption).
      assert (Z0 : dot n (vsub z m') (vsub z m') = 0).
      { set (A := dot n (vsub z m') (vsub z m')) in *. set (B := (1 + k * dot n z z) * (1 + k * dot n m' m')) in *.
        assert (A / B = 0) by nra. replace A with (A / B * B) by (field; lra). rewrite H. ring. }
      rewrite dot_zero_iff in Z0. eapply same_trans; [|apply same_sym, S]. intros i Hi. specialize (Z0 i Hi). unfold vsub in Z0. lra.
  Qed.

  (** ** copies of one point *)
  Lemma midpoint_const l x : positive_weights l -> well_inside n k x -> (forall p, In p l -> snd p = x) -> norm_ok n (dbl x) ->
    same n (weighted_midpoint n 0 0 k false false l) x.
  Proof.
    intros P W C N. assert (I : inside l) by (intros p Hp; rewrite (C p Hp); exact W).
    pose proof (DD_pos l P I) as DP. pose proof (well_domain x W) as D.
    assert (WP : 0 < total fst l) by (apply total_pos; apply P).
    assert (KM : klein_mean n k l = dbl x).
    { rewrite dbl_lift by exact D. rewrite klein_ND. pose proof (hgt_ge x D).
      assert (DE : DD l = total fst l * hgt x).
      { unfold DD. rewrite (total_ext _ (fun p => hgt x * fst p)) by (intros p Hp; rewrite (C p Hp); ring). rewrite total_scal. ring. }
      assert (NE : NN l = smul (total fst l) (lift x)).
      { apply functional_extensionality; intros i. unfold NN, vtotal. rewrite (total_ext _ (fun p => lift x i * fst p)) by (intros p Hp; rewrite (C p Hp); unfold smul; ring).
        rewrite total_scal. unfold smul. ring. }
      rewrite DE, NE. apply functional_extensionality; intros i. unfold vdiv, smul. field. split; lra. }
    eapply same_trans; [apply midpoint_exact; [assumption..|rewrite KM; exact N]|].
    eapply same_trans; [apply same_sym, scalar_half; [rewrite KM; exact N|apply klein_short; assumption]|].
    rewrite KM. apply half_dbl; [exact D|exact N|rewrite <- KM; apply klein_short; assumption].
  Qed.

  (** ** the 1e-10 added to the denominator *)
  Lemma lorentz_norm l : positive_weights l -> inside l -> wsum l * wsum l + - k * dot n (NN l) (NN l) <= DD l * DD l /\ 0 < wsum l.
  Proof.
    intros [NE W] I. pose proof kneg as KN. rewrite wsum_total.
    assert (B : 0 <= total fst l /\ 0 <= DD l /\ total fst l * total fst l + - k * dot n (NN l) (NN l) <= DD l * DD l).
    { clear NE. induction l as [|p l IH].
      - unfold DD, NN. cbn. change (vtotal (fun p => smul (fst p) (lift (snd p))) []) with vzero. rewrite dot_zero_l. lra.
      - assert (W' : forall p0, In p0 l -> 0 < fst p0) by (intros q Hq; apply W; right; exact Hq).
        assert (I' : inside l) by (intros q Hq; apply I; right; exact Hq).
        destruct (IH W' I') as (A1 & A2 & A3). clear IH.
        pose proof (W p ltac:(left; reflexivity)) as WP. pose proof (I p ltac:(left; reflexivity)) as IP. pose proof (well_domain _ IP) as D.
        pose proof (hgt_ge _ D) as HG. pose proof (lift_sq _ D) as LS.
        unfold DD, NN. rewrite !total_cons. fold (DD l). change (vtotal (fun p => smul (fst p) (lift (snd p))) (p :: l)) with (vadd (smul (fst p) (lift (snd p))) (NN l)).
        rewrite dot_add_l, !dot_add_r, !dot_smul_l, !dot_smul_r, (dot_comm n (NN l) (lift (snd p))).
        set (w := fst p) in *. set (h := hgt (snd p)) in *. set (X := lift (snd p)) in *. set (Y := NN l) in *.
        set (T := total fst l) in *. set (E := DD l) in *.
        pose proof (cauchy_schwarz n X Y) as CS. pose proof (dot_nonneg n X) as DX. pose proof (dot_nonneg n Y) as DY.
        split; [lra|]. split; [nra|].
        assert (M : w * T + - k * (w * dot n X Y) <= w * h * E).
        { assert (M' : T + - k * dot n X Y <= h * E); [|nra].
          apply Rsqr_incr_0_var; [|apply Rmult_le_pos; lra]. unfold Rsqr.
          assert (C1 : (T + - k * dot n X Y) * (T + - k * dot n X Y) <= (1 + - k * dot n X X) * (T * T + - k * dot n Y Y)).
          { assert (C2 : 2 * T * dot n X Y <= dot n Y Y + T * T * dot n X X).
            { pose proof (dot_nonneg n (vsub Y (smul T X))) as V. rewrite dot_sub_l, !dot_sub_r, !dot_smul_l, !dot_smul_r, (dot_comm n Y X) in V. lra. }
            assert (0 <= - k * (dot n Y Y + T * T * dot n X X - 2 * T * dot n X Y)) by (apply Rmult_le_pos; lra).
            assert (0 <= k * k * (dot n X X * dot n Y Y - dot n X Y * dot n X Y)) by (apply Rmult_le_pos; [apply Rle_0_sqr|lra]).
            match goal with |- ?a <= ?b => assert (b - a = - k * (dot n Y Y + T * T * dot n X X - 2 * T * dot n X Y) + k * k * (dot n X X * dot n Y Y - dot n X Y * dot n X Y)) by ring end. lra. }
          eapply Rle_trans; [exact C1|]. replace (1 + - k * dot n X X) with (h * h) by lra.
          replace (h * E * (h * E)) with (h * h * (E * E)) by ring. apply Rmult_le_compat_l; nra. }
        assert (h * h = 1 + - k * dot n X X) by lra.
        replace ((w * h + E) * (w * h + E)) with (w * w * (h * h) + 2 * (w * h * E) + E * E) by ring.
        rewrite H. nra. }
    split; [apply B|]. apply total_pos; assumption.
  Qed.
  Lemma midpoint_shift d l : positive_weights l -> inside l -> 0 <= d ->
    norm_ok n (klein_mean n k l) -> norm_ok n (smul (DD l / (DD l + d)) (klein_mean n k l)) ->
    exists t, 1 - d / wsum l <= t <= 1 /\
      same n (weighted_midpoint n 0 d k false false l) (smul t (weighted_midpoint n 0 0 k false false l)).
  Proof.
    intros P I D0 N1 N2. pose proof kneg as KN. pose proof (DD_pos l P I) as DP. pose proof (klein_domain l P I) as D.
    pose proof (midpoint_value d l P I D0 N2) as V1. pose proof (midpoint_exact l P I N1) as V2.
    destruct (lorentz_norm l P I) as [LN WP]. set (y := klein_mean n k l) in *. set (sg := DD l / (DD l + d)) in *.
    assert (S1 : 0 < sg <= 1).
    { split; [apply Rmult_lt_0_compat; [exact DP|apply Rinv_0_lt_compat; lra]|].
      apply Rmult_le_reg_r with (DD l + d); [lra|]. unfold sg, Rdiv. rewrite Rmult_assoc, Rinv_l by lra. lra. }
    pose proof (qf_pos y D) as Q. pose proof (qf_sq y D) as QQ. pose proof (dot_nonneg n y) as Y0.
    assert (DS : in_domain n k (smul sg y)).
    { unfold in_domain in *. rewrite dot_smul_l, dot_smul_r. assert (sg * sg <= 1) by nra.
      assert (sg * (sg * dot n y y) <= dot n y y) by (replace (sg * (sg * dot n y y)) with (sg * sg * dot n y y) by ring; assert (sg * sg * dot n y y <= 1 * dot n y y) by (apply Rmult_le_compat_r; assumption); lra).
      apply Rlt_le_trans with (1 + k * dot n y y); [exact D|]. apply Rplus_le_compat_l, Rmult_le_compat_neg_l; lra. }
    pose proof (qf_pos _ DS) as Qs. pose proof (qf_sq _ DS) as QQs. rewrite dot_smul_l, dot_smul_r in QQs.
    set (q := qf y) in *. set (qs := qf (smul sg y)) in *.
    assert (a2 : k * dot n y y = q * q - 1) by lra. replace (k * (sg * (sg * dot n y y))) with (sg * sg * (k * dot n y y)) in QQs by ring. rewrite a2 in QQs.
    assert (q1 : q <= 1) by (assert (k * dot n y y <= 0) by nra; nra).
    assert (qq1 : 0 <= 1 - q * q) by nra. assert (ss1 : 0 <= 1 - sg * sg) by nra.
    assert (DI : qs * qs - q * q = (1 - q * q) * (1 - sg * sg)) by (rewrite QQs; ring).
    assert (qle : q <= qs). { pose proof (Rmult_le_pos _ _ qq1 ss1). apply Rsqr_incr_0_var; unfold Rsqr; lra. }
    exists (sg * (1 + q) / (1 + qs)). split; [split|].
    - assert (DQ : wsum l <= DD l * q).
      { assert (NY : NN l = smul (DD l) y) by (unfold y; rewrite klein_ND; apply functional_extensionality; intros i; unfold smul, vdiv; field; lra).
        rewrite NY, dot_smul_l, dot_smul_r in LN. assert (wsum l * wsum l <= (DD l * q) * (DD l * q)).
        { replace ((DD l * q) * (DD l * q)) with (DD l * DD l * (q * q)) by ring. replace (q * q) with (1 + k * dot n y y) by lra. lra. }
        assert (0 < DD l * q) by (apply Rmult_lt_0_compat; assumption). nra. }
      assert (B : d / (DD l * q) <= d / wsum l) by (apply Rmult_le_compat_l; [lra|apply Rinv_le_contravar; lra]).
      assert (1 - sg * (1 + q) / (1 + qs) <= d / (DD l * q)); [|lra].
      assert (S2 : 1 - sg <= d / DD l).
      { unfold sg. apply Rmult_le_reg_r with (DD l * (DD l + d)); [apply Rmult_lt_0_compat; lra|].
        replace ((1 - DD l / (DD l + d)) * (DD l * (DD l + d))) with (d * DD l) by (field; lra).
        replace (d / DD l * (DD l * (DD l + d))) with (d * (DD l + d)) by (field; lra). nra. }
      apply Rle_trans with ((1 - sg) / q).
      + apply Rmult_le_reg_r with (q * (1 + qs)); [apply Rmult_lt_0_compat; lra|].
        replace ((1 - sg * (1 + q) / (1 + qs)) * (q * (1 + qs))) with (q * (1 + qs - sg * (1 + q))) by (field; lra).
        replace ((1 - sg) / q * (q * (1 + qs))) with ((1 - sg) * (1 + qs)) by (field; lra).
        (* q (1+qs - sg(1+q)) <= (1-sg)(1+qs) *)
        assert (D2 : q * (qs - q) <= (1 - q * q) * (1 - sg)).
        { assert (B1 : 0 <= (1 - q * q) * (1 - sg)) by (apply Rmult_le_pos; lra).
          assert (B2 : (qs - q) * (qs + q) = (1 - q * q) * (1 - sg) * (1 + sg)) by (transitivity (qs * qs - q * q); [ring|rewrite DI; ring]).
          assert (B3 : (qs - q) * (2 * q) <= (qs - q) * (qs + q)) by (apply Rmult_le_compat_l; lra).
          assert (B4 : (1 - q * q) * (1 - sg) * (1 + sg) <= (1 - q * q) * (1 - sg) * 2) by (apply Rmult_le_compat_l; lra). lra. }
        assert (B5 : 0 <= (1 - sg) * (qs - q)) by (apply Rmult_le_pos; lra).
        replace (q * (1 + qs - sg * (1 + q))) with ((1 - sg) * (q + q * q) + q * (qs - q)) by ring. nra.
      + apply Rmult_le_reg_r with q; [exact Q|]. replace ((1 - sg) / q * q) with (1 - sg) by (field; lra).
        replace (d / (DD l * q) * q) with (d / DD l) by (field; lra). exact S2.
    - apply Rmult_le_reg_r with (1 + qs); [lra|]. unfold Rdiv. rewrite Rmult_assoc, Rinv_l by lra. nra.
    - eapply same_trans; [exact V1|]. intros i Hi. unfold smul at 2. rewrite (V2 i Hi). unfold half, smul. fold q. change (qf (fun i0 : nat => sg * y i0)) with qs.
      field. split; lra.
  Qed.
End H.
