(** Lemmas behind StereoExtraProps.v: the midpoint with the library's constants. *)
From Coq Require Import Reals Lra Psatz Lia List FunctionalExtensionality Bool Arith Permutation.
From Verif Require Import RVec StereoModel StereoSpec GyroAlgebra StereoTrig StereoProofs StereoProofs2 StereoProofs3 StereoProofs4
  StereoExtraModel StereoExtraSpec StereoExtraProofs StereoMidpoint StereoMidpoint2 StereoMidpoint3.
Import ListNotations.
Local Open Scope R_scope.

Section L.
  Variables (n : nat) (e k : R).
  Hypothesis E : 0 <= e.
  Hypothesis K : k < - / 10 ^ 8.
  Let s' := sqrt (- k + e).
  Definition inside_at (l : list (R * vec)) : Prop := forall p, In p l -> well_inside_at n e k (snd p).

  Lemma scalar_e r x : mobius_scalar_mul n e k r x = mobius_scalar_mul n 0 (k - e) r x.
  Proof.
    pose proof e8_val as V8. fold e8 in K. unfold mobius_scalar_mul. cbv zeta.
    assert (KE : k - e < - e8) by lra.
    rewrite !artan_k_neg, !tan_k_neg by assumption.
    replace (k_sqrt 0 (k - e)) with (k_sqrt e k) by (unfold k_sqrt, sabs; f_equal; rewrite !Rabs_left; lra).
    reflexivity.
  Qed.
  Lemma s'_pos : 0 < s'. Proof. apply sqrt_lt_R0. pose proof (kneg k K). lra. Qed.
  Lemma inside_weaken l : inside_at l -> inside n k l.
  Proof.
    intros I p Hp. destruct (I p Hp) as [A D]. split; [|exact D]. apply Rle_trans with (2 := A).
    apply Rmult_le_compat_r; [apply nrm_nonneg|]. apply Rmult_le_compat_l; [lra|]. apply sqrt_le_1_alt. lra.
  Qed.
  Lemma lift_short' x : well_inside_at n e k x -> nrm n (lift n k x) * s' <= (1 - / 10 ^ 7) * hgt n k x.
  Proof.
    intros [W D]. fold s' in W. unfold lift. rewrite nrm_smul, hgt_val by exact D.
    assert (G : 0 < gam n k x) by (unfold gam, conformal; apply Rmult_lt_0_compat; [lra|apply Rinv_0_lt_compat, D]).
    rewrite Rabs_right by lra. unfold gam, conformal. apply Rmult_le_reg_r with (1 + k * dot n x x); [exact D|].
    replace (2 / (1 + k * dot n x x) * nrm n x * s' * (1 + k * dot n x x)) with (2 * s' * nrm n x) by (field; lra).
    replace ((1 - / 10 ^ 7) * ((1 - k * dot n x x) / (1 + k * dot n x x)) * (1 + k * dot n x x)) with ((1 - / 10 ^ 7) * (1 - k * dot n x x)) by (field; lra).
    exact W.
  Qed.
  Lemma klein_short' l : positive_weights l -> inside_at l -> nrm n (klein_mean n k l) * s' <= 1 - / 10 ^ 7.
  Proof.
    intros P I. pose proof (DD_pos n k K l P (inside_weaken l I)) as DP. pose proof s'_pos as SP. rewrite klein_ND, nrm_vdiv, (Rabs_right (DD n k l)) by lra.
    apply Rmult_le_reg_r with (DD n k l); [exact DP|]. replace (nrm n (NN n k l) / DD n k l * s' * DD n k l) with (nrm n (NN n k l) * s') by (field; lra).
    assert (B : nrm n (NN n k l) <= total (fun p => fst p * ((1 - / 10 ^ 7) * hgt n k (snd p) / s')) l).
    { apply nrm_vtotal. intros p Hp. destruct P as [_ W]. specialize (W p Hp). rewrite nrm_smul, Rabs_right by lra.
      apply Rmult_le_compat_l; [lra|]. pose proof (lift_short' (snd p) (I p Hp)) as L.
      apply Rmult_le_reg_r with s'; [exact SP|]. unfold Rdiv. rewrite (Rmult_assoc _ (/ s')), Rinv_l by lra. lra. }
    rewrite (total_ext _ (fun p => ((1 - / 10 ^ 7) / s') * (fst p * hgt n k (snd p)))) in B by (intros p _; field; lra).
    rewrite total_scal in B. fold (DD n k l) in B. apply Rmult_le_compat_r with (r := s') in B; [|lra].
    replace ((1 - / 10 ^ 7) / s' * DD n k l * s') with ((1 - / 10 ^ 7) * DD n k l) in B by (field; lra). exact B.
  Qed.

  (** half of y in curvature k - e and in curvature k *)
  Lemma half_ratio y : nrm n y * s' <= 1 - / 10 ^ 7 ->
    exists t, 1 <= t <= 1 + 2000 * e / (- k) /\ half n (k - e) y = smul t (half n k y).
  Proof.
    intros L. pose proof (kneg k K) as KN. pose proof s'_pos as SP. assert (SS : s' * s' = - k + e) by (apply sqrt_sqrt; lra).
    set (r := nrm n y) in *. assert (R0 : 0 <= r) by apply nrm_nonneg. assert (RR : dot n y y = r * r) by (unfold r; rewrite nrm_sq; reflexivity).
    pose proof e7_val as V7. unfold e7 in V7. rewrite V7 in L.
    assert (RS : 0 <= r * s') by (apply Rmult_le_pos; lra).
    assert (Q2 : 1 / 10 ^ 7 <= 1 + (k - e) * (r * r)).
    { replace ((k - e) * (r * r)) with (- (r * s' * (r * s'))) by (replace (r * s' * (r * s')) with (r * r * (s' * s')) by ring; rewrite SS; ring). nra. }
    unfold half. set (q := qf n k y). set (q' := qf n (k - e) y).
    assert (RR2 : 0 <= r * r) by nra.
    assert (QQ' : q' * q' = 1 + (k - e) * (r * r)) by (unfold q', qf; rewrite RR; apply sqrt_sqrt; lra).
    assert (QQ : q * q = 1 + k * (r * r)) by (unfold q, qf; rewrite RR; apply sqrt_sqrt; nra).
    assert (Qp : 0 <= q) by apply sqrt_pos. assert (Qp' : 0 <= q') by apply sqrt_pos.
    assert (QG : q' <= q) by (unfold q, q', qf; rewrite RR; apply sqrt_le_1_alt; nra).
    assert (QL : 3 / 10 ^ 4 <= q') by nra.
    exists ((1 + q) / (1 + q')). split.
    - replace ((1 + q) / (1 + q')) with (1 + (q - q') / (1 + q')) by (field; lra).
      assert (I : 0 < / (1 + q') <= 1) by (split; [apply Rinv_0_lt_compat; lra|rewrite <- Rinv_1; apply Rinv_le_contravar; lra]).
      assert (DQ : (q - q') * (q + q') = e * (r * r)) by (replace ((q - q') * (q + q')) with (q * q - q' * q') by ring; rewrite QQ, QQ'; ring).
      assert (KR : - k * (r * r) <= 1) by nra.
      assert (DB : q - q' <= 2000 * e / - k).
      { apply Rmult_le_reg_r with (- k); [lra|]. unfold Rdiv. rewrite (Rmult_assoc (2000 * e)), Rinv_l by lra.
        assert (A : (q - q') * (6 / 10 ^ 4) <= e * (r * r)) by (rewrite <- DQ; apply Rmult_le_compat_l; lra).
        assert (B : e * (r * r) * - k <= e) by (replace (e * (r * r) * - k) with (e * (- k * (r * r))) by ring; nra).
        assert (C : (q - q') * (6 / 10 ^ 4) * - k <= e * (r * r) * - k) by (apply Rmult_le_compat_r; lra).
        replace ((q - q') * - k) with ((q - q') * (6 / 10 ^ 4) * - k * (10 ^ 4 / 6)) by field. nra. }
      assert (0 <= q - q') by lra. unfold Rdiv at 1 2. split; [nra|]. assert ((q - q') * / (1 + q') <= q - q') by nra. lra.
    - apply functional_extensionality; intros i. unfold smul. field. split; lra.
  Qed.

  Lemma midpoint_library d l : positive_weights l -> inside_at l -> 0 <= d <= wsum l ->
    2 * / 10 ^ 15 <= nrm n (klein_mean n k l) \/ nrm n (klein_mean n k l) = 0 ->
    exists t, 1 - d / wsum l <= t <= 1 + 2000 * e / (- k) /\
      same n (weighted_midpoint n e d k false false l) (smul t (weighted_midpoint n 0 0 k false false l)).
  Proof.
    intros P I D N. pose proof (inside_weaken l I) as I0. pose proof (kneg k K) as KN.
    destruct (midpoint_shift' n k K d l P I0 D N) as (t & T & S).
    pose proof (DD_pos n k K l P I0) as DP. pose proof (DD_wsum n k K l P I0) as DW. pose proof e15_pos as P15. unfold e15 in P15.
    set (y := smul (DD n k l / (DD n k l + d)) (klein_mean n k l)).
    assert (Q : 1 / 2 <= DD n k l / (DD n k l + d) <= 1).
    { split; (apply Rmult_le_reg_r with (DD n k l + d); [lra|]); unfold Rdiv; rewrite (Rmult_assoc (DD n k l)), Rinv_l by lra; lra. }
    assert (NY : norm_ok n y).
    { unfold norm_ok, y. rewrite nrm_smul, Rabs_right by lra. destruct N as [N|N]; [left; nra|right; rewrite N; ring]. }
    assert (LY : nrm n y * s' <= 1 - / 10 ^ 7).
    { pose proof (klein_short' l P I) as L. unfold y. rewrite nrm_smul, Rabs_right by lra. pose proof s'_pos. pose proof (nrm_nonneg n (klein_mean n k l)).
      assert (0 <= nrm n (klein_mean n k l) * s') by (apply Rmult_le_pos; lra). nra. }
    destruct (half_ratio y LY) as (te & TE & HE).
    assert (KE : k - e < - / 10 ^ 8) by lra.
    assert (ME : same n (weighted_midpoint n e d k false false l) (half n (k - e) y)).
    { rewrite midpoint_parts. unfold mid_of, choose. cbv zeta. destruct Rlt_dec; [lra|].
      replace (entries_of n e k false l) with (entries_of n 0 k false l) by reflexivity.
      rewrite two_mean_klein by (try assumption; lra). rewrite scalar_e. apply scalar_half; [exact KE|exact NY|].
      replace (sqrt (- (k - e))) with s' by (unfold s'; f_equal; ring). exact LY. }
    pose proof (midpoint_value n k K d l P I0 ltac:(lra) NY) as M0. fold y in M0.
    exists (te * t). split.
    - assert (0 < wsum l).
      { rewrite wsum_total. destruct P as [NE W]. apply total_pos; [exact NE|exact W]. }
      assert (0 <= 1 - d / wsum l). { assert (d / wsum l <= 1); [|lra]. apply Rmult_le_reg_r with (wsum l); [lra|]. unfold Rdiv. rewrite Rmult_assoc, Rinv_l by lra. lra. }
      split; nra.
    - eapply same_trans; [exact ME|]. rewrite HE. intros i Hi. unfold smul. specialize (S i Hi). unfold smul in S. rewrite (M0 i Hi) in S. rewrite S. ring.
  Qed.
End L.
Lemma well_pt_at a : Rabs a <= 9 / 10 -> well_inside_at 1 e15 (-1) (pt a).
Proof.
  intros A. destruct (well_pt a A) as [B D]. split; [|exact D]. rewrite nrm1 in *. rewrite dot1 in *.
  assert (S : sqrt (- -1 + e15) <= 1 + / 10 ^ 10).
  { pose proof e15_val as V. rewrite <- (sqrt_Rsqr (1 + / 10 ^ 10)) by lra. apply sqrt_le_1_alt. unfold Rsqr. lra. }
  pose proof (Rabs_pos a). pose proof (sqrt_pos (- -1 + e15)). assert (AA : a * a = Rabs a * Rabs a) by (unfold Rabs; destruct Rcase_abs; ring). rewrite AA in *.
  nra.
Qed.
Lemma two_points_at : forall p, In p two_points -> well_inside_at 1 e15 (-1) (snd p).
Proof. intros p [<-|[<-|[]]]; cbn; apply well_pt_at; rewrite Rabs_right; lra. Qed.
