(** Lemmas behind StereoExtraProps.v: matrix and pointwise products, function application. *)
From Coq Require Import Reals Lra Psatz Lia List FunctionalExtensionality Bool Arith.
From Verif Require Import RVec StereoModel StereoSpec GyroAlgebra StereoTrig StereoProofs StereoProofs2
  StereoExtraModel StereoExtraSpec.
Import ListNotations.
Local Open Scope R_scope.

Lemma all_below_true n f : all_below n f = true <-> forall i, (i < n)%nat -> f i = true.
Proof.
  induction n as [|n IH]; cbn [all_below].
  - split; [intros _ i Hi; lia|reflexivity].
  - rewrite andb_true_iff, IH. split.
    + intros [H1 H2] i Hi. destruct (Nat.eq_dec i n) as [->|]; [exact H2|apply H1; lia].
    + intros H. split; [intros i Hi; apply H; lia|apply H; lia].
Qed.
Lemma all_below_ext n f g : (forall i, (i < n)%nat -> f i = g i) -> all_below n f = all_below n g.
Proof.
  induction n as [|n IH]; intros H; cbn [all_below]; [reflexivity|].
  rewrite IH by (intros i Hi; apply H; lia). rewrite H by lia. reflexivity.
Qed.
Lemma is_zero_true a : is_zero a = true <-> a = 0.
Proof. unfold is_zero. destruct Req_EM_T; split; auto; discriminate. Qed.
Lemma zero_test p v : all_below p (fun i => is_zero (v i)) = true <-> nrm p v = 0.
Proof.
  rewrite all_below_true, nrm_zero_iff. split; intros H i Hi; apply is_zero_true || (apply is_zero_true; apply H; exact Hi).
  - apply H; exact Hi.
  - apply H; exact Hi.
Qed.

Lemma apply_matvec n A x : apply_mat n A x = matvec n A x.
Proof. reflexivity. Qed.
Lemma matvec_smul n A c x : matvec n A (smul c x) = smul c (matvec n A x).
Proof. apply functional_extensionality; intros i. unfold matvec, smul at 2. apply dot_smul_r. Qed.
Lemma matvec_add n A x y : matvec n A (vadd x y) = vadd (matvec n A x) (matvec n A y).
Proof. apply functional_extensionality; intros i. unfold matvec, vadd at 2. apply dot_add_r. Qed.
Lemma matvec_vdiv n A c x : matvec n A (vdiv x c) = vdiv (matvec n A x) c.
Proof. apply functional_extensionality; intros i. unfold matvec, vdiv at 2. apply dot_vdiv_r. Qed.
Lemma matvec_opp n A x : matvec n A (vopp x) = vopp (matvec n A x).
Proof. apply functional_extensionality; intros i. unfold matvec, vopp at 2. apply dot_opp_r. Qed.
Lemma matvec_zero n A : matvec n A vzero = vzero.
Proof. apply functional_extensionality; intros i. unfold matvec, vzero at 2. apply dot_zero_r. Qed.
Lemma matvec_same n A x y : same n x y -> matvec n A x = matvec n A y.
Proof. intros H. apply functional_extensionality; intros i. unfold matvec. apply same_dot; [apply same_refl|exact H]. Qed.
Lemma matvec_mul p q A B x : matvec p (mat_mul q A B) x = matvec q A (matvec p B x).
Proof.
  apply functional_extensionality; intros i. unfold matvec, mat_mul, dot.
  transitivity (Rsum p (fun j => Rsum q (fun l => A i l * (B l j * x j)))).
  - apply Rsum_ext; intros j Hj. rewrite <- Rsum_scal_r. apply Rsum_ext; intros; ring.
  - rewrite Rsum_swap. apply Rsum_ext; intros l Hl. rewrite Rsum_scal. reflexivity.
Qed.
Lemma Rsum_single n i c : (i < n)%nat -> Rsum n (fun j => if Nat.eqb i j then c j else 0) = c i.
Proof.
  induction n as [|n IH]; intros H; [lia|]. cbn [Rsum]. destruct (Nat.eqb_spec i n) as [->|N].
  - rewrite (Rsum_ext n _ (fun _ => 0)), Rsum_zero; [ring|].
    intros j Hj. destruct (Nat.eqb_spec n j); [lia|reflexivity].
  - rewrite IH by lia. ring.
Qed.
Lemma matvec_diag n w x : same n (matvec n (mat_diag w) x) (fun i => w i * x i).
Proof.
  intros i Hi. unfold matvec, dot, mat_diag.
  rewrite (Rsum_ext n _ (fun j => if Nat.eqb i j then w i * x j else 0)).
  - apply (Rsum_single n i (fun j => w i * x j) Hi).
  - intros j Hj. destruct (Nat.eqb i j); ring.
Qed.
Lemma matvec_scalar n r x : same n (matvec n (mat_scalar r) x) (smul r x).
Proof. apply (matvec_diag n (fun _ => r) x). Qed.

Section Matvec.
  Variables (n p : nat) (e k : R).
  Hypotheses (E : 0 <= e) (K : closed_form k).

  Lemma matvec_form m x : e15 <= nrm n x -> e15 <= nrm p (matvec n m x) ->
    mobius_matvec n e p k m x =
      smul (tan_k e (nrm p (matvec n m x) / nrm n x * artan_k e (nrm n x) k) k / nrm p (matvec n m x)) (matvec n m x).
  Proof.
    intros X MX. unfold mobius_matvec. cbv zeta. pose proof e15_pos.
    destruct (all_below p _) eqn:Z.
    - apply zero_test in Z. lra.
    - rewrite !clamp_min_id by assumption. apply smul_vdiv.
  Qed.
  Lemma matvec_null m x : nrm p (matvec n m x) = 0 -> mobius_matvec n e p k m x = vzero.
  Proof. intros Z. unfold mobius_matvec. cbv zeta. apply zero_test in Z. rewrite Z. reflexivity. Qed.
  Lemma matvec_of_null m x : nrm n x = 0 -> mobius_matvec n e p k m x = vzero.
  Proof.
    intros Z. apply matvec_null. apply nrm_zero_iff. intros i Hi. unfold matvec.
    rewrite (same_dot n (m i) (m i) x vzero); [apply dot_zero_r|apply same_refl|exact (proj1 (nrm_zero_iff n x) Z)].
  Qed.

  (** log0, exp0 away from the clamp *)
  Lemma logmap0_form d x : e15 <= nrm d x -> logmap0 d e k x = smul (artan_k e (nrm d x) k / nrm d x) x.
  Proof. intros X. unfold logmap0. cbv zeta. rewrite clamp_min_id by exact X. apply smul_vdiv. Qed.
  Lemma expmap0_form d u : e15 <= nrm d u -> expmap0 d e k u = smul (tan_k e (nrm d u) k / nrm d u) u.
  Proof. intros X. unfold expmap0. cbv zeta. rewrite clamp_min_id by exact X. apply smul_vdiv. Qed.
  Lemma same_null d x : nrm d x = 0 -> same d x vzero.
  Proof. intros Z. exact (proj1 (nrm_zero_iff d x) Z). Qed.
  Lemma logmap0_null d x : nrm d x = 0 -> same d (logmap0 d e k x) vzero.
  Proof. intros Z i Hi. pose proof (same_null d x Z i Hi) as H. unfold logmap0, smul, vdiv. rewrite H. unfold vzero, Rdiv. ring. Qed.
  Lemma expmap0_null d u : nrm d u = 0 -> same d (expmap0 d e k u) vzero.
  Proof. intros Z i Hi. pose proof (same_null d u Z i Hi) as H. unfold expmap0, smul, vdiv. rewrite H. unfold vzero, Rdiv. ring. Qed.
  Lemma expmap0_same d u v : same d u v -> same d (expmap0 d e k u) (expmap0 d e k v).
  Proof. intros H i Hi. unfold expmap0. rewrite (same_nrm d u v H). unfold smul, vdiv. rewrite (H i Hi). reflexivity. Qed.
  Lemma logmap0_same d u v : same d u v -> same d (logmap0 d e k u) (logmap0 d e k v).
  Proof. intros H i Hi. unfold logmap0. rewrite (same_nrm d u v H). unfold smul, vdiv. rewrite (H i Hi). reflexivity. Qed.
  Lemma exp0_log0 d x : norm_ok d x -> length_ok e k (nrm d x) -> norm_ok d (logmap0 d e k x) ->
    same d (expmap0 d e k (logmap0 d e k x)) x.
  Proof.
    intros [X|X] L G.
    - fold e15 in X. pose proof e15_pos. pose proof (artan_k_gt0 e k (nrm d x) E K ltac:(lra)) as A.
      assert (NL : nrm d (logmap0 d e k x) = artan_k e (nrm d x) k).
      { rewrite logmap0_form by exact X. rewrite nrm_smul, Rabs_right; [field; lra|]. apply Rle_ge, Rmult_le_pos; [lra|]. left; apply Rinv_0_lt_compat; lra. }
      destruct G as [G|G]; [|lra]. fold e15 in G.
      rewrite expmap0_form by exact G. rewrite NL, tan_artan by (auto; try exact K; lra).
      apply same_eq. rewrite logmap0_form, smul_smul by exact X.
      replace (nrm d x / artan_k e (nrm d x) k * (artan_k e (nrm d x) k / nrm d x)) with 1 by (field; split; lra).
      apply smul_1.
    - eapply same_trans; [apply expmap0_null|apply same_sym, same_null, X].
      rewrite (same_nrm d _ vzero (logmap0_null d x X)). apply nrm_zero.
  Qed.
  Lemma exp0_nrm d u : e15 <= nrm d u -> angle_ok e k (nrm d u) -> nrm d (expmap0 d e k u) = tan_k e (nrm d u) k.
  Proof.
    intros U A. pose proof e15_pos. rewrite expmap0_form, nrm_smul by exact U.
    pose proof (tan_k_nonneg e k (nrm d u) E K ltac:(lra) ltac:(apply angle_ok_free, A)) as T.
    rewrite Rabs_right; [field; lra|]. apply Rle_ge, Rmult_le_pos; [exact T|]. left; apply Rinv_0_lt_compat; lra.
  Qed.
  Lemma log0_exp0 d u : norm_ok d u -> angle_ok e k (nrm d u) -> norm_ok d (expmap0 d e k u) ->
    same d (logmap0 d e k (expmap0 d e k u)) u.
  Proof.
    intros [U|U] A G.
    - fold e15 in U. pose proof e15_pos. pose proof (exp0_nrm d u U A) as N.
      pose proof (artan_tan e k (nrm d u) E K ltac:(lra) ltac:(apply angle_ok_free, A)) as AT.
      destruct G as [G|G].
      + fold e15 in G. rewrite logmap0_form by exact G. rewrite N, AT, expmap0_form, smul_smul by exact U.
        apply same_eq. rewrite N in G.
        replace (nrm d u / tan_k e (nrm d u) k * (tan_k e (nrm d u) k / nrm d u)) with 1 by (field; split; lra). apply smul_1.
      + rewrite N in G. rewrite G, artan_k_0 in AT. lra.
    - eapply same_trans; [apply logmap0_null|apply same_sym, same_null, U].
      rewrite (same_nrm d _ vzero (expmap0_null d u U)). apply nrm_zero.
  Qed.

  Lemma matvec_exp_log m x : norm_ok n x -> norm_ok p (matvec n m x) -> norm_ok p (matvec n m (logmap0 n e k x)) ->
    same p (mobius_matvec n e p k m x) (expmap0 p e k (matvec n m (logmap0 n e k x))).
  Proof.
    intros [X|X] MX ML; pose proof e15_pos.
    - fold e15 in X. pose proof (artan_k_gt0 e k (nrm n x) E K ltac:(lra)) as A.
      rewrite logmap0_form in * by exact X. rewrite matvec_smul in *.
      set (c := artan_k e (nrm n x) k / nrm n x) in *.
      assert (C : 0 < c) by (apply Rmult_lt_0_compat; [exact A|apply Rinv_0_lt_compat; lra]).
      destruct MX as [MX|MX].
      + fold e15 in MX. destruct ML as [ML|ML].
        * fold e15 in ML. rewrite matvec_form by assumption. rewrite expmap0_form by exact ML.
          rewrite nrm_smul in *. rewrite (Rabs_right c) in * by lra.
          apply same_eq. rewrite smul_smul. f_equal.
          replace (nrm p (matvec n m x) / nrm n x * artan_k e (nrm n x) k) with (c * nrm p (matvec n m x)) by (unfold c; field; lra).
          field. split; lra.
        * rewrite nrm_smul, Rabs_right in ML by lra. nra.
      + rewrite matvec_null by exact MX. apply same_sym, expmap0_null. rewrite nrm_smul, MX. ring.
    - rewrite matvec_of_null by exact X. apply same_sym, expmap0_null.
      rewrite (matvec_same n m _ vzero (logmap0_null n x X)), matvec_zero. apply nrm_zero.
  Qed.

  Lemma matvec_nrm m x : e15 <= nrm n x -> e15 <= nrm p (matvec n m x) ->
    angle_ok e k (nrm p (matvec n m x) / nrm n x * artan_k e (nrm n x) k) ->
    nrm p (mobius_matvec n e p k m x) = tan_k e (nrm p (matvec n m x) / nrm n x * artan_k e (nrm n x) k) k.
  Proof.
    intros X MX A. pose proof e15_pos. rewrite matvec_form, nrm_smul by assumption.
    pose proof (artan_k_nonneg e k (nrm n x) E K ltac:(lra)) as AN.
    assert (Q : 0 <= nrm p (matvec n m x) / nrm n x) by (apply Rmult_le_pos; [lra|left; apply Rinv_0_lt_compat; lra]).
    pose proof (tan_k_nonneg e k _ E K (Rmult_le_pos _ _ Q AN) ltac:(apply angle_ok_free, A)) as T.
    rewrite Rabs_right; [field; lra|]. apply Rle_ge, Rmult_le_pos; [exact T|]. left; apply Rinv_0_lt_compat; lra.
  Qed.
  Lemma matvec_dist0 m x : norm_ok n x -> norm_ok p (matvec n m x) ->
    angle_ok e k (nrm p (matvec n m x) / nrm n x * artan_k e (nrm n x) k) ->
    dist0 p e k (mobius_matvec n e p k m x) * nrm n x = nrm p (matvec n m x) * dist0 n e k x.
  Proof.
    intros [X|X] [MX|MX] A; pose proof e15_pos; unfold dist0.
    - fold e15 in X, MX. rewrite matvec_nrm by assumption. pose proof (artan_k_nonneg e k (nrm n x) E K ltac:(lra)) as AN.
      assert (Q : 0 <= nrm p (matvec n m x) / nrm n x) by (apply Rmult_le_pos; [lra|left; apply Rinv_0_lt_compat; lra]).
      rewrite artan_tan; [field; lra|assumption|exact K|apply Rmult_le_pos; assumption|apply angle_ok_free, A].
    - rewrite matvec_null, nrm_zero, artan_k_0, MX by exact MX. ring.
    - rewrite X. assert (Z : nrm p (matvec n m x) = 0) by (rewrite (matvec_same n m x vzero (same_null n x X)), matvec_zero; apply nrm_zero).
      rewrite Z. ring.
    - rewrite X, MX. ring.
  Qed.

  Lemma matvec_isometric m x : norm_ok n x -> length_ok e k (nrm n x) -> nrm p (matvec n m x) = nrm n x ->
    same p (mobius_matvec n e p k m x) (matvec n m x).
  Proof.
    intros [X|X] L N; pose proof e15_pos.
    - fold e15 in X. rewrite matvec_form by lra. rewrite N.
      replace (nrm n x / nrm n x * artan_k e (nrm n x) k) with (artan_k e (nrm n x) k) by (field; lra).
      rewrite tan_artan by (auto; try exact K; lra). replace (nrm n x / nrm n x) with 1 by (field; lra).
      apply same_eq, smul_1.
    - rewrite matvec_of_null by exact X. apply same_sym, same_null. lra.
  Qed.
  Lemma matvec_in_ball m x : k < - / 10 ^ 8 -> in_domain p k (mobius_matvec n e p k m x).
  Proof.
    intros KN. pose proof e8_pos. unfold mobius_matvec. cbv zeta. destruct (all_below _ _); [apply in_domain_0|].
    apply (short_in_domain p e k); [exact E|unfold e8 in *; lra|apply tan_k_neg_small; [exact E|exact KN]|apply nrm_unit_le].
  Qed.
End Matvec.

Lemma matvec_same_out n e p k m x y : same n x y -> mobius_matvec n e p k m x = mobius_matvec n e p k m y.
Proof. intros H. unfold mobius_matvec. rewrite (matvec_same n m x y H), (same_nrm n x y H). reflexivity. Qed.

Lemma matvec_compose n q p e k A B x : 0 <= e -> closed_form k ->
  norm_ok n x -> norm_ok q (matvec n B x) -> norm_ok p (matvec n (mat_mul q A B) x) ->
  norm_ok q (mobius_matvec n e q k B x) -> norm_ok p (matvec q A (mobius_matvec n e q k B x)) ->
  angle_ok e k (nrm q (matvec n B x) / nrm n x * artan_k e (nrm n x) k) ->
  same p (mobius_matvec q e p k A (mobius_matvec n e q k B x)) (mobius_matvec n e p k (mat_mul q A B) x).
Proof.
  intros E K X BX ABX BMX ABMX ANG. pose proof e15_pos. rewrite matvec_mul in ABX.
  destruct X as [X|X].
  2:{ rewrite !(matvec_of_null n _ e k _ x X). rewrite matvec_of_null by apply nrm_zero. apply same_refl. }
  fold e15 in X. destruct BX as [BX|BX].
  2:{ rewrite (matvec_null n q e k B x BX). rewrite (matvec_of_null q p e k A vzero) by apply nrm_zero. rewrite matvec_null; [apply same_refl|].
      rewrite matvec_mul, (matvec_same q A _ vzero (same_null q _ BX)), matvec_zero. apply nrm_zero. }
  fold e15 in BX. pose proof (artan_k_gt0 e k (nrm n x) E K ltac:(lra)) as AG.
  assert (Q : 0 < nrm q (matvec n B x) / nrm n x) by (apply Rmult_lt_0_compat; [lra|apply Rinv_0_lt_compat; lra]).
  assert (TH : 0 < nrm q (matvec n B x) / nrm n x * artan_k e (nrm n x) k) by (apply Rmult_lt_0_compat; assumption).
  set (th := nrm q (matvec n B x) / nrm n x * artan_k e (nrm n x) k) in *.
  pose proof (matvec_nrm n q e k E K B x X BX ANG) as N. fold th in N.
  pose proof (artan_tan e k th E K ltac:(lra) ltac:(apply angle_ok_free, ANG)) as AT.
  pose proof (matvec_form n q e k B x X BX) as F. fold th in F.
  set (T := tan_k e th k) in *.
  assert (T0 : 0 < T).
  { destruct (Rle_lt_dec T 0) as [L|L]; [|exact L]. pose proof (nrm_nonneg q (mobius_matvec n e q k B x)).
    assert (Z : T = 0) by lra. rewrite Z, artan_k_0 in AT. lra. }
  destruct BMX as [BMX|BMX]; [|lra]. fold e15 in BMX. rewrite N in BMX.
  set (c := T / nrm q (matvec n B x)) in *. assert (C : 0 < c) by (apply Rmult_lt_0_compat; [exact T0|apply Rinv_0_lt_compat; lra]).
  assert (AE : matvec q A (mobius_matvec n e q k B x) = smul c (matvec q A (matvec n B x))) by (rewrite F; apply matvec_smul).
  destruct ABX as [ABX|ABX].
  - fold e15 in ABX. destruct ABMX as [ABMX|ABMX].
    + fold e15 in ABMX. rewrite (matvec_form q p e k A (mobius_matvec n e q k B x)) by (try exact ABMX; lra).
      rewrite N, AT. rewrite (matvec_form n p e k (mat_mul q A B) x) by (try rewrite matvec_mul; assumption).
      rewrite matvec_mul. apply same_eq. rewrite AE, nrm_smul, smul_smul, (Rabs_right c) by lra. f_equal.
      replace (c * nrm p (matvec q A (matvec n B x)) / T * th) with (nrm p (matvec q A (matvec n B x)) / nrm n x * artan_k e (nrm n x) k).
      * field. split; lra.
      * unfold c, th. field. repeat split; lra.
    + rewrite AE, nrm_smul, Rabs_right in ABMX by lra. nra.
  - rewrite matvec_null; [|rewrite AE, nrm_smul, ABX; ring]. rewrite matvec_null; [apply same_refl|rewrite matvec_mul; exact ABX].
Qed.

Lemma matvec_scalar_mul n e k r x : 0 <= e -> closed_form k -> norm_ok n x -> norm_ok n (smul r x) ->
  angle_ok e k (Rabs r * artan_k e (nrm n x) k) ->
  same n (mobius_matvec n e n k (mat_scalar r) x) (mobius_scalar_mul n e k r x).
Proof.
  intros E K [X|X] RX ANG; pose proof e15_pos.
  - fold e15 in X. pose proof (matvec_scalar n r x) as S. pose proof (same_nrm n _ _ S) as SN. rewrite nrm_smul in SN.
    pose proof (artan_k_nonneg e k (nrm n x) E K ltac:(lra)) as AN.
    destruct RX as [RX|RX].
    + fold e15 in RX. rewrite nrm_smul in RX. assert (R0 : 0 < Rabs r) by (pose proof (Rabs_pos r); nra).
      rewrite matvec_form by lra. rewrite scalar_mul_form by exact X. rewrite SN.
      rewrite (tan_k_abs e k r (artan_k e (nrm n x) k) E K AN) by (apply angle_ok_free, ANG).
      replace (Rabs r * nrm n x / nrm n x * artan_k e (nrm n x) k) with (Rabs r * artan_k e (nrm n x) k) by (field; lra).
      intros i Hi. unfold smul at 1 2. rewrite (S i Hi). unfold smul.
      destruct (Rle_dec 0 r).
      * rewrite (Rabs_right r) in * by lra. field. split; lra.
      * rewrite (Rabs_left r) in * by lra. field. split; lra.
    + rewrite nrm_smul in RX. assert (Z : Rabs r = 0) by (pose proof (Rabs_pos r); nra).
      assert (r = 0) by (destruct (Req_dec r 0) as [|NR]; [assumption|apply Rabs_no_R0 in NR; lra]). subst r.
      rewrite scalar_mul_0. rewrite matvec_null; [apply same_refl|]. rewrite SN, Z. ring.
  - rewrite matvec_of_null by exact X. apply same_sym, scalar_mul_zero_vec, X.
Qed.

(** * pointwise product *)
Lemma pointwise_as_matvec n e k w x : (exists i, (i < n)%nat /\ / 10 ^ 8 < Rabs (w i * x i)) ->
  same n (mobius_pointwise_mul n e k w x) (mobius_matvec n e n k (mat_diag w) x).
Proof.
  intros (i & Hi & B). pose proof (matvec_diag n w x) as D. unfold mobius_pointwise_mul, mobius_matvec. cbv zeta.
  rewrite (same_nrm n _ _ D). destruct (all_below n (fun j => close_to_zero _)) eqn:Z.
  { rewrite all_below_true in Z. specialize (Z i Hi). unfold close_to_zero in Z. destruct Rle_dec as [L|]; [|discriminate]. unfold e8 in L. lra. }
  destruct (all_below n (fun j => is_zero _)) eqn:Z'.
  { rewrite all_below_true in Z'. specialize (Z' i Hi). apply is_zero_true in Z'. rewrite (D i Hi) in Z'. rewrite Z', Rabs_R0 in B.
    pose proof e8_pos. unfold e8 in *. lra. }
  intros j Hj. unfold smul, vdiv. rewrite (D j Hj). reflexivity.
Qed.
Lemma pointwise_tiny n e k w x : (forall i, (i < n)%nat -> Rabs (w i * x i) <= / 10 ^ 8) ->
  mobius_pointwise_mul n e k w x = vzero.
Proof.
  intros H. unfold mobius_pointwise_mul. cbv zeta.
  replace (all_below n (fun i => close_to_zero (w i * x i))) with true; [reflexivity|].
  symmetry. apply all_below_true. intros i Hi. unfold close_to_zero, e8. destruct Rle_dec as [|N]; [reflexivity|]. destruct N; apply H, Hi.
Qed.
Lemma pointwise_in_ball n e k w x : 0 <= e -> k < - / 10 ^ 8 -> in_domain n k (mobius_pointwise_mul n e k w x).
Proof.
  intros E KN. pose proof e8_pos. unfold mobius_pointwise_mul. cbv zeta. destruct (all_below _ _); [apply in_domain_0|].
  apply (short_in_domain n e k); [exact E|unfold e8 in *; lra|apply tan_k_neg_small; [exact E|exact KN]|apply nrm_unit_le].
Qed.

(** * function application *)
Section Fn.
  Variables (n : nat) (e k : R).
  Hypotheses (E : 0 <= e) (K : closed_form k).

  Lemma fn_apply_id x : norm_ok n x -> length_ok e k (nrm n x) -> norm_ok n (logmap0 n e k x) ->
    same n (mobius_fn_apply n e k (fun u => u) x) x.
  Proof. intros. unfold mobius_fn_apply. apply exp0_log0; assumption. Qed.
  Lemma fn_apply_matvec m x : norm_ok n x -> norm_ok n (matvec n m x) -> norm_ok n (matvec n m (logmap0 n e k x)) ->
    same n (mobius_fn_apply n e k (apply_mat n m) x) (mobius_matvec n e n k m x).
  Proof. intros. apply same_sym, matvec_exp_log; assumption. Qed.

  Lemma stages_app u fs f : stages u (fs ++ [f]) = stages u fs ++ [f (fold_left (fun u f => f u) fs u)].
  Proof. revert u. induction fs as [|g fs IH]; intros u; cbn; [reflexivity|]. rewrite IH. reflexivity. Qed.
  Lemma last_stage u fs d : fs <> [] -> last (stages u fs) d = fold_left (fun u f => f u) fs u.
  Proof.
    intros NE. destruct (exists_last NE) as [l [f ->]].
    rewrite stages_app, last_last, fold_left_app. reflexivity.
  Qed.
  Lemma fold_apply_last fs : fs <> [] -> forall x,
    (forall f, In f fs -> on_rows n f) ->
    (forall u, In u (stages (logmap0 n e k x) fs) -> norm_ok n u /\ angle_ok e k (nrm n u) /\ norm_ok n (expmap0 n e k u)) ->
    same n (fold_left (fun x f => mobius_fn_apply n e k f x) fs x) (mobius_fn_apply_chain n e k x fs).
  Proof.
    intros NE x. induction fs as [|f fs IH] using rev_ind; [contradiction|]. intros R S.
    rewrite fold_left_app. cbn [fold_left]. destruct fs as [|g fs].
    - cbn. apply same_refl.
    - assert (NE' : g :: fs <> []) by discriminate.
      assert (R' : forall f0, In f0 (g :: fs) -> on_rows n f0) by (intros f0 Hf; apply R, in_or_app; left; exact Hf).
      rewrite stages_app in S.
      assert (S' : forall u, In u (stages (logmap0 n e k x) (g :: fs)) -> norm_ok n u /\ angle_ok e k (nrm n u) /\ norm_ok n (expmap0 n e k u))
        by (intros u Hu; apply S, in_or_app; left; exact Hu).
      specialize (IH NE' R' S').
      set (l := g :: fs) in *. set (u := fold_left (fun u f => f u) l (logmap0 n e k x)) in *.
      assert (Hu : In u (stages (logmap0 n e k x) l)).
      { destruct (exists_last NE') as [l' [h EQ]]. unfold u. rewrite EQ, stages_app, fold_left_app. apply in_or_app. right. left. reflexivity. }
      destruct (S' u Hu) as (U1 & U2 & U3).
      assert (C : mobius_fn_apply_chain n e k x l = expmap0 n e k u) by reflexivity.
      rewrite C in IH. unfold mobius_fn_apply at 1.
      assert (C' : mobius_fn_apply_chain n e k x (l ++ [f]) = expmap0 n e k (f u)).
      { unfold mobius_fn_apply_chain, l. cbn [app]. cbv zeta. change (g :: fs ++ [f]) with ((g :: fs) ++ [f]). rewrite fold_left_app. reflexivity. }
      rewrite C'. apply expmap0_same. refine (R f _ _ _ _); [apply in_or_app; right; left; reflexivity|].
      eapply same_trans; [apply logmap0_same, IH|]. apply log0_exp0; assumption.
  Qed.
  Lemma fn_apply_in_ball f x : k < - / 10 ^ 8 -> in_domain n k (mobius_fn_apply n e k f x).
  Proof. intros KN. apply expmap0_in_domain; [exact E|exact KN]. Qed.
  Lemma fn_apply_chain_in_ball x fs : k < - / 10 ^ 8 -> in_domain n k x -> in_domain n k (mobius_fn_apply_chain n e k x fs).
  Proof. intros KN D. destruct fs; [exact D|]. apply expmap0_in_domain; [exact E|exact KN]. Qed.
  Lemma chain_one x f : mobius_fn_apply_chain n e k x [f] = mobius_fn_apply n e k f x.
  Proof. reflexivity. Qed.
End Fn.
