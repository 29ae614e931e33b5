(** Cases for StereoExtraProps.v: one entry, curvature -1, the point 1/2. *)
From Coq Require Import Reals Lra Psatz Lia List FunctionalExtensionality Bool Arith.
From Verif Require Import RVec StereoModel StereoSpec GyroAlgebra StereoTrig StereoProofs StereoProofs2 StereoProofs3 StereoProofs4
  StereoExtraModel StereoExtraSpec StereoExtraProofs StereoExtraNd StereoMidpoint StereoMidpoint2 StereoMidpoint3 StereoClass.
Import ListNotations.
Local Open Scope R_scope.

(** the matrix with the single entry 2 *)
Definition two1 : mat := fun _ => pt 2.
Definition a1 : R := artan_k e15 (1 / 2) (-1).
Definition s1 : R := k_sqrt e15 (-1).
Lemma s1_bounds : 1 <= s1 <= 1 + / 10 ^ 10. Proof. exact k1_sqrt. Qed.
Lemma a1_val : a1 = atanh (1 / 2 * s1) / s1.
Proof.
  pose proof s1_bounds. pose proof e8_val. pose proof e7_val. unfold a1, artan_k, artan_k_at. destruct k_zero as [F|_]; [exfalso; revert F; rewrite Rabs_left by lra; lra|]. cbv zeta.
  destruct (Rlt_dec (-1) 0) as [_|?]; [|lra]. fold s1. rewrite artanh_c_id by lra. field. lra.
Qed.
Lemma a1_bounds : 1 / 10 <= a1 /\ 2 * a1 * s1 <= atanh (1 - e7) /\ tanh (2 * a1 * s1) <= 9 / 10.
Proof.
  pose proof s1_bounds as S. pose proof e7_val. rewrite a1_val. set (z := 1 / 2 * s1). assert (Z : 1 / 2 <= z <= 51 / 100) by (unfold z; lra).
  pose proof (atanh_incr 0 z ltac:(lra) ltac:(lra) ltac:(lra)) as P. rewrite atanh_0 in P.
  replace (2 * (atanh z / s1) * s1) with (atanh z + atanh z) by (field; lra).
  assert (T : tanh (atanh z + atanh z) <= 9 / 10).
  { rewrite tanh_plus, tanh_atanh by lra. apply Rmult_le_reg_r with (1 + z * z); [nra|]. unfold Rdiv at 1. rewrite Rmult_assoc, Rinv_l by nra. nra. }
  split; [|split; [|exact T]].
  - assert (B : 1 / 4 <= atanh z).
    { unfold atanh. assert (0 < ln (1 + z)) by (rewrite <- ln_1; apply ln_increasing; lra).
      assert (L : 1 / 2 <= - ln (1 - z)).
      { pose proof (exp_ineq1_le (ln (1 - z))) as Q. rewrite exp_ln in Q by lra. lra. }
      lra. }
    apply Rmult_le_reg_r with s1; [lra|]. unfold Rdiv at 2. rewrite Rmult_assoc, Rinv_l by lra. lra.
  - rewrite <- (atanh_tanh (atanh z + atanh z)). apply atanh_le; [apply tanh_lt_1|lra|lra].
Qed.
Lemma angle_2a : angle_ok e15 (-1) (2 * a1).
Proof. apply angle_ok_free. split; [intros _; exact (proj1 (proj2 a1_bounds))|intros; lra]. Qed.
Lemma closed_m1 : closed_form (-1). Proof. right; left. pose proof e8_val as V. unfold e8 in V. lra. Qed.
Lemma tan_2a : / 100 <= tan_k e15 (2 * a1) (-1) <= 9 / 10.
Proof.
  destruct a1_bounds as (A & B & C). pose proof s1_bounds as S. pose proof e8_val. pose proof e7_val.
  unfold tan_k, tan_k_at. destruct k_zero as [F|_]; [exfalso; revert F; rewrite Rabs_left by lra; lra|]. cbv zeta.
  destruct (Rlt_dec (-1) 0) as [_|?]; [|lra]. fold s1. unfold tanh_c. pose proof atanh_clamp_15 as C15. rewrite clamp_id by nra.
  assert (I : / 2 <= / s1 <= 1) by (split; [apply Rinv_le_contravar; lra|rewrite <- Rinv_1; apply Rinv_le_contravar; lra]).
  assert (T : 1 / 10 <= tanh (2 * a1 * s1)).
  { rewrite tanh_exp. pose proof (exp_ineq1_le (2 * (2 * a1 * s1))) as Q. assert (X : 14 / 10 <= exp (2 * (2 * a1 * s1))) by nra.
    set (q := exp (2 * (2 * a1 * s1))) in *. replace ((q - 1) / (q + 1)) with (1 - 2 * / (q + 1)) by (field; lra).
    assert (/ (q + 1) <= / (24 / 10)) by (apply Rinv_le_contravar; lra). lra. }
  split; nra.
Qed.
Lemma log_half : nrm 1 (logmap0 1 e15 (-1) (pt (1 / 2))) = a1 /\ logmap0 1 e15 (-1) (pt (1 / 2)) = pt a1.
Proof.
  pose proof a1_bounds as (A & _). pose proof e15_val. 
  assert (E : logmap0 1 e15 (-1) (pt (1 / 2)) = pt a1).
  { rewrite logmap0_form by (rewrite nrm1, Rabs_right; lra). rewrite nrm1, Rabs_right by lra. fold a1.
    apply functional_extensionality; intros i. unfold smul, pt. field. }
  rewrite E. split; [rewrite nrm1, Rabs_right; lra|reflexivity].
Qed.
Lemma mv_two c : matvec 1 two1 (pt c) = pt (2 * c).
Proof. apply functional_extensionality; intros i. unfold matvec, two1. rewrite dot1. reflexivity. Qed.
Lemma norm_ok_pt c : / 10 ^ 15 <= c -> norm_ok 1 (pt c).
Proof. intros C. left. pose proof e15_pos as P. unfold e15 in P. rewrite nrm1, Rabs_right; lra. Qed.
Lemma e15_num : / 10 ^ 15 = 1 / 1000000000000000. Proof. pose proof e15_val as V. unfold e15 in V. exact V. Qed.

Lemma matvec_case : 0 <= e15 /\ closed_form (-1) /\ norm_ok 1 (pt (1 / 2)) /\ norm_ok 1 (matvec 1 two1 (pt (1 / 2))) /\
  norm_ok 1 (matvec 1 two1 (logmap0 1 e15 (-1) (pt (1 / 2)))) /\
  angle_ok e15 (-1) (nrm 1 (matvec 1 two1 (pt (1 / 2))) / nrm 1 (pt (1 / 2)) * artan_k e15 (nrm 1 (pt (1 / 2))) (-1)).
Proof.
  pose proof e15_pos. pose proof e15_num as N. pose proof a1_bounds as (A & _).
  split; [lra|]. split; [exact closed_m1|]. split; [apply norm_ok_pt; lra|]. split; [rewrite mv_two; apply norm_ok_pt; lra|].
  split; [rewrite (proj2 log_half), mv_two; apply norm_ok_pt; lra|].
  rewrite mv_two, !nrm1, !Rabs_right by lra. fold a1. replace (2 * (1 / 2) / (1 / 2)) with 2 by field. exact angle_2a.
Qed.
Lemma mv_value : mobius_matvec 1 e15 1 (-1) two1 (pt (1 / 2)) = pt (tan_k e15 (2 * a1) (-1)).
Proof.
  pose proof e15_val as V. unfold mobius_matvec. cbv zeta. rewrite mv_two, !nrm1, !Rabs_right, !clamp_min_id by lra. fold a1.
  replace (2 * (1 / 2) / (1 / 2)) with 2 by field. cbn [all_below]. unfold is_zero, pt at 1. destruct Req_EM_T; [lra|]. cbn [andb].
  apply functional_extensionality; intros i. unfold smul, vdiv, pt. field.
Qed.
Lemma compose_case :
  norm_ok 1 (matvec 1 (mat_mul 1 two1 two1) (pt (1 / 2))) /\ norm_ok 1 (mobius_matvec 1 e15 1 (-1) two1 (pt (1 / 2))) /\
  norm_ok 1 (matvec 1 two1 (mobius_matvec 1 e15 1 (-1) two1 (pt (1 / 2)))).
Proof.
  pose proof tan_2a as T. pose proof e15_num as N. split; [|rewrite mv_value; split].
  - replace (matvec 1 (mat_mul 1 two1 two1) (pt (1 / 2))) with (pt 2).
    + apply norm_ok_pt; lra.
    + apply functional_extensionality; intros i. unfold matvec, mat_mul, dot, Rsum, two1, pt. field.
  - apply norm_ok_pt; lra.
  - rewrite mv_two. apply norm_ok_pt; lra.
Qed.
Lemma scalar_case : norm_ok 1 (smul 2 (pt (1 / 2))) /\ angle_ok e15 (-1) (Rabs 2 * artan_k e15 (nrm 1 (pt (1 / 2))) (-1)).
Proof.
  pose proof e15_num as N. split.
  - replace (smul 2 (pt (1 / 2))) with (pt 1) by (apply functional_extensionality; intros i; unfold smul, pt; field). apply norm_ok_pt; lra.
  - rewrite nrm1, !Rabs_right by lra. fold a1. exact angle_2a.
Qed.
Definition refl1 : mat := fun _ => pt (-1).
Lemma isometric_case : length_ok e15 (-1) (nrm 1 (pt (1 / 2))) /\ nrm 1 (matvec 1 refl1 (pt (1 / 2))) = nrm 1 (pt (1 / 2)).
Proof.
  split.
  - intros _. rewrite nrm1, Rabs_right by lra. change (rt e15 (-1)) with s1. pose proof s1_bounds. pose proof e7_val as V. unfold e7 in V. rewrite V. lra.
  - replace (matvec 1 refl1 (pt (1 / 2))) with (pt (- (1 / 2))) by (apply functional_extensionality; intros i; unfold matvec, refl1; rewrite dot1; unfold pt; field).
    rewrite !nrm1, Rabs_Ropp. reflexivity.
Qed.
(** a chain: double, then reflect *)
Definition chain1 : list (vec -> vec) := [smul 2; vopp].
Lemma chain_case : chain1 <> [] /\ (forall f, In f chain1 -> on_rows 1 f) /\
  (forall u, In u (stages (logmap0 1 e15 (-1) (pt (1 / 2))) chain1) -> norm_ok 1 u /\ angle_ok e15 (-1) (nrm 1 u) /\ norm_ok 1 (expmap0 1 e15 (-1) u)).
Proof.
  pose proof e15_num as N. pose proof a1_bounds as (A & _). pose proof tan_2a as T. pose proof e15_pos. pose proof e15_val as V.
  split; [discriminate|]. split.
  - intros f [<-|[<-|[]]] x y H0 i Hi; unfold smul, vopp; rewrite (H0 i Hi); reflexivity.
  - assert (G : forall u, nrm 1 u = 2 * a1 -> norm_ok 1 u /\ angle_ok e15 (-1) (nrm 1 u) /\ norm_ok 1 (expmap0 1 e15 (-1) u)).
    { intros u U. split; [left; rewrite U; lra|]. split; [rewrite U; exact angle_2a|]. left.
      rewrite exp0_nrm; [rewrite U; lra|lra|exact closed_m1|rewrite U; lra|rewrite U; exact angle_2a]. }
    rewrite (proj2 log_half). intros u [<-|[<-|[]]]; apply G.
    + rewrite nrm_smul, nrm1, !Rabs_right; lra.
    + unfold vopp, smul, pt. change (nrm 1 (pt (- (2 * a1))) = 2 * a1). rewrite nrm1, Rabs_Ropp, Rabs_right; lra.
Qed.
(** mobius_pointwise_mul returns 0 for products up to 1e-8, mobius_matvec with the same diagonal matrix does not *)
Lemma pointwise_differs : let w := pt 1 in let x := pt (/ 10 ^ 8) in
  mobius_pointwise_mul 1 e15 0 w x 0%nat = 0 /\ mobius_matvec 1 e15 1 0 (mat_diag w) x 0%nat = / 10 ^ 8.
Proof.
  cbv zeta. split.
  - rewrite pointwise_tiny; [reflexivity|]. intros i _. unfold pt. rewrite Rmult_1_l, Rabs_right; [lra|]. lra.
  - assert (M : matvec 1 (mat_diag (pt 1)) (pt (/ 10 ^ 8)) = fun i => if Nat.eqb i 0 then / 10 ^ 8 else 0).
    { apply functional_extensionality; intros i. unfold matvec, dot, Rsum, mat_diag, pt. destruct (Nat.eqb i 0); ring. }
    unfold mobius_matvec. cbv zeta. rewrite M.
    assert (NX : nrm 1 (fun i => if Nat.eqb i 0 then / 10 ^ 8 else 0) = / 10 ^ 8).
    { change (nrm 1 (pt (/ 10 ^ 8)) = / 10 ^ 8). rewrite nrm1, Rabs_right; lra. }
    rewrite NX. rewrite nrm1, Rabs_right, clamp_min_id; [|unfold e15; lra|lra].
    cbn [all_below Nat.eqb andb]. unfold is_zero. destruct Req_EM_T as [F|_]; [lra|].
    rewrite artan_k_zero. unfold smul, vdiv. cbn [Nat.eqb].
    replace (/ 10 ^ 8 / / 10 ^ 8 * / 10 ^ 8) with (/ 10 ^ 8) by field.
    rewrite tan_k_zero. field.
Qed.
Lemma pointwise_case : exists i, (i < 1)%nat /\ / 10 ^ 8 < Rabs (pt 2 i * pt (1 / 2) i).
Proof. exists 0%nat. split; [lia|]. unfold pt. rewrite Rabs_right; lra. Qed.
Lemma midpoint_euclidean n e d lc l : 0 <= wsum l ->
  weighted_midpoint n e d 0 lc false l = smul (if lc then wsum l else 1) (vdiv (wvsum l) (wsum l + d)).
Proof.
  intros W. rewrite midpoint_flat. unfold lincomb_factor, clamp_abs, sabs. rewrite sign_nonneg, Rabs_right by lra. rewrite Rmult_1_l. reflexivity.
Qed.
Lemma midpoint_copies n k : k < - / 10 ^ 8 -> forall l x, positive_weights l -> well_inside n k x ->
  (forall p, In p l -> snd p = x) -> norm_ok n x -> same n (weighted_midpoint n 0 0 k false false l) x.
Proof.
  intros K l x P W H N. apply midpoint_const; auto. unfold norm_ok, dbl in *. replace (vdiv (smul 2 x) (1 - k * dot n x x)) with (smul (2 / (1 - k * dot n x x)) x) by (apply functional_extensionality; intros i; unfold vdiv, smul, Rdiv; ring). rewrite nrm_smul.
  destruct W as [_ W]. destruct N as [N|N]; [left|right; rewrite N; ring].
  pose proof e8_val as V. unfold e8 in V. pose proof (dot_nonneg n x) as D.
  assert (C : 1 <= 2 / (1 - k * dot n x x)).
  { apply Rmult_le_reg_r with (1 - k * dot n x x); [nra|]. unfold Rdiv. rewrite Rmult_assoc, Rinv_l by nra. lra. }
  rewrite Rabs_right by lra. pose proof (nrm_nonneg n x). nra.
Qed.
Definition swap2 : mat := fun i j => match i, j with O, S O => 1 | S O, O => 1 | _, _ => 0 end.
Lemma swap2_case : orthogonal 2 swap2 /\ apply_mat 2 swap2 (fun i => match i with O => 1 | _ => 2 end) 0%nat = 2.
Proof.
  split; [intros u v|]; unfold apply_mat, dot, Rsum, swap2; ring.
Qed.
