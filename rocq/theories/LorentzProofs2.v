(** Lemmas for the Lorentz operations. *)
From Coq Require Import Reals Lra Lia Psatz ZArith.
From Verif Require Import RVec StereoModel LorentzModel LorentzSpec LorentzProofs.
Local Open Scope R_scope.

(** * Hyperbolic functions *)
Lemma cosh2 r : cosh r ^ 2 - sinh r ^ 2 = 1.
Proof. unfold cosh, sinh. assert (exp r * exp (- r) = 1) by (rewrite <- exp_plus, Rplus_opp_r; apply exp_0). nra. Qed.
Lemma cosh_sinh r : cosh r + sinh r = exp r.
Proof. unfold cosh, sinh. lra. Qed.
Lemma cosh_pos r : 0 < cosh r.
Proof. unfold cosh. pose proof (exp_pos r). pose proof (exp_pos (- r)). lra. Qed.
Lemma cosh_ge1 r : 1 <= cosh r.
Proof. pose proof (cosh2 r). pose proof (cosh_pos r). nra. Qed.
Lemma cosh_minus a b : cosh (a - b) = cosh a * cosh b - sinh a * sinh b.
Proof. unfold cosh, sinh. replace (- (a - b)) with (- a + b) by ring. unfold Rminus. rewrite !exp_plus. field. Qed.
Lemma sinh_ge r : 0 <= r -> r <= sinh r.
Proof.
  intros H. destruct (Req_dec r 0) as [->|N]; [unfold sinh; rewrite Ropp_0; lra|].
  destruct (MVT_cor2 sinh cosh 0 r) as [c [E C]]; [lra|intros; apply derivable_pt_lim_sinh|].
  assert (sinh 0 = 0) by (unfold sinh; rewrite Ropp_0; lra). pose proof (cosh_ge1 c). nra.
Qed.
Lemma sinh_pos r : 0 < r -> 0 < sinh r.
Proof. intros H. pose proof (sinh_ge r). lra. Qed.
Lemma cosh_gt1 r : r <> 0 -> 1 < cosh r.
Proof.
  intros N. pose proof (cosh2 r). pose proof (cosh_pos r). assert (sinh r <> 0).
  { destruct (Rlt_dec 0 r); [pose proof (sinh_pos r r0); lra|]. pose proof (sinh_pos (- r) ltac:(lra)) as P. unfold sinh in *. rewrite Ropp_involutive in P. lra. }
  assert (0 < sinh r ^ 2) by nra. nra.
Qed.
Lemma cosh_even r : cosh (Rabs r) = cosh r.
Proof. unfold Rabs. destruct Rcase_abs; [unfold cosh; rewrite Ropp_involutive; lra|reflexivity]. Qed.
Lemma e15_pos : 0 < e15. Proof. unfold e15. apply Rinv_0_lt_compat. lra. Qed.
Lemma e8_pos : 0 < e8. Proof. unfold e8. apply Rinv_0_lt_compat. lra. Qed.

(** * arcosh *)
Definition up (a : R) : R := a + sqrt (Rmax (a ^ 2 - 1) e15).
Lemma arcoshE a : arcosh a = ln (up a).
Proof. reflexivity. Qed.
Lemma up_ge a : 1 <= a -> 1 + sqrt e15 <= up a.
Proof. intros A. unfold up. assert (sqrt e15 <= sqrt (Rmax (a ^ 2 - 1) e15)) by (apply sqrt_le_1_alt, Rmax_r). lra. Qed.
Lemma sqe15 : 0 < sqrt e15. Proof. apply sqrt_lt_R0, e15_pos. Qed.
Lemma up_gt1 a : 1 <= a -> 1 < up a.
Proof. intros A. pose proof (up_ge a A). pose proof sqe15. lra. Qed.
Lemma arcosh_pos a : 1 <= a -> 0 < arcosh a.
Proof. intros A. rewrite arcoshE, <- ln_1. apply ln_increasing; [lra|apply up_gt1, A]. Qed.
Lemma arcosh_floor a : 1 <= a -> ln (1 + sqrt e15) <= arcosh a /\ (arcosh a = ln (1 + sqrt e15) -> a = 1).
Proof.
  intros A. pose proof sqe15. rewrite arcoshE. pose proof (up_ge a A) as U. split.
  - destruct U as [U|U]; [apply Rlt_le, ln_increasing; lra|rewrite U; lra].
  - intros E. apply ln_inv in E; [|pose proof (up_gt1 a A); lra|lra]. unfold up in E.
    assert (sqrt e15 <= sqrt (Rmax (a ^ 2 - 1) e15)) by (apply sqrt_le_1_alt, Rmax_r). lra.
Qed.
Lemma up_regular a : e15 <= a ^ 2 - 1 -> up a = a + sqrt (a ^ 2 - 1).
Proof. intros H. unfold up. rewrite Rmax_left by lra. reflexivity. Qed.
Lemma sqrt_cosh r : 0 <= r -> sqrt (cosh r ^ 2 - 1) = sinh r.
Proof. intros H. pose proof (sinh_ge r H). replace (cosh r ^ 2 - 1) with (sinh r ^ 2) by (pose proof (cosh2 r); lra). apply sqrt_pow2. lra. Qed.
Lemma arcosh_cosh r : 0 <= r -> e15 <= sinh r ^ 2 -> arcosh (cosh r) = r.
Proof.
  intros H E. rewrite arcoshE, up_regular, sqrt_cosh, cosh_sinh by (auto; pose proof (cosh2 r); lra). apply ln_exp.
Qed.
Lemma exp_arcosh a : 1 <= a -> e15 <= a ^ 2 - 1 -> exp (arcosh a) = a + sqrt (a ^ 2 - 1) /\ exp (- arcosh a) = a - sqrt (a ^ 2 - 1).
Proof.
  intros A E. rewrite arcoshE, exp_Ropp, exp_ln by (pose proof (up_gt1 a A); lra). rewrite up_regular by auto. split; auto.
  assert (S : sqrt (a ^ 2 - 1) * sqrt (a ^ 2 - 1) = a ^ 2 - 1) by (apply sqrt_sqrt; pose proof e15_pos; lra).
  pose proof (sqrt_pos (a ^ 2 - 1)). apply Rmult_eq_reg_l with (a + sqrt (a ^ 2 - 1)); [|lra]. rewrite Rinv_r by lra. nra.
Qed.
Lemma cosh_arcosh a : 1 <= a -> e15 <= a ^ 2 - 1 -> cosh (arcosh a) = a.
Proof. intros A E. unfold cosh. destruct (exp_arcosh a A E) as [-> ->]. lra. Qed.
Lemma sinh_arcosh a : 1 <= a -> e15 <= a ^ 2 - 1 -> sinh (arcosh a) = sqrt (a ^ 2 - 1).
Proof. intros A E. unfold sinh. destruct (exp_arcosh a A E) as [-> ->]. lra. Qed.
Lemma arcosh_triangle a b c : 1 <= a -> 1 <= b -> 1 <= c ->
  c <= a * b + sqrt (a ^ 2 - 1) * sqrt (b ^ 2 - 1) -> arcosh c <= arcosh a + arcosh b.
Proof.
  intros A B C H. rewrite !arcoshE. pose proof (up_gt1 a A) as UA. pose proof (up_gt1 b B) as UB. pose proof (up_gt1 c C) as UC.
  rewrite <- ln_mult by lra.
  assert (U : up c <= up a * up b); [|destruct U as [U|U]; [apply Rlt_le, ln_increasing; lra|rewrite U; lra]].
  pose proof (up_ge a A) as GA. pose proof (up_ge b B) as GB. pose proof sqe15 as D.
  assert (DD : sqrt e15 * sqrt e15 = e15) by (apply sqrt_sqrt; pose proof e15_pos; lra).
  destruct (Rle_dec e15 (c ^ 2 - 1)) as [R|R].
  - rewrite (up_regular c R).
    set (sa := sqrt (a ^ 2 - 1)) in *. set (sb := sqrt (b ^ 2 - 1)) in *.
    assert (SA : sa * sa = a ^ 2 - 1) by (apply sqrt_sqrt; nra). assert (SB : sb * sb = b ^ 2 - 1) by (apply sqrt_sqrt; nra).
    assert (PA : 0 <= sa) by apply sqrt_pos. assert (PB : 0 <= sb) by apply sqrt_pos.
    assert (LA : a + sa <= up a) by (unfold up, sa; apply Rplus_le_compat_l, sqrt_le_1_alt, Rmax_l).
    assert (LB : b + sb <= up b) by (unfold up, sb; apply Rplus_le_compat_l, sqrt_le_1_alt, Rmax_l).
    assert (SC : sqrt (c ^ 2 - 1) <= a * sb + b * sa).
    { rewrite <- (sqrt_pow2 (a * sb + b * sa)) by nra. apply sqrt_le_1_alt.
      replace ((a * sb + b * sa) ^ 2) with ((a * b + sa * sb) ^ 2 - 1) by nra. nra. }
    apply Rle_trans with ((a + sa) * (b + sb)); [nra|]. apply Rmult_le_compat; lra.
  - assert (E : up c = c + sqrt e15) by (unfold up; rewrite Rmax_right by lra; reflexivity). rewrite E.
    apply Rle_trans with ((1 + sqrt e15) * (1 + sqrt e15)); [|apply Rmult_le_compat; lra].
    assert (c <= 1 + sqrt e15). { apply Rsqr_incr_0_var; unfold Rsqr; nra. } nra.
Qed.

Lemma Rsum_head n (f : nat -> R) : Rsum (S n) f = f O + Rsum n (fun i => f (S i)).
Proof. induction n; [simpl; lra|]. change (Rsum (S (S n)) f) with (Rsum (S n) f + f (S n)). rewrite IHn. simpl. lra. Qed.

Section Ops.
  Variables (d : nat) (k : R).
  Hypothesis K : 0 < k.
  Notation mkd := (minkowski d).
  Notation hc := (hyp_cos d k).
  Notation hyp := (on_hyperboloid d k).
  Lemma sqk : 0 < sqrt k. Proof. apply sqrt_lt_R0, K. Qed.
  Lemma sqk2 : sqrt k * sqrt k = k. Proof. apply sqrt_sqrt. lra. Qed.

  (** * Projections *)
  Lemma project_on x : hyp (project d k x).
  Proof.
    pose proof (dot_nonneg d (tl x)). unfold project. split.
    - unfold minkowski, cat. rewrite sqrt_sqrt by (rewrite nrm_sq2; lra). rewrite nrm_sq2. unfold dot. lra.
    - unfold cat. apply sqrt_lt_R0. rewrite nrm_sq2. lra.
  Qed.
  Lemma project_space x i : project d k x (S i) = x (S i).
  Proof. reflexivity. Qed.
  Lemma project_fix x : hyp x -> project d k x = x.
  Proof.
    intros X. pose proof (hyp_time d k x X) as T. destruct X as [_ P]. apply vec_ext. intros [|i]; [|reflexivity].
    unfold project, cat. rewrite nrm_sq2, <- T. apply sqrt_square. lra.
  Qed.
  Lemma proju_tangent x v : hyp x -> tangent d x (project_u d k x v).
  Proof. intros [X _]. unfold tangent, project_u. rewrite innerE. mk. rewrite X. field. lra. Qed.
  Lemma proju_fix x v : tangent d x v -> project_u d k x v = v.
  Proof. intros T. unfold project_u. rewrite innerE, T. veq. lra. Qed.
  (** orthogonal projection: the difference is normal to every tangent vector *)
  Lemma proju_orth x v w : tangent d x w -> mkd (project_u d k x v) w = mkd v w.
  Proof. intros T. unfold tangent in T. unfold project_u. mk. rewrite T. ring. Qed.

  (** * Norm *)
  Lemma normE u : e8 <= mkd u u -> norm d u = sqrt (mkd u u).
  Proof. intros H. unfold norm, clamp_min. rewrite innerE, Rmax_left by lra. reflexivity. Qed.
  Lemma norm_pos u : 0 < norm d u.
  Proof. unfold norm, clamp_min. apply sqrt_lt_R0. pose proof (Rmax_r (inner d u u) e8). pose proof e8_pos. lra. Qed.
  Lemma norm_floor u : / 10 ^ 4 <= norm d u.
  Proof.
    unfold norm, clamp_min. replace (/ 10 ^ 4) with (sqrt e8). apply sqrt_le_1_alt, Rmax_r.
    unfold e8. replace (/ 10 ^ 8) with ((/ 10 ^ 4) ^ 2) by field. apply sqrt_pow2. lra.
  Qed.

  (** * Exponential map *)
  Section Exp.
    Variables (x u : vec).
    Hypothesis X : hyp x. Hypothesis U : tangent d x u. Hypothesis R : e8 <= mkd u u.
    Let n := sqrt (mkd u u).
    Let r := n / sqrt k.
    Lemma n_pos : 0 < n. Proof. apply sqrt_lt_R0. pose proof e8_pos. lra. Qed.
    Lemma n_sq : n * n = mkd u u. Proof. apply sqrt_sqrt. pose proof e8_pos. lra. Qed.
    Lemma r_pos : 0 < r. Proof. apply Rdiv_lt_0_compat; [apply n_pos|apply sqk]. Qed.
    Lemma exp_form : expmap d k x u = vadd (smul (cosh r) x) (smul (sqrt k * sinh r / n) u).
    Proof. unfold expmap. rewrite (normE u R). fold n. fold r. veq. field. pose proof n_pos. lra. Qed.
    Lemma exp_mk : mkd (expmap d k x u) (expmap d k x u) = - k.
    Proof.
      rewrite exp_form. mk. rewrite (mk_sym d u x). unfold tangent in U. rewrite U. destruct X as [-> _]. rewrite <- n_sq.
      pose proof n_pos. replace (cosh r * (cosh r * - k) + cosh r * (sqrt k * sinh r / n * 0) + (sqrt k * sinh r / n * (cosh r * 0) + sqrt k * sinh r / n * (sqrt k * sinh r / n * (n * n)))) with (- k * cosh r ^ 2 + (sqrt k * sqrt k) * sinh r ^ 2) by (field; lra).
      rewrite sqk2. pose proof (cosh2 r). nra.
    Qed.
    Lemma exp_hc : hc x (expmap d k x u) = cosh r.
    Proof. rewrite exp_form. unfold hyp_cos. mk. unfold tangent in U. rewrite U. destruct X as [-> _]. field. pose proof n_pos. lra. Qed.
    Lemma exp_on : hyp (expmap d k x u).
    Proof.
      split; [apply exp_mk|]. pose proof exp_hc as H. set (y := expmap d k x u) in *.
      destruct (Rlt_dec 0 (y O)) as [|N]; [auto|exfalso].
      pose proof exp_mk as M. fold y in M.
      assert (y O <> 0). { intros Z. rewrite (mk_split d) in M. rewrite Z in M. pose proof (dot_nonneg d (tl y)). lra. }
      assert (Y : hyp (smul (-1) y)). { split; [mk; lra|unfold smul; lra]. }
      pose proof (hc_ge1 d k K x _ X Y) as G. unfold hyp_cos in G, H. rewrite mk_smulr in G.
      replace (- (-1 * mkd x y) / k) with (- (- mkd x y / k)) in G by (field; lra). rewrite H in G. pose proof (cosh_pos r). lra.
    Qed.
  End Exp.
  Lemma l_exp x u nt pr : hyp x -> tangent d x u -> e8 <= mkd u u -> l_expmap d k nt pr x u = expmap d k x u.
  Proof.
    intros X U R. unfold l_expmap. assert (E : (if nt then project_u d k x u else u) = u) by (destruct nt; [apply proju_fix, U|reflexivity]).
    rewrite E. destruct pr; [|reflexivity]. apply project_fix, exp_on; auto.
  Qed.
  Lemma l_exp_on x u nt : hyp (l_expmap d k nt true x u).
  Proof. apply project_on. Qed.

  (** * Distance *)
  Lemma distE x y : dist d k x y = sqrt k * arcosh (hc x y).
  Proof. unfold dist. rewrite innerE. reflexivity. Qed.
  Lemma dist_sym x y : dist d k x y = dist d k y x.
  Proof. rewrite !distE, hc_sym. reflexivity. Qed.
  Lemma dist_pos x y : hyp x -> hyp y -> 0 < dist d k x y.
  Proof. intros X Y. rewrite distE. apply Rmult_lt_0_compat; [apply sqk|apply arcosh_pos, (hc_ge1 d k K); auto]. Qed.
  Lemma dist_self x : hyp x -> dist d k x x = sqrt k * ln (1 + sqrt (/ 10 ^ 15)).
  Proof.
    intros X. rewrite distE, (hc_self d k K x X), arcoshE. unfold up. rewrite Rmax_right by (pose proof e15_pos; lra). reflexivity.
  Qed.
  Lemma floor_pos : 0 < sqrt k * ln (1 + sqrt (/ 10 ^ 15)).
  Proof. apply Rmult_lt_0_compat; [apply sqk|]. rewrite <- ln_1. pose proof sqe15. unfold e15 in *. apply ln_increasing; lra. Qed.
  Lemma dist_floor x y : hyp x -> hyp y -> dist d k x x <= dist d k x y /\
    (dist d k x y = dist d k x x <-> forall i, (i <= d)%nat -> x i = y i).
  Proof.
    intros X Y. rewrite (dist_self x X). rewrite distE. destruct (arcosh_floor (hc x y) (hc_ge1 d k K x y X Y)) as [L E].
    pose proof sqk. unfold e15 in *. split; [apply Rmult_le_compat_l; lra|]. split.
    - intros H0. apply Rmult_eq_reg_l in H0; [|lra]. apply (hc_one d k K); auto.
    - intros S. replace (hc x y) with (hc x x).
      + rewrite (hc_self d k K x X), arcoshE. unfold up. rewrite Rmax_right by (pose proof e15_pos; lra). reflexivity.
      + unfold hyp_cos, minkowski. rewrite (S O) at 2 by lia. f_equal. f_equal. f_equal. apply Rsum_ext. intros i Hi. rewrite (S (Datatypes.S i)) at 2 by lia. reflexivity.
  Qed.
  Lemma dist_triangle x y z : hyp x -> hyp y -> hyp z -> dist d k x z <= dist d k x y + dist d k y z.
  Proof.
    intros X Y Z. rewrite !distE, <- Rmult_plus_distr_l. apply Rmult_le_compat_l; [pose proof sqk; lra|].
    apply arcosh_triangle; try (apply (hc_ge1 d k K); auto). apply (hc_triangle d k K); auto.
  Qed.

  (** * Logarithm *)
  Lemma nominE x y : vadd y (smul (1 / k * inner d x y) x) = perp d k x y.
  Proof. unfold perp. rewrite innerE. unfold hyp_cos. veq. field. lra. Qed.
  Lemma logE x y : logmap d k x y = smul (dist d k x y / norm d (perp d k x y)) (perp d k x y).
  Proof. unfold logmap. rewrite nominE. veq. unfold Rdiv. ring. Qed.
  Lemma log_tangent x y : hyp x -> tangent d x (logmap d k x y).
  Proof. intros X. unfold tangent. rewrite logE. mk. pose proof (perp_tangent d k K x y X) as T. unfold tangent in T. rewrite T. ring. Qed.
  Lemma perp_regular x y : hyp x -> hyp y -> apart d k x y -> norm d (perp d k x y) = sqrt k * sqrt (hc x y ^ 2 - 1).
  Proof.
    intros X Y [A B]. rewrite normE by (rewrite (perp_norm d k K x y X (proj1 Y)); unfold e8; lra).
    rewrite (perp_norm d k K x y X (proj1 Y)). apply sqrt_mult; lra.
  Qed.
  Lemma log_norm x y : hyp x -> hyp y -> apart d k x y -> mkd (logmap d k x y) (logmap d k x y) = dist d k x y ^ 2.
  Proof.
    intros X Y A. rewrite logE. mk. rewrite (perp_regular x y X Y A), (perp_norm d k K x y X (proj1 Y)).
    destruct A as [A _]. pose proof sqk. set (s := hc x y ^ 2 - 1) in *. assert (0 < s) by lra.
    assert (0 < sqrt s) by (apply sqrt_lt_R0; lra). assert (SS : sqrt s * sqrt s = s) by (apply sqrt_sqrt; lra).
    replace (k * s) with ((sqrt k * sqrt s) ^ 2) by (transitivity ((sqrt k * sqrt k) * (sqrt s * sqrt s)); [ring|rewrite SS, sqk2; ring]). field. lra.
  Qed.
  (** * Inverses *)
  Lemma exp_log x y nt pr : hyp x -> hyp y -> apart d k x y -> / 10 ^ 8 <= dist d k x y ^ 2 ->
    forall i, l_expmap d k nt pr x (logmap d k x y) i = y i.
  Proof.
    intros X Y A L i. pose proof (log_tangent x y X) as T. pose proof (log_norm x y X Y A) as N.
    rewrite (l_exp x _ nt pr X T) by (rewrite N; exact L). rewrite (exp_form x) by (rewrite N; exact L).
    rewrite N, sqrt_pow2 by (pose proof (dist_pos x y X Y); lra). pose proof sqk.
    rewrite logE, (perp_regular x y X Y A). rewrite !distE. pose proof (hc_ge1 d k K x y X Y) as G. destruct A as [A B].
    replace (sqrt k * arcosh (hc x y) / sqrt k) with (arcosh (hc x y)) by (field; lra).
    rewrite cosh_arcosh, sinh_arcosh by (unfold e15; auto). set (s := sqrt (hc x y ^ 2 - 1)).
    assert (0 < s) by (apply sqrt_lt_R0; lra). pose proof (arcosh_pos (hc x y) G).
    unfold vadd, smul, perp, vadd, smul. field. lra.
  Qed.
  Lemma perp_exp x u : hyp x -> tangent d x u -> e8 <= mkd u u ->
    perp d k x (expmap d k x u) = smul (sqrt k * sinh (sqrt (mkd u u) / sqrt k) / sqrt (mkd u u)) u.
  Proof. intros X U R. unfold perp. rewrite exp_hc by auto. rewrite exp_form by auto. veq. ring. Qed.
  Lemma exp_apart x u : hyp x -> tangent d x u -> e8 <= mkd u u -> e15 * k <= mkd u u -> apart d k x (expmap d k x u).
  Proof.
    intros X U R S. unfold apart. rewrite exp_hc by auto. set (r := _ / sqrt k).
    pose proof (r_pos u R) as P. fold r in P. pose proof (sinh_ge r ltac:(lra)) as G. pose proof (cosh2 r) as C.
    pose proof e8_pos. pose proof sqk. assert (RR : r ^ 2 = mkd u u / k).
    { unfold r, Rdiv. rewrite Rpow_mult_distr. rewrite pow2_sqrt by lra. rewrite <- Rinv_pow by lra. rewrite pow2_sqrt by lra. reflexivity. }
    assert (mkd u u / k <= cosh r ^ 2 - 1) by nra. fold e15 e8.
    assert (E15 : e15 <= mkd u u / k) by (apply (Rmult_le_reg_r k); [lra|]; unfold Rdiv; rewrite Rmult_assoc, Rinv_l by lra; lra).
    split; [lra|]. apply Rle_trans with (mkd u u); [lra|]. apply Rle_trans with (k * (mkd u u / k)); [right; field; lra|].
    apply Rmult_le_compat_l; lra.
  Qed.
  Lemma exp_dist x u : hyp x -> tangent d x u -> e8 <= mkd u u -> e15 * k <= mkd u u -> dist d k x (expmap d k x u) = sqrt (mkd u u).
  Proof.
    intros X U R S. destruct (exp_apart x u X U R S) as [A _]. rewrite distE, exp_hc in * by auto.
    pose proof (r_pos u R) as P. rewrite arcosh_cosh; [field; pose proof sqk; lra|lra|]. pose proof (cosh2 (sqrt (mkd u u) / sqrt k)). unfold e15. lra.
  Qed.
  Lemma log_exp x u nt pr : hyp x -> tangent d x u -> e8 <= mkd u u -> e15 * k <= mkd u u ->
    logmap d k x (l_expmap d k nt pr x u) = u.
  Proof.
    intros X U R S. rewrite (l_exp x u nt pr X U R). rewrite logE, (exp_dist x u X U R S).
    rewrite (perp_regular x _ X (exp_on x u X U R) (exp_apart x u X U R S)), exp_hc, perp_exp by auto.
    pose proof (r_pos u R) as P. rewrite sqrt_cosh by lra. pose proof (sinh_pos _ P). pose proof sqk. pose proof (n_pos u R).
    veq. field. lra.
  Qed.

  (** * Parallel transport *)
  Lemma perp_swap x y v : tangent d x v -> mkd (perp d k x y) v = mkd y v.
  Proof. intros T. unfold tangent in T. unfold perp. mk. rewrite T. ring. Qed.
  Lemma norm_perp_sym x y : hyp x -> hyp y -> norm d (perp d k y x) = norm d (perp d k x y).
  Proof.
    intros X Y. unfold norm. rewrite !innerE, (perp_norm d k K x y X (proj1 Y)), (perp_norm d k K y x Y (proj1 X)), hc_sym. reflexivity.
  Qed.
  (** the distance cancels, so only the norm's clamp matters *)
  Lemma transp_form x y v : hyp x -> hyp y -> tangent d x v ->
    parallel_transport d k x y v = vsub v (smul (mkd y v * (1 - hc x y) / norm d (perp d k x y) ^ 2) (vadd x y)).
  Proof.
    intros X Y T. unfold parallel_transport. rewrite innerE, !logE. mk. rewrite (perp_swap x y v T), (norm_perp_sym x y X Y), (dist_sym y x).
    pose proof (dist_pos x y X Y). pose proof (norm_pos (perp d k x y)). set (N := norm d (perp d k x y)) in *. unfold perp. rewrite (hc_sym d k y x). veq. field. lra.
  Qed.
  Lemma transp_regular x y v : hyp x -> hyp y -> tangent d x v -> e8 <= k * (hc x y ^ 2 - 1) ->
    parallel_transport d k x y v = vadd v (smul (mkd y v / (k * (1 + hc x y))) (vadd x y)).
  Proof.
    intros X Y T R. rewrite transp_form by auto. pose proof (hc_ge1 d k K x y X Y). pose proof e8_pos.
    rewrite normE by (rewrite (perp_norm d k K x y X (proj1 Y)); exact R). rewrite (perp_norm d k K x y X (proj1 Y)).
    rewrite pow2_sqrt by lra. assert (hc x y <> 1) by (intros E; rewrite E in R; lra).
    assert (hc x y ^ 2 - 1 <> 0) by nra. veq. field. lra.
  Qed.
  Lemma transp_tangent x y v : hyp x -> hyp y -> tangent d x v -> e8 <= k * (hc x y ^ 2 - 1) ->
    tangent d y (parallel_transport d k x y v).
  Proof.
    intros X Y T R. rewrite transp_regular by auto. pose proof (hc_ge1 d k K x y X Y). unfold tangent. mk. rewrite (mk_sym d y x).
    rewrite (hc_mk d k K x y). destruct Y as [-> _]. field. lra.
  Qed.
  Lemma transp_isometry x y v w : hyp x -> hyp y -> tangent d x v -> tangent d x w -> e8 <= k * (hc x y ^ 2 - 1) ->
    mkd (parallel_transport d k x y v) (parallel_transport d k x y w) = mkd v w.
  Proof.
    intros X Y V W R. rewrite !transp_regular by auto. pose proof (hc_ge1 d k K x y X Y). unfold tangent in V, W. mk.
    rewrite (mk_sym d v x), (mk_sym d y x), V, W, (mk_sym d v y), !(hc_mk d k K x y). destruct X as [-> _], Y as [-> _]. field. lra.
  Qed.
  (** the direction towards y becomes minus the direction back *)
  Lemma transp_velocity x y : hyp x -> hyp y -> e8 <= k * (hc x y ^ 2 - 1) ->
    parallel_transport d k x y (logmap d k x y) = smul (-1) (logmap d k y x).
  Proof.
    intros X Y R. rewrite transp_regular by (auto; apply log_tangent; auto). pose proof (hc_ge1 d k K x y X Y).
    rewrite !logE, (norm_perp_sym x y X Y), (dist_sym y x). mk.
    assert (E : mkd y (perp d k x y) = k * (hc x y ^ 2 - 1)).
    { unfold perp. mk. rewrite (mk_sym d y x), (hc_mk d k K x y). destruct Y as [-> _]. ring. }
    rewrite E. pose proof (norm_pos (perp d k x y)). set (N := norm d (perp d k x y)) in *. unfold perp. rewrite (hc_sym d k y x). veq. field. lra.
  Qed.
  Lemma transp_self x v : hyp x -> tangent d x v -> parallel_transport d k x x v = v.
  Proof. intros X T. rewrite transp_form, (hc_self d k K x X) by auto. unfold tangent in T. veq. unfold Rdiv. rewrite T. ring. Qed.

  (** * Operations at the origin are the general ones *)
  Notation o := (origin k).
  Lemma origin_on : hyp o.
  Proof.
    split; [|simpl; apply sqk]. unfold minkowski, origin. rewrite (Rsum_ext d _ (fun _ => 0)) by (intros; lra). rewrite Rsum_zero, sqk2. lra.
  Qed.
  Lemma inner0E v : inner0 k v = inner d o v.
  Proof. rewrite innerE. unfold inner0, minkowski, origin. rewrite (Rsum_ext d _ (fun _ => 0)) by (intros; lra). rewrite Rsum_zero. lra. Qed.
  Lemma dist0E x : dist0 k x = dist d k o x.
  Proof. unfold dist0, dist. rewrite inner0E. reflexivity. Qed.
  Lemma expmap0E u : expmap0 d k u = expmap d k o u.
  Proof. unfold expmap0, expmap. apply vec_ext. intros [|i]; unfold cat, tl, vadd, vdiv, smul, origin; unfold Rdiv; ring. Qed.
  Lemma logmap0E y : logmap0 d k y = logmap d k o y.
  Proof.
    unfold logmap0, logmap. rewrite dist0E, inner0E.
    replace (vadd y (smul (1 / k * inner d o y) o)) with (cat (1 / k * inner d o y * sqrt k + y O) (tl y)); [reflexivity|].
    apply vec_ext. intros [|i]; unfold cat, tl, vadd, smul, origin; ring.
  Qed.
  Lemma logmap0backE x : logmap0back d k x = logmap d k x o.
  Proof.
    unfold logmap0back, logmap. rewrite dist0E, dist_sym, inner0E.
    replace (inner d x o) with (inner d o x) by (rewrite !innerE; apply mk_sym).
    replace (vadd o (smul (1 / k * inner d o x) x)) with (cat (smul (1 / k * inner d o x) x O + sqrt k) (tl (smul (1 / k * inner d o x) x))); [reflexivity|].
    apply vec_ext. intros [|i]; unfold cat, tl, vadd, smul, origin; ring.
  Qed.
  Lemma transp0E y v : parallel_transport0 d k y v = parallel_transport d k o y v.
  Proof. unfold parallel_transport0, parallel_transport. rewrite logmap0E, logmap0backE, dist0E. reflexivity. Qed.
  Lemma transp0backE x v : parallel_transport0back d k x v = parallel_transport d k x o v.
  Proof. unfold parallel_transport0back, parallel_transport. rewrite logmap0E, logmap0backE, dist0E, dist_sym. reflexivity. Qed.

  (** * Unit-speed geodesics *)
  Lemma geo_hc x u s t : hyp x -> tangent d x u -> mkd u u = 1 ->
    hc (geodesic_unit k s x u) (geodesic_unit k t x u) = cosh ((s - t) / sqrt k).
  Proof.
    intros [X P] T U. unfold tangent in T. unfold hyp_cos, geodesic_unit. mk. rewrite (mk_sym d u x), X, T, U.
    replace ((s - t) / sqrt k) with (s / sqrt k - t / sqrt k) by (field; pose proof sqk; lra). rewrite cosh_minus.
    set (cs := cosh (s / sqrt k)). set (ct := cosh (t / sqrt k)). set (ss := sinh (s / sqrt k)). set (st := sinh (t / sqrt k)).
    replace (sqrt k * st * (sqrt k * ss * 1)) with (sqrt k * sqrt k * (ss * st)) by ring. rewrite sqk2. field. lra.
  Qed.
  Lemma geo_on x u t : hyp x -> tangent d x u -> mkd u u = 1 -> hyp (geodesic_unit k t x u).
  Proof.
    intros X T U. pose proof (geo_hc x u t t X T U) as H. replace ((t - t) / sqrt k) with 0 in H by (field; pose proof sqk; lra).
    assert (C0 : cosh 0 = 1) by (unfold cosh; rewrite Ropp_0, exp_0; lra). rewrite C0 in H. set (y := geodesic_unit k t x u) in *.
    assert (M : mkd y y = - k) by (rewrite (hc_mk d k K y y), H; lra). split; [exact M|].
    destruct (Rlt_dec 0 (y O)) as [|N]; [auto|exfalso].
    assert (y O <> 0). { intros Z. rewrite (mk_split d) in M. rewrite Z in M. pose proof (dot_nonneg d (tl y)). lra. }
    assert (Y : hyp (smul (-1) y)) by (split; [mk; lra|unfold smul; lra]).
    pose proof (hc_ge1 d k K x _ X Y) as G. pose proof (geo_hc x u 0 t X T U) as H1. fold y in H1.
    assert (E0 : geodesic_unit k 0 x u = x).
    { unfold geodesic_unit. replace (0 / sqrt k) with 0 by (field; pose proof sqk; lra). rewrite C0.
      assert (S0 : sinh 0 = 0) by (unfold sinh; rewrite Ropp_0; lra). rewrite S0. veq. ring. }
    rewrite E0 in H1. unfold hyp_cos in G, H1. rewrite mk_smulr in G.
    replace (- (-1 * mkd x y) / k) with (- (- mkd x y / k)) in G by (field; lra). rewrite H1 in G. pose proof (cosh_pos ((0 - t) / sqrt k)). lra.
  Qed.
  Lemma geo_dist x u s t : hyp x -> tangent d x u -> mkd u u = 1 -> e15 * k <= (s - t) ^ 2 ->
    dist d k (geodesic_unit k s x u) (geodesic_unit k t x u) = Rabs (s - t).
  Proof.
    intros X T U R. rewrite distE, (geo_hc x u s t X T U). pose proof sqk.
    replace (cosh ((s - t) / sqrt k)) with (cosh (Rabs (s - t) / sqrt k)).
    2:{ rewrite <- (cosh_even ((s - t) / sqrt k)). f_equal. unfold Rdiv. rewrite Rabs_mult, (Rabs_right (/ sqrt k)); [reflexivity|]. apply Rle_ge, Rlt_le, Rinv_0_lt_compat; lra. }
    set (a := Rabs (s - t)). assert (A : 0 <= a) by apply Rabs_pos. assert (AA : a ^ 2 = (s - t) ^ 2) by apply pow2_abs.
    assert (P : 0 <= a / sqrt k) by (apply Rmult_le_pos; [lra|apply Rlt_le, Rinv_0_lt_compat; lra]).
    rewrite arcosh_cosh; [field; lra|exact P|]. pose proof (sinh_ge _ P) as G.
    apply Rle_trans with ((a / sqrt k) ^ 2); [|nra]. apply (Rmult_le_reg_r k); [lra|].
    replace ((a / sqrt k) ^ 2 * k) with (a ^ 2); [lra|]. transitivity ((a / sqrt k) ^ 2 * (sqrt k * sqrt k)); [field; lra|rewrite sqk2; reflexivity].
  Qed.
  Lemma geo_project x u t : hyp x -> tangent d x u -> mkd u u = 1 -> forall pr, l_geodesic_unit d k pr t x u = geodesic_unit k t x u.
  Proof. intros X T U []; [|reflexivity]. apply project_fix, geo_on; auto. Qed.
  Lemma geo_exp x u t : hyp x -> tangent d x u -> mkd u u = 1 -> 0 < t -> e8 <= t ^ 2 -> geodesic_unit k t x u = expmap d k x (smul t u).
  Proof.
    intros X T U P R. assert (M : mkd (smul t u) (smul t u) = t ^ 2) by (mk; rewrite U; ring).
    rewrite exp_form by (rewrite M; exact R). rewrite M, sqrt_pow2 by lra. unfold geodesic_unit. veq. field. lra.
  Qed.

  (** * Gradient *)
  Lemma flip_mk g v : mkd (flip g) v = pairing d g v.
  Proof. unfold minkowski, flip, pairing. unfold dot. rewrite Rsum_head. lra. Qed.
  Lemma rgrad_tangent x g : hyp x -> tangent d x (snd (egrad2rgrad d k x g)).
  Proof. intros X. simpl. apply (proju_tangent x (flip g) X). Qed.
  Lemma rgrad_gradient x g v : tangent d x v -> mkd (snd (egrad2rgrad d k x g)) v = pairing d g v.
  Proof. intros T. simpl. rewrite <- flip_mk. apply (proju_orth x (flip g) v T). Qed.
  Lemma flip_flip g : flip (flip g) = g.
  Proof. apply vec_ext. intros [|i]; unfold flip; ring. Qed.
End Ops.
