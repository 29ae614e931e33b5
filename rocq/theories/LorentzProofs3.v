(** Lemmas for the Lorentz model: degenerate inputs, checks, conversions, sampling. *)
From Coq Require Import Reals List ZArith Lra Lia Ranalysis.
From Verif Require Import RVec StereoModel LorentzModel LorentzSpec LorentzProofs LorentzProofs2.
Local Open Scope R_scope.

Lemma cosh_der c : derivable_pt_lim sinh c (cosh c). Proof. apply derivable_pt_lim_sinh. Qed.
Lemma sinh_mvt a b : a < b -> exists c, sinh b - sinh a = cosh c * (b - a) /\ a < c < b.
Proof. intros L. apply MVT_cor2; [exact L|]. intros c _. apply cosh_der. Qed.
Lemma cosh_mono a b : 0 <= a -> a <= b -> cosh a <= cosh b.
Proof.
  intros A B. pose proof (cosh2 a). pose proof (cosh2 b).
  assert (S : sinh a <= sinh b).
  { destruct B as [B| ->]; [|lra]. destruct (sinh_mvt a b B) as [c [E _]]. pose proof (cosh_pos c). nra. }
  assert (0 <= sinh a). { pose proof (sinh_ge a A). lra. }
  pose proof (cosh_pos a). pose proof (cosh_pos b). nra.
Qed.
Lemma sinh_0 : sinh 0 = 0. Proof. unfold sinh. rewrite Ropp_0. lra. Qed.
Lemma sinh_star t a : 0 <= t <= 1 -> 0 <= a -> sinh (t * a) <= t * sinh a.
Proof.
  intros [T0 T1] A. destruct A as [A|<-]; [|rewrite Rmult_0_r, sinh_0; lra].
  destruct T0 as [T0|<-]; [|rewrite Rmult_0_l, sinh_0; lra].
  destruct T1 as [T1| ->]; [|rewrite !Rmult_1_l; lra].
  destruct (sinh_mvt 0 (t * a)) as [c1 [E1 [L1 M1]]]; [nra|].
  destruct (sinh_mvt (t * a) a) as [c2 [E2 [L2 M2]]]; [nra|].
  rewrite sinh_0 in E1. assert (cosh c1 <= cosh c2) by (apply cosh_mono; lra).
  pose proof (cosh_pos c1). assert (HH : cosh c1 * (a - t * a) <= cosh c2 * (a - t * a)) by (apply Rmult_le_compat_r; nra).
  assert (sinh (t * a) = cosh c1 * (t * a)) by lra. assert (sinh a >= cosh c1 * a) by nra. nra.
Qed.

Section Deg.
  Variables (d : nat) (k : R).
  Hypothesis K : 0 < k.
  Notation hyp := (on_hyperboloid d k).
  Notation mkd := (minkowski d).
  Notation hc := (hyp_cos d k).
  Notation o := (origin k).

  Lemma sq4 : sqrt e8 = / 10 ^ 4.
  Proof. replace e8 with ((/ 10 ^ 4) ^ 2) by (unfold e8; field). apply sqrt_pow2. apply Rlt_le, Rinv_0_lt_compat. lra. Qed.
  Lemma norm_small u : mkd u u <= e8 -> norm d u = / 10 ^ 4.
  Proof. intros L. unfold norm, clamp_min. rewrite innerE, Rmax_right by exact L. apply sq4. Qed.
  Lemma mk_zero : mkd vzero vzero = 0.
  Proof. unfold minkowski, vzero. rewrite (Rsum_ext d _ (fun _ => 0)) by (intros; ring). rewrite Rsum_zero. ring. Qed.
  Lemma exp_zero x : expmap d k x vzero = smul (cosh (/ 10 ^ 4 / sqrt k)) x.
  Proof. unfold expmap. rewrite norm_small by (rewrite mk_zero; pose proof e8_pos; lra). veq. unfold vzero, Rdiv. ring. Qed.
  Lemma factor : 1 < cosh (/ 10 ^ 4 / sqrt k).
  Proof. apply cosh_gt1. pose proof (sqk k K). apply Rgt_not_eq, Rdiv_lt_0_compat; [apply Rinv_0_lt_compat|]; lra. Qed.
  Lemma l_exp_zero x nt : forall i, l_expmap d k nt true x vzero (S i) = cosh (/ 10 ^ 4 / sqrt k) * x (S i).
  Proof.
    intros i. unfold l_expmap. assert (Z : project_u d k x vzero = vzero).
    { apply proju_fix. unfold tangent, minkowski, vzero. rewrite (Rsum_ext d _ (fun _ => 0)) by (intros; ring). rewrite Rsum_zero. ring. }
    rewrite project_space. destruct nt; [rewrite Z|]; rewrite exp_zero; reflexivity.
  Qed.
  Lemma exp_zero_iff x nt : hyp x ->
    ((forall i, (i <= d)%nat -> l_expmap d k nt true x vzero i = x i) <-> (forall i, (i <= d)%nat -> x i = o i)).
  Proof.
    intros X. pose proof factor as F. split; intros H.
    - assert (Z : forall i, (i < d)%nat -> x (S i) = 0).
      { intros i L. specialize (H (S i) L). rewrite l_exp_zero in H. nra. }
      intros [|i] L; [|apply Z; lia]. unfold origin. destruct X as [X P]. rewrite mk_split in X.
      assert (Z0 : dot d (tl x) (tl x) = 0).
      { unfold dot. rewrite (Rsum_ext d _ (fun _ => 0)); [apply Rsum_zero|]. intros j J. unfold tl. rewrite Z by lia. ring. }
      rewrite Z0 in X. symmetry; apply sqrt_lem_1; nra.
    - assert (Z : forall i, (i < d)%nat -> x (S i) = 0) by (intros i L; rewrite H by lia; reflexivity).
      intros [|i] L; [|rewrite l_exp_zero, (Z i) by lia; ring].
      assert (Q : hyp (l_expmap d k nt true x vzero)) by (apply l_exp_on; exact K).
      destruct X as [X P], Q as [Q QP]. rewrite mk_split in X, Q.
      assert (E : dot d (tl (l_expmap d k nt true x vzero)) (tl (l_expmap d k nt true x vzero)) = dot d (tl x) (tl x)).
      { unfold dot. apply Rsum_ext. intros j J. unfold tl. rewrite l_exp_zero, Z by lia. ring. }
      rewrite E in Q. nra.
  Qed.

  (** * Membership check *)
  Lemma checkE a r x : check_point d k a r x <-> Rabs (mkd x x + k) <= a + r * k.
  Proof.
    unfold check_point. replace (- (x O ^ 2) + Rsum d (tl (fun i => x i ^ 2))) with (mkd x x).
    - rewrite Rabs_Ropp, (Rabs_right k) by lra. replace (mkd x x - - k) with (mkd x x + k) by ring. tauto.
    - unfold minkowski, tl. rewrite (Rsum_ext d (fun i => x (S i) ^ 2) (fun i => x (S i) * x (S i))) by (intros; ring). ring.
  Qed.
  Lemma check_exact x : 0 < x O -> (check_point d k 0 0 x <-> hyp x).
  Proof.
    intros P. rewrite checkE. unfold on_hyperboloid. split.
    - intros H. split; [|exact P]. pose proof (Rabs_pos (mkd x x + k)). assert (Z : Rabs (mkd x x + k) = 0) by lra.
      destruct (Req_dec (mkd x x + k) 0); [lra|]. apply Rabs_no_R0 in H1. contradiction.
    - intros [M _]. rewrite M. replace (- k + k) with 0 by ring. rewrite Rabs_R0. lra.
  Qed.
  Lemma check_opp a r x : check_point d k a r x <-> check_point d k a r (vopp x).
  Proof. rewrite !checkE. rewrite vopp_smul, mk_smull, mk_smulr. replace (-1 * (-1 * mkd x x)) with (mkd x x) by ring. tauto. Qed.
  Lemma check_vectorE a r x u : check_vector d a r x u <-> Rabs (mkd x u) <= a.
  Proof. unfold check_vector. rewrite innerE, (mk_sym d u x), Rabs_R0, Rminus_0_r, Rmult_0_r, Rplus_0_r. tauto. Qed.

  (** * Gradient conversion, twice on the same tensor *)
  Lemma second_call x g : snd (egrad2rgrad d k x (fst (egrad2rgrad d k x g))) = project_u d k x g.
  Proof. simpl. rewrite flip_flip. reflexivity. Qed.
  Lemma first_call x g : snd (egrad2rgrad d k x g) = project_u d k x (flip g).
  Proof. reflexivity. Qed.
  Lemma flip_diff x g i : project_u d k x (flip g) i - project_u d k x g i =
    -2 * g O * ((match i with O => 1 | _ => 0 end) - x O * x i / k).
  Proof.
    unfold project_u, vadd, smul, vdiv. rewrite !innerE.
    assert (E : mkd x (flip g) = mkd x g + 2 * x O * g O) by (unfold minkowski, flip; ring).
    rewrite E. destruct i; unfold flip; field; lra.
  Qed.
  Lemma calls_agree x g : hyp x ->
    ((forall i, (i <= d)%nat -> snd (egrad2rgrad d k x (fst (egrad2rgrad d k x g))) i = snd (egrad2rgrad d k x g) i)
     <-> g O = 0 \/ (forall i, (i < d)%nat -> x (S i) = 0)).
  Proof.
    intros X. rewrite second_call, first_call. pose proof (hyp_time d k x X) as T. split.
    - intros H. pose proof (flip_diff x g O) as D. rewrite H in D by lia.
      destruct (Req_dec (g O) 0) as [|N]; [auto|right].
      assert (Q : 1 - x O * x O / k = 0) by (apply (Rmult_eq_reg_l (-2 * g O)); [|nra]; lra).
      rewrite T in Q. replace (1 - (k + dot d (tl x) (tl x)) / k) with (- dot d (tl x) (tl x) / k) in Q by (field; lra).
      assert (Z : dot d (tl x) (tl x) = 0).
      { apply (Rmult_eq_reg_r (- / k)); [|apply Ropp_neq_0_compat, Rinv_neq_0_compat; lra]. unfold Rdiv in Q. lra. }
      intros i L. unfold dot in Z. pose proof (Rsum_nonneg_zero d (fun i => tl x i * tl x i)) as S.
      specialize (S (fun i _ => Rle_0_sqr (tl x i)) Z i L). unfold tl in S. simpl in S. nra.
    - intros H i L. pose proof (flip_diff x g i) as D. destruct H as [H|H].
      + rewrite H in D. replace (-2 * 0 * _) with 0 in D by ring. lra.
      + assert (Z : dot d (tl x) (tl x) = 0).
        { unfold dot. rewrite (Rsum_ext d _ (fun _ => 0)); [apply Rsum_zero|]. intros j J. unfold tl. rewrite H by lia. ring. }
        destruct i as [|i]; [|rewrite H in D by lia].
        * rewrite T, Z in D. replace (1 - (k + 0) / k) with 0 in D by (field; lra). lra.
        * replace (0 - x O * 0 / k) with 0 in D by (field; lra). lra.
  Qed.

  (** * Polar coordinates *)
  Lemma polar_mk x : dot d x x = 1 -> mkd (project_polar d k x) (project_polar d k x) = - k + (k - 1) * cosh (x d / sqrt k) ^ 2.
  Proof.
    intros U. rewrite mk_split. unfold project_polar. set (r := x d / sqrt k).
    replace (tl (cat (cosh r) (smul (sqrt k * sinh r) x))) with (smul (sqrt k * sinh r) x) by reflexivity.
    unfold cat. pose proof (cosh2 r) as C.
    replace (dot d (smul (sqrt k * sinh r) x) (smul (sqrt k * sinh r) x)) with ((sqrt k * sqrt k) * sinh r ^ 2 * dot d x x) by (vexp; ring).
    rewrite (sqk2 k K), U. nra.
  Qed.
  Lemma polar_iff x : dot d x x = 1 -> (hyp (project_polar d k x) <-> k = 1).
  Proof.
    intros U. unfold on_hyperboloid. rewrite (polar_mk x U). pose proof (cosh_pos (x d / sqrt k)) as C. split.
    - intros [M _]. assert (Z : (k - 1) * cosh (x d / sqrt k) ^ 2 = 0) by lra. apply Rmult_integral in Z. destruct Z; nra.
    - intros E. split; [rewrite E; ring|exact C].
  Qed.

  (** * Conversions *)
  Lemma l2p_p2l eps p : 0 <= eps -> dot d p p < 1 -> lorentz_to_poincare k (poincare_to_lorentz d k eps p) = vdiv p (1 + eps / 2).
  Proof.
    intros E B. apply vec_ext. intros i. pose proof (sqk k K). unfold lorentz_to_poincare, poincare_to_lorentz, tl, vdiv, smul, cat.
    set (s := dot d p p) in *. field. repeat split; try lra. 
    apply Rgt_not_eq. assert (0 < 2 + eps) by lra. nra.
  Qed.
  Lemma p2l_mk eps p : 0 <= eps -> dot d p p < 1 ->
    mkd (poincare_to_lorentz d k eps p) (poincare_to_lorentz d k eps p) = - k * ((1 - dot d p p) / (1 - dot d p p + eps)) ^ 2.
  Proof.
    intros E B. unfold poincare_to_lorentz. set (s := dot d p p) in *. rewrite vdiv_smul. rewrite !mk_smull, !mk_smulr, mk_split.
    replace (tl (cat (1 + s) (smul 2 p))) with (smul 2 p) by reflexivity. unfold cat.
    replace (dot d (smul 2 p) (smul 2 p)) with (4 * s) by (unfold s; vexp; ring).
    transitivity ((sqrt k * sqrt k) * (4 * s - (1 + s) * (1 + s)) / (1 - s + eps) ^ 2); [field; lra|]. rewrite (sqk2 k K). field. lra.
  Qed.
  Lemma p2l_time eps p : 0 <= eps -> dot d p p < 1 -> 0 < poincare_to_lorentz d k eps p O.
  Proof.
    intros E B. unfold poincare_to_lorentz, vdiv, smul, cat. pose proof (sqk k K). pose proof (dot_nonneg d p).
    apply Rdiv_lt_0_compat; [apply Rmult_lt_0_compat|]; lra.
  Qed.
  Lemma p2l_iff eps p : 0 <= eps -> dot d p p < 1 -> (hyp (poincare_to_lorentz d k eps p) <-> eps = 0).
  Proof.
    intros E B. unfold on_hyperboloid. rewrite (p2l_mk eps p E B). pose proof (p2l_time eps p E B) as T. set (s := dot d p p) in *. split.
    - intros [M _]. assert (Q : ((1 - s) / (1 - s + eps)) ^ 2 = 1) by nra.
      assert (W : (1 - s) ^ 2 = (1 - s + eps) ^ 2).
      { transitivity (((1 - s) / (1 - s + eps)) ^ 2 * (1 - s + eps) ^ 2); [field; lra|rewrite Q; ring]. } nra.
    - intros ->. split; [|exact T]. rewrite Rplus_0_r. field. lra.
  Qed.
  Lemma l2p_sq x : hyp x -> dot d (lorentz_to_poincare k x) (lorentz_to_poincare k x) = (x O - sqrt k) / (x O + sqrt k).
  Proof.
    intros X. pose proof (hyp_time d k x X) as T. pose proof (sqk k K). destruct X as [_ P]. unfold lorentz_to_poincare. rewrite vdiv_smul.
    replace (dot d (smul (/ (x O + sqrt k)) (tl x)) (smul (/ (x O + sqrt k)) (tl x))) with (/ (x O + sqrt k) * / (x O + sqrt k) * dot d (tl x) (tl x)) by (vexp; ring).
    replace (dot d (tl x) (tl x)) with (x O * x O - sqrt k * sqrt k) by (rewrite (sqk2 k K); lra). field. lra.
  Qed.
  Lemma l2p_ball x : hyp x -> dot d (lorentz_to_poincare k x) (lorentz_to_poincare k x) < 1.
  Proof.
    intros X. rewrite (l2p_sq x X). pose proof (sqk k K). destruct X as [_ P]. apply (Rmult_lt_reg_r (x O + sqrt k)); [lra|].
    unfold Rdiv. rewrite Rmult_assoc, Rinv_l, Rmult_1_r by lra. lra.
  Qed.
  Lemma p2l_l2p eps x : 0 <= eps -> hyp x ->
    poincare_to_lorentz d k eps (lorentz_to_poincare k x) = vdiv x (1 + eps * (x O + sqrt k) / (2 * sqrt k)).
  Proof.
    intros E X. pose proof (l2p_sq x X) as S. pose proof (sqk k K). destruct X as [_ P]. unfold poincare_to_lorentz. rewrite S.
    assert (0 <= eps * (x O + sqrt k)) by nra.
    apply vec_ext. intros [|i]; unfold vdiv, smul, cat, lorentz_to_poincare, tl; unfold vdiv; field; repeat split; lra.
  Qed.
  (** the hyperboloid angle in ball coordinates *)
  Lemma ball_hc p q : dot d p p < 1 -> dot d q q < 1 ->
    hc (poincare_to_lorentz d k 0 p) (poincare_to_lorentz d k 0 q) =
    1 + 2 * dot d (vsub p q) (vsub p q) / ((1 - dot d p p) * (1 - dot d q q)).
  Proof.
    intros P Q. unfold hyp_cos, poincare_to_lorentz. set (s := dot d p p) in *. set (t := dot d q q) in *.
    rewrite !vdiv_smul, !mk_smull, !mk_smulr, mk_split.
    replace (tl (cat (1 + s) (smul 2 p))) with (smul 2 p) by reflexivity. replace (tl (cat (1 + t) (smul 2 q))) with (smul 2 q) by reflexivity. unfold cat.
    replace (dot d (smul 2 p) (smul 2 q)) with (4 * dot d p q) by (vexp; ring).
    replace (dot d (vsub p q) (vsub p q)) with (s + t - 2 * dot d p q).
    2:{ unfold s, t, dot, vsub. rewrite <- Rsum_plus, <- Rsum_scal, <- Rsum_minus. apply Rsum_ext. intros. ring. }
    transitivity ((sqrt k * sqrt k) * ((1 + s) * (1 + t) - 4 * dot d p q) / ((1 - s) * (1 - t)) / k); [field; lra|]. rewrite (sqk2 k K). field. lra.
  Qed.

  (** * Sampling *)
  Lemma random_on mean std z : hyp (random_normal d k mean std z).
  Proof. unfold random_normal, l_expmap0. apply project_on. exact K. Qed.
  Lemma random_std z s : 0 < s -> random_normal d k 0 s z = random_normal d k 0 1 z.
  Proof.
    intros SP. unfold random_normal. f_equal.
    replace (fun i => z i * s + 0) with (smul s z) by (apply vec_ext; intros; unfold smul; ring).
    replace (fun i => z i * 1 + 0) with z by (apply vec_ext; intros; ring).
    assert (N : nrm (S d) (smul s z) = s * nrm (S d) z).
    { unfold nrm. replace (dot (S d) (smul s z) (smul s z)) with (s ^ 2 * dot (S d) z z) by (unfold dot, smul; rewrite <- Rsum_scal; apply Rsum_ext; intros; ring).
      rewrite sqrt_mult by (try apply dot_nonneg; nra). rewrite sqrt_pow2 by lra. reflexivity. }
    rewrite N. veq. destruct (Req_dec (nrm (S d) z) 0) as [Z|Z]; [|field; split; [exact Z|lra]].
    rewrite Z, Rmult_0_r. unfold Rdiv. rewrite Rinv_0. ring.
  Qed.
  (** the radius of a point in the chart at the origin *)
  Lemma hc_origin x : hc o x = x O / sqrt k.
  Proof.
    unfold hyp_cos, minkowski, origin. rewrite (Rsum_ext d _ (fun _ => 0)) by (intros; ring). rewrite Rsum_zero.
    pose proof (sqk k K). transitivity (sqrt k * x O / (sqrt k * sqrt k)); [rewrite (sqk2 k K); field; lra|field; lra].
  Qed.
  Lemma random_radius mean std z : nrm (S d) (fun i => z i * std + mean) <> 0 ->
    hc o (random_normal d k mean std z) <= cosh (1 / sqrt k).
  Proof.
    intros NZ. rewrite hc_origin. unfold random_normal. set (w := fun i => z i * std + mean) in *. set (u := vdiv w (nrm (S d) w)).
    assert (U : dot (S d) u u = 1).
    { unfold u. rewrite vdiv_smul. replace (dot (S d) (smul (/ nrm (S d) w) w) (smul (/ nrm (S d) w) w)) with (/ nrm (S d) w * / nrm (S d) w * dot (S d) w w)
        by (unfold dot, smul; rewrite <- Rsum_scal; apply Rsum_ext; intros; ring).
      rewrite <- (nrm_sq2 (S d) w). field. exact NZ. }
    unfold dot in U. rewrite Rsum_head in U. fold (dot d (fun i => u (S i)) (fun i => u (S i))) in U. fold (tl u) in U.
    pose proof (dot_nonneg d (tl u)) as P. pose proof (sqk k K) as SK.
    unfold l_expmap0, project. unfold cat at 1. set (n := norm d u).
    assert (N0 : 0 < n) by apply norm_pos.
    assert (N1 : n <= 1).
    { unfold n, norm. rewrite innerE, mk_split, <- sqrt_1. apply sqrt_le_1_alt. unfold clamp_min. apply Rmax_lub; [nra|unfold e8; apply Rle_trans with (/ 1); [apply Rinv_le_contravar; lra|lra]]. }
    assert (T : tl (expmap0 d k u) = smul (sqrt k * sinh (n / sqrt k) / n) (tl u)).
    { unfold expmap0. fold n. apply vec_ext. intros i. unfold tl, cat, vdiv, smul. field. lra. }
    rewrite T. rewrite nrm_sq2.
    set (a := 1 / sqrt k). assert (A : 0 < a) by (apply Rdiv_lt_0_compat; lra).
    pose proof (sinh_star n a (conj (Rlt_le _ _ N0) N1) (Rlt_le _ _ A)) as SS.
    replace (n / sqrt k) with (n * a) by (unfold a; field; lra).
    pose proof (sinh_pos (n * a) ltac:(nra)) as SP. set (q := sinh (n * a) / n).
    assert (Q0 : 0 <= q) by (apply Rlt_le, Rdiv_lt_0_compat; lra).
    assert (Q : q <= sinh a). { unfold q. apply (Rmult_le_reg_r n); [exact N0|]. unfold Rdiv. rewrite Rmult_assoc, Rinv_l by lra. lra. }
    replace (dot d (smul (sqrt k * sinh (n * a) / n) (tl u)) (smul (sqrt k * sinh (n * a) / n) (tl u))) with ((sqrt k * sqrt k) * (q * q) * dot d (tl u) (tl u)).
    2:{ replace (sqrt k * sinh (n * a) / n) with (sqrt k * q) by (unfold q; field; lra). vexp. ring. }
    rewrite (sqk2 k K).
    assert (D : dot d (tl u) (tl u) <= 1) by nra.
    assert (W : q * q * dot d (tl u) (tl u) <= sinh a ^ 2).
    { apply Rle_trans with (q * q * 1); [apply Rmult_le_compat_l; nra|]. nra. }
    pose proof (cosh2 a) as C. pose proof (cosh_pos a) as CP.
    apply (Rmult_le_reg_r (sqrt k)); [exact SK|]. replace (sqrt (k + k * (q * q) * dot d (tl u) (tl u)) / sqrt k * sqrt k) with (sqrt (k + k * (q * q) * dot d (tl u) (tl u))) by (field; lra).
    replace (cosh a * sqrt k) with (sqrt (k * cosh a ^ 2)).
    - apply sqrt_le_1_alt. nra.
    - rewrite sqrt_mult by nra. rewrite sqrt_pow2 by lra. ring.
  Qed.
  Lemma up_mono a b : 1 <= a -> a <= b -> up a <= up b.
  Proof. intros A B. unfold up. apply Rplus_le_compat; [lra|]. apply sqrt_le_1_alt. unfold clamp_min. apply Rle_max_compat_r. nra. Qed.
  Lemma random_dist mean std z : e15 * k <= 1 -> nrm (S d) (fun i => z i * std + mean) <> 0 ->
    dist d k o (random_normal d k mean std z) <= 1.
  Proof.
    intros SM NZ. pose proof (random_radius mean std z NZ) as L. pose proof (sqk k K) as SK.
    pose proof (hc_ge1 d k K o _ (origin_on d k K) (random_on mean std z)) as G.
    rewrite distE. set (h := hc o _) in *. set (a := 1 / sqrt k) in *. assert (A : 0 < a) by (apply Rdiv_lt_0_compat; lra).
    assert (M : arcosh h <= arcosh (cosh a)).
    { rewrite !arcoshE. pose proof (up_mono h (cosh a) G L). pose proof (up_gt1 h G). destruct H as [H|H]; [left; apply ln_increasing; lra|rewrite H; lra]. }
    assert (S : e15 <= sinh a ^ 2).
    { apply Rle_trans with (a ^ 2); [|pose proof (sinh_ge a (Rlt_le _ _ A)); nra].
      apply (Rmult_le_reg_r k); [exact K|]. replace (a ^ 2 * k) with 1; [exact SM|].
      unfold a. transitivity ((sqrt k * sqrt k) * (1 / sqrt k) ^ 2); [field; lra|rewrite (sqk2 k K); ring]. }
    rewrite arcosh_cosh in M by (try exact S; lra).
    apply Rle_trans with (sqrt k * a); [apply Rmult_le_compat_l; lra|]. unfold a. right. field. lra.
  Qed.
End Deg.

Lemma axis_last rank : (1 <= rank)%nat -> axis rank (-1) = Some (rank - 1)%nat.
Proof.
  intros L. unfold axis. change ((0 <=? -1)%Z) with false. replace ((- Z.of_nat rank <=? -1)%Z) with true by (symmetry; apply Z.leb_le; lia).
  cbn [andb]. change ((-1 <? 0)%Z) with true. cbn [andb]. f_equal. lia.
Qed.
Lemma axis_one rank : axis rank 1 = if (2 <=? rank)%nat then Some 1%nat else None.
Proof.
  unfold axis. change ((0 <=? 1)%Z) with true. change ((1 <? 0)%Z) with false. rewrite Bool.andb_false_r. cbn [andb].
  destruct (Nat.leb_spec 2 rank); [replace ((1 <? Z.of_nat rank)%Z) with true by (symmetry; apply Z.ltb_lt; lia)|
    replace ((1 <? Z.of_nat rank)%Z) with false by (symmetry; apply Z.ltb_ge; lia)]; reflexivity.
Qed.
Lemma axes_agree rank : (1 <= rank)%nat -> (fst (narrowed_axes rank (-1)) = snd (narrowed_axes rank (-1)) <-> rank = 2%nat).
Proof.
  intros L. unfold narrowed_axes. cbn [fst snd]. change (- (-1))%Z with 1%Z. rewrite axis_last, axis_one by exact L.
  destruct (Nat.leb_spec 2 rank); split; intros E; try lia; try discriminate; [injection E; lia|subst; reflexivity].
Qed.
Lemma axes_vector : snd (narrowed_axes 1 (-1)) = None. Proof. reflexivity. Qed.

(** A concrete pair of points of the hyperboloid, and a unit tangent vector. *)
Definition pt : vec := fun i => match i with O => 5 / 4 | 1%nat => 3 / 4 | _ => 0 end.
Definition up_v : vec := fun i => match i with 2%nat => 1 | _ => 0 end.
Lemma ex_hyp : on_hyperboloid 2 1 pt /\ on_hyperboloid 2 1 (origin 1) /\ tangent 2 pt up_v /\ minkowski 2 up_v up_v = 1.
Proof.
  split; [|split; [apply origin_on; lra|]]; unfold on_hyperboloid, tangent, minkowski, Rsum, pt, up_v; cbn -[Rmult Rplus]; lra.
Qed.
Lemma ex_hc : hyp_cos 2 1 pt (origin 1) = 5 / 4.
Proof. unfold hyp_cos, minkowski, Rsum, pt, origin; cbn -[Rmult Rplus]. rewrite sqrt_1. lra. Qed.
Lemma ex_apart : apart 2 1 pt (origin 1) /\ / 10 ^ 8 <= dist 2 1 pt (origin 1) ^ 2.
Proof.
  split.
  - unfold apart. rewrite ex_hc.
    assert (/ 10 ^ 15 <= / 2) by (apply Rinv_le_contravar; lra). assert (/ 10 ^ 8 <= / 2) by (apply Rinv_le_contravar; lra). lra.
  - rewrite distE by lra. rewrite ex_hc, sqrt_1, Rmult_1_l, arcoshE. unfold up, clamp_min.
    assert (E : e15 <= / 2) by (unfold e15; apply Rinv_le_contravar; lra).
    rewrite Rmax_left by lra. replace ((5 / 4) ^ 2 - 1) with ((3 / 4) ^ 2) by field. rewrite sqrt_pow2 by lra.
    replace (5 / 4 + 3 / 4) with 2 by field. pose proof ln_lt_2.
    assert (/ 10 ^ 8 <= / 4) by (apply Rinv_le_contravar; lra). nra.
Qed.
Lemma ex_exp : / 10 ^ 8 <= minkowski 2 up_v up_v /\ / 10 ^ 15 * 1 <= minkowski 2 up_v up_v.
Proof. destruct ex_hyp as [_ [_ [_ ->]]]. assert (/ 10 ^ 15 <= / 1) by (apply Rinv_le_contravar; lra). assert (/ 10 ^ 8 <= / 1) by (apply Rinv_le_contravar; lra). lra. Qed.
Lemma ex_polar : dot 2 (fun i => match i with O => 3 / 5 | 1%nat => 4 / 5 | _ => 7 end) (fun i => match i with O => 3 / 5 | 1%nat => 4 / 5 | _ => 7 end) = 1.
Proof. unfold dot, Rsum; cbn -[Rmult Rplus]. lra. Qed.
Lemma ex_ball : dot 2 (fun i => match i with O => 1 / 2 | 1%nat => 1 / 2 | _ => 7 end) (fun i => match i with O => 1 / 2 | 1%nat => 1 / 2 | _ => 7 end) < 1.
Proof. unfold dot, Rsum; cbn -[Rmult Rplus]. lra. Qed.
Lemma exp_zero_moves nt : l_expmap 2 1 nt true pt vzero 1%nat <> pt 1%nat.
Proof. rewrite l_exp_zero. pose proof (factor 1 Rlt_0_1). unfold pt. intros H1. lra. Qed.
Lemma lower_sheet d k a r : 0 < k -> 0 <= a -> 0 <= r -> check_point d k a r (vopp (origin k)) /\ ~ on_hyperboloid d k (vopp (origin k)).
Proof.
  intros K A B. split.
  - apply (proj1 (check_opp d k K a r _)). apply (checkE d k K). pose proof (origin_on d k K) as [M _]. rewrite M. replace (- k + k) with 0 by ring. rewrite Rabs_R0. nra.
  - intros [_ P]. pose proof (sqk k K). unfold vopp, origin in P. lra.
Qed.
Lemma grad_mutates x g d k : g O <> 0 -> fst (egrad2rgrad d k x g) <> g.
Proof. intros N E. apply (f_equal (fun f => f O)) in E. simpl in E. lra. Qed.
Lemma grad_twice : exists i, (i <= 2)%nat /\
  snd (egrad2rgrad 2 1 pt (fst (egrad2rgrad 2 1 pt (fun _ => 1)))) i <> snd (egrad2rgrad 2 1 pt (fun _ => 1)) i.
Proof.
  exists O. split; [lia|]. rewrite second_call, first_call. intros E.
  pose proof (flip_diff 2 1 Rlt_0_1 pt (fun _ => 1) O) as D. unfold pt at 3 4 in D. rewrite E in D. lra.
Qed.

Lemma dist_cosh d k x y : 0 < k -> on_hyperboloid d k x -> on_hyperboloid d k y ->
  / 10 ^ 15 <= hyp_cos d k x y ^ 2 - 1 ->
  0 < dist d k x y /\ cosh (dist d k x y / sqrt k) = hyp_cos d k x y.
Proof.
  intros K X Y R. split; [apply dist_pos; auto|]. rewrite distE. pose proof (sqk k K).
  replace (sqrt k * arcosh (hyp_cos d k x y) / sqrt k) with (arcosh (hyp_cos d k x y)) by (field; lra).
  apply cosh_arcosh; [apply hc_ge1; auto|exact R].
Qed.
Lemma origin_versions d k x u v : 0 < k ->
  inner0 k v = inner d (origin k) v /\ dist0 k x = dist d k (origin k) x /\
  expmap0 d k u = expmap d k (origin k) u /\ logmap0 d k x = logmap d k (origin k) x /\
  logmap0back d k x = logmap d k x (origin k) /\
  parallel_transport0 d k x v = parallel_transport d k (origin k) x v /\
  parallel_transport0back d k x v = parallel_transport d k x (origin k) v.
Proof.
  intros K. repeat split; [apply inner0E|apply dist0E|apply expmap0E|apply logmap0E|apply logmap0backE|apply transp0E|apply transp0backE].
Qed.
Lemma follow_expmap d k x u v w proj : 0 < k -> on_hyperboloid d k x -> tangent d x u -> tangent d x v -> tangent d x w ->
  / 10 ^ 8 <= minkowski d u u -> let y := l_expmap d k true proj x u in
  tangent d y (transp_follow_expmap d k proj x u v) /\
  minkowski d (transp_follow_expmap d k proj x u v) (transp_follow_expmap d k proj x u w) = minkowski d v w.
Proof.
  intros K X U V W R. cbv zeta. unfold transp_follow_expmap. rewrite (l_exp d k K x u true proj X U R).
  pose proof (exp_on d k K x u X U R) as Y.
  assert (G : / 10 ^ 8 <= k * (hyp_cos d k x (expmap d k x u) ^ 2 - 1)).
  { rewrite (exp_hc d k K x u X U R). set (r := _ / sqrt k). pose proof (r_pos d k K u R) as P. fold r in P. pose proof (sinh_ge r ltac:(lra)) as S.
    pose proof (cosh2 r) as C. assert (RR : k * r ^ 2 = minkowski d u u).
    { unfold r, Rdiv. rewrite Rpow_mult_distr. pose proof (sqrt_lt_R0 k K). rewrite pow2_sqrt by (pose proof e8_pos; unfold e8 in *; lra). rewrite pow_inv, pow2_sqrt by lra. field. lra. }
    apply Rle_trans with (k * r ^ 2); [lra|]. apply Rmult_le_compat_l; [lra|nra]. }
  split; [apply transp_tangent; assumption|apply transp_isometry; assumption].
Qed.
