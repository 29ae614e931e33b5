(** Sphere: exponential, logarithm, distance; subspace construction; checks. *)
From Coq Require Import Reals Lra Lia List Bool Psatz.
From Verif Require Import RVec StereoSpec SphereModel SphereSpec SphereProofs.
From Verif Require StereoModel StereoTrig.
Import ListNotations.
Local Open Scope R_scope.

Lemma acos_le a b : -1 <= a -> a <= b -> b <= 1 -> acos b <= acos a.
Proof.
  intros Ha H Hb. destruct (Rle_dec (acos b) (acos a)); auto. exfalso.
  assert (cos (acos b) < cos (acos a)).
  { apply cos_decreasing_1; try apply acos_bound; lra. }
  rewrite !cos_acos in H0 by lra. lra.
Qed.
Lemma acos_lt a b : -1 <= a -> a < b -> b <= 1 -> acos b < acos a.
Proof.
  intros Ha H Hb. destruct (acos_le a b) as [|E]; try lra.
  assert (cos (acos b) = cos (acos a)) by (rewrite E; auto).
  rewrite !cos_acos in H0 by lra. lra.
Qed.
Lemma cos_ge_quad e : 0 < e -> 1 - e * e / 2 <= cos e.
Proof.
  intros He. replace e with (2 * (e / 2)) at 3 by field. rewrite cos_2a_sin.
  assert (S : sin (e/2) <= e/2) by (left; apply sin_lt_x; lra).
  destruct (Rle_dec (e/2) 1) as [L|L].
  - assert (0 <= sin (e/2)).
    { apply sin_ge_0; [lra|]. pose proof PI_RGT_0. pose proof PI2_3_2. unfold PI2 in *. lra. }
    nra.
  - pose proof (SIN_bound (e/2)). nra.
Qed.
Lemma acos_1m_gt e : 0 < e <= 1 -> e < acos (1 - e).
Proof.
  intros [H0 H1]. pose proof (cos_ge_quad e H0) as C.
  assert (1 - e < cos e) by nra.
  assert (E : acos (cos e) = e).
  { apply acos_cos. pose proof PI2_3_2. unfold PI2 in *. lra. }
  rewrite <- E at 1. apply acos_lt; try lra. apply COS_bound.
Qed.

(** Angle triangle inequality for unit vectors. *)
Lemma angle_triangle n x y z : dot n x x = 1 -> dot n y y = 1 -> dot n z z = 1 ->
  acos (dot n x z) <= acos (dot n x y) + acos (dot n y z).
Proof.
  intros Hx Hy Hz.
  pose proof (cs_unit n x y Hx Hy) as B1. pose proof (cs_unit n y z Hy Hz) as B2.
  pose proof (cs_unit n x z Hx Hz) as B3.
  set (p := dot n x y) in *. set (q := dot n y z) in *. set (r := dot n x z) in *.
  destruct (Rle_dec (acos p + acos q) PI) as [L|L];
    [|pose proof (acos_bound r); lra].
  assert (G : (r - p * q) * (r - p * q) <= (1 - p * p) * (1 - q * q)).
  { pose proof (cauchy_schwarz n (vsub x (smul p y)) (vsub z (smul q y))) as C.
    vexp_in C. rewrite (dot_comm n y x), (dot_comm n z y), Hx, Hy, Hz in C.
    fold p q r in C. nra. }
  assert (K : cos (acos p + acos q) <= r).
  { rewrite cos_plus, !cos_acos, !sin_acos by lra.
    rewrite <- sqrt_mult by (unfold Rsqr; nra).
    destruct (Rle_dec (p * q) r); [pose proof (sqrt_pos ((1 - p²) * (1 - q²))); lra|].
    assert (p * q - r <= sqrt ((1 - p²) * (1 - q²))); [|lra].
    rewrite <- (sqrt_Rsqr (p * q - r)) by lra. apply sqrt_le_1_alt. unfold Rsqr. nra. }
  rewrite <- (acos_cos (acos p + acos q)).
  - apply acos_le; [apply COS_bound|auto|lra].
  - pose proof (acos_bound p). pose proof (acos_bound q). lra.
Qed.

Section D.
  Variable n : nat.
  Variable P : option mat.
  Variable eps : R.
  Hypothesis VP : valid_subspace n P.
  Hypothesis He : 0 < eps <= / 2.

  Lemma dist_sym x y : dist n eps x y = dist n eps y x.
  Proof. unfold dist, inner. rewrite dot_comm. reflexivity. Qed.
  Lemma dist_bounds x y : acos (1 - eps) <= dist n eps x y <= acos (-1 + eps).
  Proof.
    unfold dist. pose proof (StereoTrig.clamp_range (-1+eps) (1-eps) (inner n x x y) ltac:(lra)).
    split; apply acos_le; lra.
  Qed.
  Lemma dist_gt_eps x y : eps < dist n eps x y.
  Proof. pose proof (dist_bounds x y). pose proof (acos_1m_gt eps). lra. Qed.
  Lemma dist_exact x y : Rabs (dot n x y) <= 1 - eps -> dist n eps x y = acos (dot n x y).
  Proof.
    intros H. unfold dist, inner. rewrite StereoTrig.clamp_id; auto.
    pose proof (Rle_abs (dot n x y)). pose proof (Rle_abs (- dot n x y)).
    rewrite Rabs_Ropp in *. lra.
  Qed.
  (** The clamped distance is the angle moved into [acos(1-eps), pi - acos(1-eps)]. *)
  Lemma dist_clamped x y : dot n x x = 1 -> dot n y y = 1 ->
    dist n eps x y = Rmin (Rmax (acos (dot n x y)) (acos (1 - eps))) (PI - acos (1 - eps)).
  Proof.
    intros Hx Hy. pose proof (cs_unit n x y Hx Hy) as B. unfold dist, inner, StereoModel.clamp.
    set (c := dot n x y) in *.
    assert (O : PI - acos (1 - eps) = acos (-1 + eps)).
    { replace (-1 + eps) with (- (1 - eps)) by ring. rewrite acos_opp. reflexivity. }
    rewrite O.
    assert (M : acos (1 - eps) <= acos (-1 + eps)) by (apply acos_le; lra).
    destruct (Rle_dec c (1 - eps)); [destruct (Rle_dec (-1 + eps) c)|].
    - assert (acos (1 - eps) <= acos c) by (apply acos_le; lra).
      assert (acos c <= acos (-1 + eps)) by (apply acos_le; lra).
      rewrite (Rmax_left c), (Rmin_left c), (Rmax_left (acos c)), (Rmin_left (acos c)) by lra; auto.
    - assert (acos (-1 + eps) <= acos c) by (apply acos_le; lra).
      rewrite (Rmax_right c), (Rmin_left (-1+eps)), (Rmax_left (acos c)), (Rmin_right (acos c)) by lra; auto.
    - assert (acos c <= acos (1 - eps)) by (apply acos_le; lra).
      rewrite (Rmax_left c), (Rmin_right c), (Rmax_right (acos c)), (Rmin_left (acos (1-eps))) by lra; auto.
  Qed.
  Lemma dist_triangle x y z : dot n x x = 1 -> dot n y y = 1 -> dot n z z = 1 ->
    dist n eps x z <= dist n eps x y + dist n eps y z.
  Proof.
    intros Hx Hy Hz. rewrite !dist_clamped by auto. pose proof (angle_triangle n x y z Hx Hy Hz).
    pose proof (acos_bound (1 - eps)).
    pose proof (acos_bound (dot n x z)).
    assert (acos (1 - eps) <= PI - acos (1 - eps)).
    { assert (acos (1 - eps) <= acos 0) by (apply acos_le; lra). rewrite acos_0 in *. lra. }
    revert H H0 H1 H2. generalize (acos (dot n x z)) (acos (dot n x y)) (acos (dot n y z)) (acos (1 - eps)).
    intros. unfold Rmin, Rmax. repeat destruct (Rle_dec _ _); lra.
  Qed.
  Lemma dist_iso f x y : (forall u v, dot n (f u) (f v) = dot n u v) ->
    dist n eps (f x) (f y) = dist n eps x y.
  Proof. intros H. unfold dist, inner. rewrite H. reflexivity. Qed.

  Lemma log_dir x y : on_sphere n P x -> on_sphere n P y ->
    same n (proju n P x (vsub y x)) (vsub y (smul (dot n x y) x)).
  Proof.
    intros [Hx Sx] [Hy Sy]. unfold proju. vexp. rewrite Hx.
    replace (vsub (vsub y x) (smul (dot n x y - 1) x)) with (vsub y (smul (dot n x y) x))
      by (veq; ring).
    apply in_sub_iff; auto. apply in_sub; auto. apply in_smul; auto.
  Qed.
  Lemma log_dir_sq x y : dot n x x = 1 -> dot n y y = 1 ->
    nrm n (vsub y (smul (dot n x y) x)) = sqrt (1 - (dot n x y)²).
  Proof.
    intros Hx Hy. unfold nrm. f_equal. vexp. rewrite (dot_comm n y x), Hx, Hy. unfold Rsqr. ring.
  Qed.
  Lemma sin_big c : Rabs c <= 1 - eps -> eps <= sqrt (1 - c²).
  Proof.
    intros H. rewrite <- (sqrt_Rsqr eps) by lra. apply sqrt_le_1_alt.
    rewrite (Rsqr_abs c). unfold Rsqr. pose proof (Rabs_pos c). nra.
  Qed.
  Lemma rabs_range c : Rabs c <= 1 - eps -> -1 <= c <= 1.
  Proof.
    intros H. pose proof (Rle_abs c). pose proof (Rle_abs (- c)). rewrite Rabs_Ropp in *. lra.
  Qed.
  Lemma log_formula x y : on_sphere n P x -> on_sphere n P y -> Rabs (dot n x y) <= 1 - eps ->
    same n (logmap n P eps x y)
      (smul (acos (dot n x y) / sqrt (1 - (dot n x y)²)) (vsub y (smul (dot n x y) x))).
  Proof.
    intros Hx Hy Hc. pose proof (log_dir x y Hx Hy) as S. unfold logmap. cbv zeta.
    destruct (Rlt_dec eps (dist n eps x y)) as [_|N]; [|exfalso; apply N, dist_gt_eps].
    intros i Hi. unfold vdiv, smul at 1. rewrite S by auto. rewrite (nrm_same n _ _ S).
    rewrite log_dir_sq by (apply Hx || apply Hy). rewrite dist_exact by auto.
    pose proof (sin_big _ Hc). rewrite StereoTrig.clamp_min_id by auto.
    unfold smul. field. lra.
  Qed.
  Lemma log_tan x y : on_sphere n P x -> on_sphere n P y -> Rabs (dot n x y) <= 1 - eps ->
    tangent n P x (logmap n P eps x y).
  Proof.
    intros Hx Hy Hc. pose proof (log_formula x y Hx Hy Hc) as S. split.
    - rewrite (dot_same n x x _ _ (same_refl n x) S). vexp. rewrite (proj1 Hx). ring.
    - apply (in_cong n P _ _ (same_sym _ _ _ S)).
      destruct Hx, Hy. apply in_smul, in_sub; auto. apply in_smul; auto.
  Qed.
  Lemma log_norm x y : on_sphere n P x -> on_sphere n P y -> Rabs (dot n x y) <= 1 - eps ->
    nrm n (logmap n P eps x y) = dist n eps x y.
  Proof.
    intros Hx Hy Hc. pose proof (log_formula x y Hx Hy Hc) as S. rewrite (nrm_same n _ _ S).
    pose proof (sin_big _ Hc). pose proof (acos_bound (dot n x y)).
    rewrite nrm_smul, log_dir_sq, dist_exact by (auto; apply Hx || apply Hy).
    rewrite Rabs_right; [field; lra|]. apply Rle_ge, Rmult_le_pos; [lra|].
    left; apply Rinv_0_lt_compat; lra.
  Qed.
  Lemma exp_log x y : on_sphere n P x -> on_sphere n P y -> Rabs (dot n x y) <= 1 - eps ->
    same n (expmap n P eps x (logmap n P eps x y)) y.
  Proof.
    intros Hx Hy Hc. pose proof (log_formula x y Hx Hy Hc) as S.
    unfold expmap. cbv zeta. rewrite log_norm by auto.
    destruct (Rlt_dec eps (dist n eps x y)) as [L|N]; [|exfalso; apply N, dist_gt_eps].
    intros i Hi. unfold vadd, vdiv, smul. rewrite S by auto.
    rewrite dist_exact in * by auto. pose proof (sin_big _ Hc). pose proof (rabs_range _ Hc).
    rewrite cos_acos, sin_acos by lra. unfold smul, vsub. field. split; lra.
  Qed.
  Lemma log_exp x u : on_sphere n P x -> tangent n P x u ->
    eps < nrm n u < PI -> Rabs (cos (nrm n u)) <= 1 - eps ->
    same n (logmap n P eps x (expmap n P eps x u)) u.
  Proof.
    intros Hx Hu Ht Hc. pose proof (expmap_on n P VP eps x u ltac:(lra) Hx Hu) as Hy.
    assert (E : expmap n P eps x u =
      vadd (smul (cos (nrm n u)) x) (vdiv (smul (sin (nrm n u)) u) (nrm n u))).
    { unfold expmap. cbv zeta. destruct (Rlt_dec eps (nrm n u)); [auto|lra]. }
    assert (D : dot n x (expmap n P eps x u) = cos (nrm n u)).
    { rewrite E. vexp. destruct Hx as [H1 _], Hu as [H2 _]. rewrite H1, H2. field. lra. }
    assert (Hd : Rabs (dot n x (expmap n P eps x u)) <= 1 - eps) by (rewrite D; auto).
    eapply same_trans; [apply log_formula; auto|]. rewrite D, acos_cos by lra.
    assert (SN : sqrt (1 - (cos (nrm n u))²) = sin (nrm n u)).
    { rewrite <- (sqrt_Rsqr (sin (nrm n u))) by (apply sin_ge_0; lra). f_equal.
      rewrite sin2. reflexivity. }
    pose proof (sin_big _ Hc) as B. rewrite SN in *. rewrite E.
    intros i Hi. unfold smul, vsub, vadd, vdiv. field. split; lra.
  Qed.
  Lemma dist_exp x u : on_sphere n P x -> tangent n P x u ->
    eps < nrm n u < PI -> Rabs (cos (nrm n u)) <= 1 - eps ->
    dist n eps x (expmap n P eps x u) = nrm n u.
  Proof.
    intros Hx Hu Ht Hc. pose proof (expmap_on n P VP eps x u ltac:(lra) Hx Hu) as Hy.
    assert (D : dot n x (expmap n P eps x u) = cos (nrm n u)).
    { unfold expmap. cbv zeta. destruct (Rlt_dec eps (nrm n u)); [|lra].
      vexp. destruct Hx as [H1 _], Hu as [H2 _]. rewrite H1, H2. field. lra. }
    rewrite dist_exact, D by (rewrite D; auto). apply acos_cos. lra.
  Qed.
  Lemma dist_self x : dist n eps x x <> 0.
  Proof. pose proof (dist_gt_eps x x). lra. Qed.
End D.

(** ** subspaces from QR factors *)
Section Q.
  Variables n K : nat.
  Variable Q : mat.
  Hypothesis O : orthonormal n K Q.

  Lemma delta_sum m (f : nat -> R) b : (b < m)%nat ->
    Rsum m (fun a => (if Nat.eqb a b then 1 else 0) * f a) = f b.
  Proof.
    induction m; intros H; [lia|]. simpl. destruct (Nat.eq_dec b m) as [->|N].
    - rewrite Nat.eqb_refl. rewrite (Rsum_ext m _ (fun _ => 0)).
      + rewrite Rsum_zero. ring.
      + intros i Hi. destruct (Nat.eqb_spec i m); [lia|ring].
    - rewrite IHm by lia. destruct (Nat.eqb_spec m b); [lia|ring].
  Qed.

  Lemma inter_sym i j : projector_intersection K Q i j = projector_intersection K Q j i.
  Proof. unfold projector_intersection. apply Rsum_ext; intros; ring. Qed.
  Lemma inter_idem i j :
    Rsum n (fun k => projector_intersection K Q i k * projector_intersection K Q k j)
    = projector_intersection K Q i j.
  Proof.
    unfold projector_intersection.
    transitivity (Rsum n (fun k => Rsum K (fun a => Rsum K (fun b => Q i a * Q j b * (Q k a * Q k b))))).
    { apply Rsum_ext; intros k Hk. rewrite <- Rsum_scal_r. apply Rsum_ext; intros a Ha.
      rewrite <- Rsum_scal. apply Rsum_ext; intros; ring. }
    rewrite Rsum_swap. apply Rsum_ext; intros a Ha. rewrite Rsum_swap.
    transitivity (Rsum K (fun b => (if Nat.eqb b a then 1 else 0) * (Q i a * Q j b))).
    { apply Rsum_ext; intros b Hb. rewrite Rsum_scal, O by auto.
      rewrite Nat.eqb_sym. ring. }
    rewrite delta_sum by auto. reflexivity.
  Qed.
  Lemma inter_proj : orthogonal_projector n (projector_intersection K Q).
  Proof. split; intros; [apply inter_sym|apply inter_idem]. Qed.
  Lemma compl_proj : orthogonal_projector n (projector_complement K Q).
  Proof.
    split; intros i j Hi Hj; unfold projector_complement;
      change (fun k => - Rsum K (fun c => Q i c * Q k c) + (if (i =? k)%nat then 1 else 0)) with
        (fun k => - projector_intersection K Q i k + (if (i =? k)%nat then 1 else 0)).
    - rewrite Nat.eqb_sym. f_equal. f_equal. apply inter_sym.
    - transitivity (Rsum n (fun k => projector_intersection K Q i k * projector_intersection K Q k j)
        - Rsum n (fun k => (if Nat.eqb k j then 1 else 0) * projector_intersection K Q i k)
        - Rsum n (fun k => (if Nat.eqb k i then 1 else 0) * projector_intersection K Q k j)
        + Rsum n (fun k => (if Nat.eqb k i then 1 else 0) * (if Nat.eqb k j then 1 else 0))).
      { rewrite <- !Rsum_minus, <- Rsum_plus. apply Rsum_ext; intros k Hk.
        rewrite (Nat.eqb_sym i k). unfold projector_intersection. ring. }
      rewrite inter_idem, !delta_sum by auto. unfold projector_intersection. ring.
  Qed.
  Lemma inter_apply x j :
    applym n (projector_intersection K Q) x j = Rsum K (fun a => Q j a * Rsum n (fun i => Q i a * x i)).
  Proof.
    unfold applym, projector_intersection.
    transitivity (Rsum n (fun i => Rsum K (fun a => Q j a * Q i a * x i))).
    { apply Rsum_ext; intros. rewrite Rsum_scal_r. reflexivity. }
    rewrite Rsum_swap. apply Rsum_ext; intros a Ha. rewrite <- Rsum_scal.
    apply Rsum_ext; intros; ring.
  Qed.
  Lemma inter_space x : in_subspace n (Some (projector_intersection K Q)) x <-> in_span n K Q x.
  Proof.
    simpl. split.
    - intros H. exists (fun a => Rsum n (fun i => Q i a * x i)). intros i Hi.
      rewrite <- (H i Hi), inter_apply. reflexivity.
    - intros [c Hc] j Hj. rewrite inter_apply, Hc by auto.
      apply Rsum_ext; intros a Ha. f_equal.
      transitivity (Rsum n (fun i => Rsum K (fun b => Q i a * Q i b * c b))).
      { apply Rsum_ext; intros i Hi. rewrite Hc by auto. rewrite <- Rsum_scal.
        apply Rsum_ext; intros; ring. }
      rewrite Rsum_swap. transitivity (Rsum K (fun b => (if Nat.eqb b a then 1 else 0) * c b)).
      { apply Rsum_ext; intros b Hb. rewrite Rsum_scal_r, O by auto.
        rewrite Nat.eqb_sym. reflexivity. }
      apply delta_sum; auto.
  Qed.
  Lemma compl_apply x j : (j < n)%nat ->
    applym n (projector_complement K Q) x j = x j - applym n (projector_intersection K Q) x j.
  Proof.
    intros Hj. unfold applym.
    transitivity (Rsum n (fun i => (if Nat.eqb i j then 1 else 0) * x i)
      - Rsum n (fun i => projector_intersection K Q j i * x i)).
    - rewrite <- Rsum_minus. apply Rsum_ext; intros i Hi.
      unfold projector_complement, projector_intersection. rewrite (Nat.eqb_sym j i). ring.
    - rewrite delta_sum by auto. reflexivity.
  Qed.
  Lemma compl_space x : in_subspace n (Some (projector_complement K Q)) x <-> orthogonal_to n K Q x.
  Proof.
    simpl. split.
    - intros H a Ha.
      assert (Z : forall j, (j < n)%nat -> applym n (projector_intersection K Q) x j = 0).
      { intros j Hj. pose proof (H j Hj). rewrite compl_apply in H0 by auto. lra. }
      transitivity (Rsum n (fun j => Q j a * applym n (projector_intersection K Q) x j)).
      + transitivity (Rsum n (fun j => Rsum K (fun b => Q j a * Q j b * Rsum n (fun i => Q i b * x i)))).
        * rewrite Rsum_swap.
          transitivity (Rsum K (fun b => (if Nat.eqb b a then 1 else 0) * Rsum n (fun i => Q i b * x i))).
          { symmetry. apply (delta_sum K (fun b => Rsum n (fun i => Q i b * x i))); auto. }
          apply Rsum_ext; intros b Hb. rewrite Rsum_scal_r, O by auto.
          rewrite Nat.eqb_sym. reflexivity.
        * apply Rsum_ext; intros j Hj. rewrite inter_apply, <- Rsum_scal.
          apply Rsum_ext; intros; ring.
      + rewrite (Rsum_ext n _ (fun _ => 0)); [apply Rsum_zero|].
        intros j Hj. rewrite Z by auto. ring.
    - intros H j Hj. rewrite compl_apply, inter_apply by auto.
      rewrite (Rsum_ext K _ (fun _ => 0)); [rewrite Rsum_zero; ring|].
      intros a Ha. rewrite H by auto. ring.
  Qed.
End Q.

(** A rank-deficient [intersection] argument: the two equal columns e0, e0 of a
    3 x 2 matrix; its QR factor has 2 orthonormal columns e0, e1. *)
Definition Adef : mat := fun i c => if Nat.eqb i 0 then 1 else 0.
Definition Qdef : mat := fun i c => if Nat.eqb i c then 1 else 0.
Definition Rdef : mat := fun b a => if Nat.eqb b 0 then 1 else 0.
Lemma Qdef_qr : qr_of 3 2 Adef Qdef Rdef.
Proof.
  split.
  - intros a b Ha Hb. destruct a as [|[|]]; [| |lia]; (destruct b as [|[|]]; [| |lia]); cbn; ring.
  - intros i a Hi Ha. destruct i as [|[|[|]]]; [| | |lia]; cbn; ring.
Qed.
Definition e1v : vec := fun i => if Nat.eqb i 1 then 1 else 0.
Lemma rank_deficient : qr_of 3 2 Adef Qdef Rdef /\
  on_sphere 3 (Some (projector_intersection 2 Qdef)) e1v /\ ~ in_span 3 2 Adef e1v.
Proof.
  split; [apply Qdef_qr|]. split; [split|].
  - cbn. ring.
  - apply inter_space; [apply Qdef_qr|]. exists e1v. intros i Hi.
    destruct i as [|[|[|]]]; [| | |lia]; cbn; ring.
  - intros [c Hc]. specialize (Hc 1%nat ltac:(lia)). cbn in Hc. lra.
Qed.
(** With an invertible R the subspace is the one asked for. *)
Lemma qr_span n K A Q R Ri : qr_of n K A Q R ->
  (forall a b, (a < K)%nat -> (b < K)%nat ->
     Rsum K (fun c => R a c * Ri c b) = if Nat.eqb a b then 1 else 0) ->
  forall x, in_span n K Q x <-> in_span n K A x.
Proof.
  intros [O HA] HI x. split; intros [c Hc].
  - exists (fun a => Rsum K (fun b => Ri a b * c b)). intros i Hi. rewrite Hc by auto.
    symmetry.
    transitivity (Rsum K (fun a => Rsum K (fun b => Rsum K (fun d => Q i d * R d a * Ri a b * c b)))).
    { apply Rsum_ext; intros a Ha. rewrite HA, <- Rsum_scal by auto.
      apply Rsum_ext; intros b Hb. rewrite <- Rsum_scal_r. apply Rsum_ext; intros; ring. }
    rewrite Rsum_swap. apply Rsum_ext; intros b Hb. rewrite Rsum_swap.
    transitivity (Rsum K (fun d => (if Nat.eqb d b then 1 else 0) * (Q i d * c b))).
    { apply Rsum_ext; intros d Hd. rewrite <- HI by auto. rewrite <- Rsum_scal_r.
      apply Rsum_ext; intros; ring. }
    rewrite delta_sum by auto. reflexivity.
  - exists (fun b => Rsum K (fun a => R b a * c a)). intros i Hi. rewrite Hc by auto.
    transitivity (Rsum K (fun a => Rsum K (fun b => Q i b * R b a * c a))).
    { apply Rsum_ext; intros a Ha. rewrite HA, <- Rsum_scal_r by auto. reflexivity. }
    rewrite Rsum_swap. apply Rsum_ext; intros b Hb. rewrite <- Rsum_scal.
    apply Rsum_ext; intros; ring.
Qed.

(** ** checks *)
Lemma close_iff atol rtol a b :
  close atol rtol a b = true <-> Rabs (a - b) <= atol + rtol * Rabs b.
Proof. unfold close. destruct (Rle_dec _ _); split; intros; auto; discriminate || tauto. Qed.
Lemma allclose_iff n atol rtol a b : allclose n atol rtol a b = true <->
  forall i, (i < n)%nat -> Rabs (a i - b i) <= atol + rtol * Rabs (b i).
Proof.
  unfold allclose. rewrite forallb_forall. split.
  - intros H i Hi. apply close_iff, H, in_seq. lia.
  - intros H i Hi. apply in_seq in Hi. apply close_iff, H. lia.
Qed.
Lemma rabs_zero a b : Rabs (a - b) <= 0 + 0 * Rabs b -> a = b.
Proof.
  intros H. pose proof (Rle_abs (a - b)). pose proof (Rle_abs (- (a - b))).
  rewrite Rabs_Ropp in *. lra.
Qed.
Lemma check_point_exact n P x : check_point n P 0 0 x = true <-> on_sphere n P x.
Proof.
  unfold check_point, on_sphere. rewrite in_sub_iff. split.
  - destruct (close 0 0 (nrm n x) 1) eqn:C; [|discriminate]. intros H.
    apply close_iff, rabs_zero in C. split.
    + rewrite <- nrm_sq, C. ring.
    + intros i Hi. apply rabs_zero. apply (proj1 (allclose_iff _ _ _ _ _) H i Hi).
  - intros [H1 H2]. rewrite (unit_nrm n x H1).
    replace (close 0 0 1 1) with true.
    + apply allclose_iff. intros i Hi. rewrite H2 by auto.
      rewrite Rminus_diag_eq, Rabs_R0 by auto. lra.
    + symmetry. apply close_iff. rewrite Rminus_diag_eq, Rabs_R0 by auto. lra.
Qed.
(** The tangent check looks only at <x,u>. *)
Lemma check_vector_iff n x u : check_vector n 0 0 x u = true <-> dot n x u = 0.
Proof.
  unfold check_vector, inner. rewrite close_iff. split.
  - intros H. apply rabs_zero in H. auto.
  - intros ->. rewrite Rminus_diag_eq, Rabs_R0 by auto. lra.
Qed.
Lemma check_vector_weak : exists x u,
  on_sphere 3 (Some (projector_intersection 2 Qdef)) x /\
  check_vector 3 0 0 x u = true /\
  ~ tangent 3 (Some (projector_intersection 2 Qdef)) x u.
Proof.
  exists e1v, (fun i => if Nat.eqb i 2 then 1 else 0). split; [apply rank_deficient|]. split.
  - apply check_vector_iff. cbn. ring.
  - intros [_ H]. apply inter_space in H; [|apply Qdef_qr].
    destruct H as [c Hc]. specialize (Hc 2%nat ltac:(lia)). cbn in Hc. lra.
Qed.

(** ** shapes *)
Lemma shape_plain shape :
  fst (check_shape None shape) = true <-> (1 <= length shape)%nat /\ last shape 0%nat <> 1%nat.
Proof.
  unfold check_shape, base_check_shape. destruct (Nat.leb_spec 1 (length shape)); simpl.
  - rewrite negb_true_iff, Nat.eqb_neq. tauto.
  - split; [discriminate|lia].
Qed.
Lemma shape_plain_reason shape :
  fst (check_shape None shape) = true <-> snd (check_shape None shape) = None.
Proof.
  unfold check_shape, base_check_shape. destruct (Nat.leb_spec 1 (length shape)); simpl.
  - destruct (Nat.eqb (last shape 0%nat) 1); simpl; split; auto; discriminate.
  - split; discriminate.
Qed.
Lemma shape_sub_accepts batch n m shape : fst (check_shape (Some (batch ++ [n; m])) shape) = true
  <-> (1 <= length shape)%nat /\ last shape 0%nat = n.
Proof.
  unfold check_shape, base_check_shape. destruct (Nat.leb_spec 1 (length shape)); simpl.
  - rewrite Nat.eqb_eq. replace (removelast (batch ++ [n; m])) with (batch ++ [n]).
    + rewrite last_last. tauto.
    + rewrite removelast_app by discriminate. reflexivity.
  - split; [discriminate|lia].
Qed.
Lemma shape_sub_reason batch n m shape :
  (length batch + 1 <= length shape)%nat -> last shape 0%nat = n ->
  check_shape (Some (batch ++ [n; m])) shape = (true, Some BatchDims).
Proof.
  intros HL HE. unfold check_shape, base_check_shape.
  destruct (Nat.leb_spec 1 (length shape)); [|lia]. cbv iota zeta.
  replace (removelast (batch ++ [n; m])) with (batch ++ [n])
    by (rewrite removelast_app by discriminate; reflexivity).
  rewrite last_last, HE, Nat.eqb_refl.
  destruct (Nat.ltb_spec (length shape) (length (batch ++ [n; m]) - 1)); auto.
  rewrite app_length in *. simpl in *. lia.
Qed.

(** ** examples *)
Definition c2 (a b : R) : vec := fun i => if Nat.eqb i 0 then a else if Nat.eqb i 1 then b else 0.
Lemma ex_sphere : on_sphere 2 None (c2 1 0) /\ tangent 2 None (c2 1 0) (c2 0 1)
  /\ on_sphere 2 None (c2 (3/5) (4/5)) /\ Rabs (dot 2 (c2 1 0) (c2 (3/5) (4/5))) <= 1 - EPS64.
Proof.
  assert (EPS64 < 1/10).
  { unfold EPS64. replace (1/10) with (/ 10) by field. apply Rinv_lt_contravar; lra. }
  repeat split; cbn; try field.
  replace (0 + 1 * (3/5) + 0 * (4/5)) with (3/5) by field. rewrite Rabs_right; lra.
Qed.
Lemma ex_valid : valid_subspace 3 (Some (projector_intersection 2 Qdef)) /\
  on_sphere 3 (Some (projector_intersection 2 Qdef)) e1v.
Proof. split; [apply inter_proj, Qdef_qr|apply rank_deficient]. Qed.
Lemma eps_ok : 0 < EPS64 <= / 2 /\ 0 < EPS32 <= / 2.
Proof.
  unfold EPS64, EPS32. repeat split; try (apply Rinv_0_lt_compat; lra);
    apply Rinv_le_contravar; lra.
Qed.
Lemma ex_log_exp : on_sphere 2 None (c2 1 0) /\ tangent 2 None (c2 1 0) (c2 0 (PI/2)) /\
  EPS64 < nrm 2 (c2 0 (PI/2)) < PI /\ Rabs (cos (nrm 2 (c2 0 (PI/2)))) <= 1 - EPS64.
Proof.
  pose proof PI2_3_2. unfold PI2 in *.
  assert (N : nrm 2 (c2 0 (PI/2)) = PI/2).
  { unfold nrm. replace (dot 2 (c2 0 (PI/2)) (c2 0 (PI/2))) with ((PI/2) * (PI/2)) by (cbn; field).
    apply sqrt_square; lra. }
  split; [apply ex_sphere|]. split; [split; [cbn; field|exact I]|]. rewrite N, cos_PI2, Rabs_R0.
  assert (EPS64 < 1/10).
  { unfold EPS64. replace (1/10) with (/ 10) by field. apply Rinv_lt_contravar; lra. }
  lra.
Qed.
