(** The lemmas behind FloatProps. *)
From Coq Require Import ZArith Reals Lra Lia List Bool.
From Flocq Require Import Core IEEE754.BinarySingleNaN.
From Verif Require Import FloatModel FloatSpec FloatProofs FloatProofs2 FloatProofs3 FloatProofs4 FloatProofs5 FloatProofs6 FloatProofs7 FloatProofs8 FloatInst.
Import ListNotations.
Open Scope R_scope.

Lemma q_artanh log (H : log_ok log) d (x : float d) : not_nan x ->
  finite (artanh log x) /\ Rabs (val (artanh log x)) <= 25.
Proof. intros N. destruct (artanh_val log H x N) as (A & B & _). auto. Qed.
Lemma q_artanh_odd log (H : log_ok log) d (x : float d) : finite x ->
  val (artanh log (opp x)) = - val (artanh log x) /\ (0 <= val x -> 0 <= val (artanh log x)).
Proof. intros F. split; [now apply artanh_odd|]. intros P. apply artanh_nonneg; auto. now apply fin_not_nan. Qed.
Lemma q_tan_k tanh (H : tanh_ok tanh) d (x k : float d) : not_nan x -> finite k -> val k < 0 ->
  finite (tan_k tanh x k) /\ Rabs (val (tan_k tanh x k)) * sqrt (- val k) <= 1 + / 1000000.
Proof.
  intros N F K. destruct (tan_k_ok tanh H x k N F) as [G B]. split; auto.
  assert (R := recip_upper k F K). assert (U := FloatProofs4.u_small (d := d)).
  assert (S := sqrt_pos (- val k)). assert (U0 : 0 <= @u d) by (unfold u; destruct d; cbn; lra).
  apply Rle_trans with (val (recip (k_sqrt k)) * sqrt (- val k)); [apply Rmult_le_compat_r; auto|].
  set (a := val (recip (k_sqrt k)) * sqrt (- val k)) in *. nra.
Qed.
Lemma q_dist log (H : log_ok log) d (norm k : float d) :
  norm = infinity \/ finite norm /\ 0 <= val norm -> finite k ->
  finite (stereo_dist log norm k) /\ 0 <= val (stereo_dist log norm k).
Proof.
  intros P F. split; [|now apply stereo_dist_nonneg].
  apply stereo_dist_ok; auto. now apply nonneg_not_nan.
Qed.
Lemma q_guarded_div d (a b : float d) : finite a -> not_nan b -> not_nan (guarded_div a b).
Proof. apply guarded_div_ok. Qed.
Lemma q_sphere_dist acos (H : acos_ok acos) d (x : float d) : not_nan x ->
  finite (sphere_dist acos x) /\ 0 < val (sphere_dist acos x).
Proof. now apply sphere_dist_ok. Qed.
Lemma q_artanh_acc log (H : log_ok log) d (x : float d) : finite x -> Rabs (val x) <= 1 - / 1000000 ->
  Rabs (val (artanh log x) - atanh (val x)) <= Rabs (atanh (val x)) / 1000 + / 1000000.
Proof. now apply artanh_acc. Qed.
Lemma q_tan_k_acc tanh (H : tanh_ok tanh) d (x k : float d) : finite x -> moderate k -> val k < 0 -> Rabs (val x) <= 1000000 ->
  Rabs (val (tan_k tanh x k) * sqrt (- val k) - Rtrigo_def.tanh (val x * sqrt (- val k))) <= / 200.
Proof. intros Fx M K B. assert (A := tan_k_acc tanh H x k Fx M B). now rewrite (Rabs_left (val k)) in A by auto. Qed.
Lemma q_dist_acc log (H : log_ok log) d (norm k : float d) : finite norm -> moderate k -> val k < 0 ->
  Rabs (val norm) * sqrt (- val k) <= 9 / 10 ->
  Rabs (val (artan_k log norm k) * sqrt (- val k) - atanh (val norm * sqrt (- val k))) <= / 200 /\
  Rabs (val (stereo_dist log norm k) * sqrt (- val k) - 2 * atanh (val norm * sqrt (- val k))) <= / 90.
Proof.
  intros Fx M K B. assert (A := artan_k_acc log H norm k Fx M). assert (D := stereo_dist_acc log H norm k Fx M).
  rewrite (Rabs_left (val k)) in A, D by auto. auto.
Qed.
Lemma q_guarded_div_acc d (a b : float d) : finite a -> finite b -> / 999999900000000 <= val b ->
  Rabs (val a / val b) <= bpow radix2 (emax d - 1) ->
  val (guarded_div a b) = round radix2 (FLT_exp (3 - emax d - prec d) (prec d)) ZnearestE (val a / val b).
Proof. apply guarded_div_acc. Qed.
Lemma q_sphere_dist_acc acos (H : acos_ok acos) d (inner : float d) : finite inner -> Rabs (val inner) <= 999 / 1000 ->
  Rabs (val (sphere_dist acos inner) - Ratan.acos (val inner)) <= Ratan.acos (val inner) / 1024.
Proof.
  intros F B. assert (E := sphere_arg_id inner F B). destruct (sphere_arg_ok inner (fin_not_nan _ F)) as [G C].
  destruct (H d _ G C) as [_ K]. now rewrite E in K.
Qed.
Lemma q_nan log tanh acos d (k : float d) : (forall d, log d B754_nan = B754_nan) ->
  (forall d, tanh d B754_nan = B754_nan) -> (forall d, acos d B754_nan = B754_nan) ->
  artanh log (B754_nan : float d) = B754_nan /\ tan_k tanh B754_nan k = B754_nan /\
  stereo_dist log B754_nan k = B754_nan /\ sphere_dist acos (B754_nan : float d) = B754_nan.
Proof.
  intros L T A.
  assert (C : forall lo hi : float d, clamp B754_nan lo hi = B754_nan).
  { intros lo hi. unfold clamp, clamp_max, clamp_min, lt, Bltb. cbn. unfold SpecFloat.SFltb. cbn.
    destruct (B2SF hi); reflexivity. }
  assert (M : forall x : float d, mul x B754_nan = B754_nan) by (intros []; reflexivity).
  assert (N : artanh log (B754_nan : float d) = B754_nan).
  { unfold artanh, clamp_unit. rewrite C.
    assert (E : add (of_Z 1) B754_nan = (B754_nan : float d)) by (unfold add; destruct (of_Z 1); reflexivity).
    rewrite E, L. reflexivity. }
  repeat split; auto.
  - unfold tan_k, tanh_. change (mul B754_nan (k_sqrt k)) with (B754_nan : float d). rewrite C, T. apply M.
  - unfold stereo_dist, artan_k. change (mul B754_nan (k_sqrt k)) with (B754_nan : float d). rewrite N, M. apply M.
  - unfold sphere_dist, sphere_arg. rewrite C. apply A.
Qed.
Lemma q_project d (x : list (float d)) n k :
  Forall finite x -> (Z.of_nat (length x) <= 2 ^ 64)%Z -> norm_ok x n -> finite k -> val k < 0 ->
  in_ball k (project x n k).
Proof. apply project_in_ball. Qed.
Lemma q_inside d (x : list (float d)) n k :
  finite n -> moderate k -> val k < 0 -> val n * sqrt (- val k) <= 1 - margin d -> project x n k = x.
Proof. intros F M K H. apply project_inside; auto. now rewrite (Rabs_left (val k)). Qed.
Lemma q_outside d (x : list (float d)) n k :
  Forall finite x -> finite n -> moderate k -> val k < 0 ->
  1 < val n * sqrt (- val k) -> Forall (fun xi => Rabs (val xi) <= 2 * val n) x ->
  Forall2 (fun xi yi => Rabs (val yi * sqrt (- val k) - val xi / val n) <= / 80) x (project x n k).
Proof.
  intros Fx F M K H B. assert (P := project_outside x n k Fx F M K). rewrite (Rabs_left (val k)) in P by auto. auto.
Qed.
Lemma q_arsinh_positive log (H : log_ok log) d (x : float d) :
  finite x -> 0 <= val x <= bpow radix2 (emax d / 2 - 1) ->
  finite (arsinh log x) /\ 0 <= val (arsinh log x) /\
  Rabs (val (arsinh log x) - arcsinh (val x)) <= arcsinh (val x) / 1024 + / 1000000.
Proof. now apply arsinh_positive. Qed.
Lemma q_arsinh_negative log (H : log_ok log) d (x : float d) :
  finite x -> - bpow radix2 (emax d / 2 - 1) <= val x <= - large d ->
  arsinh log x = log d (cast e15) /\ val (arsinh log x) <= -32.
Proof. intros F B. rewrite (arsinh_negative log x F B). split; auto. now apply log_tiny. Qed.
Lemma large_float d : exists x : float d, finite x /\ val x = large d.
Proof.
  destruct d.
  - exists (of_Z 8192). apply of_Z_val. cbn; lia.
  - exists (of_Z 268435456). apply of_Z_val. cbn; lia.
Qed.
Lemma q_arsinh_odd log (H : log_ok log) d : exists x : float d,
  finite x /\ finite (arsinh log x) /\ finite (arsinh log (opp x)) /\
  val (arsinh log x) + val (arsinh log (opp x)) <= -9.
Proof.
  destruct (large_float d) as (x & F & V). exists x. split; auto.
  assert (L := @large_bounds d). assert (T := @top_large d).
  destruct (arsinh_not_odd log H x F) as [A B]; [lra|].
  destruct (arsinh_positive log H x F) as (G & _); [lra|].
  repeat split; auto; [|lra].
  rewrite arsinh_negative; [|now apply opp_fin|rewrite opp_val; lra].
  destruct (@tiny_val d) as (Ft & _ & Bt). apply (proj1 H d tiny); auto. lra.
Qed.
Lemma q_arsinh_overflow log (H : log_ok log) d (x : float d) :
  finite x -> bpow radix2 (emax d / 2) <= Rabs (val x) -> arsinh log x = infinity.
Proof. now apply arsinh_overflow. Qed.
Lemma q_arsin_k log (H : log_ok log) d (x y k : float d) : finite x -> finite y -> moderate k -> val k < 0 ->
  Rabs (val x) <= 1000000 -> Rabs (val y) <= 1000000 ->
  val x * sqrt (- val k) <= - (large d * (1001 / 1000)) ->
  val y * sqrt (- val k) <= - (large d * (1001 / 1000)) -> arsin_k log x k = arsin_k log y k.
Proof.
  intros Fx Fy M K Bx By. assert (A := arsin_k_flat log H x y k Fx Fy M Bx By).
  now rewrite (Rabs_left (val k)) in A by auto.
Qed.
Lemma q_arcosh log (H : log_ok log) d (x : float d) :
  finite x -> 1 <= val x <= bpow radix2 100 -> finite (arcosh log x) /\ 0 <= val (arcosh log x).
Proof. now apply arcosh_nonneg. Qed.
Lemma q_arcosh_acc log (H : log_ok log) d (x : float d) :
  finite x -> 1 <= val x <= bpow radix2 100 ->
  Rabs (val (arcosh log x) - acosh (val x)) <= acosh (val x) / 1000 + / 1000000.
Proof. now apply arcosh_acc. Qed.
Lemma q_lorentz log (H : log_ok log) d (x0 x1 : float d) :
  finite x1 -> large d <= Rabs (val x1) <= bpow radix2 (emax d / 2 - 1) ->
  let p := lorentz_project (x0, x1) (of_Z 1) in
  finite (lorentz_dist log p p (of_Z 1)) /\ val (lorentz_dist log p p (of_Z 1)) <= -15.
Proof. now apply lorentz_self_dist. Qed.
Lemma q_lorentz_refuted log (H : log_ok log) d : exists x : float d * float d,
  finite (fst x) /\ finite (snd x) /\ x = lorentz_project x (of_Z 1) /\
  val (lorentz_dist log x x (of_Z 1)) < 0.
Proof.
  destruct (large_float d) as (x & F & V). exists (lorentz_project (x, x) (of_Z 1)).
  assert (L := @large_bounds d). assert (T := @top_large d).
  assert (B : large d <= Rabs (val x) <= bpow radix2 (half_emax (d := d) - 1)) by (rewrite Rabs_pos_eq; lra).
  destruct (one_val (d := d)) as [F1 V1].
  destruct (hypot_large (norm1 x) (of_Z 1)) as [Fp Vp]; auto.
  { now apply abs_fin. } { unfold norm1. rewrite abs_val, Rabs_Rabsolu. auto. }
  repeat split; auto. destruct (lorentz_self_dist log H x x F B) as [_ K]. lra.
Qed.
Lemma row34_ok : Forall finite row34 /\ (Z.of_nat (length row34) <= 2 ^ 64)%Z /\
  norm_ok row34 (of_Z 5) /\ norm_ok row34 infinity /\ finite (of_Z (-1) : float float32) /\
  val (of_Z (-1) : float float32) < 0 /\ ~ norm row34 < / sqrt (- val (of_Z (-1) : float float32)).
Proof.
  destruct (small_Z float32 3) as [F3 V3]; [lia|]. destruct (small_Z float32 4) as [F4 V4]; [lia|].
  destruct (small_Z float32 5) as [F5 V5]; [lia|].
  destruct (of_Z_val (d := float32) (-1)) as [F1 V1]; [cbn; lia|].
  assert (N : norm row34 = 5).
  { unfold norm, row34. cbn [fold_right]. rewrite V3, V4.
    replace (3 * 3 + (4 * 4 + 0)) with (5 * 5) by ring. apply sqrt_square. lra. }
  assert (NK : norm_ok row34 (of_Z 5)).
  { right. split; auto. rewrite V5, N, Rminus_diag_eq, Rabs_R0 by reflexivity.
    apply Rmult_le_pos; [cbn; lra|]. rewrite Rmax_left; lra. }
  split; [repeat constructor; auto|]. split; [apply Z.leb_le; reflexivity|]. split; auto.
  split; [now left|]. split; auto. split; [rewrite V1; lra|].
  rewrite N, V1. replace (- (-1)) with 1 by ring. rewrite sqrt_1. lra.
Qed.
Lemma minus_one_ok : moderate (of_Z (-1) : float float32) /\ val (of_Z (-1) : float float32) < 0.
Proof.
  destruct (of_Z_val (d := float32) (-1)) as [F1 V1]; [reflexivity|]. unfold moderate. rewrite V1.
  split; [split; auto|lra]. rewrite Rabs_left by lra. lra.
Qed.

Lemma q_arcosh_inf log (H : log_ok log) d : arcosh log (infinity : float d) = infinity /\ arcosh log (B754_nan : float d) = cast (log float64 B754_nan).
Proof.
  destruct H as [_ L]. split.
  - unfold arcosh, infinity, cast.
    replace (add _ _) with (infinity : float float64). { rewrite L. reflexivity. }
    unfold infinity, sqr. vm_compute. reflexivity.
  - reflexivity.
Qed.
