(** Series of reals used for the matrix exponential.  Supporting mathematics only. *)
From Coq Require Import Reals Lra Lia.
From Coquelicot Require Import Coquelicot.
Local Open Scope R_scope.

(** the sum of f is l *)
Inductive sums (f : nat -> R) (l : R) : Prop := Sums : is_series f l -> sums f l.
Definition absolutely (f : nat -> R) : Prop := ex_series (fun k => Rabs (f k)).
Definition total (f : nat -> R) : R := Series f.

Lemma sums_ext f g l : (forall k, f k = g k) -> sums f l -> sums g l.
Proof. intros E [H]. constructor. revert H. apply is_series_ext, E. Qed.
Lemma sums_plus f g a b : sums f a -> sums g b -> sums (fun k => f k + g k) (a + b).
Proof. intros [H] [G]. constructor. apply (is_series_plus f g a b H G). Qed.
Lemma sums_scal c f a : sums f a -> sums (fun k => c * f k) (c * a).
Proof. intros [H]. constructor. apply (is_series_scal_l c f a H). Qed.
Lemma sums_unique f a : sums f a -> total f = a.
Proof. intros [H]. apply is_series_unique, H. Qed.
Lemma sums_first c : sums (fun k => match k with O => c | _ => 0 end) c.
Proof.
  constructor. apply (filterlim_ext_loc (fun _ : nat => c)).
  - exists O. intros n _. induction n as [|n IH]; [rewrite sum_O; reflexivity|].
    rewrite sum_Sn, <- IH. unfold plus. cbn. ring.
  - apply filterlim_const.
Qed.
Lemma sums_zero : sums (fun _ => 0) 0.
Proof. apply sums_ext with (f := fun k : nat => match k with O => 0 | _ => 0 end); [intros [|k]; reflexivity|apply sums_first]. Qed.
Lemma total_sums f : absolutely f -> sums f (total f).
Proof. intros H. constructor. apply Series_correct, ex_series_Rabs, H. Qed.
Lemma sums_exp x : sums (fun k => x ^ k / INR (fact k)) (exp x).
Proof.
  apply sums_ext with (f := fun k => / INR (fact k) * x ^ k); [intros k; unfold Rdiv; ring|].
  constructor. apply is_pseries_R. apply is_exp_Reals.
Qed.
Lemma absolutely_bound f C : (forall k, Rabs (f k) <= C ^ k / INR (fact k)) -> absolutely f.
Proof.
  intros H. apply (ex_series_le (fun k => Rabs (f k)) (fun k => C ^ k / INR (fact k))).
  - intros k. unfold norm. cbn. unfold abs. cbn. rewrite Rabs_Rabsolu. apply H.
  - exists (exp C). destruct (sums_exp C) as [E]. exact E.
Qed.
Lemma sums_mult f g a b : sums f a -> sums g b -> absolutely f -> absolutely g ->
  sums (fun n => sum_f_R0 (fun k => f k * g (n - k)%nat) n) (a * b).
Proof. intros [A] [B] F G. constructor. apply (is_series_mult f g a b A B F G). Qed.
(** The sum of s^k / k! t^(n-k) / (n-k)! over k is (s+t)^n / n!. *)
Lemma exp_binomial s t n :
  sum_f_R0 (fun k => s ^ k / INR (fact k) * (t ^ (n - k) / INR (fact (n - k)))) n = (s + t) ^ n / INR (fact n).
Proof.
  rewrite binomial. rewrite (Rmult_comm (sum_f_R0 _ _) (/ _) : sum_f_R0 _ _ / INR (fact n) = _), scal_sum. apply sum_eq. intros k K. unfold Binomial.C. field.
  repeat split; apply INR_fact_neq_0.
Qed.
(** Power series with such coefficients are differentiated term by term. *)
Lemma series_derive c C t : (forall k, Rabs (c k) <= C ^ k / INR (fact k)) ->
  derivable_pt_lim (fun t => total (fun k => c k * t ^ k)) t (total (fun k => INR (S k) * c (S k) * t ^ k)).
Proof.
  intros H. apply is_derive_Reals. apply (is_derive_PSeries c t).
  apply Rbar_lt_le_trans with (y := Finite (Rabs t + 1)); [cbn; lra|].
  unfold CV_radius. destruct (Lub_Rbar_correct (CV_disk c)) as [U _]. apply U. clear U.
  assert (P : 0 <= Rabs t + 1) by (assert (X := Rabs_pos t); lra).
  apply absolutely_bound with (C := C * (Rabs t + 1)). intros k. rewrite Rabs_mult, Rpow_mult_distr.
  rewrite (Rabs_right (_ ^ k)); [|apply Rle_ge, pow_le; exact P].
  replace (C ^ k * (Rabs t + 1) ^ k / INR (fact k)) with (C ^ k / INR (fact k) * (Rabs t + 1) ^ k) by (unfold Rdiv; ring).
  apply Rmult_le_compat_r; [apply pow_le; exact P|apply H].
Qed.
Arguments sums_ext {f g l} _ _.
Arguments sums_plus {f g a b} _ _.
Arguments sums_scal c {f a} _.
Arguments sums_unique {f a} _.
Arguments sums_mult {f g a b} _ _ _ _.
Arguments total_sums {f} _.
Arguments absolutely_bound {f} C _.

(** First order expansion with a bounded remainder. *)
Lemma taylor2 f f1 f2 : (forall t, derivable_pt_lim f t (f1 t)) -> (forall t, derivable_pt_lim f1 t (f2 t)) ->
  (forall t, continuity_pt f2 t) -> exists B, forall t, 0 < t -> t < 1 -> Rabs (f t - f 0 - t * f1 0) <= B * t ^ 2.
Proof.
  intros D1 D2 C.
  destruct (continuity_ab_maj (fun t => Rabs (f2 t)) 0 1) as [m [Hm _]]; [lra| |].
  { intros c _. apply (continuity_pt_comp f2 Rabs); [apply C|apply Rcontinuity_abs]. }
  exists (Rabs (f2 m)). intros t t0 t1.
  destruct (MVT_cor2 (fun s => f s - s * f1 0) (fun s => f1 s - f1 0) 0 t t0) as [c [E Hc]].
  { intros s _. apply derivable_pt_lim_minus; [apply D1|].
    assert (L := derivable_pt_lim_scal_right id s 1 (f1 0) (derivable_pt_lim_id s)). rewrite Rmult_1_l in L. exact L. }
  destruct (MVT_cor2 f1 f2 0 c (proj1 Hc)) as [d [G Hd]]; [intros s _; apply D2|].
  replace (f t - f 0 - t * f1 0) with (f t - t * f1 0 - (f 0 - 0 * f1 0)) by ring. rewrite E, G.
  rewrite !Rabs_mult. rewrite (Rabs_right (c - 0)), (Rabs_right (t - 0)) by lra.
  assert (H := Hm d ltac:(lra)). cbn in H. assert (P := Rabs_pos (f2 d)).
  replace (Rabs (f2 m) * t ^ 2) with (Rabs (f2 m) * t * (t - 0)) by ring.
  apply Rmult_le_compat_r; [lra|]. apply Rmult_le_compat; lra.
Qed.
