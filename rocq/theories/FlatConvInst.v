(** Gradient descent on flat parameters: the statements and their cases. *)
From Coq Require Import Reals List Arith Lra Lia Psatz.
From Verif Require Import RVec OptimModel CheckpointSpec FixedSpec FixedProofs RayleighSpec SphereConvProofs FlatConvSpec FlatConvProofs.
Import ListNotations.
Local Open Scope R_scope.

Section Flat.
  Variables (d : nat) (f : vec -> R) (g : vec -> vec) (L : R) (h : sgd_hyper).
  Hypothesis Gr : is_gradient d f g.
  Hypothesis Lip : lipschitz d L g.
  Hypothesis H : plain_sgd h.
  Hypothesis L0 : 0 < lr h.
  Hypothesis L1 : lr h * L <= 1.
  Let it (p : sgd_param) (n : nat) : vec := Nat.iter n (flat_step g (lr h)) (val p).
  Lemma flat_traj s (p : sgd_param) : manifold_of p = euclidean -> trajectory h s g p (it p).
  Proof. intro E. split; [reflexivity|]. intros n t. exact (flat_run g (lr h) h s p n t H eq_refl E). Qed.
  Lemma flat_descent s (p : sgd_param) : manifold_of p = euclidean -> exists y, trajectory h s g p y /\
    (forall n, f (y (S n)) <= f (y n) - lr h / 2 * dot d (g (y n)) (g (y n))) /\
    forall n, f (y n) + lr h / 2 * Rsum n (fun k => dot d (g (y k)) (g (y k))) <= f (val p).
  Proof.
    intro E. exists (it p). split; [now apply flat_traj|]. split; intro n.
    - exact (flat_decrease d f g L Gr Lip (lr h) L0 L1 (it p n)).
    - exact (flat_sum d f g L Gr Lip (lr h) L0 L1 (val p) n).
  Qed.
  Lemma flat_stationary s (p : sgd_param) B : manifold_of p = euclidean -> (forall x, B <= f x) -> exists y, trajectory h s g p y /\
    (forall n, (0 < n)%nat -> exists k, (k < n)%nat /\ dot d (g (y k)) (g (y k)) <= 2 * (f (val p) - B) / (lr h * INR n)) /\
    forall e, 0 < e -> exists N, forall n, (N <= n)%nat -> nrm d (g (y n)) < e.
  Proof.
    intros E Bd. exists (it p). split; [now apply flat_traj|]. split.
    - intros n N. exact (flat_some d f g L Gr Lip (lr h) L0 L1 (val p) n B N Bd).
    - exact (flat_vanish d f g L Gr Lip (lr h) L0 L1 (val p) B Bd).
  Qed.
  Lemma flat_convex_rate s (p : sgd_param) z : manifold_of p = euclidean -> convex d f g -> exists y, trajectory h s g p y /\
    forall n, (0 < n)%nat -> f (y n) - f z <= dot d (vsub (val p) z) (vsub (val p) z) / (2 * lr h * INR n).
  Proof.
    intros E Cx. exists (it p). split; [now apply flat_traj|]. intros n N. pose proof (flat_convex d f g L Gr Lip (lr h) L0 L1 (val p) z n Cx) as C.
    change (Nat.iter n (flat_step g (lr h)) (val p)) with (it p n) in C. pose proof (dot_nonneg d (vsub (it p n) z)) as P.
    assert (In : 0 < INR n) by (now apply lt_0_INR). set (q := dot d (vsub (val p) z) (vsub (val p) z)) in *.
    apply (Rmult_le_reg_l (INR n)); [exact In|]. replace (INR n * (q / (2 * lr h * INR n))) with (q / (2 * lr h)) by (field; lra).
    eapply Rle_trans; [exact C|]. unfold Rdiv. apply Rmult_le_compat_r; [left; apply Rinv_0_lt_compat; lra|]. unfold it in P. clear - P. lra.
  Qed.
  (** points that minimise a convex loss are never left behind *)
  Lemma flat_fejer s (p : sgd_param) z : manifold_of p = euclidean -> convex d f g -> (forall x, f z <= f x) -> exists y, trajectory h s g p y /\
    forall n, nrm d (vsub (y (S n)) z) <= nrm d (vsub (y n) z).
  Proof.
    intros E Cx Mn. exists (it p). split; [now apply flat_traj|]. intros n. pose proof (flat_convex d f g L Gr Lip (lr h) L0 L1 (it p n) z 1 Cx) as C.
    change (INR 1 * (f (it p (S n)) - f z) <= (dot d (vsub (it p n) z) (vsub (it p n) z) - dot d (vsub (it p (S n)) z) (vsub (it p (S n)) z)) / (2 * lr h)) in C. specialize (Mn (it p (S n))). simpl INR in C.
    unfold nrm. apply sqrt_le_1_alt. set (a := dot d (vsub (it p (S n)) z) _) in *. set (b := dot d (vsub (it p n) z) _) in *.
    assert (Q : 0 <= (b - a) / (2 * lr h)) by lra. apply (Rmult_le_compat_r (2 * lr h)) in Q; [|lra]. unfold Rdiv in Q. rewrite Rmult_assoc, Rinv_l in Q by lra. lra.
  Qed.
  Lemma flat_strong_rate s (p : sgd_param) mu z : manifold_of p = euclidean -> strongly_convex d mu f g -> (forall x, f z <= f x) ->
    exists y, trajectory h s g p y /\ forall n, nrm d (vsub (y n) z) ^ 2 <= (1 - lr h * mu) ^ n * nrm d (vsub (val p) z) ^ 2.
  Proof.
    intros E Cx Mn. exists (it p). split; [now apply flat_traj|]. intro n. rewrite <- !Rsqr_pow2. unfold Rsqr. rewrite !nrm_sq.
    exact (flat_strong_iter d f g L Gr Lip (lr h) L0 L1 mu z (val p) n Cx Mn).
  Qed.
End Flat.

(** ** Learning rates up to 2 / L *)
Section Wide.
  Variables (d : nat) (f : vec -> R) (g : vec -> vec) (L : R) (h : sgd_hyper).
  Hypothesis Gr : is_gradient d f g.
  Hypothesis Lip : lipschitz d L g.
  Hypothesis H : plain_sgd h.
  Hypothesis L0 : 0 < lr h.
  Hypothesis L2 : lr h * L < 2.
  Let c := lr h * (1 - lr h * L / 2).
  Lemma wide_stationary s (p : sgd_param) B : manifold_of p = euclidean -> (forall x, B <= f x) -> exists y, trajectory h s g p y /\
    (forall n, f (y (S n)) <= f (y n) - c * dot d (g (y n)) (g (y n))) /\
    (forall n, (0 < n)%nat -> exists k, (k < n)%nat /\ dot d (g (y k)) (g (y k)) <= (f (val p) - B) / (c * INR n)) /\
    forall e, 0 < e -> exists N, forall n, (N <= n)%nat -> nrm d (g (y n)) < e.
  Proof.
    intros E Bd. exists (fun n => Nat.iter n (flat_step g (lr h)) (val p)). split; [now apply flat_traj|]. split; [|split].
    - intro n. exact (wide_decrease d f g L (lr h) Gr Lip (Nat.iter n (flat_step g (lr h)) (val p))).
    - intros n N. exact (wide_some d f g L (lr h) Gr Lip L0 L2 (val p) n B N Bd).
    - exact (wide_vanish d f g L (lr h) Gr Lip L0 L2 (val p) B Bd).
  Qed.
End Wide.

(** ** Step sizes of 2 / L and more *)
Lemma square_gradient a : is_gradient 1 (square_loss a) (square_grad a).
Proof.
  intros x u t. unfold square_loss, square_grad, dot, Rsum, vadd, smul.
  assert (D := derivable_pt_lim_plus _ _ t _ _ (derivable_pt_lim_plus _ _ t _ _ (derivable_pt_lim_const (a / 2 * (x O * x O)) t) (lin_der (a * x O * u O) t)) (quad_der (a / 2 * (u O * u O)) t)).
  intros e He. destruct (D e He) as [delta Hd]. exists delta. intros k K1 K2. specialize (Hd k K1 K2).
  eapply Rle_lt_trans; [|exact Hd]. right. f_equal. unfold plus_fct, fct_cte. field. exact K1.
Qed.
Lemma nrm_1 x : nrm 1 x = Rabs (x O).
Proof. unfold nrm, dot, Rsum. rewrite Rplus_0_l. apply sqrt_Rsqr_abs. Qed.
Lemma square_lipschitz a : 0 <= a -> lipschitz 1 a (square_grad a).
Proof.
  intros A x y. rewrite !nrm_1. unfold vsub, square_grad. rewrite <- Rmult_minus_distr_l, Rabs_mult, (Rabs_pos_eq a) by exact A. lra.
Qed.
Lemma square_convex a : 0 <= a -> convex 1 (square_loss a) (square_grad a).
Proof.
  intros A x y. unfold square_loss, square_grad, dot, Rsum, vsub. assert (0 <= a / 2 * Rsqr (y O - x O)) by (apply Rmult_le_pos; [lra|apply Rle_0_sqr]).
  unfold Rsqr in *. lra.
Qed.
Lemma square_strong a : strongly_convex 1 a (square_loss a) (square_grad a).
Proof. intros x y. unfold square_loss, square_grad, dot, Rsum, vsub. right. field. Qed.
Lemma square_iter a l x n : Nat.iter n (flat_step (square_grad a) l) x O = (1 - l * a) ^ n * x O.
Proof.
  induction n as [|n IH]; [simpl; ring|]. change (Nat.iter (S n) (flat_step (square_grad a) l) x O) with (Nat.iter n (flat_step (square_grad a) l) x O + - l * (a * Nat.iter n (flat_step (square_grad a) l) x O)). rewrite IH. simpl. ring.
Qed.
Lemma square_run h s (p : sgd_param) a : plain_sgd h -> manifold_of p = euclidean -> exists y, trajectory h s (square_grad a) p y /\ forall n, y n O = (1 - lr h * a) ^ n * val p O.
Proof.
  intros H E. exists (fun n => Nat.iter n (flat_step (square_grad a) (lr h)) (val p)). split; [|intro n; apply square_iter].
  split; [reflexivity|]. intros n t. exact (flat_run (square_grad a) (lr h) h s p n t H eq_refl E).
Qed.
Lemma square_diverges h s (p : sgd_param) a : plain_sgd h -> manifold_of p = euclidean -> 0 < a -> 2 <= lr h * a -> exists y, trajectory h s (square_grad a) p y /\
  forall n, square_loss a (val p) <= square_loss a (y n) /\ (2 < lr h * a -> val p O <> 0 -> square_loss a (y n) < square_loss a (y (S n))).
Proof.
  intros H E A L. destruct (square_run h s p a H E) as (y & T & V). exists y. split; [exact T|]. intro n. unfold square_loss.
  set (q := 1 - lr h * a) in *. assert (Q : 1 <= q * q) by (unfold q; nra).
  assert (W : forall n, y n O * y n O = (q * q) ^ n * (val p O * val p O)) by (intro k; rewrite V, Rpow_mult_distr; ring).
  pose proof (pow_R1_Rle (q * q) n Q) as P. pose proof (Rle_0_sqr (val p O)) as Sq. unfold Rsqr in Sq. split.
  - apply Rmult_le_compat_l; [lra|]. rewrite W. assert (1 * (val p O * val p O) <= (q * q) ^ n * (val p O * val p O)) by (apply Rmult_le_compat_r; assumption). lra.
  - intros L2 X. apply Rmult_lt_compat_l; [lra|]. rewrite !W. assert (S' : 0 < val p O * val p O) by (now apply Rsqr_pos_lt).
    apply Rmult_lt_compat_r; [exact S'|]. assert (Q2 : 1 < q * q) by (unfold q; nra).
    simpl pow. assert (1 * (q * q) ^ n < q * q * (q * q) ^ n) by (apply Rmult_lt_compat_r; lra). lra.
Qed.

(** ** A case: the loss 3 x^2 / 2 from x = 5 with lr = 1/4 *)
Definition h_flat : sgd_hyper := {| lr := 1 / 4; momentum := 0; dampening := 0; weight_decay := 0; nesterov := true; stabilize := Some 7%nat |}.
Lemma flat_case : is_gradient 1 (square_loss 3) (square_grad 3) /\ lipschitz 1 3 (square_grad 3) /\ convex 1 (square_loss 3) (square_grad 3) /\
  plain_sgd h_flat /\ 0 < lr h_flat /\ lr h_flat * 3 <= 1 /\ (forall x, 0 <= square_loss 3 x).
Proof.
  split; [apply square_gradient|]. split; [apply square_lipschitz; lra|]. split; [apply square_convex; lra|]. split; [now repeat split|].
  split; [simpl; lra|]. split; [simpl; lra|]. intro x. unfold square_loss. pose proof (Rle_0_sqr (x O)). unfold Rsqr in *. lra.
Qed.
