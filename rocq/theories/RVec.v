(** Finite real vectors: one row of a torch tensor.  A vector of size [n] is a
    function read on indices below [n]; operations are pointwise, reductions
    are finite sums.  This file is vocabulary plus its algebra; it models no
    geoopt code. *)
From Coq Require Import Reals Lra Lia FunctionalExtensionality Psatz.
Local Open Scope R_scope.

Definition vec := nat -> R.

(** [x.sum(-1)] over the first [n] entries. *)
Fixpoint Rsum (n : nat) (f : nat -> R) : R :=
  match n with
  | O => 0
  | S k => Rsum k f + f k
  end.

Definition dot (n : nat) (u v : vec) : R := Rsum n (fun i => u i * v i).
(** [x.norm(dim=-1)] (the 2-norm). *)
Definition nrm (n : nat) (u : vec) : R := sqrt (dot n u u).

Definition vzero : vec := fun _ => 0.
Definition vadd (u v : vec) : vec := fun i => u i + v i.
Definition vsub (u v : vec) : vec := fun i => u i - v i.
Definition vopp (u : vec) : vec := fun i => - u i.
(** scalar times vector (broadcast multiplication by a [keepdim] scalar) *)
Definition smul (a : R) (u : vec) : vec := fun i => a * u i.
(** vector divided by a scalar *)
Definition vdiv (u : vec) (a : R) : vec := fun i => u i / a.

Lemma vec_ext (u v : vec) : (forall i, u i = v i) -> u = v.
Proof. intros; apply functional_extensionality; auto. Qed.

Lemma Rsum_ext n f g : (forall i, (i < n)%nat -> f i = g i) -> Rsum n f = Rsum n g.
Proof.
  induction n; intros H; simpl; auto.
  rewrite IHn by (intros; apply H; lia). rewrite H by lia. reflexivity.
Qed.

Lemma Rsum_plus n f g : Rsum n (fun i => f i + g i) = Rsum n f + Rsum n g.
Proof. induction n; simpl; [lra|rewrite IHn; lra]. Qed.

Lemma Rsum_minus n f g : Rsum n (fun i => f i - g i) = Rsum n f - Rsum n g.
Proof. induction n; simpl; [lra|rewrite IHn; lra]. Qed.

Lemma Rsum_opp n f : Rsum n (fun i => - f i) = - Rsum n f.
Proof. induction n; simpl; [lra|rewrite IHn; lra]. Qed.

Lemma Rsum_scal n a f : Rsum n (fun i => a * f i) = a * Rsum n f.
Proof. induction n; simpl; [lra|rewrite IHn; lra]. Qed.

Lemma Rsum_scal_r n a f : Rsum n (fun i => f i * a) = Rsum n f * a.
Proof. induction n; simpl; [lra|rewrite IHn; lra]. Qed.

Lemma Rsum_zero n : Rsum n (fun _ => 0) = 0.
Proof. induction n; simpl; [auto|rewrite IHn; lra]. Qed.

Lemma Rsum_const n c : Rsum n (fun _ => c) = INR n * c.
Proof. induction n; [simpl; lra|]. rewrite S_INR. simpl Rsum. rewrite IHn. lra. Qed.

Lemma Rsum_nonneg n f : (forall i, (i < n)%nat -> 0 <= f i) -> 0 <= Rsum n f.
Proof.
  induction n; intros H; simpl; [lra|].
  assert (0 <= Rsum n f) by (apply IHn; intros; apply H; lia).
  assert (0 <= f n) by (apply H; lia). lra.
Qed.

Lemma Rsum_le n f g : (forall i, (i < n)%nat -> f i <= g i) -> Rsum n f <= Rsum n g.
Proof.
  intros H. assert (0 <= Rsum n (fun i => g i - f i)).
  { apply Rsum_nonneg. intros i Hi; specialize (H i Hi); lra. }
  rewrite Rsum_minus in H0. lra.
Qed.

Lemma Rsum_nonneg_zero n f : (forall i, (i < n)%nat -> 0 <= f i) -> Rsum n f = 0 ->
  forall i, (i < n)%nat -> f i = 0.
Proof.
  induction n; intros H E i Hi; [lia|]. simpl in E.
  assert (0 <= Rsum n f) by (apply Rsum_nonneg; intros; apply H; lia).
  assert (0 <= f n) by (apply H; lia).
  destruct (Nat.eq_dec i n) as [->|N]; [lra|].
  apply IHn; [intros; apply H; lia|lra|lia].
Qed.

Lemma Rsum_swap n m (f : nat -> nat -> R) :
  Rsum n (fun i => Rsum m (fun j => f i j)) = Rsum m (fun j => Rsum n (fun i => f i j)).
Proof.
  induction n; simpl.
  - rewrite Rsum_zero. reflexivity.
  - rewrite IHn, Rsum_plus. reflexivity.
Qed.

(** ** dot product *)
Section Dot.
  Variable n : nat.
  Implicit Types u v w : vec.

  Lemma dot_comm u v : dot n u v = dot n v u.
  Proof. unfold dot; apply Rsum_ext; intros; ring. Qed.

  Lemma dot_add_l u v w : dot n (vadd u v) w = dot n u w + dot n v w.
  Proof. unfold dot, vadd; rewrite <- Rsum_plus; apply Rsum_ext; intros; ring. Qed.
  Lemma dot_add_r u v w : dot n u (vadd v w) = dot n u v + dot n u w.
  Proof. unfold dot, vadd; rewrite <- Rsum_plus; apply Rsum_ext; intros; ring. Qed.
  Lemma dot_sub_l u v w : dot n (vsub u v) w = dot n u w - dot n v w.
  Proof. unfold dot, vsub; rewrite <- Rsum_minus; apply Rsum_ext; intros; ring. Qed.
  Lemma dot_sub_r u v w : dot n u (vsub v w) = dot n u v - dot n u w.
  Proof. unfold dot, vsub; rewrite <- Rsum_minus; apply Rsum_ext; intros; ring. Qed.
  Lemma dot_opp_l u v : dot n (vopp u) v = - dot n u v.
  Proof. unfold dot, vopp; rewrite <- Rsum_opp; apply Rsum_ext; intros; ring. Qed.
  Lemma dot_opp_r u v : dot n u (vopp v) = - dot n u v.
  Proof. unfold dot, vopp; rewrite <- Rsum_opp; apply Rsum_ext; intros; ring. Qed.
  Lemma dot_smul_l a u v : dot n (smul a u) v = a * dot n u v.
  Proof. unfold dot, smul; rewrite <- Rsum_scal; apply Rsum_ext; intros; ring. Qed.
  Lemma dot_smul_r a u v : dot n u (smul a v) = a * dot n u v.
  Proof. unfold dot, smul; rewrite <- Rsum_scal; apply Rsum_ext; intros; ring. Qed.
  Lemma dot_vdiv_l a u v : dot n (vdiv u a) v = dot n u v / a.
  Proof.
    unfold dot, vdiv, Rdiv. rewrite <- Rsum_scal_r. apply Rsum_ext; intros; ring.
  Qed.
  Lemma dot_vdiv_r a u v : dot n u (vdiv v a) = dot n u v / a.
  Proof. rewrite dot_comm, dot_vdiv_l, dot_comm. reflexivity. Qed.
  Lemma dot_zero_l u : dot n vzero u = 0.
  Proof.
    transitivity (Rsum n (fun _ => 0)); [|apply Rsum_zero].
    unfold dot, vzero. apply Rsum_ext; intros; ring.
  Qed.
  Lemma dot_zero_r u : dot n u vzero = 0.
  Proof. rewrite dot_comm; apply dot_zero_l. Qed.

  Lemma dot_nonneg u : 0 <= dot n u u.
  Proof. unfold dot; apply Rsum_nonneg; intros; nra. Qed.

  Lemma dot_zero_iff u : dot n u u = 0 <-> forall i, (i < n)%nat -> u i = 0.
  Proof.
    split.
    - intros H i Hi. assert (u i * u i = 0).
      { apply (Rsum_nonneg_zero n (fun i => u i * u i)); auto. intros; nra. }
      nra.
    - intros H. transitivity (Rsum n (fun _ => 0)); [|apply Rsum_zero].
      unfold dot. apply Rsum_ext. intros i Hi; rewrite H; auto; ring.
  Qed.

  Lemma dot_ext u u' v v' :
    (forall i, (i < n)%nat -> u i = u' i) -> (forall i, (i < n)%nat -> v i = v' i) ->
    dot n u v = dot n u' v'.
  Proof. intros H1 H2; unfold dot; apply Rsum_ext; intros; rewrite H1, H2; auto. Qed.

  (** Cauchy-Schwarz *)
  Lemma cauchy_schwarz u v : dot n u v * dot n u v <= dot n u u * dot n v v.
  Proof.
    destruct (Req_dec (dot n v v) 0) as [E|N].
    - assert (dot n u v = 0).
      { rewrite <- (dot_zero_r u). apply dot_ext; auto.
        intros i Hi. apply (proj1 (dot_zero_iff v)); auto. }
      rewrite H. rewrite E. lra.
    - assert (Hp : 0 < dot n v v) by (pose proof (dot_nonneg v); lra).
      pose proof (dot_nonneg (vsub (smul (dot n v v) u) (smul (dot n u v) v))) as H.
      rewrite !dot_sub_l, !dot_sub_r, !dot_smul_l, !dot_smul_r in H.
      rewrite (dot_comm v u) in H.
      assert (0 <= dot n v v * (dot n v v * dot n u u - dot n u v * dot n u v)) by nra.
      assert (0 <= dot n v v * dot n u u - dot n u v * dot n u v).
      { apply Rmult_le_reg_l with (dot n v v); lra. }
      lra.
  Qed.

  Lemma nrm_nonneg u : 0 <= nrm n u.
  Proof. apply sqrt_pos. Qed.
  Lemma nrm_sq u : nrm n u * nrm n u = dot n u u.
  Proof. unfold nrm. apply sqrt_sqrt, dot_nonneg. Qed.
  Lemma nrm_sq2 u : nrm n u ^ 2 = dot n u u.
  Proof. rewrite <- nrm_sq; ring. Qed.

  Lemma nrm_smul a u : nrm n (smul a u) = Rabs a * nrm n u.
  Proof.
    unfold nrm. rewrite dot_smul_l, dot_smul_r.
    replace (a * (a * dot n u u)) with (Rsqr a * dot n u u) by (unfold Rsqr; ring).
    rewrite sqrt_mult; [|apply Rle_0_sqr|apply dot_nonneg].
    rewrite sqrt_Rsqr_abs. reflexivity.
  Qed.

  Lemma nrm_vdiv u a : a <> 0 -> nrm n (vdiv u a) = nrm n u / Rabs a.
  Proof.
    intros Ha. replace (vdiv u a) with (smul (/ a) u)
      by (apply vec_ext; intros; unfold vdiv, smul, Rdiv; ring).
    rewrite nrm_smul, Rabs_inv. unfold Rdiv; ring.
  Qed.

  Lemma nrm_opp u : nrm n (vopp u) = nrm n u.
  Proof. unfold nrm. rewrite dot_opp_l, dot_opp_r. f_equal; ring. Qed.

  Lemma nrm_zero : nrm n vzero = 0.
  Proof. unfold nrm. rewrite dot_zero_l. apply sqrt_0. Qed.

  Lemma nrm_zero_iff u : nrm n u = 0 <-> forall i, (i < n)%nat -> u i = 0.
  Proof.
    rewrite <- dot_zero_iff. split; intros H.
    - rewrite <- nrm_sq, H; ring.
    - unfold nrm; rewrite H; apply sqrt_0.
  Qed.

  Lemma nrm_pos u : nrm n u <> 0 -> 0 < nrm n u.
  Proof. intros; pose proof (nrm_nonneg u); lra. Qed.

  Lemma cauchy_schwarz_nrm u v : Rabs (dot n u v) <= nrm n u * nrm n v.
  Proof.
    apply Rsqr_incr_0_var.
    - rewrite <- Rsqr_abs. unfold Rsqr.
      replace (nrm n u * nrm n v * (nrm n u * nrm n v))
        with ((nrm n u * nrm n u) * (nrm n v * nrm n v)) by ring.
      rewrite !nrm_sq. apply cauchy_schwarz.
    - apply Rmult_le_pos; apply nrm_nonneg.
  Qed.

  Lemma dot_le_nrm u v : dot n u v <= nrm n u * nrm n v.
  Proof. eapply Rle_trans; [apply Rle_abs | apply cauchy_schwarz_nrm]. Qed.

  Lemma nrm_triangle u v : nrm n (vadd u v) <= nrm n u + nrm n v.
  Proof.
    apply Rsqr_incr_0_var.
    - unfold Rsqr. rewrite nrm_sq, dot_add_l, !dot_add_r, (dot_comm v u).
      pose proof (dot_le_nrm u v). pose proof (nrm_sq u). pose proof (nrm_sq v). nra.
    - pose proof (nrm_nonneg u); pose proof (nrm_nonneg v); lra.
  Qed.
End Dot.

#[global] Hint Rewrite dot_add_l dot_add_r dot_sub_l dot_sub_r dot_opp_l dot_opp_r
  dot_smul_l dot_smul_r dot_vdiv_l dot_vdiv_r dot_zero_l dot_zero_r : vec.

(** Expand all dot products of linear combinations. *)
Ltac vexp := autorewrite with vec.
Ltac vexp_in H := autorewrite with vec in H.
(** Vector equality, pointwise. *)
Ltac veq := apply vec_ext; intros ?i; unfold vadd, vsub, vopp, smul, vdiv, vzero.
