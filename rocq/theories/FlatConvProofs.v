(** Lemmas: gradient descent on flat parameters. *)
From Coq Require Import Reals List Arith Lra Lia Psatz.
From Verif Require Import RVec OptimModel CheckpointSpec FixedSpec FixedProofs RayleighSpec SphereConvProofs FlatConvSpec.
Import ListNotations.
Local Open Scope R_scope.

Lemma flat_smul_0 x u : vadd x (smul 0 u) = x. Proof. apply vec_ext. intro i. unfold vadd, smul. ring. Qed.
Lemma flat_smul_1 x u : vadd x (smul 1 u) = vadd x u. Proof. apply vec_ext. intro i. unfold vadd, smul. ring. Qed.
Lemma lin_der a t : derivable_pt_lim (fun t => t * a) t a.
Proof.
  assert (D := derivable_pt_lim_mult id (fct_cte a) t 1 0 (derivable_pt_lim_id t) (derivable_pt_lim_const a t)).
  replace (1 * fct_cte a t + id t * 0) with a in D by (unfold fct_cte, id; ring). exact D.
Qed.
Lemma quad_der a t : derivable_pt_lim (fun t => t * t * a) t (2 * t * a).
Proof.
  assert (D := derivable_pt_lim_mult id (fun t => t * a) t 1 a (derivable_pt_lim_id t) (lin_der a t)).
  replace (1 * (t * a) + id t * a) with (2 * t * a) in D by (unfold id; ring).
  intros e He. destruct (D e He) as [delta Hd]. exists delta. intros h H1 H2. specialize (Hd h H1 H2). unfold mult_fct, id in Hd. 
  eapply Rle_lt_trans; [|exact Hd]. right. f_equal. field. exact H1.
Qed.
Section Flat.
  Variables (d : nat) (f : vec -> R) (g : vec -> vec) (L : R).
  Hypothesis Gr : is_gradient d f g.
  Hypothesis Lip : lipschitz d L g.
  Lemma quadratic_bound x u : f (vadd x u) <= f x + dot d (g x) u + L / 2 * dot d u u.
  Proof.
    set (psi := fun t => f (vadd x (smul t u)) - t * dot d (g x) u - t * t * (L / 2 * dot d u u)).
    set (psi' := fun t => dot d (g (vadd x (smul t u))) u - dot d (g x) u - 2 * t * (L / 2 * dot d u u)).
    assert (Der : forall t, derivable_pt_lim psi t (psi' t)).
    { intro t. unfold psi, psi'. apply derivable_pt_lim_minus; [apply derivable_pt_lim_minus|].
      - apply Gr.
      - apply lin_der.
      - apply quad_der. }
    destruct (MVT_cor2 psi psi' 0 1) as (c & E & C); [lra|intros; apply Der|].
    assert (N : psi' c <= 0).
    { unfold psi'. rewrite <- dot_sub_l. pose proof (dot_le_nrm d (vsub (g (vadd x (smul c u))) (g x)) u) as Q.
      pose proof (Lip (vadd x (smul c u)) x) as Q2. replace (vsub (vadd x (smul c u)) x) with (smul c u) in Q2 by (apply vec_ext; intro i; unfold vadd, vsub, smul; ring).
      rewrite nrm_smul, Rabs_pos_eq in Q2 by lra. rewrite <- (nrm_sq d u). pose proof (nrm_nonneg d u) as Nu.
      apply (Rmult_le_compat_r (nrm d u)) in Q2; [|exact Nu]. lra. }
    unfold psi in E. rewrite flat_smul_0, flat_smul_1 in E. lra.
  Qed.
  Variable l : R.
  Hypothesis L0 : 0 < l.
  Hypothesis L1 : l * L <= 1.
  Definition flat_step (x : vec) : vec := vadd x (smul (- l) (g x)).
  Lemma flat_decrease x : f (flat_step x) <= f x - l / 2 * dot d (g x) (g x).
  Proof.
    unfold flat_step. eapply Rle_trans; [apply quadratic_bound|]. rewrite !dot_smul_r, dot_smul_l. pose proof (dot_nonneg d (g x)) as N. set (q := dot d (g x) (g x)) in *.
    assert (l * (l * L) * q <= l * 1 * q) by (apply Rmult_le_compat_r; [exact N|]; apply Rmult_le_compat_l; lra). lra.
  Qed.
  Let it (n : nat) (x : vec) : vec := Nat.iter n flat_step x.
  Lemma flat_sum x n : f (it n x) + l / 2 * Rsum n (fun k => dot d (g (it k x)) (g (it k x))) <= f x.
  Proof.
    induction n as [|n IH]; [simpl; lra|]. change (it (S n) x) with (flat_step (it n x)). cbn [Rsum]. pose proof (flat_decrease (it n x)). lra.
  Qed.
  Lemma flat_mono x n : f (it (S n) x) <= f (it n x).
  Proof. change (it (S n) x) with (flat_step (it n x)). pose proof (flat_decrease (it n x)) as D. pose proof (dot_nonneg d (g (it n x))). assert (0 <= l / 2 * dot d (g (it n x)) (g (it n x))) by (apply Rmult_le_pos; lra). lra. Qed.
  Lemma flat_some x n B : (0 < n)%nat -> (forall y, B <= f y) -> exists k, (k < n)%nat /\ dot d (g (it k x)) (g (it k x)) <= 2 * (f x - B) / (l * INR n).
  Proof.
    intros N Bd. pose proof (flat_sum x n) as S. set (u := fun k => dot d (g (it k x)) (g (it k x))) in *. set (q := 2 * (f x - B) / (l * INR n)).
    assert (In : 0 < INR n) by (now apply lt_0_INR).
    assert (Sm : Rsum n u <= INR n * q).
    { replace (INR n * q) with (2 / l * (f x - B)) by (unfold q; field; lra). specialize (Bd (it n x)). apply (Rmult_le_reg_l (l / 2)); [lra|].
      replace (l / 2 * (2 / l * (f x - B))) with (f x - B) by (field; lra). lra. }
    clearbody q. clear - N Sm. assert (D : (exists k, (k < n)%nat /\ u k <= q) \/ forall k, (k < n)%nat -> q < u k).
    { clear N Sm. induction n as [|n [(k & K & U)|A]]; [right; lia|left; exists k; split; [lia|exact U]|].
      destruct (Rle_lt_dec (u n) q) as [U|U]; [left; exists n; split; [lia|exact U]|right]. intros k K. destruct (Nat.eq_dec k n) as [->|]; [exact U|apply A; lia]. }
    destruct D as [D|D]; [exact D|]. exfalso. assert (INR n * q < Rsum n u); [|lra]. clear Sm. induction n as [|n IH]; [lia|]. cbn [Rsum]. rewrite S_INR.
    assert (U : q < u n) by (apply D; lia). destruct n as [|n]; [simpl; lra|]. assert (INR (S n) * q < Rsum (S n) u) by (apply IH; [lia|]; intros k K; apply D; lia). lra.
  Qed.
  Lemma flat_vanish x B : (forall y, B <= f y) -> forall e, 0 < e -> exists N, forall n, (N <= n)%nat -> nrm d (g (it n x)) < e.
  Proof.
    intros Bd e He. set (s := fun n => f (it n x)).
    assert (Dec : Un_decreasing s) by (intro n; apply flat_mono).
    assert (Lb : has_lb s) by (exists (- B); intros z (n & ->); unfold opp_seq, s; specialize (Bd (it n x)); lra).
    destruct (decreasing_cv s Dec Lb) as (lim & Cv). destruct (Cv (l / 4 * (e * e))) as (N & HN); [apply Rmult_gt_0_compat; [lra|now apply Rmult_gt_0_compat]|].
    exists N. intros n Le. pose proof (HN n Le) as A1. pose proof (HN (S n) (le_S _ _ Le)) as A2. unfold R_dist in A1, A2. apply Rabs_def2 in A1, A2.
    pose proof (flat_decrease (it n x)) as D. change (f (flat_step (it n x))) with (s (S n)) in D. change (f (it n x)) with (s n) in D.
    rewrite <- nrm_sq in D. pose proof (nrm_nonneg d (g (it n x))) as Nn. set (q := nrm d (g (it n x))) in *.
    destruct (Rlt_le_dec q e) as [Q|Q]; [exact Q|]. exfalso. assert (e * e <= q * q) by (apply Rmult_le_compat; lra).
    assert (l / 2 * (e * e) <= l / 2 * (q * q)) by (apply Rmult_le_compat_l; lra). lra.
  Qed.
  Lemma flat_convex x z n : convex d f g -> INR n * (f (it n x) - f z) <= (dot d (vsub x z) (vsub x z) - dot d (vsub (it n x) z) (vsub (it n x) z)) / (2 * l).
  Proof.
    intro Cx. induction n as [|n IH]; [simpl; unfold Rdiv; lra|]. pose proof (flat_mono x n) as Mo.
    change (it (S n) x) with (flat_step (it n x)) in *. set (y := it n x) in *.
    assert (St : f (flat_step y) - f z <= (dot d (vsub y z) (vsub y z) - dot d (vsub (flat_step y) z) (vsub (flat_step y) z)) / (2 * l)).
    { pose proof (flat_decrease y) as D. pose proof (Cx y z) as C.
      replace (vsub (flat_step y) z) with (vadd (vsub y z) (smul (- l) (g y))) by (apply vec_ext; intro i; unfold flat_step, vadd, vsub, smul; ring).
      rewrite dot_add_l, !dot_add_r, !dot_smul_l, !dot_smul_r, (dot_comm d (vsub y z) (g y)).
      assert (Q : dot d (g y) (vsub z y) = - dot d (g y) (vsub y z)) by (rewrite !dot_sub_r; ring). rewrite Q in C.
      set (w := dot d (g y) (vsub y z)) in *. set (q := dot d (g y) (g y)) in *.
      replace ((dot d (vsub y z) (vsub y z) - (dot d (vsub y z) (vsub y z) + - l * w + (- l * w + - l * (- l * q)))) / (2 * l)) with (w - l / 2 * q) by (field; lra). lra. }
    rewrite S_INR. assert (0 <= INR n) by apply pos_INR. assert (INR n * (f (flat_step y) - f z) <= INR n * (f y - f z)) by (apply Rmult_le_compat_l; lra).
    unfold Rdiv in *. lra.
  Qed.
  Lemma flat_strong mu z x : strongly_convex d mu f g -> (forall y, f z <= f y) ->
    dot d (vsub (flat_step x) z) (vsub (flat_step x) z) <= (1 - l * mu) * dot d (vsub x z) (vsub x z).
  Proof.
    intros Cx Mn. pose proof (flat_decrease x) as D. pose proof (Cx x z) as C. specialize (Mn (flat_step x)).
    replace (vsub (flat_step x) z) with (vadd (vsub x z) (smul (- l) (g x))) by (apply vec_ext; intro i; unfold flat_step, vadd, vsub, smul; ring).
    rewrite dot_add_l, !dot_add_r, !dot_smul_l, !dot_smul_r, (dot_comm d (vsub x z) (g x)).
    assert (Q : dot d (g x) (vsub z x) = - dot d (g x) (vsub x z)) by (rewrite !dot_sub_r; ring). rewrite Q in C.
    assert (Q2 : dot d (vsub z x) (vsub z x) = dot d (vsub x z) (vsub x z)) by (rewrite !dot_sub_l, !dot_sub_r; ring). rewrite Q2 in C.
    set (w := dot d (g x) (vsub x z)) in *. set (q := dot d (g x) (g x)) in *. set (D0 := dot d (vsub x z) (vsub x z)) in *.
    assert (A : mu / 2 * D0 - w + l / 2 * q <= 0) by lra. apply (Rmult_le_compat_l (2 * l)) in A; [|lra]. lra.
  Qed.
  Lemma flat_strong_iter mu z x n : strongly_convex d mu f g -> (forall y, f z <= f y) ->
    dot d (vsub (it n x) z) (vsub (it n x) z) <= (1 - l * mu) ^ n * dot d (vsub x z) (vsub x z).
  Proof.
    intros Cx Mn. destruct (Rle_lt_dec 0 (1 - l * mu)) as [P|P].
    - induction n as [|n IH]; [simpl; lra|]. change (it (S n) x) with (flat_step (it n x)). eapply Rle_trans; [apply (flat_strong mu z _ Cx Mn)|].
      simpl pow. rewrite Rmult_assoc. now apply Rmult_le_compat_l.
    - assert (Z : forall y, dot d (vsub y z) (vsub y z) = 0).
      { intro y. pose proof (flat_strong mu z y Cx Mn) as S. pose proof (dot_nonneg d (vsub (flat_step y) z)). pose proof (dot_nonneg d (vsub y z)). nra. }
      rewrite !Z. lra.
  Qed.
  Lemma flat_run h s (p : sgd_param) n t : plain_sgd h -> lr h = l -> manifold_of p = euclidean -> gradient_run h s g p t n (it n (val p)).
  Proof.
    intros H El E. destruct (one_run euclidean g h (fun _ => True) H) with (n := n) (t := t) (s := s) (p := p) as (o' & T & V); auto.
    exists o'. split; [exact T|]. unfold it, flat_step. rewrite <- El. exact V.
  Qed.
End Flat.

(** ** Learning rates up to 2 / L *)
Section Wide.
  Variables (d : nat) (f : vec -> R) (g : vec -> vec) (L l : R).
  Hypothesis Gr : is_gradient d f g.
  Hypothesis Lip : lipschitz d L g.
  Hypothesis L0 : 0 < l.
  Hypothesis L2 : l * L < 2.
  Let c := l * (1 - l * L / 2).
  Let it (n : nat) (x : vec) : vec := Nat.iter n (flat_step g l) x.
  Lemma wide_pos : 0 < c. Proof. unfold c. apply Rmult_lt_0_compat; lra. Qed.
  Lemma wide_decrease x : f (flat_step g l x) <= f x - c * dot d (g x) (g x).
  Proof. unfold flat_step, c. eapply Rle_trans; [apply (quadratic_bound d f g L Gr Lip)|]. rewrite !dot_smul_r, dot_smul_l. right. field. Qed.
  Lemma wide_sum x n : f (it n x) + c * Rsum n (fun k => dot d (g (it k x)) (g (it k x))) <= f x.
  Proof.
    induction n as [|n IH]; [simpl; lra|]. change (it (S n) x) with (flat_step g l (it n x)). cbn [Rsum]. pose proof (wide_decrease (it n x)). lra.
  Qed.
  Lemma wide_mono x n : f (it (S n) x) <= f (it n x).
  Proof. change (it (S n) x) with (flat_step g l (it n x)). pose proof (wide_decrease (it n x)) as D. pose proof (dot_nonneg d (g (it n x))). pose proof wide_pos. assert (0 <= c * dot d (g (it n x)) (g (it n x))) by (apply Rmult_le_pos; lra). lra. Qed.
  Lemma wide_some x n B : (0 < n)%nat -> (forall y, B <= f y) -> exists k, (k < n)%nat /\ dot d (g (it k x)) (g (it k x)) <= (f x - B) / (c * INR n).
  Proof.
    pose proof wide_pos as C0.
    intros N Bd. pose proof (wide_sum x n) as S. set (u := fun k => dot d (g (it k x)) (g (it k x))) in *. set (q := (f x - B) / (c * INR n)).
    assert (In : 0 < INR n) by (now apply lt_0_INR).
    assert (Sm : Rsum n u <= INR n * q).
    { replace (INR n * q) with (1 / c * (f x - B)) by (unfold q; field; split; apply Rgt_not_eq; assumption). specialize (Bd (it n x)). apply (Rmult_le_reg_l c); [lra|].
      replace (c * (1 / c * (f x - B))) with (f x - B) by (field; apply Rgt_not_eq; assumption). lra. }
    clearbody q. clear - N Sm. assert (D : (exists k, (k < n)%nat /\ u k <= q) \/ forall k, (k < n)%nat -> q < u k).
    { clear N Sm. induction n as [|n [(k & K & U)|A]]; [right; lia|left; exists k; split; [lia|exact U]|].
      destruct (Rle_lt_dec (u n) q) as [U|U]; [left; exists n; split; [lia|exact U]|right]. intros k K. destruct (Nat.eq_dec k n) as [->|]; [exact U|apply A; lia]. }
    destruct D as [D|D]; [exact D|]. exfalso. assert (INR n * q < Rsum n u); [|lra]. clear Sm. induction n as [|n IH]; [lia|]. cbn [Rsum]. rewrite S_INR.
    assert (U : q < u n) by (apply D; lia). destruct n as [|n]; [simpl; lra|]. assert (INR (S n) * q < Rsum (S n) u) by (apply IH; [lia|]; intros k K; apply D; lia). lra.
  Qed.
  Lemma wide_vanish x B : (forall y, B <= f y) -> forall e, 0 < e -> exists N, forall n, (N <= n)%nat -> nrm d (g (it n x)) < e.
  Proof.
    pose proof wide_pos as C0.
    intros Bd e He. set (s := fun n => f (it n x)).
    assert (Dec : Un_decreasing s) by (intro n; apply wide_mono).
    assert (Lb : has_lb s) by (exists (- B); intros z (n & ->); unfold opp_seq, s; specialize (Bd (it n x)); lra).
    destruct (decreasing_cv s Dec Lb) as (lim & Cv). destruct (Cv (c / 2 * (e * e))) as (N & HN); [apply Rmult_gt_0_compat; [lra|now apply Rmult_gt_0_compat]|].
    exists N. intros n Le. pose proof (HN n Le) as A1. pose proof (HN (S n) (le_S _ _ Le)) as A2. unfold R_dist in A1, A2. apply Rabs_def2 in A1, A2.
    pose proof (wide_decrease (it n x)) as D. change (f (flat_step g l (it n x))) with (s (S n)) in D. change (f (it n x)) with (s n) in D.
    rewrite <- nrm_sq in D. pose proof (nrm_nonneg d (g (it n x))) as Nn. set (q := nrm d (g (it n x))) in *.
    destruct (Rlt_le_dec q e) as [Q|Q]; [exact Q|]. exfalso. assert (e * e <= q * q) by (apply Rmult_le_compat; lra).
    assert (c * (e * e) <= c * (q * q)) by (apply Rmult_le_compat_l; lra). lra.
  Qed.
End Wide.
