(** Lemmas: RiemannianSGD on the sphere with a linear loss converges. *)
From Coq Require Import Reals List Arith Lra Lia Psatz.
From Verif Require Import RVec OptimModel OptimProofs OptimDecaySpec GroupingSpec CheckpointSpec FixedSpec FixedProofs.
From Verif Require SphereModel SphereSpec.
From Verif Require Import OptimInstances.
Import ListNotations.
Local Open Scope R_scope.

(** ** Training one parameter without momentum iterates one function *)
Section One.
  Variables (M : manifold) (g : vec -> vec) (h : sgd_hyper) (P : vec -> Prop).
  Definition step (x : vec) : vec := retr M x (smul (- lr h) (egrad2rgrad M x (g x))).
  Hypothesis H : plain_sgd h.
  Hypothesis Pstep : forall x, P x -> P (step x).
  Hypothesis Pproj : forall x, P x -> projx M x = x.
  Lemma one_run : forall n t s (p : sgd_param), manifold_of p = M -> P (val p) ->
    exists o', train_sgd (fun _ h => h) (fun _ vs _ => Dense (g (hd vzero vs))) t n [{| hyp := h; steps := s; params := [p] |}] = (o', Ok) /\
    map val (concat (map params o')) = [Nat.iter n step (val p)].
  Proof.
    induction n as [|n IH]; intros t s p E X; [now eexists|]. cbn [train_sgd].
    unfold sgd_step. cbn [map concat app params assign_groups assign combine fst snd each hyp steps hd]. unfold sgd_step_group. cbn [hyp steps params loop].
    destruct H as (Mo & W & St).
    assert (HM : has_momentum h = false) by (unfold has_momentum; rewrite Mo; destruct (Rlt_dec 0 0); [lra|reflexivity]).
    unfold sgd_update at 1. cbn [grad man val state]. unfold sgd_direction. rewrite HM. unfold decayed. rewrite W.
    replace (vadd (g (val p)) (smul 0 (val p))) with (g (val p)) by (apply vec_ext; intro j; unfold vadd, smul; ring).
    change (manifold_of {| man := man p; val := val p; grad := Dense (g (val p)); state := state p |}) with (manifold_of p). rewrite E. fold (step (val p)).
    assert (I : Nat.iter (S n) step (val p) = Nat.iter n step (step (val p))) by (clear; induction n as [|n IH]; [reflexivity|simpl in *; now rewrite IH]).
    assert (K : forall s' g' st', exists o', train_sgd (fun _ h => h) (fun _ vs _ => Dense (g (hd vzero vs))) (S t) n
        [{| hyp := h; steps := s'; params := [{| man := man p; val := step (val p); grad := g'; state := st' |}] |}] = (o', Ok) /\
      map val (concat (map params o')) = [Nat.iter n step (step (val p))]).
    { intros s' g' st'. apply (IH (S t) s' {| man := man p; val := step (val p); grad := g'; state := st' |}); [exact E|now apply Pstep]. }
    rewrite I. destruct (stabilize h) as [[|N]|] eqn:Sh; [now elim St| |apply K].
    destruct (_ =? _)%nat; [|apply K]. cbn [map]. unfold sgd_stabilize. cbn [man val grad state].
    unfold manifold_of in E. destruct (man p) as [M'|]; [|apply K]. subst M'. rewrite Pproj by now apply Pstep. apply K.
  Qed.
End One.

(** ** One step *)
Section Step.
  Variables (d : nat) (a : vec) (l : R).
  Hypothesis A0 : 0 < nrm d a.
  Hypothesis L0 : 0 < l.
  Hypothesis L1 : l * nrm d a <= 1.
  Let A := nrm d a.
  Definition sph_step (x : vec) : vec := retr (sphere d) x (smul (- l) (egrad2rgrad (sphere d) x a)).
  Definition gap (x : vec) : R := (A + dot d a x) / (A - dot d a x).
  Definition rate : R := (1 + l * A) / (1 + 2 * (l * A)).
  Lemma range x : SphereSpec.on_sphere d None x -> - A <= dot d a x <= A.
  Proof.
    intros [X _]. pose proof (cauchy_schwarz_nrm d a x) as C. unfold nrm in C at 2. rewrite X, sqrt_1, Rmult_1_r in C. fold A in C.
    unfold Rabs in C. destruct Rcase_abs; lra.
  Qed.
  Lemma step_vals x : SphereSpec.on_sphere d None x -> let p := dot d a x in
    let D := sqrt (1 + l * l * (A * A - p * p)) in
    SphereSpec.on_sphere d None (sph_step x) /\ 1 <= D /\ D * D = 1 + l * l * (A * A - p * p) /\
    dot d a (sph_step x) = (p - l * (A * A - p * p)) / D.
  Proof.
    intros X p D. pose proof (range x X) as Rg. fold p in Rg. assert (X1 : dot d x x = 1) by apply X.
    assert (S0 : 0 <= l * l * (A * A - p * p)) by (apply Rmult_le_pos; [apply Rle_0_sqr|]; replace (A * A - p * p) with ((A - p) * (A + p)) by ring; apply Rmult_le_pos; lra).
    assert (DD : D * D = 1 + l * l * (A * A - p * p)) by (apply sqrt_def; lra).
    assert (D1 : 1 <= D) by (rewrite <- sqrt_1; apply sqrt_le_1; lra).
    assert (AA : dot d a a = A * A) by (symmetry; apply nrm_sq).
    set (w := vadd x (smul (- l) (vsub a (smul (dot d x a) x)))).
    assert (Pc : dot d x a = p) by apply dot_comm.
    assert (WW : dot d w w = 1 + l * l * (A * A - p * p)).
    { unfold w. rewrite !dot_add_l, !dot_add_r, !dot_smul_l, !dot_smul_r, !dot_sub_l, !dot_sub_r, !dot_smul_l, !dot_smul_r, X1, AA, !Pc, (dot_comm d a x), !Pc. ring. }
    assert (WA : dot d a w = p - l * (A * A - p * p)).
    { unfold w. rewrite !dot_add_r, !dot_smul_r, !dot_sub_r, !dot_smul_r, AA, !Pc, (dot_comm d a x), !Pc. ring. }
    assert (Y : sph_step x = vdiv w D).
    { unfold sph_step. cbn [sphere retr egrad2rgrad]. unfold SphereModel.retr, SphereModel.projx, SphereModel.proju, SphereModel.project_on_subspace.
      fold w. unfold nrm at 1. now rewrite WW. }
    rewrite Y. split; [|split; [exact D1|split; [exact DD|]]].
    - split; [|exact I]. rewrite dot_vdiv_l, dot_vdiv_r, WW, <- DD. field. lra.
    - now rewrite dot_vdiv_r, WA.
  Qed.
  Lemma step_gap x : SphereSpec.on_sphere d None x -> dot d a x < A ->
    dot d a (sph_step x) < A /\ gap (sph_step x) <= rate * rate * gap x.
  Proof.
    intros X Lt. pose proof (range x X) as Rg. destruct (step_vals x X) as (_ & D1 & DD & V). revert D1 DD V.
    set (p := dot d a x) in *. set (D := sqrt _). intros D1 DD V.
    set (s := A * A - p * p) in *. assert (S0 : 0 <= s) by (unfold s; replace (A * A - p * p) with ((A - p) * (A + p)) by ring; apply Rmult_le_pos; lra).
    set (N := A * D - p + l * s).
    assert (Q1 : 0 < (A - p) * (1 + l * (A + p))) by (apply Rmult_lt_0_compat; [lra|]; assert (0 <= l * (A + p)) by (apply Rmult_le_pos; lra); lra).
    assert (NQ : (A - p) * (1 + l * (A + p)) <= N) by (unfold N, s; nra).
    assert (V' : A - dot d a (sph_step x) = N / D) by (rewrite V; unfold N; field; lra).
    assert (V'' : A + dot d a (sph_step x) = (A * D + p - l * s) / D) by (rewrite V; field; lra).
    assert (NP : 0 < N / D) by (apply Rdiv_lt_0_compat; lra).
    split; [lra|]. unfold gap. rewrite V', V''.
    replace ((A * D + p - l * s) / D / (N / D)) with ((A * D + p - l * s) / N) by (field; lra).
    assert (K : (A * D + p - l * s) * N = s * (1 + l * p) ^ 2).
    { unfold N. replace ((A * D + p - l * s) * (A * D - p + l * s)) with (A * A * (D * D) - (p - l * s) ^ 2) by ring. rewrite DD. unfold s. ring. }
    replace ((A * D + p - l * s) / N) with (s * (1 + l * p) ^ 2 / (N * N)) by (rewrite <- K; field; lra).
    set (r := (1 + l * p) / (1 + l * (A + p))).
    assert (T0 : 0 <= 1 + l * p) by (assert (l * - A <= l * p) by (apply Rmult_le_compat_l; lra); fold A in L1; lra).
    assert (T1 : 0 < 1 + l * (A + p)) by (assert (0 <= l * (A + p)) by (apply Rmult_le_pos; lra); lra).
    assert (R0 : 0 <= r) by (unfold r; apply Rmult_le_pos; [exact T0|]; left; now apply Rinv_0_lt_compat).
    assert (E0 : 0 < l * A) by (now apply Rmult_lt_0_compat).
    assert (R1 : r <= rate).
    { unfold r, rate. apply (Rmult_le_reg_r ((1 + l * (A + p)) * (1 + 2 * (l * A)))); [apply Rmult_lt_0_compat; lra|].
      replace ((1 + l * p) / (1 + l * (A + p)) * ((1 + l * (A + p)) * (1 + 2 * (l * A)))) with ((1 + l * p) * (1 + 2 * (l * A))) by (field; lra).
      replace ((1 + l * A) / (1 + 2 * (l * A)) * ((1 + l * (A + p)) * (1 + 2 * (l * A)))) with ((1 + l * A) * (1 + l * (A + p))) by (field; lra).
      assert (l * p <= l * A) by (apply Rmult_le_compat_l; lra). nra. }
    assert (G0 : 0 <= (A + p) / (A - p)) by (apply Rmult_le_pos; [lra|]; left; apply Rinv_0_lt_compat; lra).
    apply Rle_trans with (r * r * ((A + p) / (A - p))).
    - apply Rle_trans with (s * (1 + l * p) ^ 2 / (((A - p) * (1 + l * (A + p))) * ((A - p) * (1 + l * (A + p))))).
      + unfold Rdiv. apply Rmult_le_compat_l; [apply Rmult_le_pos; [exact S0|apply pow2_ge_0]|].
        apply Rinv_le_contravar; [now apply Rmult_lt_0_compat|]. apply Rmult_le_compat; lra.
      + right. unfold r, s. field. split; lra.
    - apply Rmult_le_compat_r; [exact G0|]. apply Rmult_le_compat; lra.
  Qed.
  Lemma iter_gap n x : SphereSpec.on_sphere d None x -> dot d a x < A ->
    SphereSpec.on_sphere d None (Nat.iter n sph_step x) /\ dot d a (Nat.iter n sph_step x) < A /\ gap (Nat.iter n sph_step x) <= (rate ^ n) ^ 2 * gap x.
  Proof.
    intros X Lt. induction n as [|n (I1 & I2 & I3)]; [simpl; repeat split; [apply X|exact Lt|lra]|].
    change (Nat.iter (S n) sph_step x) with (sph_step (Nat.iter n sph_step x)). split; [apply step_vals, I1|]. destruct (step_gap _ I1 I2) as [J1 J2]. split; [exact J1|].
    eapply Rle_trans; [exact J2|]. replace ((rate ^ S n) ^ 2 * gap x) with (rate * rate * ((rate ^ n) ^ 2 * gap x)) by (simpl; ring).
    apply Rmult_le_compat_l; [apply Rle_0_sqr|exact I3].
  Qed.
  (** distance to the minimiser -a/|a| *)
  Lemma dist_gap y : SphereSpec.on_sphere d None y -> dot d a y < A -> nrm d (vadd y (vdiv a A)) ^ 2 <= 4 * gap y.
  Proof.
    intros Y Lt. pose proof (range y Y) as Rg. assert (Y1 : dot d y y = 1) by apply Y. assert (AA : dot d a a = A * A) by (symmetry; apply nrm_sq).
    rewrite nrm_sq2. rewrite !dot_add_l, !dot_add_r, !dot_vdiv_l, !dot_vdiv_r, Y1, AA, (dot_comm d y a). unfold gap.
    set (p := dot d a y) in *. replace (1 + p / A + (p / A + A * A / A / A)) with (2 * ((A - p) / A) * ((A + p) / (A - p))) by (field; lra).
    apply Rmult_le_compat_r; [apply Rmult_le_pos; [lra|]; left; apply Rinv_0_lt_compat; lra|].
    assert ((A - p) / A <= 2); [|lra]. apply (Rmult_le_reg_r A); [lra|]. unfold Rdiv. rewrite Rmult_assoc, Rinv_l by lra. lra.
  Qed.
End Step.
