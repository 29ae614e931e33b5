(** Where the parameters of the vector manifolds rest, and where they do not. *)
From Coq Require Import Reals List Arith Lra Lia.
From Verif Require Import RVec OptimModel OptimProofs OptimDecaySpec GroupingSpec CheckpointSpec CheckpointInst FixedSpec FixedProofs.
From Verif Require StereoModel StereoProofs StereoSpec SphereModel SphereSpec LorentzModel LorentzSpec LorentzProofs2.
From Verif Require Import OptimInstances.
Import ListNotations.
Local Open Scope R_scope.

Lemma add_0 x : vadd x vzero = x. Proof. apply vec_ext. intro i. unfold vadd, vzero. ring. Qed.
Lemma dot_0 n x : dot n x vzero = 0.
Proof. unfold dot, Rsum. induction n as [|n IH]; simpl in *; [reflexivity|]. unfold vzero in *. rewrite ?Rmult_0_r, ?Rplus_0_r in *. lra. Qed.
Lemma sphere_rests n x : SphereSpec.on_sphere n None x -> resting (sphere n) x.
Proof.
  intros [H _]. assert (P : SphereModel.projx n None x = x).
  { unfold SphereModel.projx, SphereModel.project_on_subspace. apply vec_ext. intro i. unfold vdiv, nrm. rewrite H, sqrt_1. lra. }
  assert (U : SphereModel.proju n None x vzero = vzero).
  { unfold SphereModel.proju, SphereModel.project_on_subspace. apply vec_ext. intro i. unfold vsub, smul. rewrite dot_0. unfold vzero. ring. }
  unfold resting. cbn [sphere retr retr_transp projx proju]. unfold SphereModel.retr, SphereModel.transp. rewrite add_0, P, U. repeat split.
Qed.
Lemma euclidean_rests x : resting euclidean x.
Proof. unfold resting. cbn. rewrite add_0. repeat split. Qed.
Lemma ball_rests n k x : projx (ball n k) x = x -> resting (ball n k) x.
Proof.
  cbn [ball projx]. intro P.
  unfold resting. cbn [ball retr retr_transp projx proju]. rewrite add_0, P. repeat split. f_equal.
  unfold StereoModel.parallel_transport, StereoModel.gyration. apply vec_ext. intro i. rewrite !dot_0. unfold vdiv, smul, vadd, vzero. unfold Rdiv. ring.
Qed.

(** ** Momentum: the critical point of OptimInstances.jump *)
Lemma north_critical : critical_gradients (fun _ => Dense north) [at_north] /\ resting (sphere 2) north.
Proof.
  split.
  - intros [|i] p H; [|destruct i; discriminate]. injection H as <-. right. exists north. split; [reflexivity|].
    apply vec_ext. intro i. cbn. unfold SphereModel.proju, SphereModel.project_on_subspace, vsub, smul, dot, Rsum, vzero, north. simpl. destruct i; ring.
  - apply sphere_rests. split; [|exact I]. unfold dot, Rsum, north. simpl. ring.
Qed.
Lemma momentum_moves : exists o', train_sgd (fun _ h => h) (fun _ _ _ => Dense north) 0 1 [{| hyp := h_jump; steps := None; params := [at_north] |}] = (o', Ok) /\
  exists y, map val (concat (map params o')) = [y] /\ y O = -1.
Proof.
  destruct (train_sgd_runs (fun _ h => h) (fun _ _ _ => Dense north)) with (n := 1%nat) (t := O) (o := [{| hyp := h_jump; steps := None; params := [at_north] |}]) as (o' & T & _).
  - intros t vs i. discriminate.
  - auto.
  - repeat constructor. discriminate.
  - exists o'. split; [exact T|]. cbn [train_sgd] in T. unfold sgd_step in T. cbn [map concat params app assign_groups assign combine fst snd each hyp steps] in T.
    unfold sgd_step_group in T. cbn [hyp steps params loop] in T. change {| man := man at_north; val := val at_north; grad := Dense north; state := state at_north |} with at_north in T.
    pose proof jump as J. destruct (sgd_update h_jump at_north) as [q s]. cbn [fst] in J. destruct s; try discriminate T. cbn in T. injection T as <-. exists (val q). now split.
Qed.

(** ** Lorentz: the clamp of the norm moves a parameter whose gradient is zero *)
Section Drift.
  Variables (d : nat) (k : R).
  Hypothesis K : 0 < k.
  Definition growth : R := cosh (sqrt StereoModel.e8 / sqrt k).
  Lemma inner_0 x : LorentzModel.inner d x vzero = 0.
  Proof. unfold LorentzModel.inner, LorentzModel.tl, vzero. replace (Rsum d _) with (dot d (fun i => x (S i)) vzero) by reflexivity. rewrite dot_0. ring. Qed.
  Lemma lorentz_egrad_0 x : egrad2rgrad (lorentz d k) x vzero = vzero.
  Proof.
    cbn. replace (LorentzModel.flip vzero) with vzero by (apply vec_ext; intros [|i]; unfold LorentzModel.flip, vzero; ring).
    rewrite inner_0. apply vec_ext. intro i. unfold vadd, smul, vzero. ring.
  Qed.
  Lemma lorentz_retr_0 x i : retr (lorentz d k) x vzero (S i) = growth * x (S i).
  Proof.
    cbn [lorentz retr]. unfold LorentzModel.l_expmap.
    replace (LorentzModel.project_u d k x vzero) with vzero by (unfold LorentzModel.project_u; rewrite inner_0; apply vec_ext; intro j; unfold vadd, smul, vzero; ring).
    rewrite LorentzProofs2.project_space. unfold LorentzModel.expmap, vadd, smul, vdiv, LorentzModel.norm. rewrite inner_0.
    replace (StereoModel.clamp_min StereoModel.e8 0) with StereoModel.e8.
    - fold growth. unfold vzero, Rdiv. rewrite Rmult_0_r, Rmult_0_l. ring.
    - assert (0 < StereoModel.e8) by (unfold StereoModel.e8; apply Rinv_0_lt_compat; lra). unfold StereoModel.clamp_min. symmetry. first [apply Rmax_left; lra|apply Rmax_right; lra].
  Qed.
  Definition one_point h s (p : sgd_param) : list sgd_group := [{| hyp := h; steps := s; params := [p] |}].
  Lemma drift_step h s p : plain_sgd h -> man p = Some (lorentz d k) ->
    exists h' s' q, sgd_step (map (fun x => {| hyp := hyp (fst x); steps := steps (fst x); params := snd x |})
      (combine (one_point h s p) (assign_groups (fun _ => Dense vzero) 0 (map params (one_point h s p))))) = (one_point h' s' q, Ok) /\
    plain_sgd h' /\ man q = Some (lorentz d k) /\ forall i, val q (S i) = growth * val p (S i).
  Proof.
    intros P M. unfold sgd_step, one_point. cbn [map params assign_groups assign combine fst snd each hyp steps]. unfold sgd_step_group. cbn [hyp steps params loop].
    set (p1 := {| man := man p; val := val p; grad := Dense vzero; state := state p |}).
    destruct P as (Mo & W & St).
    assert (HM : has_momentum h = false) by (unfold has_momentum; rewrite Mo; destruct (Rlt_dec 0 0); [lra|reflexivity]).
    assert (U : exists q, sgd_update h p1 = (q, Ok) /\ man q = Some (lorentz d k) /\ forall i, val q (S i) = growth * val p (S i)).
    { unfold sgd_update, p1. cbn [grad man val state]. rewrite HM. eexists. split; [reflexivity|]. cbn [man val]. split; [exact M|]. intro i.
      unfold sgd_direction. rewrite HM. unfold decayed. rewrite W.
      replace (vadd vzero (smul 0 (val p))) with vzero by (apply vec_ext; intro j; unfold vadd, smul, vzero; ring).
      unfold manifold_of. cbn [man]. rewrite M, lorentz_egrad_0, smul_zero. apply lorentz_retr_0. }
    destruct U as (q & U & Mq & V). rewrite U.
    assert (P' : plain_sgd h) by (repeat split; assumption).
    destruct (stabilize h) as [[|N]|] eqn:Sh; [now elim St| |].
    - destruct (_ =? _)%nat; [|(do 3 eexists; split; [reflexivity|]; split; [exact P'|split; [exact Mq|exact V]])].
      do 3 eexists. split; [reflexivity|]. split; [exact P'|]. unfold sgd_stabilize. rewrite Mq. cbn [man val]. split; [first [exact Mq|reflexivity]|].
      intro i. cbn [lorentz projx]. rewrite LorentzProofs2.project_space. apply V.
    - (do 3 eexists; split; [reflexivity|]; split; [exact P'|split; [exact Mq|exact V]]).
  Qed.
  Lemma drift h s p : plain_sgd h -> man p = Some (lorentz d k) -> forall n t,
    exists o', train_sgd (fun _ h => h) (fun _ _ _ => Dense vzero) t n (one_point h s p) = (o', Ok) /\
    exists y, map val (concat (map params o')) = [y] /\ forall i, y (S i) = growth ^ n * val p (S i).
  Proof.
    intros P M n. revert h s p P M. induction n as [|n IH]; intros h s p P M t.
    - exists (one_point h s p). split; [reflexivity|]. exists (val p). split; [reflexivity|]. intro i. simpl. ring.
    - destruct (drift_step h s p P M) as (h' & s' & q & E & P' & M' & V). cbn [train_sgd].
      change (sgd_step _) with (sgd_step (map (fun x => {| hyp := hyp (fst x); steps := steps (fst x); params := snd x |})
        (combine (one_point h s p) (assign_groups (fun _ => Dense vzero) 0 (map params (one_point h s p)))))).
      rewrite E. destruct (IH h' s' q P' M' (S t)) as (o' & T & y & Y & Z). exists o'. split; [exact T|]. exists y. split; [exact Y|].
      intro i. rewrite Z, V. simpl. ring.
  Qed.
  Lemma growth_gt : 1 < growth.
  Proof.
    unfold growth. assert (0 < StereoModel.e8) by (unfold StereoModel.e8; apply Rinv_0_lt_compat; lra).
    assert (0 < sqrt StereoModel.e8 / sqrt k) by (apply Rdiv_lt_0_compat; now apply sqrt_lt_R0).
    apply LorentzProofs2.cosh_gt1. lra.
  Qed.
  Lemma drift_unbounded h s p i : plain_sgd h -> man p = Some (lorentz d k) -> val p (S i) <> 0 -> forall B, exists n, forall t,
    exists o', train_sgd (fun _ h => h) (fun _ _ _ => Dense vzero) t n (one_point h s p) = (o', Ok) /\
    exists y, map val (concat (map params o')) = [y] /\ B < Rabs (y (S i)).
  Proof.
    intros P M N B. destruct (Pow_x_infinity growth) with (b := (Rabs B + 1) / Rabs (val p (S i))) as [n Hn].
    { pose proof growth_gt. rewrite Rabs_pos_eq; lra. }
    exists n. intro t. destruct (drift h s p P M n t) as (o' & T & y & Y & Z). exists o'. split; [exact T|]. exists y. split; [exact Y|].
    rewrite Z, Rabs_mult. specialize (Hn n (le_n _)). apply Rge_le in Hn. assert (A := Rabs_pos_lt _ N).
    apply (Rmult_le_compat_r (Rabs (val p (S i)))) in Hn; [|lra]. unfold Rdiv in Hn. rewrite Rmult_assoc, Rinv_l, Rmult_1_r in Hn by lra.
    pose proof (RRle_abs B). lra.
  Qed.
  Lemma zero_critical (ps : list sgd_param) : Forall (fun p => man p = Some (lorentz d k)) ps -> critical_gradients (fun _ => Dense vzero) ps.
  Proof.
    intros F i p N. right. exists vzero. split; [reflexivity|]. rewrite Forall_forall in F. unfold manifold_of. rewrite (F p (nth_error_In _ _ N)). apply lorentz_egrad_0.
  Qed.
End Drift.
Lemma lorentz_drifts d k : 0 < k -> forall h s p, plain_sgd h -> man p = Some (lorentz d k) ->
  critical_gradients (fun _ => Dense vzero) [p] /\
  (forall n t, exists o', train_sgd (fun _ h => h) (fun _ _ _ => Dense vzero) t n [{| hyp := h; steps := s; params := [p] |}] = (o', Ok) /\
     exists y, map val (concat (map params o')) = [y] /\ forall i, y (S i) = cosh (sqrt (/ 10 ^ 8) / sqrt k) ^ n * val p (S i)) /\
  forall i, val p (S i) <> 0 -> forall B, exists n, forall t,
    exists o', train_sgd (fun _ h => h) (fun _ _ _ => Dense vzero) t n [{| hyp := h; steps := s; params := [p] |}] = (o', Ok) /\
    exists y, map val (concat (map params o')) = [y] /\ B < Rabs (y (S i)).
Proof.
  intros K h s p P M. split; [apply (zero_critical d k); now repeat constructor|]. split.
  - intros n t. exact (drift d k h s p P M n t).
  - intros i N B. exact (drift_unbounded d k K h s p i P M N B).
Qed.
(** ** Cases *)
Definition h_plain : sgd_hyper := {| lr := 1; momentum := 0; dampening := 0; weight_decay := 0; nesterov := false; stabilize := Some 2%nat |}.
Definition a_plain : adam_hyper := {| a_lr := 1; beta1 := 9 / 10; beta2 := 99 / 100; eps := / 10 ^ 8; a_decay := 0; amsgrad := false; a_stabilize := Some 2%nat |}.
Definition rest_sphere : sgd_param := at_north.
Definition rest_flat : sgd_param := {| man := None; val := east; grad := NoGrad; state := None |}.
Lemma case_sgd : plain_sgd h_plain /\ plain_adam a_plain /\
  Forall (fun p => resting (manifold_of p) (val p)) [rest_sphere; rest_flat] /\
  critical_gradients (fun i => match i with O => Dense north | _ => NoGrad end) [rest_sphere; rest_flat].
Proof.
  split; [now repeat split|]. split; [now repeat split|]. split.
  - constructor; [exact (proj2 north_critical)|]. constructor; [apply euclidean_rests|constructor].
  - intros [|[|i]] p H.
    + injection H as <-. destruct (proj1 north_critical O at_north eq_refl) as [E|E]; [discriminate|now right].
    + now left.
    + destruct i; discriminate.
Qed.
Lemma case_ball : projx (ball 2 (-1)) vzero = vzero.
Proof.
  cbn. unfold StereoModel.project. destruct Rlt_dec; [|reflexivity]. apply vec_ext. intro i. unfold smul, vdiv, vzero. unfold Rdiv. ring.
Qed.
Lemma case_lorentz : LorentzSpec.on_hyperboloid 1 1 (fun i => match i with O => sqrt 2 | _ => 1 end).
Proof.
  split; [|apply sqrt_lt_R0; lra]. unfold LorentzSpec.minkowski, Rsum. simpl. rewrite sqrt_def by lra. lra.
Qed.
