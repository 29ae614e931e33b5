(** The manifolds of the library as optimizers see them, and concrete cases. *)
From Coq Require Import Reals List Bool Arith Lra Lia.
From Verif Require Import RVec OptimModel OptimSpec OptimProofs OptimProofs2.
From Verif Require SphereModel SphereSpec SphereProofs LorentzModel LorentzSpec LorentzProofs2 StereoModel StereoSpec StereoProps.
Import ListNotations.
Local Open Scope R_scope.

(** manifolds/sphere.py:117-162 without a subspace; retr_transp and component_inner
    from base.py:504-530, 631-661 *)
Definition sphere (n : nat) : manifold := {|
  egrad2rgrad := SphereModel.proju n None;
  egrad_arg := fun x u => u; egrad_same := false;
  retr := SphereModel.retr n None;
  retr_transp := fun x u v => let y := SphereModel.retr n None x u in (y, SphereModel.transp n None x y v);
  component_inner := fun x u => vconst (dot n u u);
  projx := SphereModel.projx n None;
  proju := SphereModel.proju n None |}.
(** manifolds/lorentz/__init__.py:85-150, 247 *)
Definition lorentz (d : nat) (k : R) : manifold := {|
  egrad2rgrad := fun x u => snd (LorentzModel.egrad2rgrad d k x u);
  egrad_arg := fun x u => fst (LorentzModel.egrad2rgrad d k x u); egrad_same := false;
  retr := LorentzModel.l_expmap d k true true;
  retr_transp := fun x u v => let y := LorentzModel.l_expmap d k true true x u in (y, LorentzModel.parallel_transport d k x y v);
  component_inner := fun x u => vconst (LorentzModel.inner d u u);
  projx := LorentzModel.project d k;
  proju := LorentzModel.project_u d k |}.
(** manifolds/stereographic/manifold.py:149-234 (float64: eps = 1e-5), k < 0 *)
Definition ball (n : nat) (k : R) : manifold := {|
  egrad2rgrad := StereoModel.egrad2rgrad n k;
  egrad_arg := fun x u => u; egrad_same := false;
  retr := fun x u => StereoModel.project n StereoModel.e15 (/ 10 ^ 5) k (vadd x u);
  retr_transp := fun x u v => let y := StereoModel.project n StereoModel.e15 (/ 10 ^ 5) k (vadd x u) in (y, StereoModel.parallel_transport n k x y v);
  component_inner := fun x u => vconst (StereoModel.inner n k x u u);
  projx := StereoModel.project n StereoModel.e15 (/ 10 ^ 5) k;
  proju := fun x u => u |}.

Lemma sphere_norm n x : SphereSpec.on_sphere n None x -> nrm n x <> 0.
Proof. intros [H _]. unfold nrm. rewrite H, sqrt_1. lra. Qed.
Lemma sphere_lawful n : lawful (sphere n) (SphereSpec.on_sphere n None) (SphereSpec.tangent n None).
Proof.
  split; cbn [sphere lorentz ball euclidean egrad2rgrad retr retr_transp component_inner projx proju fst snd].
  - intros x u v [U _] [V _]. split; [|exact I]. vexp. lra.
  - intros x a u [U _]. split; [|exact I]. vexp. rewrite U. ring.
  - intros x g X. apply SphereProofs.proju_tan; [exact I|exact X].
  - intros x u X U. apply SphereProofs.retr_on; auto. exact I.
  - intros x u v X U V. apply SphereProofs.retr_on; auto. exact I.
  - intros x u v X U V. apply SphereProofs.proju_tan; [exact I|]. apply SphereProofs.retr_on; auto. exact I.
  - intros x X. apply SphereProofs.projx_on; [exact I|]. apply sphere_norm, X.
  - intros x u X. apply SphereProofs.proju_tan; [exact I|exact X].
Qed.
Lemma sphere_projecting n : projecting (sphere n) (SphereSpec.on_sphere n None) (SphereSpec.tangent n None).
Proof. intros x u v. cbn [sphere retr_transp fst snd]. intros X. apply SphereProofs.proju_tan; [exact I|exact X]. Qed.
Lemma sphere_blocked n : blocked (sphere n) (SphereSpec.on_sphere n None) (SphereSpec.tangent n None) (fun _ _ => True).
Proof.
  split; cbn [sphere lorentz ball euclidean egrad2rgrad retr retr_transp component_inner projx proju fst snd].
  - intros x u i _ _. apply dot_nonneg.
  - reflexivity.
  - intros x u s [U _] E. split; [|exact I]. replace (vmul s u) with (smul (s O) u) by (apply vec_ext; intros i; unfold vmul, smul; rewrite (E i O I); reflexivity). vexp. rewrite U. ring.
Qed.
Lemma lorentz_absorbing d k : 0 < k -> absorbing (lorentz d k) (LorentzSpec.on_hyperboloid d k).
Proof.
  intros K. split; cbn [sphere lorentz ball euclidean egrad2rgrad retr retr_transp component_inner projx proju fst snd].
  - intros x u _. apply LorentzProofs2.l_exp_on, K.
  - intros x u v _. apply LorentzProofs2.l_exp_on, K.
  - intros x _. apply LorentzProofs2.project_on, K.
Qed.
Lemma ball_absorbing n k : k < 0 -> absorbing (ball n k) (StereoSpec.safe n k).
Proof.
  intros K. assert (E : 0 <= StereoModel.e15) by (unfold StereoModel.e15; apply Rlt_le, Rinv_0_lt_compat; lra).
  split; cbn [sphere lorentz ball euclidean egrad2rgrad retr retr_transp component_inner projx proju fst snd]; intros; apply StereoProps.C36_project_safe; auto.
Qed.
Lemma ball_lawful n k : k < 0 -> lawful (ball n k) (StereoSpec.safe n k) (fun _ _ => True).
Proof.
  intros K. destruct (ball_absorbing n k K) as [A B C]. split; auto.
Qed.
Lemma ball_blocked n k : blocked (ball n k) (StereoSpec.safe n k) (fun _ _ => True) (fun _ _ => True).
Proof. split; cbn [sphere lorentz ball euclidean egrad2rgrad retr retr_transp component_inner projx proju fst snd]; auto. intros x u i _ _. unfold StereoModel.inner, vconst. pose proof (dot_nonneg n u). nra. Qed.
Lemma euclidean_lawful : lawful euclidean (fun _ => True) (fun _ _ => True).
Proof. split; auto. Qed.
Lemma euclidean_absorbing : absorbing euclidean (fun _ => True).
Proof. split; auto. Qed.
Lemma euclidean_blocked : blocked euclidean (fun _ => True) (fun _ _ => True) (fun i j => i = j).
Proof. split; cbn; intros; [unfold vmul; nra|subst; reflexivity|exact I]. Qed.

(** * The first momentum step *)
Definition north : vec := fun i => match i with O => 1 | _ => 0 end.
Definition h_jump : sgd_hyper := {| lr := 2; momentum := 9 / 10; dampening := 0; weight_decay := 0; nesterov := false; stabilize := None |}.
Definition at_north : sgd_param := {| man := Some (sphere 2); val := north; grad := Dense north; state := None |}.
Lemma north_on : SphereSpec.on_sphere 2 None north.
Proof. split; [unfold dot, Rsum, north; simpl; lra|exact I]. Qed.
Lemma north_grad : forall i, egrad2rgrad (sphere 2) north north i = 0.
Proof. intros i. unfold sphere, SphereModel.proju, SphereModel.project_on_subspace, vsub, smul, dot, Rsum, north. simpl. destruct i; ring. Qed.
Lemma mom_jump : has_momentum h_jump = true.
Proof. unfold has_momentum, h_jump. simpl. destruct (Rlt_dec 0 (9 / 10)); [reflexivity|lra]. Qed.
Lemma north_decayed : decayed h_jump north north = north.
Proof. apply vec_ext. intros i. unfold decayed, vadd, smul, h_jump. simpl. ring. Qed.
Lemma jump_direction i : sgd_direction h_jump (sphere 2) north north None i = 9 / 10 * north i.
Proof.
  unfold sgd_direction. rewrite mom_jump, north_decayed. change (nesterov h_jump) with false. cbn iota. unfold new_buffer, sgd_buffer, vadd. unfold smul. rewrite north_grad. unfold h_jump. simpl. ring.
Qed.
Lemma jump_not_tangent : ~ SphereSpec.tangent 2 None north (sgd_direction h_jump (sphere 2) north north None).
Proof.
  intros [H _]. unfold dot, Rsum in H. rewrite !jump_direction in H. unfold north in H. simpl in H. lra.
Qed.
(** a critical point of the loss, moved to the antipode *)
Lemma jump : val (fst (sgd_update h_jump at_north)) O = -1.
Proof.
  unfold sgd_update, at_north. cbn [grad manifold_of man val state]. rewrite mom_jump. change (nesterov h_jump) with false. cbn [andb].
  cbn [sphere retr_transp fst val]. unfold SphereModel.retr, SphereModel.projx, SphereModel.project_on_subspace.
  set (w := vadd north (smul (- lr h_jump) (sgd_direction h_jump _ north north None))).
  assert (W : forall i, w i = - (4 / 5) * north i).
  { intros i. unfold w, vadd, smul. change (sgd_direction h_jump _ north north None i) with (sgd_direction h_jump (sphere 2) north north None i). rewrite jump_direction. unfold h_jump. simpl. lra. }
  assert (N : nrm 2 w = 4 / 5).
  { unfold nrm. replace (dot 2 w w) with ((4 / 5) ^ 2); [apply sqrt_pow2; lra|]. unfold dot, Rsum. rewrite !W. unfold north. simpl. lra. }
  unfold vdiv. rewrite N, W. unfold north. lra.
Qed.

(** * Momentum switched off and on: the buffer stays behind *)
Definition east : vec := fun i => match i with 1%nat => 1 | _ => 0 end.
Definition h_off : sgd_hyper := {| lr := 1; momentum := 0; dampening := 0; weight_decay := 0; nesterov := false; stabilize := None |}.
Definition h_on : sgd_hyper := {| lr := 1; momentum := 9 / 10; dampening := 0; weight_decay := 0; nesterov := false; stabilize := None |}.
Definition with_buffer : sgd_param := {| man := Some (sphere 2); val := north; grad := Dense (vopp east); state := Some east |}.
Lemma east_tangent : SphereSpec.tangent 2 None north east.
Proof. split; [unfold dot, Rsum, north, east; simpl; lra|exact I]. Qed.
Lemma off_val : forall i, (i < 2)%nat -> val (fst (sgd_update h_off with_buffer)) i = / sqrt 2.
Proof.
  unfold sgd_update, with_buffer. cbn [grad manifold_of man val state].
  assert (H : has_momentum h_off = false) by (unfold has_momentum, h_off; simpl; destruct (Rlt_dec 0 0); [lra|reflexivity]).
  rewrite H. cbn [fst val]. unfold sgd_direction. rewrite H. cbn [sphere retr egrad2rgrad].
  unfold SphereModel.retr, SphereModel.projx, SphereModel.proju, SphereModel.project_on_subspace.
  match goal with |- forall i, _ -> vdiv ?w _ i = _ => set (v := w) end.
  assert (V : forall i, (i < 2)%nat -> v i = 1).
  { intros i L. unfold v, vadd, vsub, smul, vopp, decayed, vadd, smul, dot, Rsum, north, east, h_off. simpl. destruct i as [|[|]]; [lra|lra|lia]. }
  assert (N : nrm 2 v = sqrt 2) by (unfold nrm, dot, Rsum; rewrite !V by lia; f_equal; lra).
  intros i L. unfold vdiv. rewrite N, V by exact L. lra.
Qed.
Lemma off_state : state (fst (sgd_update h_off with_buffer)) = Some east.
Proof. rewrite update_state; [reflexivity|]. unfold has_momentum, h_off. simpl. destruct (Rlt_dec 0 0); [lra|reflexivity]. Qed.
Lemma stale : let q := fst (sgd_update h_off with_buffer) in
  ~ SphereSpec.tangent 2 None (val q) (sgd_direction h_on (sphere 2) (val q) vzero (state q)).
Proof.
  intros q [T _]. unfold q in T. rewrite off_state in T. set (x := val (fst (sgd_update h_off with_buffer))) in *.
  assert (X : forall i, (i < 2)%nat -> x i = / sqrt 2) by exact off_val.
  assert (D : forall i, sgd_direction h_on (sphere 2) x vzero (Some east) i = 9 / 10 * east i).
  { intros i. unfold sgd_direction. assert (H : has_momentum h_on = true) by (unfold has_momentum, h_on; simpl; destruct (Rlt_dec 0 (9 / 10)); [reflexivity|lra]). rewrite H.
    unfold new_buffer, sgd_buffer, sphere, SphereModel.proju, SphereModel.project_on_subspace, decayed, vadd, vsub, smul, dot, Rsum, vzero, h_on. simpl. ring. }
  unfold dot, Rsum in T. rewrite !D, !X in T by lia. unfold east in T. pose proof (sqrt_lt_R0 2 ltac:(lra)) as S. pose proof (Rinv_0_lt_compat _ S). lra.
Qed.
Lemma with_buffer_tangent : forall b, state with_buffer = Some b -> SphereSpec.tangent 2 None (val with_buffer) b.
Proof. intros b [= <-]. exact east_tangent. Qed.
