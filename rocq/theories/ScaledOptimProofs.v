(** Lemmas: training on scaled manifolds. *)
From Coq Require Import Reals List Bool Arith Lra Lia.
From Verif Require Import RVec OptimModel OptimSpec OptimProofs OptimDecaySpec OptimDescentSpec OptimInstances ScaledOptimModel.
Import ListNotations.
Local Open Scope R_scope.

Lemma smul_scale s a u : smul (/ s) (smul (- a) u) = smul (- (a / s)) u.
Proof. apply vec_ext. intros i. unfold smul, Rdiv. ring. Qed.

Section Loop.
  Context {S : Type}.
  Variables (f : param S -> param S) (u v : param S -> param S * status) (ok : param S -> Prop).
  Hypothesis C : forall p, ok p -> u (f p) = (f (fst (v p)), snd (v p)).
  Lemma loop_map ps : Forall ok ps -> loop u (map f ps) = (map f (fst (loop v ps)), snd (loop v ps)).
  Proof.
    induction 1 as [|p ps H F IH]; [reflexivity|]. cbn [map loop]. rewrite (C p H). destruct (v p) as [q st]. cbn [fst snd].
    destruct st; try reflexivity. rewrite IH. destruct (loop v ps). reflexivity.
  Qed.
  Hypothesis K : forall p, ok p -> ok (fst (v p)).
  Lemma loop_keeps ps : Forall ok ps -> Forall ok (fst (loop v ps)).
  Proof.
    induction 1 as [|p ps H F IH]; [constructor|]. cbn [loop]. specialize (K p H). destruct (v p) as [q st]. cbn [fst] in K.
    destruct st; try (constructor; auto). destruct (loop v ps). cbn [fst] in *. constructor; auto.
  Qed.
End Loop.
Lemma assign_map {S} G (f : param S -> param S) :
  (forall p g, f {| man := man p; val := val p; grad := g; state := state p |} =
               {| man := man (f p); val := val (f p); grad := g; state := state (f p) |}) ->
  forall ps i, assign G i (map f ps) = map f (assign G i ps).
Proof. intros H. induction ps as [|p ps IH]; intros i; cbn; [reflexivity|]. rewrite IH, H. reflexivity. Qed.
Lemma assign_keeps {S} G (ok : param S -> Prop) : (forall p g, ok p -> ok {| man := man p; val := val p; grad := g; state := state p |}) ->
  forall ps i, Forall ok ps -> Forall ok (assign G i ps).
Proof. intros H. induction ps as [|p ps IH]; intros i F; cbn; [constructor|]. inversion F; subst. constructor; auto. Qed.

Section Scale.
  Variables (s : R) (inner : manifold -> vec -> vec -> R).
  Definition has_manifold {S} (p : param S) : Prop := man p <> None.
  Lemma scaled_vals {S} (ps : list (param S)) : map val (map (on_scaled s inner) ps) = map val ps.
  Proof. rewrite map_map. reflexivity. Qed.

  Lemma sgd_update_scaled h p : has_manifold p ->
    sgd_update h (on_scaled s inner p) = (on_scaled s inner (fst (sgd_update (sgd_rate (lr h / s) h) p)), snd (sgd_update (sgd_rate (lr h / s) h) p)).
  Proof.
    destruct p as [[M|] x [|g|] b]; intros H; unfold has_manifold in H; cbn in H; try congruence; try reflexivity.
    unfold sgd_update, on_scaled, manifold_of. cbn [man val grad state].
    change (has_momentum (sgd_rate (lr h / s) h)) with (has_momentum h).
    unfold sgd_direction. change (has_momentum (sgd_rate (lr h / s) h)) with (has_momentum h).
    cbn [egrad2rgrad scaled egrad_arg egrad_same retr retr_transp]. destruct (has_momentum h).
    - cbn zeta. rewrite smul_scale.
      change (lr (sgd_rate (lr h / s) h)) with (lr h / s). change (nesterov (sgd_rate (lr h / s) h)) with (nesterov h).
      change (new_buffer (sgd_rate (lr h / s) h)) with (new_buffer h). change (decayed (sgd_rate (lr h / s) h)) with (decayed h).
      change (momentum (sgd_rate (lr h / s) h)) with (momentum h).
      destruct (retr_transp M _ _ _) as [y c]. reflexivity.
    - cbn zeta. rewrite smul_scale. reflexivity.
  Qed.
  Lemma sgd_keeps h p : has_manifold p -> has_manifold (fst (sgd_update h p)).
  Proof.
    unfold has_manifold, sgd_update. intros H. destruct (grad p); cbn; auto. destruct (has_momentum h); [|exact H].
    destruct (retr_transp _ _ _ _). exact H.
  Qed.
  Lemma sgd_stabilize_scaled h p : has_manifold p -> sgd_stabilize h (on_scaled s inner p) = on_scaled s inner (sgd_stabilize (sgd_rate (lr h / s) h) p).
  Proof. destruct p as [[M|] x g b]; intros H; unfold has_manifold in H; cbn in H; [reflexivity|congruence]. Qed.
  Lemma sgd_stab_keeps h p : has_manifold p -> has_manifold (sgd_stabilize h p).
  Proof. unfold has_manifold, sgd_stabilize. intros H. destruct (man p) eqn:E; [cbn; discriminate|congruence]. Qed.
  Lemma sgd_training_scaled hs G ps t : Forall has_manifold ps ->
    let g := sgd_training (fun t => sgd_rate (lr (hs t) / s) (hs t)) G ps t in
    let g' := sgd_training hs G (map (on_scaled s inner) ps) t in
    steps g' = steps g /\ params g' = map (on_scaled s inner) (params g) /\ Forall has_manifold (params g).
  Proof.
    intros F. induction t as [|t [A [B D]]]; [repeat split; auto|]. cbn [sgd_training].
    rewrite B, scaled_vals, assign_map by reflexivity. rewrite A.
    set (g := sgd_training (fun t => sgd_rate (lr (hs t) / s) (hs t)) G ps t) in *. set (qs := assign _ 0 (params g)).
    assert (Q : Forall has_manifold qs) by (apply assign_keeps; auto). clearbody qs.
    unfold sgd_step_group. cbn [hyp steps params]. rewrite (loop_map _ _ _ _ (sgd_update_scaled (hs t)) qs Q).
    pose proof (loop_keeps (sgd_update (sgd_rate (lr (hs t) / s) (hs t))) has_manifold (sgd_keeps _) qs Q) as Q'.
    destruct (loop (sgd_update (sgd_rate (lr (hs t) / s) (hs t))) qs) as [rs st]. cbn [fst snd] in *.
    destruct st; [|repeat split; auto|repeat split; auto|repeat split; auto].
    change (stabilize (sgd_rate (lr (hs t) / s) (hs t))) with (stabilize (hs t)).
    destruct (stabilize (hs t)) as [[|N]|]; [repeat split; auto| |repeat split; auto].
    destruct (_ mod _ =? 0)%nat; [|repeat split; auto]. cbn [fst steps params]. split; [reflexivity|]. split.
    - rewrite !map_map. clear - Q'. induction Q' as [|q rs H Q IH]; cbn; [reflexivity|]. rewrite IH, sgd_stabilize_scaled by auto. reflexivity.
    - clear - Q'. induction Q'; cbn; constructor; auto. apply sgd_stab_keeps; auto.
  Qed.

  (** Adam, where the base has the component_inner of class Manifold *)
  Definition one_number {S} (p : param S) : Prop := exists M, man p = Some M /\ forall x u, component_inner M x u = vconst (inner M x u).
  Lemma adam_update_scaled h p : one_number p ->
    adam_update h (on_scaled s inner p) = (on_scaled s inner (fst (adam_update (adam_rate (a_lr h / s) h) p)), snd (adam_update (adam_rate (a_lr h / s) h) p)).
  Proof.
    destruct p as [m x [|g|] b]; intros [M [E I]]; cbn in E; subst m; try reflexivity.
    unfold adam_update, on_scaled, manifold_of. cbn [man val grad state].
    cbn [egrad2rgrad scaled egrad_arg egrad_same retr retr_transp component_inner]. cbn zeta. rewrite !I.
    change (amsgrad (adam_rate (a_lr h / s) h)) with (amsgrad h). change (a_lr (adam_rate (a_lr h / s) h)) with (a_lr h / s).
    change (adam_init (adam_rate (a_lr h / s) h)) with (adam_init h). change (a_decay (adam_rate (a_lr h / s) h)) with (a_decay h).
    change (first_moment (adam_rate (a_lr h / s) h)) with (first_moment h). change (second_moment (adam_rate (a_lr h / s) h)) with (second_moment h).
    change (adam_direction (adam_rate (a_lr h / s) h)) with (adam_direction h).
    rewrite !smul_scale. destruct (amsgrad h).
    - destruct (max_exp_avg_sq (adam_init h b)) as [mx|]; [|reflexivity]. rewrite !smul_scale. destruct (retr_transp M _ _ _). reflexivity.
    - destruct (retr_transp M _ _ _). reflexivity.
  Qed.
  Lemma adam_keeps_man h p : man (fst (adam_update h p)) = man p.
  Proof.
    unfold adam_update. destruct (grad p); try reflexivity. cbn zeta. destruct (amsgrad h).
    - destruct (max_exp_avg_sq _); [|reflexivity]. destruct (retr_transp _ _ _ _). reflexivity.
    - destruct (retr_transp _ _ _ _). reflexivity.
  Qed.
  Lemma adam_visit_scaled h p : one_number p ->
    adam_visit h (on_scaled s inner p) = (on_scaled s inner (fst (adam_visit (adam_rate (a_lr h / s) h) p)), snd (adam_visit (adam_rate (a_lr h / s) h) p)).
  Proof.
    intros H. unfold adam_visit. rewrite (adam_update_scaled h p H).
    destruct (adam_update (adam_rate (a_lr h / s) h) p) as [q st]. cbn [fst snd].
    change (a_stabilize (adam_rate (a_lr h / s) h)) with (a_stabilize h). destruct st; try reflexivity.
    destruct (a_stabilize h) as [[|N]|]; cbn; destruct (grad q); reflexivity.
  Qed.
  Lemma adam_visit_man h p : man (fst (adam_visit h p)) = man p.
  Proof.
    pose proof (adam_keeps_man h p) as E. unfold adam_visit. destruct (adam_update h p) as [q st]. cbn [fst] in E.
    destruct st; auto. destruct (a_stabilize h) as [[|N]|]; cbn; destruct (grad q); exact E.
  Qed.
  Lemma one_man {S} (p q : param S) : man q = man p -> one_number p -> one_number q.
  Proof. intros E [M [H I]]. exists M. split; [congruence|exact I]. Qed.
  Lemma adam_training_scaled hs G ps t : Forall one_number ps ->
    let g := adam_training (fun t => adam_rate (a_lr (hs t) / s) (hs t)) G ps t in
    let g' := adam_training hs G (map (on_scaled s inner) ps) t in
    a_params g' = map (on_scaled s inner) (a_params g) /\ Forall one_number (a_params g).
  Proof.
    intros F. induction t as [|t [B D]]; [split; auto|]. cbn [adam_training].
    rewrite B, scaled_vals, assign_map by reflexivity.
    set (g := adam_training (fun t => adam_rate (a_lr (hs t) / s) (hs t)) G ps t) in *. set (qs := assign _ 0 (a_params g)).
    assert (Q : Forall one_number qs) by (apply assign_keeps; auto). clearbody qs.
    unfold adam_step_group. cbn [a_hyp a_params]. rewrite (loop_map _ _ _ _ (adam_visit_scaled (hs t)) qs Q).
    pose proof (loop_keeps (adam_visit (adam_rate (a_lr (hs t) / s) (hs t))) one_number (fun p => one_man p _ (adam_visit_man _ p)) qs Q) as Q'.
    destruct (loop (adam_visit (adam_rate (a_lr (hs t) / s) (hs t))) qs) as [rs st]. cbn [fst snd] in *.
    destruct st; [|split; auto|split; auto|split; auto].
    change (a_stabilize (adam_rate (a_lr (hs t) / s) (hs t))) with (a_stabilize (hs t)).
    destruct (a_stabilize (hs t)) as [N|]; [|split; auto].
    assert (X : existsb (asks N) (map (on_scaled s inner) rs) = existsb (asks N) rs).
    { clear. induction rs as [|r rs IH]; cbn [map existsb]; [reflexivity|]. rewrite IH. reflexivity. }
    rewrite X. destruct (existsb (asks N) rs); [|split; auto]. cbn [fst a_params]. split.
    - rewrite !map_map. clear - Q'. induction Q' as [|q rs [M [H _]] Q IH]; cbn; [reflexivity|]. rewrite IH. f_equal.
      destruct q as [m x gr b]. cbn in H. subst m. unfold adam_stabilize, on_scaled. cbn. destruct b; reflexivity.
    - clear - Q'. induction Q' as [|q rs H Q IH]; cbn; constructor; auto. revert H. apply one_man.
      unfold adam_stabilize. destruct (man q) eqn:E; [destruct (state q); cbn; congruence|congruence].
  Qed.
End Scale.

Lemma sgd_scaled s inner hs G ps t : Forall (fun p => man p <> None) ps ->
  map val (params (sgd_training hs G (map (on_scaled s inner) ps) t)) =
  map val (params (sgd_training (fun t => sgd_rate (lr (hs t) / s) (hs t)) G ps t)).
Proof. intros F. destruct (sgd_training_scaled s inner hs G ps t F) as [_ [E _]]. rewrite E. apply scaled_vals. Qed.
Lemma adam_scaled s inner hs G ps t : Forall (fun p => exists M, man p = Some M /\ forall x u, component_inner M x u = vconst (inner M x u)) ps ->
  map val (a_params (adam_training hs G (map (on_scaled s inner) ps) t)) =
  map val (a_params (adam_training (fun t => adam_rate (a_lr (hs t) / s) (hs t)) G ps t)).
Proof. intros F. destruct (adam_training_scaled s inner hs G ps t F) as [E _]. rewrite E. apply scaled_vals. Qed.

(** ** Euclidean base with scale 1 *)
Definition g34 : vec := fun i => match i with O => 3 | 1%nat => 4 | _ => 0 end.
Definition plain_at : adam_param := {| man := Some euclidean; val := vzero; grad := Dense g34; state := None |}.
Definition sum_inner (M : manifold) (x u : vec) : R := dot 2 u u.
Lemma adam_euclidean_differs h : 0 <= beta1 h < 1 -> 0 <= beta2 h < 1 -> 0 < eps h -> a_decay h = 0 -> amsgrad h = false -> a_lr h <> 0 ->
  val (fst (adam_update h plain_at)) O = - a_lr h * (3 / (3 + eps h)) /\
  val (fst (adam_update h (on_scaled 1 sum_inner plain_at))) O = - a_lr h * (3 / (5 + eps h)) /\
  val (fst (adam_update h plain_at)) O <> val (fst (adam_update h (on_scaled 1 sum_inner plain_at))) O.
Proof.
  intros B1 B2 E W AM L.
  assert (S9 : sqrt 9 = 3) by (replace 9 with (3 * 3) by ring; apply sqrt_square; lra).
  assert (S25 : sqrt 25 = 5) by (replace 25 with (5 * 5) by ring; apply sqrt_square; lra).
  assert (V1 : val (fst (adam_update h plain_at)) O = - a_lr h * (3 / (3 + eps h))).
  { unfold adam_update, plain_at. cbn [grad val state man manifold_of]. rewrite AM. cbn.
    unfold vadd, smul, adam_direction, vdivv, vdiv, denominator, vadd, vsqrt, vconst, first_moment, second_moment, bias_correction, vadd, smul, vmul, vzero, g34. cbn. rewrite W. unfold vdiv.
    match goal with |- context [sqrt ?a] => replace a with 9 by (field; lra) end. rewrite S9. field. lra. }
  assert (V2 : val (fst (adam_update h (on_scaled 1 sum_inner plain_at))) O = - a_lr h * (3 / (5 + eps h))).
  { unfold adam_update, plain_at, on_scaled. cbn [grad val state man manifold_of]. rewrite AM. cbn.
    unfold vadd, smul, adam_direction, vdivv, vdiv, denominator, vadd, vsqrt, vconst, first_moment, second_moment, bias_correction, vadd, smul, vmul, vzero, sum_inner, dot, g34. cbn. rewrite W. unfold vdiv.
    match goal with |- context [sqrt ?a] => replace a with 25 by (field; lra) end. rewrite S25. field. lra. }
  split; [exact V1|]. split; [exact V2|]. rewrite V1, V2. intros H.
  assert (Q : a_lr h * 6 = 0).
  { replace (a_lr h * 6) with ((- a_lr h * (3 / (5 + eps h)) - - a_lr h * (3 / (3 + eps h))) * ((3 + eps h) * (5 + eps h))) by (field; lra).
    rewrite <- H. ring. }
  lra.
Qed.
