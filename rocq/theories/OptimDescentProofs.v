(** Lemmas: one optimizer step on several parameters. *)
From Coq Require Import Reals List Bool Arith Lra Lia Psatz.
From Coquelicot Require Import Coquelicot.
From Verif Require Import RVec OptimModel OptimSpec OptimProofs OptimInstances DescentSpec DescentProofs OptimDescentSpec.
From Verif Require Import StereoSpec.
Import ListNotations.
Local Open Scope R_scope.

Inductive curves : list nat -> list vec -> list vec -> list (R -> vec) -> Prop :=
| no_curves : curves [] [] [] []
| one_curve n x u c ns xs us cs : same n (c 0) x -> (forall i, (i < n)%nat -> is_derive (fun t => c t i) 0 (u i)) ->
    curves ns xs us cs -> curves (n :: ns) (x :: xs) (u :: us) (c :: cs).
Definition at_time (t : R) (cs : list (R -> vec)) : list vec := map (fun c => c t) cs.
Fixpoint diffs (ys xs : list vec) : list vec :=
  match ys, xs with y :: ys, x :: xs => vsub y x :: diffs ys xs | _, _ => [] end.
Lemma diffs_split ns xs us cs t : curves ns xs us cs -> displaced xs (diffs (at_time t cs) xs) = at_time t cs.
Proof.
  induction 1 as [|n x u c ns xs us cs A B C IH]; [reflexivity|]. unfold at_time in *. cbn. rewrite IH. f_equal.
  apply vec_ext. intros i. unfold vadd, vsub. ring.
Qed.
Lemma diffs_length ns xs us cs t : curves ns xs us cs -> length (diffs (at_time t cs) xs) = length xs.
Proof. induction 1 as [|n x u c ns xs us cs A B C IH]; [reflexivity|]. unfold at_time in *. cbn. rewrite IH. reflexivity. Qed.
Lemma curves_bound ns xs us cs : curves ns xs us cs -> exists M del, 0 <= M /\ 0 < del /\
  forall t, Rabs t < del -> lengths ns (diffs (at_time t cs) xs) <= M * Rabs t.
Proof.
  induction 1 as [|n x u c ns xs us cs A B C [M [del [M0 [P D]]]]].
  - exists 0, 1. split; [lra|]. split; [lra|]. intros. cbn. lra.
  - destruct (h_bound n x u c A B) as [d2 [P2 D2]].
    set (m := Rsum n (fun i => Rabs (u i)) + INR n) in *.
    assert (m0 : 0 <= m).
    { unfold m. pose proof (pos_INR n). assert (0 <= Rsum n (fun i => Rabs (u i))) by (apply Rsum_nonneg; intros; apply Rabs_pos). lra. }
    exists (m + M), (Rmin d2 del). split; [lra|]. split; [apply Rmin_pos; auto|]. intros t T. cbn [at_time map diffs lengths].
    assert (T1 : Rabs t < d2) by (eapply Rlt_le_trans; [exact T|apply Rmin_l]).
    assert (T2 : Rabs t < del) by (eapply Rlt_le_trans; [exact T|apply Rmin_r]).
    specialize (D t T2). specialize (D2 t T1). unfold at_time in D. lra.
Qed.
Lemma curves_products ns xs us cs : curves ns xs us cs -> forall gs eps, 0 < eps -> exists del, 0 < del /\
  forall t, Rabs t < del -> Rabs (products ns gs (diffs (at_time t cs) xs) - t * products ns gs us) <= eps * Rabs t.
Proof.
  induction 1 as [|n x u c ns xs us cs A B C IH]; intros gs eps E.
  - exists 1. split; [lra|]. intros t _. cbn. replace (0 - t * 0) with 0 by ring. rewrite Rabs_R0. pose proof (Rabs_pos t). nra.
  - destruct gs as [|g gs].
    { exists 1. split; [lra|]. intros t _. cbn. replace (0 - t * 0) with 0 by ring. rewrite Rabs_R0. pose proof (Rabs_pos t). nra. }
    destruct (IH gs (eps / 2) ltac:(lra)) as [d1 [P1 D1]].
    assert (G : is_derive (fun t => dot n g (c t)) 0 (dot n g u)).
    { unfold dot. apply (Rsum_derive n (fun i t => g i * c t i)). intros i Hi.
      apply (is_derive_scal (fun t => c t i) 0 (g i)). apply B; auto. }
    destruct (proj1 (derive_eps _ _) G (eps / 2) ltac:(lra)) as [d2 [P2 D2]].
    exists (Rmin d1 d2). split; [apply Rmin_pos; auto|]. intros t T.
    assert (T1 : Rabs t < d1) by (eapply Rlt_le_trans; [exact T|apply Rmin_l]).
    assert (T2 : Rabs t < d2) by (eapply Rlt_le_trans; [exact T|apply Rmin_r]).
    specialize (D1 t T1). specialize (D2 t T2). cbn [at_time map diffs products] in *. cbn beta in D2.
    assert (E1 : dot n g (vsub (c t) x) = dot n g (c t) - dot n g (c 0)).
    { unfold dot. rewrite <- Rsum_minus. apply Rsum_ext. intros i Hi. unfold vsub. rewrite (A i Hi). ring. }
    rewrite E1. unfold at_time in D1.
    match goal with |- Rabs ?e <= _ => replace e with ((dot n g (c t) - dot n g (c 0) - t * dot n g u) +
      (products ns gs (diffs (map (fun c => c t) cs) xs) - t * products ns gs us)) by ring end.
    eapply Rle_trans; [apply Rabs_triang|]. lra.
Qed.
Lemma joint_descent L ns xs gs us cs : curves ns xs us cs -> jointly_differentiable L ns xs gs -> products ns gs us < 0 ->
  exists t0, 0 < t0 /\ forall t, 0 < t < t0 -> L (at_time t cs) < L xs.
Proof.
  intros C D N. set (s := - products ns gs us) in *. assert (s0 : 0 < s) by (unfold s; lra).
  destruct (curves_bound _ _ _ _ C) as [M [d1 [M0 [P1 B]]]].
  destruct (curves_products _ _ _ _ C gs (s / 4) ltac:(lra)) as [d2 [P2 Q]].
  destruct (D (s / 4 / (M + 1))) as [d3 [P3 W]]. { apply Rdiv_lt_0_compat; lra. }
  exists (Rmin d1 (Rmin d2 (d3 / (M + 1)))). split.
  { repeat apply Rmin_pos; auto. apply Rdiv_lt_0_compat; lra. }
  intros t [t0 T].
  assert (T1 : t < d1) by (eapply Rlt_le_trans; [exact T|apply Rmin_l]).
  assert (T2 : t < d2) by (eapply Rlt_le_trans; [exact T|eapply Rle_trans; [apply Rmin_r|apply Rmin_l]]).
  assert (T3 : t < d3 / (M + 1)) by (eapply Rlt_le_trans; [exact T|eapply Rle_trans; [apply Rmin_r|apply Rmin_r]]).
  assert (A : Rabs t = t) by (apply Rabs_right; lra).
  specialize (B t ltac:(lra)). specialize (Q t ltac:(lra)). rewrite A in *.
  set (h := diffs (at_time t cs) xs) in *.
  assert (H : lengths ns h < d3).
  { apply (Rmult_lt_compat_l (M + 1)) in T3; [|lra]. replace ((M + 1) * (d3 / (M + 1))) with d3 in T3 by (field; lra). lra. }
  specialize (W h (diffs_length _ _ _ _ t C) H). unfold h in W at 1. rewrite (diffs_split _ _ _ _ t C) in W.
  assert (K : s / 4 / (M + 1) * lengths ns h <= s / 4 * t).
  { replace (s / 4 * t) with (s / 4 / (M + 1) * ((M + 1) * t)) by (field; lra).
    apply Rmult_le_compat_l; [|lra]. apply Rlt_le, Rdiv_lt_0_compat; lra. }
  apply Rabs_le_between in W. apply Rabs_le_between in Q.
  assert (t * products ns gs us = - (t * s)) by (unfold s; ring).
  assert (0 < t * s) by (apply Rmult_lt_0_compat; lra). lra.
Qed.

(** ** from a way to step to curves *)
Section Step.
  Variable St : Type.
  (** [dir p g]: the direction taken; [move t p]: the new value with learning rate t *)
  Variable dir : param St -> vec -> vec.
  Variable move : R -> param St -> vec.
  Variable good : param St -> Prop.
  Hypothesis dir_ok : forall n p g blk, good p -> descent_at n (manifold_of p) blk (val p) g -> grad p = Dense g ->
    rescaled blk (egrad2rgrad (manifold_of p) (val p) g) (dir p g).
  Hypothesis move_dense : forall n t p g, good p -> ready n p -> grad p = Dense g ->
    move t p = retr (manifold_of p) (val p) (smul (- t) (dir p g)).
  Hypothesis move_none : forall t p, good p -> grad p = NoGrad -> move t p = val p.
  Definition velocity (p : param St) : vec := match grad p with Dense g => vopp (dir p g) | _ => vzero end.
  Lemma step_curves ns ps : List.Forall good ps -> Forall2 ready ns ps ->
    curves ns (map val ps) (map velocity ps) (map (fun p t => move t p) ps).
  Proof.
    intros A F. induction F as [|n p ns ps R F IH]; [constructor|]. inversion A as [|? ? Gp Gs]; subst.
    cbn [map]. constructor; [| |auto].
    - destruct (grad p) as [|g|] eqn:E.
      + rewrite move_none by auto. intros i _. reflexivity.
      + rewrite (move_dense n 0 p g) by auto. destruct (proj2 R g E) as [blk B]. apply (starts_here _ _ _ _ _ B). eapply dir_ok; eauto.
      + destruct (proj1 R E).
    - intros i Hi. unfold velocity. destruct (grad p) as [|g|] eqn:E.
      + apply is_derive_ext with (f := fun _ => val p i).
        * intros t. rewrite move_none by auto. reflexivity.
        * apply (@is_derive_const R_AbsRing R_NormedModule).
      + apply is_derive_ext with (f := fun t => retr (manifold_of p) (val p) (smul (- t) (dir p g)) i).
        * intros t. rewrite (move_dense n t p g) by auto. reflexivity.
        * destruct (proj2 R g E) as [blk B]. apply (has_velocity _ _ _ _ _ B); auto. eapply dir_ok; eauto.
      + destruct (proj1 R E).
  Qed.
  Lemma step_slope ns ps : List.Forall good ps -> Forall2 ready ns ps ->
    products ns (map grad_of ps) (map velocity ps) <= 0 /\
    (some_gradient ns ps -> products ns (map grad_of ps) (map velocity ps) < 0).
  Proof.
    intros A F. induction F as [|n p ns ps R F IH].
    - split; [cbn; lra|]. intros H. inversion H.
    - inversion A as [|? ? Gp Gs]; subst. destruct (IH Gs) as [I1 I2]. cbn [map products].
      assert (Q : dot n (grad_of p) (velocity p) <= 0 /\
        ((exists g, grad p = Dense g /\ 0 < nrm n (egrad2rgrad (manifold_of p) (val p) g)) -> dot n (grad_of p) (velocity p) < 0)).
      { unfold grad_of, velocity. destruct (grad p) as [|g|] eqn:E.
        - split; [|intros [g [D _]]; discriminate]. unfold dot, vzero. rewrite (Rsum_ext n _ (fun _ => 0)); [rewrite Rsum_zero; lra|intros; ring].
        - destruct (proj2 R g E) as [blk B]. destruct (has_slope _ _ _ _ _ B (dir p g) ltac:(eapply dir_ok; eauto)) as [S1 S2].
          rewrite dot_opp_r. split; [lra|]. intros [g' [[= <-] N]]. specialize (S2 N). lra.
        - destruct (proj1 R E). }
      destruct Q as [Q1 Q2]. split; [lra|]. intros H. unfold some_gradient in H. cbn [combine] in H. inversion H as [? ? H1|? ? H1]; subst.
      + cbn [fst snd] in H1. specialize (Q2 H1). lra.
      + specialize (I2 H1). lra.
  Qed.
  Lemma step_descent L ns ps : List.Forall good ps -> Forall2 ready ns ps -> some_gradient ns ps ->
    jointly_differentiable L ns (map val ps) (map grad_of ps) ->
    exists t0, 0 < t0 /\ forall t, 0 < t < t0 -> L (map (move t) ps) < L (map val ps).
  Proof.
    intros A F G D. destruct (joint_descent L ns (map val ps) (map grad_of ps) (map velocity ps) _ (step_curves ns ps A F) D
      (proj2 (step_slope ns ps A F) G)) as [t0 [P H]].
    exists t0. split; auto. intros t T. specialize (H t T). unfold at_time in H. rewrite map_map in H. exact H.
  Qed.
End Step.

Lemma blk_one (blk : nat -> nat -> Prop) r : rescaled blk r r.
Proof. exists (fun _ => 1). repeat split; auto; [intros; lra|]. apply vec_ext. intros i. unfold vmul. ring. Qed.

(** ** RiemannianSGD *)
Section Sgd.
  Variable h : sgd_hyper.
  Hypothesis Z : momentum h <= 0.
  Hypothesis W : weight_decay h = 0.
  Lemma sgd_move t (p : sgd_param) g : grad p = Dense g ->
    val (fst (sgd_update (sgd_rate t h) p)) = retr (manifold_of p) (val p) (smul (- t) (egrad2rgrad (manifold_of p) (val p) g)).
  Proof.
    intros E. unfold sgd_update. rewrite E.
    assert (H : has_momentum (sgd_rate t h) = false) by (unfold has_momentum, sgd_rate; cbn; destruct (Rlt_dec 0 (momentum h)); [lra|reflexivity]).
    unfold sgd_direction. rewrite H. cbn [fst val].
    assert (D : decayed (sgd_rate t h) (val p) g = g) by (apply vec_ext; intros i; unfold decayed, sgd_rate, vadd, smul; cbn; rewrite W; ring).
    rewrite D. reflexivity.
  Qed.
  Lemma sgd_descent L ns k (ps : list sgd_param) : stabilize h = None -> Forall2 ready ns ps -> some_gradient ns ps ->
    jointly_differentiable L ns (map val ps) (map grad_of ps) ->
    exists t0, 0 < t0 /\ forall t, 0 < t < t0 ->
      L (map val (params (fst (sgd_step_group {| hyp := sgd_rate t h; steps := k; params := ps |})))) < L (map val ps).
  Proof.
    intros S F G D.
    destruct (step_descent vec (fun p g => egrad2rgrad (manifold_of p) (val p) g)
      (fun t p => val (fst (sgd_update (sgd_rate t h) p))) (fun _ => True)) with (L := L) (ns := ns) (ps := ps) as [t0 [P H]]; auto.
    - intros. apply blk_one.
    - intros n t p g _ _ E. apply sgd_move, E.
    - intros t p _ E. rewrite no_grad_update by exact E. reflexivity.
    - apply Forall_forall; auto.
    - exists t0. split; auto. intros t T. specialize (H t T).
      rewrite step_group_none; [cbn [fst params hyp]; rewrite map_map; exact H| |exact S].
      cbn [params]. clear - F. induction F as [|n p ns ps [R _] _ IH]; constructor; auto.
  Qed.
End Sgd.

(** ** The first step of RiemannianAdam *)
Section Adam.
  Variable h : adam_hyper.
  Hypothesis B1 : 0 <= beta1 h < 1.
  Hypothesis B2 : 0 <= beta2 h < 1.
  Hypothesis E0 : 0 < eps h.
  Hypothesis W : a_decay h = 0.
  Definition adam_dir (p : adam_param) (g : vec) : vec :=
    let r := egrad2rgrad (manifold_of p) (val p) g in
    vmul (fun i => / (sqrt (component_inner (manifold_of p) (val p) r i) + eps h)) r.
  Lemma adam_dir_ok n p g blk : descent_at n (manifold_of p) blk (val p) g ->
    rescaled blk (egrad2rgrad (manifold_of p) (val p) g) (adam_dir p g).
  Proof.
    intros R. eexists. split; [|split; [|reflexivity]].
    - intros i. cbn beta. apply Rinv_0_lt_compat. pose proof (sqrt_pos (component_inner (manifold_of p) (val p) (egrad2rgrad (manifold_of p) (val p) g) i)). lra.
    - intros i j Bij. cbn beta. rewrite (inner_blocks _ _ _ _ _ R i j Bij). reflexivity.
  Qed.
  Lemma adam_first_dir t r q : (forall i, 0 <= q i) -> forall mx, mx = vzero ->
    let m := first_moment (adam_rate t h) vzero r in let v := second_moment (adam_rate t h) vzero q in
    vmax mx v = v /\ adam_direction (adam_rate t h) 1 m v = vmul (fun i => / (sqrt (q i) + eps h)) r.
  Proof.
    intros Q mx -> m v. split.
    - apply vec_ext. intros i. unfold vmax, v, second_moment, vadd, smul, vzero, adam_rate. cbn. apply Rmax_right. specialize (Q i). nra.
    - apply vec_ext. intros i. unfold adam_direction, denominator, vdivv, vdiv, vadd, vsqrt, vconst, vmul, m, v, first_moment, second_moment, bias_correction, vadd, smul, vzero, adam_rate.
      cbn. replace ((beta2 h * 0 + (1 - beta2 h) * q i) / (1 - beta2 h * 1)) with (q i) by (field; lra).
      pose proof (sqrt_pos (q i)). field. lra.
  Qed.
  Lemma adam_move n t (p : adam_param) g : fresh p -> ready n p -> grad p = Dense g ->
    val (fst (adam_update (adam_rate t h) p)) = retr (manifold_of p) (val p) (smul (- t) (adam_dir p g)) /\
    snd (adam_update (adam_rate t h) p) = Ok /\ grad (fst (adam_update (adam_rate t h) p)) <> Sparse.
  Proof.
    intros Fr [_ R] E. destruct (R g E) as [blk B]. clear R. rename B into R. unfold fresh in Fr. unfold adam_update. rewrite E. cbn zeta. rewrite !Fr. cbn [adam_init count exp_avg exp_avg_sq max_exp_avg_sq].
    assert (D : vadd g (smul (a_decay (adam_rate t h)) (val p)) = g) by (apply vec_ext; intros i; unfold adam_rate, vadd, smul; cbn; rewrite W; ring).
    rewrite !D. set (r := egrad2rgrad (manifold_of p) (val p) g) in *. set (q := component_inner (manifold_of p) (val p) r).
    destruct (adam_first_dir t r q (inner_nonneg _ _ _ _ _ R) vzero eq_refl) as [M1 M2].
    assert (K : forall u v, fst (retr_transp (manifold_of p) (val p) u v) = retr (manifold_of p) (val p) u) by apply (moves_alike _ _ _ _ _ R).
    unfold adam_dir. fold r. cbn zeta. fold q. rewrite <- M2.
    change (a_lr (adam_rate t h)) with t.
    destruct (amsgrad (adam_rate t h)); cbn [max_exp_avg_sq count exp_avg exp_avg_sq]; rewrite ?M1.
    - match goal with |- context [retr_transp ?M ?x ?u ?v] => specialize (K u v); destruct (retr_transp M x u v) as [y m] end.
      cbn [fst snd val grad] in *. repeat split; [exact K|discriminate].
    - match goal with |- context [retr_transp ?M ?x ?u ?v] => specialize (K u v); destruct (retr_transp M x u v) as [y m] end.
      cbn [fst snd val grad] in *. repeat split; [exact K|discriminate].
  Qed.
  Lemma adam_descent L ns (ps : list adam_param) : a_stabilize h = None -> List.Forall fresh ps -> Forall2 ready ns ps -> some_gradient ns ps ->
    jointly_differentiable L ns (map val ps) (map grad_of ps) ->
    exists t0, 0 < t0 /\ forall t, 0 < t < t0 ->
      L (map val (a_params (fst (adam_step_group {| a_hyp := adam_rate t h; a_params := ps |})))) < L (map val ps).
  Proof.
    intros S Fr F G D.
    destruct (step_descent adam_state adam_dir (fun t p => val (fst (adam_update (adam_rate t h) p))) fresh)
      with (L := L) (ns := ns) (ps := ps) as [t0 [P H]]; auto.
    - intros n p g blk _ R E. eapply adam_dir_ok; eauto.
    - intros n t p g Fp R E. apply (adam_move n t p g Fp R E).
    - intros t p _ E. unfold adam_update. rewrite E. reflexivity.
    - exists t0. split; auto. intros t T. specialize (H t T).
      assert (V : forall n p, fresh p -> ready n p -> adam_visit (adam_rate t h) p = (fst (adam_update (adam_rate t h) p), Ok)).
      { intros n p Fp R. unfold adam_visit. assert (O : snd (adam_update (adam_rate t h) p) = Ok).
        { destruct (grad p) as [|g|] eqn:E; [unfold adam_update; rewrite E; reflexivity| |destruct (proj1 R E)].
          apply (adam_move n t p g Fp R E). }
        destruct (adam_update (adam_rate t h) p) as [q s]. cbn [fst snd] in *. subst s.
        change (a_stabilize (adam_rate t h)) with (a_stabilize h). rewrite S. reflexivity. }
      assert (LP : loop (adam_visit (adam_rate t h)) ps = (map (fun p => fst (adam_update (adam_rate t h) p)) ps, Ok)).
      { clear - V Fr F. induction F as [|n p ns ps R F IH]; [reflexivity|]. inversion Fr; subst. cbn [loop map].
        rewrite (V n p) by auto. rewrite IH by auto. reflexivity. }
      unfold adam_step_group. cbn [a_hyp a_params]. rewrite LP. change (a_stabilize (adam_rate t h)) with (a_stabilize h). rewrite S.
      cbn [fst a_params]. rewrite map_map. exact H.
  Qed.
End Adam.
