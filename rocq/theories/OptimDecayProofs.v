(** Lemmas: weight decay. *)
From Coq Require Import Reals List Bool Arith Lra Lia.
From Verif Require Import RVec OptimModel OptimSpec OptimProofs OptimProofs2 OptimProofs3 OptimInstances OptimDecaySpec.
From Verif Require SphereModel SphereSpec StereoModel.
Import ListNotations.
Local Open Scope R_scope.

(** the same parameter up to the content of its gradient *)
Definition sim {S} (p q : param S) : Prop := man p = man q /\ val p = val q /\ state p = state q.
Lemma sim_refl {S} (p : param S) : sim p p. Proof. repeat split. Qed.
Lemma sim_manifold {S} (p q : param S) : sim p q -> manifold_of p = manifold_of q.
Proof. intros [H _]. unfold manifold_of. rewrite H. reflexivity. Qed.
Lemma sim_vals {S} (ps qs : list (param S)) : Forall2 sim ps qs -> map val ps = map val qs.
Proof. induction 1 as [|p q ps qs [_ [V _]] _ IH]; cbn; congruence. Qed.
Lemma loop_sim {S} (f f' : param S -> param S * status) (R : param S -> param S -> Prop) ps qs :
  (forall p q, R p q -> sim (fst (f p)) (fst (f' q)) /\ snd (f p) = snd (f' q)) -> (forall p q, R p q -> sim p q) ->
  Forall2 R ps qs -> Forall2 sim (fst (loop f ps)) (fst (loop f' qs)) /\ snd (loop f ps) = snd (loop f' qs).
Proof.
  intros H W. induction 1 as [|p q ps qs P Q IH]; [split; [constructor|reflexivity]|].
  cbn [loop]. destruct (H p q P) as [A B]. destruct (f p) as [p' s], (f' q) as [q' s']. cbn [fst snd] in *. subst s'.
  assert (T : Forall2 sim ps qs) by (clear - W Q; induction Q; constructor; auto).
  destruct (loop f ps) as [a b], (loop f' qs) as [a' b']. cbn [fst snd] in IH. destruct IH as [IH ->].
  destruct s; cbn [fst snd]; split; auto.
Qed.

Section Sgd.
  Variable on : manifold -> vec -> Prop.
  Definition blind_at {S} (p : param S) : Prop := radially_blind (manifold_of p) (on (manifold_of p)) /\ on (manifold_of p) (val p).
  Definition pair_ok {S} (p q : param S) : Prop := sim p q /\ grad p = grad q /\ blind_at p.
  Lemma sgd_update_sim h a p q : pair_ok p q ->
    sim (fst (sgd_update h p)) (fst (sgd_update (sgd_decay a h) q)) /\ snd (sgd_update h p) = snd (sgd_update (sgd_decay a h) q).
  Proof.
    intros [[M [V S]] [G [B O]]]. unfold sgd_update. rewrite <- G.
    assert (MM : manifold_of q = manifold_of p) by (unfold manifold_of; rewrite M; reflexivity).
    destruct (grad p) as [|g|]; [split; [repeat split; auto|reflexivity]| |split; [repeat split; auto|reflexivity]].
    rewrite MM, <- V, <- S, <- M.
    assert (E : forall b, egrad2rgrad (manifold_of p) (val p) (decayed (sgd_decay b h) (val p) g) = egrad2rgrad (manifold_of p) (val p) g)
      by (intros b; apply B, O).
    assert (E' : egrad2rgrad (manifold_of p) (val p) (decayed h (val p) g) = egrad2rgrad (manifold_of p) (val p) g) by (apply B, O).
    assert (D : sgd_direction (sgd_decay a h) (manifold_of p) (val p) g (state p) = sgd_direction h (manifold_of p) (val p) g (state p)).
    { unfold sgd_direction. rewrite E, E'. reflexivity. }
    cbn zeta. rewrite D, E, E'.
    change (has_momentum (sgd_decay a h)) with (has_momentum h). change (lr (sgd_decay a h)) with (lr h).
    change (new_buffer (sgd_decay a h)) with (new_buffer h). change (nesterov (sgd_decay a h)) with (nesterov h).
    destruct (has_momentum h).
    - destruct (retr_transp _ _ _ _) as [y b]. cbn [fst snd]. split; [repeat split|reflexivity].
    - cbn [fst snd]. split; [repeat split|reflexivity].
  Qed.
  Lemma sgd_stabilize_sim h a p q : sim p q -> sim (sgd_stabilize h p) (sgd_stabilize (sgd_decay a h) q).
  Proof.
    intros [M [V S]]. unfold sgd_stabilize. rewrite <- M. destruct (man p) as [N|] eqn:E.
    - repeat split; cbn [man val state]; rewrite <- ?V, <- ?S; auto.
    - repeat split; auto; congruence.
  Qed.
  Lemma map_sim {S} (f f' : param S -> param S) ps qs : (forall p q, sim p q -> sim (f p) (f' q)) ->
    Forall2 sim ps qs -> Forall2 sim (map f ps) (map f' qs).
  Proof. intros H. induction 1; cbn; constructor; auto. Qed.
  Lemma sgd_group_sim a g g' : hyp g' = sgd_decay a (hyp g) -> steps g = steps g' -> Forall2 pair_ok (params g) (params g') ->
    let r := sgd_step_group g in let r' := sgd_step_group g' in
    snd r = snd r' /\ steps (fst r) = steps (fst r') /\ Forall2 sim (params (fst r)) (params (fst r')).
  Proof.
    intros H ST P. unfold sgd_step_group. rewrite H, <- ST. cbn zeta.
    destruct (loop_sim (sgd_update (hyp g)) (sgd_update (sgd_decay a (hyp g))) pair_ok (params g) (params g')) as [A B]; auto.
    { intros p q Q. apply sgd_update_sim, Q. } { intros p q [Q _]. exact Q. }
    destruct (loop (sgd_update (hyp g)) (params g)) as [ps s], (loop (sgd_update (sgd_decay a (hyp g))) (params g')) as [qs s'].
    cbn [fst snd] in *. subst s'.
    change (stabilize (sgd_decay a (hyp g))) with (stabilize (hyp g)).
    destruct s; cbn [fst snd steps params]; auto.
    destruct (stabilize (hyp g)) as [[|N]|]; cbn [fst snd steps params]; auto.
    destruct (_ =? 0)%nat; cbn [fst snd steps params]; auto. split; auto. split; auto.
    apply map_sim; auto. intros p q. apply sgd_stabilize_sim.
  Qed.
  Lemma assign_pair {S} (G : nat -> gradient) (ps qs : list (param S)) i : Forall2 sim ps qs -> Forall blind_at ps ->
    Forall2 pair_ok (assign G i ps) (assign G i qs).
  Proof.
    intros F. revert i. induction F as [|p q ps qs [M [V S']] F IH]; intros i B; cbn [assign]; constructor.
    - inversion B; subst. repeat split; auto; apply H1.
    - apply IH. inversion B; auto.
  Qed.
  Lemma sgd_training_sim hs wd G ps : (forall t, Forall blind_at (params (sgd_training hs G ps t))) -> forall t,
    let g := sgd_training hs G ps t in let g' := sgd_training (fun t => sgd_decay (wd t) (hs t)) G ps t in
    steps g = steps g' /\ Forall2 sim (params g) (params g').
  Proof.
    intros B. induction t as [|t [IH1 IH2]].
    - cbn. split; auto. clear B. induction ps; constructor; auto. apply sim_refl.
    - cbn [sgd_training] in *. cbn zeta.
      set (g := sgd_training hs G ps t) in *. set (g' := sgd_training (fun t => sgd_decay (wd t) (hs t)) G ps t) in *.
      rewrite <- (sim_vals _ _ IH2).
      destruct (sgd_group_sim (wd t) {| hyp := hs t; steps := steps g; params := assign (G t (map val (params g))) 0 (params g) |}
        {| hyp := sgd_decay (wd t) (hs t); steps := steps g'; params := assign (G t (map val (params g))) 0 (params g') |}) as [_ [S' P]]; auto.
      cbn [params]. apply assign_pair; auto. apply B.
  Qed.
  Lemma sgd_training_values hs wd G ps : (forall t, Forall blind_at (params (sgd_training hs G ps t))) -> forall t,
    map val (params (sgd_training (fun t => sgd_decay (wd t) (hs t)) G ps t)) = map val (params (sgd_training hs G ps t)).
  Proof. intros B t. symmetry. apply sim_vals, (sgd_training_sim hs wd G ps B t). Qed.

  (** ** the same for Adam *)
  Lemma adam_update_sim h a p q : pair_ok p q ->
    sim (fst (adam_update h p)) (fst (adam_update (adam_decay a h) q)) /\ snd (adam_update h p) = snd (adam_update (adam_decay a h) q) /\
    match grad (fst (adam_update h p)), grad (fst (adam_update (adam_decay a h) q)) with
    | Dense _, Dense _ | NoGrad, NoGrad | Sparse, Sparse => True | _, _ => False end.
  Proof.
    intros [[M [V S]] [G [B O]]]. unfold adam_update. rewrite <- G.
    assert (MM : manifold_of q = manifold_of p) by (unfold manifold_of; rewrite M; reflexivity).
    destruct (grad p) as [|g|] eqn:EG; [split; [repeat split; auto|split; [reflexivity|cbn [fst]; rewrite <- G, EG; exact I]]| |
      split; [repeat split; auto|split; [reflexivity|cbn [fst]; rewrite <- G, EG; exact I]]].
    rewrite MM, <- V, <- S, <- M. cbn zeta.
    rewrite (B (val p) g (a_decay h) O), (B (val p) g (a_decay (adam_decay a h)) O).
    change (adam_init (adam_decay a h)) with (adam_init h). change (first_moment (adam_decay a h)) with (first_moment h).
    change (second_moment (adam_decay a h)) with (second_moment h). change (adam_direction (adam_decay a h)) with (adam_direction h).
    change (amsgrad (adam_decay a h)) with (amsgrad h). change (a_lr (adam_decay a h)) with (a_lr h).
    destruct (amsgrad h).
    - destruct (max_exp_avg_sq (adam_init h (state p))) as [mx|].
      + destruct (retr_transp _ _ _ _) as [y b]. cbn [fst snd grad]. repeat split.
      + cbn [fst snd grad]. repeat split.
    - destruct (retr_transp _ _ _ _) as [y b]. cbn [fst snd grad]. repeat split.
  Qed.
  (** dense in both or in none *)
  Definition dense_alike {S} (p q : param S) : Prop :=
    match grad p, grad q with Dense _, Dense _ | NoGrad, NoGrad | Sparse, Sparse => True | _, _ => False end.
  Lemma adam_visit_sim h a p q : pair_ok p q ->
    let r := adam_visit h p in let r' := adam_visit (adam_decay a h) q in
    (sim (fst r) (fst r') /\ dense_alike (fst r) (fst r')) /\ snd r = snd r'.
  Proof.
    intros P. destruct (adam_update_sim h a p q P) as [A [B D]]. unfold adam_visit, dense_alike.
    change (a_stabilize (adam_decay a h)) with (a_stabilize h).
    destruct (adam_update h p) as [p' s], (adam_update (adam_decay a h) q) as [q' s']. cbn [fst snd] in *. subst s'.
    destruct s; cbn [fst snd]; auto.
    destruct (a_stabilize h) as [[|N]|]; cbn [fst snd]; auto.
    all: destruct (grad p') eqn:E1, (grad q') eqn:E2; cbn [fst snd]; try contradiction; rewrite ?E1, ?E2; auto.
  Qed.
  Definition sim2 (p q : adam_param) : Prop := sim p q /\ dense_alike p q.
  Lemma loop_sim2 (f f' : adam_param -> adam_param * status) ps qs :
    (forall p q, pair_ok p q -> sim2 (fst (f p)) (fst (f' q)) /\ snd (f p) = snd (f' q)) ->
    Forall2 pair_ok ps qs -> Forall2 sim2 (fst (loop f ps)) (fst (loop f' qs)) /\ snd (loop f ps) = snd (loop f' qs).
  Proof.
    intros H. induction 1 as [|p q ps qs P Q IH]; [split; [constructor|reflexivity]|].
    cbn [loop]. destruct (H p q P) as [A B]. destruct (f p) as [p' s], (f' q) as [q' s']. cbn [fst snd] in *. subst s'.
    assert (T : Forall2 sim2 ps qs).
    { clear - Q. induction Q as [|p q ps qs [A [B _]] _ IH]; constructor; auto. split; auto. unfold dense_alike. rewrite B. destruct (grad q); exact I. }
    destruct (loop f ps) as [a b], (loop f' qs) as [a' b']. cbn [fst snd] in IH. destruct IH as [IH ->].
    destruct s; cbn [fst snd]; split; auto.
  Qed.
  Lemma asks_sim N ps qs : Forall2 sim2 ps qs -> existsb (asks N) ps = existsb (asks N) qs.
  Proof.
    induction 1 as [|p q ps qs [[_ [_ S]] D] _ IH]; [reflexivity|]. cbn [existsb]. rewrite IH. f_equal.
    unfold asks. rewrite <- S. unfold dense_alike in D. destruct (grad p), (grad q); try contradiction; reflexivity.
  Qed.
  Lemma adam_stabilize_sim p q : sim p q -> sim (adam_stabilize p) (adam_stabilize q).
  Proof.
    intros [M [V S]]. unfold adam_stabilize. rewrite <- M, <- S. destruct (man p) as [N|] eqn:E, (state p) as [s|] eqn:E2;
      repeat split; cbn [man val state]; rewrite <- ?V; auto; congruence.
  Qed.
  Lemma sim2_sim ps qs : Forall2 sim2 ps qs -> Forall2 sim ps qs.
  Proof. induction 1 as [|p q ps qs [A _] _ IH]; constructor; auto. Qed.
  Lemma adam_group_sim a g g' : a_hyp g' = adam_decay a (a_hyp g) -> Forall2 pair_ok (a_params g) (a_params g') ->
    let r := adam_step_group g in let r' := adam_step_group g' in
    snd r = snd r' /\ Forall2 sim (a_params (fst r)) (a_params (fst r')).
  Proof.
    intros H P. unfold adam_step_group. rewrite H. cbn zeta.
    destruct (loop_sim2 (adam_visit (a_hyp g)) (adam_visit (adam_decay a (a_hyp g))) (a_params g) (a_params g')) as [A B]; auto.
    { intros p q Q. apply (adam_visit_sim _ a _ _ Q). }
    destruct (loop (adam_visit (a_hyp g)) (a_params g)) as [ps s], (loop (adam_visit (adam_decay a (a_hyp g))) (a_params g')) as [qs s'].
    cbn [fst snd] in *. subst s'.
    change (a_stabilize (adam_decay a (a_hyp g))) with (a_stabilize (a_hyp g)).
    pose proof (sim2_sim _ _ A) as A'.
    destruct s; cbn [fst snd a_params]; auto.
    destruct (a_stabilize (a_hyp g)) as [N|]; cbn [fst snd a_params]; auto.
    rewrite (asks_sim N _ _ A). destruct (existsb (asks N) qs); cbn [fst snd a_params]; auto.
    split; auto. apply map_sim; auto. exact adam_stabilize_sim.
  Qed.
  Lemma adam_training_sim hs wd G ps : (forall t, Forall blind_at (a_params (adam_training hs G ps t))) -> forall t,
    Forall2 sim (a_params (adam_training hs G ps t)) (a_params (adam_training (fun t => adam_decay (wd t) (hs t)) G ps t)).
  Proof.
    intros B. induction t as [|t IH].
    - cbn. clear B. induction ps; constructor; auto. apply sim_refl.
    - cbn [adam_training] in *.
      set (g := adam_training hs G ps t) in *. set (g' := adam_training (fun t => adam_decay (wd t) (hs t)) G ps t) in *.
      rewrite <- (sim_vals _ _ IH).
      apply (adam_group_sim (wd t) {| a_hyp := hs t; a_params := assign (G t (map val (a_params g))) 0 (a_params g) |}
        {| a_hyp := adam_decay (wd t) (hs t); a_params := assign (G t (map val (a_params g))) 0 (a_params g') |}); auto.
      cbn [a_params]. apply assign_pair; auto. apply B.
  Qed.
End Sgd.

(** ** Training loops are histories *)
Lemma assign_kept {S} (G : nat -> gradient) (ps : list (param S)) i : Forall2 kept ps (assign G i ps).
Proof. revert i. induction ps; intros i; cbn [assign]; constructor; [repeat split|apply IHps]. Qed.
Lemma sgd_training_history (new : sgd_param -> Prop) (ok : list sgd_group -> Prop) hs G ps t :
  (forall t g, ok [{| hyp := hs t; steps := steps g; params := assign (G t (map val (params g))) 0 (params g) |}]) ->
  sgd_history new ok [sgd_training hs G ps O] [sgd_training hs G ps t].
Proof.
  intros K. induction t as [|t IH]; [apply h_start|].
  set (e := [{| hyp := hs t; steps := steps (sgd_training hs G ps t);
                params := assign (G t (map val (params (sgd_training hs G ps t)))) 0 (params (sgd_training hs G ps t)) |}]).
  replace [sgd_training hs G ps (S t)] with (fst (sgd_step e)).
  - apply h_step; [|apply K]. eapply h_edit; [exact IH|]. exists e, []. split; [reflexivity|]. split; [|constructor].
    constructor; [|constructor]. split; [reflexivity|apply assign_kept].
  - unfold sgd_step, e. cbn [each sgd_training]. destruct (sgd_step_group _) as [g s]. destruct s; reflexivity.
Qed.
Lemma adam_training_history (new : adam_param -> Prop) (ok : list adam_group -> Prop) hs G ps t :
  (forall t g, ok [{| a_hyp := hs t; a_params := assign (G t (map val (a_params g))) 0 (a_params g) |}]) ->
  adam_history new ok [adam_training hs G ps O] [adam_training hs G ps t].
Proof.
  intros K. induction t as [|t IH]; [apply h_start|].
  set (e := [{| a_hyp := hs t;
                a_params := assign (G t (map val (a_params (adam_training hs G ps t)))) 0 (a_params (adam_training hs G ps t)) |}]).
  replace [adam_training hs G ps (S t)] with (fst (adam_step e)).
  - apply h_step; [|apply K]. eapply h_edit; [exact IH|]. exists e, []. split; [reflexivity|]. split; [|constructor].
    constructor; [|constructor]. apply assign_kept.
  - unfold adam_step, e. cbn [each adam_training]. destruct (adam_step_group _) as [g s]. destruct s; reflexivity.
Qed.

Section Blind.
  Variable on : manifold -> vec -> Prop.
  Variable tan : manifold -> vec -> vec -> Prop.
  Variable blk : manifold -> nat -> nat -> Prop.
  Definition on_blind (M : manifold) (x : vec) : Prop := on M x /\ radially_blind M (on M).
  Lemma lawful_blind M : lawful M (on M) (tan M) -> radially_blind M (on M) -> lawful M (on_blind M) (tan M).
  Proof. intros [A B C D E F G H] R. split; unfold on_blind; intros; auto; try (split; auto); destruct H0; auto. Qed.
  Lemma blocked_blind M : blocked M (on M) (tan M) (blk M) -> blocked M (on_blind M) (tan M) (blk M).
  Proof. intros [A B C]. split; [intros x u i [X _] U; auto|intros x u i j [X _] U; apply B; auto|exact C]. Qed.
  Lemma sgd_blind hs wd G ps : (forall t, momentum (hs t) <= 0) ->
    Forall (fun p : sgd_param => lawful (manifold_of p) (on (manifold_of p)) (tan (manifold_of p)) /\
      radially_blind (manifold_of p) (on (manifold_of p)) /\ on (manifold_of p) (val p) /\ fresh p) ps -> forall t,
    map val (params (sgd_training (fun t => sgd_decay (wd t) (hs t)) G ps t)) = map val (params (sgd_training hs G ps t)).
  Proof.
    intros Z W. apply (sgd_training_values on). intros t. rewrite Forall_forall in W. apply Forall_forall. intros p Ip.
    assert (H : sgd_all (fun _ p => (lawful (manifold_of p) (on_blind (manifold_of p)) (tan (manifold_of p)) /\
      on_blind (manifold_of p) (val p)) /\ fresh p) [sgd_training hs G ps t]).
    { apply (sgd_plain on_blind tan [sgd_training hs G ps O]).
      - apply sgd_training_history. intros u g g' q [<-|[]] _. apply Z.
      - intros g q [<-|[]] Iq. cbn in Iq. destruct (W q Iq) as [L [B [X F]]]. split; [|exact F]. split; [apply lawful_blind; auto|split; auto]. }
    destruct (H _ p (or_introl eq_refl) Ip) as [[_ [X B]] _]. split; auto.
  Qed.
  Lemma adam_blind hs wd G ps : (forall t, 0 <= beta1 (hs t) < 1 /\ 0 <= beta2 (hs t) < 1 /\ 0 < eps (hs t)) ->
    Forall (fun p : adam_param => lawful (manifold_of p) (on (manifold_of p)) (tan (manifold_of p)) /\
      blocked (manifold_of p) (on (manifold_of p)) (tan (manifold_of p)) (blk (manifold_of p)) /\
      radially_blind (manifold_of p) (on (manifold_of p)) /\ on (manifold_of p) (val p) /\ fresh p) ps -> forall t,
    map val (a_params (adam_training (fun t => adam_decay (wd t) (hs t)) G ps t)) = map val (a_params (adam_training hs G ps t)).
  Proof.
    intros Z W t. symmetry. apply sim_vals. revert t. apply (adam_training_sim on). intros t.
    rewrite Forall_forall in W. apply Forall_forall. intros p Ip.
    pose proof (adam_invariant on_blind tan blk [adam_training hs G ps O] [adam_training hs G ps t]) as H.
    assert (K : adam_all (fun _ p => alaw on_blind tan blk p /\ agood on_blind tan blk p) [adam_training hs G ps t]).
    { apply H.
      - apply adam_training_history. intros u g g' q [<-|[]] _. apply Z.
      - intros g q [<-|[]] Iq. cbn in Iq. destruct (W q Iq) as [L [BB [B [X F]]]]. split.
        + split; [apply lawful_blind; auto|apply blocked_blind; auto].
        + split; [split; auto|]. intros s E. rewrite F in E. discriminate. }
    destruct (K _ p (or_introl eq_refl) Ip) as [_ [[X B] _]]. split; auto.
  Qed.
End Blind.

(** ** Instances *)
Lemma sphere_blind n : radially_blind (sphere n) (SphereSpec.on_sphere n None).
Proof.
  intros x g a [X _]. cbn [sphere egrad2rgrad]. unfold SphereModel.proju, SphereModel.project_on_subspace.
  apply vec_ext. intros i. unfold vsub, smul, vadd.
  replace (dot n x (fun i0 => g i0 + a * x i0)) with (dot n x g + a * dot n x x).
  - rewrite X. ring.
  - unfold dot. rewrite <- Rsum_scal, <- Rsum_plus. apply Rsum_ext. intros; ring.
Qed.
Lemma ball_decay n k h x : momentum h <= 0 ->
  val (fst (sgd_update h {| man := Some (ball n k); val := x; grad := Dense vzero; state := None |})) =
  StereoModel.project n StereoModel.e15 (/ 10 ^ 5) k
    (smul (1 - lr h * weight_decay h / StereoModel.lambda_x n k x ^ 2) x).
Proof.
  intros Z. unfold sgd_update. cbn [grad manifold_of man val state].
  assert (E : has_momentum h = false) by (unfold has_momentum; destruct (Rlt_dec 0 (momentum h)); [lra|reflexivity]).
  unfold sgd_direction. rewrite E. cbn [fst val ball retr egrad2rgrad]. f_equal. apply vec_ext. intros i.
  unfold StereoModel.egrad2rgrad, decayed, vadd, smul, vdiv, vzero. unfold Rdiv. ring.
Qed.
Lemma euclidean_not_blind : ~ radially_blind euclidean (fun _ => True).
Proof.
  intros H. specialize (H (fun _ => 1) vzero 1 I). apply (f_equal (fun v => v O)) in H. cbn in H. unfold vadd, smul, vzero in H. lra.
Qed.
From Verif Require LorentzModel LorentzSpec.
Lemma lorentz_decay d k x g a : LorentzSpec.on_hyperboloid d k x -> 0 < k -> forall i,
  egrad2rgrad (lorentz d k) x (vadd g (smul a x)) i =
  egrad2rgrad (lorentz d k) x g i + 2 * a / k * x i * (match i with O => x O ^ 2 - k | S _ => x O ^ 2 end).
Proof.
  intros [X _] K i. unfold LorentzSpec.minkowski in X. cbn [lorentz egrad2rgrad]. unfold LorentzModel.egrad2rgrad. cbn [snd].
  unfold LorentzModel.inner, LorentzModel.flip, vadd, smul, vdiv.
  assert (E : Rsum d (LorentzModel.tl (fun j => x j * match j with O => (g O + a * x O) * -1 | S _ => g j + a * x j end)) =
    Rsum d (LorentzModel.tl (fun j => x j * match j with O => g O * -1 | S _ => g j end)) + a * Rsum d (fun j => x (S j) * x (S j))).
  { rewrite <- Rsum_scal, <- Rsum_plus. apply Rsum_ext. intros j _. unfold LorentzModel.tl. ring. }
  rewrite E. replace (Rsum d (fun j => x (S j) * x (S j))) with (x O ^ 2 - k) by lra.
  destruct i; field; lra.
Qed.
Definition half_decay : sgd_hyper := {| lr := 1; momentum := 0; dampening := 0; weight_decay := / 2; nesterov := false; stabilize := Some 3%nat |}.
Definition on_globe : sgd_param := {| man := Some (sphere 2); val := north; grad := NoGrad; state := None |}.
Lemma globe_ok : (forall t : nat, momentum half_decay <= 0) /\
  Forall (fun p : sgd_param => lawful (manifold_of p) (SphereSpec.on_sphere 2 None) (SphereSpec.tangent 2 None) /\
    blocked (manifold_of p) (SphereSpec.on_sphere 2 None) (SphereSpec.tangent 2 None) (fun _ _ => True) /\
    radially_blind (manifold_of p) (SphereSpec.on_sphere 2 None) /\ SphereSpec.on_sphere 2 None (val p) /\ fresh p) [on_globe].
Proof.
  split; [intros; cbn; lra|]. constructor; [|constructor]. cbn [manifold_of man on_globe val].
  split; [apply sphere_lawful|]. split; [apply sphere_blocked|]. split; [apply sphere_blind|]. split; [apply north_on|reflexivity].
Qed.
