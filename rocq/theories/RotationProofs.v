(** Lemmas: rotations commute with operations. *)
From Coq Require Import Reals List Bool Arith Lra Lia.
From Verif Require Import RVec OptimModel OptimSpec OptimProofs OptimDecaySpec OptimInstances RotationSpec.
From Verif Require SphereModel LorentzModel StereoModel.
Import ListNotations.
Local Open Scope R_scope.

Section Linear.
  Variables (n : nat) (T : vec -> vec).
  Hypothesis H : rotation n T.
  Lemma t_opp u : T (vopp u) = vopp (T u).
  Proof. replace (vopp u) with (smul (-1) u) by (veq; ring). rewrite (turn_smul _ _ H). veq. ring. Qed.
  Lemma t_sub u v : T (vsub u v) = vsub (T u) (T v).
  Proof. replace (vsub u v) with (vadd u (smul (-1) v)) by (veq; ring). rewrite (turn_add _ _ H), (turn_smul _ _ H). veq. ring. Qed.
  Lemma t_div u a : T (vdiv u a) = vdiv (T u) a.
  Proof. replace (vdiv u a) with (smul (/ a) u) by (veq; unfold Rdiv; ring). rewrite (turn_smul _ _ H). veq. unfold Rdiv. ring. Qed.
  Lemma t_nrm u : nrm n (T u) = nrm n u.
  Proof. unfold nrm. rewrite (turn_dot _ _ H). reflexivity. Qed.
  Lemma t_zero : T vzero = vzero.
  Proof. replace vzero with (smul 0 vzero) by (veq; ring). rewrite (turn_smul _ _ H). veq. ring. Qed.
End Linear.
Ltac turn H := rewrite ?(turn_add _ _ H), ?(turn_smul _ _ H), ?(t_opp _ _ H), ?(t_sub _ _ H), ?(t_div _ _ H), ?(t_nrm _ _ H), ?(turn_dot _ _ H).

Section Functions.
  Variables (n : nat) (T : vec -> vec).
  Hypothesis H : rotation n T.
  Ltac t := repeat (progress turn H).
  Import StereoModel.
  Lemma r_lambda k x : lambda_x n k (T x) = lambda_x n k x.
  Proof. unfold lambda_x. t. reflexivity. Qed.
  Lemma r_project e eps k x : project n e eps k (T x) = T (project n e eps k x).
  Proof. unfold project. t. destruct Rlt_dec; [|reflexivity]. t. reflexivity. Qed.
  Lemma r_mobius_add k x y : mobius_add n k (T x) (T y) = T (mobius_add n k x y).
  Proof. unfold mobius_add, mobius_num, mobius_den. t. reflexivity. Qed.
  Lemma r_gyration k u v w : gyration n k (T u) (T v) (T w) = T (gyration n k u v w).
  Proof. unfold gyration, gyr_den. cbn zeta. t. reflexivity. Qed.
  Lemma r_scalar e k r x : mobius_scalar_mul n e k r (T x) = T (mobius_scalar_mul n e k r x).
  Proof. unfold mobius_scalar_mul. cbn zeta. t. reflexivity. Qed.
  Lemma r_dist e k x y : dist n e k (T x) (T y) = dist n e k x y.
  Proof. unfold dist. rewrite <- (t_opp _ _ H), r_mobius_add. t. reflexivity. Qed.
  Lemma r_expmap e k x u : expmap n e k (T x) (T u) = T (expmap n e k x u).
  Proof. unfold expmap. cbn zeta. rewrite r_lambda, <- r_mobius_add. t. reflexivity. Qed.
  Lemma r_logmap e k x y : logmap n e k (T x) (T y) = T (logmap n e k x y).
  Proof. unfold logmap. cbn zeta. rewrite r_lambda, <- (t_opp _ _ H), r_mobius_add. t. reflexivity. Qed.
  Lemma r_geodesic e k s x y : geodesic n e k s (T x) (T y) = T (geodesic n e k s x y).
  Proof. unfold geodesic. rewrite <- (t_opp _ _ H), r_mobius_add, r_scalar, r_mobius_add. reflexivity. Qed.
  Lemma r_dist2plane e k a b x y z : dist2plane n e k a b (T x) (T y) (T z) = dist2plane n e k a b x y z.
  Proof. unfold dist2plane. cbn zeta. rewrite <- (t_opp _ _ H), r_mobius_add. t. reflexivity. Qed.
  Lemma r_parallel k x y u : parallel_transport n k (T x) (T y) (T u) = T (parallel_transport n k x y u).
  Proof. unfold parallel_transport. rewrite !r_lambda, <- (t_opp _ _ H), r_gyration. t. reflexivity. Qed.
  Lemma r_inner k x u v : inner n k (T x) (T u) (T v) = inner n k x u v.
  Proof. unfold inner. rewrite r_lambda. t. reflexivity. Qed.

  Lemma ball_equivariant k : equivariant T (ball n k).
  Proof.
    split; cbn [sphere ball euclidean OptimModel.egrad2rgrad egrad_arg OptimModel.retr retr_transp OptimModel.projx OptimModel.proju fst snd]; cbn zeta; intros; try (apply (turn_add _ _ H)); try (apply (turn_smul _ _ H)); auto.
    - unfold egrad2rgrad. rewrite r_lambda. t. reflexivity.
    - rewrite <- (turn_add _ _ H). apply r_project.
    - rewrite <- (turn_add _ _ H), r_project, r_parallel. reflexivity.
    - apply r_project.
  Qed.
  Lemma ball_length k : invariant_length T (ball n k).
  Proof. intros x u. eexists. cbn. rewrite r_inner. split; reflexivity. Qed.
  Lemma sphere_proju x u : SphereModel.proju n None (T x) (T u) = T (SphereModel.proju n None x u).
  Proof. unfold SphereModel.proju, SphereModel.project_on_subspace. t. reflexivity. Qed.
  Lemma sphere_projx x : SphereModel.projx n None (T x) = T (SphereModel.projx n None x).
  Proof. unfold SphereModel.projx, SphereModel.project_on_subspace. t. reflexivity. Qed.
  Lemma sphere_retr x u : SphereModel.retr n None (T x) (T u) = T (SphereModel.retr n None x u).
  Proof. unfold SphereModel.retr. rewrite <- (turn_add _ _ H). apply sphere_projx. Qed.
  Lemma sphere_expmap eps x u : SphereModel.expmap n None eps (T x) (T u) = T (SphereModel.expmap n None eps x u).
  Proof. unfold SphereModel.expmap. cbn zeta. rewrite <- (turn_add _ _ H), sphere_projx. t. destruct Rlt_dec; [|reflexivity]. t. reflexivity. Qed.
  Lemma sphere_dist eps x y : SphereModel.dist n eps (T x) (T y) = SphereModel.dist n eps x y.
  Proof. unfold SphereModel.dist, SphereModel.inner. t. reflexivity. Qed.
  Lemma sphere_logmap eps x y : SphereModel.logmap n None eps (T x) (T y) = T (SphereModel.logmap n None eps x y).
  Proof. unfold SphereModel.logmap. cbn zeta. rewrite <- (t_sub _ _ H), sphere_proju, sphere_dist. t. destruct Rlt_dec; [|reflexivity]. t. reflexivity. Qed.
  Lemma sphere_equivariant : equivariant T (sphere n).
  Proof.
    split; cbn [sphere ball euclidean OptimModel.egrad2rgrad egrad_arg OptimModel.retr retr_transp OptimModel.projx OptimModel.proju fst snd]; cbn zeta; intros; try (apply (turn_add _ _ H)); try (apply (turn_smul _ _ H)); auto.
    - apply sphere_proju.
    - apply sphere_retr.
    - unfold SphereModel.transp. rewrite sphere_retr, sphere_proju. reflexivity.
    - apply sphere_projx.
    - apply sphere_proju.
  Qed.
  Lemma sphere_length : invariant_length T (sphere n).
  Proof. intros x u. eexists. cbn. t. split; reflexivity. Qed.
  Lemma euclidean_equivariant : equivariant T euclidean.
  Proof. split; cbn [sphere ball euclidean OptimModel.egrad2rgrad egrad_arg OptimModel.retr retr_transp OptimModel.projx OptimModel.proju fst snd]; cbn zeta; intros; try (apply (turn_add _ _ H)); try (apply (turn_smul _ _ H)); auto; rewrite (turn_add _ _ H); reflexivity. Qed.
End Functions.

Section Lorentz.
  Variables (d : nat) (T : vec -> vec).
  Hypothesis H : rotation d T.
  Import LorentzModel.
  Lemma s_add u v : spatial T (vadd u v) = vadd (spatial T u) (spatial T v).
  Proof. apply vec_ext. intros [|i]; cbn; [reflexivity|]. change (tl (vadd u v)) with (vadd (tl u) (tl v)). rewrite (turn_add _ _ H). reflexivity. Qed.
  Lemma s_smul a u : spatial T (smul a u) = smul a (spatial T u).
  Proof. apply vec_ext. intros [|i]; cbn; [reflexivity|]. change (tl (smul a u)) with (smul a (tl u)). rewrite (turn_smul _ _ H). reflexivity. Qed.
  Lemma s_sub u v : spatial T (vsub u v) = vsub (spatial T u) (spatial T v).
  Proof. replace (vsub u v) with (vadd u (smul (-1) v)) by (veq; ring). rewrite s_add, s_smul. veq. ring. Qed.
  Lemma s_div u a : spatial T (vdiv u a) = vdiv (spatial T u) a.
  Proof. replace (vdiv u a) with (smul (/ a) u) by (veq; unfold Rdiv; ring). rewrite s_smul. veq. unfold Rdiv. ring. Qed.
  Lemma s_inner u v : inner d (spatial T u) (spatial T v) = inner d u v.
  Proof. unfold inner. f_equal. exact (turn_dot _ _ H (tl u) (tl v)). Qed.
  Lemma s_flip u : flip (spatial T u) = spatial T (flip u).
  Proof. apply vec_ext. intros [|i]; reflexivity. Qed.
  Lemma s_project k x : project d k (spatial T x) = spatial T (project d k x).
  Proof. unfold project. change (tl (spatial T x)) with (T (tl x)). rewrite (t_nrm _ _ H). reflexivity. Qed.
  Ltac s := repeat (progress rewrite <- ?s_add, <- ?s_smul, <- ?s_sub, <- ?s_div, ?s_inner, ?s_flip, ?s_project).
  Lemma s_project_u k x v : project_u d k (spatial T x) (spatial T v) = spatial T (project_u d k x v).
  Proof. unfold project_u. s. reflexivity. Qed.
  Lemma s_norm u : norm d (spatial T u) = norm d u.
  Proof. unfold norm. s. reflexivity. Qed.
  Lemma s_expmap k x u : expmap d k (spatial T x) (spatial T u) = spatial T (expmap d k x u).
  Proof. unfold expmap. cbn zeta. rewrite s_norm. s. reflexivity. Qed.
  Lemma s_dist k x y : dist d k (spatial T x) (spatial T y) = dist d k x y.
  Proof. unfold dist. s. reflexivity. Qed.
  Lemma s_logmap k x y : logmap d k (spatial T x) (spatial T y) = spatial T (logmap d k x y).
  Proof. unfold logmap. cbn zeta. s. rewrite s_dist, s_norm. s. reflexivity. Qed.
  Lemma s_parallel k x y v : parallel_transport d k (spatial T x) (spatial T y) (spatial T v) = spatial T (parallel_transport d k x y v).
  Proof. unfold parallel_transport. cbn zeta. rewrite !s_logmap, s_dist. s. reflexivity. Qed.
  Lemma s_lexp k x u : l_expmap d k true true (spatial T x) (spatial T u) = spatial T (l_expmap d k true true x u).
  Proof. unfold l_expmap. rewrite s_project_u, s_expmap, s_project. reflexivity. Qed.
  Lemma lorentz_equivariant k : equivariant (spatial T) (lorentz d k).
  Proof.
    split; cbn [lorentz OptimModel.egrad2rgrad egrad_arg retr retr_transp projx proju fst snd]; intros.
    - apply s_add.
    - apply s_smul.
    - unfold egrad2rgrad. cbn [snd]. cbn zeta. s. reflexivity.
    - unfold egrad2rgrad. cbn [fst]. cbn zeta. s. reflexivity.
    - apply s_lexp.
    - cbn zeta. rewrite s_lexp, s_parallel. reflexivity.
    - apply s_project.
    - apply s_project_u.
  Qed.
  Lemma lorentz_length k : invariant_length (spatial T) (lorentz d k).
  Proof. intros x u. eexists. cbn [lorentz component_inner]. rewrite s_inner. split; reflexivity. Qed.
End Lorentz.

(** ** Training *)
Section Lists.
  Context {S : Type}.
  Variables (turn : (vec -> vec) -> param S -> param S) (u : param S -> param S * status) (ok : (vec -> vec) -> param S -> Prop).
  Hypothesis C : forall T p, ok T p -> u (turn T p) = (turn T (fst (u p)), snd (u p)) /\ ok T (fst (u p)).
  Lemma loop_turned Ts ps : Forall2 ok Ts ps ->
    loop u (each_turned turn Ts ps) = (each_turned turn Ts (fst (loop u ps)), snd (loop u ps)) /\ Forall2 ok Ts (fst (loop u ps)).
  Proof.
    induction 1 as [|T p Ts ps Hp F [E K]]; [split; [reflexivity|constructor]|].
    destruct (C T p Hp) as [A B]. cbn [each_turned loop]. rewrite A. destruct (u p) as [q st]. cbn [fst snd] in *.
    destruct st; try (split; [reflexivity|constructor; auto]). rewrite E. destruct (loop u ps) as [qs st]. cbn [fst snd] in *.
    split; [reflexivity|constructor; auto].
  Qed.
  Variables (f : param S -> param S).
  Hypothesis D : forall T p, ok T p -> f (turn T p) = turn T (f p) /\ ok T (f p).
  Lemma map_turned Ts ps : Forall2 ok Ts ps -> map f (each_turned turn Ts ps) = each_turned turn Ts (map f ps) /\ Forall2 ok Ts (map f ps).
  Proof.
    induction 1 as [|T p Ts ps Hp F [E K]]; [split; [reflexivity|constructor]|].
    destruct (D T p Hp) as [A B]. cbn [each_turned map]. rewrite A, E. split; [reflexivity|constructor; auto].
  Qed.
  Hypothesis V : forall T p, val (turn T p) = T (val p).
  Lemma vals_turned Ts ps : map val (each_turned turn Ts ps) = turned_values Ts (map val ps).
  Proof. revert ps. induction Ts as [|T Ts IH]; intros [|p ps]; try reflexivity. cbn. rewrite V. f_equal. apply IH. Qed.
  Hypothesis Wg : forall T p g, {| man := man (turn T p); val := val (turn T p); grad := turn_gradient T g; state := state (turn T p) |} =
    turn T {| man := man p; val := val p; grad := g; state := state p |}.
  Hypothesis Kg : forall T p g, ok T p -> ok T {| man := man p; val := val p; grad := g; state := state p |}.
  Lemma assign_turned G G' Ts ps i : Forall2 ok Ts ps ->
    (forall j, (j < length Ts)%nat -> G' (i + j)%nat = turn_gradient (nth j Ts (fun x => x)) (G (i + j)%nat)) ->
    assign G' i (each_turned turn Ts ps) = each_turned turn Ts (assign G i ps) /\ Forall2 ok Ts (assign G i ps).
  Proof.
    intros F. revert i. induction F as [|T p Ts ps Hp F IH]; intros i Q; [split; [reflexivity|constructor]|].
    destruct (IH (Datatypes.S i)) as [A B].
    { intros j J. specialize (Q (Datatypes.S j)). rewrite Nat.add_succ_r in Q. apply Q. cbn. lia. }
    cbn [each_turned assign]. rewrite A. pose proof (Q O ltac:(cbn; lia)) as Q0. rewrite Nat.add_0_r in Q0. cbn [nth] in Q0. rewrite Q0, Wg.
    split; [reflexivity|constructor; auto].
  Qed.
End Lists.

Definition sgd_ok (T : vec -> vec) (p : param vec) : Prop := equivariant T (manifold_of p).
Lemma sgd_update_turned h T p : sgd_ok T p -> sgd_update h (turned T p) = (turned T (fst (sgd_update h p)), snd (sgd_update h p)) /\ sgd_ok T (fst (sgd_update h p)).
Proof.
  destruct p as [m x [|g|] b]; unfold sgd_ok; intros E; try (split; [reflexivity|exact E]).
  unfold sgd_update, turned. cbn [man val grad state turn_gradient]. unfold manifold_of in *. cbn [man] in *.
  set (M := match m with Some M => M | None => euclidean end) in *. cbn zeta.
  assert (Dc : decayed h (T x) (T g) = T (decayed h x g)) by (unfold decayed; rewrite (eq_add _ _ E), (eq_smul _ _ E); reflexivity).
  assert (Bf : sgd_buffer (T g) (option_map T b) = T (sgd_buffer g b)) by (destruct b; reflexivity).
  assert (Nb : forall r c, new_buffer h (T r) (T c) = T (new_buffer h r c)) by (intros; unfold new_buffer; rewrite (eq_add _ _ E), !(eq_smul _ _ E); reflexivity).
  assert (Dr : sgd_direction h M (T x) (T g) (option_map T b) = T (sgd_direction h M x g b)).
  { unfold sgd_direction. cbn zeta. rewrite Dc, (eq_gradient _ _ E), Bf, Nb. destruct (has_momentum h); [|reflexivity].
    destruct (nesterov h); [|reflexivity]. rewrite (eq_add _ _ E), (eq_smul _ _ E). reflexivity. }
  rewrite Dr, Dc, (eq_gradient _ _ E), (eq_argument _ _ E), Bf, Nb, <- !(eq_smul _ _ E).
  destruct (has_momentum h).
  - rewrite (eq_retr_transp _ _ E). destruct (retr_transp M _ _ _) as [y c]. cbn [fst snd man val grad state option_map turn_gradient].
    split; [|exact E]. destruct (nesterov h && egrad_same M); reflexivity.
  - rewrite (eq_retr _ _ E). split; [reflexivity|exact E].
Qed.
Lemma sgd_stabilize_turned h T p : sgd_ok T p -> sgd_stabilize h (turned T p) = turned T (sgd_stabilize h p) /\ sgd_ok T (sgd_stabilize h p).
Proof.
  destruct p as [[M|] x g b]; unfold sgd_ok, manifold_of; cbn; intros E; [|split; [reflexivity|exact E]].
  split; [|exact E]. unfold turned. cbn. rewrite (eq_projx _ _ E). f_equal.
  destruct (has_momentum h); [|reflexivity]. destruct b; [|reflexivity]. cbn. rewrite (eq_proju _ _ E). reflexivity.
Qed.
Lemma sgd_training_turned hs Ts G G' ps t : Forall2 (fun T p => equivariant T (manifold_of p)) Ts ps -> turned_oracle Ts G G' ->
  let g := sgd_training hs G ps t in let g' := sgd_training hs G' (each_turned turned Ts ps) t in
  steps g' = steps g /\ params g' = each_turned turned Ts (params g) /\ Forall2 sgd_ok Ts (params g).
Proof.
  intros F O. induction t as [|t [A [B D]]]; [repeat split; auto|]. cbn [sgd_training]. rewrite B, A.
  set (g := sgd_training hs G ps t) in *. rewrite (vals_turned turned (fun T p => eq_refl)).
  destruct (assign_turned turned sgd_ok (fun T p g => eq_refl) (fun T p g E => E) (G t (map val (params g))) (G' t (turned_values Ts (map val (params g)))) Ts (params g) 0 D) as [E Q].
  { intros j J. apply O, J. }
  rewrite E. set (qs := assign _ 0 (params g)) in *. clearbody qs.
  unfold sgd_step_group. cbn [hyp steps params].
  destruct (loop_turned turned (sgd_update (hs t)) sgd_ok (sgd_update_turned (hs t)) Ts qs Q) as [L K]. rewrite L.
  destruct (loop (sgd_update (hs t)) qs) as [rs st]. cbn [fst snd] in *.
  destruct st; [|repeat split; auto|repeat split; auto|repeat split; auto].
  destruct (stabilize (hs t)) as [[|N]|]; [repeat split; auto| |repeat split; auto].
  destruct (_ mod _ =? 0)%nat; [|repeat split; auto]. cbn [fst steps params]. split; [reflexivity|].
  apply (map_turned turned sgd_ok _ (sgd_stabilize_turned (hs t)) Ts rs K).
Qed.
Lemma sgd_values_turned Ts G G' ps : Forall2 (fun T p => equivariant T (manifold_of p)) Ts ps -> turned_oracle Ts G G' -> forall hs t,
  map val (params (sgd_training hs G' (each_turned turned Ts ps) t)) = turned_values Ts (map val (params (sgd_training hs G ps t))).
Proof. intros F O hs t. destruct (sgd_training_turned hs Ts G G' ps t F O) as [_ [E _]]. rewrite E. apply (vals_turned turned (fun T p => eq_refl)). Qed.

Definition adam_ok (T : vec -> vec) (p : param adam_state) : Prop := equivariant T (manifold_of p) /\ invariant_length T (manifold_of p) /\ single_moments p.
Lemma direction_turned h T M n m a : equivariant T M -> adam_direction h n (T m) (vconst a) = T (adam_direction h n m (vconst a)).
Proof.
  intros E. set (c := sqrt (a / bias_correction (beta2 h) n) + eps h).
  assert (Q : forall w, adam_direction h n w (vconst a) = smul (/ bias_correction (beta1 h) n * / c) w).
  { intros w. apply vec_ext. intros i. unfold adam_direction, vdivv, vdiv, denominator, vadd, vsqrt, vdiv, vconst, smul. fold c. unfold Rdiv. ring. }
  rewrite !Q, (eq_smul _ _ E). reflexivity.
Qed.
Lemma adam_update_turned h T p : adam_ok T p -> adam_update h (a_turned T p) = (a_turned T (fst (adam_update h p)), snd (adam_update h p)) /\ adam_ok T (fst (adam_update h p)).
Proof.
  destruct p as [m x [|g|] b]; unfold adam_ok; intros [E [I Sm]]; try (split; [reflexivity|exact (conj E (conj I Sm))]).
  unfold adam_update, a_turned. cbn [man val grad state turn_gradient]. unfold manifold_of in *. cbn [man] in *.
  set (M := match m with Some M => M | None => euclidean end) in *. cbn zeta.
  assert (Z : T vzero = vzero).
  { replace vzero with (smul 0 vzero) by (veq; ring). rewrite (eq_smul _ _ E). veq. ring. }
  assert (In : adam_init h (option_map (turned_state T) b) = turned_state T (adam_init h b)).
  { destruct b; [reflexivity|]. cbn. unfold turned_state. cbn. rewrite Z. reflexivity. }
  assert (S1 : exists a, exp_avg_sq (adam_init h b) = vconst a /\ match max_exp_avg_sq (adam_init h b) with Some m => exists c, m = vconst c | None => True end).
  { destruct b as [s|]; [exact Sm|]. exists 0. cbn. split; [reflexivity|]. destruct (amsgrad h); [exists 0; reflexivity|exact Logic.I]. }
  clear Sm. rewrite In. set (s := adam_init h b) in *. clearbody s. cbn [turned_state count exp_avg exp_avg_sq max_exp_avg_sq].
  rewrite <- (eq_smul _ _ E), <- (eq_add _ _ E), (eq_gradient _ _ E), (eq_argument _ _ E). set (r := egrad2rgrad M x (vadd g (smul (a_decay h) x))).
  destruct (I x r) as [c [C1 C2]]. rewrite C1, C2.
  destruct S1 as [a [Sa Sm]]. rewrite Sa.
  assert (Sv : second_moment h (vconst a) (vconst c) = vconst (beta2 h * a + (1 - beta2 h) * c)) by reflexivity.
  rewrite Sv. set (a' := beta2 h * a + (1 - beta2 h) * c). clearbody a'.
  assert (Fm : first_moment h (T (exp_avg s)) (T r) = T (first_moment h (exp_avg s) r)) by (unfold first_moment; rewrite (eq_add _ _ E), !(eq_smul _ _ E); reflexivity).
  rewrite Fm. set (m1 := first_moment h (exp_avg s) r).
  destruct (amsgrad h).
  - destruct (max_exp_avg_sq s) as [mx|].
    + destruct Sm as [q Sm]. subst mx. assert (Mx : vmax (vconst q) (vconst a') = vconst (Rmax q a')) by reflexivity. rewrite Mx.
      rewrite (direction_turned h T M _ _ _ E), <- (eq_smul _ _ E), (eq_retr_transp _ _ E).
      destruct (retr_transp M _ _ _) as [y v]. split; [reflexivity|]. split; [exact E|]. split; [exact I|]. cbn. eauto.
    + split; [reflexivity|]. split; [exact E|]. split; [exact I|]. cbn. eauto.
  - rewrite (direction_turned h T M _ _ _ E), <- (eq_smul _ _ E), (eq_retr_transp _ _ E).
    destruct (retr_transp M _ _ _) as [y v]. split; [reflexivity|]. split; [exact E|]. split; [exact I|]. cbn. eauto.
Qed.
Lemma adam_visit_turned h T p : adam_ok T p -> adam_visit h (a_turned T p) = (a_turned T (fst (adam_visit h p)), snd (adam_visit h p)) /\ adam_ok T (fst (adam_visit h p)).
Proof.
  intros K. unfold adam_visit. destruct (adam_update_turned h T p K) as [E Q]. rewrite E.
  destruct (adam_update h p) as [q st]. cbn [fst snd] in *. destruct st; try (split; [reflexivity|exact Q]).
  destruct (a_stabilize h) as [[|N]|]; [|split; [reflexivity|exact Q]|split; [reflexivity|exact Q]].
  cbn [a_turned grad]. destruct (grad q) eqn:Gq; cbn [turn_gradient]; (split; [reflexivity|exact Q]).
Qed.
Lemma adam_stabilize_turned T p : adam_ok T p -> adam_stabilize (a_turned T p) = a_turned T (adam_stabilize p) /\ adam_ok T (adam_stabilize p).
Proof.
  destruct p as [[M|] x g b]; unfold adam_ok, manifold_of; cbn [man]; intros [E [I Sm]]; [|split; [reflexivity|exact (conj E (conj I Sm))]].
  destruct b as [s|]; [|split; [reflexivity|exact (conj E (conj I Sm))]].
  unfold adam_stabilize, a_turned. cbn [man state option_map val grad turned_state count exp_avg exp_avg_sq max_exp_avg_sq].
  rewrite (eq_projx _ _ E), (eq_proju _ _ E). split; [reflexivity|]. split; [exact E|]. split; [exact I|]. exact Sm.
Qed.
Lemma asks_turned N Ts ps : length Ts = length ps -> existsb (asks N) (each_turned a_turned Ts ps) = existsb (asks N) ps.
Proof.
  revert ps. induction Ts as [|T Ts IH]; intros [|p ps] L; cbn in L; try lia; [reflexivity|]. cbn [each_turned existsb]. rewrite IH by lia. f_equal.
  destruct p as [m x [|g|] [s|]]; reflexivity.
Qed.
Lemma F2_len {A B} (P : A -> B -> Prop) l m : Forall2 P l m -> length l = length m.
Proof. induction 1; cbn; auto. Qed.
Lemma adam_training_turned hs Ts G G' ps t :
  Forall2 (fun T p => equivariant T (manifold_of p) /\ invariant_length T (manifold_of p) /\ single_moments p) Ts ps -> turned_oracle Ts G G' ->
  let g := adam_training hs G ps t in let g' := adam_training hs G' (each_turned a_turned Ts ps) t in
  a_params g' = each_turned a_turned Ts (a_params g) /\ Forall2 adam_ok Ts (a_params g).
Proof.
  intros F O. induction t as [|t [B D]]; [split; auto|]. cbn [adam_training]. rewrite B.
  set (g := adam_training hs G ps t) in *. rewrite (vals_turned a_turned (fun T p => eq_refl)).
  destruct (assign_turned a_turned adam_ok (fun T p g => eq_refl) (fun T p g E => E) (G t (map val (a_params g))) (G' t (turned_values Ts (map val (a_params g)))) Ts (a_params g) 0 D) as [E Q].
  { intros j J. apply O, J. }
  rewrite E. set (qs := assign _ 0 (a_params g)) in *. clearbody qs.
  unfold adam_step_group. cbn [a_hyp a_params].
  destruct (loop_turned a_turned (adam_visit (hs t)) adam_ok (adam_visit_turned (hs t)) Ts qs Q) as [L K]. rewrite L.
  destruct (loop (adam_visit (hs t)) qs) as [rs st]. cbn [fst snd] in *.
  destruct st; [|split; auto|split; auto|split; auto].
  destruct (a_stabilize (hs t)) as [N|]; [|split; auto].
  rewrite asks_turned by (eapply F2_len; eauto). destruct (existsb (asks N) rs); [|split; auto]. cbn [fst a_params].
  apply (map_turned a_turned adam_ok _ adam_stabilize_turned Ts rs K).
Qed.
Lemma adam_values_turned Ts G G' ps :
  Forall2 (fun T p => equivariant T (manifold_of p) /\ invariant_length T (manifold_of p) /\ single_moments p) Ts ps -> turned_oracle Ts G G' -> forall hs t,
  map val (a_params (adam_training hs G' (each_turned a_turned Ts ps) t)) = turned_values Ts (map val (a_params (adam_training hs G ps t))).
Proof. intros F O hs t. destruct (adam_training_turned hs Ts G G' ps t F O) as [E _]. rewrite E. apply (vals_turned a_turned (fun T p => eq_refl)). Qed.
