(** Concrete samplers: the standard normal density on one plain parameter, and a sampler
    on the Poincare ball with exact retraction. *)
From Coq Require Import Reals List Bool Arith Lra Lia.
From Verif Require Import RVec OptimModel OptimSpec OptimInstances SamplerModel SamplerSpec SamplerProofs SamplerProofs2 SamplerProofs3 SamplerProofs4 SamplerProofs5.
From Verif Require StereoModel StereoSpec StereoProps.
Import ListNotations.
Local Open Scope R_scope.

(** manifolds/stereographic/manifold.py:560-578 StereographicExact, k < 0: retr is
    expmap followed by project *)
Definition exact_ball (n : nat) (k : R) : manifold := {|
  egrad2rgrad := StereoModel.egrad2rgrad n k;
  egrad_arg := fun x u => u; egrad_same := false;
  retr := fun x u => StereoModel.project n StereoModel.e15 (/ 10 ^ 5) k (StereoModel.expmap n StereoModel.e15 k x u);
  retr_transp := fun x u v => let y := StereoModel.project n StereoModel.e15 (/ 10 ^ 5) k (StereoModel.expmap n StereoModel.e15 k x u) in
                              (y, StereoModel.parallel_transport n k x y v);
  component_inner := fun x u => vconst (StereoModel.inner n k x u u);
  projx := StereoModel.project n StereoModel.e15 (/ 10 ^ 5) k;
  proju := fun x u => u |}.
Lemma exact_ball_absorbing n k : k < 0 -> absorbing (exact_ball n k) (StereoSpec.safe n k).
Proof.
  intros K. assert (E : 0 <= StereoModel.e15) by (unfold StereoModel.e15; apply Rlt_le, Rinv_0_lt_compat; lra).
  split; cbn [exact_ball retr retr_transp projx fst]; intros; apply StereoProps.C36_project_safe; auto.
Qed.
Lemma exact_ball_lawful n k : k < 0 -> lawful (exact_ball n k) (StereoSpec.safe n k) (fun _ _ => True).
Proof. intros K. destruct (exact_ball_absorbing n k K) as [A B C]. split; auto. Qed.

(** * Standard normal *)
Definition gauss (x : vec) : R := - (x O ^ 2 / 2).
Definition score (x : vec) : vec := vopp x.
Definition normal : list vec -> R * list (option vec) := single gauss score.
Definition at_ (x e : R) : sparam :=
  {| v_man := None; v_size := 1; v_val := fun _ => x; v_grad := None; v_eps := e; v_alpha := 1 / 10; v_hmc := None; v_vel := None |}.
Definition fresh_at (x e : R) (b : bool) : sampler :=
  {| params := [at_ x e]; n_steps := 1; n_rejected := 0; steps := 0; burnin := b; log_probs := []; acceptance_probs := []; evals := 0 |}.
Lemma fresh_one x e b : one_param (fresh_at x e b) (at_ x e).
Proof. split; [reflexivity|]. split; [reflexivity|left; reflexivity]. Qed.
Ltac num := unfold hop_mom, hop, gauss, score, at_, dot, Rsum, vadd, vopp, smul; cbn [v_val v_eps v_size]; unfold vadd, vopp, smul; try lra.

(** a rejected step *)
Lemma reject_case : exists t, rhmc_step normal 709 [fun _ => 1] (9 / 10) (fresh_at 0 1 false) = (t, SOk) /\ values t = [fun _ => 0].
Proof.
  destruct (rhmc_single gauss score 709 (fun _ => 1) (9 / 10) (fresh_at 0 1 false) (at_ 0 1) (fresh_one _ _ _)) as [_ H]; [cbn; lia|].
  destruct H as (t & E & V & _); [num|]. exists t. split; [exact E|]. apply V.
  match goal with |- Rmin 1 (exp ?a) <= _ => assert (D : a = - (1 / 8)) by num end. rewrite D.
  apply Rle_trans with (exp (- (1 / 8))); [apply Rmin_r|]. rewrite exp_Ropp. pose proof (exp_ineq1 (1 / 8) ltac:(lra)) as X.
  apply Rle_trans with (/ (1 + 1 / 8)); [apply Rinv_le_contravar; lra|lra].
Qed.
(** an accepted step, and the way back *)
Lemma not_reversible : exists t q h w,
  rhmc_step normal 709 [fun _ => 1] (-1) (fresh_at 0 1 false) = (t, SOk) /\ params t = [q] /\ v_hmc q = Some h /\
  rhmc_step normal 709 [vopp (mom h)] (-1) t = (w, SOk) /\ values w = [fun _ => - (1 / 2)].
Proof.
  destruct (rhmc_single gauss score 709 (fun _ => 1) (-1) (fresh_at 0 1 false) (at_ 0 1) (fresh_one _ _ _)) as [_ H]; [cbn; lia|].
  destruct H as (t & E & _); [num|]. destruct (rhmc_hop gauss score 709 _ _ _ _ (fresh_one _ _ _) ltac:(cbn; lia) E) as (q & h & A & B & C & D & F & G & V & M).
  assert (Sq : v_size q = 1%nat).
  { pose proof (remembered normal 709 [fun _ => 1] (-1) (fresh_at 0 1 false) t SOk (single_steady _ _) eq_refl E O (at_ 0 1) (fun _ => 1) q eq_refl eq_refl) as K.
    rewrite A in K. destruct (K eq_refl) as (_ & K2 & _). exact K2. }
  destruct (rhmc_single gauss score 709 (vopp (mom h)) (-1) t q) as [_ H]; [split; [|split]; assumption|rewrite G; cbn; lia|].
  destruct H as (w & E2 & _).
  { rewrite Sq, D. unfold hop_mom, hop. rewrite M, V. num. }
  exists t, q, h, w. repeat (split; [assumption|]).
  rewrite (there_and_back gauss score 709 _ _ _ _ _ _ _ (fresh_one 0 1 false) ltac:(cbn; lia) E A F E2). f_equal. apply vec_ext. intros i. rewrite V. num.
Qed.
(** a standard normal started far out *)
Lemma overflow_case : exists t, rhmc_step normal 710 [fun _ => 1] (1 / 2) (fresh_at 2000 1 false) = (t, SRaise SOverflow) /\
  values t = [fun _ => 1] /\ steps t = O /\ n_rejected t = O /\ log_probs t = [].
Proof.
  destruct (rhmc_single gauss score 710 (fun _ => 1) (1 / 2) (fresh_at 2000 1 false) (at_ 2000 1) (fresh_one _ _ _)) as [H _]; [cbn; lia|].
  destruct H as (t & E & V); [num|]. exists t. split; [exact E|]. split; [rewrite V; f_equal; apply vec_ext; intros i; num|].
  apply rhmc_any in E. destruct E as (K1 & K2 & K3 & K4 & K5 & K6). rewrite <- K2, <- K3, <- K5. repeat split.
Qed.
Lemma gradient_there f g lim z s p t q : one_param s p -> (n_steps s <= 1)%nat -> rhmc_step (single f g) lim [z] (-1) s = (t, SOk) -> params t = [q] ->
  v_val q = hop g (v_eps p) (v_val p) z.
Proof. intros A B C D. destruct (rhmc_hop _ _ _ _ _ _ _ A B C) as (q' & h & P & _ & _ & _ & _ & _ & V & _). rewrite P in D. injection D as <-. exact V. Qed.

(** * Langevin and stochastic-gradient runs *)
Definition scores (xs : list vec) : list vec := map score xs.
Definition normals (xs : list vec) : R * list (option vec) := (fold_right Rplus 0 (map gauss xs), map Some (scores xs)).
Lemma normals_full : full normals scores.
Proof. intros xs. split; [reflexivity|]. apply map_length. Qed.
Lemma normals_steady : steady normals.
Proof.
  intros xs ys i g L. unfold normals, scores. cbn [snd]. rewrite !nth_error_map. destruct (nth_error xs i) eqn:X; [|discriminate].
  intros _. assert (i < length ys)%nat by (rewrite <- L; apply nth_error_Some; congruence). destruct (nth_error ys i) eqn:Y; [eexists; reflexivity|].
  apply nth_error_Some in H. congruence.
Qed.
Lemma rsgld_old : exists s', rsgld_step normals [fun _ => 1] (fresh_at 0 1 false) = (s', SOk) /\
  values s' = [fun _ => 1] /\ log_probs s' = [0] /\ log_density normals s' = - (1 / 2).
Proof.
  destruct (rsgld_is_sgld normals scores normals_full [[fun _ => 1]] (fresh_at 0 1 false)) as (s' & E & V).
  1,2,3: repeat constructor. { cbn. lra. } { repeat constructor. }
  cbn [rsgld_steps] in E. destruct (rsgld_step normals [fun _ => 1] (fresh_at 0 1 false)) as [s1 st] eqn:W. destruct st; [|discriminate]. injection E as ->.
  assert (V1 : values s' = [fun _ => 1]). { rewrite V. cbn. f_equal. apply vec_ext. intros i. unfold sgld_move, score, vopp. rewrite sqrt_1. lra. }
  exists s'. split; [reflexivity|]. split; [exact V1|]. apply rsgld_log in W. destruct W as (_ & _ & _ & W). cbn in W. split.
  - rewrite W. f_equal. unfold log_density, values, normals, gauss. cbn. lra.
  - unfold log_density. rewrite V1. unfold normals, gauss. cbn. lra.
Qed.
Lemma sgrhmc_old : exists s', sgrhmc_step normals [fun _ => 1] [[fun _ => 0]; [fun _ => 0]] (fresh_at 0 1 false) = (s', SOk) /\
  values s' = [fun _ => 19 / 10] /\ log_probs s' = [- (1 / 2)].
Proof.
  destruct (sgrhmc_is_sghmc normals scores [fun _ => 1] [[fun _ => 0]; [fun _ => 0]] (fresh_at 0 1 false) normals_full) as (s' & E & V & _ & _ & Q).
  1,2,3: repeat constructor. { cbn. lra. } { repeat constructor. } { repeat constructor. } { discriminate. }
  exists s'. split; [exact E|]. split.
  - rewrite V. cbn. f_equal. apply vec_ext. intros i. unfold score, vopp, smul. lra.
  - destruct (Q eq_refl) as [-> _]. cbn. f_equal. unfold gauss, smul. cbn. lra.
Qed.
(** * A ball *)
Definition half : vec := fun i => match i with O => 1 / 2 | _ => 0 end.
Definition ball_sampler : sampler :=
  {| params := [ {| v_man := Some (exact_ball 2 (-1)); v_size := 2; v_val := half; v_grad := None; v_eps := 1 / 10; v_alpha := 1 / 10; v_hmc := None; v_vel := None |} ];
     n_steps := 3; n_rejected := 0; steps := 0; burnin := true; log_probs := []; acceptance_probs := []; evals := 0 |}.
Lemma half_safe : StereoSpec.safe 2 (-1) half.
Proof.
  unfold StereoSpec.safe. replace (- -1) with 1 by ring. rewrite sqrt_1. unfold nrm. replace (dot 2 half half) with ((1 / 2) ^ 2) by (unfold dot, Rsum, half; simpl; lra).
  rewrite sqrt_pow2 by lra. lra.
Qed.
Definition ball_on (M : option manifold) : vec -> Prop := match M with Some _ => StereoSpec.safe 2 (-1) | None => fun _ => True end.
Lemma ball_sampler_ok : lawfuls ball_on (fun _ _ _ => True) ball_sampler /\ absorbings ball_on ball_sampler /\ settled ball_on ball_sampler.
Proof.
  split; [|split]; intros p [<-|[]].
  - apply exact_ball_lawful. lra.
  - apply exact_ball_absorbing. lra.
  - exact half_safe.
Qed.
(** * Witnesses *)
Lemma head_neq (a b : R) : a <> b -> [fun _ : nat => a] <> [fun _ => b].
Proof. intros N E. injection E as E. apply N. exact (f_equal (fun f => f O) E). Qed.
Lemma overflow_witness : exists closure zs s t, steady closure /\ one_each zs s /\
  rhmc_step closure 710 zs (1 / 2) s = (t, SRaise SOverflow) /\ values t <> values s /\ steps t = steps s /\ log_probs t = log_probs s.
Proof.
  destruct overflow_case as (t & E & V & A & _ & C). exists normal, [fun _ => 1], (fresh_at 2000 1 false), t.
  split; [apply single_steady|]. split; [reflexivity|]. split; [exact E|]. split; [rewrite V; apply (head_neq 1 2000); lra|]. split; [exact A|exact C].
Qed.
Lemma not_reversible_witness : exists f g z s p t q h w,
  one_param s p /\ n_steps s = 1%nat /\ v_eps p = 1 /\
  rhmc_step (single f g) 709 [z] (-1) s = (t, SOk) /\ params t = [q] /\ v_hmc q = Some h /\
  rhmc_step (single f g) 709 [vopp (mom h)] (-1) t = (w, SOk) /\ values w <> values s.
Proof.
  destruct not_reversible as (t & q & h & w & A & B & C & D & V). exists gauss, score, (fun _ => 1), (fresh_at 0 1 false), (at_ 0 1), t, q, h, w.
  split; [apply fresh_one|]. repeat (split; [reflexivity || assumption|]). rewrite V. apply (head_neq (- (1 / 2)) 0). lra.
Qed.
Lemma rsgld_old_witness : exists closure zs s s', burnin s = false /\ rsgld_step closure zs s = (s', SOk) /\
  log_probs s' <> log_probs s ++ [log_density closure s'].
Proof.
  destruct rsgld_old as (s' & A & B & C & D). exists normals, [fun _ => 1], (fresh_at 0 1 false), s'. split; [reflexivity|]. split; [exact A|].
  rewrite C, D. cbn. intros E. injection E as E. lra.
Qed.
Lemma sgrhmc_old_witness : exists closure zs zss s s', burnin s = false /\ length zss = S (n_steps s) /\ sgrhmc_step closure zs zss s = (s', SOk) /\
  log_probs s' <> log_probs s ++ [log_density closure s'].
Proof.
  destruct sgrhmc_old as (s' & A & B & C). exists normals, [fun _ => 1], [[fun _ => 0]; [fun _ => 0]], (fresh_at 0 1 false), s'.
  split; [reflexivity|]. split; [reflexivity|]. split; [exact A|]. unfold log_density. rewrite B, C. unfold normals, gauss. cbn. intros E. injection E as E. lra.
Qed.
Lemma run_case : exists s c, rhmc_run 709 s 1 1 c /\ values s = [fun _ => 0].
Proof.
  destruct reject_case as (t & E & V). exists t. eexists. split; [|exact V].
  eapply (run_step 709 (fresh_at 0 1 false)); [|reflexivity|exact E].
  eapply run_edit; [apply (run_new 709 (fresh_at 0 1 true)); repeat split|repeat split].
Qed.
