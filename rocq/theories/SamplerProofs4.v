(** Lemmas for SamplerProps: RSGLD and SGRHMC, and RHMC run backwards. *)
From Coq Require Import Reals List Bool Arith Lra Lia.
From Verif Require Import RVec OptimModel OptimSpec SamplerModel SamplerSpec SamplerProofs SamplerProofs2 SamplerProofs3.
Import ListNotations.
Local Open Scope R_scope.

(** * Membership *)
Section On.
  Variable on : option manifold -> vec -> Prop.
  Variable tan : option manifold -> vec -> vec -> Prop.
  Variable closure : list vec -> R * list (option vec).
  Lemma langevin_man p z : v_man (fst (langevin p z)) = v_man p.
  Proof. unfold langevin. destruct (Rlt_dec _ _); [reflexivity|]. destruct (v_grad p); reflexivity. Qed.
  Lemma drift_man p z : v_man (fst (drift p z)) = v_man p.
  Proof.
    unfold drift. destruct (v_vel p); [|reflexivity]. destruct (retr_transp _ _ _ _). destruct (v_grad p); [|reflexivity].
    destruct (Rlt_dec _ _); reflexivity.
  Qed.
  Lemma sweep_man {A} (f : sparam -> A -> sparam * sstatus) : (forall p x, v_man (fst (f p x)) = v_man p) ->
    forall l xs, map v_man (fst (sweep f l xs)) = map v_man l.
  Proof.
    intros H. induction l as [|p l IH]; intros [|x xs]; simpl; auto. pose proof (H p x) as Q. destruct (f p x) as [p' st]. cbn [fst] in Q. destruct st.
    - specialize (IH xs). destruct (sweep f l xs). cbn [fst map] in *. rewrite Q, IH. reflexivity.
    - cbn [fst map]. rewrite Q. reflexivity.
  Qed.
  Lemma rsgld_settled zs s s' st : lawfuls on tan s -> settled on s -> rsgld_step closure zs s = (s', st) -> settled on s' /\ same_manifolds s s'.
  Proof.
    intros L O E. unfold rsgld_step in E. rewrite evaluate_eq in E. cbn [params put_evals put_params] in E.
    pose proof (opened_ruled on tan closure s L O) as F. unfold opened in F.
    apply (sweep_inv _ langevin) with (xs := zs) in F.
    2: { intros p x [P1 P2]. unfold langevin. destruct (Rlt_dec _ _); [split; assumption|]. destruct (v_grad p); cbn [fst]; [|split; assumption].
         split; [exact P1|]. cbn [v_man v_val put_grad put_val]. apply (retr_on _ _ _ P1); [exact P2|apply (grad_tan _ _ _ P1), P2]. }
    pose proof (sweep_man langevin langevin_man (backward (params s) (snd (closure (values s)))) zs) as M. rewrite backward_man in M.
    destruct (sweep langevin _ _) as [l st1]. cbn [fst] in F, M.
    assert (G : params s' = l) by (destruct st1; injection E as <- _; reflexivity).
    split; [|unfold same_manifolds; rewrite G; symmetry; exact M]. intros p P. rewrite G in P. rewrite Forall_forall in F. apply F, P.
  Qed.
  Lemma rounds_settled : forall zss lp s lp' s' st, absorbings on s -> settled on s -> rounds closure zss lp s = (lp', s', st) -> settled on s' /\ same_manifolds s s'.
  Proof.
    induction zss as [|zs zss IH]; intros lp s lp' s' st L O E; simpl in E; [injection E as _ <- _; split; [exact O|reflexivity]|].
    rewrite evaluate_eq in E. cbn [params put_evals put_params] in E.
    assert (F : Forall (fun p => absorbing (s_manifold p) (on (v_man p)) /\ on (v_man p) (v_val p)) (backward (params s) (snd (closure (values s))))).
    { apply backward_all; [auto|]. apply Forall_forall. intros p P. split; [apply L, P|apply O, P]. }
    apply (sweep_inv _ drift) with (xs := zs) in F.
    2: { intros p x [P1 P2]. unfold drift. destruct (v_vel p) as [w|]; [|split; assumption].
         pose proof (any_rt _ _ P1 (v_val p) w w P2) as Q. destruct (retr_transp _ _ _ _) as [y w']. cbn [fst] in Q.
         destruct (v_grad p); [|split; [exact P1|exact Q]]. destruct (Rlt_dec _ _); (split; [exact P1|exact Q]). }
    pose proof (sweep_man drift drift_man (backward (params s) (snd (closure (values s)))) zs) as M. rewrite backward_man in M.
    destruct (sweep drift _ _) as [l st1]. cbn [fst] in F, M. rewrite Forall_forall in F.
    destruct st1.
    - apply IH in E; [|intros p P; apply F, P|intros p P; apply F, P]. destruct E as [E1 E2]. split; [exact E1|]. unfold same_manifolds in *. rewrite <- E2. symmetry. exact M.
    - injection E as _ <- _. split; [intros p P; apply F, P|symmetry; exact M].
  Qed.
  Lemma sgrhmc_settled zs zss s s' st : absorbings on s -> settled on s -> sgrhmc_step closure zs zss s = (s', st) -> settled on s' /\ same_manifolds s s'.
  Proof.
    intros L O E. unfold sgrhmc_step in E.
    assert (F : Forall (fun p => absorbing (s_manifold p) (on (v_man p)) /\ on (v_man p) (v_val p)) (params s)).
    { apply Forall_forall. intros p P. split; [apply L, P|apply O, P]. }
    apply (sweep_inv _ refresh) with (xs := zs) in F; [|auto].
    pose proof (sweep_man refresh (fun p x => eq_refl) (params s) zs) as M.
    destruct (sweep refresh _ _) as [l st1]. cbn [fst] in F, M. rewrite Forall_forall in F.
    destruct (rounds closure zss 0 (put_params l s)) as [[lp s1] st2] eqn:W.
    apply rounds_settled in W; [|intros p P; apply F, P|intros p P; apply F, P]. destruct W as [W1 W2].
    assert (G : params s' = params s1) by (destruct st2; injection E as <- _; reflexivity).
    unfold settled, same_manifolds in *. rewrite G. split; [exact W1|]. rewrite <- W2. symmetry. exact M.
  Qed.
  Lemma stabilized s : (forall p, In p (params s) -> lawful (s_manifold p) (on (v_man p)) (tan (v_man p))) -> settled on s ->
    settled on (put_params (map rhmc_stabilize (params s)) s) /\ settled on (put_params (map sgrhmc_stabilize (params s)) s) /\ settled on (put_params (map rsgld_stabilize (params s)) s).
  Proof.
    intros L O.
    assert (P1 : forall p, In p (params s) -> forall M, v_man p = Some M -> on (v_man p) (projx M (v_val p))).
    { intros p P M E. pose proof (L p P) as Lp. unfold s_manifold in Lp. rewrite E in Lp. rewrite E. apply (projx_on _ _ _ Lp). rewrite <- E. apply O, P. }
    repeat split; intros p P; apply in_map_iff in P; destruct P as (q & <- & Q).
    - unfold rhmc_stabilize. destruct (v_man q) eqn:E; [|rewrite E; rewrite <- E; apply O, Q]. pose proof (P1 q Q m E) as R1. rewrite E in R1.
      cbn [v_hmc put_val]. destruct (v_hmc q); cbn [v_man v_val put_val put_hmc]; rewrite E; exact R1.
    - unfold sgrhmc_stabilize. destruct (v_man q) eqn:E; [|rewrite E; rewrite <- E; apply O, Q]. pose proof (P1 q Q m E) as R1. rewrite E in R1.
      cbn [v_vel put_val]. destruct (v_vel q); cbn [v_man v_val put_val put_vel]; rewrite E; exact R1.
    - unfold rsgld_stabilize. destruct (v_man q) eqn:E; [|rewrite E; rewrite <- E; apply O, Q]. pose proof (P1 q Q m E) as R1. rewrite E in R1.
      cbn [v_man v_val put_val]; rewrite E; exact R1.
  Qed.
End On.

(** * Counters of the other samplers *)
Lemma rsgld_log closure zs s s' : rsgld_step closure zs s = (s', SOk) ->
  evals s' = S (evals s) /\ n_rejected s' = n_rejected s /\
  steps s' = (if burnin s then steps s else S (steps s)) /\
  log_probs s' = (if burnin s then log_probs s else log_probs s ++ [log_density closure s]).
Proof.
  intros E. unfold rsgld_step in E. rewrite evaluate_eq in E. destruct (sweep langevin _ _) as [l st]. destruct st; [|discriminate].
  injection E as <-. repeat split.
Qed.

(** * Reference recursions *)
Lemma add_vzero g : vadd vzero g = g.
Proof. apply vec_ext. intros i. unfold vadd, vzero. ring. Qed.
Lemma cleared_backward p g : cleared p -> v_grad (add_grad p (Some g)) = Some g.
Proof. intros [C|C]; cbn; rewrite C; [reflexivity|]. rewrite add_vzero. reflexivity. Qed.
Definition easy (p : sparam) : Prop := plain p /\ cleared p /\ 0 <= v_eps p.
Lemma langevin_sweep : forall l gs zs, Forall easy l -> length gs = length l -> length zs = length l ->
  exists l', sweep langevin (backward l (map Some gs)) zs = (l', SOk) /\ Forall easy l' /\ map v_eps l' = map v_eps l /\
    map v_val l' = sgld_moves (map v_eps l) (map v_val l) gs zs.
Proof.
  induction l as [|p l IH]; intros [|g gs] [|z zs] F L1 L2; simpl in L1, L2; try lia.
  - exists []. repeat split; constructor.
  - inversion F as [|? ? (P1 & P2 & P3) Fl]; subst. destruct (IH gs zs Fl ltac:(lia) ltac:(lia)) as (l' & E & A & B & C).
    cbn [map backward sweep]. unfold langevin at 1. rewrite (cleared_backward p g P2). cbn [v_eps add_grad put_grad]. destruct (Rlt_dec (v_eps p) 0); [lra|].
    rewrite E. eexists. split; [reflexivity|]. cbn [map v_eps put_grad put_val v_val]. rewrite B, C. split.
    + constructor; [|exact A]. split; [exact P1|]. split; [right; reflexivity|exact P3].
    + split; [reflexivity|]. cbn [sgld_moves]. f_equal. unfold s_manifold. cbn [v_man put_grad]. rewrite P1. cbn [euclidean retr egrad2rgrad].
      apply vec_ext. intros i. unfold sgld_move, vadd, smul. lra.
Qed.
Lemma rsgld_is_sgld closure grad : full closure grad -> forall zss s, Forall plain (params s) -> Forall cleared (params s) -> Forall (fun p => 0 <= v_eps p) (params s) ->
  Forall (fun zs => length zs = length (params s)) zss ->
  exists s', rsgld_steps closure zss s = (s', SOk) /\ values s' = sgld grad (map v_eps (params s)) (values s) zss.
Proof.
  intros Fu zss s A B C D. assert (F : Forall easy (params s)).
  { rewrite !Forall_forall in *. intros p P. split; [apply A, P|]. split; [apply B, P|apply C, P]. }
  clear A B C. revert s D F. induction zss as [|zs zss IH]; intros s D F; [exists s; split; reflexivity|].
  inversion D as [|? ? Dz Ds]; subst. cbn [rsgld_steps]. unfold rsgld_step. rewrite evaluate_eq. destruct (Fu (values s)) as [G GL]. rewrite G.
  destruct (langevin_sweep (params s) (grad (values s)) zs F) as (l' & E & El & Ee & Ev); [rewrite GL; apply map_length|exact Dz|].
  cbn [params put_evals put_params]. rewrite E.
  assert (Ll : length l' = length (params s)) by (rewrite <- (map_length v_eps), Ee, map_length; reflexivity).
  match goal with |- context [log_sample ?a ?b] => specialize (IH (log_sample a b)) end.
  cbn [params log_sample put_params] in IH. destruct IH as (s' & E' & V').
  { eapply Forall_impl; [|exact Ds]. cbn. intros a Ha. rewrite Ll. exact Ha. }
  { exact El. }
  exists s'. split; [exact E'|]. rewrite V'. unfold values at 1. cbn [params log_sample put_params sgld]. rewrite Ee, Ev. reflexivity.
Qed.
