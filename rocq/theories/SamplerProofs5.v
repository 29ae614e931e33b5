(** Lemmas for SamplerProps: SGRHMC as a recursion, and RHMC run backwards. *)
From Coq Require Import Reals List Bool Arith Lra Lia.
From Verif Require Import RVec OptimModel OptimSpec SamplerModel SamplerSpec SamplerProofs SamplerProofs2 SamplerProofs3 SamplerProofs4.
Import ListNotations.
Local Open Scope R_scope.

Definition rates (p : sparam) : R * R := (v_eps p, v_alpha p).
Definition phase (p : sparam) : vec * vec := (v_val p, match v_vel p with Some w => w | None => vzero end).
Definition ready (p : sparam) : Prop := plain p /\ cleared p /\ 0 <= v_alpha p * v_eps p /\ v_vel p <> None.
Lemma drift_sweep : forall l gs zs, Forall ready l -> length gs = length l -> length zs = length l ->
  exists l', sweep drift (backward l (map Some gs)) zs = (l', SOk) /\ Forall ready l' /\ map rates l' = map rates l /\
    map phase l' = sghmc_moves (map rates l) (map phase l) gs zs.
Proof.
  induction l as [|p l IH]; intros [|g gs] [|z zs] F L1 L2; simpl in L1, L2; try lia.
  - exists []. repeat split; constructor.
  - inversion F as [|? ? (P1 & P2 & P3 & P4) Fl]; subst. destruct (IH gs zs Fl ltac:(lia) ltac:(lia)) as (l' & E & A & B & C).
    cbn [map backward sweep]. unfold drift at 1. rewrite (cleared_backward p g P2). cbn [v_vel v_eps v_alpha add_grad put_grad].
    unfold phase at 2. destruct (v_vel p) as [w|] eqn:W; [|contradiction].
    unfold s_manifold. cbn [v_man put_grad]. rewrite P1. cbn [euclidean retr_transp egrad2rgrad v_val put_grad].
    destruct (Rlt_dec _ 0); [lra|]. rewrite E. eexists. split; [reflexivity|]. cbn [map]. rewrite B, C. split.
    + constructor; [|exact A]. split; [exact P1|]. split; [right; reflexivity|]. split; [exact P3|discriminate].
    + split; [reflexivity|]. change (rates p) with (v_eps p, v_alpha p). cbn [sghmc_moves]. f_equal.
Qed.
Lemma rates_length l : length (map rates l) = length l.
Proof. apply map_length. Qed.
Lemma rounds_sghmc closure grad : full closure grad -> forall zss s lp, Forall ready (params s) -> Forall (fun zs => length zs = length (params s)) zss ->
  exists s', rounds closure zss lp s =
      (match zss with [] => lp | _ => fst (closure (map fst (sghmc grad (map rates (params s)) (map phase (params s)) (removelast zss)))) end, s', SOk) /\
    map phase (params s') = sghmc grad (map rates (params s)) (map phase (params s)) zss /\
    keeps s s' /\ evals s' = (length zss + evals s)%nat.
Proof.
  intros Fu. induction zss as [|zs zss IH]; intros s lp F D.
  - exists s. split; [reflexivity|]. split; [reflexivity|]. split; [apply keeps_refl|reflexivity].
  - inversion D as [|? ? Dz Ds]; subst. cbn [rounds]. rewrite evaluate_eq. destruct (Fu (values s)) as [G GL]. rewrite G.
    destruct (drift_sweep (params s) (grad (values s)) zs F) as (l' & E & El & Ee & Ev); [rewrite GL; apply map_length|exact Dz|].
    cbn [params put_evals put_params]. rewrite E.
    assert (Ll : length l' = length (params s)) by (rewrite <- (rates_length l'), Ee; apply map_length).
    match goal with |- context [rounds _ zss ?a ?b] => specialize (IH b a) end. cbn [params put_params] in IH.
    destruct IH as (s' & E' & P' & K' & N').
    { exact El. }
    { eapply Forall_impl; [|exact Ds]. cbn. intros a Ha. rewrite Ll. exact Ha. }
    assert (Vf : map fst (map phase (params s)) = values s) by (rewrite map_map; reflexivity).
    exists s'. split; [|split; [|split]].
    + rewrite E'. f_equal. f_equal. destruct zss as [|zs2 zss]; [cbn; rewrite Vf; reflexivity|].
      cbn [removelast]. cbn [sghmc]. rewrite Vf, <- Ev, Ee. reflexivity.
    + rewrite P'. cbn [sghmc]. rewrite Vf, <- Ev, Ee. reflexivity.
    + eapply keeps_trans; [|exact K']. repeat split.
    + rewrite N'. cbn. lia.
Qed.
Definition startable (p : sparam) : Prop := plain p /\ cleared p /\ 0 <= v_alpha p * v_eps p.
Lemma refresh_sweep : forall l zs, Forall startable l -> length zs = length l ->
  exists l', sweep refresh l zs = (l', SOk) /\ Forall ready l' /\ map rates l' = map rates l /\
    map phase l' = combine (map v_val l) (velocities (map rates l) zs).
Proof.
  induction l as [|p l IH]; intros [|z zs] F L; simpl in L; try lia.
  - exists []. repeat split; constructor.
  - inversion F as [|? ? (P1 & P2 & P3) Fl]; subst. destruct (IH zs Fl ltac:(lia)) as (l' & E & A & B & C).
    cbn [map sweep]. cbn [refresh]. rewrite E. eexists. split; [reflexivity|]. cbn [map]. rewrite B, C. split.
    + constructor; [|exact A]. split; [exact P1|]. split; [exact P2|]. split; [exact P3|discriminate].
    + split; [reflexivity|]. unfold velocities. reflexivity.
Qed.
Lemma sgrhmc_is_sghmc closure grad zs zss s : full closure grad ->
  Forall plain (params s) -> Forall cleared (params s) -> Forall (fun p => 0 <= v_alpha p * v_eps p) (params s) ->
  one_each zs s -> Forall (fun zs => one_each zs s) zss -> zss <> [] ->
  let es := map (fun p => (v_eps p, v_alpha p)) (params s) in
  let start := combine (values s) (velocities es zs) in
  exists s', sgrhmc_step closure zs zss s = (s', SOk) /\
    values s' = map fst (sghmc grad es start zss) /\
    evals s' = (length zss + evals s)%nat /\
    (burnin s = true -> log_probs s' = log_probs s /\ steps s' = steps s) /\
    (burnin s = false -> log_probs s' = log_probs s ++ [fst (closure (map fst (sghmc grad es start (removelast zss))))] /\ steps s' = S (steps s)).
Proof.
  intros Fu A B C L D N es start. assert (F : Forall startable (params s)).
  { rewrite !Forall_forall in *. intros p P. split; [apply A, P|]. split; [apply B, P|apply C, P]. }
  unfold sgrhmc_step. destruct (refresh_sweep (params s) zs F L) as (l' & E & R1 & R2 & R3). rewrite E.
  assert (Ll : length l' = length (params s)) by (rewrite <- (rates_length l'), R2; apply map_length).
  destruct (rounds_sghmc closure grad Fu zss (put_params l' s) 0) as (s' & E' & P' & K' & N').
  { exact R1. }
  { eapply Forall_impl; [|exact D]. unfold one_each. cbn. intros a Ha. rewrite Ll. exact Ha. }
  rewrite E'. cbn [params put_params] in P'. eexists. split; [reflexivity|]. destruct K' as (K1 & K2 & K3 & K4 & K5 & K6). cbn [params put_params steps burnin log_probs evals] in *.
  rewrite R2, R3 in *. change (map rates (params s)) with es in *. change (combine (map v_val (params s)) (velocities es zs)) with start in *.
  split; [|split; [exact N'|]].
  - unfold values, log_sample. cbn [params]. rewrite <- P', map_map. reflexivity.
  - unfold log_sample. cbn [log_probs steps]. rewrite <- K3, <- K4, <- K5. destruct zss; [contradiction|]. split; intros ->; auto.
Qed.

(** * RHMC run backwards *)
Lemma single_steady f g : steady (single f g).
Proof.
  intros xs ys i h L. unfold single. destruct xs as [|x [|x' xs]], ys as [|y [|y' ys]]; try discriminate L; try (destruct i; discriminate).
  destruct i as [|i]; [|destruct i; discriminate]. intros _. eexists. reflexivity.
Qed.
(** the proposal of one leapfrog step from (x, r) with accumulated gradients *)
Definition hop (g : vec -> vec) (e : R) (x r : vec) : vec := vadd x (smul e (vadd r (smul e (g x)))).
Definition hop_mom (g : vec -> vec) (e : R) (x r : vec) : vec :=
  vadd (vadd r (smul e (g x))) (smul (1 / 2 * e) (g (hop g e x r))).
Lemma rhmc_hop f g lim z s p t : one_param s p -> (n_steps s <= 1)%nat -> rhmc_step (single f g) lim [z] (-1) s = (t, SOk) ->
  exists q h, params t = [q] /\ plain q /\ cleared q /\ v_eps q = v_eps p /\ v_hmc q = Some h /\ n_steps t = n_steps s /\
    v_val q = hop g (v_eps p) (v_val p) z /\ mom h = hop_mom g (v_eps p) (v_val p) z.
Proof.
  intros (Ps & Pl & Cl) N E. unfold rhmc_step in E. rewrite evaluate_eq in E. unfold values in E. rewrite Ps in E. cbn [map single fst snd] in E.
  cbn [params put_evals put_params backward] in E. set (p1 := add_grad p (Some (g (v_val p)))) in E.
  assert (G1 : v_grad p1 = Some (g (v_val p))) by (apply cleared_backward, Cl).
  cbn [begin_energy last_eps sweep] in E. unfold begin in E. rewrite !G1 in E. cbn [put_params n_steps put_evals] in E.
  replace (n_steps s - 1)%nat with O in E by lia. cbn [repeat_continue] in E. rewrite evaluate_eq in E. unfold values in E. cbn [params put_params map] in E.
  unfold kick in E. unfold momentum_of, s_manifold in E. change (v_man p1) with (v_man p) in E. rewrite Pl in E. cbn [euclidean retr_transp egrad2rgrad] in E.
  change (v_eps p1) with (v_eps p) in E. change (v_val p1) with (v_val p) in E.
  cbn [v_val put_grad put_val put_hmc mom single fst snd backward] in E. cbn [sweep units map params put_evals put_params] in E.
  unfold finish at 1 in E. cbn [v_grad add_grad put_grad v_hmc put_hmc put_val] in E.
  destruct (Rlt_dec lim _) in E; [discriminate|]. injection E as <-. unfold decide.
  destruct (Rle_dec _ (-1)) as [Q|Q]; [exfalso|].
  { match type of Q with Rmin 1 (exp ?a) <= _ => pose proof (rho_range a) end. lra. }
  eexists. eexists. split; [reflexivity|]. split; [exact Pl|]. split; [right; reflexivity|]. split; [reflexivity|]. split; [reflexivity|]. split; [reflexivity|].
  unfold s_manifold. cbn [v_man put_grad put_val put_hmc v_val mom]. change (v_man p1) with (v_man p). rewrite Pl. cbn [euclidean egrad2rgrad].
  change (v_val p1) with (v_val p). split; [reflexivity|]. unfold hop_mom. rewrite add_vzero. reflexivity.
Qed.
Lemma there_and_back f g lim z s p t q h w : one_param s p -> (n_steps s <= 1)%nat ->
  rhmc_step (single f g) lim [z] (-1) s = (t, SOk) -> params t = [q] -> v_hmc q = Some h ->
  rhmc_step (single f g) lim [vopp (mom h)] (-1) t = (w, SOk) ->
  values w = [fun i => v_val p i + v_eps p ^ 2 / 2 * g (v_val q) i].
Proof.
  intros O N E Pt Hq E2. destruct (rhmc_hop _ _ _ _ _ _ _ O N E) as (q' & h' & P' & A & B & C & D & Nt & V & M).
  rewrite P' in Pt. injection Pt as ->. rewrite D in Hq. injection Hq as ->.
  destruct (rhmc_hop f g lim (vopp (mom h)) t q w) as (r & k & P2 & _ & _ & _ & _ & _ & V2 & _); [split; auto|lia|exact E2|].
  unfold values. rewrite P2. cbn [map]. f_equal. rewrite V2, C. apply vec_ext. intros i. rewrite M. unfold hop_mom. rewrite <- V.
  unfold hop at 1. unfold vadd, vopp, smul. pose proof (f_equal (fun u => u i) V) as Vi. cbn in Vi. rewrite Vi at 1. unfold hop, vadd, smul. field.
Qed.
Lemma returns_iff f g lim z s p t q h w : one_param s p -> (n_steps s <= 1)%nat -> v_eps p <> 0 ->
  rhmc_step (single f g) lim [z] (-1) s = (t, SOk) -> params t = [q] -> v_hmc q = Some h ->
  rhmc_step (single f g) lim [vopp (mom h)] (-1) t = (w, SOk) ->
  (values w = values s <-> forall i, g (v_val q) i = 0).
Proof.
  intros O N Ne E Pt Hq E2. rewrite (there_and_back _ _ _ _ _ _ _ _ _ _ O N E Pt Hq E2). unfold values. destruct O as (-> & _). cbn [map]. split.
  - intros K i. injection K as K. apply (f_equal (fun u => u i)) in K. cbn in K. assert (0 < v_eps p ^ 2) by (destruct (Rtotal_order (v_eps p) 0) as [Q|[Q|Q]]; [nra|contradiction|nra]). nra.
  - intros G. f_equal. apply vec_ext. intros i. rewrite G. ring.
Qed.

(** when a single plain parameter overflows *)
Lemma rhmc_single f g lim z u s p : one_param s p -> (n_steps s <= 1)%nat ->
  let x' := hop g (v_eps p) (v_val p) z in
  let m := hop_mom g (v_eps p) (v_val p) z in
  let d := (- f (v_val p) + 1 / 2 * dot (v_size p) z z) - (- f x' + 1 / 2 * dot (v_size p) m m) in
  (lim < d -> exists t, rhmc_step (single f g) lim [z] u s = (t, SRaise SOverflow) /\ values t = [x']) /\
  (d <= lim -> exists t, rhmc_step (single f g) lim [z] u s = (t, SOk) /\ (Rmin 1 (exp d) <= u -> values t = values s) /\ (u < Rmin 1 (exp d) -> values t = [x'])).
Proof.
  intros (Ps & Pl & Cl) N x' m d. unfold rhmc_step. rewrite evaluate_eq. unfold values. rewrite Ps. cbn [map single fst snd].
  cbn [params put_evals put_params backward]. set (p1 := add_grad p (Some (g (v_val p)))).
  assert (G1 : v_grad p1 = Some (g (v_val p))) by (apply cleared_backward, Cl).
  cbn [begin_energy last_eps sweep]. unfold begin. rewrite !G1. cbn [put_params n_steps put_evals].
  replace (n_steps s - 1)%nat with O by lia. cbn [repeat_continue]. rewrite evaluate_eq. unfold values. cbn [params put_params map].
  unfold kick. unfold momentum_of, s_manifold. change (v_man p1) with (v_man p). rewrite Pl. cbn [euclidean retr_transp egrad2rgrad].
  change (v_eps p1) with (v_eps p). change (v_val p1) with (v_val p).
  cbn [v_val put_grad put_val put_hmc mom single fst snd backward]. cbn [sweep units map params put_evals put_params].
  unfold finish at 1. unfold finish at 1. cbn [v_grad add_grad put_grad v_hmc put_hmc put_val v_val].
  unfold end_energy, fold_right. cbn [v_grad put_grad v_hmc put_hmc mom put_params params].
  unfold s_manifold. cbn [v_man put_grad put_val put_hmc v_val v_size]. change (v_man p1) with (v_man p). change (v_size p1) with (v_size p). rewrite Pl. cbn [euclidean egrad2rgrad].
  rewrite !add_vzero. change (v_val p1) with (v_val p).
  change (vadd (v_val p) (smul (v_eps p) (vadd z (smul (v_eps p) (g (v_val p)))))) with x'.
  change (vadd (vadd z (smul (v_eps p) (g (v_val p)))) (smul (1 / 2 * v_eps p) (g x'))) with m.
  unfold kinetic. replace (- f (v_val p) + (1 / 2 * dot (v_size p) z z + 0) - (- f x' + (1 / 2 * dot (v_size p) m m + 0))) with d by (unfold d; ring).
  destruct (Rlt_dec lim d) as [Q|Q]; (split; intros Q'; [|try lra]); try lra.
  - eexists. split; [reflexivity|]. reflexivity.
  - eexists. split; [reflexivity|]. unfold decide. destruct (Rle_dec _ u); cbn [params map]; split; intros U; try lra; reflexivity.
Qed.
