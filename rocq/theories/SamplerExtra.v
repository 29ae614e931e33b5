(** Lemmas for SamplerProps: the state a rejection leaves, gradients that appear late,
    the states after stabilize, and which parameters may be sampled. *)
From Coq Require Import Reals List Bool Arith Lra Lia.
From Verif Require Import RVec OptimModel OptimSpec SamplerModel SamplerSpec SamplerProofs SamplerProofs2 SamplerInstances.
Import ListNotations.
Local Open Scope R_scope.

Lemma rejected closure lim zs u s t s' : steady closure -> one_each zs s -> rhmc_step closure lim zs (-1) s = (t, SOk) ->
  Rmin 1 (exp ((- log_density closure s + momenta old_r t) - (- log_density closure t + momenta mom t))) <= u ->
  rhmc_step closure lim zs u s = (s', SOk) ->
  forall p h, In p (params s') -> v_grad p <> None -> v_hmc p = Some h -> v_val p = old_p h /\ mom h = old_r h.
Proof.
  intros S L E U E'. pose proof (rhmc_inv closure lim _ _ _ _ _ S L E) as (w & T & K & _ & Ev).
  assert (LO : length zs = length (opened closure s)) by (rewrite opened_length; exact L).
  set (r := Rmin 1 _) in Ev. pose proof (rho_range (- log_density closure s + begin_energy (opened closure s) zs - (- log_density closure w + end_energy (params w)))) as Rg. fold r in Rg.
  assert (Et : t = decide r (-1) (log_density closure s) (log_density closure w) w) by (rewrite Ev in E; injection E as E; symmetry; exact E).
  assert (Pt : params t = params w). { rewrite Et. unfold decide. destruct (Rle_dec r (-1)); [lra|]. reflexivity. }
  assert (Vt : values t = values w) by (unfold values; rewrite Pt; reflexivity).
  assert (Rr : r <= u).
  { eapply Rle_trans; [|exact U]. apply Req_le. unfold r. rewrite end_energy_sum, (begin_energy_sum _ _ _ T LO). unfold log_density. rewrite Vt. unfold momenta. rewrite Pt. reflexivity. }
  rewrite Ev in E'. injection E' as <-. intros p h P G H. unfold decide in P. cbn [params] in P. destruct (Rle_dec r u); [|contradiction].
  apply in_map_iff in P. destruct P as (q & <- & Q). unfold restore in *. destruct (v_grad q) eqn:Gq; [|contradiction]. destruct (v_hmc q) as [k|] eqn:Hq.
  - cbn in H. injection H as <-. cbn. auto.
  - rewrite Hq in H. discriminate.
Qed.

(** * A gradient that appears during the step *)
(** the second parameter only matters once the first has left 0 *)
Definition gated (xs : list vec) : R * list (option vec) :=
  match xs with
  | [x; _] => (x O, [Some (vconst 1); if Req_EM_T (x O) 0 then None else Some (vconst 1)])
  | _ => (0, [])
  end.
Definition pair_at (n : nat) : sampler :=
  {| params := [at_ 0 1; at_ 0 1]; n_steps := n; n_rejected := 0; steps := 0; burnin := false; log_probs := []; acceptance_probs := []; evals := 0 |}.
Lemma late n : (1 <= n)%nat -> exists t, rhmc_step gated 709 [vconst 1; vconst 1] (1 / 2) (pair_at n) = (t, SRaise SKeyError) /\ values t <> values (pair_at n) /\
  steps t = O /\ log_probs t = [].
Proof.
  intros N. destruct n as [|n]; [lia|]. unfold rhmc_step.
  cbn [evaluate pair_at params map v_val at_ gated].
  destruct (Req_EM_T 0 0) as [_|F]; [|contradiction].
  cbn [backward add_grad put_grad v_grad v_man v_size v_val v_eps v_alpha v_hmc v_vel at_ params put_params put_evals sweep begin kick s_manifold euclidean retr_transp egrad2rgrad momentum_of put_val put_hmc mom n_steps].
  destruct n as [|n].
  - cbn. unfold vadd, smul, vconst. match goal with |- context [Req_EM_T ?a 0] => destruct (Req_EM_T a 0) as [F|_] end.
    { exfalso. unfold vadd, smul, vconst in F. cbn in F. lra. }
    cbn. eexists. split; [reflexivity|]. split; [|auto]. intros F. unfold values in F. cbn in F.
    assert (F0 := f_equal (fun l => hd vzero l O) F). cbn in F0. unfold vadd, smul, vconst, vzero in F0. lra.
  - cbn. unfold vadd, smul, vconst. match goal with |- context [Req_EM_T ?a 0] => destruct (Req_EM_T a 0) as [F|_] end.
    { exfalso. unfold vadd, smul, vconst in F. cbn in F. lra. }
    cbn. eexists. split; [reflexivity|]. split; [|auto]. intros F. unfold values in F. cbn in F.
    assert (F0 := f_equal (fun l => hd vzero l O) F). cbn in F0. unfold vadd, smul, vconst, vzero in F0. lra.
Qed.
Lemma late_witness : exists closure zs s, forall n, (1 <= n)%nat -> n_steps (s n) = n /\ one_each zs (s n) /\
  exists t, rhmc_step closure 709 zs (1 / 2) (s n) = (t, SRaise SKeyError) /\ values t <> values (s n) /\ steps t = O /\ log_probs t = [].
Proof. exists gated, [vconst 1; vconst 1], pair_at. intros n H. split; [reflexivity|]. split; [reflexivity|]. apply late, H. Qed.

(** * The states after stabilize *)
Lemma stabilized_states on tan s : lawfuls on tan s -> settled on s ->
  (forall p h, In p (params s) -> v_hmc p = Some h -> on (v_man p) (old_p h)) ->
  (forall q h, In q (map rhmc_stabilize (params s)) -> v_man q <> None -> v_hmc q = Some h -> on (v_man q) (old_p h)) /\
  (forall q w, In q (map sgrhmc_stabilize (params s)) -> v_man q <> None -> v_vel q = Some w -> tan (v_man q) (v_val q) w).
Proof.
  intros L O Oo. split; intros q x Q Mq X; apply in_map_iff in Q; destruct Q as (p & <- & P); pose proof (L p P) as Lp; pose proof (O p P) as Op; unfold s_manifold in Lp.
  - pose proof (fun h => Oo p h P) as Hp. unfold rhmc_stabilize in *. destruct (v_man p) as [m|] eqn:E; [|congruence]. cbn [v_hmc put_val] in *. destruct (v_hmc p) as [h|] eqn:Hh.
    + cbn in X. injection X as <-. cbn. rewrite E. apply (projx_on _ _ _ Lp). auto.
    + cbn in X. congruence.
  - unfold sgrhmc_stabilize in *. destruct (v_man p) as [m|] eqn:E; [|congruence]. cbn [v_vel v_val put_val] in *. destruct (v_vel p) as [w|] eqn:Hh.
    + cbn in X. injection X as <-. cbn. rewrite E. apply (proju_tan _ _ _ Lp). apply (projx_on _ _ _ Lp). exact Op.
    + cbn in X. congruence.
Qed.
(** stabilize does what it says to the values it finds *)
Lemma stabilized_values p m : v_man p = Some m ->
  v_val (rhmc_stabilize p) = projx m (v_val p) /\ v_val (sgrhmc_stabilize p) = projx m (v_val p) /\ v_val (rsgld_stabilize p) = projx m (v_val p) /\
  (forall w, v_vel p = Some w -> v_vel (sgrhmc_stabilize p) = Some (proju m (projx m (v_val p)) w)).
Proof.
  intros E. unfold rhmc_stabilize, sgrhmc_stabilize, rsgld_stabilize. rewrite E. cbn [v_hmc v_vel v_val put_val].
  destruct (v_hmc p); destruct (v_vel p); cbn; repeat split; intros; congruence.
Qed.

(** * Which parameters may be sampled *)
Lemma constructed l : (constructor l = SOk <-> ~ In (Some false) l) /\ (constructor l <> SOk -> constructor l = SRaise SValueError).
Proof.
  unfold constructor. split.
  - destruct (forallb _ l) eqn:F; split; try discriminate; try reflexivity.
    + intros _ I. rewrite forallb_forall in F. specialize (F _ I). discriminate.
    + intros N. exfalso. assert (forallb (fun r : option bool => match r with Some b => b | None => true end) l = true); [|congruence].
      apply forallb_forall. intros [[|]|] I; try reflexivity. contradiction.
  - destruct (forallb _ l); [congruence|reflexivity].
Qed.
