(** Lemmas for SamplerProps: decisions, counters and the recorded densities of RHMC. *)
From Coq Require Import Reals List Bool Arith Lra Lia.
From Verif Require Import RVec OptimModel OptimSpec SamplerModel SamplerSpec SamplerProofs.
Import ListNotations.
Local Open Scope R_scope.

Lemma rho_range x : 0 < Rmin 1 (exp x) <= 1.
Proof. split; [apply Rmin_glb_lt; [lra|apply exp_pos]|apply Rmin_l]. Qed.
Lemma end_energy_sum s : end_energy (params s) = momenta mom s.
Proof.
  unfold momenta, sum, end_energy. induction (params s) as [|p l IH]; [reflexivity|]. simpl. rewrite <- IH.
  destruct (v_grad p), (v_hmc p); unfold kinetic; lra.
Qed.
Lemma begin_energy_sum l zs : forall l', Forall2 track (combine l zs) l' -> length zs = length l ->
  begin_energy l zs = sum (map (fun p => match v_grad p, v_hmc p with Some _, Some h => 1 / 2 * dot (v_size p) (old_r h) (old_r h) | _, _ => 0 end) l').
Proof.
  revert zs. induction l as [|p l IH]; intros [|z zs] l' F L; simpl in L; try lia; simpl in F; inversion F; subst; simpl; [reflexivity|].
  rewrite (IH zs l'0) by (auto; lia). destruct H1 as [(_ & S & _) T]. destruct (v_grad p) eqn:G.
  - destruct T as (g & h & -> & -> & _ & ->). rewrite S. unfold kinetic. reflexivity.
  - subst y. rewrite G. reflexivity.
Qed.
Lemma opened_values closure s : map v_val (opened closure s) = values s.
Proof. apply backward_values. Qed.
Lemma opened_length closure s : length (opened closure s) = length (params s).
Proof. apply backward_length. Qed.

Section Decision.
  Variable closure : list vec -> R * list (option vec).
  Variable lim : R.
  Lemma repeat_keeps : forall k s s' st, repeat_continue closure k s = (s', st) -> keeps s s'.
  Proof.
    induction k as [|k IH]; intros s s' st E; simpl in E; [injection E as <- _; apply keeps_refl|].
    rewrite evaluate_eq in E. destruct (sweep continue _ _) as [l st1]. destruct st1.
    - apply IH in E. eapply keeps_trans; [|exact E]. repeat split.
    - injection E as <- _. repeat split.
  Qed.
  Lemma rhmc_any zs u s s' st : rhmc_step closure lim zs u s = (s', st) ->
    match st with
    | SOk => exists rho o n t, keeps s t /\ 0 < rho <= 1 /\ s' = decide rho u o n t
    | SRaise _ => keeps s s'
    end.
  Proof.
    unfold rhmc_step. rewrite evaluate_eq. destruct (sweep begin _ _) as [l1 st1].
    destruct (repeat_continue closure _ _) as [s2 st2] eqn:W. apply repeat_keeps in W.
    assert (K : keeps s s2) by (eapply keeps_trans; [|exact W]; repeat split). clear W.
    destruct st2; [|intros E; injection E as <- <-; exact K].
    rewrite evaluate_eq. destruct (sweep (finish _) _ _) as [l3 st3].
    destruct st3; [|intros E; injection E as <- <-; eapply keeps_trans; [exact K|]; repeat split].
    destruct (Rlt_dec lim _); intros E; injection E as <- <-; [eapply keeps_trans; [exact K|]; repeat split|].
    eexists. eexists. eexists. eexists. split; [|split; [apply rho_range|reflexivity]]. eapply keeps_trans; [exact K|]. repeat split.
  Qed.

  (** the proposal [t]: what the step returns when the draw u cannot reject *)
  Lemma decision zs u s t : steady closure -> one_each zs s -> rhmc_step closure lim zs (-1) s = (t, SOk) ->
    let rho := Rmin 1 (exp ((- log_density closure s + momenta old_r t) - (- log_density closure t + momenta mom t))) in
    exists s', rhmc_step closure lim zs u s = (s', SOk) /\
      (u < rho -> s' = t) /\
      (rho <= u -> values s' = values s) /\
      log_probs s' = log_probs s ++ [log_density closure s'] /\
      (burnin s = true -> steps s' = steps s /\ n_rejected s' = n_rejected s /\ acceptance_probs s' = acceptance_probs s) /\
      (burnin s = false -> steps s' = S (steps s) /\ acceptance_probs s' = acceptance_probs s ++ [rho] /\
                           n_rejected s' = if Rle_dec rho u then S (n_rejected s) else n_rejected s).
  Proof.
    intros S L E. pose proof (rhmc_inv closure lim _ _ _ _ _ S L E) as (w & T & K & _ & Ev).
    assert (LO : length zs = length (opened closure s)) by (rewrite opened_length; exact L).
    set (r := Rmin 1 _) in Ev. pose proof (rho_range (- log_density closure s + begin_energy (opened closure s) zs - (- log_density closure w + end_energy (params w)))) as Rg. fold r in Rg.
    assert (Et : t = decide r (-1) (log_density closure s) (log_density closure w) w) by (rewrite Ev in E; injection E as E; symmetry; exact E).
    assert (Pt : params t = params w). { rewrite Et. unfold decide. destruct (Rle_dec r (-1)); [lra|]. reflexivity. }
    assert (Vt : values t = values w) by (unfold values; rewrite Pt; reflexivity).
    assert (Rr : r = Rmin 1 (exp ((- log_density closure s + momenta old_r t) - (- log_density closure t + momenta mom t)))).
    { unfold r. rewrite end_energy_sum, (begin_energy_sum _ _ _ T LO). unfold log_density. rewrite Vt. unfold momenta. rewrite Pt. reflexivity. }
    cbv zeta. rewrite <- Rr. eexists. split; [apply Ev|].
    assert (Vr : r <= u -> values (decide r u (log_density closure s) (log_density closure w) w) = values s).
    { intros U. unfold values, decide. destruct (Rle_dec r u); [|contradiction]. cbn [params].
      rewrite (restore_values _ _ T), fst_combine by (symmetry; exact LO). apply opened_values. }
    split; [|split; [exact Vr|]].
    { intros U. rewrite Et. unfold decide. destruct (Rle_dec r u); [lra|]. destruct (Rle_dec r (-1)); [lra|]. reflexivity. }
    destruct K as (K1 & K2 & K3 & K4 & K5 & K6). split.
    { unfold log_density in *. destruct (Rle_dec r u) as [U|U].
      - rewrite (Vr U). unfold decide. cbn [log_probs]. destruct (Rle_dec r u); [|contradiction]. rewrite K5. reflexivity.
      - unfold decide, values. destruct (Rle_dec r u); [contradiction|]. cbn [log_probs params]. rewrite K5. reflexivity. }
    unfold decide. cbn [steps n_rejected acceptance_probs]. rewrite <- K2, <- K3, <- K4, <- K6.
    split; intros ->; cbn [negb]; [|destruct (Rle_dec r u); cbn [andb]; auto].
    rewrite andb_false_r. auto.
  Qed.
  Lemma remembered zs u s s' st : steady closure -> one_each zs s -> rhmc_step closure lim zs u s = (s', st) ->
    forall i p z p', nth_error (params s) i = Some p -> nth_error zs i = Some z -> nth_error (params s') i = Some p' ->
    v_man p' = v_man p /\ v_size p' = v_size p /\ v_eps p' = v_eps p /\
    ((v_grad p' = None /\ p' = p) \/
     exists h, v_hmc p' = Some h /\ old_p h = v_val p /\ old_r h = egrad2rgrad (s_manifold p) (v_val p) z).
  Proof.
    intros S L E. pose proof (rhmc_inv closure lim _ _ _ _ _ S L E) as I.
    assert (T : Forall2 track (combine (opened closure s) zs) (params s') \/ exists w, Forall2 track (combine (opened closure s) zs) (params w) /\ params s' = map restore (params w)).
    { destruct st; [|left; apply I]. destruct I as (w & T & _ & _ & Ev). rewrite Ev in E. injection E as <-. unfold decide.
      destruct (Rle_dec _ u); cbn [params]; [right; exists w; auto|left; exact T]. }
    clear I E.
    assert (G : forall i p z p', nth_error (params s) i = Some p -> nth_error zs i = Some z -> nth_error (params s') i = Some p' ->
      exists q, (p' = q \/ p' = restore q) /\ exists p0, nth_error (opened closure s) i = Some p0 /\ track (p0, z) q).
    { assert (G0 : forall (l : list sparam) ms (zs : list vec), Forall2 track (combine l zs) ms -> forall i z q, nth_error zs i = Some z -> nth_error ms i = Some q -> exists p0, nth_error l i = Some p0 /\ track (p0, z) q).
      { clear. induction l as [|a l IH]; intros ms [|b zs] F i z q Z Q; simpl in F; inversion F; subst; destruct i; simpl in *; try discriminate.
        - injection Z as <-. injection Q as <-. exists a. auto.
        - eapply IH; eassumption. }
      intros i p z p' P Z P'. destruct T as [T|(w & T & Ew)].
      - exists p'. split; [auto|]. eapply G0; eassumption.
      - rewrite Ew in P'. rewrite nth_error_map in P'. destruct (nth_error (params w) i) as [q|] eqn:Q; [|discriminate]. injection P' as <-.
        exists q. split; [auto|]. eapply G0; eassumption. }
    clear T. intros i p z p' P Z P'. destruct (G i p z p' P Z P') as (q & Eq & p0 & P0 & Tq). clear G.
    assert (O : exists g, p0 = add_grad p g).
    { unfold opened in P0. revert P P0. generalize (snd (closure (values s))) as gs. generalize (params s) as l. clear. intros l. revert i.
      induction l as [|a l IH]; intros [|i] [|g gs]; simpl; try discriminate.
      - intros H H'. exists None. cbn. congruence.
      - intros H H'. injection H as <-. injection H' as <-. eexists. reflexivity.
      - intros H H'. exists None. cbn. congruence.
      - intros H H'. eapply IH; eassumption. }
    destruct O as [g ->].
    assert (A1 : v_man (add_grad p g) = v_man p) by (destruct g; reflexivity).
    assert (A2 : v_size (add_grad p g) = v_size p) by (destruct g; reflexivity).
    assert (A3 : v_eps (add_grad p g) = v_eps p) by (destruct g; reflexivity).
    assert (A4 : v_val (add_grad p g) = v_val p) by (destruct g; reflexivity).
    destruct Tq as [(B1 & B2 & B3) Tq].
    assert (Q : v_man p' = v_man q /\ v_size p' = v_size q /\ v_eps p' = v_eps q /\ v_grad p' = v_grad q).
    { destruct Eq as [->| ->]; [auto|]. unfold restore. destruct (v_grad q) eqn:Gq; [|auto]. destruct (v_hmc q); cbn; auto. }
    destruct Q as (Q1 & Q2 & Q3 & Q4). split; [congruence|]. split; [congruence|]. split; [congruence|].
    destruct (v_grad (add_grad p g)) eqn:Gp.
    - right. destruct Tq as (g' & h & Gq & Hq & O & Or). unfold momentum_of, s_manifold in Or. rewrite A1, A4 in Or. rewrite A4 in O.
      destruct Eq as [->| ->].
      + exists h. auto.
      + unfold restore. rewrite Gq, Hq. eexists. split; [reflexivity|]. cbn. auto.
    - left. subst q. split; [congruence|]. destruct g as [g|]; [cbn in Gp; discriminate|]. cbn in Eq, Gp. destruct Eq as [->| ->]; [reflexivity|]. unfold restore. rewrite Gp. reflexivity.
  Qed.
  Lemma evaluations zs u s s' : steady closure -> one_each zs s -> rhmc_step closure lim zs u s = (s', SOk) -> evals s' = (evals s + Nat.max 2 (S (n_steps s)))%nat.
  Proof. intros S L E. pose proof (rhmc_inv closure lim _ _ _ _ _ S L E) as (w & _ & _ & N & Ev). rewrite Ev in E. injection E as <-. exact N. Qed.
  Lemma recorded zs u s s' : steady closure -> one_each zs s -> rhmc_step closure lim zs u s = (s', SOk) ->
    log_probs s' = log_probs s ++ [log_density closure s'].
  Proof.
    intros S L E. pose proof (rhmc_inv closure lim _ _ _ _ _ S L E) as (w & _ & _ & _ & Ev). specialize (Ev (-1)).
    destruct (decision zs u s _ S L Ev) as (s2 & E2 & _ & _ & Q & _). rewrite E in E2. injection E2 as <-. exact Q.
  Qed.
End Decision.

Lemma counters lim s a b c : rhmc_run lim s a b c ->
  length (log_probs s) = a /\ steps s = b /\ n_rejected s = c /\ (c <= b <= a)%nat /\
  length (acceptance_probs s) = b /\ Forall (fun rho => 0 < rho <= 1) (acceptance_probs s) /\ 0 <= rejection_rate s <= 1.
Proof.
  intros H.
  assert (G : length (log_probs s) = a /\ steps s = b /\ n_rejected s = c /\ (c <= b <= a)%nat /\
    length (acceptance_probs s) = b /\ Forall (fun rho => 0 < rho <= 1) (acceptance_probs s)).
  { induction H as [s (A & B & C & D & _)|s s' a b c H IH (A & B & C & D)|s a b c cl zs u s' H IH B E|s a b c cl zs u s' H IH B E|s a b c cl zs u s' e H IH E].
    - rewrite A, B, C, D. cbn. repeat split; try lia. constructor.
    - rewrite A, B, C, D in IH. exact IH.
    - apply rhmc_any in E. destruct E as (rho & o & n & t & (K1 & K2 & K3 & K4 & K5 & K6) & Rg & ->). unfold decide. cbn.
      rewrite <- K2, <- K3, <- K4, <- K5, <- K6, B. rewrite app_length. cbn. rewrite andb_false_r. destruct IH as (I1 & I2 & I3 & I4 & I5 & I6). repeat split; auto; lia.
    - apply rhmc_any in E. destruct E as (rho & o & n & t & (K1 & K2 & K3 & K4 & K5 & K6) & Rg & ->). unfold decide, kept_old. cbn.
      rewrite <- K2, <- K3, <- K4, <- K5, <- K6, B. rewrite !app_length, last_last. cbn. destruct IH as (I1 & I2 & I3 & I4 & I5 & I6).
      assert (F : Forall (fun r => 0 < r <= 1) (acceptance_probs s ++ [rho])) by (apply Forall_app; auto).
      destruct (Rle_dec rho u); cbn; repeat split; auto; lia.
    - apply rhmc_any in E. destruct E as (K1 & K2 & K3 & K4 & K5 & K6). rewrite <- K2, <- K3, <- K5, <- K6. exact IH. }
  destruct G as (I1 & I2 & I3 & I4 & I5 & I6). repeat (split; [assumption|]).
  unfold rejection_rate. destruct (Nat.ltb_spec 0 (steps s)); [|lra].
  rewrite I2 in *. rewrite I3. assert (0 < INR b) by (apply lt_0_INR; lia). assert (INR c <= INR b) by (apply le_INR; lia). pose proof (pos_INR c).
  split; [apply Rmult_le_pos; [assumption|apply Rlt_le, Rinv_0_lt_compat; assumption]|]. apply Rmult_le_reg_r with (INR b); [assumption|]. unfold Rdiv. rewrite Rmult_assoc, Rinv_l by lra. lra.
Qed.
