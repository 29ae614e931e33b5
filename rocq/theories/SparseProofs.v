(** Lemmas for the sparse optimizers. *)
From Coq Require Import Reals List Bool Arith Lra Lia.
From Verif Require Import RVec OptimModel OptimSpec SparseModel SparseSpec.
Import ListNotations.
Local Open Scope R_scope.

Lemma in_rows e r : In r (rows_of e) <-> named e r.
Proof. unfold rows_of, named. rewrite nodup_In, in_map_iff. split; [intros [[a v] [<- H]]; exists v; exact H|intros [v H]; exists (r, v); auto]. Qed.
Lemma put_in rows full new r : In r rows -> put rows full new r = new r.
Proof. intros H. unfold put. destruct (in_dec _ _ _); [reflexivity|contradiction]. Qed.
Lemma put_out rows full new r : ~ In r rows -> put rows full new r = full r.
Proof. intros H. unfold put. destruct (in_dec _ _ _); [contradiction|reflexivity]. Qed.
Lemma dense_unnamed e r : ~ named e r -> dense_row e r = vzero.
Proof.
  unfold named. induction e as [|[a v] e IH]; intros H; [reflexivity|]. cbn [dense_row fold_right fst snd]. destruct (Nat.eqb_spec a r) as [->|_].
  - exfalso. apply H. exists v. left. reflexivity.
  - apply IH. intros [w W]. apply H. exists w. right. exact W.
Qed.
Lemma dense_is_sum e r i : dense_row e r i = fold_right Rplus 0 (map (fun p => snd p i) (filter (fun p => fst p =? r) e)).
Proof. induction e as [|[a v] e IH]; [reflexivity|]. cbn [dense_row fold_right fst snd filter]. destruct (a =? r); cbn [map fold_right snd]; [unfold vadd at 1; rewrite <- IH; reflexivity|exact IH]. Qed.

(** * SGD *)
Lemma ssgd_out h p r e : s_grad p = SSparse e -> ~ named e r ->
  s_val (fst (ssgd_update h p)) r = s_val p r /\ row_of r (s_state (fst (ssgd_update h p))) = if has_momentum h then Some (match s_state p with Some b => b r | None => vzero end) else row_of r (s_state p).
Proof.
  intros E N. unfold ssgd_update. rewrite E. pose proof N as N'. rewrite <- in_rows in N. destruct (has_momentum h); cbn [fst s_val s_state]; unfold row_of, option_map; rewrite !put_out by exact N; (split; [reflexivity|]); [|reflexivity].
  destruct (s_state p); [reflexivity|]. rewrite dense_unnamed by exact N'. reflexivity.
Qed.
Lemma ssgd_in h p r e : s_grad p = SSparse e -> named e r ->
  sgd_row r (fst (ssgd_update h p)) = drop_grad (fst (sgd_update (no_decay h) (as_dense r e (sgd_row r p)))).
Proof.
  intros E N. unfold ssgd_update, sgd_update, as_dense, sgd_row, drop_grad. rewrite E. cbn [grad man val state manifold_of].
  rewrite <- in_rows in N. change (has_momentum (no_decay h)) with (has_momentum h).
  assert (D : decayed (no_decay h) (s_val p r) (dense_row e r) = dense_row e r) by (apply vec_ext; intros; unfold decayed, vadd, smul, no_decay; cbn; ring).
  unfold sgd_direction. change (has_momentum (no_decay h)) with (has_momentum h). rewrite D. unfold manifold_of, s_manifold. cbn [man].
  destruct (has_momentum h).
  - assert (B : sgd_buffer (dense_row e r) (row_of r (s_state p)) = match s_state p with Some b => b | None => dense_row e end r) by (destruct (s_state p); reflexivity).
    rewrite B. change (nesterov (no_decay h)) with (nesterov h). unfold new_buffer. cbn [no_decay momentum dampening lr].
    destruct (nesterov h); cbn [fst s_man s_val s_state]; unfold row_of, option_map; rewrite !put_in by exact N;
      match goal with |- context[retr_transp ?M ?x ?u ?v] => destruct (retr_transp M x u v) end; reflexivity.
  - cbn [fst s_man s_val s_state row_of]. rewrite !put_in by exact N. reflexivity.
Qed.

(** * Adam *)
Lemma sadam_out h p r e : s_grad p = SSparse e -> ~ named e r -> snd (sadam_update h p) = Ok ->
  s_val (fst (sadam_update h p)) r = s_val p r /\
  row_moments r (s_state (fst (sadam_update h p))) = row_moments r (Some (sadam_init h (s_state p))).
Proof.
  intros E N. unfold sadam_update. rewrite E. rewrite <- in_rows in N. set (s := sadam_init h (s_state p)).
  destruct (amsgrad h); [destruct (s_max s) as [mx|] eqn:Em; [|discriminate]|]; cbn [fst s_val s_state]; rewrite !put_out by exact N; intros _; (split; [reflexivity|]).
  - unfold row_moments. cbn [s_avg s_sq s_max option_map]. rewrite !put_out by exact N. rewrite Em. reflexivity.
  - unfold row_moments. cbn [s_avg s_sq s_max option_map]. rewrite !put_out by exact N. reflexivity.
Qed.
Lemma sadam_in h p r e : s_grad p = SSparse e -> named e r -> amsgrad h = false ->
  adam_row r (fst (sadam_update h p)) = drop_grad (fst (adam_update (no_adecay h) (as_dense r e (adam_row r p)))).
Proof.
  intros E N A. unfold sadam_update, adam_update, as_dense, adam_row, drop_grad. rewrite E. cbn [grad man val state manifold_of]. change (amsgrad (no_adecay h)) with (amsgrad h). rewrite A.
  rewrite <- in_rows in N.
  assert (D : vadd (dense_row e r) (smul (a_decay (no_adecay h)) (s_val p r)) = dense_row e r) by (apply vec_ext; intros; unfold vadd, smul, no_adecay; cbn; ring).
  rewrite D.
  unfold manifold_of, s_manifold. cbn [man].
  assert (I : adam_init (no_adecay h) (row_state r (s_state p)) = row_adam r (sadam_init h (s_state p))).
  { unfold adam_init, sadam_init, row_state, row_adam, no_adecay. cbn [amsgrad]. destruct (s_state p); [reflexivity|]. rewrite A. reflexivity. }
  rewrite I. cbn [fst s_man s_val s_state]. unfold row_state, option_map, row_adam. cbn [count exp_avg exp_avg_sq max_exp_avg_sq s_count s_avg s_sq s_max]. rewrite !put_in by exact N.
  unfold adam_direction, denominator, first_moment, second_moment, bias_correction, no_adecay. cbn [beta1 beta2 eps a_lr a_decay count exp_avg exp_avg_sq max_exp_avg_sq].
  match goal with |- context[retr_transp ?M ?x ?u ?v] => destruct (retr_transp M x u v) end. reflexivity.
Qed.
(** what AMSGrad stores *)
Lemma sadam_max h p r e s mx i : s_grad p = SSparse e -> named e r -> amsgrad h = true -> s_state p = Some s -> s_max s = Some mx ->
  exists s' mx', s_state (fst (sadam_update h p)) = Some s' /\ s_max s' = Some mx' /\
    mx' r i = sqrt (Rmax (mx r i) (s_sq s' r i) / (1 - beta2 h ^ S (s_count s))).
Proof.
  intros E N A S M. unfold sadam_update. rewrite E, S, A. cbn [sadam_init]. rewrite M. cbn [fst s_state]. eexists _, _. split; [reflexivity|]. cbn [s_max]. split; [reflexivity|].
  rewrite <- in_rows in N. cbn [s_sq]. rewrite !put_in by exact N. reflexivity.
Qed.

(** * Whole steps *)
Lemma sloop_rel {S} (f : sparam S -> sparam S * status) ps : Forall2 (fun p q => q = fst (f p) \/ q = p) ps (fst (sloop f ps)).
Proof.
  induction ps as [|p ps IH]; [constructor|]. cbn [sloop]. destruct (f p) as [q s] eqn:E.
  assert (W : q = fst (f p)) by (rewrite E; reflexivity).
  assert (Same : Forall2 (fun p q => q = fst (f p) \/ q = p) ps ps) by (clear; induction ps; constructor; auto).
  destruct s; [destruct (sloop f ps) as [qs s]|..]; cbn [fst] in *; constructor; auto.
Qed.
Lemma seach_rel {G} (f : G -> G * status) gs : Forall2 (fun p q => q = fst (f p) \/ q = p) gs (fst (each f gs)).
Proof.
  induction gs as [|p ps IH]; [constructor|]. cbn [each]. destruct (f p) as [q s] eqn:E.
  assert (W : q = fst (f p)) by (rewrite E; reflexivity).
  assert (Same : Forall2 (fun p q => q = fst (f p) \/ q = p) ps ps) by (clear; induction ps; constructor; auto).
  destruct s; [destruct (each f ps) as [qs s]|..]; cbn [fst] in *; constructor; auto.
Qed.
Definition ssgd_same (p p' : ssgd_param) : Prop := forall r, ~ touched p r ->
  s_val p' r = s_val p r /\ (forall b, s_state p = Some b -> exists b', s_state p' = Some b' /\ b' r = b r) /\ s_grad p' = s_grad p.
Lemma ssgd_same_refl p : ssgd_same p p.
Proof. intros r _. split; [reflexivity|]. split; [intros b E; exists b; auto|reflexivity]. Qed.
Lemma ssgd_update_grad h p : s_grad (fst (ssgd_update h p)) = s_grad p.
Proof. unfold ssgd_update. destruct (s_grad p) eqn:E; try exact E. destruct (has_momentum h); exact E || reflexivity. Qed.
Lemma ssgd_update_same h p : ssgd_same p (fst (ssgd_update h p)).
Proof.
  intros r N. unfold touched in N. pose proof (ssgd_update_grad h p) as G. destruct (s_grad p) as [| |e] eqn:E.
  - unfold ssgd_update in *. rewrite E in *. cbn [fst]. split; [reflexivity|]. split; [intros b Eb; exists b; auto|exact E].
  - unfold ssgd_update in *. rewrite E in *. cbn [fst]. split; [reflexivity|]. split; [intros b Eb; exists b; auto|exact E].
  - destruct (ssgd_out h p r e E N) as [V S]. split; [exact V|]. split; [|exact G]. intros b Eb. rewrite Eb in S.
    destruct (s_state (fst (ssgd_update h p))) as [b'|]; [|destruct (has_momentum h); discriminate]. exists b'. split; [reflexivity|]. destruct (has_momentum h); injection S; auto.
Qed.
Lemma Forall2_refl {A} (R : A -> A -> Prop) l : (forall x, R x x) -> Forall2 R l l.
Proof. intros H. induction l; constructor; auto. Qed.
Lemma ssgd_step_same o : (forall g, In g o -> stabilize (s_hyp g) = None) ->
  Forall2 (fun g g' => Forall2 ssgd_same (s_params g) (s_params g')) o (fst (ssgd_step o)).
Proof.
  intros H. pose proof (seach_rel ssgd_step_group o) as R. unfold ssgd_step. induction R as [|g g' gs gs' Hg R IH]; constructor.
  - destruct Hg as [->| ->]; [|apply Forall2_refl, ssgd_same_refl]. unfold ssgd_step_group.
    pose proof (sloop_rel (ssgd_update (s_hyp g)) (s_params g)) as L. rewrite (H g (or_introl eq_refl)). destruct (sloop _ _) as [ps s]. cbn [fst] in L.
    assert (W : Forall2 ssgd_same (s_params g) ps) by (clear - L; induction L as [|p q ? ? Hq]; constructor; auto; destruct Hq as [->| ->]; [apply ssgd_update_same|apply ssgd_same_refl]).
    destruct s; exact W.
  - apply IH. intros g0 I. apply H. right. exact I.
Qed.
Definition sadam_same (p p' : sadam_param) : Prop := forall r, ~ touched p r ->
  s_val p' r = s_val p r /\ (forall s, s_state p = Some s -> row_moments r (s_state p') = row_moments r (Some s)) /\ s_grad p' = s_grad p.
Lemma sadam_same_refl p : sadam_same p p.
Proof. intros r _. split; [reflexivity|]. split; [intros s ->; reflexivity|reflexivity]. Qed.
Lemma sadam_update_grad h p : s_grad (fst (sadam_update h p)) = s_grad p.
Proof. unfold sadam_update. destruct (s_grad p) eqn:E; try exact E. destruct (amsgrad h); [|reflexivity]. destruct (s_max _); reflexivity. Qed.
Lemma sadam_update_same h p : sadam_same p (fst (sadam_update h p)).
Proof.
  intros r N. unfold touched in N. pose proof (sadam_update_grad h p) as G. destruct (s_grad p) as [| |e] eqn:E.
  - unfold sadam_update in *. rewrite E in *. cbn [fst]. split; [reflexivity|]. split; [intros s ->; reflexivity|exact E].
  - unfold sadam_update in *. rewrite E in *. cbn [fst]. split; [reflexivity|]. split; [intros s ->; reflexivity|exact E].
  - destruct (snd (sadam_update h p)) eqn:St.
    + destruct (sadam_out h p r e E N St) as [V S]. split; [exact V|]. split; [|exact G]. intros s Es. rewrite Es in S. exact S.
    + unfold sadam_update in St. rewrite E in St. destruct (amsgrad h); [destruct (s_max _)|]; discriminate.
    + unfold sadam_update in *. rewrite E in *. destruct (amsgrad h); [destruct (s_max (sadam_init h (s_state p))) eqn:Em|]; try discriminate. cbn [fst s_val s_state s_grad].
      split; [reflexivity|]. split; [|reflexivity]. intros s Es. rewrite Es in *. cbn [sadam_init] in *. unfold row_moments. cbn [option_map s_avg s_sq s_max]. rewrite Em. reflexivity.
    + unfold sadam_update in St. rewrite E in St. destruct (amsgrad h); [destruct (s_max _)|]; discriminate.
Qed.
Lemma svisit_update h p : fst (sadam_visit h p) = fst (sadam_update h p).
Proof.
  unfold sadam_visit. destruct (sadam_update h p) as [q s]. destruct s; try reflexivity. destruct (a_stabilize h) as [[|]|]; try reflexivity. destruct (s_grad q); reflexivity.
Qed.
Lemma sadam_step_same o : (forall g, In g o -> a_stabilize (sa_hyp g) = None) ->
  Forall2 (fun g g' => Forall2 sadam_same (sa_params g) (sa_params g')) o (fst (sadam_step o)).
Proof.
  intros H. pose proof (seach_rel sadam_step_group o) as R. unfold sadam_step. induction R as [|g g' gs gs' Hg R IH]; constructor.
  - destruct Hg as [->| ->]; [|apply Forall2_refl, sadam_same_refl]. unfold sadam_step_group.
    pose proof (sloop_rel (sadam_visit (sa_hyp g)) (sa_params g)) as L. rewrite (H g (or_introl eq_refl)). destruct (sloop _ _) as [ps s]. cbn [fst] in L.
    assert (W : Forall2 sadam_same (sa_params g) ps) by (clear - L; induction L as [|p q ? ? Hq]; constructor; auto; destruct Hq as [->| ->]; [rewrite svisit_update; apply sadam_update_same|apply sadam_same_refl]).
    destruct s; exact W.
  - apply IH. intros g0 I. apply H. right. exact I.
Qed.

(** * Rows evolve independently *)
Lemma seen_named r es t : named (es t) r -> seen_by r es t = Dense (dense_row (es t) r).
Proof. intros [v V]. unfold seen_by. destruct (in_dec _ _ _) as [|N]; [reflexivity|]. exfalso. apply N. apply in_map_iff. exists (r, v). auto. Qed.
Lemma seen_unnamed r es t : ~ named (es t) r -> seen_by r es t = NoGrad.
Proof. intros H. unfold seen_by. destruct (in_dec _ _ _) as [I|]; [|reflexivity]. exfalso. apply H. apply in_map_iff in I. destruct I as [[a v] [<- I]]. exists v. exact I. Qed.
Lemma named_dec e r : named e r \/ ~ named e r.
Proof. destruct (in_dec Nat.eq_dec r (rows_of e)) as [I|I]; rewrite in_rows in I; auto. Qed.
Lemma drop_eq {S} (p q : param S) : drop_grad p = drop_grad q -> man p = man q /\ val p = val q /\ state p = state q.
Proof. intros [= A B C]. auto. Qed.
Lemma row_step h es t p q r : drop_grad q = sgd_row r p -> named (es t) r ->
  drop_grad (fst (sgd_update (no_decay h) {| man := man q; val := val q; grad := seen_by r es t; state := state q |})) = sgd_row r (fst (ssgd_update h (with_entries (es t) p))).
Proof.
  intros D N. destruct (drop_eq q (sgd_row r p) D) as [A [B C]]. rewrite seen_named by exact N.
  rewrite (ssgd_in h (with_entries (es t) p) r (es t) eq_refl N). unfold as_dense. rewrite A, B, C. reflexivity.
Qed.
Lemma rows_independent hs es p0 r :
  s_state p0 = None ->
  (forall t, has_momentum (hs t) = false) \/ ((forall t, has_momentum (hs t) = true) /\ named (es O) r) ->
  forall t, drop_grad (row_run hs (seen_by r es) (sgd_row r p0) t) = sgd_row r (ssgd_run hs es p0 t).
Proof.
  intros Z [H|[H F]].
  - assert (None_ : forall t, s_state (ssgd_run hs es p0 t) = None).
    { induction t as [|t IH]; [exact Z|]. cbn [ssgd_run]. unfold ssgd_update. cbn [with_entries s_grad]. rewrite H. exact IH. }
    induction t as [|t IH]; [reflexivity|]. cbn [ssgd_run row_run]. destruct (named_dec (es t) r) as [N|N]; [apply row_step; auto|].
    rewrite seen_unnamed by exact N. cbn [sgd_update grad fst]. destruct (ssgd_out (hs t) (with_entries (es t) (ssgd_run hs es p0 t)) r (es t) eq_refl N) as [V S].
    rewrite H in S. unfold sgd_row. rewrite V, S. replace (s_man (fst (ssgd_update (hs t) (with_entries (es t) (ssgd_run hs es p0 t))))) with (s_man (ssgd_run hs es p0 t)).
    + unfold drop_grad. cbn [man val state]. exact IH.
    + unfold ssgd_update. cbn [with_entries s_grad]. rewrite H. reflexivity.
  - assert (Some_ : forall t, s_state (ssgd_run hs es p0 (S t)) <> None).
    { intros t. cbn [ssgd_run]. unfold ssgd_update. cbn [with_entries s_grad]. rewrite H. discriminate. }
    induction t as [|t IH]; [reflexivity|]. cbn [ssgd_run row_run]. destruct (named_dec (es t) r) as [N|N]; [apply row_step; auto|].
    destruct t as [|t]; [contradiction|]. set (q := ssgd_run hs es p0 (S t)) in *.
    rewrite seen_unnamed by exact N. cbn [sgd_update grad fst]. destruct (ssgd_out (hs (S t)) (with_entries (es (S t)) q) r (es (S t)) eq_refl N) as [V S].
    rewrite H in S. unfold sgd_row. rewrite V, S. replace (s_man (fst (ssgd_update (hs (Datatypes.S t)) (with_entries (es (Datatypes.S t)) q)))) with (s_man q).
    + unfold drop_grad. cbn [man val state with_entries s_val s_state]. etransitivity; [exact IH|]. unfold sgd_row. destruct (s_state q) as [b|] eqn:E; [reflexivity|]. exfalso. exact (Some_ t E).
    + unfold ssgd_update. cbn [with_entries s_grad]. rewrite H. reflexivity.
Qed.

(** * Witnesses *)
Definition h_sparse : sgd_hyper := {| lr := 1; momentum := 1 / 2; dampening := 0; weight_decay := 0; nesterov := false; stabilize := None |}.
Definition one_row (r : nat) : entries := [(r, vconst 1)].
Definition s_fresh {S} : sparam S := {| s_man := None; s_val := mzero; s_grad := SNone; s_state := None |}.
Definition late_es (t : nat) : entries := one_row t.
(** a row first named at step 2 starts from a zero buffer, unlike a row named first *)
Lemma late_row : forall i,
  s_val (ssgd_run (fun _ => h_sparse) late_es s_fresh 2) 1%nat i = -1 /\
  val (row_run (fun _ => h_sparse) (seen_by 1 late_es) (sgd_row 1 s_fresh) 2) i = - (3 / 2).
Proof.
  intros i. assert (M : has_momentum h_sparse = true) by (unfold has_momentum, h_sparse; cbn; destruct (Rlt_dec 0 (1 / 2)); [reflexivity|lra]).
  assert (M' : has_momentum (no_decay h_sparse) = true) by exact M.
  split.
  - cbn [ssgd_run]. unfold ssgd_update. cbn [with_entries s_grad s_fresh s_state s_man s_val s_manifold]. rewrite M. cbn. unfold put, vadd, smul, mzero, vzero, vconst. cbn. unfold vadd, vzero, smul. cbn. lra.
  - cbn [row_run]. rewrite (seen_unnamed 1 late_es 0) by (intros [v [[=]|[]]]). rewrite (seen_named 1 late_es 1) by (exists (vconst 1); left; reflexivity).
    cbn [sgd_update grad fst]. unfold sgd_update. cbn [grad man val state sgd_row s_fresh s_man s_val s_state row_of option_map manifold_of]. rewrite M'. cbn. unfold sgd_direction. rewrite M'. cbn. unfold vadd, smul, mzero, vzero, decayed, vconst, vadd, smul. cbn. unfold vadd, vzero. unfold new_buffer, vadd, smul. cbn. lra.
Qed.
Definition h_ams : adam_hyper := {| a_lr := 1; beta1 := 0; beta2 := 0; eps := 1; a_decay := 0; amsgrad := true; a_stabilize := None |}.
Definition four : entries := [(O, vconst 4)].
Lemma ams_broken : exists s mx, s_state (sadam_run (fun _ => h_ams) (fun _ => four) s_fresh 1) = Some s /\ s_max s = Some mx /\
  forall i, s_sq s O i = 16 /\ mx O i = 4.
Proof.
  cbn [sadam_run]. unfold sadam_update. cbn [with_entries s_grad s_fresh s_state s_man s_val s_manifold sadam_init h_ams amsgrad s_max].
  eexists _, _. split; [cbn [fst s_state]; reflexivity|]. split; [cbn [s_max]; reflexivity|].
  assert (V : forall i, vadd (smul (beta2 h_ams) (s_sq (sadam_init h_ams None) O)) (smul (1 - beta2 h_ams) (component_inner euclidean (mzero O) (egrad2rgrad euclidean (mzero O) (dense_row four O)))) i = 16).
  { intros i. unfold vadd, smul. cbn. unfold vmul, vadd, vconst, vzero. cbn. lra. }
  intros i. cbn [s_sq]. rewrite !put_in by (left; reflexivity). split; [apply V|].
  unfold vsqrt, vdiv, vmax. match goal with |- sqrt (Rmax _ ?v / _) = _ => assert (E : v = 16) by apply V; rewrite E end.
  cbn. unfold mzero, vzero. rewrite Rmax_right by lra. replace (16 / (1 - 0 * 1)) with (4 * 4) by lra. apply sqrt_square. lra.
Qed.
Lemma late_refuted : ~ forall hs es p0 r, s_state p0 = None -> (forall t, has_momentum (hs t) = true) ->
    forall t, s_val (ssgd_run hs es p0 t) r = val (row_run hs (seen_by r es) (sgd_row r p0) t).
Proof.
  intros H. assert (M : has_momentum h_sparse = true) by (unfold has_momentum, h_sparse; cbn; destruct (Rlt_dec 0 (1 / 2)); [reflexivity|lra]).
  specialize (H (fun _ => h_sparse) late_es s_fresh 1%nat eq_refl (fun _ => M) 2%nat). apply (f_equal (fun f => f O)) in H. destruct (late_row O) as [A B]. rewrite A, B in H. lra.
Qed.
Lemma ams_refuted : ~ forall hs es p0 t s mx r i, s_state p0 = None -> (forall t, amsgrad (hs t) = true) ->
    s_state (sadam_run hs es p0 t) = Some s -> s_max s = Some mx -> s_sq s r i <= mx r i.
Proof.
  intros H. destruct ams_broken as [s [mx [E1 [E2 E3]]]]. specialize (H (fun _ => h_ams) (fun _ => four) s_fresh 1%nat s mx O O eq_refl (fun _ => eq_refl) E1 E2). destruct (E3 O) as [A B]. lra.
Qed.

(** * Dense gradients *)
Lemma each_fine {G} (f : G -> G * status) gs : snd (each f gs) = Ok -> forall g, In g gs -> snd (f g) = Ok.
Proof.
  induction gs as [|g gs IH]; simpl; [tauto|]. intros H k [<-|K]; destruct (f g) as [g' s] eqn:F; destruct s; try (simpl in H; discriminate); [reflexivity|].
  destruct (each f gs) as [l s] eqn:E. apply IH; [exact H|exact K].
Qed.
Lemma sloop_fine {S} (f : sparam S -> sparam S * status) ps : snd (sloop f ps) = Ok -> forall p, In p ps -> snd (f p) = Ok.
Proof.
  induction ps as [|g gs IH]; simpl; [tauto|]. intros H k [<-|K]; destruct (f g) as [g' s] eqn:F; destruct s; try (simpl in H; discriminate); [reflexivity|].
  destruct (sloop f gs) as [l s] eqn:E. apply IH; [exact H|exact K].
Qed.
Lemma ssgd_dense o : snd (ssgd_step o) = Ok -> forall g p, In g o -> In p (s_params g) -> s_grad p <> SDense.
Proof.
  intros H g p G P D. pose proof (each_fine _ _ H g G) as E. unfold ssgd_step_group in E.
  assert (K : snd (sloop (ssgd_update (s_hyp g)) (s_params g)) = Ok).
  { destruct (sloop _ _) as [ps s]. destruct s; [reflexivity|..]; simpl in E; discriminate. }
  pose proof (sloop_fine _ _ K p P) as F. unfold ssgd_update in F. rewrite D in F. discriminate.
Qed.
Lemma sadam_dense o : snd (sadam_step o) = Ok -> forall g p, In g o -> In p (sa_params g) -> s_grad p <> SDense.
Proof.
  intros H g p G P D. pose proof (each_fine _ _ H g G) as E. unfold sadam_step_group in E.
  assert (K : snd (sloop (sadam_visit (sa_hyp g)) (sa_params g)) = Ok).
  { destruct (sloop _ _) as [ps s]. destruct s; [reflexivity|..]; simpl in E; discriminate. }
  pose proof (sloop_fine _ _ K p P) as F. unfold sadam_visit, sadam_update in F. rewrite D in F. discriminate.
Qed.
Lemma ssgd_first_dense g p ps o : s_params g = p :: ps -> s_grad p = SDense -> snd (ssgd_step (g :: o)) = RaisedRuntimeError.
Proof. intros E D. unfold ssgd_step. cbn [each]. unfold ssgd_step_group at 1. rewrite E. cbn [sloop]. unfold ssgd_update at 1. rewrite D. reflexivity. Qed.
Lemma sadam_first_dense g p ps o : sa_params g = p :: ps -> s_grad p = SDense -> snd (sadam_step (g :: o)) = RaisedRuntimeError.
Proof. intros E D. unfold sadam_step. cbn [each]. unfold sadam_step_group at 1. rewrite E. cbn [sloop]. unfold sadam_visit at 1, sadam_update at 1. rewrite D. reflexivity. Qed.
