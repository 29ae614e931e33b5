(** Invariants of the sparse optimizers along histories, and their stabilisation. *)
From Coq Require Import Reals List Bool Arith Lra Lia.
From Verif Require Import RVec OptimModel OptimSpec OptimProofs OptimProofs3 SparseModel SparseSpec SparseProofs.
Import ListNotations.
Local Open Scope R_scope.

Lemma sloop_ok {S} (f : sparam S -> sparam S * status) ps qs : sloop f ps = (qs, Ok) -> qs = map (fun p => fst (f p)) ps /\ Forall (fun p => snd (f p) = Ok) ps.
Proof.
  revert qs. induction ps as [|p ps IH]; cbn [sloop map]; intros qs E; [injection E as <-; split; [reflexivity|constructor]|].
  destruct (f p) as [q s] eqn:Ef. destruct s; try discriminate. destruct (sloop f ps) as [rs s] eqn:Er. injection E as <- ->.
  destruct (IH rs eq_refl) as [-> F]. split; [reflexivity|]. constructor; [rewrite Ef; reflexivity|exact F].
Qed.
Lemma sloop_total {S} (f : sparam S -> sparam S * status) ps : Forall (fun p => snd (f p) = Ok) ps -> sloop f ps = (map (fun p => fst (f p)) ps, Ok).
Proof. induction 1 as [|p ps E F IH]; [reflexivity|]. cbn [sloop map]. destruct (f p) as [q s]. cbn in E. subst s. rewrite IH. reflexivity. Qed.

(** * Histories *)
Lemma ssgd_group_rel g : s_hyp (fst (ssgd_step_group g)) = s_hyp g /\
  Forall2 (fun p q => q = p \/ q = fst (ssgd_update (s_hyp g) p) \/ q = ssgd_stabilize (s_hyp g) (fst (ssgd_update (s_hyp g) p)))
    (s_params g) (s_params (fst (ssgd_step_group g))).
Proof.
  unfold ssgd_step_group. pose proof (sloop_rel (ssgd_update (s_hyp g)) (s_params g)) as L.
  destruct (sloop (ssgd_update (s_hyp g)) (s_params g)) as [ps s] eqn:E. simpl in L.
  assert (W : Forall2 (fun p q => q = p \/ q = fst (ssgd_update (s_hyp g) p) \/ q = ssgd_stabilize (s_hyp g) (fst (ssgd_update (s_hyp g) p))) (s_params g) ps).
  { clear E. induction L as [|? ? ? ? [|]]; constructor; auto. }
  destruct s; try (split; [reflexivity|exact W]). apply sloop_ok in E. destruct E as [-> _].
  destruct (stabilize (s_hyp g)) as [[|N]|]; try (split; [reflexivity|exact W]).
  destruct (_ =? 0)%nat; [|split; [reflexivity|exact W]]. split; [reflexivity|]. simpl.
  clear. induction (s_params g); simpl; constructor; auto.
Qed.
Lemma ssgd_history_inv (new : ssgd_param -> Prop) (ok : list ssgd_group -> Prop) (J : ssgd_param -> Prop) :
  (forall p q, skept p q -> J p -> J q) ->
  (forall p, s_state p = None -> new p -> J p) ->
  (forall o g p, ok o -> In g o -> In p (s_params g) -> J p -> J (fst (ssgd_update (s_hyp g) p)) /\ J (ssgd_stabilize (s_hyp g) (fst (ssgd_update (s_hyp g) p)))) ->
  forall o o', ssgd_history new ok o o' -> ssgd_all (fun _ => J) o -> ssgd_all (fun _ => J) o'.
Proof.
  intros HK HN HS o o' H. induction H as [o|o o1 o2 H IH E|o o1 H IH O]; intros A; [exact A| |].
  - specialize (IH A). intros g p Ig Ip. destruct E as [om [added [-> [F1 F2]]]].
    apply in_app_or in Ig. destruct Ig as [Ig|Ig].
    + destruct (Forall2_in_r _ _ _ F1 g Ig) as [g0 [I0 [_ FP]]]. destruct (Forall2_in_r _ _ _ FP p Ip) as [p0 [Ip0 K]].
      apply (HK p0 p K). exact (IH g0 p0 I0 Ip0).
    + rewrite Forall_forall in F2. destruct (F2 g Ig) as [_ F]. rewrite Forall_forall in F. destruct (F p Ip). auto.
  - specialize (IH A). intros g p Ig Ip. destruct (Forall2_in_r _ _ _ (each_rel ssgd_step_group o1) g Ig) as [g0 [I0 [->| ->]]]; [|exact (IH g0 p I0 Ip)].
    destruct (ssgd_group_rel g0) as [_ F]. destruct (Forall2_in_r _ _ _ F p Ip) as [p0 [Ip0 [->|[->| ->]]]]; [exact (IH g0 p0 I0 Ip0)| |]; apply (HS o1 g0 p0 O I0 Ip0 (IH g0 p0 I0 Ip0)).
Qed.
Lemma sadam_group_rel g : sa_hyp (fst (sadam_step_group g)) = sa_hyp g /\
  Forall2 (fun p q => q = p \/ q = fst (sadam_update (sa_hyp g) p) \/ q = sadam_stabilize (fst (sadam_update (sa_hyp g) p)))
    (sa_params g) (sa_params (fst (sadam_step_group g))).
Proof.
  unfold sadam_step_group. pose proof (sloop_rel (sadam_visit (sa_hyp g)) (sa_params g)) as L.
  destruct (sloop (sadam_visit (sa_hyp g)) (sa_params g)) as [ps s] eqn:E. simpl in L.
  assert (W : Forall2 (fun p q => q = p \/ q = fst (sadam_update (sa_hyp g) p) \/ q = sadam_stabilize (fst (sadam_update (sa_hyp g) p))) (sa_params g) ps).
  { clear E. induction L as [|p q ? ? [Hq|Hq]]; constructor; auto. rewrite svisit_update in Hq. auto. }
  destruct s; try (split; [reflexivity|exact W]). apply sloop_ok in E. destruct E as [-> _].
  destruct (a_stabilize (sa_hyp g)) as [N|]; try (split; [reflexivity|exact W]).
  destruct (existsb _ _); [|split; [reflexivity|exact W]]. split; [reflexivity|]. simpl. clear. rewrite map_map.
  induction (sa_params g); simpl; constructor; auto. rewrite svisit_update. auto.
Qed.
Lemma sadam_history_inv (new : sadam_param -> Prop) (ok : list sadam_group -> Prop) (J : sadam_param -> Prop) :
  (forall p q, skept p q -> J p -> J q) ->
  (forall p, s_state p = None -> new p -> J p) ->
  (forall o g p, ok o -> In g o -> In p (sa_params g) -> J p -> J (fst (sadam_update (sa_hyp g) p)) /\ J (sadam_stabilize (fst (sadam_update (sa_hyp g) p)))) ->
  forall o o', sadam_history new ok o o' -> sadam_all (fun _ => J) o -> sadam_all (fun _ => J) o'.
Proof.
  intros HK HN HS o o' H. induction H as [o|o o1 o2 H IH E|o o1 H IH O]; intros A; [exact A| |].
  - specialize (IH A). intros g p Ig Ip. destruct E as [om [added [-> [F1 F2]]]].
    apply in_app_or in Ig. destruct Ig as [Ig|Ig].
    + destruct (Forall2_in_r _ _ _ F1 g Ig) as [g0 [I0 FP]]. destruct (Forall2_in_r _ _ _ FP p Ip) as [p0 [Ip0 K]].
      apply (HK p0 p K). exact (IH g0 p0 I0 Ip0).
    + rewrite Forall_forall in F2. pose proof (F2 g Ig) as F. rewrite Forall_forall in F. destruct (F p Ip). auto.
  - specialize (IH A). intros g p Ig Ip. destruct (Forall2_in_r _ _ _ (each_rel sadam_step_group o1) g Ig) as [g0 [I0 [->| ->]]]; [|exact (IH g0 p I0 Ip)].
    destruct (sadam_group_rel g0) as [_ F]. destruct (Forall2_in_r _ _ _ F p Ip) as [p0 [Ip0 [->|[->| ->]]]]; [exact (IH g0 p0 I0 Ip0)| |]; apply (HS o1 g0 p0 O I0 Ip0 (IH g0 p0 I0 Ip0)).
Qed.

Lemma sman_update h p : s_man (fst (ssgd_update h p)) = s_man p.
Proof. unfold ssgd_update. destruct (s_grad p); try reflexivity. destruct (has_momentum h); reflexivity. Qed.
Lemma smanifold_update h p : s_manifold (fst (ssgd_update h p)) = s_manifold p.
Proof. unfold s_manifold. rewrite sman_update. reflexivity. Qed.
Lemma sman_stab h p : s_man (ssgd_stabilize h p) = s_man p.
Proof. unfold ssgd_stabilize. destruct (s_man p) eqn:E; [reflexivity|exact E]. Qed.
Lemma sman_adam h p : s_man (fst (sadam_update h p)) = s_man p.
Proof. unfold sadam_update. destruct (s_grad p); try reflexivity. destruct (amsgrad h); [|reflexivity]. destruct (s_max _); reflexivity. Qed.
Lemma sman_astab p : s_man (sadam_stabilize p) = s_man p.
Proof. unfold sadam_stabilize. destruct (s_man p) eqn:E; [|exact E]. destruct (s_state p); [reflexivity|exact E]. Qed.
Lemma skept_manifold {S} (p q : sparam S) : skept p q -> s_manifold p = s_manifold q.
Proof. intros [E _]. unfold s_manifold. rewrite E. reflexivity. Qed.

Section Laws.
  Variables (on : manifold -> vec -> Prop) (tan : manifold -> vec -> vec -> Prop).
  Notation slaw p := (lawful (s_manifold p) (on (s_manifold p)) (tan (s_manifold p))).
  Definition srows_tan (p : ssgd_param) : Prop := forall b, s_state p = Some b -> forall r, tan (s_manifold p) (s_val p r) (b r).
  Definition sfirst_ok (h : sgd_hyper) (p : ssgd_param) : Prop :=
    forall e r, s_grad p = SSparse e -> named e r -> has_momentum h = true -> s_state p = None -> tan (s_manifold p) (s_val p r) (dense_row e r).
  Definition sstays_on (h : sgd_hyper) (p : ssgd_param) : Prop := s_state p <> None -> has_momentum h = true.

  Lemma tan_zero M x : lawful M (on M) (tan M) -> on M x -> tan M x vzero.
  Proof. intros L X. replace vzero with (smul 0 (egrad2rgrad M x vzero)) by (apply vec_ext; intros; unfold smul, vzero; ring). apply (tan_scale _ _ _ L), (grad_tan _ _ _ L), X. Qed.
  Lemma row_good p r : good on tan (sgd_row r p) <-> on (s_manifold p) (s_val p r) /\ forall b, s_state p = Some b -> tan (s_manifold p) (s_val p r) (b r).
  Proof.
    unfold good. change (manifold_of (sgd_row r p)) with (s_manifold p). cbn [sgd_row val state]. unfold row_of. split; intros [A B]; (split; [exact A|]).
    - intros b E. apply B. rewrite E. reflexivity.
    - intros b E. destruct (s_state p) as [c|] eqn:Es; [|discriminate]. injection E as <-. apply B. reflexivity.
  Qed.
  Lemma supdate_good h p : slaw p -> sfirst_ok h p -> sstays_on h p -> rows_on on p -> srows_tan p ->
    rows_on on (fst (ssgd_update h p)) /\ srows_tan (fst (ssgd_update h p)).
  Proof.
    intros L F ST X B.
    assert (Main : forall r, good on tan (sgd_row r (fst (ssgd_update h p)))).
    { intros r. destruct (s_grad p) as [| |e] eqn:Eg.
      - unfold ssgd_update. rewrite Eg. apply row_good. split; [apply X|]. intros b E. apply (B b E).
      - unfold ssgd_update. rewrite Eg. apply row_good. split; [apply X|]. intros b E. apply (B b E).
      - destruct (named_dec e r) as [N|N].
        + rewrite (ssgd_in h p r e Eg N).
          assert (G : good on tan (as_dense r e (sgd_row r p))) by (apply row_good; split; [apply X|intros b E; apply (B b E)]).
          assert (U : good on tan (fst (sgd_update (no_decay h) (as_dense r e (sgd_row r p))))).
          { apply update_good; [exact L| | |exact G].
            - intros g Eg' H E. unfold as_dense in Eg'. cbn [grad] in Eg'. injection Eg' as <-. change (has_momentum (no_decay h)) with (has_momentum h) in H. unfold manifold_of. cbn [as_dense sgd_row man val] in *. apply (F e r Eg N H).
              change (row_of r (s_state p) = None) in E. unfold row_of in E. destruct (s_state p); [discriminate|reflexivity].
            - intros E. change (has_momentum (no_decay h)) with (has_momentum h). apply ST. change (row_of r (s_state p) <> None) in E. unfold row_of in E. destruct (s_state p); [discriminate|contradiction E; reflexivity]. }
          exact U.
        + destruct (ssgd_out h p r e Eg N) as [V S]. unfold good. change (manifold_of (sgd_row r (fst (ssgd_update h p)))) with (s_manifold (fst (ssgd_update h p))).
          rewrite smanifold_update. cbn [sgd_row val state]. rewrite V, S. split; [apply X|]. intros b. destruct (has_momentum h).
          * intros [= <-]. destruct (s_state p) as [c|] eqn:Es; [apply (B c Es)|apply tan_zero; [exact L|apply X]].
          * unfold row_of. destruct (s_state p) as [c|] eqn:Es; [|discriminate]. intros [= <-]. apply (B c Es). }
    split; [intros r; apply (proj1 (proj1 (row_good _ _) (Main r)))|]. intros b E r. apply (proj2 (proj1 (row_good _ _) (Main r)) b E).
  Qed.
  Lemma sstab_good h p : slaw p -> sstays_on h p -> rows_on on p -> srows_tan p -> rows_on on (ssgd_stabilize h p) /\ srows_tan (ssgd_stabilize h p).
  Proof.
    intros L ST X B. unfold rows_on, srows_tan, s_manifold in *. rewrite sman_stab. unfold ssgd_stabilize. destruct (s_man p) as [M|] eqn:E; [|split; auto].
    cbn [s_val s_state]. split; [intros r; apply (projx_on _ _ _ L), X|]. intros b. destruct (has_momentum h) eqn:H.
    - destruct (s_state p) as [c|]; [|discriminate]. intros [= <-] r. apply (proju_tan _ _ _ L), (projx_on _ _ _ L), X.
    - intros Es. exfalso. unfold sstays_on in ST. rewrite Es, H in ST. assert (false = true) by (apply ST; discriminate). discriminate.
  Qed.
  Lemma sstays_update h p : sstays_on h p -> sstays_on h (fst (ssgd_update h p)).
  Proof. intros ST. unfold sstays_on, ssgd_update in *. destruct (s_grad p); auto. destruct (has_momentum h) eqn:H; [|exact ST]. intros _. reflexivity. Qed.

  Lemma ssgd_good o o' :
    ssgd_history (fun p => slaw p /\ rows_on on p) (ssgd_all (fun h p => sfirst_ok h p /\ sstays_on h p)) o o' ->
    ssgd_all (fun _ p => slaw p /\ rows_on on p /\ srows_tan p) o -> ssgd_all (fun _ p => slaw p /\ rows_on on p /\ srows_tan p) o'.
  Proof.
    apply (ssgd_history_inv _ _ (fun p => slaw p /\ rows_on on p /\ srows_tan p)).
    - intros p q K [L [X B]]. unfold rows_on, srows_tan in *. rewrite <- (skept_manifold p q K). destruct K as [_ [V S]]. rewrite <- V, <- S. auto.
    - intros p F [L X]. split; [exact L|]. split; [exact X|]. intros b E. rewrite F in E. discriminate.
    - intros o1 g p O Ig Ip [L [X B]]. destruct (O g p Ig Ip) as [F ST].
      assert (L' : slaw (fst (ssgd_update (s_hyp g) p))) by (rewrite smanifold_update; exact L).
      destruct (supdate_good (s_hyp g) p L F ST X B) as [X' B']. split; [split; auto|].
      split; [unfold s_manifold; rewrite sman_stab; exact L'|]. apply sstab_good; auto. apply sstays_update, ST.
  Qed.
  Lemma ssgd_plain o o' :
    ssgd_history (fun p => slaw p /\ rows_on on p) (ssgd_all (fun h _ => momentum h <= 0)) o o' ->
    ssgd_all (fun _ p => (slaw p /\ rows_on on p) /\ s_state p = None) o -> ssgd_all (fun _ p => (slaw p /\ rows_on on p) /\ s_state p = None) o'.
  Proof.
    apply (ssgd_history_inv _ _ (fun p => (slaw p /\ rows_on on p) /\ s_state p = None)).
    - intros p q K [[L X] F]. unfold rows_on in *. rewrite <- (skept_manifold p q K). destruct K as [_ [V S]]. rewrite <- V, <- S. auto.
    - auto.
    - intros o1 g p O Ig Ip [[L X] F]. specialize (O g p Ig Ip). cbv beta in O.
      assert (H : has_momentum (s_hyp g) = false) by (unfold has_momentum; destruct (Rlt_dec 0 (momentum (s_hyp g))); [lra|reflexivity]).
      assert (B : srows_tan p) by (intros b E; rewrite F in E; discriminate).
      assert (FO : sfirst_ok (s_hyp g) p) by (intros ? ? ? ? H'; congruence).
      assert (ST : sstays_on (s_hyp g) p) by (intros N; contradiction N; exact F).
      assert (L' : slaw (fst (ssgd_update (s_hyp g) p))) by (rewrite smanifold_update; exact L).
      assert (F' : s_state (fst (ssgd_update (s_hyp g) p)) = None) by (unfold ssgd_update; destruct (s_grad p); auto; rewrite H; exact F).
      destruct (supdate_good (s_hyp g) p L FO ST X B) as [X' B'].
      destruct (sstab_good (s_hyp g) _ L' (sstays_update _ _ ST) X' B') as [X2 _].
      split; [auto|]. split; [split; [unfold s_manifold; rewrite sman_stab; exact L'|exact X2]|].
      unfold ssgd_stabilize. destruct (s_man _); [|exact F']. cbn [s_state]. rewrite H. exact F'.
  Qed.
  Notation sany p := (absorbing (s_manifold p) (on (s_manifold p)) /\ rows_on on p).
  Lemma ssgd_absorbing o o' :
    ssgd_history (fun p => sany p) (fun _ => True) o o' -> ssgd_all (fun _ p => sany p) o -> ssgd_all (fun _ p => sany p) o'.
  Proof.
    apply (ssgd_history_inv _ _ (fun p => sany p)).
    - intros p q K [L X]. unfold rows_on in *. rewrite <- (skept_manifold p q K). destruct K as [_ [V S]]. rewrite <- V. auto.
    - auto.
    - intros o1 g p _ Ig Ip [L X]. set (h := s_hyp g).
      assert (W : sany (fst (ssgd_update h p))).
      { unfold rows_on. rewrite smanifold_update. split; [exact L|]. intros r. unfold ssgd_update. destruct (s_grad p) as [| |e]; [apply X|apply X|].
        destruct (has_momentum h); cbn [fst s_val]; unfold put; destruct (in_dec _ _ _); try apply X; [apply (any_rt _ _ L)|apply (any_retr _ _ L)]; apply X. }
      split; [exact W|]. destruct W as [LW XW]. unfold rows_on, s_manifold in *. rewrite sman_stab. split; [exact LW|].
      intros r. unfold ssgd_stabilize. destruct (s_man (fst (ssgd_update h p))); [|apply XW]. apply (any_projx _ _ LW), XW.
  Qed.
  Lemma sadam_absorbing o o' :
    sadam_history (fun p => sany p) (fun _ => True) o o' -> sadam_all (fun _ p => sany p) o -> sadam_all (fun _ p => sany p) o'.
  Proof.
    apply (sadam_history_inv _ _ (fun p => sany p)).
    - intros p q K [L X]. unfold rows_on in *. rewrite <- (skept_manifold p q K). destruct K as [_ [V S]]. rewrite <- V. auto.
    - auto.
    - intros o1 g p _ Ig Ip [L X]. set (h := sa_hyp g).
      assert (W : sany (fst (sadam_update h p))).
      { unfold rows_on, s_manifold in *. rewrite sman_adam. split; [exact L|]. intros r. unfold sadam_update. destruct (s_grad p) as [| |e]; [apply X|apply X|].
        destruct (amsgrad h); [destruct (s_max _); [|apply X]|]; cbn [fst s_val]; unfold put; destruct (in_dec _ _ _); try apply X; apply (any_rt _ _ L), X. }
      split; [exact W|]. destruct W as [LW XW]. unfold rows_on, s_manifold in *. rewrite sman_astab. split; [exact LW|].
      intros r. unfold sadam_stabilize. destruct (s_man (fst (sadam_update h p))); [|apply XW]. destruct (s_state _); [|apply XW]. apply (any_projx _ _ LW), XW.
  Qed.

  (** * Adam on lawful manifolds *)
  Variable blk : manifold -> nat -> nat -> Prop.
  Notation alaw p := (slaw p /\ blocked (s_manifold p) (on (s_manifold p)) (tan (s_manifold p)) (blk (s_manifold p))).
  Definition smoments (M : manifold) (x : matrix) (s : sadam_state) : Prop := forall r,
    tan M (x r) (s_avg s r) /\ (forall i, 0 <= s_sq s r i) /\ (forall i j, blk M i j -> s_sq s r i = s_sq s r j) /\
    (forall mx, s_max s = Some mx -> (forall i, 0 <= mx r i) /\ (forall i j, blk M i j -> mx r i = mx r j)).
  Definition agood (p : sadam_param) : Prop := rows_on on p /\ forall s, s_state p = Some s -> smoments (s_manifold p) (s_val p) s.

  Lemma init_ok h p : slaw p -> agood p -> smoments (s_manifold p) (s_val p) (sadam_init h (s_state p)).
  Proof.
    intros L [X S]. destruct (s_state p) as [s|]; [apply S; reflexivity|]. intros r. cbn [sadam_init s_avg s_sq s_max]. unfold mzero. split; [apply tan_zero; [exact L|apply X]|].
    split; [intros; unfold vzero; lra|]. split; [reflexivity|]. intros mx. destruct (amsgrad h); [|discriminate]. intros [= <-]. split; [intros; unfold vzero; lra|reflexivity].
  Qed.
  (** the direction: the first moment scaled block by block *)
  Lemma sdirection M x m (root : vec) bc l e : lawful M (on M) (tan M) -> blocked M (on M) (tan M) (blk M) -> tan M x m ->
    (forall i j, blk M i j -> root i = root j) -> tan M x (smul l (vdivv (vdiv m bc) (vadd root (vconst e)))).
  Proof.
    intros L B T R. replace (smul l (vdivv (vdiv m bc) (vadd root (vconst e)))) with (vmul (fun i => l / bc / (root i + e)) m).
    - apply (tan_blk _ _ _ _ B); [exact T|]. intros i j Hij. rewrite (R i j Hij). reflexivity.
    - apply vec_ext. intros i. unfold vmul, smul, vdivv, vdiv, vadd, vconst, Rdiv. ring.
  Qed.
  Lemma aupdate_good h p : valid_hyper h -> alaw p -> agood p -> agood (fst (sadam_update h p)).
  Proof.
    intros V [L B] G. pose proof (init_ok h p L G) as I. destruct G as [X HS]. unfold agood, rows_on, s_manifold in *. rewrite sman_adam.
    unfold sadam_update. destruct (s_grad p) as [| |e]; [split; auto|split; auto|]. unfold s_manifold. set (M := match s_man p with Some M => M | None => euclidean end) in *.
    set (s := sadam_init h (s_state p)) in *.
    set (rg := fun i => egrad2rgrad M (s_val p i) (dense_row e i)).
    set (m := fun i => vadd (smul (beta1 h) (s_avg s i)) (smul (1 - beta1 h) (rg i))).
    set (v := fun i => vadd (smul (beta2 h) (s_sq s i)) (smul (1 - beta2 h) (component_inner M (s_val p i) (rg i)))).
    assert (RT : forall r, tan M (s_val p r) (rg r)) by (intros r; apply (grad_tan _ _ _ L), X).
    assert (MT : forall r, tan M (s_val p r) (m r)) by (intros r; apply (tan_add _ _ _ L); apply (tan_scale _ _ _ L); [apply I|apply RT]).
    destruct V as [B1 [B2 E0]].
    assert (V0 : forall r i, 0 <= v r i) by (intros r i; unfold v, vadd, smul; pose proof (proj1 (proj2 (I r)) i); pose proof (ci_nonneg _ _ _ _ B _ _ i (X r) (RT r)); nra).
    assert (VB : forall r i j, blk M i j -> v r i = v r j) by (intros r i j H; unfold v, vadd, smul; rewrite (proj1 (proj2 (proj2 (I r))) i j H), (ci_blk _ _ _ _ B _ _ i j (X r) (RT r) H); reflexivity).
    assert (PB : forall bc i j (w : vec), w i = w j -> vsqrt (vdiv w bc) i = vsqrt (vdiv w bc) j) by (intros bc i j w E; unfold vsqrt, vdiv; rewrite E; reflexivity).
    assert (KeyF : forall mx (root : matrix), (forall r i j, blk M i j -> root r i = root r j) ->
       (forall q, mx = Some q -> forall r, (forall i, 0 <= q r i) /\ (forall i j, blk M i j -> q r i = q r j)) ->
       let d := fun i => vdivv (vdiv (m i) (1 - beta1 h ^ S (s_count s))) (vadd (root i) (vconst (eps h))) in
       let new := fun i => retr_transp M (s_val p i) (smul (- a_lr h) (d i)) (m i) in
       (forall r, on M (put (rows_of e) (s_val p) (fun i => fst (new i)) r)) /\
       smoments M (put (rows_of e) (s_val p) (fun i => fst (new i)))
         {| s_count := S (s_count s); s_avg := put (rows_of e) (s_avg s) (fun i => snd (new i)); s_sq := put (rows_of e) (s_sq s) v; s_max := mx |}).
    { intros mx root RB MX d new.
      assert (DT : forall r, tan M (s_val p r) (smul (- a_lr h) (d r))) by (intros r; apply sdirection; auto).
      split.
      - intros r. unfold put. destruct (in_dec _ _ _); [|apply X]. apply (rt_on _ _ _ L); auto.
      - intros r. cbn [s_avg s_sq s_max]. unfold put. destruct (in_dec _ r _).
        + split; [apply (rt_tan _ _ _ L); auto|]. split; [apply V0|]. split; [apply VB|]. intros q Eq. apply (MX q Eq r).
        + destruct (I r) as [I1 [I2 [I3 _]]]. split; [exact I1|]. split; [exact I2|]. split; [exact I3|]. intros q Eq. apply (MX q Eq r). }
    destruct (amsgrad h).
    - destruct (s_max s) as [mx|] eqn:Em.
      + set (root := fun i => vsqrt (vdiv (vmax (mx i) (v i)) (1 - beta2 h ^ S (s_count s)))).
        assert (MXB : forall r i j, blk M i j -> root r i = root r j).
        { intros r i j H. unfold root. apply PB. unfold vmax. rewrite (VB r i j H). rewrite (proj2 (proj2 (proj2 (proj2 (I r))) mx Em) i j H). reflexivity. }
        destruct (KeyF (Some (put (rows_of e) mx root)) root MXB) as [K1 K2].
        { intros q [= <-] r. unfold put. destruct (in_dec _ _ _) as [IN|]; [|apply (proj2 (proj2 (proj2 (I r))) mx Em)]. split; [|apply MXB]. intros i. unfold root, vsqrt. apply sqrt_pos. }
        cbn [fst s_val s_state]. split; [exact K1|]. intros s' [= <-]. exact K2.
      + cbn [fst s_val s_state]. split; [exact X|]. intros s' [= <-]. intros r. destruct (I r) as [I1 [I2 [I3 _]]]. cbn [s_avg s_sq s_max]. repeat split; auto; discriminate.
    - destruct (KeyF (s_max s) (fun i => vsqrt (vdiv (v i) (1 - beta2 h ^ S (s_count s))))) as [K1 K2].
      { intros r i j H. apply PB, VB, H. }
      { intros q Eq r. apply (proj2 (proj2 (proj2 (I r))) q Eq). }
      cbn [fst s_val s_state]. split; [exact K1|]. intros s' [= <-]. exact K2.
  Qed.
  Lemma astab_good p : slaw p -> agood p -> agood (sadam_stabilize p).
  Proof.
    intros L [X S]. unfold agood, rows_on, s_manifold in *. rewrite sman_astab. unfold sadam_stabilize. destruct (s_man p) as [M|] eqn:E; [|split; auto].
    destruct (s_state p) as [s|] eqn:Es; [|split; [exact X|intros s' E'; rewrite Es in E'; discriminate]].
    cbn [s_val s_state]. split; [intros r; apply (projx_on _ _ _ L), X|]. intros s' [= <-] r. destruct (S s eq_refl r) as [_ R]. cbn [s_avg s_sq s_max].
    split; [apply (proju_tan _ _ _ L), (projx_on _ _ _ L), X|exact R].
  Qed.
  Lemma sadam_good o o' :
    sadam_history (fun p => alaw p /\ rows_on on p) (sadam_all (fun h _ => valid_hyper h)) o o' ->
    sadam_all (fun _ p => alaw p /\ agood p) o -> sadam_all (fun _ p => alaw p /\ agood p) o'.
  Proof.
    apply (sadam_history_inv _ _ (fun p => alaw p /\ agood p)).
    - intros p q K [L [X S]]. unfold agood, rows_on in *. rewrite <- (skept_manifold p q K). destruct K as [_ [V ES]]. rewrite <- V, <- ES. auto.
    - intros p F [L X]. split; [exact L|]. split; [exact X|]. intros s E. rewrite F in E. discriminate.
    - intros o1 g p O Ig Ip [L G]. specialize (O g p Ig Ip). cbv beta in O. pose proof (aupdate_good (sa_hyp g) p O L G) as G'.
      assert (L' : alaw (fst (sadam_update (sa_hyp g) p))) by (unfold s_manifold in *; rewrite sman_adam; exact L).
      split; [split; auto|]. split; [unfold s_manifold in *; rewrite sman_astab; exact L'|]. apply astab_good; [apply L'|exact G'].
  Qed.
  Lemma sadam_from_fresh o o' :
    sadam_history (fun p => alaw p /\ rows_on on p) (sadam_all (fun h _ => 0 <= beta1 h < 1 /\ 0 <= beta2 h < 1 /\ 0 < eps h)) o o' ->
    sadam_all (fun _ p => alaw p /\ rows_on on p /\ s_state p = None) o ->
    sadam_all (fun _ p => rows_on on p /\ forall s, s_state p = Some s -> forall r,
      tan (s_manifold p) (s_val p r) (s_avg s r) /\ (forall i, 0 <= s_sq s r i) /\ (forall mx, s_max s = Some mx -> forall i, 0 <= mx r i)) o'.
  Proof.
    intros H A g p Ig Ip. destruct (sadam_good o o' H) with (g := g) (p := p) as [_ [X S]]; auto.
    - intros g0 p0 I0 J0. destruct (A g0 p0 I0 J0) as [L [X F]]. split; [exact L|]. split; [exact X|]. intros s E. rewrite F in E. discriminate.
    - split; [exact X|]. intros s E r. destruct (S s E r) as [S1 [S2 [_ S4]]]. split; [exact S1|]. split; [exact S2|]. intros mx Em. apply (S4 mx Em).
  Qed.
End Laws.

(** * Stabilisation *)
Lemma sgroup_ok g : Forall (fun p => s_grad p <> SDense) (s_params g) ->
  sloop (ssgd_update (s_hyp g)) (s_params g) = (map (fun p => fst (ssgd_update (s_hyp g) p)) (s_params g), Ok).
Proof.
  intros F. apply sloop_total. rewrite Forall_forall in *. intros p I. specialize (F p I). unfold ssgd_update. destruct (s_grad p); [reflexivity|congruence|]. destruct (has_momentum (s_hyp g)); reflexivity.
Qed.
Lemma sgroup_count g : s_steps (fst (ssgd_step_group g)) = Some (S (ssgd_count g)).
Proof.
  unfold ssgd_step_group, ssgd_count. destruct (sloop _ _) as [ps s]. destruct s; try reflexivity. destruct (stabilize (s_hyp g)) as [[|N]|]; try reflexivity. destruct (_ =? 0)%nat; reflexivity.
Qed.
Lemma srun_count edit g : (forall t g, s_steps (edit t g) = s_steps g) -> s_steps g = None -> forall t, ssgd_count (sgroup_run edit g t) = t.
Proof.
  intros E Z. induction t as [|t IH]; [unfold ssgd_count; simpl; rewrite Z; reflexivity|]. cbn [sgroup_run]. unfold ssgd_count at 1. rewrite sgroup_count.
  unfold ssgd_count in *. rewrite E. rewrite IH. reflexivity.
Qed.
Lemma srun_period edit g t N : (forall t g, s_steps (edit t g) = s_steps g) -> s_steps g = None ->
  let cur := edit t (sgroup_run edit g t) in Forall (fun p => s_grad p <> SDense) (s_params cur) -> stabilize (s_hyp cur) = Some (S N) ->
  s_params (sgroup_run edit g (S t)) =
    map (fun p => let q := fst (ssgd_update (s_hyp cur) p) in if (S t mod S N =? 0)%nat then ssgd_stabilize (s_hyp cur) q else q) (s_params cur).
Proof.
  intros E Z cur F St. cbn [sgroup_run]. fold cur. unfold ssgd_step_group. rewrite (sgroup_ok cur F), St.
  assert (C : ssgd_count cur = t) by (unfold cur, ssgd_count; rewrite E; apply (srun_count edit g E Z)). unfold ssgd_count in C.
  rewrite C. destruct (S t mod S N =? 0); [cbn [fst s_params]; rewrite map_map|]; reflexivity.
Qed.
Lemma sstabilized h p M : s_man p = Some M -> forall r, s_val (ssgd_stabilize h p) r = projx M (s_val p r) /\
  forall b, has_momentum h = true -> s_state p = Some b -> row_of r (s_state (ssgd_stabilize h p)) = Some (proju M (projx M (s_val p r)) (b r)).
Proof. intros E r. unfold ssgd_stabilize. rewrite E. split; [reflexivity|]. intros b H Es. cbn [s_state]. rewrite H, Es. reflexivity. Qed.
Lemma sastabilized p M s : s_man p = Some M -> s_state p = Some s -> forall r, s_val (sadam_stabilize p) r = projx M (s_val p r) /\
  row_moments r (s_state (sadam_stabilize p)) = Some (proju M (projx M (s_val p r)) (s_avg s r), s_sq s r, option_map (fun m => m r) (s_max s)).
Proof. intros E Es r. unfold sadam_stabilize. rewrite E, Es. split; reflexivity. Qed.
Lemma splain_untouched h p : s_man p = None -> ssgd_stabilize h p = p.
Proof. intros E. unfold ssgd_stabilize. rewrite E. reflexivity. Qed.
Lemma sadam_stab_exact g ps N : a_stabilize (sa_hyp g) = Some (S N) -> sloop (sadam_visit (sa_hyp g)) (sa_params g) = (ps, Ok) ->
  sadam_step_group g = ({| sa_hyp := sa_hyp g; sa_params := map (fun p =>
    if existsb (fun q => match s_grad q, s_state q with SSparse _, Some s => s_count s mod S N =? 0 | _, _ => false end)%nat ps
    then sadam_stabilize p else p) ps |}, Ok).
Proof.
  intros E L. unfold sadam_step_group. rewrite L, E. set (b := existsb (sasks (S N)) ps). match goal with |- _ = ({| sa_hyp := _; sa_params := map (fun p => if ?c then _ else _) _ |}, _) => change c with b end.
  destruct b; [reflexivity|]. rewrite map_id. reflexivity.
Qed.
