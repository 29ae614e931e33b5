(** Lemmas for RiemannianAdam. *)
From Coq Require Import Reals List Bool Arith Lra Lia.
From Verif Require Import RVec OptimModel OptimSpec OptimProofs.
Import ListNotations.
Local Open Scope R_scope.

Definition valid_hyper (h : adam_hyper) : Prop := 0 <= beta1 h < 1 /\ 0 <= beta2 h < 1 /\ 0 < eps h.

Lemma pow_range b n : 0 <= b < 1 -> 0 < bias_correction b (S n) <= 1.
Proof.
  intros B. unfold bias_correction. assert (0 <= b ^ S n) by (apply pow_le; lra).
  assert (b ^ S n < 1). { clear H. induction n as [|n IH]; [simpl; lra|]. change (b ^ S (S n)) with (b * b ^ S n). assert (0 <= b ^ S n) by (apply pow_le; lra). nra. }
  lra.
Qed.
Lemma visit_update h p : fst (adam_visit h p) = fst (adam_update h p).
Proof.
  unfold adam_visit. destruct (adam_update h p) as [q s]. destruct s; try reflexivity. destruct (a_stabilize h) as [[|]|]; try reflexivity. destruct (grad q); reflexivity.
Qed.
Lemma adam_group_rel g : a_hyp (fst (adam_step_group g)) = a_hyp g /\
  Forall2 (fun p q => q = p \/ q = fst (adam_update (a_hyp g) p) \/ q = adam_stabilize (fst (adam_update (a_hyp g) p)))
    (a_params g) (a_params (fst (adam_step_group g))).
Proof.
  unfold adam_step_group. pose proof (loop_rel (adam_visit (a_hyp g)) (a_params g)) as L.
  destruct (loop (adam_visit (a_hyp g)) (a_params g)) as [ps s] eqn:E. simpl in L.
  assert (W : Forall2 (fun p q => q = p \/ q = fst (adam_update (a_hyp g) p) \/ q = adam_stabilize (fst (adam_update (a_hyp g) p))) (a_params g) ps).
  { clear E. induction L as [|p q ? ? [Hq|Hq]]; constructor; auto. rewrite visit_update in Hq. auto. }
  destruct s; try (split; [reflexivity|exact W]). apply loop_ok in E. destruct E as [-> _].
  destruct (a_stabilize (a_hyp g)) as [N|]; try (split; [reflexivity|exact W]).
  destruct (existsb _ _); [|split; [reflexivity|exact W]]. split; [reflexivity|]. simpl. clear. rewrite map_map.
  induction (a_params g); simpl; constructor; auto. rewrite visit_update. auto.
Qed.
Lemma adam_history_inv (new : adam_param -> Prop) (ok : list adam_group -> Prop) (J : adam_param -> Prop) :
  (forall p q, kept p q -> J p -> J q) ->
  (forall p, fresh p -> new p -> J p) ->
  (forall o g p, ok o -> In g o -> In p (a_params g) -> J p -> J (fst (adam_update (a_hyp g) p)) /\ J (adam_stabilize (fst (adam_update (a_hyp g) p)))) ->
  forall o o', adam_history new ok o o' -> adam_all (fun _ => J) o -> adam_all (fun _ => J) o'.
Proof.
  intros HK HN HS o o' H. induction H as [o|o o1 o2 H IH E|o o1 H IH O]; intros A; [exact A| |].
  - specialize (IH A). intros g p Ig Ip. destruct E as [om [added [-> [F1 F2]]]].
    apply in_app_or in Ig. destruct Ig as [Ig|Ig].
    + destruct (Forall2_in_r _ _ _ F1 g Ig) as [g0 [I0 FP]]. destruct (Forall2_in_r _ _ _ FP p Ip) as [p0 [Ip0 K]].
      apply (HK p0 p K). exact (IH g0 p0 I0 Ip0).
    + rewrite Forall_forall in F2. pose proof (F2 g Ig) as F. rewrite Forall_forall in F. destruct (F p Ip). auto.
  - specialize (IH A). intros g p Ig Ip. destruct (Forall2_in_r _ _ _ (each_rel adam_step_group o1) g Ig) as [g0 [I0 [->| ->]]]; [|exact (IH g0 p I0 Ip)].
    destruct (adam_group_rel g0) as [_ F]. destruct (Forall2_in_r _ _ _ F p Ip) as [p0 [Ip0 [->|[->| ->]]]]; [exact (IH g0 p0 I0 Ip0)| |]; apply (HS o1 g0 p0 O I0 Ip0 (IH g0 p0 I0 Ip0)).
Qed.
Lemma man_adam h p : man (fst (adam_update h p)) = man p.
Proof.
  unfold adam_update. destruct (grad p); try reflexivity. destruct (amsgrad h).
  - destruct (max_exp_avg_sq _); [|reflexivity]. destruct (retr_transp _ _ _ _). reflexivity.
  - destruct (retr_transp _ _ _ _). reflexivity.
Qed.
Lemma manifold_of_adam h p : manifold_of (fst (adam_update h p)) = manifold_of p.
Proof. unfold manifold_of. rewrite man_adam. reflexivity. Qed.
Lemma man_adam_stab p : man (adam_stabilize p) = man p.
Proof. unfold adam_stabilize. destruct (man p) eqn:E; [|exact E]. destruct (state p); [reflexivity|exact E]. Qed.

(** What the moments of a state satisfy. *)
Definition moments_ok (blk : nat -> nat -> Prop) (s : adam_state) : Prop :=
  (forall i, 0 <= exp_avg_sq s i) /\ (forall i j, blk i j -> exp_avg_sq s i = exp_avg_sq s j) /\
  (forall mx, max_exp_avg_sq s = Some mx -> (forall i, 0 <= mx i) /\ (forall i j, blk i j -> mx i = mx j)).
Lemma denominator_pos h n v i : valid_hyper h -> (forall i, 0 <= v i) -> eps h <= denominator h (S n) v i.
Proof. intros _ V. unfold denominator, vadd, vsqrt, vconst. pose proof (sqrt_pos (vdiv v (bias_correction (beta2 h) (S n)) i)). lra. Qed.

Section Laws.
  Variables (on : manifold -> vec -> Prop) (tan : manifold -> vec -> vec -> Prop) (blk : manifold -> nat -> nat -> Prop).
  Definition alaw (p : adam_param) : Prop :=
    lawful (manifold_of p) (on (manifold_of p)) (tan (manifold_of p)) /\ blocked (manifold_of p) (on (manifold_of p)) (tan (manifold_of p)) (blk (manifold_of p)).
  Definition agood (p : adam_param) : Prop :=
    on (manifold_of p) (val p) /\ forall s, state p = Some s -> tan (manifold_of p) (val p) (exp_avg s) /\ moments_ok (blk (manifold_of p)) s.
  Definition awelcome (p : adam_param) : Prop := alaw p /\ on (manifold_of p) (val p).

  Section One.
    Variables (h : adam_hyper) (p : adam_param).
    Hypothesis V : valid_hyper h.
    Hypothesis L : alaw p.
    Hypothesis G : agood p.
    Notation M := (manifold_of p).
    Lemma init_ok : tan M (val p) (exp_avg (adam_init h (state p))) /\ moments_ok (blk M) (adam_init h (state p)).
    Proof.
      destruct G as [X S]. unfold adam_init. destruct (state p) as [s|]; [apply S; reflexivity|]. cbn [exp_avg]. split.
      - replace vzero with (smul 0 (egrad2rgrad M (val p) vzero)) by (apply vec_ext; intros; unfold smul, vzero; ring).
        apply (tan_scale _ _ _ (proj1 L)), (grad_tan _ _ _ (proj1 L)), X.
      - split; [|split]; cbn; unfold vzero; [intros; lra|reflexivity|]. intros mx. destruct (amsgrad h); [intros [= <-]|discriminate]. split; [intros; lra|reflexivity].
    Qed.
    Variable g : vec.
    Let s := adam_init h (state p).
    Let r := egrad2rgrad M (val p) (vadd g (smul (a_decay h) (val p))).
    Let m := first_moment h (exp_avg s) r.
    Let v := second_moment h (exp_avg_sq s) (component_inner M (val p) r).
    Lemma r_tan : tan M (val p) r. Proof. apply (grad_tan _ _ _ (proj1 L)), G. Qed.
    Lemma m_tan : tan M (val p) m.
    Proof. apply (tan_add _ _ _ (proj1 L)); apply (tan_scale _ _ _ (proj1 L)); [apply init_ok|apply r_tan]. Qed.
    Lemma v_ok : (forall i, 0 <= v i) /\ (forall i j, blk M i j -> v i = v j).
    Proof.
      destruct init_ok as [_ [A [B _]]]. pose proof (ci_nonneg _ _ _ _ (proj2 L) (val p) r) as C. pose proof (ci_blk _ _ _ _ (proj2 L) (val p) r) as D.
      destruct V as [_ [V2 _]]. split; intros; unfold v, second_moment, vadd, smul.
      - specialize (C i (proj1 G) r_tan). specialize (A i). fold s in A. assert (0 <= (1 - beta2 h) * component_inner M (val p) r i) by (apply Rmult_le_pos; lra).
        assert (0 <= beta2 h * exp_avg_sq s i) by (apply Rmult_le_pos; lra). lra.
      - rewrite (D i j (proj1 G) r_tan H). fold s in B. rewrite (B i j H). reflexivity.
    Qed.
    Lemma direction_ok n w : (forall i, 0 <= w i) -> (forall i j, blk M i j -> w i = w j) -> tan M (val p) (adam_direction h n m w).
    Proof.
      intros W B. replace (adam_direction h n m w) with (vmul (fun i => / bias_correction (beta1 h) n / denominator h n w i) m).
      - apply (tan_blk _ _ _ _ (proj2 L)); [apply m_tan|]. intros i j E. unfold denominator, vadd, vsqrt, vdiv, vconst. rewrite (B i j E). reflexivity.
      - apply vec_ext. intros i. unfold vmul, adam_direction, vdivv, vdiv. unfold Rdiv. ring.
    Qed.
    Lemma adam_good : grad p = Dense g -> agood (fst (adam_update h p)).
    Proof.
      intros E. unfold agood. rewrite manifold_of_adam. unfold adam_update. rewrite E. fold s. fold r. fold m. fold v.
      assert (Fin : forall mx d, (forall i, 0 <= d i) -> (forall i j, blk M i j -> d i = d j) ->
        (forall w, mx = Some w -> (forall i, 0 <= w i) /\ (forall i j, blk M i j -> w i = w j)) ->
        let '(y, m') := retr_transp M (val p) (smul (- a_lr h) (adam_direction h (S (count s)) m d)) m in
        on M y /\ tan M y m' /\ moments_ok (blk M) {| count := S (count s); exp_avg := m'; exp_avg_sq := v; max_exp_avg_sq := mx |}).
      { intros mx d D1 D2 W. pose proof (tan_scale _ _ _ (proj1 L) _ (- a_lr h) _ (direction_ok (S (count s)) d D1 D2)) as T.
        pose proof (rt_on _ _ _ (proj1 L) _ _ _ (proj1 G) T m_tan). pose proof (rt_tan _ _ _ (proj1 L) _ _ _ (proj1 G) T m_tan).
        destruct (retr_transp _ _ _ _) as [y m']. simpl in *. split; [auto|]. split; [auto|]. split; [apply v_ok|]. split; [apply v_ok|exact W]. }
      destruct init_ok as [_ [A [B C]]]. fold s in A, B, C. destruct v_ok as [V1 V2].
      destruct (amsgrad h).
      - destruct (max_exp_avg_sq s) as [mx|] eqn:Em.
        + destruct (C mx eq_refl) as [C1 C2].
          assert (W1 : forall i, 0 <= vmax mx v i) by (intros i; unfold vmax; eapply Rle_trans; [apply (V1 i)|apply Rmax_r]).
          assert (W2 : forall i j, blk M i j -> vmax mx v i = vmax mx v j) by (intros i j Bij; unfold vmax; rewrite (C2 i j Bij), (V2 i j Bij); reflexivity).
          specialize (Fin (Some (vmax mx v)) (vmax mx v) W1 W2). destruct (retr_transp _ _ _ _) as [y m'].
          destruct Fin as [F1 [F2 F3]]; [intros w [= <-]; auto|]. simpl. split; [exact F1|]. intros s' [= <-]. split; auto.
        + simpl. split; [apply G|]. intros s' [= <-]. split; [apply m_tan|]. split; [exact V1|]. split; [exact V2|]. discriminate.
      - specialize (Fin (max_exp_avg_sq s) v V1 V2 C). destruct (retr_transp _ _ _ _) as [y m']. destruct Fin as [F1 [F2 F3]]. simpl. split; [exact F1|]. intros s' [= <-]. split; auto.
    Qed.
  End One.
  Lemma adam_update_good h p : valid_hyper h -> alaw p -> agood p -> agood (fst (adam_update h p)).
  Proof.
    intros V L G. destruct (grad p) as [|g|] eqn:E; [|apply (adam_good h p V L G g E)|]; unfold adam_update; rewrite E; exact G.
  Qed.
  Lemma adam_stab_good p : alaw p -> agood p -> agood (adam_stabilize p).
  Proof.
    intros L [X S]. unfold agood, alaw, manifold_of in *. rewrite man_adam_stab. unfold adam_stabilize. destruct (man p) as [M|] eqn:E; [|split; auto].
    destruct (state p) as [s|] eqn:Es; [|split; [exact X|rewrite Es; discriminate]]. cbn [val state]. split; [apply (projx_on _ _ _ (proj1 L)), X|].
    intros s' [= <-]. destruct (S s eq_refl) as [_ Mo]. split; [apply (proju_tan _ _ _ (proj1 L)), (projx_on _ _ _ (proj1 L)), X|exact Mo].
  Qed.
  Lemma adam_invariant o o' : adam_history awelcome (adam_all (fun h _ => valid_hyper h)) o o' ->
    adam_all (fun _ p => alaw p /\ agood p) o -> adam_all (fun _ p => alaw p /\ agood p) o'.
  Proof.
    apply (adam_history_inv awelcome _ (fun p => alaw p /\ agood p)).
    - intros p q K [L G]. unfold agood, alaw in *. rewrite <- (kept_manifold p q K). destruct K as [_ [Vv S]]. rewrite <- Vv, <- S. auto.
    - intros p F [L X]. split; [exact L|]. split; [exact X|]. intros s E. rewrite F in E. discriminate.
    - intros o1 g p O Ig Ip [L G]. pose proof (O g p Ig Ip) as V. simpl in V. pose proof (adam_update_good _ p V L G) as G'.
      assert (L' : alaw (fst (adam_update (a_hyp g) p))) by (unfold alaw; rewrite manifold_of_adam; exact L).
      split; [auto|]. split; [unfold alaw, manifold_of; rewrite man_adam_stab; exact L'|]. apply adam_stab_good; auto.
  Qed.
  (** the direction of every step is defined and tangent *)
  Lemma adam_step_direction h p g : valid_hyper h -> alaw p -> agood p ->
    let s := adam_init h (state p) in
    let r := egrad2rgrad (manifold_of p) (val p) (vadd g (smul (a_decay h) (val p))) in
    let m := first_moment h (exp_avg s) r in
    let v := second_moment h (exp_avg_sq s) (component_inner (manifold_of p) (val p) r) in
    let n := S (count s) in
    (0 < bias_correction (beta1 h) n <= 1) /\ (0 < bias_correction (beta2 h) n <= 1) /\
    (forall i, 0 <= v i) /\ (forall i, eps h <= denominator h n v i) /\ tan (manifold_of p) (val p) (adam_direction h n m v) /\
    forall mx, max_exp_avg_sq s = Some mx ->
      (forall i, eps h <= denominator h n (vmax mx v) i) /\ tan (manifold_of p) (val p) (adam_direction h n m (vmax mx v)).
  Proof.
    intros V L G s r m v n. destruct (v_ok h p V L G g) as [V1 V2]. fold s in V1, V2. fold r in V1, V2. fold v in V1, V2.
    split; [apply pow_range, V|]. split; [apply pow_range, V|]. split; [exact V1|]. split; [intros; apply denominator_pos; auto|].
    split; [apply (direction_ok h p L G g n v V1 V2)|]. intros mx E.
    destruct (init_ok h p L G) as [_ [A [B C]]]. fold s in C. destruct (C mx E) as [C1 C2].
    assert (W1 : forall i, 0 <= vmax mx v i) by (intros i; unfold vmax; eapply Rle_trans; [apply (V1 i)|apply Rmax_r]).
    assert (W2 : forall i j, blk (manifold_of p) i j -> vmax mx v i = vmax mx v j) by (intros i j Bij; unfold vmax; rewrite (C2 i j Bij), (V2 i j Bij); reflexivity).
    split; [intros; apply denominator_pos; auto|]. apply (direction_ok h p L G g n _ W1 W2).
  Qed.
End Laws.

(** * Step counts *)
Lemma adam_counts h p q : adam_update h p = (q, Ok) ->
  match grad p with
  | Dense _ => exists s, state q = Some s /\ count s = S (match state p with Some s => count s | None => O end)
  | _ => state q = state p
  end.
Proof.
  unfold adam_update. destruct (grad p); [intros [= <-]; reflexivity| |discriminate].
  assert (C : count (adam_init h (state p)) = match state p with Some s => count s | None => O end) by (destruct (state p); reflexivity).
  destruct (amsgrad h).
  - destruct (max_exp_avg_sq _); [|discriminate]. destruct (retr_transp _ _ _ _). intros [= <-]. eexists. split; [reflexivity|]. cbn [count]. rewrite C. reflexivity.
  - destruct (retr_transp _ _ _ _). intros [= <-]. eexists. split; [reflexivity|]. cbn [count]. rewrite C. reflexivity.
Qed.

(** * AMSGrad: a parameter on any manifold, trained with gradients [gs] *)
Definition set_grad {S} (g : gradient) (p : param S) : param S := {| man := man p; val := val p; grad := g; state := state p |}.
Fixpoint adam_run (hs : nat -> adam_hyper) (gs : nat -> vec) (p : adam_param) (t : nat) : adam_param :=
  match t with O => p | S t => fst (adam_update (hs t) (set_grad (Dense (gs t)) (adam_run hs gs p t))) end.
Definition second_of (p : adam_param) (i : nat) : R := match state p with Some s => exp_avg_sq s i | None => 0 end.
Definition maximum_of (p : adam_param) (i : nat) : R := match state p with Some s => match max_exp_avg_sq s with Some m => m i | None => 0 end | None => 0 end.
Lemma ams_one h p g : amsgrad h = true -> (forall s, state p = Some s -> exists mx, max_exp_avg_sq s = Some mx) ->
  let q := fst (adam_update h (set_grad (Dense g) p)) in
  (exists s mx, state q = Some s /\ max_exp_avg_sq s = Some mx) /\ forall i, maximum_of q i = Rmax (maximum_of p i) (second_of q i).
Proof.
  intros A F q. assert (I : exists mx, max_exp_avg_sq (adam_init h (state p)) = Some mx /\ forall i, mx i = maximum_of p i).
  { unfold adam_init, maximum_of. destruct (state p) as [s|]; [|rewrite A; eexists; split; reflexivity]. destruct (F s eq_refl) as [mx E]. rewrite E. eexists. split; reflexivity. }
  destruct I as [mx [E1 E2]]. unfold q, adam_update, set_grad. cbn [grad man val state manifold_of]. rewrite A, E1.
  destruct (retr_transp _ _ _ _) as [y m']. cbn [fst]. unfold maximum_of at 1, second_of. cbn. split; [eexists _, _; split; reflexivity|].
  intros i. unfold vmax. rewrite E2. reflexivity.
Qed.
Lemma ams_running hs gs p0 : (forall t, amsgrad (hs t) = true) -> fresh p0 -> forall t i,
  (forall u, (1 <= u <= t)%nat -> second_of (adam_run hs gs p0 u) i <= maximum_of (adam_run hs gs p0 t) i) /\
  (maximum_of (adam_run hs gs p0 t) i = 0 \/ exists u, (1 <= u <= t)%nat /\ maximum_of (adam_run hs gs p0 t) i = second_of (adam_run hs gs p0 u) i) /\
  (maximum_of (adam_run hs gs p0 t) i <= maximum_of (adam_run hs gs p0 (S t)) i).
Proof.
  intros A F. assert (Inv : forall t, (forall s, state (adam_run hs gs p0 t) = Some s -> exists mx, max_exp_avg_sq s = Some mx)).
  { induction t as [|t IH]; [intros s E; simpl in E; rewrite F in E; discriminate|]. cbn [adam_run]. destruct (ams_one (hs t) _ (gs t) (A t) IH) as [[s [mx [E1 E2]]] _].
    intros s' E'. rewrite E1 in E'. injection E' as <-. eauto. }
  assert (Step : forall t i, maximum_of (adam_run hs gs p0 (S t)) i = Rmax (maximum_of (adam_run hs gs p0 t) i) (second_of (adam_run hs gs p0 (S t)) i)).
  { intros t i. cbn [adam_run]. apply (ams_one (hs t) _ (gs t) (A t) (Inv t)). }
  intros t i. split; [|split; [|rewrite Step; apply Rmax_l]].
  - induction t as [|t IH]; [intros; lia|]. intros u U. rewrite Step. destruct (Nat.eq_dec u (S t)) as [->|N]; [apply Rmax_r|]. eapply Rle_trans; [apply IH; lia|apply Rmax_l].
  - induction t as [|t IH]; [left; cbn [adam_run]; unfold maximum_of; rewrite F; reflexivity|]. rewrite Step. unfold Rmax. destruct (Rle_dec _ _); [right; exists (S t); split; [lia|reflexivity]|].
    destruct IH as [->|[u [U ->]]]; [left; reflexivity|right; exists u; split; [lia|reflexivity]].
Qed.
(** turning amsgrad on after the first step *)
Lemma ams_late h p g s : amsgrad h = true -> state p = Some s -> max_exp_avg_sq s = None ->
  snd (adam_update h (set_grad (Dense g) p)) = RaisedKeyError.
Proof. intros A E1 E2. unfold adam_update, set_grad. cbn [grad state]. rewrite E1. cbn [adam_init]. rewrite A, E2. reflexivity. Qed.

(** * Plain parameters: torch.optim.Adam *)
Definition asolo (h : adam_hyper) (p : adam_param) : list adam_group := [ {| a_hyp := h; a_params := [p] |} ].
Lemma asolo_step h x s g : exists h', fst (adam_step (asolo h (plain x s g))) = asolo h' (fst (adam_update h (plain x s g))).
Proof.
  exists h. unfold adam_step, asolo. cbn [each]. unfold adam_step_group. cbn [a_hyp a_params loop].
  pose proof (visit_update h (plain x s g)) as E. destruct (adam_visit h (plain x s g)) as [q st]. simpl in E. subst q.
  assert (MN : man (fst (adam_update h (plain x s g))) = None) by (rewrite man_adam; reflexivity).
  destruct st; cbn [fst]; try reflexivity. destruct (a_stabilize h) as [N|]; [|reflexivity]. destruct (existsb _ _); [|reflexivity]. cbn [map fst].
  unfold adam_stabilize. rewrite MN. reflexivity.
Qed.
Fixpoint adam_pair (hs : nat -> adam_hyper) (gs : nat -> vec -> option vec) (x0 : vec) (t : nat) : vec * option adam_state :=
  match t with
  | O => (x0, None)
  | S t => let '(x, b) := adam_pair hs gs x0 t in
           let p := fst (adam_update (hs t) (plain x b (to_gradient (gs t x)))) in (val p, state p)
  end.
Lemma aplain_eta (p : adam_param) : man p = None -> exists g, p = plain (val p) (state p) g.
Proof. destruct p as [m v g s]. simpl. intros ->. eexists. reflexivity. Qed.
Lemma atrain_pair hs gs x0 t : exists h g, adam_train hs gs x0 t = asolo h (plain (fst (adam_pair hs gs x0 t)) (snd (adam_pair hs gs x0 t)) g).
Proof.
  induction t as [|t IH]; [eexists _, _; reflexivity|]. destruct IH as [h [g E]]. cbn [adam_train]. rewrite E. unfold asolo at 1. cbn [map a_hyp a_params].
  cbn [plain man val state]. cbn [adam_pair]. destruct (adam_pair hs gs x0 t) as [x b]. cbn [fst snd].
  destruct (asolo_step (hs t) x b (to_gradient (gs t x))) as [h' S].
  match goal with |- context[adam_step ?a] => change a with (asolo (hs t) (@plain adam_state x b (to_gradient (gs t x)))) end. rewrite S.
  set (q := fst (adam_update (hs t) (plain x b (to_gradient (gs t x))))). assert (M : man q = None) by (unfold q; rewrite man_adam; reflexivity).
  destruct (aplain_eta q M) as [g' Eq]. exists h', g'. f_equal. f_equal. rewrite Eq at 1. reflexivity.
Qed.
Lemma atrain_values hs gs x0 t : adam_values (adam_train hs gs x0 t) = [fst (adam_pair hs gs x0 t)].
Proof. destruct (atrain_pair hs gs x0 t) as [h [g ->]]. reflexivity. Qed.

Section Reference.
  Variables (hs : nat -> adam_hyper) (ams : bool).
  Hypothesis V : forall t, 0 <= beta2 (hs t) < 1.
  Hypothesis A : forall t, amsgrad (hs t) = ams.
  Variables (gs : nat -> vec -> option vec) (x0 : vec).
  Definition matches (s : option adam_state) (r : ref_adam) : Prop :=
    let s := match s with Some s => s | None => {| count := O; exp_avg := vzero; exp_avg_sq := vzero; max_exp_avg_sq := if ams then Some vzero else None |} end in
    count s = r_t r /\ exp_avg s = r_m r /\ exp_avg_sq s = r_v r /\ (ams = true -> max_exp_avg_sq s = Some (r_max r)) /\
    (forall i, 0 <= r_v r i) /\ (forall i, 0 <= r_max r i).
  Lemma adam_same t : fst (adam_pair hs gs x0 t) = r_x (ref_adam_train hs gs x0 t) /\ matches (snd (adam_pair hs gs x0 t)) (ref_adam_train hs gs x0 t).
  Proof.
    induction t as [|t [IHx IHs]].
    - split; [reflexivity|]. unfold matches. cbn. repeat split; try (unfold vzero; intros; lra). intros ->. reflexivity.
    - cbn [adam_pair ref_adam_train]. destruct (adam_pair hs gs x0 t) as [x s]. cbn [fst snd] in *. subst x. set (r := ref_adam_train hs gs x0 t) in *.
      destruct (gs t (r_x r)) as [g|]; [|split; [reflexivity|exact IHs]]. cbn [to_gradient].
      unfold matches in IHs. set (s0 := match s with Some s => s | None => _ end) in IHs.
      assert (I : adam_init (hs t) s = s0) by (unfold adam_init, s0; destruct s; [reflexivity|rewrite A; reflexivity]).
      destruct IHs as [E1 [E2 [E3 [E4 [P1 P2]]]]].
      set (g' := fun i => g i + a_decay (hs t) * r_x r i).
      assert (Eg : vadd g (smul (a_decay (hs t)) (r_x r)) = g') by reflexivity.
      set (m := fun i => beta1 (hs t) * r_m r i + (1 - beta1 (hs t)) * g' i).
      set (v := fun i => beta2 (hs t) * r_v r i + (1 - beta2 (hs t)) * g' i ^ 2).
      assert (Ev : second_moment (hs t) (exp_avg_sq s0) (vmul g' g') = v).
      { rewrite E3. apply vec_ext. intros i. unfold second_moment, vadd, smul, vmul, v. ring. }
      assert (Em : first_moment (hs t) (exp_avg s0) g' = m) by (rewrite E2; reflexivity).
      assert (PV : forall i, 0 <= v i).
      { intros i. unfold v. specialize (V t). specialize (P1 i). assert (0 <= g' i ^ 2) by nra. assert (0 <= beta2 (hs t) * r_v r i) by (apply Rmult_le_pos; lra). assert (0 <= (1 - beta2 (hs t)) * g' i ^ 2) by (apply Rmult_le_pos; lra). lra. }
      assert (PM : forall i, 0 <= Rmax (r_max r i) (v i)) by (intros i; eapply Rle_trans; [apply (PV i)|apply Rmax_r]).
      assert (Mv : forall w, (forall i, 0 <= w i) -> vadd (r_x r) (smul (- a_lr (hs t)) (adam_direction (hs t) (S (r_t r)) m w)) =
        fun i => r_x r i - a_lr (hs t) / (1 - beta1 (hs t) ^ S (r_t r)) * (m i / (sqrt (w i) / sqrt (1 - beta2 (hs t) ^ S (r_t r)) + eps (hs t)))).
      { intros w PW. apply vec_ext. intros i. unfold vadd, smul, adam_direction, vdivv, denominator, vadd, vsqrt, vdiv, vconst.
        pose proof (pow_range (beta2 (hs t)) (r_t r) (V t)) as [B _]. unfold bias_correction in *. rewrite sqrt_div by (auto). unfold Rdiv. ring. }
      unfold adam_update, plain. cbn [grad manifold_of man val state euclidean egrad2rgrad component_inner retr_transp egrad_arg]. rewrite I, Eg, Em, Ev, A, E1. unfold matches.
      destruct ams.
      + rewrite (E4 eq_refl). cbn [fst val state]. unfold ref_adam_step. rewrite A. cbn [r_x r_t r_m r_v r_max]. fold g'. fold m. fold v. split; [apply (Mv (vmax (r_max r) v)); exact PM|].
        cbn [count exp_avg exp_avg_sq max_exp_avg_sq]. repeat split; auto.
      + cbn [fst val state]. unfold ref_adam_step. rewrite A. cbn [r_x r_t r_m r_v r_max]. fold g'. fold m. fold v. split; [apply (Mv v); exact PV|].
        cbn [count exp_avg exp_avg_sq max_exp_avg_sq]. repeat split; auto. discriminate.
  Qed.
End Reference.

(** * Stabilisation of a group *)
Lemma adam_stab_exact g ps N : a_stabilize (a_hyp g) = Some (S N) -> loop (adam_visit (a_hyp g)) (a_params g) = (ps, Ok) ->
  adam_step_group g = ({| a_hyp := a_hyp g; a_params := map (fun p => if existsb (asks (S N)) ps then adam_stabilize p else p) ps |}, Ok).
Proof. intros E L. unfold adam_step_group. rewrite L, E. destruct (existsb (asks (S N)) ps); [reflexivity|]. rewrite map_id. reflexivity. Qed.
Lemma adam_from_fresh (on : manifold -> vec -> Prop) (tan : manifold -> vec -> vec -> Prop) (blk : manifold -> nat -> nat -> Prop) o o' :
  let law (p : adam_param) := lawful (manifold_of p) (on (manifold_of p)) (tan (manifold_of p)) /\
               blocked (manifold_of p) (on (manifold_of p)) (tan (manifold_of p)) (blk (manifold_of p)) in
  adam_history (fun p => law p /\ on (manifold_of p) (val p))
    (adam_all (fun h _ => 0 <= beta1 h < 1 /\ 0 <= beta2 h < 1 /\ 0 < eps h)) o o' ->
  adam_all (fun _ p => law p /\ on (manifold_of p) (val p) /\ fresh p) o ->
  adam_all (fun _ p => on (manifold_of p) (val p) /\ forall s, state p = Some s ->
    tan (manifold_of p) (val p) (exp_avg s) /\ (forall i, 0 <= exp_avg_sq s i) /\
    (forall mx, max_exp_avg_sq s = Some mx -> forall i, 0 <= mx i)) o'.
Proof.
  intros law H A g p Ig Ip.
  destruct (adam_invariant on tan blk o o' H) with (g := g) (p := p) as [_ [X S]]; auto.
  - intros g0 p0 I0 J0. destruct (A g0 p0 I0 J0) as [L [X F]]. split; [exact L|]. split; [exact X|]. intros s E. rewrite F in E. discriminate.
  - split; [exact X|]. intros s E. destruct (S s E) as [T [P [_ Q]]]. split; [exact T|]. split; [exact P|]. intros mx Em. apply (Q mx Em).
Qed.
