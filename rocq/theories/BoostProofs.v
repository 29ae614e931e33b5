(** Lemmas: isometries of the hyperboloid. *)
From Coq Require Import Reals List Bool Arith Lra Lia Classical.
From Verif Require Import RVec OptimModel OptimSpec OptimProofs OptimDecaySpec OptimInstances LorentzModel LorentzSpec LorentzProofs LorentzProofs2 LorentzProofs3 RotationSpec RotationProofs BoostSpec.
Import ListNotations.
Local Open Scope R_scope.

Lemma inner_is d u v : inner d u v = minkowski d u v.
Proof. unfold inner, minkowski, tl. cbn zeta. lra. Qed.
Lemma reversed_flip g : reversed g = flip g.
Proof. apply vec_ext. intros [|i]; cbn; [ring|reflexivity]. Qed.
Lemma reversed_twice g : reversed (reversed g) = g.
Proof. apply vec_ext. intros [|i]; cbn; [ring|reflexivity]. Qed.
Lemma pairing_reversed d u v : pairing d (reversed u) v = minkowski d u v.
Proof.
  unfold pairing, dot, minkowski.
  assert (E : forall n (f : nat -> R), Rsum (S n) f = f O + Rsum n (fun i => f (S i))).
  { induction n as [|n IH]; intros f; [cbn; ring|]. change (Rsum (S (S n)) f) with (Rsum (S n) f + f (S n)). rewrite IH. cbn [Rsum]. ring. }
  rewrite E. cbn [reversed]. lra.
Qed.

Section Iso.
  Variables (d : nat) (k : R) (T : vec -> vec).
  Hypothesis H : isometry d k T.
  Lemma i_sub u v : T (vsub u v) = vsub (T u) (T v).
  Proof. replace (vsub u v) with (vadd u (smul (-1) v)) by (veq; ring). rewrite (iso_add _ _ _ H), (iso_smul _ _ _ H). veq. ring. Qed.
  Lemma i_div u a : T (vdiv u a) = vdiv (T u) a.
  Proof. replace (vdiv u a) with (smul (/ a) u) by (veq; unfold Rdiv; ring). rewrite (iso_smul _ _ _ H). veq. unfold Rdiv. ring. Qed.
  Lemma i_inner u v : inner d (T u) (T v) = inner d u v.
  Proof. rewrite !inner_is. apply (iso_form _ _ _ H). Qed.
  Lemma i_on x : on_hyperboloid d k x -> on_hyperboloid d k (T x).
  Proof. intros X. split; [rewrite (iso_form _ _ _ H); apply X|apply (iso_sheet _ _ _ H), X]. Qed.
  Ltac s := repeat (progress rewrite <- ?(iso_add _ _ _ H), <- ?(iso_smul _ _ _ H), <- ?i_sub, <- ?i_div, ?i_inner).
  Lemma i_project_u x v : project_u d k (T x) (T v) = T (project_u d k x v).
  Proof. unfold project_u. s. reflexivity. Qed.
  Lemma i_norm u : norm d (T u) = norm d u.
  Proof. unfold norm. s. reflexivity. Qed.
  Lemma i_expmap x u : expmap d k (T x) (T u) = T (expmap d k x u).
  Proof. unfold expmap. cbn zeta. rewrite i_norm. s. reflexivity. Qed.
  Lemma i_dist x y : dist d k (T x) (T y) = dist d k x y.
  Proof. unfold dist. s. reflexivity. Qed.
  Lemma i_logmap x y : logmap d k (T x) (T y) = T (logmap d k x y).
  Proof. unfold logmap. cbn zeta. s. rewrite i_dist, i_norm. s. reflexivity. Qed.
  Lemma i_parallel x y v : parallel_transport d k (T x) (T y) (T v) = T (parallel_transport d k x y v).
  Proof. unfold parallel_transport. cbn zeta. rewrite !i_logmap, i_dist. s. reflexivity. Qed.
  Lemma i_geodesic t x u : geodesic_unit k t (T x) (T u) = T (geodesic_unit k t x u).
  Proof. unfold geodesic_unit. s. reflexivity. Qed.
  Lemma i_gradient x g : snd (egrad2rgrad d k (T x) (carried T g)) = T (snd (egrad2rgrad d k x g)).
  Proof.
    unfold egrad2rgrad. cbn [snd]. cbn zeta. rewrite <- !reversed_flip. unfold carried. rewrite reversed_twice. s. reflexivity.
  Qed.
  Lemma i_carried g v : pairing d (carried T g) (T v) = pairing d g v.
  Proof. unfold carried. rewrite pairing_reversed, (iso_form _ _ _ H), <- pairing_reversed, reversed_twice. reflexivity. Qed.
  Lemma i_retr x u : 0 < k -> on_hyperboloid d k x -> / 10 ^ 8 <= minkowski d (project_u d k x u) (project_u d k x u) ->
    l_expmap d k true true (T x) (T u) = T (l_expmap d k true true x u).
  Proof.
    intros K X L. unfold l_expmap. rewrite i_project_u, i_expmap.
    pose proof (proju_tangent d k K x u X) as P.
    pose proof (exp_on d k K x _ X P L) as E.
    rewrite (project_fix d k _ (i_on _ E)), (project_fix d k _ E). reflexivity.
  Qed.
End Iso.
Lemma tan_grad d k x g : 0 < k -> on_hyperboloid d k x -> tangent d x (snd (egrad2rgrad d k x g)).
Proof. intros K X. exact (proju_tangent d k K x (flip g) X). Qed.
Lemma tan_smul d x a u : tangent d x u -> tangent d x (smul a u).
Proof.
  unfold tangent, minkowski, smul. intros E.
  rewrite (Rsum_ext d (fun i => x (S i) * (a * u (S i))) (fun i => a * (x (S i) * u (S i)))) by (intros; ring).
  rewrite Rsum_scal. rewrite <- (Rmult_0_r a), <- E. ring.
Qed.

Section Train.
  Variables (d : nat) (k : R) (T : vec -> vec) (K : 0 < k) (H : isometry d k T).
  Variables (hs : nat -> sgd_hyper) (G G' : nat -> list vec -> nat -> gradient) (p : sgd_param).
  Hypothesis plain : forall t, momentum (hs t) <= 0 /\ weight_decay (hs t) = 0.
  Hypothesis M : man p = Some (lorentz d k).
  Hypothesis X : on_hyperboloid d k (val p).
  Hypothesis Or : forall t x, on_hyperboloid d k x -> G' t [T x] O = carried_gradient T (G t [x] O).
  Definition related (q q' : sgd_param) : Prop :=
    man q = Some (lorentz d k) /\ man q' = Some (lorentz d k) /\ on_hyperboloid d k (val q) /\ val q' = T (val q).
  Lemma train_related t :
    (forall s, (s < t)%nat -> Forall (fun x => long_step d k (hs s) x (G s [x] O)) (map val (params (sgd_training hs G [p] s)))) ->
    steps (sgd_training hs G' [seen T p] t) = steps (sgd_training hs G [p] t) /\
    exists q q', params (sgd_training hs G [p] t) = [q] /\ params (sgd_training hs G' [seen T p] t) = [q'] /\ related q q'.
  Proof.
    induction t as [|t IH]; intros L.
    - split; [reflexivity|]. exists p, (seen T p). repeat split; cbn; auto; apply X.
    - destruct IH as [A [q [q' [B [B' [Mq [Mq' [Xq Vq]]]]]]]]; [intros s S; apply L; lia|].
      specialize (L t ltac:(lia)). rewrite B in L. cbn [map] in L. inversion L as [|? ? L0 _]; subst. clear L.
      cbn [sgd_training]. rewrite A, B, B'. cbn [map assign]. rewrite Vq, (Or t (val q) Xq).
      destruct (plain t) as [Pm Pw].
      assert (Nm : has_momentum (hs t) = false) by (unfold has_momentum; destruct Rlt_dec; [lra|reflexivity]).
      unfold sgd_step_group. cbn [hyp steps params loop].
      assert (U : exists r r' st, sgd_update (hs t) {| man := man q; val := val q; grad := G t [val q] O; state := state q |} = (r, st) /\
        sgd_update (hs t) {| man := man q'; val := val q'; grad := carried_gradient T (G t [val q] O); state := state q' |} = (r', st) /\ related r r').
      { unfold sgd_update. cbn [grad man val state]. rewrite Nm. unfold manifold_of. cbn [man]. rewrite Mq, Mq'.
        destruct (G t [val q] O) as [|g|]; cbn [carried_gradient].
        - do 3 eexists. split; [reflexivity|]. split; [reflexivity|]. repeat split; cbn; auto; apply Xq.
        - do 3 eexists. split; [reflexivity|]. split; [reflexivity|].
          unfold related. cbn [man val]. split; [reflexivity|]. split; [reflexivity|].
          unfold sgd_direction. rewrite Nm. cbn zeta. unfold decayed. rewrite Pw, Vq.
          assert (Z : forall g x, vadd g (smul 0 x) = g) by (intros; veq; ring). rewrite !Z.
          cbn [lorentz retr OptimModel.egrad2rgrad] in *.
          split; [apply l_exp_on, K|]. rewrite (i_gradient d k T H), <- (iso_smul _ _ _ H). apply i_retr; auto.
          cbn [long_step lorentz OptimModel.egrad2rgrad] in L0. cbn zeta in L0.
          rewrite proju_fix by (apply tan_smul, tan_grad; auto). exact L0.
        - do 3 eexists. split; [reflexivity|]. split; [reflexivity|]. repeat split; cbn; auto; apply Xq. }
      rewrite Vq in U. destruct U as [r [r' [st [U [U' [Mr [Mr' [Xr Vr]]]]]]]]. rewrite U, U'.
      assert (R0 : related r r') by (repeat split; auto; apply Xr).
      destruct st; cbn [fst]; try (split; [reflexivity|exists r, r'; split; [reflexivity|split; [reflexivity|exact R0]]]).
      destruct (stabilize (hs t)) as [[|N]|]; cbn [fst]; try (split; [reflexivity|exists r, r'; split; [reflexivity|split; [reflexivity|exact R0]]]).
      destruct (_ mod _ =? 0)%nat; cbn [fst steps params]; (split; [reflexivity|]); [|exists r, r'; split; [reflexivity|split; [reflexivity|exact R0]]].
      do 2 eexists. cbn [map]. split; [reflexivity|]. split; [reflexivity|].
      unfold sgd_stabilize. rewrite Mr, Mr'. unfold related. cbn [man val].
      cbn [lorentz projx].
      assert (Xr' : on_hyperboloid d k (T (val r))) by (apply (i_on d k T H), Xr).
      rewrite Vr, (project_fix d k _ Xr), (project_fix d k _ Xr'). repeat split; auto; apply Xr.
  Qed.
End Train.
Lemma train_carried d k T hs G G' (p : sgd_param) : 0 < k -> isometry d k T -> (forall t, momentum (hs t) <= 0 /\ weight_decay (hs t) = 0) ->
  man p = Some (lorentz d k) -> on_hyperboloid d k (val p) ->
  (forall t x, on_hyperboloid d k x -> G' t [T x] O = carried_gradient T (G t [x] O)) -> forall t,
  (forall s, (s < t)%nat -> Forall (fun x => long_step d k (hs s) x (G s [x] O)) (map val (params (sgd_training hs G [p] s)))) ->
  map val (params (sgd_training hs G' [seen T p] t)) = map T (map val (params (sgd_training hs G [p] t))).
Proof.
  intros K H P M X Or t L. destruct (train_related d k T K H hs G G' p P M X Or t L) as [_ [q [q' [B [B' [_ [_ [_ V]]]]]]]].
  rewrite B, B'. cbn. rewrite V. reflexivity.
Qed.

(** ** Boosts and rotations *)
Lemma Rsum_head n (f : nat -> R) : Rsum (S n) f = f O + Rsum n (fun i => f (S i)).
Proof. induction n as [|n IH]; [cbn; ring|]. change (Rsum (S (S n)) f) with (Rsum (S n) f + f (S n)). rewrite IH. cbn [Rsum]. ring. Qed.
Lemma ch_sh a : cosh a * cosh a - sinh a * sinh a = 1.
Proof.
  unfold cosh, sinh. replace ((exp a + exp (- a)) / 2 * ((exp a + exp (- a)) / 2) - (exp a - exp (- a)) / 2 * ((exp a - exp (- a)) / 2)) with (exp a * exp (- a)) by field.
  rewrite <- exp_plus, Rplus_opp_r. apply exp_0.
Qed.
Lemma boost_iso d k a : 0 < k -> isometry (S d) k (boost a).
Proof.
  intros K. split.
  - intros u v. apply vec_ext. intros [|[|i]]; unfold boost, vadd; cbn; ring.
  - intros b u. apply vec_ext. intros [|[|i]]; unfold boost, smul; cbn; ring.
  - intros u v. unfold minkowski. rewrite !Rsum_head. cbn [boost].
    set (r := Rsum d _).
    transitivity ((cosh a * cosh a - sinh a * sinh a) * (u 1%nat * v 1%nat - u O * v O) + r); [ring|]. rewrite ch_sh. ring.
  - intros x [E P]. unfold minkowski in E. rewrite Rsum_head in E. cbn [boost].
    assert (N : 0 <= Rsum d (fun i => x (S (S i)) * x (S (S i)))) by (apply (dot_nonneg d (fun i => x (S (S i))))).
    assert (C : 0 < cosh a) by (unfold cosh; pose proof (exp_pos a); pose proof (exp_pos (- a)); lra).
    pose proof (ch_sh a) as Q. set (c := cosh a) in *. set (s := sinh a) in *.
    assert (A : Rabs (x 1%nat) < x O) by (apply Rsqr_lt_abs_0 || idtac; destruct (Rle_dec 0 (x 1%nat)); [rewrite Rabs_right by lra|rewrite Rabs_left by lra]; nra).
    assert (B : Rabs s < c) by (destruct (Rle_dec 0 s); [rewrite Rabs_right by lra|rewrite Rabs_left by lra]; nra).
    assert (D : - (s * x 1%nat) <= Rabs s * Rabs (x 1%nat)) by (rewrite <- Rabs_mult, <- (Rabs_Ropp (s * x 1%nat)); apply Rle_abs).
    pose proof (Rabs_pos s). pose proof (Rabs_pos (x 1%nat)). nra.
Qed.
Lemma spatial_iso d k T : rotation d T -> isometry d k (spatial T).
Proof.
  intros H. split.
  - apply (s_add d T H).
  - apply (s_smul d T H).
  - intros u v. rewrite <- !inner_is. apply (s_inner d T H).
  - intros x [_ P]. exact P.
Qed.
Lemma compose_iso d k S T : isometry d k S -> isometry d k T -> isometry d k (fun x => S (T x)).
Proof.
  intros A B. split; intros.
  - rewrite (iso_add _ _ _ B), (iso_add _ _ _ A). reflexivity.
  - rewrite (iso_smul _ _ _ B), (iso_smul _ _ _ A). reflexivity.
  - rewrite (iso_form _ _ _ A), (iso_form _ _ _ B). reflexivity.
  - apply (iso_sheet _ _ _ A), (i_on d k T B). assumption.
Qed.

(** ** Short steps *)
Lemma boost_short d k a : 0 < k -> a <> 0 ->
  exists i, (i <= S d)%nat /\ l_expmap (S d) k true true (boost a (origin k)) vzero i <> boost a (l_expmap (S d) k true true (origin k) vzero) i.
Proof.
  intros K A. set (o := origin k). set (D := S d).
  assert (Xo : on_hyperboloid D k o) by (apply origin_on, K).
  assert (Eo : forall i, (i <= D)%nat -> l_expmap D k true true o vzero i = o i) by (apply (proj2 (exp_zero_iff D k K o true Xo)); intros; reflexivity).
  pose proof (i_on D k (boost a) (boost_iso d k a K) o Xo) as Xb.
  destruct (Classical_Prop.classic (forall i, (i <= D)%nat -> l_expmap D k true true (boost a o) vzero i = boost a (l_expmap D k true true o vzero) i)) as [Q|Q].
  - exfalso. assert (B : forall i, (i <= D)%nat -> boost a o i = o i).
    { apply (proj1 (exp_zero_iff D k K (boost a o) true Xb)). intros i I. rewrite (Q i I).
      destruct i as [|[|i]]; cbn [boost]; rewrite ?(Eo O), ?(Eo 1%nat) by (unfold D; lia); auto. }
    specialize (B 1%nat ltac:(unfold D; lia)). cbn in B. assert (0 < sqrt k) by (apply sqrt_lt_R0, K).
    assert (Z : sinh a = 0) by nra. apply A. unfold sinh in Z. assert (Ex : exp a = exp (- a)) by lra. apply exp_inv in Ex. lra.
  - apply Classical_Pred_Type.not_all_ex_not in Q. destruct Q as [i Q]. exists i. apply Classical_Prop.imply_to_and in Q. exact Q.
Qed.

(** ** A case: the hyperbolic plane, a boost by 1, one step from the origin *)
Definition g010 : vec := fun i => match i with 1%nat => 1 | _ => 0 end.
Definition h10 : sgd_hyper := {| lr := 1 / 10; momentum := 0; dampening := 0; weight_decay := 0; nesterov := false; stabilize := Some 1%nat |}.
Definition at_origin : sgd_param := {| man := Some (lorentz 2 1); val := origin 1; grad := NoGrad; state := None |}.
Lemma boost_case : isometry 2 1 (boost 1) /\ on_hyperboloid 2 1 (val at_origin) /\
  (forall t x, on_hyperboloid 2 1 x -> (fun (_ : nat) (_ : list vec) (_ : nat) => Dense (carried (boost 1) g010)) t [boost 1 x] O = carried_gradient (boost 1) (Dense g010)) /\
  Forall (fun x => long_step 2 1 h10 x (Dense g010)) (map val (params (sgd_training (fun _ => h10) (fun _ _ _ => Dense g010) [at_origin] 0))).
Proof.
  split; [apply boost_iso; lra|]. split; [apply origin_on; lra|]. split; [reflexivity|].
  constructor; [|constructor]. unfold long_step, minkowski, smul. cbn. unfold vadd, smul, vdiv, LorentzModel.inner, flip, g010, origin, LorentzModel.tl. cbn. lra.
Qed.
