(** Lemmas: critical points are fixed points of the optimizers. *)
From Coq Require Import Reals List Arith Lra Lia.
From Verif Require Import RVec OptimModel OptimProofs OptimDecaySpec GroupingSpec CheckpointSpec CheckpointInst FixedSpec.
Import ListNotations.
Local Open Scope R_scope.

Definition key {S} (p : param S) : option manifold * vec := (man p, val p).
Definition quiet {S} (p : param S) (g : gradient) : Prop :=
  g = NoGrad \/ exists g', g = Dense g' /\ egrad2rgrad (manifold_of p) (val p) g' = vzero.
Lemma assign_quiet {S} (J : param S -> Prop) G : (forall p g, J p -> J {| man := man p; val := val p; grad := g; state := state p |}) ->
  forall (ps : list (param S)) i, (forall k p, nth_error ps k = Some p -> quiet p (G (i + k)%nat)) -> Forall J ps ->
  Forall (fun p => quiet p (grad p) /\ J p) (assign G i ps).
Proof.
  intro HJ. induction ps as [|p ps IH]; intros i H F; constructor; inversion F; subst.
  - split; [|now apply HJ]. specialize (H O p eq_refl). rewrite Nat.add_0_r in H. exact H.
  - apply IH; [|assumption]. intros k q Q. specialize (H (Datatypes.S k) q Q). rewrite Nat.add_succ_r in H. exact H.
Qed.
Lemma assign_groups_quiet {S} (J : param S -> Prop) G : (forall p g, J p -> J {| man := man p; val := val p; grad := g; state := state p |}) ->
  forall (pss : list (list (param S))) i, (forall k p, nth_error (concat pss) k = Some p -> quiet p (G (i + k)%nat)) -> Forall (Forall J) pss ->
  Forall (Forall (fun p => quiet p (grad p) /\ J p)) (assign_groups G i pss).
Proof.
  intro HJ. induction pss as [|ps pss IH]; intros i H F; constructor; inversion F; subst.
  - apply assign_quiet; auto. intros k p K. apply H. simpl. rewrite nth_error_app1; [exact K|]. apply nth_error_Some. congruence.
  - apply IH; [|assumption]. intros k p K. rewrite <- Nat.add_assoc. apply H. simpl. rewrite nth_error_app2 by lia.
    replace (length ps + k - length ps)%nat with k by lia. exact K.
Qed.
Lemma assign_key {S} G : forall (ps : list (param S)) i, map key (assign G i ps) = map key ps.
Proof. induction ps as [|p ps IH]; intro i; simpl; [reflexivity|]. now rewrite IH. Qed.
Lemma assign_groups_key {S} G : forall (pss : list (list (param S))) i, map (map key) (assign_groups G i pss) = map (map key) pss.
Proof. induction pss as [|ps pss IH]; intro i; simpl; [reflexivity|]. now rewrite assign_key, IH. Qed.
Lemma length_assign {S} G : forall (pss : list (list (param S))) i, length (assign_groups G i pss) = length pss.
Proof. induction pss as [|ps pss IH]; intro i; simpl; [reflexivity|]. now rewrite IH. Qed.
Lemma critical_key {S} (G : nat -> gradient) (ps qs : list (param S)) : map key ps = map key qs -> critical_gradients G ps -> critical_gradients G qs.
Proof.
  intros E C i q Q. assert (K : nth_error (map key ps) i = Some (key q)) by (rewrite E; now apply map_nth_error).
  destruct (nth_error ps i) as [p|] eqn:P.
  - specialize (C i p P). rewrite (map_nth_error key i ps P) in K. injection K as K1 K2. unfold manifold_of in *. rewrite K1, K2 in C. exact C.
  - apply nth_error_None in P. assert (N : nth_error (map key ps) i = None) by (apply nth_error_None; now rewrite map_length). congruence.
Qed.
Lemma key_val {S} (ps qs : list (param S)) : map key ps = map key qs -> map val ps = map val qs.
Proof. intro E. apply (f_equal (map snd)) in E. rewrite !map_map in E. exact E. Qed.
Lemma each_kept {G A} (f : G -> G * status) (r : G -> A) (P : G -> Prop) : forall gs,
  Forall (fun g => snd (f g) = Ok /\ r (fst (f g)) = r g /\ P (fst (f g))) gs -> exists hs, each f gs = (hs, Ok) /\ map r hs = map r gs /\ Forall P hs.
Proof.
  induction 1 as [|g gs (H1 & H2 & H3) _ (hs & E & F & K)]; [now exists []|]. exists (fst (f g) :: hs). simpl. rewrite E.
  destruct (f g) as [g' s]. simpl in *. subst s. split; [reflexivity|]. split; [now rewrite H2, F|now constructor].
Qed.
Lemma map_key {S} (u : param S -> param S) ps : Forall (fun p => key (u p) = key p) ps -> map key (map u ps) = map key ps.
Proof. induction 1 as [|p ps H _ IH]; simpl; [reflexivity|]. now rewrite H, IH. Qed.
Lemma smul_zero a : smul a vzero = vzero. Proof. apply vec_ext. intro i. unfold smul, vzero. ring. Qed.
Lemma add_zero u : vadd u vzero = u. Proof. apply vec_ext. intro i. unfold vadd, vzero. ring. Qed.
Lemma combine_keys {A B C D} (r : A -> B -> C) (q : B -> D) (k : C -> D) : (forall a b, k (r a b) = q b) ->
  forall (o : list A) (l : list B), length l = length o -> map k (map (fun x => r (fst x) (snd x)) (combine o l)) = map q l.
Proof. intros K. induction o as [|a o IH]; intros [|b l] L; simpl in *; try discriminate; [reflexivity|]. rewrite K, IH; [reflexivity|lia]. Qed.

(** ** RiemannianSGD *)
Section Sgd.
  Let rests (p : sgd_param) : Prop := resting (manifold_of p) (val p).
  Lemma sgd_update_rests h p : plain_sgd h -> quiet p (grad p) -> rests p -> snd (sgd_update h p) = Ok /\ key (fst (sgd_update h p)) = key p.
  Proof.
    intros (Mo & W & _) Q (R1 & R2 & _ & _). unfold sgd_update. destruct Q as [->|(g & -> & C)]; [now split|].
    assert (HM : has_momentum h = false) by (unfold has_momentum; rewrite Mo; destruct (Rlt_dec 0 0); [lra|reflexivity]).
    unfold sgd_direction. rewrite HM. unfold decayed. rewrite W.
    replace (vadd g (smul 0 (val p))) with g by (apply vec_ext; intro i; unfold vadd, smul; ring).
    rewrite C, smul_zero, R1. now split.
  Qed.
  Lemma sgd_stabilize_rests h p : rests p -> key (sgd_stabilize h p) = key p.
  Proof.
    intros (_ & _ & R3 & _). unfold sgd_stabilize. unfold manifold_of in R3. destruct (man p) eqn:E; [|reflexivity]. unfold key. simpl. now rewrite R3, E.
  Qed.
  Lemma key_rests p q : key p = key q -> rests p -> rests q.
  Proof. unfold rests, manifold_of. intros E. injection E as -> ->. auto. Qed.
  Lemma sgd_group_rests g : plain_sgd (hyp g) -> Forall (fun p => quiet p (grad p) /\ rests p) (params g) ->
    snd (sgd_step_group g) = Ok /\ map key (params (fst (sgd_step_group g))) = map key (params g) /\ plain_sgd (hyp (fst (sgd_step_group g))).
  Proof.
    intros L F. set (u := fun p => fst (sgd_update (hyp g) p)).
    assert (U : Forall (fun p => key (u p) = key p) (params g)).
    { refine (Forall_impl _ _ F). intros p [Q R]. now apply sgd_update_rests. }
    assert (T : Forall (fun p => key (sgd_stabilize (hyp g) p) = key p) (map u (params g))).
    { rewrite Forall_map. rewrite Forall_forall in *. intros p I. apply sgd_stabilize_rests. apply (key_rests p); [symmetry; now apply U|now apply F]. }
    unfold sgd_step_group. rewrite loop_total by (refine (Forall_impl _ _ F); intros p [Q R]; now apply sgd_update_rests).
    fold u. destruct L as (L1 & L2 & L3). destruct (stabilize (hyp g)) as [[|N]|] eqn:St; [now elim L3| |]; [destruct (_ =? _)%nat|]; cbn [fst snd params hyp];
      (split; [reflexivity|]); (split; [|now repeat split; rewrite ?St]); first [exact (map_key _ _ U)|etransitivity; [exact (map_key _ _ T)|exact (map_key _ _ U)]].
  Qed.
  Lemma sgd_fixed E G : (forall t h, plain_sgd h -> plain_sgd (E t h)) -> forall n t o, Forall (fun g => plain_sgd (hyp g)) o ->
    Forall rests (concat (map params o)) -> (forall t, critical_gradients (G t (map val (concat (map params o)))) (concat (map params o))) ->
    exists o', train_sgd E G t n o = (o', Ok) /\ map val (concat (map params o')) = map val (concat (map params o)).
  Proof.
    intros L. induction n as [|n IH]; intros t o P R C; [now exists o|]. cbn [train_sgd].
    match goal with |- context [sgd_step ?x] => set (o2 := x) end.
    assert (K2 : map (fun g => map key (params g)) o2 = map (fun g => map key (params g)) o).
    { unfold o2. rewrite (combine_keys (fun a b => {| hyp := E t (hyp a); steps := steps a; params := b |}) (map key)); [|reflexivity|].
      - etransitivity; [apply assign_groups_key|]. now rewrite map_map.
      - etransitivity; [apply length_assign|]. apply map_length. }
    destruct (each_kept sgd_step_group (fun g => map key (params g)) (fun g => plain_sgd (hyp g)) o2) as (o3 & E3 & K3 & P3).
    { refine (Forall_impl (P := fun g => plain_sgd (hyp g) /\ Forall (fun p => quiet p (grad p) /\ rests p) (params g)) _ _ _).
      - intros g [A B]. now apply sgd_group_rests.
      - unfold o2. apply (combined (fun a b => {| hyp := E t (hyp a); steps := steps a; params := b |}) (fun g => plain_sgd (hyp g)) (Forall (fun p => quiet p (grad p) /\ rests p))).
        + intros a b A B. split; [now apply L|exact B].
        + exact P.
        + apply assign_groups_quiet; [auto| |].
          * intros k p Q. exact (C t k p Q).
          * clear - R. induction (map params o) as [|ps pss IH]; constructor; simpl in R; apply Forall_app in R as [R1 R2]; [exact R1|now apply IH]. }
    unfold sgd_step. rewrite E3.
    assert (KK : map key (concat (map params o3)) = map key (concat (map params o))).
    { rewrite !concat_map, !map_map. f_equal. etransitivity; [exact K3|exact K2]. }
    destruct (IH (Datatypes.S t) o3 P3) as (o' & T' & V').
    - rewrite Forall_forall in *. intros q Q. apply (in_map key) in Q. rewrite KK in Q. apply in_map_iff in Q as (p & Ep & Ip).
      exact (key_rests p q Ep (R p Ip)).
    - intro t'. rewrite (key_val _ _ KK). apply (critical_key _ (concat (map params o))); [symmetry; exact KK|apply C].
    - exists o'. split; [exact T'|]. rewrite V'. apply key_val, KK.
  Qed.
End Sgd.

(** ** RiemannianAdam *)
Lemma assigned_pairs {A S} (prm : A -> list (param S)) (P : A -> Prop) (J : A -> param S -> Prop) G :
  (forall a p g, J a p -> J a {| man := man p; val := val p; grad := g; state := state p |}) ->
  forall o i, (forall k p, nth_error (concat (map prm o)) k = Some p -> quiet p (G (i + k)%nat)) -> Forall (fun a => P a /\ Forall (J a) (prm a)) o ->
  Forall (fun x => P (fst x) /\ Forall (fun p => quiet p (grad p) /\ J (fst x) p) (snd x)) (combine o (assign_groups G i (map prm o))).
Proof.
  intro HJ. induction o as [|a o IH]; intros i H F; simpl; constructor; inversion F as [|? ? [F1 F2] F3]; subst.
  - split; [exact F1|]. apply assign_quiet; auto. intros k p K. apply H. simpl. rewrite nth_error_app1; [exact K|]. apply nth_error_Some. congruence.
  - apply IH; [|assumption]. intros k p K. rewrite <- Nat.add_assoc. apply H. simpl. rewrite nth_error_app2 by lia.
    replace (length (prm a) + k - length (prm a))%nat with k by lia. exact K.
Qed.
Section Adam.
  Let calm (am : bool) (p : adam_param) : Prop := resting (manifold_of p) (val p) /\
    match state p with None => True | Some s => exp_avg s = vzero /\ (am = true -> max_exp_avg_sq s <> None) end.
  Lemma adam_visit_rests h p : plain_adam h -> quiet p (grad p) -> calm (amsgrad h) p ->
    snd (adam_visit h p) = Ok /\ key (fst (adam_visit h p)) = key p /\ calm (amsgrad h) (fst (adam_visit h p)).
  Proof.
    intros (W & St) Q ((R1 & R2 & R3 & R4) & Z).
    assert (U : snd (adam_update h p) = Ok /\ key (fst (adam_update h p)) = key p /\ calm (amsgrad h) (fst (adam_update h p))).
    { unfold adam_update. destruct Q as [->|(g & -> & C)]; [now repeat split|]. rewrite W.
      replace (vadd g (smul 0 (val p))) with g by (apply vec_ext; intro i; unfold vadd, smul; ring). rewrite C.
      assert (A0 : exp_avg (adam_init h (state p)) = vzero) by (unfold adam_init; destruct (state p); [exact (proj1 Z)|reflexivity]).
      assert (M0 : amsgrad h = true -> max_exp_avg_sq (adam_init h (state p)) <> None).
      { intro Am. unfold adam_init. destruct (state p); [exact (proj2 Z Am)|]. simpl. rewrite Am. discriminate. }
      unfold first_moment. rewrite A0, !smul_zero, add_zero.
      assert (D : forall n d, smul (- a_lr h) (adam_direction h n vzero d) = vzero).
      { intros n d. apply vec_ext. intro i. unfold adam_direction, vdivv, vdiv, vadd, smul, vzero. unfold Rdiv. ring. }
      destruct (amsgrad h) eqn:Am.
      - destruct (max_exp_avg_sq (adam_init h (state p))) as [mx|]; [|now elim M0]. rewrite D, R2. cbn [fst snd]. split; [reflexivity|]. split; [reflexivity|].
        unfold calm. cbn. repeat split; auto; discriminate.
      - rewrite D, R2. cbn [fst snd]. split; [reflexivity|]. split; [reflexivity|]. unfold calm. cbn. repeat split; auto; discriminate. }
    unfold adam_visit. destruct (adam_update h p) as [q s]. cbn [fst snd] in U. destruct U as (-> & K & Cq).
    destruct (a_stabilize h) as [[|N]|]; [now elim St| |]; (split; [reflexivity|split; [exact K|exact Cq]]).
  Qed.
  Lemma adam_stabilize_rests am p : calm am p -> key (adam_stabilize p) = key p /\ calm am (adam_stabilize p).
  Proof.
    intros ((R1 & R2 & R3 & R4) & Z). unfold adam_stabilize. destruct (man p) as [M|] eqn:E; [|split; [reflexivity|]].
    - unfold manifold_of in *. rewrite E in *. destruct (state p) as [s|] eqn:Es.
      + split; [unfold key; cbn; now rewrite R3, E|]. unfold calm, manifold_of. cbn. destruct Z as [Z1 Z2]. rewrite R3, Z1. now repeat split.
      + split; [reflexivity|]. unfold calm, manifold_of. rewrite E, Es. now repeat split.
    - unfold calm. repeat split; auto.
  Qed.
  Lemma adam_group_rests g : plain_adam (a_hyp g) -> Forall (fun p => quiet p (grad p) /\ calm (amsgrad (a_hyp g)) p) (a_params g) ->
    snd (adam_step_group g) = Ok /\ map key (a_params (fst (adam_step_group g))) = map key (a_params g) /\
    (plain_adam (a_hyp (fst (adam_step_group g))) /\ Forall (calm (amsgrad (a_hyp (fst (adam_step_group g))))) (a_params (fst (adam_step_group g)))).
  Proof.
    intros L F. set (u := fun p => fst (adam_visit (a_hyp g) p)). set (cl := calm (amsgrad (a_hyp g))).
    assert (U : Forall (fun p => key (u p) = key p /\ cl (u p)) (a_params g)).
    { refine (Forall_impl _ _ F). intros p [Q R]. now apply adam_visit_rests. }
    assert (UK : Forall (fun p => key (u p) = key p) (a_params g)) by (refine (Forall_impl _ _ U); now intros p []).
    assert (UC : Forall cl (map u (a_params g))) by (rewrite Forall_map; refine (Forall_impl _ _ U); now intros p []).
    assert (TK : Forall (fun p => key (adam_stabilize p) = key p) (map u (a_params g))) by (refine (Forall_impl _ _ UC); intros p Cp; now apply (adam_stabilize_rests (amsgrad (a_hyp g)))).
    assert (TC : Forall cl (map adam_stabilize (map u (a_params g)))) by (rewrite Forall_map; refine (Forall_impl _ _ UC); intros p Cp; now apply adam_stabilize_rests).
    unfold adam_step_group. rewrite loop_total by (refine (Forall_impl _ _ F); intros p [Q R]; now apply adam_visit_rests).
    fold u. destruct (a_stabilize (a_hyp g)) as [N|] eqn:St; [destruct existsb|]; cbn [fst snd a_params a_hyp];
      (split; [reflexivity|]); (split; [first [exact (map_key _ _ UK)|etransitivity; [exact (map_key _ _ TK)|exact (map_key _ _ UK)]]|]); split; assumption.
  Qed.
  Lemma adam_fixed_inv E G : (forall t h, plain_adam h -> plain_adam (E t h) /\ amsgrad (E t h) = amsgrad h) -> forall n t o,
    Forall (fun g => plain_adam (a_hyp g) /\ Forall (calm (amsgrad (a_hyp g))) (a_params g)) o ->
    (forall t, critical_gradients (G t (map val (concat (map a_params o)))) (concat (map a_params o))) ->
    exists o', train_adam E G t n o = (o', Ok) /\ map val (concat (map a_params o')) = map val (concat (map a_params o)).
  Proof.
    intros L. induction n as [|n IH]; intros t o P C; [now exists o|]. cbn [train_adam].
    match goal with |- context [adam_step ?x] => set (o2 := x) end.
    assert (K2 : map (fun g => map key (a_params g)) o2 = map (fun g => map key (a_params g)) o).
    { unfold o2. rewrite (combine_keys (fun a b => {| a_hyp := E t (a_hyp a); a_params := b |}) (map key)); [|reflexivity|].
      - etransitivity; [apply assign_groups_key|]. now rewrite map_map.
      - etransitivity; [apply length_assign|]. apply map_length. }
    destruct (each_kept adam_step_group (fun g => map key (a_params g)) (fun g => plain_adam (a_hyp g) /\ Forall (calm (amsgrad (a_hyp g))) (a_params g)) o2) as (o3 & E3 & K3 & P3).
    { refine (Forall_impl (P := fun g => plain_adam (a_hyp g) /\ Forall (fun p => quiet p (grad p) /\ calm (amsgrad (a_hyp g)) p) (a_params g)) _ _ _).
      - intros g [A B]. now apply adam_group_rests.
      - unfold o2. rewrite Forall_map.
        refine (Forall_impl _ _ (assigned_pairs a_params (fun g => plain_adam (a_hyp g)) (fun g => calm (amsgrad (a_hyp g))) _ _ o 0 _ P)).
        + intros [g ps]. cbn [fst snd a_hyp a_params]. intros [A B]. destruct (L t _ A) as [L1 L2]. rewrite L2. now split.
        + auto.
        + intros k p Q. exact (C t k p Q). }
    unfold adam_step. rewrite E3.
    assert (KK : map key (concat (map a_params o3)) = map key (concat (map a_params o))).
    { rewrite !concat_map, !map_map. f_equal. etransitivity; [exact K3|exact K2]. }
    destruct (IH (Datatypes.S t) o3 P3) as (o' & T' & V').
    - intro t'. rewrite (key_val _ _ KK). apply (critical_key _ (concat (map a_params o))); [symmetry; exact KK|apply C].
    - exists o'. split; [exact T'|]. rewrite V'. apply key_val, KK.
  Qed.
  Lemma adam_fixed E G : (forall t h, plain_adam h -> plain_adam (E t h) /\ amsgrad (E t h) = amsgrad h) -> forall n t o, Forall (fun g => plain_adam (a_hyp g)) o ->
    Forall (fun p => resting (manifold_of p) (val p) /\ state p = None) (concat (map a_params o)) ->
    (forall t, critical_gradients (G t (map val (concat (map a_params o)))) (concat (map a_params o))) ->
    exists o', train_adam E G t n o = (o', Ok) /\ map val (concat (map a_params o')) = map val (concat (map a_params o)).
  Proof.
    intros L n t o P R C. apply adam_fixed_inv; auto. clear - P R. induction o as [|g o IH]; constructor; inversion P; subst; simpl in R; apply Forall_app in R as [R1 R2].
    - split; [assumption|]. refine (Forall_impl _ _ R1). intros p [A B]. split; [exact A|]. now rewrite B.
    - now apply IH.
  Qed.
End Adam.
