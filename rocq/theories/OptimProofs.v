(** Lemmas for RiemannianSGD. *)
From Coq Require Import Reals List Bool Arith Lra Lia.
From Verif Require Import RVec OptimModel OptimSpec.
Import ListNotations.
Local Open Scope R_scope.

(** * Loops *)
Lemma loop_rel {S} (f : param S -> param S * status) ps :
  Forall2 (fun p q => q = fst (f p) \/ q = p) ps (fst (loop f ps)).
Proof.
  induction ps as [|p ps IH]; simpl; [constructor|]. destruct (f p) as [q s] eqn:E.
  assert (Same : forall l : list (param S), Forall2 (fun p q => q = fst (f p) \/ q = p) l l) by (induction l; constructor; auto).
  destruct s; simpl; try (constructor; [left; rewrite E; reflexivity|apply Same]).
  destruct (loop f ps) as [qs s]. simpl in *. constructor; [left; rewrite E; reflexivity|exact IH].
Qed.
Lemma loop_ok {S} (f : param S -> param S * status) ps qs : loop f ps = (qs, Ok) -> qs = map (fun p => fst (f p)) ps /\ Forall (fun p => snd (f p) = Ok) ps.
Proof.
  revert qs. induction ps as [|p ps IH]; simpl; intros qs; [intros [= <-]; split; constructor|].
  destruct (f p) as [q s] eqn:E. destruct s; try discriminate. destruct (loop f ps) as [q' s] eqn:L. intros [= <- ->].
  destruct (IH q' eq_refl) as [-> F]. split; [f_equal|constructor; [rewrite E|]]; auto.
Qed.
Lemma loop_total {S} (f : param S -> param S * status) ps : Forall (fun p => snd (f p) = Ok) ps -> loop f ps = (map (fun p => fst (f p)) ps, Ok).
Proof.
  induction 1 as [|p ps H F IH]; simpl; [reflexivity|]. destruct (f p) as [q s] eqn:E. simpl in H. subst s. rewrite IH. reflexivity.
Qed.
Lemma each_rel {G} (f : G -> G * status) gs : Forall2 (fun p q => q = fst (f p) \/ q = p) gs (fst (each f gs)).
Proof.
  induction gs as [|p ps IH]; simpl; [constructor|]. destruct (f p) as [q s] eqn:E.
  assert (Same : forall l : list G, Forall2 (fun p q => q = fst (f p) \/ q = p) l l) by (induction l; constructor; auto).
  destruct s; simpl; try (constructor; [left; rewrite E; reflexivity|apply Same]).
  destruct (each f ps) as [qs s]. simpl in *. constructor; [left; rewrite E; reflexivity|exact IH].
Qed.
Lemma each_ok {G} (f : G -> G * status) gs hs : each f gs = (hs, Ok) -> hs = map (fun g => fst (f g)) gs.
Proof.
  revert hs. induction gs as [|p ps IH]; simpl; intros qs; [intros [= <-]; reflexivity|].
  destruct (f p) as [q s] eqn:E. destruct s; try discriminate. destruct (each f ps) as [q' s] eqn:L. intros [= <- ->].
  rewrite (IH q' eq_refl). reflexivity.
Qed.
Lemma Forall2_in_r {A B} (R : A -> B -> Prop) l l' : Forall2 R l l' -> forall y, In y l' -> exists x, In x l /\ R x y.
Proof. induction 1; simpl; [tauto|]. intros z [<-|I]; [eauto|]. destruct (IHForall2 z I) as [w [? ?]]. eauto. Qed.
Lemma Forall2_in_l {A B} (R : A -> B -> Prop) l l' : Forall2 R l l' -> forall x, In x l -> exists y, In y l' /\ R x y.
Proof. induction 1; simpl; [tauto|]. intros z [<-|I]; [eauto|]. destruct (IHForall2 z I) as [w [? ?]]. eauto. Qed.

(** A parameter after a step comes from one before it: unchanged, updated, or updated
    and stabilised. *)
Lemma sgd_group_rel g : hyp (fst (sgd_step_group g)) = hyp g /\
  Forall2 (fun p q => q = p \/ q = fst (sgd_update (hyp g) p) \/ q = sgd_stabilize (hyp g) (fst (sgd_update (hyp g) p)))
    (params g) (params (fst (sgd_step_group g))).
Proof.
  unfold sgd_step_group. pose proof (loop_rel (sgd_update (hyp g)) (params g)) as L.
  destruct (loop (sgd_update (hyp g)) (params g)) as [ps s] eqn:E. simpl in L.
  assert (W : Forall2 (fun p q => q = p \/ q = fst (sgd_update (hyp g) p) \/ q = sgd_stabilize (hyp g) (fst (sgd_update (hyp g) p))) (params g) ps).
  { clear E. induction L as [|? ? ? ? [|]]; constructor; auto. }
  destruct s; try (split; [reflexivity|exact W]). apply loop_ok in E. destruct E as [-> _].
  destruct (stabilize (hyp g)) as [[|N]|]; try (split; [reflexivity|exact W]).
  destruct (_ =? 0)%nat; [|split; [reflexivity|exact W]]. split; [reflexivity|]. simpl.
  clear. induction (params g); simpl; constructor; auto.
Qed.
(** Invariants of histories: enough to check one parameter at a time. *)
Lemma sgd_history_inv (new : sgd_param -> Prop) (ok : list sgd_group -> Prop) (J : sgd_param -> Prop) :
  (forall p q, kept p q -> J p -> J q) ->
  (forall p, fresh p -> new p -> J p) ->
  (forall o g p, ok o -> In g o -> In p (params g) -> J p -> J (fst (sgd_update (hyp g) p)) /\ J (sgd_stabilize (hyp g) (fst (sgd_update (hyp g) p)))) ->
  forall o o', sgd_history new ok o o' -> sgd_all (fun _ => J) o -> sgd_all (fun _ => J) o'.
Proof.
  intros HK HN HS o o' H. induction H as [o|o o1 o2 H IH E|o o1 H IH O]; intros A; [exact A| |].
  - specialize (IH A). intros g p Ig Ip. destruct E as [om [added [-> [F1 F2]]]].
    apply in_app_or in Ig. destruct Ig as [Ig|Ig].
    + destruct (Forall2_in_r _ _ _ F1 g Ig) as [g0 [I0 [_ FP]]]. destruct (Forall2_in_r _ _ _ FP p Ip) as [p0 [Ip0 K]].
      apply (HK p0 p K). exact (IH g0 p0 I0 Ip0).
    + rewrite Forall_forall in F2. destruct (F2 g Ig) as [_ F]. rewrite Forall_forall in F. destruct (F p Ip). auto.
  - specialize (IH A). intros g p Ig Ip. destruct (Forall2_in_r _ _ _ (each_rel sgd_step_group o1) g Ig) as [g0 [I0 [->| ->]]]; [|exact (IH g0 p I0 Ip)].
    destruct (sgd_group_rel g0) as [_ F]. destruct (Forall2_in_r _ _ _ F p Ip) as [p0 [Ip0 [->|[->| ->]]]]; [exact (IH g0 p0 I0 Ip0)| |]; apply (HS o1 g0 p0 O I0 Ip0 (IH g0 p0 I0 Ip0)).
Qed.

Lemma man_update h p : man (fst (sgd_update h p)) = man p.
Proof. unfold sgd_update. destruct (grad p); try reflexivity. destruct (has_momentum h); [|reflexivity]. destruct (retr_transp _ _ _ _). reflexivity. Qed.
Lemma manifold_of_update h p : manifold_of (fst (sgd_update h p)) = manifold_of p.
Proof. unfold manifold_of. rewrite man_update. reflexivity. Qed.
Lemma man_stabilize h p : man (sgd_stabilize h p) = man p.
Proof. unfold sgd_stabilize. destruct (man p) eqn:E; [reflexivity|exact E]. Qed.
Lemma kept_manifold {S} (p q : param S) : kept p q -> manifold_of p = manifold_of q.
Proof. intros [E _]. unfold manifold_of. rewrite E. reflexivity. Qed.

Section Laws.
  Variables (on : manifold -> vec -> Prop) (tan : manifold -> vec -> vec -> Prop).
  Notation law p := (lawful (manifold_of p) (on (manifold_of p)) (tan (manifold_of p))).

  (** the first gradient seen with momentum is itself a direction *)
  Definition first_ok (h : sgd_hyper) (p : sgd_param) : Prop :=
    forall g, grad p = Dense g -> has_momentum h = true -> state p = None -> tan (manifold_of p) (val p) g.
  (** momentum is not switched off while a buffer exists *)
  Definition stays_on (h : sgd_hyper) (p : sgd_param) : Prop := state p <> None -> has_momentum h = true.
  Definition good (p : sgd_param) : Prop :=
    on (manifold_of p) (val p) /\ forall b, state p = Some b -> tan (manifold_of p) (val p) b.

  Lemma decay_tan p h g : law p -> good p -> has_momentum h = true ->
    (state p = None -> tan (manifold_of p) (val p) g) ->
    tan (manifold_of p) (val p) (new_buffer h (egrad2rgrad (manifold_of p) (val p) (decayed h (val p) g)) (sgd_buffer g (state p))).
  Proof.
    intros L [X B] H F. unfold new_buffer. apply (tan_add _ _ _ L); apply (tan_scale _ _ _ L); [|apply (grad_tan _ _ _ L); exact X].
    unfold sgd_buffer. destruct (state p) eqn:E; auto.
  Qed.
  Lemma direction_tan p h g : law p -> good p ->
    (has_momentum h = true -> state p = None -> tan (manifold_of p) (val p) g) ->
    tan (manifold_of p) (val p) (sgd_direction h (manifold_of p) (val p) g (state p)).
  Proof.
    intros L G F. unfold sgd_direction. destruct (has_momentum h) eqn:H; [|apply (grad_tan _ _ _ L); apply G].
    assert (B := decay_tan p h g L G H (F eq_refl)).
    destruct (nesterov h); [|exact B]. apply (tan_add _ _ _ L); [apply (grad_tan _ _ _ L); apply G|apply (tan_scale _ _ _ L); exact B].
  Qed.
  Lemma update_good h p : law p -> first_ok h p -> stays_on h p -> good p -> good (fst (sgd_update h p)).
  Proof.
    intros L F ST G. unfold good at 1. rewrite manifold_of_update. pose proof (direction_tan p h) as D.
    unfold sgd_update. destruct (grad p) as [|g|] eqn:Eg; [exact G| |exact G].
    specialize (D g L G (fun H E => F g Eg H E)).
    assert (D' : tan (manifold_of p) (val p) (smul (- lr h) (sgd_direction h (manifold_of p) (val p) g (state p)))) by (apply (tan_scale _ _ _ L); exact D).
    destruct (has_momentum h) eqn:H.
    - pose proof (decay_tan p h g L G H (fun E => F g Eg H E)) as B.
      pose proof (rt_on _ _ _ L _ _ _ (proj1 G) D' B) as R1. pose proof (rt_tan _ _ _ L _ _ _ (proj1 G) D' B) as R2.
      destruct (retr_transp _ _ _ _) as [y b]. simpl in *. split; [exact R1|]. intros b' [= <-]. exact R2.
    - simpl. split; [apply (retr_on _ _ _ L); [apply G|exact D']|]. intros b E. unfold stays_on in ST. rewrite H, E in ST. exfalso. assert (false = true) by (apply ST; discriminate). discriminate.
  Qed.
  Lemma stabilize_good h p : law p -> stays_on h p -> good p -> good (sgd_stabilize h p).
  Proof.
    intros L ST [X B]. unfold good, manifold_of in *. rewrite man_stabilize. unfold sgd_stabilize. destruct (man p) as [M|] eqn:E; [|split; auto].
    cbn [val state]. split; [apply (projx_on _ _ _ L); exact X|]. intros b. destruct (has_momentum h) eqn:H.
    - destruct (state p) as [c|] eqn:Es; [|discriminate]. intros [= <-]. apply (proju_tan _ _ _ L), (projx_on _ _ _ L), X.
    - intros Es. unfold stays_on in ST. rewrite H, Es in ST. exfalso. assert (false = true) by (apply ST; discriminate). discriminate.
  Qed.
  Lemma stays_update h p : stays_on h p -> stays_on h (fst (sgd_update h p)).
  Proof.
    intros ST. unfold stays_on, sgd_update in *. destruct (grad p); auto. destruct (has_momentum h) eqn:H; [|exact ST]. intros _. reflexivity.
  Qed.

  Definition welcome (p : sgd_param) : Prop := law p /\ on (manifold_of p) (val p).
  Lemma sgd_good o o' :
    sgd_history welcome (sgd_all (fun h p => first_ok h p /\ stays_on h p)) o o' ->
    sgd_all (fun _ p => law p /\ good p) o -> sgd_all (fun _ p => law p /\ good p) o'.
  Proof.
    apply (sgd_history_inv welcome _ (fun p => law p /\ good p)).
    - intros p q K [L G]. unfold good in *. rewrite <- (kept_manifold p q K). destruct K as [_ [V S]]. rewrite <- V, <- S. auto.
    - intros p F [L X]. split; [exact L|]. split; [exact X|]. intros b E. rewrite F in E. discriminate.
    - intros o1 g p O Ig Ip [L G]. destruct (O g p Ig Ip) as [F ST].
      assert (L' : law (fst (sgd_update (hyp g) p))) by (rewrite manifold_of_update; exact L).
      pose proof (update_good (hyp g) p L F ST G) as G'. split; [split; auto|].
      split; [unfold manifold_of; rewrite man_stabilize; exact L'|]. apply stabilize_good; auto. apply stays_update, ST.
  Qed.
  (** momentum off: no condition on gradients *)
  Lemma update_state h p : has_momentum h = false -> state (fst (sgd_update h p)) = state p.
  Proof. intros H. unfold sgd_update. destruct (grad p); auto. rewrite H. reflexivity. Qed.
  Lemma sgd_plain o o' :
    sgd_history welcome (sgd_all (fun h _ => momentum h <= 0)) o o' ->
    sgd_all (fun _ p => welcome p /\ fresh p) o -> sgd_all (fun _ p => welcome p /\ fresh p) o'.
  Proof.
    apply (sgd_history_inv welcome _ (fun p => welcome p /\ fresh p)).
    - intros p q K [[L X] F]. unfold welcome, fresh in *. rewrite <- (kept_manifold p q K). destruct K as [_ [V S]]. rewrite <- V, <- S. auto.
    - intros p F W. auto.
    - intros o1 g p O Ig Ip [[L X] F]. specialize (O g p Ig Ip). simpl in O.
      assert (H : has_momentum (hyp g) = false) by (unfold has_momentum; destruct (Rlt_dec 0 (momentum (hyp g))); [lra|reflexivity]).
      assert (G : good p) by (split; [exact X|intros b E; rewrite F in E; discriminate]).
      assert (FO : first_ok (hyp g) p) by (intros ? ? H'; congruence).
      assert (ST : stays_on (hyp g) p) by (intros N; contradiction N; exact F).
      assert (L' : law (fst (sgd_update (hyp g) p))) by (rewrite manifold_of_update; exact L).
      assert (F' : fresh (fst (sgd_update (hyp g) p))) by (unfold fresh; rewrite update_state; auto).
      pose proof (update_good (hyp g) p L FO ST G) as G'. pose proof (stabilize_good (hyp g) _ L' (stays_update _ _ ST) G') as G2.
      split; [split; [split; [exact L'|apply G']|exact F']|].
      split; [split; [unfold manifold_of; rewrite man_stabilize; exact L'|apply G2]|].
      unfold fresh, sgd_stabilize. destruct (man _); [|exact F']. cbn [state]. rewrite H. exact F'.
  Qed.
  (** Retractions reaching the manifold from anywhere *)
  Definition welcome_any (p : sgd_param) : Prop := absorbing (manifold_of p) (on (manifold_of p)) /\ on (manifold_of p) (val p).
  Lemma sgd_absorbing o o' :
    sgd_history welcome_any (fun _ => True) o o' -> sgd_all (fun _ => welcome_any) o -> sgd_all (fun _ => welcome_any) o'.
  Proof.
    apply (sgd_history_inv welcome_any _ welcome_any).
    - intros p q K [L X]. unfold welcome_any. rewrite <- (kept_manifold p q K). destruct K as [_ [V S]]. rewrite <- V. auto.
    - auto.
    - intros o1 g p _ Ig Ip [L X]. set (h := hyp g).
      assert (W : welcome_any (fst (sgd_update h p))).
      { unfold welcome_any. rewrite manifold_of_update. split; [exact L|]. unfold sgd_update. destruct (grad p); auto.
        destruct (has_momentum h); [|apply (any_retr _ _ L), X].
        match goal with |- context[retr_transp ?a ?b ?c ?d] => pose proof (any_rt _ _ L b c d X) as R; destruct (retr_transp a b c d) as [y b0] end. exact R. }
      split; [exact W|]. destruct W as [LW XW]. unfold welcome_any, manifold_of in *. rewrite man_stabilize. split; [exact LW|].
      unfold sgd_stabilize. destruct (man (fst (sgd_update h p))); [|exact XW]. apply (any_projx _ _ LW), XW.
  Qed.
  (** After a momentum step that ends on the manifold, the next direction is tangent. *)
  Lemma next_direction h p g h' g' : law p -> projecting (manifold_of p) (on (manifold_of p)) (tan (manifold_of p)) ->
    grad p = Dense g -> has_momentum h = true ->
    let q := fst (sgd_update h p) in on (manifold_of p) (val q) ->
    tan (manifold_of p) (val q) (sgd_direction h' (manifold_of p) (val q) g' (state q)).
  Proof.
    intros L PR Eg H q X. assert (M : manifold_of q = manifold_of p) by apply manifold_of_update. rewrite <- M.
    assert (G : good q).
    { unfold good. rewrite M. split; [exact X|]. unfold q, sgd_update in *. rewrite Eg, H in *.
      match goal with |- context[retr_transp ?a ?b ?c ?d] => specialize (PR b c d); destruct (retr_transp a b c d) as [y b0] end. simpl in *.
      intros b [= <-]. auto. }
    apply direction_tan; [rewrite M; exact L|exact G|].
    intros _ E. unfold q, sgd_update in E. rewrite Eg, H in E. destruct (retr_transp _ _ _ _). discriminate.
  Qed.
End Laws.

(** * Parameters without gradient *)
Lemma no_grad_kept h p : grad p = NoGrad -> fst (sgd_update h p) = p.
Proof. intros E. unfold sgd_update. rewrite E. reflexivity. Qed.

(** * Stabilisation: one group *)
Definition group_count (g : sgd_group) : nat := match steps g with None => O | Some n => n end.
Lemma step_group_ok g : Forall (fun p => grad p <> Sparse) (params g) ->
  loop (sgd_update (hyp g)) (params g) = (map (fun p => fst (sgd_update (hyp g) p)) (params g), Ok).
Proof.
  intros F. apply loop_total. rewrite Forall_forall in *. intros p I. specialize (F p I). unfold sgd_update.
  destruct (grad p); [reflexivity| |congruence]. destruct (has_momentum (hyp g)); [|reflexivity]. destruct (retr_transp _ _ _ _). reflexivity.
Qed.
Lemma step_group_stab g : Forall (fun p => grad p <> Sparse) (params g) ->
  forall N, stabilize (hyp g) = Some (S N) ->
  sgd_step_group g = ({| hyp := hyp g; steps := Some (S (group_count g));
    params := map (fun p => if (S (group_count g) mod S N =? 0)%nat then sgd_stabilize (hyp g) (fst (sgd_update (hyp g) p)) else fst (sgd_update (hyp g) p)) (params g) |}, Ok).
Proof.
  intros F N E. unfold sgd_step_group. rewrite (step_group_ok g F), E. fold (group_count g).
  destruct (_ =? 0)%nat; [rewrite map_map|]; reflexivity.
Qed.
Lemma step_group_none g : Forall (fun p => grad p <> Sparse) (params g) -> stabilize (hyp g) = None ->
  sgd_step_group g = ({| hyp := hyp g; steps := Some (S (group_count g)); params := map (fun p => fst (sgd_update (hyp g) p)) (params g) |}, Ok).
Proof. intros F E. unfold sgd_step_group. rewrite (step_group_ok g F), E. reflexivity. Qed.

(** * Counting the steps of a group *)
Fixpoint group_run (edit : nat -> sgd_group -> sgd_group) (g : sgd_group) (t : nat) : sgd_group :=
  match t with O => g | S t => fst (sgd_step_group (edit t (group_run edit g t))) end.
Lemma step_group_count g : steps (fst (sgd_step_group g)) = Some (S (group_count g)).
Proof.
  unfold sgd_step_group, group_count. destruct (loop _ _) as [ps s]. destruct s; try reflexivity. destruct (stabilize (hyp g)) as [[|N]|]; try reflexivity. destruct (_ =? 0)%nat; reflexivity.
Qed.
Lemma run_count edit g : (forall t g, steps (edit t g) = steps g) -> steps g = None -> forall t, group_count (group_run edit g t) = t.
Proof.
  intros E Z. induction t as [|t IH]; [unfold group_count; simpl; rewrite Z; reflexivity|]. cbn [group_run]. unfold group_count at 1. rewrite step_group_count.
  unfold group_count in *. rewrite E. rewrite IH. reflexivity.
Qed.
Lemma run_period edit g t N : (forall t g, steps (edit t g) = steps g) -> steps g = None ->
  let cur := edit t (group_run edit g t) in Forall (fun p => grad p <> Sparse) (params cur) -> stabilize (hyp cur) = Some (S N) ->
  params (group_run edit g (S t)) =
    map (fun p => let q := fst (sgd_update (hyp cur) p) in if (S t mod S N =? 0)%nat then sgd_stabilize (hyp cur) q else q) (params cur).
Proof.
  intros E Z cur F S. cbn [group_run]. fold cur. rewrite (step_group_stab cur F N S). cbn [fst params].
  replace (group_count cur) with t; [reflexivity|]. unfold cur, group_count. rewrite E. symmetry. apply (run_count edit g E Z).
Qed.
Lemma run_never edit g t : let cur := edit t (group_run edit g t) in Forall (fun p => grad p <> Sparse) (params cur) -> stabilize (hyp cur) = None ->
  params (group_run edit g (S t)) = map (fun p => fst (sgd_update (hyp cur) p)) (params cur).
Proof. intros cur F S. cbn [group_run]. fold cur. rewrite (step_group_none cur F S). reflexivity. Qed.
Lemma stabilize_zero g : Forall (fun p => grad p <> Sparse) (params g) -> stabilize (hyp g) = Some O ->
  snd (sgd_step_group g) = RaisedZeroDivisionError.
Proof. intros F E. unfold sgd_step_group. rewrite (step_group_ok g F), E. reflexivity. Qed.
Lemma stabilized h p M : man p = Some M -> val (sgd_stabilize h p) = projx M (val p) /\
  forall b, has_momentum h = true -> state p = Some b -> state (sgd_stabilize h p) = Some (proju M (projx M (val p)) b).
Proof. intros E. unfold sgd_stabilize. rewrite E. split; [reflexivity|]. intros b H Es. cbn [state]. rewrite H, Es. reflexivity. Qed.

(** * A sparse gradient in the middle *)
Lemma sparse_midway h before p after : Forall (fun q => grad q <> Sparse) before -> grad p = Sparse ->
  loop (sgd_update h) (before ++ p :: after) = (map (fun q => fst (sgd_update h q)) before ++ p :: after, RaisedRuntimeError).
Proof.
  intros F E. induction before as [|q before IH]; cbn [app loop].
  - assert (U : sgd_update h p = (p, RaisedRuntimeError)) by (unfold sgd_update; rewrite E; reflexivity). rewrite U. reflexivity.
  - inversion F as [|? ? Hq Hb]; subst. specialize (IH Hb).
    assert (OK : snd (sgd_update h q) = Ok). { unfold sgd_update. destruct (grad q); [reflexivity| |congruence]. destruct (has_momentum h); [|reflexivity]. destruct (retr_transp _ _ _ _). reflexivity. }
    cbn [map app]. destruct (sgd_update h q) as [q' s]. simpl in OK. subst s. rewrite IH. reflexivity.
Qed.
Lemma plain_stabilize h p : man p = None -> sgd_stabilize h p = p.
Proof. intros E. unfold sgd_stabilize. rewrite E. reflexivity. Qed.
Lemma no_grad_update h p : grad p = NoGrad -> sgd_update h p = (p, Ok).
Proof. intros E. unfold sgd_update. rewrite E. reflexivity. Qed.
