(** Lemmas for SamplerProps: the structure of one RHMC step. *)
From Coq Require Import Reals List Bool Arith Lra Lia.
From Verif Require Import RVec OptimModel OptimSpec SamplerModel SamplerSpec.
Import ListNotations.
Local Open Scope R_scope.

(** * Loops *)
Lemma sweep_rel {A} (R : sparam -> sparam -> Prop) (f : sparam -> A -> sparam * sstatus) :
  (forall p, R p p) -> forall l xs l' st, (forall p x p' st, In p l -> f p x = (p', st) -> R p p') -> sweep f l xs = (l', st) -> Forall2 R l l'.
Proof.
  intros Rr. induction l as [|p l IH]; intros xs l' st H E.
  - simpl in E. injection E as <- _. constructor.
  - destruct xs as [|x xs]; simpl in E.
    + injection E as <- _. clear -Rr. induction (p :: l) as [|q m IH]; constructor; auto.
    + destruct (f p x) as [p' s1] eqn:F. destruct s1.
      * destruct (sweep f l xs) as [l1 s2] eqn:E2. injection E as <- _.
        constructor; [eapply H; [left; reflexivity|exact F]|]. apply (IH xs l1 s2); [|exact E2]. intros q y q' st' Q. apply H. right. exact Q.
      * injection E as <- _. constructor; [eapply H; [left; reflexivity|exact F]|].
        clear -Rr. induction l; constructor; auto.
Qed.
Lemma sweep_ok {A} (f : sparam -> A -> sparam * sstatus) :
  forall l xs l', length xs = length l -> sweep f l xs = (l', SOk) -> Forall2 (fun px p' => f (fst px) (snd px) = (p', SOk)) (combine l xs) l'.
Proof.
  induction l as [|p l IH]; intros [|x xs] l' L E; simpl in L; try lia; simpl in E.
  - injection E as <-. constructor.
  - destruct (f p x) as [p' s1] eqn:F. destruct s1; [|discriminate].
    destruct (sweep f l xs) as [l1 s2] eqn:E2. injection E as <- ->. simpl. constructor; [exact F|]. apply IH; [lia|exact E2].
Qed.
Lemma sweep_ok_rel {A} (R : sparam -> sparam -> Prop) (f : sparam -> A -> sparam * sstatus) :
  forall l xs l', length xs = length l -> (forall p x p', In p l -> f p x = (p', SOk) -> R p p') -> sweep f l xs = (l', SOk) -> Forall2 R l l'.
Proof.
  induction l as [|p l IH]; intros [|x xs] l' L H E; simpl in L; try lia; simpl in E.
  - injection E as <-. constructor.
  - destruct (f p x) as [p' s1] eqn:F. destruct s1; [|discriminate].
    destruct (sweep f l xs) as [l1 s2] eqn:E2. injection E as <- ->.
    constructor; [eapply H; [left; reflexivity|exact F]|]. apply (IH xs); [lia| |exact E2]. intros q y q' Q. apply H. right. exact Q.
Qed.
Lemma sweep_total {A} (f : sparam -> A -> sparam * sstatus) :
  (forall p x, snd (f p x) = SOk) -> forall l xs, snd (sweep f l xs) = SOk.
Proof.
  intros H. induction l as [|p l IH]; intros [|x xs]; simpl; auto.
  destruct (f p x) as [p' s1] eqn:F. pose proof (H p x) as K. rewrite F in K. simpl in K. subst s1.
  pose proof (IH xs) as K. destruct (sweep f l xs). exact K.
Qed.
Lemma fst_combine {A B} (l : list A) (m : list B) : length l = length m -> map fst (combine l m) = l.
Proof. revert m. induction l as [|a l IH]; intros [|b m] L; simpl in *; try lia; f_equal. apply IH. lia. Qed.
Lemma units_length l : length (units l) = length l.
Proof. apply map_length. Qed.
Lemma f2_trans {A B C} (P : A -> B -> Prop) (Q : B -> C -> Prop) (T : A -> C -> Prop) :
  (forall a b c, P a b -> Q b c -> T a c) -> forall l m n, Forall2 P l m -> Forall2 Q m n -> Forall2 T l n.
Proof. intros H l m n F. revert n. induction F; intros n G; inversion G; subst; constructor; eauto. Qed.
Lemma f2_impl {A B} (P Q : A -> B -> Prop) : (forall a b, P a b -> Q a b) -> forall l m, Forall2 P l m -> Forall2 Q l m.
Proof. intros H l m F. induction F; constructor; auto. Qed.
Lemma f2_map {A B C} (P : A -> B -> Prop) (f : A -> C) (g : B -> C) : (forall a b, P a b -> f a = g b) -> forall l m, Forall2 P l m -> map f l = map g m.
Proof. intros H l m F. induction F; simpl; [reflexivity|]. f_equal; auto. Qed.

(** * What a step keeps of a parameter *)
(** Original parameter p0 (after the first backward) with its noise, and present parameter p. *)
Definition same_frame (p0 p : sparam) : Prop := v_man p = v_man p0 /\ v_size p = v_size p0 /\ v_eps p = v_eps p0.
Definition track (a : sparam * vec) (p : sparam) : Prop :=
  let '(p0, z) := a in
  same_frame p0 p /\
  match v_grad p0 with
  | None => p = p0
  | Some _ => exists g h, v_grad p = Some g /\ v_hmc p = Some h /\ old_p h = v_val p0 /\ old_r h = momentum_of p0 z
  end.
Definition idle (gs : list (option vec)) (l : list sparam) : Prop :=
  forall i p g, nth_error l i = Some p -> v_grad p = None -> nth_error gs i <> Some (Some g).
Lemma idle_tl g gs p l : idle (g :: gs) (p :: l) -> idle gs l.
Proof. intros H i q h Q V. apply (H (S i) q h Q V). Qed.
Lemma track_backward l0 l : Forall2 track l0 l -> forall gs, idle gs (map fst l0) -> Forall2 track l0 (backward l gs).
Proof.
  induction 1 as [|[p0 z] p l0 l T F IH]; intros [|g gs] I; simpl; auto.
  constructor; [|apply IH; apply (idle_tl g gs p0 (map fst l0) I)].
  pose proof T as TT. destruct T as [S T]. unfold add_grad. destruct g as [g|]; [|exact TT].
  split; [destruct S as (A & B & C); split; [|split]; assumption|]. destruct (v_grad p0) eqn:G0.
  - destruct T as (g' & h & G & Hh & O). eexists. exists h. split; [reflexivity|]. split; [exact Hh|exact O].
  - exfalso. apply (I O p0 g); [reflexivity|exact G0|reflexivity].
Qed.
Lemma track_continue l0 l l' st : Forall2 track l0 l -> sweep continue l (units l) = (l', st) -> Forall2 track l0 l'.
Proof.
  intros F E. eapply f2_trans; [|exact F|].
  2: { eapply (sweep_rel (fun p p' => forall a, track a p -> track a p') continue); [auto| |exact E].
       intros p x p' s1 _ C [p0 z] TT. pose proof TT as [(A & B & C0) T]. unfold continue in C. destruct (v_grad p) eqn:G.
       - destruct (v_hmc p) as [h|] eqn:Hh; [|injection C as <- _; exact TT].
         injection C as <- _. unfold kick. destruct (retr_transp (s_manifold p) (v_val p) _ _) as [x1 r1].
         split; [split; [|split]; assumption|]. destruct (v_grad p0) eqn:G0.
         + eexists. eexists. split; [reflexivity|]. split; [reflexivity|]. cbn. destruct T as (g' & h' & _ & H' & O). injection H' as <-. exact O.
         + exfalso. subst p0. congruence.
       - injection C as <- _. exact TT. }
  cbn. intros a b c P Q. apply Q, P.
Qed.
Lemma track_finish e l0 l l' st : Forall2 track l0 l -> sweep (finish e) l (units l) = (l', st) -> Forall2 track l0 l'.
Proof.
  intros F E. eapply f2_trans; [|exact F|].
  2: { eapply (sweep_rel (fun p p' => forall a, track a p -> track a p') (finish e)); [auto| |exact E].
       intros p x p' s1 _ C [p0 z] TT. pose proof TT as [(A & B & C0) T]. unfold finish in C. destruct (v_grad p) eqn:G.
       - destruct (v_hmc p) as [h|] eqn:Hh; [destruct e|].
         + injection C as <- _. split; [split; [|split]; assumption|]. destruct (v_grad p0) eqn:G0.
           * eexists. eexists. split; [reflexivity|]. split; [reflexivity|]. cbn. destruct T as (g' & h' & _ & H' & O). injection H' as <-. exact O.
           * exfalso. subst p0. congruence.
         + injection C as <- _. exact TT.
         + injection C as <- _. exact TT.
       - injection C as <- _. exact TT. }
  cbn. intros a b c P Q. apply Q, P.
Qed.
Lemma begin_total p z : snd (begin p z) = SOk.
Proof. unfold begin. destruct (v_grad p); reflexivity. Qed.
Lemma track_begin l zs l' st : length zs = length l -> sweep begin l zs = (l', st) -> Forall2 track (combine l zs) l'.
Proof.
  intros L E. pose proof (sweep_total begin begin_total l zs) as T. rewrite E in T. simpl in T. subst st.
  eapply f2_impl; [|apply (sweep_ok begin); [exact L|exact E]]. intros [p z] p' B. unfold begin in B. cbn [fst snd] in B. destruct (v_grad p) eqn:G.
  - injection B as <-. unfold kick. destruct (retr_transp (s_manifold p) (v_val p) _ _) as [x1 r1].
    split; [repeat split|]. rewrite G. eexists. eexists. split; [reflexivity|]. split; [reflexivity|]. split; reflexivity.
  - injection B as <-. split; [repeat split|]. rewrite G. reflexivity.
Qed.
Lemma finish_values e l l' st : sweep (finish e) l (units l) = (l', st) -> map v_val l' = map v_val l.
Proof.
  intros E. symmetry. eapply (f2_map (fun p p' => v_val p = v_val p')); [auto|].
  eapply (sweep_rel _ (finish e)); [auto| |exact E]. intros p x p' s1 _ C. unfold finish in C.
  destruct (v_grad p); [destruct (v_hmc p); [destruct e|]|]; injection C as <- _; reflexivity.
Qed.
Lemma backward_values l gs : map v_val (backward l gs) = map v_val l.
Proof.
  revert gs. induction l as [|p l IH]; intros [|g gs]; simpl; auto. f_equal; [|apply IH]. destruct g; reflexivity.
Qed.
Lemma backward_length l gs : length (backward l gs) = length l.
Proof. rewrite <- (map_length v_val), backward_values. apply map_length. Qed.
Lemma restore_values l0 l : Forall2 track l0 l -> map v_val (map restore l) = map v_val (map fst l0).
Proof.
  induction 1 as [|[p0 z] p l0 l [S T] F IH]; simpl; auto. f_equal; [|exact IH]. unfold restore.
  destruct (v_grad p0) eqn:G0.
  - destruct T as (g & h & G & H & O & _). rewrite G, H. exact O.
  - subst p0. rewrite G0. reflexivity.
Qed.

(** * One step *)
Section Step.
  Variable closure : list vec -> R * list (option vec).
  Variable lim : R.
  Definition keeps (s t : sampler) : Prop :=
    n_steps s = n_steps t /\ n_rejected s = n_rejected t /\ steps s = steps t /\ burnin s = burnin t /\ log_probs s = log_probs t /\ acceptance_probs s = acceptance_probs t.
  Lemma keeps_refl s : keeps s s.
  Proof. repeat split. Qed.
  Lemma keeps_trans a b c : keeps a b -> keeps b c -> keeps a c.
  Proof. intros (A & B & C & D & E & F) (A' & B' & C' & D' & E' & F'). repeat split; congruence. Qed.
  Lemma keeps_params l s : keeps s (put_params l s).
  Proof. repeat split. Qed.
  Lemma evaluate_eq s : evaluate closure s = (fst (closure (values s)), put_evals (S (evals s)) (put_params (backward (params s) (snd (closure (values s)))) s)).
  Proof. unfold evaluate, values. destruct (closure (map v_val (params s))). reflexivity. Qed.

  Definition calm (l0 : list sparam) : Prop := forall xs, length xs = length l0 -> idle (snd (closure xs)) l0.
  Lemma track_length l0 s : Forall2 track l0 (params s) -> length (values s) = length (map fst l0).
  Proof. intros F. unfold values. rewrite !map_length. induction F; simpl; congruence. Qed.
  Lemma repeat_spec l0 : calm (map fst l0) -> forall k s s' st, Forall2 track l0 (params s) -> repeat_continue closure k s = (s', st) ->
    Forall2 track l0 (params s') /\ keeps s s' /\ (st = SOk -> evals s' = k + evals s)%nat.
  Proof.
    intros C. induction k as [|k IH]; intros s s' st F E.
    - simpl in E. injection E as <- <-. split; [exact F|]. split; [apply keeps_refl|reflexivity].
    - cbn [repeat_continue] in E. rewrite evaluate_eq in E. cbv beta iota in E. cbn [params put_evals put_params] in E.
      destruct (sweep continue _ _) as [l st1] eqn:W in E.
      assert (T1 : Forall2 track l0 l) by (eapply track_continue; [|exact W]; apply track_backward; [exact F|apply C, track_length, F]).
      destruct st1.
      + apply IH in E; [|exact T1]. destruct E as (T & K & N). split; [exact T|].
        split; [eapply keeps_trans; [|exact K]; repeat split|]. intros O. rewrite (N O). cbn. lia.
      + injection E as <- <-. split; [exact T1|]. split; [repeat split|discriminate].
  Qed.
  Lemma steady_calm s : steady closure -> calm (backward (params s) (snd (closure (values s)))).
  Proof.
    intros S xs Lx i p g P V E. rewrite backward_length, <- (map_length v_val) in Lx. destruct (S _ (values s) _ _ Lx E) as [h H].
    revert P V H. generalize (snd (closure (values s))) as gs. generalize (params s) as l. clear. intros l. revert i.
    induction l as [|q l IH]; intros [|i] [|g gs]; simpl; try discriminate.
    - intros Q V G. injection G as ->. injection Q as <-. simpl in V. discriminate.
    - intros Q V G. eapply IH; eassumption.
  Qed.
  (** the sampler after the first evaluation *)
  Definition opened (s : sampler) : list sparam := backward (params s) (snd (closure (values s))).
  Lemma rhmc_inv zs u s s' st : steady closure -> length zs = length (params s) -> rhmc_step closure lim zs u s = (s', st) ->
    match st with
    | SOk => exists t, Forall2 track (combine (opened s) zs) (params t) /\ keeps s t /\ evals t = (evals s + Nat.max 2 (S (n_steps s)))%nat /\
        forall v, rhmc_step closure lim zs v s =
          (decide (Rmin 1 (exp ((- log_density closure s + begin_energy (opened s) zs) - (- log_density closure t + end_energy (params t))))) v
               (log_density closure s) (log_density closure t) t, SOk)
    | SRaise _ => Forall2 track (combine (opened s) zs) (params s') /\ keeps s s'
    end.
  Proof.
    intros S L E. unfold rhmc_step in E. unfold rhmc_step. rewrite evaluate_eq in E. rewrite evaluate_eq. cbv beta iota zeta in E. cbv beta iota zeta.
    cbn [params put_evals put_params] in E. cbn [params put_evals put_params].
    fold (opened s) in E. fold (opened s). pose proof (steady_calm s S) as C. fold (opened s) in C.
    assert (LO : length zs = length (opened s)) by (unfold opened; rewrite backward_length; exact L).
    destruct (sweep begin (opened s) zs) as [l1 st1] eqn:W1. pose proof (track_begin _ _ _ _ LO W1) as T1.
    rewrite <- (fst_combine (opened s) zs) in C by (symmetry; exact LO).
    destruct (repeat_continue closure _ _) as [s2 st2] eqn:W2 in E. rewrite W2. cbn [n_steps put_params] in W2.
    apply (repeat_spec (combine (opened s) zs) C) in W2; [|exact T1]. destruct W2 as (T2 & K2 & N2).
    destruct st2.
    2: { injection E as <- <-. split; [exact T2|]. eapply keeps_trans; [|exact K2]. repeat split. }
    rewrite evaluate_eq in E. rewrite evaluate_eq. cbv beta iota zeta in E. cbv beta iota zeta. cbn [params put_evals put_params] in E. cbn [params put_evals put_params].
    destruct (sweep (finish _) _ _) as [l3 st3] eqn:W3 in E. rewrite W3. pose proof (finish_values _ _ _ _ W3) as V3. rewrite backward_values in V3.
    assert (T3 : Forall2 track (combine (opened s) zs) l3) by (eapply track_finish; [|exact W3]; apply track_backward; [exact T2|apply C, track_length, T2]).
    match type of E with context [put_params l3 ?x] => set (t := put_params l3 x) in * end.
    assert (KT : keeps s t) by (eapply keeps_trans; [|eapply keeps_trans; [exact K2|]]; repeat split).
    destruct st3.
    - assert (VT : values t = values s2) by exact V3.
      destruct (Rlt_dec lim _) as [Hl|Hl] eqn:W4 in E.
      + injection E as <- <-. split; [exact T3|exact KT].
      + injection E as <- <-. exists t. split; [exact T3|]. split; [exact KT|]. split.
        * subst t. cbn [evals put_params put_evals]. rewrite (N2 eq_refl). cbn [evals put_params put_evals n_steps]. lia.
        * intros v. unfold log_density. rewrite VT. rewrite W4. reflexivity.
    - injection E as <- <-. split; [exact T3|exact KT].
  Qed.
End Step.
