(** Lemmas: how parameters are divided into groups does not matter. *)
From Coq Require Import Reals List Bool Arith Lia.
From Verif Require Import RVec OptimModel OptimDecaySpec OptimProofs GroupingSpec.
Import ListNotations.

Lemma assign_length {S} G (ps : list (param S)) i : length (assign G i ps) = length ps.
Proof. revert i. induction ps; intros; cbn; auto. Qed.
Lemma assign_app {S} G (ps qs : list (param S)) i : assign G i (ps ++ qs) = assign G i ps ++ assign G (i + length ps) qs.
Proof.
  revert i. induction ps as [|p ps IH]; intros i; cbn; [rewrite Nat.add_0_r; reflexivity|].
  rewrite IH, <- Nat.add_succ_comm. reflexivity.
Qed.
Lemma assign_concat {S} G (pss : list (list (param S))) i : concat (assign_groups G i pss) = assign G i (concat pss).
Proof. revert i. induction pss as [|ps pss IH]; intros i; cbn; [reflexivity|]. rewrite assign_app, IH. reflexivity. Qed.
Lemma assign_groups_length {S} G (pss : list (list (param S))) i : length (assign_groups G i pss) = length pss.
Proof. revert i. induction pss; intros; cbn; auto. Qed.
Definition granted {S} (G : nat -> gradient) (p : param S) : Prop := exists i, grad p = G i.
Lemma assign_granted {S} G (ps : list (param S)) i : Forall (granted G) (assign G i ps).
Proof. revert i. induction ps; intros; cbn; constructor; [exists i; reflexivity|auto]. Qed.
Lemma assign_groups_granted {S} G (pss : list (list (param S))) i : Forall (Forall (granted G)) (assign_groups G i pss).
Proof. revert i. induction pss; intros; cbn; constructor; [apply assign_granted|auto]. Qed.
Lemma loop_ok {S} (u : param S -> param S * status) ps : Forall (fun p => snd (u p) = Ok) ps -> loop u ps = (map (fun p => fst (u p)) ps, Ok).
Proof.
  induction 1 as [|p ps H F IH]; cbn; [reflexivity|]. destruct (u p) as [q s]. cbn in H. subst s. rewrite IH. reflexivity.
Qed.
Lemma each_ok {A} (f : A -> A * status) gs : Forall (fun g => snd (f g) = Ok) gs -> each f gs = (map (fun g => fst (f g)) gs, Ok).
Proof.
  induction 1 as [|p ps H F IH]; cbn; [reflexivity|]. destruct (f p) as [q s]. cbn in H. subst s. rewrite IH. reflexivity.
Qed.

(** ** SGD *)
Section SGD.
  Variables (hs : nat -> sgd_hyper) (G : nat -> list vec -> nat -> gradient).
  Hypothesis NS : no_sparse G.
  Hypothesis Z : forall t, stabilize (hs t) <> Some O.
  Definition sgd_one (h : sgd_hyper) (n : nat) (p : sgd_param) : sgd_param :=
    let q := fst (sgd_update h p) in
    match stabilize h with Some N => if n mod N =? 0 then sgd_stabilize h q else q | None => q end.
  Lemma sgd_group_one h n ps : stabilize h <> Some O -> Forall (fun p => grad p <> Sparse) ps ->
    sgd_step_group {| hyp := h; steps := n; params := ps |} =
    ({| hyp := h; steps := Some (S (match n with None => O | Some n => n end)); params := map (sgd_one h (S (match n with None => O | Some n => n end))) ps |}, Ok).
  Proof.
    intros N F. unfold sgd_step_group. cbn [hyp steps params].
    rewrite loop_ok.
    2:{ induction F as [|p ps H F IH]; constructor; auto. unfold sgd_update. destruct (grad p); [reflexivity| |congruence].
        cbn zeta. destruct (has_momentum h); [|reflexivity]. destruct (retr_transp _ _ _ _). reflexivity. }
    unfold sgd_one. destruct (stabilize h) as [[|N']|]; [congruence| |reflexivity].
    destruct (_ mod _ =? 0)%nat; [|reflexivity]. rewrite map_map. reflexivity.
  Qed.
  Lemma sgd_groups_concat pss t :
    Forall (fun g => steps g = match t with O => None | _ => Some t end) (sgd_groups hs G pss t) /\
    concat (map params (sgd_groups hs G pss t)) = params (sgd_training hs G (concat pss) t) /\
    steps (sgd_training hs G (concat pss) t) = match t with O => None | _ => Some t end /\
    length (sgd_groups hs G pss t) = length pss.
  Proof.
    induction t as [|t [A [B [C D]]]].
    - split; [|split; [|split]]; cbn; auto.
      + induction pss; cbn; constructor; auto.
      + f_equal. induction pss; cbn; [reflexivity|f_equal; auto].
      + apply map_length.
    - cbn [sgd_groups sgd_training]. set (gs := sgd_groups hs G pss t) in *. rewrite B, C.
      set (g := sgd_training hs G (concat pss) t) in *. set (Gt := G t (map val (params g))).
      set (n := match t with O => None | _ => Some t end) in *.
      assert (Sn : S (match n with None => O | Some n => n end) = S t) by (unfold n; destruct t; reflexivity).
      assert (NSt : forall S (q : param S), granted Gt q -> grad q <> Sparse) by (intros ? q [i E]; rewrite E; apply NS).
      assert (St : map steps gs = map (fun _ => n) gs) by (clear - A; induction A; cbn; congruence).
      rewrite St.
      pose proof (assign_groups_granted Gt (map params gs) 0) as Gr.
      pose proof (assign_groups_length Gt (map params gs) 0) as Ln. rewrite map_length in Ln.
      assert (Cc : concat (assign_groups Gt 0 (map params gs)) = assign Gt 0 (params g)) by (rewrite <- B; apply assign_concat).
      pose proof (assign_granted Gt (params g) 0) as Gr1. rewrite <- Cc in Gr1 |- *.
      set (qss := assign_groups Gt 0 (map params gs)) in *. clearbody qss.
      assert (Cb : combine (map (fun _ : sgd_group => n) gs) qss = map (fun qs => (n, qs)) qss).
      { clear - Ln. revert qss Ln. clearbody gs n. induction gs as [|g0 gs IH]; intros [|qs qss] L; cbn in *; try lia; auto. f_equal. apply IH. lia. }
      rewrite Cb, map_map. cbn [fst snd].
      rewrite (sgd_group_one (hs t) n (concat qss)) by (apply Z || (eapply Forall_impl; [|exact Gr1]; intros; apply NSt; assumption)).
      unfold sgd_step. rewrite each_ok.
      2:{ clear - Gr Z NSt. induction Gr as [|qs qss H F IH]; cbn; constructor; auto. rewrite sgd_group_one; auto. eapply Forall_impl; [|exact H]. intros; apply NSt; auto. }
      rewrite map_map. cbn [fst steps params]. rewrite Sn.
      assert (E : map (fun qs => fst (sgd_step_group {| hyp := hs t; steps := n; params := qs |})) qss =
                  map (fun qs => {| hyp := hs t; steps := Some (S t); params := map (sgd_one (hs t) (S t)) qs |}) qss).
      { clear - Gr Z NSt Sn. induction Gr as [|qs qss H F IH]; cbn; auto. rewrite IH. f_equal.
        rewrite sgd_group_one; [cbn [fst]; rewrite Sn; reflexivity|auto|]. eapply Forall_impl; [|exact H]. intros; apply NSt; auto. }
      unfold sgd_param in E |- *. rewrite E. split; [|split; [|split]].
      + clear. induction qss; cbn; constructor; auto.
      + rewrite map_map. cbn [params]. symmetry. apply concat_map.
      + reflexivity.
      + rewrite map_length. exact (eq_trans Ln D).
  Qed.
End SGD.
Lemma sgd_grouping hs G : no_sparse G -> (forall t, stabilize (hs t) <> Some O) -> forall pss t,
  concat (map params (sgd_groups hs G pss t)) = params (sgd_training hs G (concat pss) t).
Proof. intros NS Z pss t. apply (sgd_groups_concat hs G NS Z pss t). Qed.

(** ** Adam *)
Section Adam.
  Variables (hs : nat -> adam_hyper) (G : nat -> list vec -> nat -> gradient).
  Hypothesis NS : all_dense G.
  Hypothesis Z : forall t, a_stabilize (hs t) <> Some O /\ amsgrad (hs t) = amsgrad (hs O).
  (** the state after t steps *)
  Definition started (t : nat) (p : adam_param) : Prop :=
    match state p with
    | None => t = O
    | Some s => count s = t /\ (amsgrad (hs O) = true -> max_exp_avg_sq s <> None)
    end.
  Definition adam_one (h : adam_hyper) (t : nat) (p : adam_param) : adam_param :=
    let q := fst (adam_update h p) in
    match a_stabilize h with Some N => if t mod N =? 0 then adam_stabilize q else q | None => q end.
  Lemma adam_update_started t p : started t p -> (exists g, grad p = Dense g) ->
    snd (adam_update (hs t) p) = Ok /\ started (S t) (fst (adam_update (hs t) p)) /\ (exists g, grad (fst (adam_update (hs t) p)) = Dense g) /\
    exists s, state (fst (adam_update (hs t) p)) = Some s /\ count s = S t.
  Proof.
    intros St [g E]. unfold adam_update. rewrite E. cbn zeta.
    assert (C : count (adam_init (hs t) (state p)) = t).
    { unfold started in St. destruct (state p) as [s|]; [apply St|symmetry; exact St]. }
    assert (M : amsgrad (hs t) = true -> exists m, max_exp_avg_sq (adam_init (hs t) (state p)) = Some m).
    { intros Am. unfold started in St. destruct (state p) as [s|].
      - destruct St as [_ St]. cbn. destruct (max_exp_avg_sq s) as [m|]; [eauto|]. exfalso. apply St; [rewrite <- (proj2 (Z t)); exact Am|reflexivity].
      - cbn. rewrite Am. eauto. }
    rewrite C. destruct (amsgrad (hs t)) eqn:Am.
    - destruct (M eq_refl) as [m Em]. rewrite Em. destruct (retr_transp _ _ _ _). cbn. split; [reflexivity|]. split; [|split; eauto].
      unfold started. cbn. split; [reflexivity|discriminate].
    - destruct (retr_transp _ _ _ _). cbn. split; [reflexivity|]. split; [|split; eauto].
      unfold started. cbn. split; [reflexivity|]. rewrite <- (proj2 (Z t)). congruence.
  Qed.
  Lemma adam_stabilize_started t p : started t p -> started t (adam_stabilize p).
  Proof. unfold started, adam_stabilize. destruct (man p); [|auto]. destruct (state p) eqn:E; [auto|rewrite E; auto]. Qed.
  Lemma adam_one_started t p : started t p -> (exists g, grad p = Dense g) -> started (S t) (adam_one (hs t) (S t) p).
  Proof.
    intros St E. destruct (adam_update_started t p St E) as [_ [B _]]. unfold adam_one.
    destruct (a_stabilize (hs t)); [|exact B]. destruct (_ =? 0)%nat; [apply adam_stabilize_started|]; exact B.
  Qed.
  Lemma adam_group_one t ps : Forall (fun p => started t p /\ exists g, grad p = Dense g) ps ->
    adam_step_group {| a_hyp := hs t; a_params := ps |} = ({| a_hyp := hs t; a_params := map (adam_one (hs t) (S t)) ps |}, Ok).
  Proof.
    intros F. unfold adam_step_group. cbn [a_hyp a_params].
    assert (Vi : Forall (fun p => adam_visit (hs t) p = (fst (adam_update (hs t) p), Ok)) ps).
    { induction F as [|p ps [H E] F IH]; constructor; auto. destruct (adam_update_started t p H E) as [A [B [D _]]].
      unfold adam_visit. destruct (adam_update (hs t) p) as [q s]. cbn [fst snd] in *. subst s.
      destruct (a_stabilize (hs t)) as [[|N]|] eqn:St; [destruct (proj1 (Z t) St)| |]; reflexivity. }
    rewrite loop_ok by (eapply Forall_impl; [|exact Vi]; intros p E; cbn in E; rewrite E; reflexivity).
    assert (Mp : map (fun p => fst (adam_visit (hs t) p)) ps = map (fun p => fst (adam_update (hs t) p)) ps).
    { clear - Vi. induction Vi as [|p ps E V IH]; cbn; [reflexivity|]. rewrite E, IH. reflexivity. }
    unfold adam_param in Mp |- *. rewrite Mp. unfold adam_one. destruct (a_stabilize (hs t)) as [N|] eqn:St; [|reflexivity].
    destruct ps as [|p ps]; [destruct (_ mod _ =? 0)%nat; reflexivity|].
    assert (As : forall q, In q (p :: ps) -> asks N (fst (adam_update (hs t) q)) = (S t mod N =? 0)%nat).
    { intros q I. apply (proj1 (Forall_forall _ _) F) in I. destruct I as [H E]. destruct (adam_update_started t q H E) as [_ [_ [[g D] [s [Es Cs]]]]].
      unfold asks. rewrite D, Es, Cs. reflexivity. }
    assert (Ex : existsb (asks N) (map (fun p => fst (adam_update (hs t) p)) (p :: ps)) = (S t mod N =? 0)%nat).
    { clear - As. set (b := (S t mod N =? 0)%nat) in *. clearbody b. revert p As. induction ps as [|q ps IH]; intros p As.
      - cbn. rewrite (As p) by (left; reflexivity). apply orb_false_r.
      - change (existsb (asks N) (map (fun p => fst (adam_update (hs t) p)) (p :: q :: ps))) with (asks N (fst (adam_update (hs t) p)) || existsb (asks N) (map (fun p => fst (adam_update (hs t) p)) (q :: ps))).
        rewrite (IH q) by (intros r I; apply As; right; exact I). rewrite (As p) by (left; reflexivity). apply orb_diag. }
    unfold adam_param in Ex |- *. rewrite Ex. destruct (S t mod N =? 0)%nat; [rewrite map_map; reflexivity|reflexivity].
  Qed.
  Lemma assign_started Gt t ps i : Forall (started t) ps -> (forall i, exists g, Gt i = Dense g) -> Forall (fun p : adam_param => started t p /\ exists g, grad p = Dense g) (assign Gt i ps).
  Proof. intros F D. revert i. induction F as [|p ps H F IH]; intros i; cbn; constructor; auto. split; [exact H|apply D]. Qed.
  Lemma assign_groups_started Gt t pss i : Forall (Forall (started t)) pss -> (forall i, exists g, Gt i = Dense g) ->
    Forall (Forall (fun p : adam_param => started t p /\ exists g, grad p = Dense g)) (assign_groups Gt i pss).
  Proof. intros F D. revert i. induction F as [|p ps H F IH]; intros i; cbn; constructor; auto. apply assign_started; auto. Qed.
  Lemma one_all t qs : Forall (fun p => started t p /\ exists g, grad p = Dense g) qs -> Forall (started (S t)) (map (adam_one (hs t) (S t)) qs).
  Proof. induction 1 as [|q qs [H E] F IH]; cbn; constructor; auto. apply adam_one_started; auto. Qed.
  Lemma adam_groups_concat pss t : Forall (Forall (fun p => state p = None)) pss ->
    Forall (Forall (started t)) (map a_params (adam_groups hs G pss t)) /\
    concat (map a_params (adam_groups hs G pss t)) = a_params (adam_training hs G (concat pss) t).
  Proof.
    intros F. induction t as [|t [A B]].
    - cbn [adam_groups adam_training a_params]. rewrite map_map. cbn [a_params]. rewrite map_id. split; [|reflexivity].
      eapply Forall_impl; [|exact F]. intros ps Q. eapply Forall_impl; [|exact Q]. intros p E. unfold started. cbn in E. rewrite E. reflexivity.
    - cbn [adam_groups adam_training]. set (gs := adam_groups hs G pss t) in *. rewrite B.
      set (g := adam_training hs G (concat pss) t) in *. set (Gt := G t (map val (a_params g))).
      assert (D : forall i, exists g, Gt i = Dense g) by (intros; apply NS).
      pose proof (assign_groups_started Gt t (map a_params gs) 0 A D) as Gr.
      assert (Cc : concat (assign_groups Gt 0 (map a_params gs)) = assign Gt 0 (a_params g)) by (rewrite <- B; apply assign_concat).
      assert (A1 : Forall (started t) (a_params g)) by (rewrite <- B; clear - A; induction A; cbn; [constructor|apply Forall_app; auto]).
      pose proof (assign_started Gt t (a_params g) 0 A1 D) as Gr1. rewrite <- Cc in Gr1 |- *.
      set (qss := assign_groups Gt 0 (map a_params gs)) in *. clearbody qss.
      rewrite (adam_group_one t (concat qss) Gr1). unfold adam_step. rewrite each_ok.
      2:{ clear - Gr Z. induction Gr as [|qs qss H F IH]; cbn; constructor; auto. rewrite adam_group_one; auto. }
      rewrite map_map. cbn [fst a_params].
      assert (E : map (fun qs => fst (adam_step_group {| a_hyp := hs t; a_params := qs |})) qss =
                  map (fun qs => {| a_hyp := hs t; a_params := map (adam_one (hs t) (S t)) qs |}) qss).
      { clear - Gr Z. induction Gr as [|qs qss H F IH]; cbn; auto. rewrite IH. f_equal. rewrite adam_group_one by exact H. reflexivity. }
      unfold adam_param in E |- *. rewrite E, map_map. cbn [a_params]. split.
      + clear - Gr Z. induction Gr as [|qs qss H F IH]; cbn; constructor; auto. apply one_all, H.
      + symmetry. apply concat_map.
  Qed.
End Adam.
Lemma adam_grouping hs G : all_dense G -> (forall t, a_stabilize (hs t) <> Some O /\ amsgrad (hs t) = amsgrad (hs O)) ->
  forall pss, Forall (Forall (fun p => state p = None)) pss -> forall t,
  concat (map a_params (adam_groups hs G pss t)) = a_params (adam_training hs G (concat pss) t).
Proof. intros NS Z pss F t. apply (adam_groups_concat hs G NS Z pss t F). Qed.

(** ** A parameter without gradient whose value has left its sphere *)
From Coq Require Import Lra.
From Verif Require Import OptimInstances ScaledOptimProofs.
Local Open Scope R_scope.
Definition drifting : list adam_param :=
  [{| man := Some (sphere 2); val := smul (1 / 5) g34; grad := NoGrad; state := None |};
   {| man := Some (sphere 2); val := g34; grad := NoGrad; state := Some {| count := 1; exp_avg := vzero; exp_avg_sq := vzero; max_exp_avg_sq := None |} |}].
Lemma adam_missing h : a_stabilize h = Some 1%nat -> amsgrad h = false ->
  let G := fun (_ : nat) (xs : list vec) (i : nat) => match i with O => Dense (nth O xs vzero) | _ => NoGrad end in
  nth 1 (map val (a_params (adam_training (fun _ => h) G drifting 1))) vzero O = 3 / 5 /\
  nth 1 (map val (concat (map a_params (adam_groups (fun _ => h) G (map (fun p => [p]) drifting) 1)))) vzero O = 3.
Proof.
  intros St Am G. split.
  - cbn [adam_training]. unfold adam_step_group. cbn [a_hyp a_params drifting assign map val]. cbn [loop].
    unfold adam_visit at 1. unfold adam_update at 1. cbn [grad G manifold_of man val state]. rewrite Am, St. cbn zeta.
    cbn [sphere retr_transp fst snd grad state]. cbn. rewrite St. cbn.
    unfold SphereModel.projx, SphereModel.project_on_subspace, vdiv, nrm, dot, g34. cbn.
    replace (0 + 3 * 3 + 4 * 4) with (5 * 5) by ring. rewrite sqrt_square by lra. reflexivity.
  - cbn [adam_groups]. unfold adam_step. cbn [map drifting concat app a_params assign_groups assign length each].
    unfold adam_step_group at 1. cbn [a_hyp a_params loop]. unfold adam_visit at 1. unfold adam_update at 1. cbn [grad G manifold_of man val state Nat.add]. rewrite Am, St. cbn zeta.
    cbn [sphere retr_transp fst snd grad state]. cbn. unfold adam_step_group, adam_visit, adam_update. cbn. rewrite St. cbn. reflexivity.
Qed.
