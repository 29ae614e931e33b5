(** Steps of methods that answer a tried or an untried step size, and the transported
    search direction. *)
From Coq Require Import Reals List Bool Arith Lra Lia.
From Verif Require Import RVec LineSearchModel LineSearchSpec LineSearchProofs LineSearchProofs2 LineSearchProofs3 LineSearchProofs4.
Import ListNotations.
Local Open Scope R_scope.

Lemma agrees_ext dot_all p q : l_man p = l_man q -> s_dir p = s_dir q -> l_val p = l_val q -> agrees dot_all p -> agrees dot_all q.
Proof. unfold agrees, man_of. intros E1 E2 E3. now rewrite E1, E2, E3. Qed.
Lemma reach_ext dot_all a p q : l_man p = l_man q -> s_dir p = s_dir q -> l_val p = l_val q -> reach dot_all a p = reach dot_all a q.
Proof. unfold reach, man_of. intros E1 E2 E3. now rewrite E1, E2, E3. Qed.
Lemma directed_search l : directed l -> existsb (fun p => match s_dir p with Some _ => false | None => true end) l = false.
Proof. intros D. induction D as [|p l Hp D IH]; auto. cbn [existsb]. rewrite IH. destruct (s_dir p); [auto|congruence]. Qed.

Section LineSearch.
  Variable dot_all : vec -> vec -> R.
  Variable closure : list vec -> R * list (option vec).
  Variables cd tg td : bool.
  Variable cg : list lparam -> R.
  Variable fallback : R.
  Variable stab : option nat.
  Notation man := (man_of dot_all).
  Hypothesis Htot : all_gradients closure.
  Notation init_loss := (init_loss dot_all closure cg).
  Notation step := (step dot_all closure cd tg td cg fallback stab).
  Notation trial := (trial dot_all cd).
  Notation loss_at := (loss_at dot_all closure cd).

  (** The parameters after a move by a found step. *)
  Lemma moved_values a redo o2 o4 (l1 : list lparam) : map core (ps o2) = map core l1 -> directed l1 ->
    (redo = false -> map s_new_point (ps o2) = map Some (trial l1 a)) ->
    each (move dot_all tg td a redo) o2 = (LOk tt, o4) ->
    map frame (ps o4) = map frame l1 /\ rest o4 = rest o2 /\ dict o4 = dict o2 /\ last_try o4 = last_try o2 /\
    map l_val (ps o4) = if redo then map (reach dot_all a) l1 else trial l1 a.
  Proof.
    intros C D Np H. destruct (moves_frame dot_all tg td _ _ _ _ _ (core_directed l1 (ps o2) (eq_sym C) D) H) as (F1 & F2).
    split; [rewrite F1; now apply frame_core|]. split; auto.
    apply visit_ok_bind in H. destruct H as (l & -> & F). split; [auto|]. split; [auto|]. cbn [ps with_params].
    assert (D2 : directed (ps o2)) by (apply (core_directed l1); auto).
    apply forall2_in in F. destruct redo.
    - transitivity (map (reach dot_all a) (ps o2)).
      + clear -F D2. assert (X : Forall2 (fun p q => l_val q = reach dot_all a p) (ps o2) l).
        { revert F. apply forall2_impl. intros p q [Ip Hq]. apply (proj1 (Forall_forall _ _) D2) in Ip.
          apply move_ok in Hq; auto. destruct Hq as (_ & Q & _). unfold reach. destruct (s_dir p) as [d|]; [|congruence].
          now rewrite (Q eq_refl d eq_refl). }
        clear F D2. induction X; auto. cbn [map]. f_equal; auto.
      + apply (map_eq_in core) with (2 := C). intros p q Hpq. unfold core in Hpq. injection Hpq as E1 E2 E3 E4 E5. now apply reach_ext.
    - assert (X : map Some (map l_val l) = map Some (trial l1 a)).
      { rewrite <- Np by auto. clear -F D2. assert (X : Forall2 (fun p q => Some (l_val q) = s_new_point p) (ps o2) l).
        { revert F. apply forall2_impl. intros p q [Ip Hq]. apply (proj1 (Forall_forall _ _) D2) in Ip.
          apply move_ok in Hq; auto. destruct Hq as (_ & _ & Q). now rewrite (Q eq_refl). }
        clear F D2. induction X; auto. cbn [map]. f_equal; auto. }
      revert X. clear. generalize (map l_val l) (trial l1 a). induction l0 as [|x m IH]; intros [|y m']; cbn; intros E; try discriminate; auto.
      injection E as -> E. f_equal. auto.
  Qed.

  Lemma point_of (l l1 l' : list lparam) a : map base l1 = map base l -> map frame l' = map frame l1 ->
    map l_val l' = map (reach dot_all a) l1 ->
    Forall2 (fun p q => l_val q = reach dot_all a (set_val (l_val p) q)) l l'.
  Proof.
    revert l l'. induction l1 as [|p1 l1 IH]; intros [|p l] [|q l'] B F V; try discriminate; constructor.
    - cbn [map] in *. injection V as V _. injection F as F1 F2 F3 F4 _. injection B as B1 B2 _ _.
      rewrite V. apply reach_ext; cbn; congruence.
    - cbn [map] in *. injection V as _ V. injection F as _ _ _ _ F. injection B as _ _ _ _ B. auto.
  Qed.
  Lemma agree_back (l l1 l' : list lparam) : map base l1 = map base l -> map frame l' = map frame l1 ->
    Forall2 (fun p q => agrees dot_all (set_val (l_val p) q)) l l' -> Forall (agrees dot_all) l1.
  Proof.
    revert l l'. induction l1 as [|p1 l1 IH]; intros [|p l] [|q l'] B F V; try discriminate; constructor.
    - cbn [map] in *. inversion V as [|? ? ? ? V1 V2]; subst. injection F as F1 F2 F3 F4 _. injection B as B1 B2 _ _.
      revert V1. apply agrees_ext; cbn; congruence.
    - cbn [map] in *. inversion V; subst. injection F as _ _ _ _ F. injection B as _ _ _ _ B. eauto.
  Qed.

  Lemma step_tried meth force recompute o r o' a : (forall phi0 s a b c, answers_asked [] (meth phi0 s a b c)) ->
    Forall (fun p => l_requires p = true) (ps o) ->
    cd = false \/ Forall2 (fun p q => agrees dot_all (set_val (l_val p) q)) (ps o) (ps o') ->
    step meth force recompute false o = (LOk r, o') -> last_size o' = Some a ->
    r = Some (fst (closure (map l_val (ps o')))) /\ prev_loss o' = r /\
    Forall2 (fun p q => l_val q = reach dot_all a (set_val (l_val p) q)) (ps o) (ps o').
  Proof.
    intros Hm Rq Ag H L. destruct (step_frame dot_all closure cd tg td cg fallback stab Htot _ _ _ _ _ _ _ H) as (? & ? & o1' & H1' & Fm & _ & _ & _ & K).
    apply step_ok in H; auto. destruct H as (phi0 & s & o1 & found & o2 & o4 & o5 & H1 & H2 & H3 & H4 & H5).
    rewrite H1 in H1'. injection H1' as <- <- <-.
    pose proof (init_ok _ _ _ Htot _ _ _ _ _ H1) as (B1 & B2 & _ & _ & _ & B6 & B7 & B8 & B9 & _).
    destruct (interact_after dot_all closure cd Htot (with_dict [] o1) B2 eq_refl _ [] _ _ _ (after_refl dot_all closure cd _) H2)
      as (tried & A & _ & _ & _ & As).
    specialize (As [] (incl_refl _) (Hm phi0 s (old_phi0 o1) (old_derphi0 o1) (last_size o1))).
    destruct A as (C1 & C2 & C3 & C4 & C5). cbn [ps with_dict dict] in *.
    assert (Ag1 : cd = false \/ Forall (agrees dot_all) (ps o1)).
    { destruct Ag as [Ag|Ag]; auto. right. eapply agree_back; eauto. }
    assert (Fd : found = Some a).
    { destruct K as (o2' & K). rewrite H2 in K. congruence. }
    subst found. cbv zeta in H3, H5.
    assert (It : In a tried) by auto.
    set (redo := negb (opt_eqb (last_try o2) (Some a))) in *.
    apply (moved_values a redo _ _ (ps o1)) in H3; auto.
    2:{ intros Er. unfold redo in Er. apply negb_false_iff, opt_eqb_true in Er. destruct tried as [|b tl]; [easy|].
        destruct C3 as (L1 & L2 & _). assert (b = a) by congruence. subst b. exact L2. }
    destruct H3 as (F4 & R4 & D4 & _ & V4).
    assert (V4' : map l_val (ps o4) = map (reach dot_all a) (ps o1)).
    { rewrite V4. destruct redo; auto. now apply trial_reach. }
    assert (Rq4 : Forall (fun p => l_requires p = true) (ps o4)).
    { apply (map_forall frame _ (ps o1)); [unfold frame; congruence|now symmetry|].
      apply (base_requires (ps o)); auto. }
    apply after_step_ok in H4; auto. subst o5. destruct H5 as (v & o6 & H6 & -> & ->).
    assert (Lk : lookup a (dict (with_count (S (count o4)) o4)) = Some (loss_at (ps o1) a)).
    { cbn [dict with_count]. rewrite D4. cbn [dict with_fresh with_result]. rewrite C2, app_nil_r, (lookup_tried a (loss_at (ps o1)) tried).
      now destruct (in_dec Req_EM_T a tried). }
    rewrite (phi_old _ _ _ _ _ _ Lk) in H6. injection H6 as <- <-. cbn [ps with_loss with_count prev_loss] in *.
    split; [|split; [auto|]].
    - rewrite V4'. f_equal. now apply loss_objective.
    - now apply (point_of _ (ps o1)).
  Qed.

  (** A step size that was not tried is evaluated after the move. *)
  Lemma step_untried a force recompute o r o' : last_try o <> Some a ->
    Forall (fun p => l_requires p = true) (ps o) ->
    cd = false \/ Forall (agrees dot_all) (ps o') ->
    step (fun _ _ _ _ _ => Answer (Some a)) force recompute false o = (LOk r, o') ->
    r = Some (objective dot_all closure (ps o') a) /\
    Forall2 (fun p q => l_val q = reach dot_all a (set_val (l_val p) q)) (ps o) (ps o').
  Proof.
    intros Nt Rq Ag H. apply step_ok in H; auto. destruct H as (phi0 & s & o1 & found & o2 & o4 & o5 & H1 & H2 & H3 & H4 & H5).
    injection H2 as <- <-. cbv zeta in H3, H5. cbn [last_try with_dict] in H3.
    pose proof (init_ok _ _ _ Htot _ _ _ _ _ H1) as (B1 & B2 & _ & _ & _ & B6 & B7 & B8 & B9 & _).
    assert (Sm : opt_eqb (last_try o1) (Some a) = false).
    { rewrite B6. destruct (opt_eqb (last_try o) (Some a)) eqn:E; auto. now apply opt_eqb_true in E. }
    rewrite Sm in H3. cbn [negb orb andb] in H3.
    apply (moved_values a true _ _ (ps o1)) in H3; auto; [|discriminate].
    destruct H3 as (F4 & R4 & D4 & _ & V4).
    assert (Rq4 : Forall (fun p => l_requires p = true) (ps o4)).
    { apply (map_forall frame _ (ps o1)); [unfold frame; congruence|now symmetry|].
      apply (base_requires (ps o)); auto. }
    apply after_step_ok in H4; auto. subst o5. destruct H5 as (v & o6 & H6 & -> & ->).
    assert (D5 : directed (ps (with_count (S (count o4)) o4))) by (apply (frame_directed (ps o1)); auto).
    destruct (phi_frame _ _ _ Htot _ _ _ _ D5 H6) as (C & _ & W).
    assert (Ag4 : cd = false \/ Forall (agrees dot_all) (ps o4)).
    { destruct Ag as [Ag|Ag]; auto. right. cbn [ps with_loss with_count] in *. apply (map_forall core _ (ps o6)); auto.
      intros p q Hpq. unfold core in Hpq. injection Hpq as E1 E2 E3 E4 E5. now apply agrees_ext. }
    assert (E46 : loss_at (ps o4) a = objective dot_all closure (ps o6) a).
    { rewrite loss_objective by auto. unfold objective. f_equal. f_equal. symmetry. apply (map_eq_in core) with (2 := C).
      intros p q Hpq. unfold core in Hpq. injection Hpq as E1 E2 E3 E4 E5. now apply reach_ext. }
    cbn [ps with_loss with_count] in *. split.
    - rewrite W, E46; auto. cbn [dict with_count]. now rewrite D4.
    - apply (point_of _ (ps o1)); auto.
      + rewrite (frame_core _ _ C). exact F4.
      + rewrite (core_vals _ _ C). exact V4.
  Qed.

  (** ** The transported search direction *)
  Definition ready (l : list lparam) := Forall (fun p => s_transported p <> None) l.
  Lemma map_ready l l' : map s_transported l = map s_transported l' -> ready l -> ready l'.
  Proof. apply map_forall. congruence. Qed.
  Lemma evaluated_still a p g : cd = false -> s_transported (evaluated dot_all cd a p g) = s_transported p.
  Proof. unfold evaluated, displaced. intros ->. now destruct (s_dir p). Qed.
  Lemma evaluate_still a o : cd = false -> map s_transported (ps (evaluate dot_all closure cd a o)) = map s_transported (ps o).
  Proof.
    intros C. unfold evaluate. cbn [ps]. pose proof (grads_length dot_all closure cd Htot (ps o) a) as L. revert L.
    generalize (grads_at dot_all closure cd (ps o) a). intro gs. revert gs.
    induction (ps o) as [|p l IH]; intros [|g gs] L; try discriminate; auto.
    cbn [zip_with map]. rewrite IH by (now injection L). f_equal. now apply evaluated_still.
  Qed.
  Lemma phi_still a o v o' : directed (ps o) -> cd = false -> phi dot_all closure cd a o = (LOk v, o') ->
    map s_transported (ps o') = map s_transported (ps o).
  Proof.
    intros D C H. destruct (lookup a (dict o)) as [w|] eqn:L.
    - rewrite (phi_old _ _ _ _ _ _ L) in H. now injection H as _ <-.
    - rewrite phi_new in H; auto. injection H as _ <-. now apply evaluate_still.
  Qed.
  Lemma phi_ready a o v o' : directed (ps o) -> ready (ps o) -> phi dot_all closure cd a o = (LOk v, o') -> ready (ps o').
  Proof.
    intros D Rd H. destruct (lookup a (dict o)) as [w|] eqn:L.
    - rewrite (phi_old _ _ _ _ _ _ L) in H. now injection H as _ <-.
    - destruct cd eqn:C.
      + rewrite phi_new in H; auto. injection H as _ <-.
        destruct (evaluate_facts dot_all closure true Htot a o D) as (_ & _ & F). destruct (F eq_refl) as (_ & _ & _ & F4).
        apply (map_forall s_transported _ (map (fun p => set_transported (tdir dot_all true a p) p) (ps o))); [congruence| |].
        * rewrite map_map. now rewrite F4.
        * apply Forall_forall. intros p Hp. apply in_map_iff in Hp. destruct Hp as (q & <- & _). discriminate.
      + rewrite <- C in H. apply phi_still in H; auto. now apply (map_ready (ps o)).
  Qed.
  Lemma interact_still t : cd = false -> forall o found o', directed (ps o) -> interact dot_all closure cd t o = (LOk found, o') ->
    map s_transported (ps o') = map s_transported (ps o).
  Proof.
    intros C. induction t as [r|a k IH|a k IH]; intros o found o' D H.
    - now injection H as _ <-.
    - cbn [interact] in H. apply bind_ok in H. destruct H as (v & o1 & H1 & H2).
      destruct (phi_frame _ _ _ Htot _ _ _ _ D H1) as (Cr & _). apply phi_still in H1; auto.
      rewrite <- H1. apply (IH v) with (2 := H2). now apply (core_directed (ps o)).
    - cbn [interact] in H. unfold derphi in H. rewrite C in H. discriminate.
  Qed.

  (** With a nonzero constant scale and no derivative, the second step raises. *)
  Lemma constant_raises meth force recompute no_step l r o1 meth' force' recompute' no_step' :
    cd = false -> td = false -> (forall l, cg l <> 0) -> l <> [] -> Forall (fun p => s_transported p = None) l ->
    step meth force recompute no_step (new_opt l) = (LOk r, o1) ->
    fst (step meth' force' recompute' no_step' o1) = LRaise KeyErr.
  Proof.
    intros C T G Nl Tn H. destruct (step_frame dot_all closure cd tg td cg fallback stab Htot _ _ _ _ _ _ _ H) as (? & ? & o1' & H1' & Fm & _).
    apply step_ok in H; auto. destruct H as (phi0 & s & oa & found & o2 & o4 & o5 & H1 & H2 & H3 & H4 & H5).
    rewrite H1 in H1'. injection H1' as <- <- <-.
    pose proof (init_ok _ _ _ Htot _ _ _ _ _ H1) as (B1 & B2 & _ & B4 & _).
    assert (T2 : map s_transported (ps o2) = map s_transported l).
    { rewrite (interact_still _ C (with_dict [] oa) _ _ B2 H2). exact B4. }
    destruct (interact_frame dot_all closure cd Htot _ _ _ _ B2 H2) as (C1 & _).
    cbv zeta in H3, H5. set (size := match found with Some a => Some a | None => if force then Some fallback else None end) in *.
    match type of H3 with _ ?o3 = _ => set (o3' := o3) in * end.
    assert (D3 : directed (ps o3')) by (apply (core_directed (ps oa)); auto).
    assert (F4 : map frame (ps o4) = map frame (ps o3') /\ map s_transported (ps o4) = map s_transported l).
    { destruct size as [a|]; [|injection H3 as <-; auto]. destruct no_step; [injection H3 as <-; auto|].
      split; [now apply moves_frame in H3|]. rewrite <- T2. apply visit_ok_bind in H3. destruct H3 as (l4 & -> & F). cbn [ps with_params].
      eapply forall2_map; [exact (forall2_in _ _ _ F)|]. intros p q [Ip Hq]. unfold move in Hq. rewrite T in Hq.
      destruct (s_dir p); [|now injection Hq as <-].
      destruct (if negb _ then _ else _); [|discriminate]. destruct tg; [destruct (s_grad p); [|discriminate]|]; injection Hq as <-; reflexivity. }
    destruct F4 as (F4 & T4). destruct (after_frame _ _ _ _ H4) as (F5 & _).
    assert (T5 : map s_transported (ps o5) = map s_transported l).
    { rewrite <- T4. revert H4. clear. unfold after_step. intros H. destruct stab as [[|N]|]; [discriminate| |now injection H as <-].
      destruct (S (count o4) mod S N =? 0)%nat; [|now injection H as <-].
      apply visit_ok_bind in H. destruct H as (l' & -> & F). cbn [ps with_params].
      eapply forall2_map; [exact F|]. intros p q Hq. unfold stabilize_one in Hq.
      destruct (l_man p); [destruct (l_requires p); [discriminate|]|]; injection Hq as <-; reflexivity. }
    assert (D5 : directed (ps o5)) by (apply (frame_directed (ps o3')); congruence || auto).
    assert (T6 : map s_transported (ps o1) = map s_transported l /\ directed (ps o1)).
    { destruct size as [a|].
      - destruct H5 as (v & o6 & H6 & -> & ->). cbn [ps with_loss]. destruct (phi_frame _ _ _ Htot _ _ _ _ D5 H6) as (Cr & _).
        split; [rewrite (phi_still _ _ _ _ D5 C H6); exact T5|]. apply (core_directed (ps o5)); auto.
      - destruct H5 as [-> ->]. auto. }
    assert (Fr : fresh_grads o1 = false).
    { assert (X : fresh_grads o3' = false) by (unfold o3'; cbn [fresh_grads with_fresh]; rewrite C, orb_true_r; reflexivity).
      assert (X4 : fresh_grads o4 = false).
      { destruct size; [|injection H3 as <-; auto]. destruct no_step; [injection H3 as <-; auto|].
        apply visit_ok_bind in H3. now destruct H3 as (l4 & -> & F). }
      assert (X5 : fresh_grads o5 = false).
      { rewrite <- X4. revert H4. clear. unfold after_step. intros H. destruct stab as [[|N]|]; [discriminate| |now injection H as <-].
        destruct (S (count o4) mod S N =? 0)%nat; [|now injection H as <-].
        apply visit_ok_bind in H. now destruct H as (l' & -> & F). }
      destruct size as [a|].
      - destruct H5 as (v & o6 & H6 & -> & ->). cbn [fresh_grads with_loss]. destruct (lookup a (dict o5)) as [w|] eqn:L.
        + rewrite (phi_old _ _ _ _ _ _ L) in H6. now injection H6 as _ <-.
        + rewrite phi_new in H6; auto. injection H6 as _ <-. unfold evaluate. cbn [fresh_grads]. now rewrite C.
      - destruct H5 as [-> ->]. auto. }
    destruct T6 as (T6 & D6). clear -T6 D6 Fr Tn Nl G Htot.
    (* the second step *)
    unfold LineSearchModel.step at 1. unfold bind at 1.
    assert (I : fst (init_loss recompute' o1) = LRaise KeyErr).
    2:{ destruct (init_loss recompute' o1) as [[x|e] o2]; cbn in *; congruence. }
    unfold LineSearchModel.init_loss. rewrite Fr. cbn [negb]. rewrite orb_true_r. cbn [negb].
    assert (X : exists v ox, call_closure closure o1 = (LOk v, ox) /\
       Forall (fun p => l_grad p <> None /\ s_dir p <> None /\ s_transported p = None) (ps ox) /\ ps ox <> []).
    { unfold call_closure. pose proof (Htot (values o1)) as [L S]. destruct (closure (values o1)) as [v gs]. cbn [snd] in L, S.
      unfold values in L. rewrite map_length in L. eexists v, _. split; [reflexivity|]. cbn [ps].
      assert (T7 : Forall (fun p => s_transported p = None) (ps o1)).
      { apply (map_forall s_transported _ l); auto; congruence. }
      assert (N7 : ps o1 <> []) by (intros E; rewrite E in T6; destruct l; [congruence|discriminate]).
      clear T6 Fr. revert gs L S. induction (ps o1) as [|p l1 IH]; intros [|g gs] L S; try discriminate; [congruence|].
      split; [|discriminate]. cbn [zip_with]. inversion D6; inversion T7; inversion S; subst. constructor; [auto|].
      destruct l1 as [|p' l1]; [constructor|]. apply IH; auto. discriminate. }
    destruct X as (v & ox & Cl & P2 & P3).
    rewrite (bind_of _ _ o1 (Some v) ox) by (now rewrite (bind_of _ _ _ _ _ Cl)).
    rewrite (bind_of _ _ ox tt (with_dict [] ox)) by reflexivity.
    change (ps ox) with (ps (with_dict [] ox)) in P2, P3. set (o2 := with_dict [] ox) in *. clearbody o2.
    assert (V : exists l3, visit (take_grad dot_all false) (ps o2) = (LOk tt, l3) /\
              Forall (fun p => s_dir p <> None /\ s_transported p = None) l3 /\ l3 <> []).
    { clear -P2 P3. induction (ps o2) as [|p l1 IH]; [congruence|]. inversion P2 as [|? ? (X1 & X2 & X3) P4]; subst.
      cbn [visit]. unfold take_grad at 1. destruct (l_grad p) as [g|]; [|congruence].
      assert (Y : exists q, (match s_grad p with Some g0 => LOk (set_grad (l_egrad (man p) (l_val p) g) (Some g0) (Some (l_inner (man p) (l_val p) g0 g0)) p)
                  | None => LOk (set_grad (l_egrad (man p) (l_val p) g) (s_prev_grad p) (s_prev_norm2 p) p) end) = LOk q /\ s_dir q <> None /\ s_transported q = None).
      { destruct (s_grad p); eexists; (split; [reflexivity|]); split; cbn; auto. }
      destruct Y as (q & -> & Y1 & Y2). destruct l1 as [|p' l1].
      - cbn [visit]. eexists. split; [reflexivity|]. split; [repeat constructor; auto|discriminate].
      - destruct IH as (l3 & -> & I1 & I2); auto; [discriminate|]. eexists. split; [reflexivity|]. split; [constructor; auto|discriminate]. }
    destruct V as (l3 & V & V1 & V2). unfold bind at 1, each at 1. rewrite V.
    assert (Sd : exists oz, search_direction dot_all cg (with_params l3 o2) = (LRaise KeyErr, oz)).
    { unfold search_direction.
      assert (D7 : first_time (with_params l3 o2) = false).
      { apply directed_search. cbn [ps with_params]. revert V1. apply Forall_impl. tauto. }
      rewrite D7. cbn [ps with_params]. destruct l3 as [|p l3]; [congruence|].
      eexists. unfold bind, each. cbn [ps with_params visit].
      assert (Np : next_dir (cg (p :: l3)) p = LRaise KeyErr).
      { unfold next_dir. destruct (Req_EM_T (cg (p :: l3)) 0) as [E|_]; [now apply G in E|].
        inversion V1 as [|? ? [_ Tp] _]; subst. now rewrite Tp. }
      rewrite Np. reflexivity. }
    destruct Sd as (oz & Sd). unfold bind at 1. rewrite Sd. reflexivity.
  Qed.

  Lemma moves_ready a redo o u o' : directed (ps o) -> td = true -> each (move dot_all tg td a redo) o = (LOk u, o') -> ready (ps o').
  Proof.
    intros D T H. apply visit_ok_bind in H. destruct H as (l & -> & F). cbn [ps with_params]. apply forall2_in in F.
    revert F D. generalize (ps o). intros l0 F D.
    assert (X : Forall2 (fun p q => s_transported q <> None) l0 l).
    { revert F. apply forall2_impl. intros p q [Ip Hq]. apply (proj1 (Forall_forall _ _) D) in Ip.
      unfold move in Hq. rewrite T in Hq. destruct (s_dir p); [|congruence].
      destruct (if redo then _ else _); [|discriminate]. cbn [s_grad set_transported] in Hq.
      destruct tg; [destruct (s_grad p); [|discriminate]|]; injection Hq as <-; discriminate. }
    clear F D. induction X; constructor; auto.
  Qed.
  Lemma ready_after o0 a tl o : latest_facts dot_all closure cd (ps o0) a o -> cd = true -> after dot_all closure cd o0 (a :: tl) o -> ready (ps o).
  Proof.
    intros (_ & _ & F) C _. destruct (F C) as (_ & _ & _ & F4).
    apply (map_forall s_transported _ (map (fun p => set_transported (tdir dot_all cd a p) p) (ps o0))); [congruence| |].
    - rewrite map_map. now rewrite F4.
    - apply Forall_forall. intros p Hp. apply in_map_iff in Hp. destruct Hp as (q & <- & _). discriminate.
  Qed.
  Lemma still_after o u o' : after_step stab o = (LOk u, o') -> map s_transported (ps o') = map s_transported (ps o).
  Proof.
    unfold after_step. intros H. destruct stab as [[|N]|]; [discriminate| |now injection H as _ <-].
    destruct (S (count o) mod S N =? 0)%nat; [|now injection H as _ <-].
    apply visit_ok_bind in H. destruct H as (l' & -> & F). cbn [ps with_params].
    eapply forall2_map; [exact F|]. intros p q Hq. unfold stabilize_one in Hq.
    destruct (l_man p); [destruct (l_requires p); [discriminate|]|]; injection Hq as <-; reflexivity.
  Qed.
  Lemma still_moves a redo o u o' : td = false -> each (move dot_all tg td a redo) o = (LOk u, o') ->
    map s_transported (ps o') = map s_transported (ps o).
  Proof.
    intros T H. apply visit_ok_bind in H. destruct H as (l4 & -> & F). cbn [ps with_params].
    eapply forall2_map; [exact F|]. intros p q Hq. unfold move in Hq. rewrite T in Hq.
    destruct (s_dir p); [|now injection Hq as <-].
    destruct (if redo then _ else _); [|discriminate]. destruct tg; [destruct (s_grad p); [|discriminate]|]; injection Hq as <-; reflexivity.
  Qed.
  Lemma moved_ready meth force recompute o r o' : cd = true \/ td = true ->
    step meth force recompute false o = (LOk r, o') -> last_size o' <> None -> ready (ps o') /\ directed (ps o').
  Proof.
    intros CT H L. destruct (step_frame dot_all closure cd tg td cg fallback stab Htot _ _ _ _ _ _ _ H) as (? & ? & o1' & H1' & Fm & _ & _ & _ & K).
    apply step_ok in H; auto. destruct H as (phi0 & s & o1 & found & o2 & o4 & o5 & H1 & H2 & H3 & H4 & H5).
    rewrite H1 in H1'. injection H1' as <- <- <-.
    pose proof (init_ok _ _ _ Htot _ _ _ _ _ H1) as (B1 & B2 & _).
    split; [|now apply (frame_directed (ps o1))].
    destruct K as (o2' & K). rewrite H2 in K. injection K as K _. rewrite <- K in L.
    destruct found as [a|]; [|congruence]. clear K L o2'.
    destruct (interact_after dot_all closure cd Htot (with_dict [] o1) B2 eq_refl _ [] _ _ _ (after_refl dot_all closure cd _) H2)
      as (tried & A & _). pose proof A as (C1 & C2 & C3 & _). cbn [ps with_dict dict] in C1, C2, C3.
    cbv zeta in H3, H5. match type of H3 with _ ?o3 = _ => set (o3' := o3) in * end.
    assert (D3 : directed (ps o3')) by (apply (core_directed (ps o1)); auto).
    assert (D5 : directed (ps o5)).
    { apply (frame_directed (ps o3')); auto. destruct (after_frame _ _ _ _ H4) as (F5 & _). rewrite F5.
      apply moves_frame in H3; auto. now symmetry. }
    destruct H5 as (v & o6 & H6 & -> & ->). cbn [ps with_loss].
    destruct td eqn:T.
    - apply (phi_ready a o5 v o6 D5) with (2 := H6).
      apply (map_ready (ps o4)); [now rewrite (still_after _ _ _ H4)|]. rewrite <- T in H3. now apply moves_ready in H3.
    - destruct CT as [C|]; [|discriminate].
      destruct (lookup a (dict o5)) as [w|] eqn:Lk.
      + apply (phi_ready a o5 v o6 D5) with (2 := H6). rewrite <- T in H3.
        apply (map_ready (ps o3')). { rewrite (still_after _ _ _ H4). now rewrite (still_moves _ _ _ _ _ T H3). }
        destruct tried as [|b tl].
        * exfalso. destruct (after_frame _ _ _ _ H4) as (_ & _ & _ & _ & _ & _ & Dc).
          apply visit_ok_bind in H3. destruct H3 as (l4 & -> & _). rewrite Dc in Lk. unfold o3' in Lk. cbn in Lk. rewrite C2 in Lk. discriminate.
        * exact (ready_after (with_dict [] o1) b tl o2 C3 C A).
      + rewrite phi_new in H6; auto. injection H6 as _ <-.
        destruct (evaluate_facts dot_all closure cd Htot a o5 D5) as (X1 & X2 & F). destruct (F C) as (_ & _ & _ & F4).
        apply (map_forall s_transported _ (map (fun p => set_transported (tdir dot_all cd a p) p) (ps o5))); [congruence| |].
        * rewrite map_map. now rewrite F4.
        * apply Forall_forall. intros p Hp. apply in_map_iff in Hp. destruct Hp as (q & <- & _). discriminate.
  Qed.
  Lemma visit_some f (l : list lparam) : (forall p, In p l -> exists q, f p = LOk q) -> exists l', visit f l = (LOk tt, l').
  Proof.
    induction l as [|p l IH]; intros H; [now exists []|]. cbn [visit]. destruct (H p (or_introl eq_refl)) as (q & ->).
    destruct IH as (l' & ->); [intros; apply H; now right|]. now eexists.
  Qed.
  Lemma init_starts o : ready (ps o) -> directed (ps o) -> exists phi0 s o1, init_loss true o = (LOk (phi0, s), o1).
  Proof.
    intros Rd D. unfold LineSearchModel.init_loss. cbn [orb negb].
    assert (X : exists v ox, call_closure closure o = (LOk v, ox) /\ Forall (fun p => l_grad p <> None) (ps ox) /\
      map s_transported (ps ox) = map s_transported (ps o) /\ map s_dir (ps ox) = map s_dir (ps o)).
    { unfold call_closure. pose proof (Htot (values o)) as [L S]. destruct (closure (values o)) as [v gs]. cbn [snd] in L, S.
      unfold values in L. rewrite map_length in L. eexists v, _. split; [reflexivity|]. cbn [ps]. clear Rd D.
      revert gs L S. induction (ps o) as [|p l IH]; intros [|g gs] L S; try discriminate; [repeat constructor|].
      cbn [zip_with map]. inversion S; subst. destruct (IH gs) as (I1 & I2 & I3); auto.
      split; [constructor; auto|]. split; f_equal; auto. }
    destruct X as (v & ox & Cl & P1 & P2 & P3).
    rewrite (bind_of _ _ o (Some v) ox) by (now rewrite (bind_of _ _ _ _ _ Cl)).
    rewrite (bind_of _ _ ox tt (with_dict [] ox)) by reflexivity.
    destruct (visit_some (take_grad dot_all false) (ps (with_dict [] ox))) as (l3 & V).
    { intros p Hp. apply (proj1 (Forall_forall _ _) P1) in Hp. unfold take_grad. destruct (l_grad p); [|congruence].
      destruct (s_grad p); now eexists. }
    rewrite (bind_of _ _ _ tt (with_params l3 (with_dict [] ox))) by (unfold each; now rewrite V).
    apply visit_ok in V. cbn [ps with_dict] in V.
    assert (T3 : map s_transported l3 = map s_transported (ps ox)).
    { eapply forall2_map; [exact V|]. intros p q Hq. now apply take_grad_ok in Hq. }
    assert (D3 : map s_dir l3 = map s_dir (ps ox)).
    { eapply forall2_map; [exact V|]. intros p q Hq. now apply take_grad_ok in Hq. }
    assert (R3 : ready l3) by (apply (map_ready (ps o)); congruence || auto).
    assert (E3 : directed l3) by (apply (map_forall s_dir _ (ps o)); congruence || auto).
    assert (Sd : exists s oz, search_direction dot_all cg (with_params l3 (with_dict [] ox)) = (LOk s, oz)).
    { unfold search_direction. rewrite (directed_search l3 E3 : first_time (with_params l3 (with_dict [] ox)) = false).
      cbn [ps with_params]. destruct (visit_some (next_dir (cg l3)) l3) as (l4 & V4).
      { intros p Hp. apply (proj1 (Forall_forall _ _) R3) in Hp. unfold next_dir. destruct (Req_EM_T (cg l3) 0); [now eexists|].
        destruct (s_transported p); [now eexists|congruence]. }
      rewrite (bind_of _ _ _ tt (with_params l4 (with_params l3 (with_dict [] ox)))) by (unfold each; cbn [ps with_params]; now rewrite V4).
      destruct (Rle_dec _ _); do 2 eexists; reflexivity. }
    destruct Sd as (s & oz & Sd). rewrite (bind_of _ _ _ _ _ Sd). do 3 eexists. reflexivity.
  Qed.
  Lemma next_starts meth force recompute o r o' : cd = true \/ td = true ->
    step meth force recompute false o = (LOk r, o') -> last_size o' <> None ->
    exists phi0 s o1, init_loss true o' = (LOk (phi0, s), o1).
  Proof. intros CT H L. destruct (moved_ready _ _ _ _ _ _ CT H L). now apply init_starts. Qed.
End LineSearch.
