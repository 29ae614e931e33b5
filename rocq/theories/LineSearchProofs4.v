(** The line search properties, from the lemmas about steps. *)
From Coq Require Import Reals List Bool Arith Lra Lia.
From Verif Require Import RVec LineSearchModel LineSearchSpec LineSearchProofs LineSearchProofs2 LineSearchProofs3.
Import ListNotations.
Local Open Scope R_scope.

Section LineSearch.
  Variable dot_all : vec -> vec -> R.
  Variable closure : list vec -> R * list (option vec).
  Variables cd tg td : bool.
  Variable cg : list lparam -> R.
  Variable fallback : R.
  Variable stab : option nat.
  Notation man := (man_of dot_all).
  Hypothesis Htot : all_gradients closure.
  Notation init_loss := (init_loss dot_all closure cg).
  Notation step := (step dot_all closure cd tg td cg fallback stab).

  (** ** Trial evaluations *)
  Lemma trials_unchanged qs o : directed (ps o) -> dict o = [] -> allowed cd qs ->
    exists vs o', ask_all dot_all closure cd qs o = (LOk vs, o') /\
      map l_val (ps o') = map l_val (ps o) /\ map s_dir (ps o') = map s_dir (ps o) /\ map l_man (ps o') = map l_man (ps o).
  Proof.
    intros D E A. destruct (ask_all_after dot_all closure cd Htot o qs D E A [] o (after_refl _ _ _ o)) as (vs & o' & H & Af & _).
    exists vs, o'. split; auto. destruct Af as (C & _).
    split; [|split]; apply (map_eq_in core _ _ _) with (2 := C); unfold core; congruence.
  Qed.
  Lemma trials_values qs o vs o' : directed (ps o) -> dict o = [] -> cd = false \/ Forall (agrees dot_all) (ps o) ->
    ask_all dot_all closure cd qs o = (LOk vs, o') -> allowed cd qs ->
    Forall2 (fun q v => forall a, q = QPhi a -> v = objective dot_all closure (ps o) a) qs vs /\
    calls o' = calls o ++ map (fun a => map (reach dot_all a) (ps o)) (distinct [] (map step_of qs)).
  Proof.
    intros D E Ag H A. destruct (ask_all_after dot_all closure cd Htot o qs D E A [] o (after_refl _ _ _ o)) as (vs' & o1 & H' & Af & V).
    rewrite H in H'. injection H' as <- <-. split.
    - revert V. apply forall2_impl. intros q v Hq a ->. rewrite (Hq a eq_refl). apply loss_objective; auto.
    - destruct Af as (_ & _ & _ & C & _). rewrite C. f_equal. rewrite app_nil_r, rev_involutive. apply map_ext.
      intros a. now apply trial_reach.
  Qed.
  (** ** Slopes *)
  Lemma distinct_snoc a l : forall seen, distinct seen (l ++ [a]) =
    if in_dec Req_EM_T a (rev (distinct seen l) ++ seen) then distinct seen l else distinct seen l ++ [a].
  Proof.
    induction l as [|b l IH]; intros seen; cbn [app distinct rev].
    - destruct (in_dec Req_EM_T a seen); reflexivity.
    - destruct (in_dec Req_EM_T b seen) as [I|I]; [apply IH|]. rewrite IH. cbn [rev]. rewrite <- app_assoc. cbn [app].
      destruct (in_dec Req_EM_T a (rev (distinct (b :: seen) l) ++ b :: seen)); reflexivity.
  Qed.
  Lemma last_rev {A} (l : list A) b d : last (rev (b :: l)) d = b.
  Proof. cbn [rev]. apply last_last. Qed.
  Lemma slope_latest qs o vs o1 a : directed (ps o) -> dict o = [] -> Forall (agrees dot_all) (ps o) -> cd = true ->
    ask_all dot_all closure cd qs o = (LOk vs, o1) ->
    exists o2, derphi dot_all closure cd a o1 =
      (LOk (derivative dot_all closure (ps o) (last (distinct [] (map step_of qs ++ [a])) a)), o2).
  Proof.
    intros D E Ag C H. assert (A : allowed cd qs) by now left.
    destruct (ask_all_after dot_all closure cd Htot o qs D E A [] o (after_refl _ _ _ o)) as (vs' & o1' & H' & Af & V).
    rewrite H in H'. injection H' as <- <-.
    destruct (derphi_after dot_all closure cd Htot o _ o1 a D E Af C) as (o2 & b & tl & _ & T & Dp & _).
    exists o2. rewrite Dp. f_equal. f_equal. rewrite slope_derivative by auto. f_equal.
    rewrite distinct_snoc. rewrite app_nil_r in T |- *.
    destruct (in_dec Req_EM_T a (rev (distinct [] (map step_of qs)))) as [I|I].
    - rewrite <- (rev_involutive (distinct [] (map step_of qs))), T. symmetry. apply last_rev.
    - injection T as <- <-. symmetry. apply last_last.
  Qed.
  Lemma slope_fresh qs o vs o1 a : directed (ps o) -> dict o = [] -> Forall (agrees dot_all) (ps o) -> cd = true ->
    ask_all dot_all closure cd qs o = (LOk vs, o1) -> ~ In a (map step_of qs) ->
    exists o2, derphi dot_all closure cd a o1 = (LOk (derivative dot_all closure (ps o) a), o2).
  Proof.
    intros D E Ag C H N. destruct (slope_latest qs o vs o1 a D E Ag C H) as (o2 & Dp). exists o2. rewrite Dp.
    rewrite distinct_snoc. rewrite app_nil_r. destruct (in_dec Req_EM_T a _) as [I|I].
    - exfalso. apply N. apply in_rev in I. revert I. clear. generalize (@nil R).
      induction (map step_of qs) as [|b l IH]; intros seen; cbn [distinct]; auto.
      destruct (in_dec Req_EM_T b seen); intros I; [right; eauto|]. destruct I as [<-|I]; [now left|right; eauto].
    - now rewrite last_last.
  Qed.

  (** ** What any step keeps *)
  Lemma phi_frame a o v o' : directed (ps o) -> phi dot_all closure cd a o = (LOk v, o') ->
    map core (ps o') = map core (ps o) /\ rest o' = rest o /\
    (lookup a (dict o) = None -> v = loss_at dot_all closure cd (ps o) a).
  Proof.
    intros D H. destruct (lookup a (dict o)) as [w|] eqn:L.
    - rewrite (phi_old _ _ _ _ _ _ L) in H. injection H as <- <-. split; auto. split; auto. discriminate.
    - rewrite phi_new in H; auto. injection H as <- <-. split; [|split]; auto.
      unfold evaluate. cbn [ps]. apply evaluated_zip_core. now rewrite grads_length.
  Qed.
  Lemma frame_core l l' : map core l = map core l' -> map frame l = map frame l'.
  Proof. apply map_eq_in. unfold core, frame. intros p q H. injection H as E1 E2 E3 E4 E5. congruence. Qed.
  Lemma frame_directed l l' : map frame l = map frame l' -> directed l -> directed l'.
  Proof. apply map_forall. unfold frame. congruence. Qed.

  Lemma interact_frame o1 t o2 found : directed (ps o1) -> interact dot_all closure cd t (with_dict [] o1) = (LOk found, o2) ->
    map core (ps o2) = map core (ps o1) /\ rest o2 = rest o1.
  Proof.
    intros D H. destruct (interact_after dot_all closure cd Htot (with_dict [] o1) D eq_refl _ [] _ _ _ (after_refl _ _ _ _) H)
      as (tried & (C1 & _ & _ & _ & C5) & _). auto.
  Qed.
  Lemma moves_frame a redo o u o' : directed (ps o) -> each (move dot_all tg td a redo) o = (LOk u, o') ->
    map frame (ps o') = map frame (ps o) /\ rest o' = rest o.
  Proof.
    intros D H. apply visit_ok_bind in H. destruct H as (l & -> & F). split; auto. cbn [ps with_params].
    eapply forall2_map; [exact (forall2_in _ _ _ F)|]. intros p q [Ip Hq]. apply move_ok in Hq.
    - destruct Hq as (Q & _). unfold stay in Q. unfold frame. congruence.
    - now apply (proj1 (Forall_forall _ _) D).
  Qed.
  Lemma after_frame o u o' : after_step stab o = (LOk u, o') ->
    map frame (ps o') = map frame (ps o) /\ count o' = S (count o) /\ prev_loss o' = prev_loss o /\
    old_phi0 o' = old_phi0 o /\ old_derphi0 o' = old_derphi0 o /\ last_size o' = last_size o /\ dict o' = dict o.
  Proof.
    unfold after_step. intros H. destruct stab as [[|N]|]; [discriminate| |now injection H as _ <-].
    destruct (S (count o) mod S N =? 0)%nat; [|now injection H as _ <-].
    apply visit_ok_bind in H. destruct H as (l & -> & F). split; [|repeat split]. cbn [ps with_params].
    eapply forall2_map; [exact F|]. intros p q Hq. unfold stabilize_one in Hq.
    destruct (l_man p); [destruct (l_requires p); [discriminate|]|]; injection Hq as <-; reflexivity.
  Qed.

  Lemma step_frame meth force recompute no_step o r o' : step meth force recompute no_step o = (LOk r, o') ->
    exists phi0 s o1, init_loss recompute o = (LOk (phi0, s), o1) /\ map frame (ps o') = map frame (ps o1) /\
      old_phi0 o' = phi0 /\ old_derphi0 o' = Some s /\ count o' = S (count o) /\
      exists o2, interact dot_all closure cd (meth phi0 s (old_phi0 o1) (old_derphi0 o1) (last_size o1)) (with_dict [] o1) = (LOk (last_size o'), o2).
  Proof.
    intros H. apply step_ok in H; auto. destruct H as (phi0 & s & o1 & found & o2 & o4 & o5 & H1 & H2 & H3 & H4 & H5).
    exists phi0, s, o1. split; auto.
    pose proof (init_ok _ _ _ Htot _ _ _ _ _ H1) as (_ & B2 & _ & _ & _ & _ & B7 & _).
    destruct (interact_frame _ _ _ _ B2 H2) as (C1 & C2).
    cbv zeta in H3, H5. set (size := match found with Some a => Some a | None => if force then Some fallback else None end) in *.
    match type of H3 with _ ?o3 = _ => set (o3' := o3) in * end.
    assert (D3 : directed (ps o3')).
    { apply (frame_directed (ps o1)); auto. symmetry. apply frame_core. exact C1. }
    assert (F3 : map frame (ps o3') = map frame (ps o1)) by (apply frame_core; exact C1).
    assert (F4 : map frame (ps o4) = map frame (ps o3') /\ rest o4 = rest o3').
    { destruct size; [|now injection H3 as <-]. destruct no_step; [now injection H3 as <-|]. revert H3. now apply moves_frame. }
    destruct F4 as (F4 & G4). destruct (after_frame _ _ _ H4) as (F5 & N5 & P5 & Q5 & R5 & S5 & _).
    assert (G3 : old_phi0 o4 = phi0 /\ old_derphi0 o4 = Some s /\ count o4 = count o /\ last_size o4 = found).
    { unfold rest in *. unfold o3' in G4. cbn in G4. injection G4 as E1 E2 E3 E4 E5 E6. injection C2 as X1 X2 X3 X4 X5 X6.
      injection B7 as Y1 Y2 Y3 Y4 Y5 Y6. repeat split; congruence. }
    destruct G3 as (G1 & G2 & G3 & G5).
    assert (K : last_size o' = found -> exists o2, interact dot_all closure cd (meth phi0 s (old_phi0 o1) (old_derphi0 o1) (last_size o1)) (with_dict [] o1) = (LOk (last_size o'), o2)).
    { intros ->. exists o2. exact H2. }
    destruct size as [a|].
    - destruct H5 as (v & o6 & H6 & -> & ->). cbn [ps with_loss old_phi0 old_derphi0 count].
      destruct (phi_frame _ _ _ _ (frame_directed (ps o3') (ps o5) ltac:(congruence) D3) H6) as (X & Y & _).
      apply frame_core in X. unfold rest in Y. injection Y as Y1 Y2 Y3 Y4 Y5 Y6.
      split; [congruence|]. split; [congruence|]. split; [congruence|]. split; [congruence|]. apply K. cbn [last_size with_loss]. congruence.
    - destruct H5 as [-> ->].
      split; [congruence|]. split; [congruence|]. split; [congruence|]. split; [congruence|]. apply K. congruence.
  Qed.

  (** ** Descent *)
  Lemma step_descends meth force recompute no_step o r o' : Forall (fun p => definite (man p)) (ps o) ->
    step meth force recompute no_step o = (LOk r, o') ->
    exists s, old_derphi0 o' = Some s /\ s <= 0 /\
      s = total (zip_with (fun x p => l_inner (man p) x (grad_of p) (dir_of p)) (map l_val (ps o)) (ps o')) /\
      (s = 0 -> Forall (fun t => t = 0) (zip_with (fun x p => l_inner (man p) x (grad_of p) (grad_of p)) (map l_val (ps o)) (ps o'))).
  Proof.
    intros Df H. destruct (step_frame _ _ _ _ _ _ _ H) as (phi0 & s & o1 & H1 & F & _ & S & _).
    pose proof (init_ok _ _ _ Htot _ _ _ _ _ H1) as (B1 & B2 & _ & _ & _ & _ & _ & _ & _ & B10).
    destruct (B10 Df) as (E & L & Z). exists s. split; auto. split; auto.
    apply base_val in B1. rewrite <- B1. clear -F E Z. split.
    - rewrite E. unfold initial_slope. revert F. generalize (ps o1) (ps o'). intros l l'. revert l'.
      induction l as [|p l IH]; intros [|q l'] F; try discriminate; auto.
      cbn [map] in F. injection F as F1 F2 F3 F4 F5. cbn [map zip_with sum_over total fold_right].
      f_equal; [|exact (IH _ F5)]. unfold man_of, grad_of, dir_of. now rewrite F1, F3, F4.
    - intros S0. specialize (Z S0). revert F Z. generalize (ps o1) (ps o'). intros l l'. revert l'.
      induction l as [|p l IH]; intros [|q l'] F Z; try discriminate; [constructor|].
      cbn [map] in F. injection F as F1 F2 F3 F4 F5. cbn [map zip_with]. constructor.
      + rewrite <- (Z p (or_introl eq_refl)). unfold man_of, grad_of. now rewrite F1, F4.
      + apply IH; auto. intros; apply Z. now right.
  Qed.

  (** ** Reuse of gradients *)
  Lemma init_grads recompute o phi0 s o1 : init_loss recompute o = (LOk (phi0, s), o1) ->
    map s_grad (ps o1) = if recompute || negb (fresh_grads o) then gradients dot_all closure (ps o) else map s_new_grad (ps o).
  Proof.
    unfold LineSearchModel.init_loss. set (again := recompute || negb (fresh_grads o)). intros H.
    apply bind_ok in H. destruct H as (loss & oa & Ha & H).
    apply bind_ok in H. destruct H as (u & ob & Hb & H). injection Hb as _ <-.
    apply bind_ok in H. destruct H as (u' & oc & Hc & H).
    apply bind_ok in H. destruct H as (s' & od & Hd & H).
    apply bind_ok in H. destruct H as (u'' & oe & He & H). injection He as _ <-.
    injection H as <- <- <-.
    apply visit_ok_bind in Hc. destruct Hc as (lc & -> & Fc). cbn [ps with_dict] in Fc.
    assert (C2 : Forall (fun p => s_grad p <> None) lc).
    { clear -Fc. induction Fc; constructor; auto. now apply take_grad_ok in H. }
    apply search_direction_ok in Hd; auto. destruct Hd as (ld & -> & _ & D2 & _).
    cbn [ps with_params with_fresh with_dict] in *. rewrite D2.
    assert (G : map s_grad lc = map (fun p => if negb again then s_new_grad p else option_map (l_egrad (man p) (l_val p)) (l_grad p)) (ps oa)).
    { clear -Fc. induction Fc as [|p q l m Hq F IH]; auto. cbn [map]. f_equal; auto. now apply take_grad_ok in Hq. }
    rewrite G. destruct again.
    - apply bind_ok in Ha. destruct Ha as (v & o2 & H2 & H3). injection H3 as <- <-. revert H2.
      unfold call_closure, gradients. unfold values. pose proof (proj1 (Htot (map l_val (ps o)))) as L. revert L.
      destruct (closure (map l_val (ps o))) as [v' gs]. cbn [fst snd]. intros L H2. injection H2 as <- <-. cbn [ps].
      rewrite map_length in L. clear -L. revert gs L. induction (ps o) as [|p l IH]; intros [|g gs] L; try discriminate; auto.
      cbn [zip_with map]. rewrite IH by (now injection L). now destruct g.
    - injection Ha as <- <-. reflexivity.
  Qed.
  Lemma init_true recompute o phi0 s o1 : up_to_date dot_all closure o -> init_loss recompute o = (LOk (phi0, s), o1) ->
    phi0 = Some (fst (closure (values o))) /\ map s_grad (ps o1) = gradients dot_all closure (ps o).
  Proof.
    intros U H. pose proof (init_grads _ _ _ _ _ H) as G.
    pose proof (init_ok _ _ _ Htot _ _ _ _ _ H) as (_ & _ & _ & _ & B & _). cbv zeta in B.
    destruct (recompute || negb (fresh_grads o)) eqn:E; auto.
    apply orb_false_iff in E. destruct E as [_ E]. apply negb_false_iff in E. destruct (U E) as (U1 & U2).
    rewrite B, U1, G, U2. auto.
  Qed.

  Section Method.
  Variable meth : method.
  Variable good : option R -> R -> R -> R -> Prop.
  Hypothesis Hm : forall phi0 s a b c, ends_on (good phi0 s) [] None (meth phi0 s a b c).
  Notation one := (fun recompute => step meth false recompute false).

  Lemma step_loss recompute o r o' : Forall (fun p => l_requires p = true) (ps o) ->
    step meth false recompute false o = (LOk r, o') ->
    (forall a, last_size o' = Some a -> r = Some (fst (closure (map l_val (ps o')))) /\ prev_loss o' = r) /\
    (last_size o' = None -> map l_val (ps o') = map l_val (ps o) /\ r = prev_loss o /\ prev_loss o' = r).
  Proof.
    intros Rq H. destruct (step_accept dot_all closure cd tg td cg fallback stab Htot good meth recompute o r o' Hm Rq H)
      as (phi0 & s & o1 & _ & _ & [(a & A1 & _ & A3 & A4 & _)|(N1 & N2 & N3 & N4 & _)] & _).
    - split; [intros; split; auto; congruence|congruence].
    - split; [congruence|]. intros _. split; auto. split; congruence.
  Qed.
  Lemma step_point recompute o r o' a : Forall (fun p => l_requires p = true) (ps o) ->
    cd = false \/ Forall2 (fun p q => agrees dot_all (set_val (l_val p) q)) (ps o) (ps o') ->
    step meth false recompute false o = (LOk r, o') -> last_size o' = Some a ->
    Forall2 (fun p q => l_val q = reach dot_all a (set_val (l_val p) q)) (ps o) (ps o').
  Proof.
    intros Rq Ag H L. destruct (step_accept dot_all closure cd tg td cg fallback stab Htot good meth recompute o r o' Hm Rq H)
      as (phi0 & s & o1 & H1 & _ & [(b & A1 & A2 & _ & _ & _ & Fm & _)|(N1 & _)] & _); [|congruence].
    assert (b = a) by congruence. subst b.
    pose proof (init_ok _ _ _ Htot _ _ _ _ _ H1) as (B1 & _).
    clear -A2 Fm B1 Ag. unfold values, trial in A2. revert A2 Fm B1 Ag.
    generalize (ps o) (ps o1) (ps o'). intros l l1 l'. revert l l'.
    induction l1 as [|p1 l1 IH]; intros [|p l] [|q l'] A2 Fm B1 Ag; try discriminate; constructor.
    - cbn [map] in *. injection A2 as A2 _. injection Fm as F1 F2 F3 F4 _. injection B1 as B1 B2 _ _.
      rewrite A2. unfold tpoint, reach. cbn [s_dir set_val l_val].
      change (man_of dot_all (set_val (l_val p) q)) with (man q).
      assert (M : man p1 = man q) by (unfold man_of; now rewrite F1). rewrite M, <- F3, B2.
      destruct (s_dir q) as [d|] eqn:Ed; auto. destruct cd; auto.
      destruct Ag as [Ag|Ag]; [discriminate|]. inversion Ag as [|? ? ? ? Ag1 Ag2]; subst.
      destruct (Ag1 d Ed a) as (X1 & X2 & X3). cbn [l_val set_val] in X1, X2. change (man_of dot_all (set_val (l_val p) q)) with (man q) in *.
      rewrite X1. exact X2.
    - cbn [map] in *. injection A2 as _ A2. injection Fm as _ _ _ _ Fm. injection B1 as _ _ _ _ B1.
      apply IH; auto. destruct Ag as [Ag|Ag]; auto. right. now inversion Ag.
  Qed.

  Hypothesis He : evaluates meth.
  Lemma step_reuse recompute o r o' : Forall (fun p => l_requires p = true) (ps o) -> up_to_date dot_all closure o ->
    step meth false recompute false o = (LOk r, o') ->
    Forall (fun p => l_requires p = true) (ps o') /\ up_to_date dot_all closure o' /\
    old_phi0 o' = Some (fst (closure (map l_val (ps o)))) /\ map s_grad (ps o') = gradients dot_all closure (ps o).
  Proof.
    intros Rq U H. destruct (step_accept dot_all closure cd tg td cg fallback stab Htot good meth recompute o r o' Hm Rq H)
      as (phi0 & s & o1 & H1 & _ & C & R').
    destruct (step_frame _ _ _ _ _ _ _ H) as (phi0' & s' & o1' & H1' & Fm & P & _).
    rewrite H1 in H1'. injection H1' as <- <- <-. destruct (init_true _ _ _ _ _ U H1) as (I1 & I2).
    split; auto. split; [|split].
    - destruct C as [(a & _ & _ & _ & _ & _ & _ & C)|(_ & _ & _ & _ & C)]; auto.
      intros Fr. rewrite C in Fr; [discriminate|]. intros a b c. rewrite I1. apply He.
    - rewrite P, I1. reflexivity.
    - rewrite <- I2. apply (map_eq_in frame) with (2 := Fm). unfold frame. congruence.
  Qed.
  Lemma runs_reuse o o' : Forall (fun p => l_requires p = true) (ps o) -> up_to_date dot_all closure o ->
    runs one o o' -> Forall (fun p => l_requires p = true) (ps o') /\ up_to_date dot_all closure o'.
  Proof.
    intros Rq U H. induction H as [o|o o1 o2 rc r H IH H2]; auto. destruct (IH Rq U) as (I1 & I2).
    destruct (step_reuse rc o1 r o2 I1 I2 H2) as (J1 & J2 & _). auto.
  Qed.
  Lemma runs_new l o recompute r o' : Forall (fun p => l_requires p = true) l -> runs one (new_opt l) o ->
    step meth false recompute false o = (LOk r, o') ->
    old_phi0 o' = Some (fst (closure (map l_val (ps o)))) /\ map s_grad (ps o') = gradients dot_all closure (ps o).
  Proof.
    intros Rq H H2. destruct (runs_reuse (new_opt l) o) as (I1 & I2); auto; [discriminate|].
    now destruct (step_reuse recompute o r o' I1 I2 H2) as (_ & _ & J3 & J4).
  Qed.
  End Method.

  (** ** Decrease *)
  Lemma step_decreases c1 meth recompute o r o' : 0 <= c1 ->
    (forall phi0 s a b c, ends_on (sufficient c1 phi0 s) [] None (meth phi0 s a b c)) ->
    Forall (fun p => l_requires p = true) (ps o) -> Forall (fun p => definite (man p)) (ps o) ->
    up_to_date dot_all closure o ->
    step meth false recompute false o = (LOk r, o') ->
    fst (closure (map l_val (ps o'))) <= fst (closure (map l_val (ps o))).
  Proof.
    intros C1 Hm Rq Df U H.
    destruct (step_accept dot_all closure cd tg td cg fallback stab Htot _ meth recompute o r o' Hm Rq H)
      as (phi0 & s & o1 & H1 & _ & [(a & _ & _ & _ & _ & G & _)|(_ & V & _)] & _).
    - destruct (init_true _ _ _ _ _ U H1) as (I1 & _). rewrite I1 in G. destruct G as (G1 & G2).
      pose proof (init_ok _ _ _ Htot _ _ _ _ _ H1) as (_ & _ & _ & _ & _ & _ & _ & _ & _ & B).
      destruct (B Df) as (_ & L & _). unfold values in *.
      assert (c1 * a * s <= 0) by (pose proof (Rmult_le_pos _ _ (Rmult_le_pos _ _ C1 G1) (ltac:(lra) : 0 <= - s)); lra). lra.
    - unfold values in V. rewrite V. lra.
  Qed.
  Lemma step_man meth recompute o r o' : step meth false recompute false o = (LOk r, o') ->
    map l_man (ps o') = map l_man (ps o).
  Proof.
    intros H. destruct (step_frame _ _ _ _ _ _ _ H) as (phi0 & s & o1 & H1 & F & _).
    pose proof (init_ok _ _ _ Htot _ _ _ _ _ H1) as (B & _).
    transitivity (map l_man (ps o1)).
    - apply (map_eq_in frame) with (2 := F). unfold frame. congruence.
    - apply (map_eq_in base) with (2 := B). unfold base. congruence.
  Qed.
  Lemma runs_decrease c1 meth l o o' : 0 <= c1 ->
    (forall phi0 s a b c, ends_on (sufficient c1 phi0 s) [] None (meth phi0 s a b c)) -> evaluates meth ->
    Forall (fun p => l_requires p = true) l -> Forall (fun p => definite (man p)) l ->
    runs (fun rc => step meth false rc false) (new_opt l) o -> runs (fun rc => step meth false rc false) o o' ->
    fst (closure (map l_val (ps o'))) <= fst (closure (map l_val (ps o))).
  Proof.
    intros C1 Hm He Rq Df H H'.
    assert (K : forall o, runs (fun rc => step meth false rc false) (new_opt l) o ->
       Forall (fun p => l_requires p = true) (ps o) /\ up_to_date dot_all closure o /\ Forall (fun p => definite (man p)) (ps o)).
    { intros q Hq. destruct (runs_reuse meth _ Hm He (new_opt l) q) as (I1 & I2); auto; [discriminate|].
      split; auto. split; auto. clear -Hq Df Htot. 
      assert (E : map l_man (ps q) = map l_man l).
      { remember (new_opt l) as q0. induction Hq as [q0|q0 q1 q2 rc r Hq IH H2]; [now subst|].
        rewrite (step_man _ _ _ _ _ H2). auto. }
      apply (map_forall l_man _ l); [|now symmetry|auto]. intros p p' Hp. unfold man_of. now rewrite Hp. }
    induction H' as [o|o o1 o2 rc r H' IH H2]; [lra|].
    assert (H1 : runs (fun rc => step meth false rc false) (new_opt l) o1).
    { clear -H H'. induction H' as [|o o1 o2 rc r H' IH H2]; auto. exact (runs_more _ _ _ _ rc r (IH H) H2). }
    destruct (K o1 H1) as (K1 & K2 & K3). specialize (IH H).
    pose proof (step_decreases c1 meth rc o1 r o2 C1 Hm K1 K3 K2 H2). lra.
  Qed.

  (** ** Stabilisation *)
  Lemma stabilize_raises meth force recompute no_step o r o' N : stab = Some N -> (S (count o) mod N)%nat = 0%nat ->
    (exists p, In p (ps o) /\ l_man p <> None /\ l_requires p = true) ->
    step meth force recompute no_step o <> (LOk r, o').
  Proof.
    intros St Md (p & Ip & Mp & Rp) H. apply step_ok in H; auto. destruct H as (phi0 & s & o1 & found & o2 & o4 & o5 & H1 & H2 & H3 & H4 & _).
    pose proof (init_ok _ _ _ Htot _ _ _ _ _ H1) as (B1 & B2 & _ & _ & _ & _ & B7 & _).
    destruct (interact_frame _ _ _ _ B2 H2) as (C1 & C2).
    cbv zeta in H3.
    match type of H3 with _ ?o3 = _ => set (o3' := o3) in * end.
    assert (F3 : map frame (ps o3') = map frame (ps o1)) by (apply frame_core; exact C1).
    assert (F4 : map frame (ps o4) = map frame (ps o3') /\ rest o4 = rest o3').
    { destruct (match found with Some a => Some a | None => if force then Some fallback else None end);
        [|now injection H3 as <-]. destruct no_step; [now injection H3 as <-|]. revert H3. apply moves_frame.
      apply (frame_directed (ps o1)); auto. }
    destruct F4 as (F4 & G4).
    assert (Cn : count o4 = count o).
    { unfold rest in *. unfold o3' in G4. cbn in G4. injection G4 as E1 E2 E3 E4 E5 E6. injection C2 as X1 X2 X3 X4 X5 X6.
      injection B7 as Y1 Y2 Y3 Y4 Y5 Y6. congruence. }
    assert (Q : exists q, In q (ps o4) /\ l_man q <> None /\ l_requires q = true).
    { assert (X : map (fun p => (l_man p, l_requires p)) (ps o4) = map (fun p => (l_man p, l_requires p)) (ps o)).
      { transitivity (map (fun p => (l_man p, l_requires p)) (ps o1)).
        - apply (map_eq_in frame) with (2 := eq_trans F4 F3). unfold frame. congruence.
        - apply (map_eq_in base) with (2 := B1). unfold base. congruence. }
      pose proof (in_map (fun p => (l_man p, l_requires p)) _ _ Ip) as I. cbv beta in I. rewrite <- X in I.
      apply in_map_iff in I. destruct I as (q & Eq & Iq). exists q. split; auto. injection Eq as E1 E2. split; congruence. }
    destruct Q as (q & Iq & Mq & Rq'). unfold after_step in H4. rewrite St, Cn in H4. destruct N as [|N]; [discriminate|].
    rewrite Md in H4. cbn [Nat.eqb] in H4. apply visit_ok_bind in H4. destruct H4 as (l & _ & F).
    cbn [ps with_count] in F. clear -F Iq Mq Rq'. induction F as [|a b l0 m Hp F IH]; [easy|].
    destruct Iq as [->|Iq]; auto. unfold stabilize_one in Hp. rewrite Rq' in Hp. destruct (l_man q); congruence.
  Qed.
End LineSearch.

(** ** Armijo's first trial step *)
Lemma alpha0_positive phi0 derphi0 old amax : (forall b, amax = Some b -> 0 < b) ->
  0 < armijo_alpha0 phi0 derphi0 old amax /\ (forall b, amax = Some b -> armijo_alpha0 phi0 derphi0 old amax <= b).
Proof.
  intros Hb. unfold armijo_alpha0.
  set (a := match old with Some old => _ | None => 1 end).
  assert (P : 0 < (if Rle_dec a 0 then 1 else a)) by (destruct (Rle_dec a 0); lra).
  destruct amax as [b|].
  - split; [apply Rmin_glb_lt; auto|]. intros c Hc. injection Hc as <-. apply Rmin_r.
  - split; auto. discriminate.
Qed.
Lemma armijo_sufficient scalar c1 amin amax : (forall b, amax = Some b -> 0 < b) ->
  (forall phi0 derphi0 alpha0, 0 < alpha0 -> ends_on (sufficient c1 (Some phi0) derphi0) [] None (scalar phi0 derphi0 c1 alpha0 amin)) ->
  forall phi0 s a b c, ends_on (sufficient c1 phi0 s) [] None (armijo_backtracking scalar c1 amin amax phi0 s a b c).
Proof.
  intros Hb Hs phi0 s a b c. unfold armijo_backtracking. destruct phi0 as [f|]; [|constructor].
  apply Hs. now apply alpha0_positive.
Qed.
