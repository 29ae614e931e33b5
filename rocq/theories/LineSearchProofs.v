(** Lemmas about the line search model. *)
From Coq Require Import Reals List Bool Arith Lra Lia.
From Verif Require Import RVec LineSearchModel LineSearchSpec.
Import ListNotations.
Local Open Scope R_scope.

Lemma visit_map f g l : (forall p, In p l -> f p = LOk (g p)) -> visit f l = (LOk tt, map g l).
Proof.
  induction l as [|p l IH]; intros H; [reflexivity|]. cbn [visit map].
  rewrite (H p (or_introl eq_refl)), IH; auto. intros q Hq. apply H. now right.
Qed.
Lemma visit_ok f l r l' : visit f l = (LOk r, l') -> Forall2 (fun p q => f p = LOk q) l l'.
Proof.
  revert r l'. induction l as [|p l IH]; cbn [visit]; intros r l' H.
  - injection H as <- <-. constructor.
  - destruct (f p) as [q|e] eqn:E; [|discriminate]. destruct (visit f l) as [r1 l1] eqn:V.
    injection H as -> <-. constructor; auto. eapply IH; reflexivity.
Qed.
Lemma visit_ok_bind f o r o' : each f o = (LOk r, o') -> exists l, o' = with_params l o /\ Forall2 (fun p q => f p = LOk q) (ps o) l.
Proof.
  unfold each. destruct (visit f (ps o)) as [r1 l] eqn:V. intros H. injection H as -> <-.
  exists l. split; auto. eapply visit_ok; eauto.
Qed.
Lemma bind_ok {A B} (m : M A) (k : A -> M B) o b o' :
  bind m k o = (LOk b, o') -> exists a o1, m o = (LOk a, o1) /\ k a o1 = (LOk b, o').
Proof. unfold bind. destruct (m o) as [[a|e] o1]; intros H; [eauto|discriminate]. Qed.
Lemma bind_of {A B} (m : M A) (k : A -> M B) o a o1 : m o = (LOk a, o1) -> bind m k o = k a o1.
Proof. unfold bind. now intros ->. Qed.

Lemma zip_with_length {A B C} (f : A -> B -> C) l m : length l = length m -> length (zip_with f l m) = length l.
Proof. revert m. induction l; intros [|b m] H; simpl in *; auto; try discriminate. Qed.

Section LineSearch.
  Variable dot_all : vec -> vec -> R.
  Variable closure : list vec -> R * list (option vec).
  Variables cd tg td : bool.
  Variable cg : list lparam -> R.
  Variable fallback : R.
  Variable stab : option nat.
  Notation man := (man_of dot_all).

  (** What identifies the search line of a parameter. *)
  Definition core (p : lparam) := (l_man p, l_val p, s_dir p, s_grad p, l_requires p).

  (** The point the code evaluates for step a, and the direction it carries there. *)
  Definition tpoint (a : R) (p : lparam) : vec :=
    match s_dir p with
    | None => l_val p
    | Some d =>
        if cd then l_projx (man p) (fst (l_retr_transp (man p) (l_val p) (smul a d) d))
        else l_retr (man p) (l_val p) (smul a d)
    end.
  Definition tdir (a : R) (p : lparam) : vec :=
    match s_dir p with
    | None => vzero
    | Some d => l_proju (man p) (tpoint a p) (snd (l_retr_transp (man p) (l_val p) (smul a d) d))
    end.
  Definition trial (l : list lparam) (a : R) : list vec := map (tpoint a) l.
  Definition loss_at (l : list lparam) (a : R) : R := fst (closure (trial l a)).
  Definition grads_at (l : list lparam) (a : R) : list (option vec) := snd (closure (trial l a)).
  Definition rgrad (a : R) (p : lparam) (g : option vec) : option vec :=
    match g with Some g => Some (l_egrad (man p) (tpoint a p) g) | None => None end.
  Definition term (a : R) (p : lparam) (g : option vec) : R :=
    match g with
    | Some g => l_inner (man p) (tpoint a p) (l_egrad (man p) (tpoint a p) g) (tdir a p)
    | None => 0
    end.
  Definition slope_at (l : list lparam) (a : R) : R := total (zip_with (term a) l (grads_at l a)).

  Lemma core_tpoint a p q : core p = core q -> tpoint a p = tpoint a q.
  Proof. unfold core, tpoint, man_of. intros E. injection E as -> -> -> _ _. reflexivity. Qed.
  Lemma core_tdir a p q : core p = core q -> tdir a p = tdir a q.
  Proof.
    intros E. unfold tdir. rewrite (core_tpoint a p q E). revert E. unfold core, man_of.
    intros E. injection E as -> -> -> _ _. reflexivity.
  Qed.
  Lemma core_man p q : core p = core q -> man p = man q.
  Proof. unfold core, man_of. intros E. injection E as -> _ _ _ _. reflexivity. Qed.
  Lemma core_trial l l' a : map core l = map core l' -> trial l a = trial l' a.
  Proof.
    unfold trial. revert l'. induction l as [|p l IH]; intros [|q l'] H; try discriminate; auto.
    cbn [map] in *. injection H as H1 H2 H3 H4 H5 H6.
    f_equal; [apply core_tpoint; unfold core; congruence|auto].
  Qed.
  Lemma core_zip {C} (f : lparam -> option vec -> C) l l' gs :
    (forall p q g, core p = core q -> f p g = f q g) ->
    map core l = map core l' -> zip_with f l gs = zip_with f l' gs.
  Proof.
    intros Hf. revert l' gs. induction l as [|p l IH]; intros [|q l'] gs H; try discriminate; auto.
    destruct gs as [|g gs]; auto. cbn [zip_with map] in *.
    assert (core p = core q) by (injection H; intros; unfold core; congruence).
    f_equal; auto. apply IH. injection H; auto.
  Qed.
  Lemma core_slope l l' a : map core l = map core l' -> slope_at l a = slope_at l' a.
  Proof.
    intros H. unfold slope_at, grads_at. rewrite (core_trial l l' a H). f_equal.
    apply core_zip; auto. intros p q [g|] E; auto. unfold term.
    now rewrite (core_man p q E), (core_tpoint a p q E), (core_tdir a p q E).
  Qed.
  Lemma core_loss l l' a : map core l = map core l' -> loss_at l a = loss_at l' a.
  Proof. intros H. unfold loss_at. now rewrite (core_trial l l' a H). Qed.

  (** One evaluation of the objective, for one parameter. *)
  Definition displaced (a : R) (p : lparam) : lparam :=
    match s_dir p with
    | None => p
    | Some d => if cd then set_val (tpoint a p) (set_transported (tdir a p) p) else set_val (tpoint a p) p
    end.
  Definition sloped (p : lparam) : lparam :=
    match l_grad p, s_transported p with
    | Some g, Some t => let g := l_egrad (man p) (l_val p) g in set_slope g (l_inner (man p) (l_val p) g t) p
    | _, _ => p
    end.
  Definition evaluated (a : R) (p : lparam) (g : option vec) : lparam :=
    let q := set_egrad g (displaced a p) in
    roll_back (if cd then sloped q else q) (l_val p).

  Lemma displace_ok a p : s_dir p <> None -> displace dot_all cd a p = LOk (displaced a p).
  Proof.
    unfold displace, displaced, tdir, tpoint. destruct (s_dir p) as [d|] eqn:E; [intros _|congruence].
    destruct cd; auto. destruct (l_retr_transp (man p) (l_val p) (smul a d) d) as [y t]. reflexivity.
  Qed.
  Lemma displaced_val a p : s_dir p <> None -> l_val (displaced a p) = tpoint a p.
  Proof. unfold displaced. destruct (s_dir p); [|congruence]. now destruct cd. Qed.
  Lemma store_ok p : s_transported p <> None -> store_slope dot_all p = LOk (sloped p).
  Proof.
    unfold store_slope, sloped. destruct (l_grad p); auto. destruct (s_transported p); auto. congruence.
  Qed.

  Lemma evaluated_core a p g : core (evaluated a p g) = core p.
  Proof.
    unfold evaluated, displaced, sloped, core. destruct (s_dir p) eqn:E.
    - destruct cd; cbn -[l_egrad]; [destruct g|]; cbn; now rewrite E.
    - destruct cd; cbn -[l_egrad]; [destruct g; [destruct (s_transported p)|]|]; cbn; now rewrite E.
  Qed.
  Lemma evaluated_zip_core a l gs : length l = length gs -> map core (zip_with (evaluated a) l gs) = map core l.
  Proof.
    revert gs. induction l as [|p l IH]; intros [|g gs] H; simpl in *; auto; try discriminate.
    rewrite IH by auto. f_equal. apply evaluated_core.
  Qed.
  Lemma evaluated_np a p g : s_dir p <> None -> s_new_point (evaluated a p g) = Some (tpoint a p).
  Proof.
    intros H. unfold evaluated, displaced, sloped. destruct (s_dir p) eqn:E; [|congruence].
    destruct cd; cbn -[l_egrad tpoint tdir]; [destruct g|]; reflexivity.
  Qed.
  Lemma evaluated_ng a p g : s_dir p <> None -> cd = true -> s_new_grad (evaluated a p (Some g)) = rgrad a p (Some g).
  Proof.
    intros H H'. unfold evaluated, displaced, sloped. destruct (s_dir p) eqn:E; [|congruence].
    rewrite H'. reflexivity.
  Qed.
  Lemma evaluated_slope a p g : s_dir p <> None -> cd = true -> s_derphi (evaluated a p (Some g)) = Some (term a p (Some g)).
  Proof.
    intros H H'. unfold evaluated, displaced, sloped. destruct (s_dir p) eqn:E; [|congruence].
    rewrite H'. reflexivity.
  Qed.
  Lemma evaluated_transported a p g : s_dir p <> None -> cd = true -> s_transported (evaluated a p (Some g)) = Some (tdir a p).
  Proof.
    intros H H'. unfold evaluated, displaced, sloped. destruct (s_dir p) eqn:E; [|congruence].
    rewrite H'. reflexivity.
  Qed.

  Hypothesis Htot : all_gradients closure.

  Lemma fuse a l gs :
    zip_with roll_back ((if cd then map sloped else fun x => x)
      (zip_with (fun p g => set_egrad g p) (map (displaced a) l) gs)) (map l_val l) = zip_with (evaluated a) l gs.
  Proof.
    unfold evaluated. revert gs. induction l as [|p l IH]; intros [|g gs]; cbn [map zip_with];
      [destruct cd; reflexivity..|].
    specialize (IH gs). destruct cd; cbn [map zip_with]; now rewrite IH.
  Qed.

  (** One new evaluation. *)
  Definition evaluate (a : R) (o : lopt) : lopt :=
    {| ps := zip_with (evaluated a) (ps o) (grads_at (ps o) a);
       dict := (a, loss_at (ps o) a) :: dict o; last_try := Some a; fresh_grads := if cd then true else fresh_grads o;
       prev_loss := prev_loss o; old_phi0 := old_phi0 o; old_derphi0 := old_derphi0 o; last_size := last_size o;
       history := history o; count := count o; calls := calls o ++ [trial (ps o) a] |}.
  Lemma displaced_vals a l : directed l -> map l_val (map (displaced a) l) = trial l a.
  Proof.
    intros H. unfold trial. rewrite map_map. apply map_ext_in. intros p Hp. apply displaced_val.
    now apply (proj1 (Forall_forall _ _) H).
  Qed.
  Lemma phi_new a o : directed (ps o) -> lookup a (dict o) = None ->
    phi dot_all closure cd a o = (LOk (loss_at (ps o) a), evaluate a o).
  Proof.
    intros Hd Hl. unfold phi. rewrite Hl.
    rewrite (bind_of _ _ o tt (with_params (map (displaced a) (ps o)) o)).
    2:{ unfold each. rewrite (visit_map _ (displaced a)); auto. intros p Hp. apply displace_ok.
        now apply (proj1 (Forall_forall _ _) Hd). }
    set (o1 := with_params (map (displaced a) (ps o)) o).
    assert (Ev : values o1 = trial (ps o) a) by (apply displaced_vals; auto).
    set (o2 := {| ps := zip_with (fun p g => set_egrad g p) (ps o1) (grads_at (ps o) a); dict := dict o; last_try := last_try o;
        fresh_grads := fresh_grads o; prev_loss := prev_loss o; old_phi0 := old_phi0 o;
        old_derphi0 := old_derphi0 o; last_size := last_size o; history := history o; count := count o;
        calls := calls o ++ [trial (ps o) a] |}).
    rewrite (bind_of _ _ o1 (loss_at (ps o) a) o2).
    2:{ unfold call_closure. rewrite Ev. unfold loss_at, o2, grads_at.
        destruct (closure (trial (ps o) a)) as [v gs] eqn:C. reflexivity. }
    pose proof (fuse a (ps o) (grads_at (ps o) a)) as FU. unfold evaluate.
    destruct cd eqn:Ecd.
    - rewrite (bind_of _ _ o2 tt (with_fresh true (with_params (map sloped (ps o2)) o2))).
      2:{ rewrite (bind_of _ _ o2 tt (with_params (map sloped (ps o2)) o2)); auto.
          unfold each. rewrite (visit_map _ sloped); auto. intros p Hp. apply store_ok.
          unfold o2, o1 in Hp. cbn [ps with_params] in Hp. clear - Hp Hd Ecd.
          revert Hp. generalize (grads_at (ps o) a). intro gs. revert gs Hd. generalize (ps o).
          induction l as [|q l IH]; intros gs Hd; cbn [map zip_with]; [easy|].
          destruct gs as [|g gs]; [easy|]. intros [<-|Hp].
          - unfold displaced. inversion Hd; subst. destruct (s_dir q); [|congruence]. rewrite Ecd. cbn. discriminate.
          - inversion Hd; subst. eauto. }
      unfold bind, modify, ret, with_try, with_fresh, with_params.
      cbn [ps dict last_try fresh_grads prev_loss old_phi0 old_derphi0 last_size history count calls o2].
      repeat f_equal. cbn [with_params ps o1]. exact FU.
    - unfold bind, modify, ret, with_try, with_fresh, with_params.
      cbn [ps dict last_try fresh_grads prev_loss old_phi0 old_derphi0 last_size history count calls o2].
      repeat f_equal. cbn [with_params ps o1]. exact FU.
  Qed.
  Lemma phi_old a v o : lookup a (dict o) = Some v -> phi dot_all closure cd a o = (LOk v, o).
  Proof. unfold phi. now intros ->. Qed.

  (** ** Sequences of evaluations *)
  Definition rest (o : lopt) := (prev_loss o, old_phi0 o, old_derphi0 o, last_size o, history o, count o).
  (** [tried] are the steps evaluated since state o0, the latest first. *)
  Definition latest_facts (l0 : list lparam) (a : R) (o : lopt) : Prop :=
    last_try o = Some a /\ map s_new_point (ps o) = map Some (trial l0 a) /\
    (cd = true -> fresh_grads o = true /\ total_derphi o = slope_at l0 a /\
       map s_new_grad (ps o) = zip_with (rgrad a) l0 (grads_at l0 a) /\
       map s_transported (ps o) = map (fun p => Some (tdir a p)) l0).
  Definition after (o0 : lopt) (tried : list R) (o : lopt) : Prop :=
    map core (ps o) = map core (ps o0) /\
    dict o = map (fun a => (a, loss_at (ps o0) a)) tried ++ dict o0 /\
    (match tried with [] => o = o0 | a :: _ => latest_facts (ps o0) a o end) /\
    calls o = calls o0 ++ map (trial (ps o0)) (rev tried) /\ rest o = rest o0.

  Lemma core_dir p q : core p = core q -> s_dir p = s_dir q.
  Proof. unfold core. congruence. Qed.
  Lemma core_directed l l' : map core l = map core l' -> directed l -> directed l'.
  Proof.
    unfold directed. revert l'. induction l as [|p l IH]; intros [|q l'] H D; try discriminate; constructor.
    - inversion D; subst. rewrite <- (core_dir p q); auto. injection H; intros; unfold core; congruence.
    - inversion D; subst. apply IH; auto. injection H; auto.
  Qed.
  Lemma grads_length l a : length (grads_at l a) = length l.
  Proof. unfold grads_at. rewrite (proj1 (Htot _)). unfold trial. apply map_length. Qed.
  Lemma grads_some l a : Forall (fun g => g <> None) (grads_at l a).
  Proof. apply Htot. Qed.

  Lemma map_zip_evaluated {C} (f : lparam -> C) (g : lparam -> option vec -> C) a l gs :
    directed l -> Forall (fun g => g <> None) gs ->
    (forall p v, s_dir p <> None -> f (evaluated a p (Some v)) = g p (Some v)) ->
    map f (zip_with (evaluated a) l gs) = zip_with g l gs.
  Proof.
    intros D G H. revert gs G. induction l as [|p l IH]; intros gs G; auto.
    destruct gs as [|[v|] gs]; auto.
    - cbn [zip_with map]. inversion D; subst. inversion G; subst. rewrite IH; auto. now rewrite H.
    - inversion G; congruence.
  Qed.
  Lemma zip_const {B C} (f : lparam -> C) l (gs : list B) : length gs = length l -> zip_with (fun p _ => f p) l gs = map f l.
  Proof. revert gs. induction l; intros [|b gs] H; simpl in *; auto; try discriminate. f_equal. auto. Qed.
  Lemma sum_zip a l gs : directed l -> Forall (fun g => g <> None) gs -> cd = true ->
    sum_over (fun p => match s_derphi p with Some s => s | None => 0 end) (zip_with (evaluated a) l gs) = total (zip_with (term a) l gs).
  Proof.
    intros D G H. revert gs G. induction l as [|p l IH]; intros gs G; auto.
    destruct gs as [|[v|] gs]; auto.
    - cbn [zip_with sum_over total fold_right]. inversion D; subst. inversion G; subst.
      rewrite evaluated_slope by auto. f_equal. apply IH; auto.
    - inversion G; congruence.
  Qed.

  Lemma evaluate_facts a o : directed (ps o) -> latest_facts (ps o) a (evaluate a o).
  Proof.
    intros D. pose proof (grads_some (ps o) a) as G. pose proof (grads_length (ps o) a) as L.
    split; [reflexivity|]. split.
    - unfold evaluate. cbn [ps]. rewrite (map_zip_evaluated s_new_point (fun p _ => Some (tpoint a p))); auto.
      + rewrite zip_const by auto. unfold trial. now rewrite map_map.
      + intros; now apply evaluated_np.
    - intros E. split; [|split; [|split]].
      + unfold evaluate. cbn [fresh_grads]. now rewrite E.
      + unfold evaluate, total_derphi. cbn [ps]. apply sum_zip; auto.
      + unfold evaluate. cbn [ps]. apply map_zip_evaluated; auto. intros; now apply evaluated_ng.
      + unfold evaluate. cbn [ps]. rewrite (map_zip_evaluated s_transported (fun p _ => Some (tdir a p))); auto.
        * now apply zip_const.
        * intros; now apply evaluated_transported.
  Qed.
  Lemma facts_core l l' a o : map core l = map core l' -> latest_facts l a o -> latest_facts l' a o.
  Proof.
    intros H (A & B & C). split; auto. rewrite <- (core_trial l l' a H). split; auto. intros E.
    destruct (C E) as (C1 & C2 & C3 & C4). split; auto. rewrite <- (core_slope l l' a H). split; auto.
    split.
    - rewrite C3. unfold grads_at. rewrite <- (core_trial l l' a H). apply core_zip; auto.
      intros p q [g|] Hc; auto. unfold rgrad. now rewrite (core_man p q Hc), (core_tpoint a p q Hc).
    - rewrite C4. clear - H. revert l' H. induction l as [|p l IH]; intros [|q l'] H; try discriminate; auto.
      cbn [map] in *. injection H as H1 H2 H3 H4 H5 H6. f_equal; auto. f_equal. apply core_tdir. unfold core; congruence.
  Qed.

  Lemma lookup_app a d d' : lookup a (d ++ d') = match lookup a d with Some v => Some v | None => lookup a d' end.
  Proof. induction d as [|[b v] d IH]; auto. cbn. destruct (Req_EM_T a b); auto. Qed.
  Lemma lookup_tried a f (tried : list R) : lookup a (map (fun b => (b, f b)) tried) = if in_dec Req_EM_T a tried then Some (f a) else None.
  Proof.
    induction tried as [|b l IH]; auto. cbn [map lookup]. destruct (Req_EM_T a b) as [->|N].
    - destruct (in_dec Req_EM_T b (b :: l)) as [|n]; auto. destruct n. now left.
    - rewrite IH. destruct (in_dec Req_EM_T a l) as [i|n], (in_dec Req_EM_T a (b :: l)) as [i'|n']; auto.
      + destruct n'. now right.
      + destruct i'; congruence.
  Qed.

  Lemma after_refl o : after o [] o.
  Proof. repeat split; cbn; auto. now rewrite app_nil_r. Qed.
  (** asking for a step *)
  Lemma phi_after o0 tried o a : directed (ps o0) -> dict o0 = [] -> after o0 tried o ->
    exists o', phi dot_all closure cd a o = (LOk (loss_at (ps o0) a), o') /\
      after o0 (if in_dec Req_EM_T a tried then tried else a :: tried) o'.
  Proof.
    intros D E (A1 & A2 & A3 & A4 & A5). rewrite E, app_nil_r in A2.
    destruct (in_dec Req_EM_T a tried) as [I|I].
    - exists o. split.
      + apply phi_old. rewrite A2, (lookup_tried a (loss_at (ps o0)) tried). now destruct (in_dec Req_EM_T a tried).
      + split; [auto|]. split; [now rewrite E, app_nil_r|]. auto.
    - assert (D' : directed (ps o)) by (apply (core_directed (ps o0)); auto).
      exists (evaluate a o). split.
      + rewrite phi_new; auto. { now rewrite (core_loss _ _ a A1). }
        rewrite A2, (lookup_tried a (loss_at (ps o0)) tried). now destruct (in_dec Req_EM_T a tried).
      + split; [|split; [|split; [|split]]].
        * unfold evaluate. cbn [ps]. rewrite evaluated_zip_core; auto. now rewrite grads_length.
        * unfold evaluate. cbn [dict map]. rewrite A2, E, app_nil_r, (core_loss _ _ a A1). reflexivity.
        * apply (facts_core (ps o)); auto. now apply evaluate_facts.
        * unfold evaluate. cbn [calls rev]. rewrite A4, map_app, app_assoc. f_equal. cbn [map].
          now rewrite (core_trial _ _ a A1).
        * exact A5.
  Qed.
  Lemma derphi_after o0 tried o a : directed (ps o0) -> dict o0 = [] -> after o0 tried o -> cd = true ->
    exists o' b tried', phi dot_all closure cd a o = (LOk (loss_at (ps o0) a), o') /\ 
      (if in_dec Req_EM_T a tried then tried else a :: tried) = b :: tried' /\
      derphi dot_all closure cd a o = (LOk (slope_at (ps o0) b), o') /\ after o0 (b :: tried') o'.
  Proof.
    intros D E A C. destruct (phi_after o0 tried o a D E A) as (o' & P & A').
    exists o'. destruct (if in_dec Req_EM_T a tried then tried else a :: tried) as [|b tried'] eqn:T.
    - destruct (in_dec Req_EM_T a tried) as [I|I]; [|discriminate]. subst. inversion I.
    - exists b, tried'. split; auto. split; auto. split; auto.
      unfold derphi. rewrite C. rewrite <- C at 1. rewrite (bind_of _ _ _ _ _ P).
      destruct A' as (_ & _ & (_ & _ & F) & _). destruct (F C) as (_ & F2 & _). now rewrite F2.
  Qed.
End LineSearch.
