(** Lemmas about whole steps of the line search model. *)
From Coq Require Import Reals List Bool Arith Lra Lia.
From Verif Require Import RVec LineSearchModel LineSearchSpec LineSearchProofs LineSearchProofs2.
Import ListNotations.
Local Open Scope R_scope.

Lemma forall2_map {B} (f : lparam -> B) (P : lparam -> lparam -> Prop) l l' :
  Forall2 P l l' -> (forall p q, P p q -> f q = f p) -> map f l' = map f l.
Proof. intros H Hf. induction H; auto. cbn [map]. f_equal; auto. Qed.
Lemma forall2_impl {A B} (P Q : A -> B -> Prop) : (forall a b, P a b -> Q a b) -> forall l m, Forall2 P l m -> Forall2 Q l m.
Proof. intros H l m F. induction F; constructor; auto. Qed.
Lemma map_eq_in {A B C} (f : A -> B) (g : A -> C) l l' :
  (forall p q, f p = f q -> g p = g q) -> map f l = map f l' -> map g l = map g l'.
Proof.
  intros H. revert l'. induction l as [|p l IH]; intros [|q l'] E; try discriminate; auto.
  cbn [map] in *. assert (f p = f q) by congruence. assert (map f l = map f l') by congruence.
  f_equal; auto.
Qed.
Lemma map_forall {A B} (f : A -> B) (P : A -> Prop) l l' :
  (forall p q, f p = f q -> P p -> P q) -> map f l = map f l' -> Forall P l -> Forall P l'.
Proof.
  intros H. revert l'. induction l as [|p l IH]; intros [|q l'] E F; try discriminate; auto.
  cbn [map] in *. assert (f p = f q) by congruence. assert (map f l = map f l') by congruence.
  inversion F; subst. constructor; eauto.
Qed.
Lemma opt_eqb_true a b : opt_eqb a b = true <-> a = b.
Proof.
  destruct a as [a|], b as [b|]; cbn; try (split; congruence).
  destruct (Req_EM_T a b); split; congruence.
Qed.
Lemma eta_fresh o : with_fresh (fresh_grads o) o = o.
Proof. now destruct o. Qed.

Section LineSearch.
  Variable dot_all : vec -> vec -> R.
  Variable closure : list vec -> R * list (option vec).
  Variables cd tg td : bool.
  Variable cg : list lparam -> R.
  Variable fallback : R.
  Variable stab : option nat.
  Notation man := (man_of dot_all).
  Hypothesis Htot : all_gradients closure.
  Notation after := (after dot_all closure cd).
  Notation trial := (trial dot_all cd).
  Notation loss_at := (loss_at dot_all closure cd).
  Notation grads_at := (grads_at dot_all closure cd).
  Notation tpoint := (tpoint dot_all cd).
  Notation init_loss := (init_loss dot_all closure cg).
  Notation step := (step dot_all closure cd tg td cg fallback stab).

  (** what init_loss leaves alone *)
  Definition base (p : lparam) := (l_man p, l_val p, l_requires p, s_new_grad p).
  Lemma set_egrad_base l gs : length gs = length l -> map base (zip_with (fun p g => set_egrad g p) l gs) = map base l.
  Proof. revert gs. induction l as [|p l IH]; intros [|g gs] H; simpl in *; auto; try discriminate. rewrite IH; auto. Qed.
  Lemma base_val l l' : map base l = map base l' -> map l_val l = map l_val l'.
  Proof. apply map_eq_in. unfold base. congruence. Qed.

  Lemma take_grad_ok reuse p q : take_grad dot_all reuse p = LOk q ->
    base q = base p /\ s_grad q <> None /\
    s_grad q = (if reuse then s_new_grad p else option_map (l_egrad (man p) (l_val p)) (l_grad p)) /\
    s_dir q = s_dir p /\ s_transported q = s_transported p.
  Proof.
    unfold take_grad. destruct reuse.
    - destruct (s_new_grad p) as [g|] eqn:N; [|discriminate].
      destruct (s_grad p) eqn:G; intros H; injection H as <-; unfold base; cbn; rewrite ?N; repeat split; auto; discriminate.
    - destruct (l_grad p) as [g|] eqn:N; [|discriminate].
      destruct (s_grad p) eqn:G; intros H; injection H as <-; unfold base; cbn; repeat split; auto; discriminate.
  Qed.

  Lemma sum_ext f g l : (forall p, In p l -> f p = g p) -> sum_over f l = sum_over g l.
  Proof.
    intros H. induction l as [|p l IH]; auto. cbn [sum_over fold_right]. f_equal; [apply H; now left|].
    apply IH. intros q Hq. apply H. now right.
  Qed.
  Lemma sum_opp f l : sum_over (fun p => - f p) l = - sum_over f l.
  Proof. unfold sum_over. induction l as [|p l IH]; cbn [fold_right]; [ring|]. rewrite IH. ring. Qed.
  Lemma sum_map f h l : sum_over f (map h l) = sum_over (fun p => f (h p)) l.
  Proof. induction l as [|p l IH]; auto. cbn [map sum_over fold_right]. f_equal. exact IH. Qed.
  Lemma sum_nonneg f l : (forall p, In p l -> 0 <= f p) -> 0 <= sum_over f l.
  Proof.
    intros H. induction l as [|p l IH]; cbn [sum_over fold_right]; [lra|].
    pose proof (H p (or_introl eq_refl)). assert (0 <= sum_over f l) by (apply IH; intros; apply H; now right).
    unfold sum_over in *. lra.
  Qed.
  Lemma sum_zero f l : (forall p, In p l -> 0 <= f p) -> sum_over f l = 0 -> forall p, In p l -> f p = 0.
  Proof.
    intros H. induction l as [|q l IH]; intros E p Hp; [easy|]. cbn [sum_over fold_right] in E.
    assert (0 <= f q) by (apply H; now left).
    assert (0 <= sum_over f l) by (apply sum_nonneg; intros; apply H; now right).
    unfold sum_over in *. destruct Hp as [<-|Hp]; [lra|]. apply IH; auto; [|lra]. intros. apply H. now right.
  Qed.

  (** ** The search direction *)
  Lemma search_direction_ok o s o' : Forall (fun p => s_grad p <> None) (ps o) ->
    search_direction dot_all cg o = (LOk s, o') ->
    exists l, o' = with_params l o /\ map base l = map base (ps o) /\ map s_grad l = map s_grad (ps o) /\ directed l /\
      map s_transported l = map s_transported (ps o) /\
      (Forall (fun p => definite (man p)) (ps o) ->
        s = initial_slope dot_all o' /\ s <= 0 /\
        (s = 0 -> forall p, In p l -> l_inner (man p) (l_val p) (grad_of p) (grad_of p) = 0)).
  Proof.
    intros G H. unfold search_direction in H. apply bind_ok in H. destruct H as (u & o1 & H1 & H2).
    assert (E : exists l1, o1 = with_params l1 o /\ map base l1 = map base (ps o) /\ map s_grad l1 = map s_grad (ps o) /\
                 map s_transported l1 = map s_transported (ps o) /\ directed l1).
    { destruct (first_time o).
      - injection H1 as _ <-. exists (map first_dir (ps o)). split; auto. rewrite !map_map.
        split; [|split; [|split]]; try (apply map_ext; intro p; unfold first_dir; destruct (s_dir p); reflexivity).
        unfold directed. apply Forall_forall. intros p Hp. apply in_map_iff in Hp. destruct Hp as (q & <- & _).
        unfold first_dir. destruct (s_dir q) eqn:E; cbn; congruence.
      - apply visit_ok_bind in H1. destruct H1 as (l & -> & F). exists l. split; auto.
        assert (F' : Forall2 (fun p q => base q = base p /\ s_grad q = s_grad p /\ s_transported q = s_transported p /\ s_dir q <> None) (ps o) l).
        { revert F. apply forall2_impl. intros p q. unfold next_dir. destruct (Req_EM_T (cg (ps o)) 0).
          - intros Hq. injection Hq as <-. unfold base; cbn. repeat split; auto. discriminate.
          - destruct (s_transported p) eqn:T; [|discriminate]. intros Hq. injection Hq as <-. unfold base; cbn.
            repeat split; auto. discriminate. }
        split; [|split; [|split]].
        + eapply forall2_map; [exact F'|]. cbv beta; intros; tauto.
        + eapply forall2_map; [exact F'|]. cbv beta; intros; tauto.
        + eapply forall2_map; [exact F'|]. cbv beta; intros; tauto.
        + clear -F'. induction F'; constructor; tauto. }
    destruct E as (l1 & -> & B1 & B2 & B2' & B3).
    destruct (Rle_dec 0 (initial_slope dot_all (with_params l1 o))) as [L|L]; injection H2 as <- <-.
    - cbn [ps with_params]. exists (map (fun p => set_dir (vopp (grad_of p)) p) l1). split; [reflexivity|].
      split; [rewrite map_map; exact B1|]. split; [rewrite map_map; exact B2|]. split.
      { unfold directed. apply Forall_forall. intros p Hp. apply in_map_iff in Hp. destruct Hp as (q & <- & _). discriminate. }
      split; [rewrite map_map; exact B2'|].
      intros Df.
      assert (Df1 : Forall (fun p => definite (man p)) l1).
      { apply (map_forall base _ (ps o)); auto. intros p q Hpq. unfold base in Hpq. unfold man_of.
        assert (l_man p = l_man q) by congruence. now rewrite H. }
      pose proof (proj1 (Forall_forall _ _) Df1) as Df2.
      assert (N : forall p, In p l1 -> 0 <= l_inner (man p) (l_val p) (grad_of p) (grad_of p)) by (intros; now apply Df2).
      split; [|split].
      + unfold initial_slope, grad_norm2. cbn [ps with_params]. rewrite sum_map, <- sum_opp. apply sum_ext.
        intros p Hp. symmetry. now apply (Df2 p Hp).
      + unfold grad_norm2. cbn [ps with_params].
        pose proof (sum_nonneg (fun p => l_inner (man p) (l_val p) (grad_of p) (grad_of p)) l1 N). lra.
      + unfold grad_norm2. cbn [ps with_params]. intros Z p Hp. apply in_map_iff in Hp. destruct Hp as (q & <- & Hq).
        exact (sum_zero (fun p => l_inner (man p) (l_val p) (grad_of p) (grad_of p)) l1 N ltac:(lra) q Hq).
    - exists l1. split; auto. split; auto. split; auto. split; auto. split; auto. intros _. split; auto. split; [lra|].
      intros Z. rewrite Z in L. lra.
  Qed.

  Lemma init_ok recompute o phi0 s o1 : init_loss recompute o = (LOk (phi0, s), o1) ->
    let again := recompute || negb (fresh_grads o) in
    map base (ps o1) = map base (ps o) /\ directed (ps o1) /\ Forall (fun p => s_grad p <> None) (ps o1) /\
    map s_transported (ps o1) = map s_transported (ps o) /\
    phi0 = (if again then Some (fst (closure (values o))) else prev_loss o) /\
    last_try o1 = last_try o /\ rest o1 = rest o /\ dict o1 = [] /\ fresh_grads o1 = true /\
    (Forall (fun p => definite (man p)) (ps o) -> s = initial_slope dot_all o1 /\ s <= 0 /\
        (s = 0 -> forall p, In p (ps o1) -> l_inner (man p) (l_val p) (grad_of p) (grad_of p) = 0)).
  Proof.
    unfold LineSearchModel.init_loss. set (again := recompute || negb (fresh_grads o)). intros H.
    apply bind_ok in H. destruct H as (loss & oa & Ha & H).
    apply bind_ok in H. destruct H as (u & ob & Hb & H). injection Hb as _ <-.
    apply bind_ok in H. destruct H as (u' & oc & Hc & H).
    apply bind_ok in H. destruct H as (s' & od & Hd & H).
    apply bind_ok in H. destruct H as (u'' & oe & He & H). injection He as _ <-.
    injection H as <- <- <-.
    assert (A : map base (ps oa) = map base (ps o) /\ last_try oa = last_try o /\ rest oa = rest o /\
                map s_transported (ps oa) = map s_transported (ps o) /\
                loss = if again then Some (fst (closure (values o))) else prev_loss o).
    { destruct again.
      - apply bind_ok in Ha. destruct Ha as (v & o2 & H2 & H3). injection H3 as <- <-. revert H2.
        unfold call_closure. destruct (closure (values o)) as [v' gs] eqn:C. intros H2. injection H2 as <- <-.
        cbn [ps last_try fst]. split; [|split; [|split; [|split]]]; auto.
        + apply set_egrad_base. pose proof (proj1 (Htot (values o))) as L. rewrite C in L. cbn in L. rewrite L.
          unfold values. apply map_length.
        + pose proof (proj1 (Htot (values o))) as L. rewrite C in L. cbn in L. unfold values in L. rewrite map_length in L.
          clear -L. revert gs L. induction (ps o) as [|p l IH]; intros [|g gs] L; simpl in *; auto; try discriminate. f_equal. auto.
      - injection Ha as <- <-. auto. }
    destruct A as (A1 & A2 & A3 & A4 & A5).
    apply visit_ok_bind in Hc. destruct Hc as (lc & -> & Fc). cbn [ps with_dict] in Fc.
    assert (C1 : map base lc = map base (ps oa)).
    { eapply forall2_map; [exact Fc|]. intros p q Hq. now apply take_grad_ok in Hq. }
    assert (C2 : Forall (fun p => s_grad p <> None) lc).
    { clear -Fc. induction Fc; constructor; auto. now apply take_grad_ok in H. }
    assert (C3 : map s_transported lc = map s_transported (ps oa)).
    { eapply forall2_map; [exact Fc|]. intros p q Hq. now apply take_grad_ok in Hq. }
    apply search_direction_ok in Hd; auto. destruct Hd as (ld & -> & D1 & D2 & D3 & D4 & D5).
    cbn [ps with_params with_fresh with_dict last_try dict fresh_grads] in *.
    split; [congruence|]. split; [auto|]. split.
    { apply (map_forall s_grad _ lc); auto. intros p q ->. auto. }
    split; [congruence|]. split; [auto|]. split; [auto|]. split; [exact A3|]. split; [auto|]. split; [auto|].
    intros Df. apply D5. apply (map_forall base _ (ps o)); [|congruence|auto].
    intros p q Hpq. unfold base in Hpq. unfold man_of. assert (E : l_man p = l_man q) by congruence. now rewrite E.
  Qed.

  (** ** The end of a step *)
  Lemma after_step_ok o u o' : after_step stab o = (LOk u, o') -> Forall (fun p => l_requires p = true) (ps o) ->
    o' = with_count (S (count o)) o.
  Proof.
    unfold after_step. intros H Rq. destruct stab as [[|N]|]; [discriminate| |now injection H as _ <-].
    destruct (S (count o) mod S N =? 0)%nat; [|now injection H as _ <-].
    apply visit_ok_bind in H. destruct H as (l & -> & F).
    assert (E : l = ps o).
    { cbn [with_count ps] in F. clear -F Rq. induction F as [|p q l0 l1 Hp F IH]; auto. inversion Rq; subst.
      unfold stabilize_one in Hp. rewrite H1 in Hp. destruct (l_man p); [discriminate|]. injection Hp as <-.
      f_equal. apply IH. auto. }
    rewrite E. reflexivity.
  Qed.

  Lemma step_ok meth force recompute no_step o r o' : step meth force recompute no_step o = (LOk r, o') ->
    exists phi0 s o1 found o2 o4 o5,
    init_loss recompute o = (LOk (phi0, s), o1) /\
    interact dot_all closure cd (meth phi0 s (old_phi0 o1) (old_derphi0 o1) (last_size o1)) (with_dict [] o1) = (LOk found, o2) /\
    let same := opt_eqb (last_try o2) found in
    let size := match found with Some a => Some a | None => if force then Some fallback else None end in
    let fresh := (if negb same || negb cd then false else fresh_grads o2) &&
                 match found with None => negb force | _ => true end in
    let o3 := with_fresh fresh (with_result found phi0 s o2) in
    (match size with Some a => if no_step then ret tt else each (move dot_all tg td a (negb same)) | None => ret tt end) o3 = (LOk tt, o4) /\
    after_step stab o4 = (LOk tt, o5) /\
    match size with
    | Some a => exists v o6, phi dot_all closure cd a o5 = (LOk v, o6) /\ o' = with_loss v o6 /\ r = Some v
    | None => r = prev_loss o5 /\ o' = o5
    end.
  Proof.
    unfold LineSearchModel.step. intros H. apply bind_ok in H. destruct H as ([phi0 s] & o1 & H1 & H).
    apply bind_ok in H. destruct H as (u & oa & Ha & H). injection Ha as _ <-.
    apply bind_ok in H. destruct H as (found & o2 & H2 & H).
    apply bind_ok in H. destruct H as (u' & ob & Hb & H). injection Hb as _ <-.
    cbn [old_phi0 old_derphi0 last_size with_dict] in H2.
    exists phi0, s, o1, found, o2.
    cbn [last_try with_result] in H. set (same := opt_eqb (last_try o2) found) in *.
    set (size := match found with Some a => Some a | None => if force then Some fallback else None end).
    set (fresh := (if negb same || negb cd then false else fresh_grads o2) && match found with None => negb force | _ => true end).
    set (o3 := with_fresh fresh (with_result found phi0 s o2)).
    assert (E : (let '(size0, o0) :=
           match found with
           | Some a => (Some a, if negb same || negb cd then with_fresh false (with_result found phi0 s o2) else with_result found phi0 s o2)
           | None => if force then (Some fallback, with_fresh false (if negb same || negb cd then with_fresh false (with_result found phi0 s o2) else with_result found phi0 s o2))
                     else (None, if negb same || negb cd then with_fresh false (with_result found phi0 s o2) else with_result found phi0 s o2)
           end in (size0, o0)) = (size, o3)).
    { unfold size, o3, fresh. destruct found; [|destruct force]; destruct (negb same || negb cd); cbn [andb negb];
        rewrite ?andb_true_r, ?andb_false_r; try reflexivity; f_equal; unfold with_fresh, with_result; reflexivity. }
    destruct (match found with
           | Some a => (Some a, if negb same || negb cd then with_fresh false (with_result found phi0 s o2) else with_result found phi0 s o2)
           | None => if force then (Some fallback, with_fresh false (if negb same || negb cd then with_fresh false (with_result found phi0 s o2) else with_result found phi0 s o2))
                     else (None, if negb same || negb cd then with_fresh false (with_result found phi0 s o2) else with_result found phi0 s o2)
           end) as [size0 o0]. injection E as -> ->.
    apply bind_ok in H. destruct H as ([] & o4 & H4 & H).
    apply bind_ok in H. destruct H as ([] & o5 & H5 & H).
    exists o4, o5. split; auto. split; auto. split; auto. split; auto.
    destruct size as [a|].
    - apply bind_ok in H. destruct H as (v & o6 & H6 & H). exists v, o6. injection H as <- <-. auto.
    - injection H as <- <-. auto.
  Qed.

  (** ** Moving *)
  Definition stay (p : lparam) := (l_man p, l_requires p, s_dir p, s_grad p, s_new_grad p).
  Definition frame (p : lparam) := (l_man p, l_requires p, s_dir p, s_grad p).
  Lemma move_ok a redo p q : move dot_all tg td a redo p = LOk q -> s_dir p <> None ->
    stay q = stay p /\
    (redo = true -> forall d, s_dir p = Some d -> l_val q = l_retr (man p) (l_val p) (smul a d)) /\
    (redo = false -> s_new_point p = Some (l_val q)).
  Proof.
    unfold move. destruct (s_dir p) as [d|] eqn:E; [|congruence]. intros H _.
    destruct (if redo then Some (l_retr (man p) (l_val p) (smul a d)) else s_new_point p) as [y|] eqn:Y; [|discriminate].
    assert (Q : stay q = stay p /\ l_val q = y).
    { destruct td, tg; cbn -[vec] in H; try (destruct (s_grad p); [|discriminate]); injection H as <-; unfold stay; cbn; rewrite ?E; auto. }
    destruct Q as [Q1 Q2]. split; auto. split.
    - intros -> d' Hd. injection Hd as <-. congruence.
    - intros ->. congruence.
  Qed.

  (** ** Accepted steps *)
  Lemma base_definite l l' : map base l = map base l' -> Forall (fun p => definite (man p)) l -> Forall (fun p => definite (man p)) l'.
  Proof.
    apply map_forall. intros p q Hpq. unfold base in Hpq. unfold man_of.
    assert (E : l_man p = l_man q) by congruence. now rewrite E.
  Qed.
  Lemma base_requires l l' : map base l = map base l' -> Forall (fun p => l_requires p = true) l -> Forall (fun p => l_requires p = true) l'.
  Proof. apply map_forall. unfold base. congruence. Qed.
  Lemma core_requires l l' : map core l = map core l' -> Forall (fun p => l_requires p = true) l -> Forall (fun p => l_requires p = true) l'.
  Proof. apply map_forall. unfold core. congruence. Qed.
  Lemma core_vals l l' : map core l = map core l' -> map l_val l = map l_val l'.
  Proof. apply map_eq_in. unfold core. congruence. Qed.
  Lemma forall2_in {A B} (P : A -> B -> Prop) l m : Forall2 P l m -> Forall2 (fun a b => In a l /\ P a b) l m.
  Proof.
    intros H. induction H as [|a b l m Hab H IH]; constructor.
    - split; auto. now left.
    - revert IH. apply forall2_impl. intros x y [Hx Hy]. split; auto. now right.
  Qed.

  Lemma step_accept (good : option R -> R -> R -> R -> Prop) meth recompute o r o' :
    (forall phi0 s a b c, ends_on (good phi0 s) [] None (meth phi0 s a b c)) ->
    Forall (fun p => l_requires p = true) (ps o) ->
    step meth false recompute false o = (LOk r, o') ->
    exists phi0 s o1, init_loss recompute o = (LOk (phi0, s), o1) /\ old_derphi0 o' = Some s /\
     ((exists a, last_size o' = Some a /\ values o' = trial (ps o1) a /\ r = Some (fst (closure (values o'))) /\
         prev_loss o' = r /\ good phi0 s a (fst (closure (values o'))) /\
         map frame (ps o') = map frame (ps o1) /\ up_to_date dot_all closure o') \/
      (last_size o' = None /\ values o' = values o /\ r = prev_loss o /\ prev_loss o' = prev_loss o /\
         ((forall a b c, meth phi0 s a b c <> Answer None) -> fresh_grads o' = false))) /\
     Forall (fun p => l_requires p = true) (ps o').
  Proof.
    intros Hm Rq H. apply step_ok in H. destruct H as (phi0 & s & o1 & found & o2 & o4 & o5 & H1 & H2 & H3 & H4 & H5).
    exists phi0, s, o1. split; auto.
    pose proof (init_ok _ _ _ _ _ H1) as (B1 & B2 & _ & _ & _ & B6 & B7 & B8 & B9 & _).
    destruct (interact_after dot_all closure cd Htot (with_dict [] o1) B2 eq_refl _ [] _ _ _ (after_refl dot_all closure cd _) H2)
      as (tried & A & T0 & _ & En & _).
    specialize (En _ (Hm phi0 s (old_phi0 o1) (old_derphi0 o1) (last_size o1))).
    destruct A as (C1 & C2 & C3 & C4 & C5). cbn [ps with_dict dict] in *.
    assert (R2 : Forall (fun p => l_requires p = true) (ps o2)).
    { apply (core_requires (ps o1)); auto. apply (base_requires (ps o)); auto. }
    assert (V1 : values o1 = values o) by (apply base_val; auto).
    assert (V2 : values o2 = values o1) by (apply core_vals; auto).
    cbv zeta in H3, H5. destruct found as [a|].
    - destruct (En a eq_refl) as (Gd & tl & ->). destruct C3 as (L1 & L2 & L3).
      assert (Sm : opt_eqb (last_try o2) (Some a) = true) by (apply opt_eqb_true; auto).
      rewrite Sm in *. cbn [negb orb] in H3.
      apply visit_ok_bind in H3. destruct H3 as (l4 & -> & F4). cbn [ps with_fresh with_result] in F4.
      assert (D2 : directed (ps o2)) by (apply (core_directed (ps o1)); auto).
      assert (F5 : Forall2 (fun p q => stay q = stay p /\ s_new_point p = Some (l_val q)) (ps o2) l4).
      { apply forall2_in in F4. revert F4. apply forall2_impl. intros p q [Ip Hq]. apply move_ok in Hq.
        - destruct Hq as (Q1 & _ & Q3). split; auto.
        - now apply (proj1 (Forall_forall _ _) D2). }
      assert (R4 : Forall (fun p => l_requires p = true) l4).
      { apply (map_forall stay _ (ps o2)); auto. { unfold stay. congruence. }
        symmetry. eapply forall2_map; [exact F5|]. cbv beta; tauto. }
      apply after_step_ok in H4; [|exact R4]. subst o5.
      destruct H5 as (v & o6 & H6 & -> & ->).
      assert (Lk : lookup a (dict o2) = Some (loss_at (ps o1) a)).
      { rewrite C2. cbn [map app lookup]. destruct (Req_EM_T a a); [auto|congruence]. }
      rewrite (phi_old dot_all closure cd a (loss_at (ps o1) a)) in H6 by exact Lk.
      injection H6 as <- <-. cbn [old_derphi0 with_loss with_count with_params with_fresh with_result last_size ps].
      split; [reflexivity|].
      assert (V4 : map l_val l4 = trial (ps o1) a).
      { assert (map Some (map l_val l4) = map Some (trial (ps o1) a)).
        { rewrite <- L2. rewrite map_map. clear -F5. induction F5 as [|p q l m [_ Hpq] F IH]; auto. cbn [map]. rewrite IH, <- Hpq. reflexivity. }
        revert H. clear. generalize (map l_val l4) (trial (ps o1) a). induction l as [|x l IH]; intros [|y m]; cbn; intros E; try discriminate; auto.
        injection E as -> E. f_equal. auto. }
      assert (V5 : loss_at (ps o1) a = fst (closure (map l_val l4))) by (rewrite V4; reflexivity).
      assert (Fm : map frame l4 = map frame (ps o1)).
      { rewrite (forall2_map frame (fun p q => stay q = stay p /\ s_new_point p = Some (l_val q)) (ps o2) l4); auto.
        - apply (map_eq_in core); auto. unfold core, frame. intros p q Hpq. injection Hpq as E1 E2 E3 E4 E5. congruence.
        - intros p q [Hs _]. unfold stay in Hs. unfold frame. congruence. }
      split; [|exact R4]. left. exists a. unfold values at 1 2 3. cbn [ps with_loss with_count with_params]. rewrite V4.
      split; [auto|]. split; [auto|]. split; [auto|]. split; [auto|]. split; [exact Gd|]. split; [exact Fm|].
      (* up to date *)
      intros Fr. cbn [fresh_grads with_loss with_count with_params with_fresh with_result] in Fr.
      destruct cd eqn:Ecd; [|discriminate].
      cbn [prev_loss with_loss ps with_count with_params]. rewrite V4. split; [reflexivity|].
      destruct (L3 eq_refl) as (_ & _ & L5 & _).
      assert (N4 : map s_new_grad l4 = map s_new_grad (ps o2)).
      { eapply forall2_map; [exact F5|]. intros p q [Hs _]. unfold stay in Hs. congruence. }
      rewrite N4, L5. unfold LineSearchProofs.grads_at.
      assert (M4 : map l_man l4 = map l_man (ps o1)).
      { rewrite (forall2_map l_man (fun p q => stay q = stay p /\ s_new_point p = Some (l_val q)) (ps o2) l4); auto.
        - apply (map_eq_in core); auto. unfold core. congruence.
        - intros p q [Hs _]. unfold stay in Hs. congruence. }
      clear -V4 M4. revert V4 M4. unfold LineSearchProofs.trial at 1.
      generalize (snd (closure (LineSearchProofs.trial dot_all true (ps o1) a))). generalize (ps o1) as l. intros l.
      revert l4. induction l as [|p l IH]; intros [|q l4] gs V M4; try discriminate; auto.
      destruct gs as [|g gs]; auto. cbn [map zip_with] in *. injection V as V Vs. injection M4 as Mq Ms.
      f_equal; [|apply IH; auto]. unfold rgrad. destruct g; auto. unfold man_of. now rewrite Mq, V.
    - injection H3 as <-. apply after_step_ok in H4; [|exact R2]. subst o5. destruct H5 as [-> ->].
      cbn [old_derphi0 with_count with_fresh with_result last_size ps prev_loss fresh_grads].
      split; [reflexivity|]. split; [|exact R2]. right. split; [auto|].
      split; [unfold values in *; cbn [ps with_count with_fresh with_result]; congruence|].
      assert (Pl : prev_loss o2 = prev_loss o) by (unfold rest in *; cbn in C5; congruence).
      split; [auto|]. split; [auto|].
      intros Na. destruct tried as [|b tl].
      + exfalso. specialize (T0 eq_refl). now apply Na in T0.
      + destruct C3 as (L1 & _). rewrite L1. reflexivity.
  Qed.
End LineSearch.
