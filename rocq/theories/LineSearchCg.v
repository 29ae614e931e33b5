(** The directions a line search step computes. *)
From Coq Require Import Reals List Bool Arith Lra Lia FunctionalExtensionality.
From Verif Require Import RVec LineSearchModel LineSearchSpec LineSearchCgSpec LineSearchProofs LineSearchProofs2 LineSearchProofs3
  LineSearchProofs4 LineSearchProofs5.
Import ListNotations.
Local Open Scope R_scope.

Lemma forall2_zip_map {A B C} (P : A -> B -> Prop) (f : A -> B -> C) (g : B -> C) l m :
  Forall2 P l m -> (forall a b, P a b -> f a b = g b) -> zip_with f l m = map g m.
Proof. intros H E. induction H; auto. cbn [zip_with map]. f_equal; auto. Qed.
Lemma forall2_zip {A B C} (P : A -> B -> Prop) (f g : A -> B -> C) l m :
  Forall2 P l m -> (forall a b, P a b -> f a b = g a b) -> zip_with f l m = zip_with g l m.
Proof. intros H E. induction H; auto. cbn [zip_with]. f_equal; auto. Qed.
Lemma forall2_trans {A B C} (P : A -> B -> Prop) (Q : B -> C -> Prop) (S : A -> C -> Prop) l m n :
  (forall a b c, P a b -> Q b c -> S a c) -> Forall2 P l m -> Forall2 Q m n -> Forall2 S l n.
Proof.
  intros H F. revert n. induction F; intros n G; inversion G; subst; constructor; eauto.
Qed.
Lemma forall2_of_map {A B C} (f : A -> C) (g : B -> C) l m : map f l = map g m -> Forall2 (fun a b => f a = g b) l m.
Proof. revert m. induction l as [|a l IH]; intros [|b m] H; try discriminate; constructor; injection H; auto. Qed.
Lemma forall2_and {A B} (P Q : A -> B -> Prop) l m : Forall2 P l m -> Forall2 Q l m -> Forall2 (fun a b => P a b /\ Q a b) l m.
Proof. intros H. induction H; intros G; inversion G; subst; constructor; auto. Qed.

Section LineSearch.
  Variable dot_all : vec -> vec -> R.
  Variable closure : list vec -> R * list (option vec).
  Variables cd tg td : bool.
  Variable cg : list lparam -> R.
  Variable fallback : R.
  Variable stab : option nat.
  Notation man := (man_of dot_all).
  Hypothesis Htot : all_gradients closure.
  Notation init_loss := (init_loss dot_all closure cg).
  Notation step := (step dot_all closure cd tg td cg fallback stab).

  (** What an accepted step leaves in the state of a parameter; p is before. *)
  Definition left_by (a : R) (p q : lparam) : Prop :=
    l_man q = l_man p /\ exists d g, s_dir q = Some d /\ s_grad q = Some g /\
    (td = true -> s_transported q = Some (l_transp_follow (man q) (l_val p) (smul a d) d)) /\
    (td = false -> cd = true -> s_transported q = Some (tdir dot_all cd a (set_val (l_val p) q))) /\
    (tg = true -> s_grad_transported q = Some (l_transp_follow (man q) (l_val p) (smul a d) g)).

  Lemma move_left a p q g : move dot_all tg td a false p = LOk q -> s_dir p <> None -> s_grad p = Some g ->
    (td = false -> cd = true -> s_transported p = Some (tdir dot_all cd a p)) -> left_by a p q.
  Proof.
    unfold move, left_by. destruct (s_dir p) as [d|] eqn:E; [|congruence]. intros H _ G T.
    destruct (s_new_point p) as [y|]; [|discriminate].
    assert (X : forall q', l_man q' = l_man p -> man q' = man p) by (intros q' Hq; unfold man_of; now rewrite Hq).
    destruct td, tg; cbn [s_grad set_transported] in H; try rewrite G in H; injection H as <-.
    all: split; [reflexivity|]; exists d, g; cbn; repeat split; auto; try discriminate; try reflexivity.
    all: intros _ C; rewrite (T eq_refl C); f_equal; apply core_tdir; unfold core; cbn; now rewrite ?E, ?G.
  Qed.

  Lemma step_left meth (good : option R -> R -> R -> R -> Prop) recompute o r o' a :
    (forall phi0 s a b c, ends_on (good phi0 s) [] None (meth phi0 s a b c)) ->
    Forall (fun p => l_requires p = true) (ps o) ->
    step meth false recompute false o = (LOk r, o') -> last_size o' = Some a -> Forall2 (left_by a) (ps o) (ps o').
  Proof.
    intros Hm Rq H L.
    destruct (step_frame dot_all closure cd tg td cg fallback stab Htot _ _ _ _ _ _ _ H) as (? & ? & o1' & H1' & _ & _ & _ & _ & (ox & Hx)).
    apply step_ok in H; auto. destruct H as (phi0 & s & o1 & found & o2 & o4 & o5 & H1 & H2 & H3 & H4 & H5).
    rewrite H1 in H1'. injection H1' as <- <- <-. rewrite H2, L in Hx. injection Hx as -> <-.
    pose proof (init_ok _ _ _ Htot _ _ _ _ _ H1) as (B1 & B2 & B3 & _).
    destruct (interact_after dot_all closure cd Htot (with_dict [] o1) B2 eq_refl _ [] _ _ _ (after_refl dot_all closure cd _) H2)
      as (tried & A & T0 & _ & En & _).
    specialize (En _ (Hm phi0 s (old_phi0 o1) (old_derphi0 o1) (last_size o1))).
    destruct A as (C1 & C2 & C3 & C4 & C5). cbn [ps with_dict dict] in *.
    destruct (En a eq_refl) as (Gd & tl & ->). destruct C3 as (L1 & L2 & L3).
    cbv zeta in H3, H5.
    assert (Sm : opt_eqb (last_try o2) (Some a) = true) by (apply opt_eqb_true; auto).
    rewrite Sm in *. cbn [negb orb] in H3.
    apply visit_ok_bind in H3. destruct H3 as (l4 & -> & F4). cbn [ps with_fresh with_result] in F4.
    assert (K : Forall2 (fun p p1 => core p1 = core p) (ps o1) (ps o2)).
    { apply forall2_of_map in C1. clear -C1. induction C1; constructor; auto. }
    assert (K2 : Forall2 (fun p1 p2 => core p2 = core p1 /\ s_dir p1 <> None /\ s_grad p1 <> None /\
                  (cd = true -> s_transported p2 = Some (tdir dot_all cd a p1))) (ps o1) (ps o2)).
    { clear -B2 B3 K L3. destruct cd.
      - destruct (L3 eq_refl) as (_ & _ & _ & L4). revert B2 B3 K L4. generalize (ps o1) (ps o2). intros l m. revert m.
        induction l as [|p l IH]; intros [|q m] D G K L4; try discriminate; constructor.
        + inversion D; inversion G; inversion K; subst. cbn [map] in L4. injection L4 as L4 _. repeat split; auto.
        + inversion D; inversion G; inversion K; subst. cbn [map] in L4. injection L4 as _ L4. apply IH; auto.
      - clear L3. revert B2 B3. induction K; intros D G; constructor; inversion D; inversion G; subst; auto.
        repeat split; auto. discriminate. }
    assert (R2 : Forall (fun p => l_requires p = true) (ps o2)).
    { apply (core_requires (ps o1)); auto. apply (base_requires (ps o)); auto. }
    assert (K3 : Forall2 (left_by a) (ps o2) l4).
    { assert (X : Forall (fun p2 => s_dir p2 <> None /\ s_grad p2 <> None /\ (cd = true -> s_transported p2 = Some (tdir dot_all cd a p2))) (ps o2)).
      { clear -K2. induction K2 as [|p q l m (Hc & Hd & Hg & Ht) F IH]; constructor; auto.
        unfold core in Hc. injection Hc as E1 E2 E3 E4 E5. split; [congruence|]. split; [congruence|].
        intros C. rewrite (Ht C). f_equal. apply core_tdir. unfold core; congruence. }
      apply forall2_in in F4. revert F4. apply forall2_impl. intros p q [Ip Hq].
      destruct (proj1 (Forall_forall _ _) X p Ip) as (X1 & X2 & X3). destruct (s_grad p) as [g|] eqn:Eg; [|congruence].
      apply (move_left a p q g); auto. }
    assert (K4 : Forall2 (left_by a) (ps o) l4).
    { assert (E : Forall2 (fun p p2 => l_man p2 = l_man p /\ l_val p2 = l_val p) (ps o) (ps o2)).
      { symmetry in B1. apply forall2_of_map in B1. revert K. revert B1. generalize (ps o) (ps o1) (ps o2). intros l m n B K.
        apply (forall2_trans (fun p q => base p = base q) (fun p p1 => core p1 = core p) _ l m n); auto.
        intros p p1 p2 Hb Hc. unfold base in Hb. unfold core in Hc. split; congruence. }
      revert K3. revert E. apply forall2_trans. intros p p2 q [E1 E2] (Hm' & d & g & X1 & X2 & X3 & X4 & X5).
      rewrite E2 in *. split; [congruence|]. exists d, g. auto. }
    assert (R4 : Forall (fun p => l_requires p = true) l4).
    { assert (D2 : directed (ps o2)) by (apply (core_directed (ps o1)); auto).
      apply (map_forall stay _ (ps o2)); auto. { unfold stay. congruence. }
      symmetry. apply forall2_in in F4. eapply forall2_map; [exact F4|]. intros p q [Ip Hq]. apply move_ok in Hq; [tauto|].
      now apply (proj1 (Forall_forall _ _) D2). }
    apply after_step_ok in H4; [|exact R4]. subst o5. destruct H5 as (v & o6 & H6 & -> & ->).
    assert (Lk : lookup a (dict o2) = Some (LineSearchProofs.loss_at dot_all closure cd (ps o1) a)).
    { rewrite C2. cbn [map app lookup]. destruct (Req_EM_T a a); [auto|congruence]. }
    rewrite (phi_old dot_all closure cd a (LineSearchProofs.loss_at dot_all closure cd (ps o1) a)) in H6 by exact Lk. injection H6 as <- <-. exact K4.
  Qed.

  (** The next call of init_loss. *)
  Definition taken (p q : lparam) : Prop :=
    l_man q = l_man p /\ l_val q = l_val p /\ s_dir q = s_dir p /\ s_transported q = s_transported p /\
    s_grad_transported q = s_grad_transported p /\ s_grad q <> None /\
    s_prev_norm2 q = Some (l_inner (man p) (l_val p) (grad_of p) (grad_of p)).
  Lemma take_grad_taken reuse p q : s_grad p <> None -> take_grad dot_all reuse p = LOk q -> taken p q.
  Proof.
    unfold take_grad, taken, grad_of. intros G.
    destruct (if reuse then _ else _) as [g|]; [|discriminate].
    destruct (s_grad p); [|congruence]. intros H. injection H as <-. cbn. repeat split; auto. discriminate.
  Qed.
  Definition tr (p : lparam) : vec := match s_transported p with Some t => t | None => vzero end.
  Definition conj_dir (beta : R) (p : lparam) : vec := vadd (vopp (grad_of p)) (smul beta (tr p)).
  Lemma conj_zero p : conj_dir 0 p = vopp (grad_of p).
  Proof. unfold conj_dir, vadd, smul, vopp. extensionality i. ring. Qed.

  Lemma set_egrad_taken (P : lparam -> Prop) l gs : length gs = length l ->
    (forall p g, P p -> P (set_egrad g p)) -> Forall P l -> Forall P (zip_with (fun p g => set_egrad g p) l gs).
  Proof.
    intros L H F. revert gs L. induction F; intros [|g gs] L; try discriminate; constructor; auto.
  Qed.
  Lemma set_egrad_rel l gs : length gs = length l ->
    Forall2 (fun p q => exists g, q = set_egrad g p) l (zip_with (fun p g => set_egrad g p) l gs).
  Proof. revert gs. induction l; intros [|g gs] L; try discriminate; constructor; eauto. Qed.

  Definition like (p : lparam) := (l_man p, l_val p, s_grad p).
  Lemma init_dirs recompute o phi0 s o' : directed (ps o) -> Forall (fun p => s_grad p <> None) (ps o) ->
    Forall (fun p => s_transported p <> None) (ps o) -> init_loss recompute o = (LOk (phi0, s), o') ->
    exists lc, Forall2 taken (ps o) lc /\ map like (ps o') = map like lc /\
      let c := map (conj_dir (cg lc)) lc in
      let sl := total (zip_with (fun q d => l_inner (man q) (l_val q) (grad_of q) d) lc c) in
      (sl < 0 -> map s_dir (ps o') = map Some c) /\
      (0 <= sl -> map s_dir (ps o') = map (fun q => Some (vopp (grad_of q))) lc).
  Proof.
    intros D G T. unfold LineSearchModel.init_loss. set (again := recompute || negb (fresh_grads o)). intros H.
    apply bind_ok in H. destruct H as (loss & oa & Ha & H).
    apply bind_ok in H. destruct H as (u & ob & Hb & H). injection Hb as _ <-.
    apply bind_ok in H. destruct H as (u' & oc & Hc & H).
    apply bind_ok in H. destruct H as (s' & od & Hd & H).
    apply bind_ok in H. destruct H as (u'' & oe & He & H). injection He as _ <-.
    injection H as <- <- <-.
    apply visit_ok_bind in Hc. destruct Hc as (lc & -> & Fc). cbn [ps with_dict] in Fc.
    assert (Fa : Forall2 (fun p q => exists g, q = set_egrad g p \/ q = p) (ps o) (ps oa)).
    { destruct again.
      - apply bind_ok in Ha. destruct Ha as (v & o2 & H2 & H3). injection H3 as <- <-. revert H2.
        unfold call_closure. pose proof (proj1 (Htot (values o))) as L. unfold values in L at 2. rewrite map_length in L. revert L.
        destruct (closure (values o)) as [v' gs]. cbn [fst snd]. intros L H2. injection H2 as <- <-. cbn [ps].
        apply set_egrad_rel in L. revert L. apply forall2_impl. intros p q (g & ->). exists g. now left.
      - injection Ha as <- <-. clear. induction (ps o); constructor; auto. exists None. now right. }
    assert (F : Forall2 taken (ps o) lc).
    { assert (G' : Forall2 (fun p q => s_grad p <> None /\ exists g, q = set_egrad g p \/ q = p) (ps o) (ps oa)).
      { apply forall2_in in Fa. revert Fa. apply forall2_impl. intros p q [Ip Hq]. split; auto.
        now apply (proj1 (Forall_forall _ _) G). }
      revert G' Fc. apply forall2_trans. intros p p' q (Gp & g & [->| ->]) Hq; apply take_grad_taken in Hq; auto. }
    exists lc. split; auto.
    assert (Dc : directed lc) by (clear -D F; unfold directed in *; induction F as [|p q l m (_ & _ & Hd & _) F IH]; constructor; inversion D; subst; auto; congruence).
    assert (Tc : Forall (fun p => s_transported p <> None) lc) by (clear -T F; induction F as [|p q l m (_ & _ & _ & Ht & _) F IH]; constructor; inversion T; subst; auto; congruence).
    unfold search_direction in Hd. unfold first_time in Hd. cbn [ps with_params with_dict] in Hd. rewrite (directed_search lc Dc) in Hd.
    rewrite (bind_of _ _ _ tt (with_params (map (fun p => set_dir (conj_dir (cg lc) p) p) lc) (with_params lc (with_dict [] oa)))) in Hd.
    2:{ unfold each. cbn [ps with_params]. rewrite (visit_map _ (fun p => set_dir (conj_dir (cg lc) p) p)); auto.
        intros p Ip. unfold next_dir. destruct (Req_EM_T (cg lc) 0) as [->|N]; [now rewrite conj_zero|].
        apply (proj1 (Forall_forall _ _) Tc) in Ip. unfold conj_dir, tr. destruct (s_transported p); congruence. }
    cbv zeta. set (sl := total _).
    assert (E : initial_slope dot_all (with_params (map (fun p => set_dir (conj_dir (cg lc) p) p) lc) (with_params lc (with_dict [] oa))) = sl).
    { unfold initial_slope, sl. cbn [ps with_params]. generalize (cg lc). intros b. clear. induction lc as [|p l IH]; auto.
      cbn [map sum_over total zip_with fold_right]. f_equal. exact IH. }
    rewrite E in Hd. destruct (Rle_dec 0 sl) as [L|L]; injection Hd as <- <-; cbn [ps with_params with_fresh]; rewrite ?map_map.
    - split; [reflexivity|]. split; [lra|]. reflexivity.
    - split; [reflexivity|]. split; [reflexivity|lra].
  Qed.

  Lemma map_like_zip {C} (f : lmanifold -> vec -> vec -> C) l m l0 :
    map like l = map like m -> map l_val l0 = map l_val m ->
    zip_with (fun p q => f (man q) (l_val p) (grad_of q)) l0 l = map (fun q => f (man q) (l_val q) (grad_of q)) m.
  Proof.
    revert m l0. induction l as [|p l IH]; intros [|q m] [|p0 l0] H V; try discriminate; auto.
    cbn [map zip_with] in *. injection H as H1 H2 H3 H4. injection V as V1 V2. f_equal; auto.
    unfold man_of, grad_of. now rewrite H1, H3, V1.
  Qed.

  Section TwoSteps.
  Variables (meth : method) (good : option R -> R -> R -> R -> Prop).
  Hypothesis Hm : forall phi0 s a b c, ends_on (good phi0 s) [] None (meth phi0 s a b c).
  Variables (recompute : bool) (o : lopt) (r : option R) (o1 : lopt) (a : R).
  Hypothesis Rq : Forall (fun p => l_requires p = true) (ps o).
  Hypothesis H1 : step meth false recompute false o = (LOk r, o1).
  Hypothesis La : last_size o1 = Some a.
  Hypothesis Ag : td = true \/ cd = true /\ Forall2 (fun p q => agrees dot_all (set_val (l_val p) q)) (ps o) (ps o1).
  Variables (meth' : method) (force' recompute' no_step' : bool) (r' : option R) (o2 : lopt).
  Hypothesis H2 : step meth' force' recompute' no_step' o1 = (LOk r', o2).
  Notation prev := (observed dot_all o o1).
  Notation cur := (observed dot_all o1 o2).

  Definition carried_to (p q : lparam) : Prop :=
    l_man q = l_man p /\ exists d g, s_dir q = Some d /\ s_grad q = Some g /\
      s_transported q = Some (l_transp_follow (man q) (l_val p) (smul a d) d) /\
      (tg = true -> s_grad_transported q = Some (l_transp_follow (man q) (l_val p) (smul a d) g)).
  Lemma first_left : Forall2 carried_to (ps o) (ps o1).
  Proof.
    pose proof (step_left meth good recompute o r o1 a Hm Rq H1 La) as F.
    destruct Ag as [Et|[Ec Ag']].
    - revert F. apply forall2_impl. intros p q (E & d & g & X1 & X2 & X3 & _ & X5). split; auto. exists d, g. auto.
    - generalize (forall2_and _ _ _ _ F Ag'). apply forall2_impl.
      intros p q [(E & d & g & X1 & X2 & X3 & X4 & X5) A]. split; auto. exists d, g. split; auto. split; auto. split; auto.
      destruct (Bool.bool_dec td true) as [Et|Et]; [auto|]. apply not_true_is_false in Et. rewrite (X4 Et Ec). f_equal.
      rewrite tdir_carried by auto. unfold carried. cbn [s_dir set_val l_val]. now rewrite X1.
  Qed.

  (** o, o1, the list the scale parameter is computed from, o2 *)
  Inductive all4 : list lparam -> list lparam -> list lparam -> list lparam -> Prop :=
    | all4_nil : all4 [] [] [] []
    | all4_cons p q c w l m n k : carried_to p q -> taken q c -> l_man w = l_man c -> s_grad w = s_grad c ->
        all4 l m n k -> all4 (p :: l) (q :: m) (c :: n) (w :: k).
  Lemma all4_of l m n k : Forall2 carried_to l m -> Forall2 taken m n ->
    map (fun p => (l_man p, s_grad p)) k = map (fun p => (l_man p, s_grad p)) n -> all4 l m n k.
  Proof.
    intros F. revert n k. induction F as [|p q l m Hp F IH]; intros n k G E; inversion G; subst.
    - destruct k; [constructor|discriminate].
    - destruct k as [|w k]; [discriminate|]. cbn [map] in E. injection E as E1 E2 E3. constructor; auto.
  Qed.
  Notation zseen := (zip_with (seen_by dot_all)).
  Lemma all4_man p q c w : carried_to p q -> taken q c -> l_man w = l_man c -> man w = man c /\ man c = man q.
  Proof. intros _ (E & _) E'. unfold man_of. now rewrite E', E. Qed.
  Lemma all4_dir (p q : lparam) : carried_to p q -> s_transported q = Some (along a (seen_by dot_all p q) (dir_of q)) /\
    (tg = true -> s_grad_transported q = Some (along a (seen_by dot_all p q) (grad_of q))).
  Proof. intros (_ & d & g & X1 & X2 & X3 & X4). unfold along, seen_by, dir_of, grad_of. cbn. rewrite X1, X2. auto. Qed.
  Lemma conjugate_is beta l m n k : all4 l m n k -> conjugate beta a (zseen l m) (zseen m k) = map (conj_dir beta) n.
  Proof.
    intros H. induction H as [|p q c w l m n k C T E1 E2 H IH]; auto. unfold conjugate in *. cbn [zip_with map]. f_equal; auto.
    destruct (all4_dir p q C) as (X & _). destruct T as (_ & _ & _ & T & _). unfold conj_dir, tr. rewrite T, X.
    cbn. unfold grad_of. now rewrite E2.
  Qed.
  Lemma slope_is l m n k ds : all4 l m n k -> slope_in (zseen m k) ds =
    total (zip_with (fun q d => l_inner (man q) (l_val q) (grad_of q) d) n ds).
  Proof.
    intros H. unfold slope_in. f_equal. revert ds. induction H as [|p q c w l m n k C T E1 E2 H IH]; intros ds; auto.
    destruct ds as [|d ds]; auto. cbn [zip_with]. f_equal; auto. destruct (all4_man p q c w C T E1) as (M1 & M2).
    destruct T as (_ & V & _). cbn. unfold grad_of. now rewrite M1, E2, V.
  Qed.
  Lemma steepest_is l m n k : all4 l m n k -> steepest (zseen m k) = map (fun q => vopp (grad_of q)) n.
  Proof.
    intros H. unfold steepest. induction H as [|p q c w l m n k C T E1 E2 H IH]; auto. cbn [zip_with map]. f_equal; auto.
    cbn. unfold grad_of. now rewrite E2.
  Qed.
  Lemma dirs_is m k ds : length m = length k -> map s_dir k = map Some ds -> map at_d (zseen m k) = ds.
  Proof.
    revert k ds. induction m as [|q m IH]; intros [|w k] [|d ds] L E; try discriminate; auto.
    cbn [map zip_with] in *. injection E as E1 E2. f_equal; auto. cbn. unfold dir_of. now rewrite E1.
  Qed.
  Lemma norm2_is l m n k : all4 l m n k ->
    norm2 (zseen m k) = sum_over (fun q => l_inner (man q) (l_val q) (grad_of q) (grad_of q)) n.
  Proof.
    intros H. unfold norm2. induction H as [|p q c w l m n k C T E1 E2 H IH]; auto. cbn [zip_with map total sum_over fold_right].
    f_equal; auto. destruct (all4_man p q c w C T E1) as (M1 & M2). destruct T as (_ & V & _). cbn. unfold grad_of. now rewrite M1, E2, V.
  Qed.
  Lemma all4_length l m n k : all4 l m n k -> length m = length k.
  Proof. intros H. induction H; cbn [length]; auto. Qed.
  Lemma norm2_moved_is l m n k : all4 l m n k ->
    norm2_moved (zseen l m) (zseen m k) = sum_over (fun q => match s_prev_norm2 q with Some b => b | None => 0 end) n.
  Proof.
    intros H. unfold norm2_moved. induction H as [|p q c w l m n k C T E1 E2 H IH]; auto. cbn [zip_with total sum_over fold_right].
    f_equal; auto. destruct T as (_ & _ & _ & _ & _ & _ & ->). reflexivity.
  Qed.
  Lemma change_is l m n k : tg = true -> all4 l m n k ->
    change a (zseen l m) (zseen m k) = sum_over (fun q => match s_grad_transported q with
      | Some t => l_inner (man q) (l_val q) (grad_of q) (vsub (grad_of q) t) | None => 0 end) n.
  Proof.
    intros Et H. unfold change. induction H as [|p q c w l m n k C T E1 E2 H IH]; auto. cbn [zip_with total sum_over fold_right].
    f_equal; auto. destruct (all4_man p q c w C T E1) as (M1 & M2). destruct (all4_dir p q C) as (_ & X). specialize (X Et).
    destruct T as (_ & V & _ & _ & Gt & _). rewrite Gt, X. cbn. unfold grad_of. now rewrite M1, E2, V.
  Qed.
  Lemma ratio_is num l m n k : all4 l m n k -> (forall c, In c n -> num c <> None) ->
    ratio num n = Some (sum_over (fun q => match num q with Some x => x | None => 0 end) n, norm2_moved (zseen l m) (zseen m k)).
  Proof.
    intros H N. rewrite (norm2_moved_is l m n k H). induction H as [|p q c w l m n k C T E1 E2 H IH]; auto.
    cbn [ratio]. rewrite IH by (intros; apply N; now right). destruct (num c) as [x|] eqn:E; [|now destruct (N c (or_introl eq_refl))].
    destruct T as (_ & _ & _ & _ & _ & _ & Tn). rewrite Tn. cbn [sum_over fold_right]. now rewrite E, Tn.
  Qed.
  Lemma quotient_is n d : is_ratio (quotient (Some (n, d))) n d.
  Proof. unfold is_ratio, quotient. destruct (Req_EM_T d 0); split; intros; try contradiction; auto. field; auto. Qed.

  Lemma second_dirs : exists lc, all4 (ps o) (ps o1) lc (ps o2) /\ follows (cg lc) a prev cur.
  Proof.
    pose proof first_left as F.
    destruct (step_frame dot_all closure cd tg td cg fallback stab Htot _ _ _ _ _ _ _ H2) as (phi0 & s & oi & Hi & Fm & _).
    destruct (init_dirs recompute' o1 phi0 s oi) as (lc & T & Lk & Lt & Ge); auto.
    1-3: clear -F; induction F as [|p q l m (_ & d & g & X1 & X2 & X3 & _) F IH]; constructor; auto; congruence.
    assert (M : map (fun p => (l_man p, s_grad p)) (ps o2) = map (fun p => (l_man p, s_grad p)) lc).
    { transitivity (map (fun p => (l_man p, s_grad p)) (ps oi)).
      - apply (map_eq_in frame) with (2 := Fm). unfold frame. congruence.
      - apply (map_eq_in like) with (2 := Lk). unfold like. congruence. }
    assert (Dr : map s_dir (ps o2) = map s_dir (ps oi)) by (apply (map_eq_in frame) with (2 := Fm); unfold frame; congruence).
    pose proof (all4_of _ _ _ _ F T M) as A. exists lc. split; auto. unfold observed, follows. cbv zeta in *.
    rewrite (conjugate_is (cg lc) _ _ _ _ A), (slope_is _ _ _ _ _ A), (steepest_is _ _ _ _ A).
    pose proof (all4_length _ _ _ _ A) as L. split; intros S.
    - apply dirs_is; auto. rewrite Dr. auto.
    - apply dirs_is; auto. rewrite Dr, map_map. auto.
  Qed.
  Lemma second_constant alpha : cg = cg_constant alpha -> follows alpha a prev cur.
  Proof. intros E. destruct second_dirs as (lc & _ & F). rewrite E in F. exact F. Qed.
  Lemma second_fletcher_reeves : cg = cg_fletcher_reeves dot_all ->
    exists beta, is_ratio beta (norm2 cur) (norm2_moved prev cur) /\ follows beta a prev cur.
  Proof.
    intros E. destruct second_dirs as (lc & A & F). exists (cg lc). split; auto. rewrite E. unfold cg_fletcher_reeves.
    rewrite (ratio_is _ _ _ _ _ A) by discriminate. unfold observed. rewrite (norm2_is _ _ _ _ A). apply quotient_is.
  Qed.
  Lemma second_polak_ribiere : tg = true -> cg = cg_polak_ribiere dot_all ->
    exists beta, is_ratio beta (change a prev cur) (norm2_moved prev cur) /\ follows beta a prev cur.
  Proof.
    intros Et E. destruct second_dirs as (lc & A & F). exists (cg lc). split; auto. rewrite E. unfold cg_polak_ribiere.
    assert (N : forall c, In c lc -> s_grad_transported c <> None).
    { clear -A Et. induction A as [|p q c w l m n k C T E1 E2 H IH]; [easy|]. intros x [<-|I]; auto.
      destruct (all4_dir p q C) as (_ & X). specialize (X Et). destruct T as (_ & _ & _ & _ & Gt & _). congruence. }
    rewrite (ratio_is _ _ _ _ _ A).
    - unfold observed. rewrite (change_is _ _ _ _ Et A).
      rewrite (sum_ext _ (fun q => match s_grad_transported q with
        | Some t => l_inner (man q) (l_val q) (grad_of q) (vsub (grad_of q) t) | None => 0 end)).
      + apply quotient_is.
      + intros c I. destruct (s_grad_transported c); reflexivity.
    - intros c I. specialize (N c I). destruct (s_grad_transported c); congruence.
  Qed.
  Lemma moved_uniform : Forall (fun s => uniform (at_man s)) prev -> norm2_moved prev cur = norm2 prev.
  Proof.
    intros U. unfold norm2_moved, norm2, observed in *. destruct second_dirs as (lc & A & _). f_equal. revert U. clear -A.
    induction A as [|p q c w l m n k C T E1 E2 H IH]; auto. intros U. cbn [zip_with map] in *. inversion U as [|? ? U1 U2]; subst.
    f_equal; [apply U1|auto].
  Qed.
  End TwoSteps.

  (** The first step of an optimizer whose parameters have no state. *)
  Lemma first_dirs meth force recompute no_step l r o' : Forall (fun p => s_dir p = None) l -> 
    step meth force recompute no_step (new_opt l) = (LOk r, o') ->
    map at_d (observed dot_all (new_opt l) o') = steepest (observed dot_all (new_opt l) o').
  Proof.
    intros N H. destruct (step_frame dot_all closure cd tg td cg fallback stab Htot _ _ _ _ _ _ _ H) as (phi0 & s & o1 & H1 & Fm & _).
    assert (D : Forall (fun p => s_dir p = Some (vopp (grad_of p))) (ps o1)).
    { revert H1. unfold LineSearchModel.init_loss. cbn [fresh_grads new_opt negb]. rewrite orb_true_r. intros H1.
      apply bind_ok in H1. destruct H1 as (loss & oa & Ha & H1).
      apply bind_ok in H1. destruct H1 as (u & ob & Hb & H1). injection Hb as _ <-.
      apply bind_ok in H1. destruct H1 as (u' & oc & Hc & H1).
      apply bind_ok in H1. destruct H1 as (s' & od & Hd & H1).
      apply bind_ok in H1. destruct H1 as (u'' & oe & He & H1). injection He as _ <-.
      injection H1 as <- <- <-. cbn [ps with_fresh].
      assert (Na : Forall (fun p => s_dir p = None) (ps oa)).
      { apply bind_ok in Ha. destruct Ha as (v & o2 & H2 & H3). injection H3 as <- <-. revert H2.
        unfold call_closure. pose proof (proj1 (Htot (values (new_opt l)))) as L. unfold values in L at 2. rewrite map_length in L. revert L.
        destruct (closure (values (new_opt l))) as [v' gs]. cbn [fst snd]. intros L H2. injection H2 as <- <-. cbn [ps].
        apply set_egrad_taken; auto. }
      apply visit_ok_bind in Hc. destruct Hc as (lc & -> & Fc). cbn [ps with_dict] in Fc.
      assert (Nc : Forall (fun p => s_dir p = None) lc).
      { clear -Na Fc. induction Fc as [|p q l m Hq F IH]; constructor; inversion Na; subst; auto.
        apply take_grad_ok in Hq. destruct Hq as (_ & _ & _ & -> & _). auto. }
      unfold search_direction in Hd. apply bind_ok in Hd. destruct Hd as (u1 & o2 & H2 & H3).
      assert (E : Forall (fun p => s_dir p = Some (vopp (grad_of p))) (ps o2)).
      { unfold first_time in H2. cbn [ps with_params with_dict] in H2.
        destruct lc as [|p lc]; [cbn in H2; injection H2 as _ <-; constructor|].
        assert (X : existsb (fun p => match s_dir p with Some _ => false | None => true end) (p :: lc) = true).
        { cbn [existsb]. inversion Nc as [|? ? N0 N1]; subst. now rewrite N0. }
        rewrite X in H2. injection H2 as _ <-. cbn [ps with_params]. apply Forall_forall. intros q Iq.
        change (In q (map first_dir (p :: lc))) in Iq. apply in_map_iff in Iq. destruct Iq as (q0 & <- & I0). unfold first_dir. rewrite (proj1 (Forall_forall _ _) Nc q0 I0). reflexivity. }
      destruct (Rle_dec 0 (initial_slope dot_all o2)); injection H3 as <- <-; auto. cbn [ps with_params].
      apply Forall_forall. intros q Iq. apply in_map_iff in Iq. destruct Iq as (q0 & <- & I0). reflexivity. }
    pose proof (init_ok _ _ _ Htot _ _ _ _ _ H1) as (B1 & _). cbn [ps new_opt] in *.
    unfold observed, steepest. cbn [ps new_opt].
    assert (D' : Forall (fun p => s_dir p = Some (vopp (grad_of p))) (ps o')).
    { apply (map_forall frame _ (ps o1)) with (2 := eq_sym Fm); auto. unfold frame, grad_of. intros p q E. injection E as E1 E2 E3 E4.
      rewrite E3, E4. auto. }
    clear -D'. generalize (ps o') D'. clear. intros k. revert l. induction k as [|w k IH]; intros [|p l] D; auto.
    inversion D as [|? ? D1 D2]; subst. cbn [zip_with map]. f_equal; auto. cbn. unfold dir_of. now rewrite D1.
  Qed.
End LineSearch.

Lemma settings_polak ls c t d cd tg td : settings ls PolakRibiere c t d = LOk (cd, tg, td) -> tg = true.
Proof. unfold settings. destruct ls; intros H; try discriminate; now injection H. Qed.
