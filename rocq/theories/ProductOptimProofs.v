(** Lemmas: a parameter on a product manifold moves like one parameter per component. *)
From Coq Require Import Reals List Bool Arith Lra Lia.
From Verif Require Import RVec OptimModel OptimSpec OptimProofs OptimDecaySpec ProductOptimModel ProductOptimSpec StereoSpec.
Import ListNotations.
Local Open Scope R_scope.

Definition dft : component := (O, euclidean).
Lemma cat_nth cs : forall vs j i, length vs = length cs -> (j < length cs)%nat -> (i < extent cs j)%nat ->
  cat cs vs (start cs j + i)%nat = nth j vs vzero i.
Proof.
  induction cs as [|c cs IH]; intros vs j i L J I; [cbn in J; lia|]. destruct vs as [|v vs]; [discriminate|].
  unfold extent in *. destruct j as [|j]; cbn [start nth cat fst] in *.
  - rewrite Nat.add_0_l. destruct (Nat.ltb_spec i (fst c)); [reflexivity|lia].
  - destruct (Nat.ltb_spec (fst c + start cs j + i) (fst c)); [lia|].
    replace (fst c + start cs j + i - fst c)%nat with (start cs j + i)%nat by lia. apply IH; cbn in L, J; lia.
Qed.
Lemma joined_nth cs : forall X xs, joined cs X xs <-> length xs = length cs /\
  forall j i, (j < length cs)%nat -> (i < extent cs j)%nat -> X (start cs j + i)%nat = nth j xs vzero i.
Proof.
  induction cs as [|c cs IH]; intros X [|x xs]; cbn [joined length].
  - split; [|auto]. intros _. split; auto. intros; lia.
  - split; [tauto|]. intros [H _]. discriminate.
  - split; [tauto|]. intros [H _]. discriminate.
  - rewrite IH. split.
    + intros [A [L B]]. split; [lia|]. intros [|j] i J I; unfold extent in *; cbn [start nth] in *; [apply A; auto|].
      rewrite <- B by lia. f_equal. lia.
    + intros [L B]. split; [|split; [lia|]].
      * intros i I. apply (B O i); [lia|exact I].
      * intros j i J I. specialize (B (S j) i ltac:(lia)). unfold extent in *. cbn [start nth] in B. specialize (B I). rewrite <- B. f_equal. lia.
Qed.

Section At.
  Variable cs : list component.
  Variable j : nat.
  Hypothesis J : (j < length cs)%nat.
  Let n := extent cs j.
  Let M := snd (nth j cs dft).
  Hypothesis RW : rows_of n M.
  Definition same_at (X x : vec) : Prop := forall i, (i < extent cs j)%nat -> X (start cs j + i)%nat = x i.
  Lemma at_take X x : same_at X x -> same n (take cs j X) x.
  Proof. intros H i I. unfold take. fold n. destruct (Nat.ltb_spec i n); [apply H; auto|lia]. Qed.
  Lemma at_each f x : same n (f M j) x -> same_at (each_component cs f) x.
  Proof.
    intros H i I. unfold each_component. rewrite cat_nth; auto; [|rewrite map_length, seq_length; reflexivity].
    rewrite nth_indep with (d' := f (snd (nth O cs (O, euclidean))) O) by (rewrite map_length, seq_length; auto).
    rewrite (map_nth (fun j => f (snd (nth j cs (O, euclidean))) j)), seq_nth by auto. apply H, I.
  Qed.
  Lemma at_egrad X x U u : same_at X x -> same_at U u -> same_at (egrad2rgrad (product cs) X U) (egrad2rgrad M x u).
  Proof. intros A B. apply at_each. apply (r_egrad _ _ RW); apply at_take; auto. Qed.
  Lemma at_retr X x U u : same_at X x -> same_at U u -> same_at (retr (product cs) X U) (retr M x u).
  Proof. intros A B. apply at_each. apply (r_retr _ _ RW); apply at_take; auto. Qed.
  Lemma at_move X x U u V v : same_at X x -> same_at U u -> same_at V v ->
    same_at (fst (retr_transp (product cs) X U V)) (fst (retr_transp M x u v)) /\
    same_at (snd (retr_transp (product cs) X U V)) (snd (retr_transp M x u v)).
  Proof. intros A B C. split; apply at_each; apply (r_move _ _ RW); apply at_take; auto. Qed.
  Lemma at_inner X x U u : same_at X x -> same_at U u -> same_at (component_inner (product cs) X U) (component_inner M x u).
  Proof. intros A B. apply at_each. apply (r_inner _ _ RW); apply at_take; auto. Qed.
  Lemma at_projx X x : same_at X x -> same_at (projx (product cs) X) (projx M x).
  Proof. intros A. apply at_each. apply (r_projx _ _ RW); apply at_take; auto. Qed.
  Lemma at_proju X x U u : same_at X x -> same_at U u -> same_at (proju (product cs) X U) (proju M x u).
  Proof. intros A B. apply at_each. apply (r_proju _ _ RW); apply at_take; auto. Qed.
  Lemma at_add X x Y y : same_at X x -> same_at Y y -> same_at (vadd X Y) (vadd x y).
  Proof. intros A B i I. unfold vadd. rewrite A, B; auto. Qed.
  Lemma at_smul a X x : same_at X x -> same_at (smul a X) (smul a x).
  Proof. intros A i I. unfold smul. rewrite A; auto. Qed.
  Lemma at_div a X x : same_at X x -> same_at (vdiv X a) (vdiv x a).
  Proof. intros A i I. unfold vdiv. rewrite A; auto. Qed.
  Lemma at_divv X x Y y : same_at X x -> same_at Y y -> same_at (vdivv X Y) (vdivv x y).
  Proof. intros A B i I. unfold vdivv. rewrite A, B; auto. Qed.
  Lemma at_sqrt X x : same_at X x -> same_at (vsqrt X) (vsqrt x).
  Proof. intros A i I. unfold vsqrt. rewrite A; auto. Qed.
  Lemma at_max X x Y y : same_at X x -> same_at Y y -> same_at (vmax X Y) (vmax x y).
  Proof. intros A B i I. unfold vmax. rewrite A, B; auto. Qed.
  Lemma at_refl_const a : same_at (vconst a) (vconst a). Proof. intros i I. reflexivity. Qed.
  Lemma at_zero : same_at vzero vzero. Proof. intros i I. reflexivity. Qed.

  Definition at_opt (A a : option vec) : Prop :=
    match A, a with None, None => True | Some A, Some a => same_at A a | _, _ => False end.
  Definition dense_pair {S} (P p : param S) : Prop := exists g g', grad P = Dense g /\ grad p = Dense g' /\ same_at g g'.

  (** ** SGD *)
  Definition sgd_one (P p : sgd_param) : Prop :=
    man p = Some M /\ same_at (val P) (val p) /\ at_opt (state P) (state p).
  Lemma sgd_update_one h P p : man P = Some (product cs) -> sgd_one P p -> dense_pair P p ->
    man (fst (sgd_update h P)) = Some (product cs) /\ sgd_one (fst (sgd_update h P)) (fst (sgd_update h p)) /\
    snd (sgd_update h P) = Ok /\ snd (sgd_update h p) = Ok.
  Proof.
    intros MP [Mp [V S]] [g [g' [E [E' G]]]]. unfold sgd_update. rewrite E, E'. unfold sgd_direction, manifold_of. rewrite MP, Mp.
    assert (D : same_at (decayed h (val P) g) (decayed h (val p) g')) by (apply at_add; [exact G|apply at_smul, V]).
    pose proof (at_egrad _ _ _ _ V D) as R.
    set (r := egrad2rgrad (product cs) (val P) (decayed h (val P) g)) in *. set (r' := egrad2rgrad M (val p) (decayed h (val p) g')) in *.
    assert (B : same_at (new_buffer h r (sgd_buffer g (state P))) (new_buffer h r' (sgd_buffer g' (state p)))).
    { apply at_add; [|apply at_smul, R]. apply at_smul. unfold at_opt in S. destruct (state P), (state p); try tauto; auto. }
    cbn zeta. fold r r'. destruct (has_momentum h) eqn:HM.
    - set (d := if nesterov h then vadd r _ else _). set (d' := if nesterov h then vadd r' _ else _).
      assert (DD : same_at d d') by (unfold d, d'; destruct (nesterov h); [apply at_add; [exact R|apply at_smul, B]|exact B]).
      clearbody d d'. destruct (at_move _ _ _ _ _ _ V (at_smul (- lr h) _ _ DD) B) as [Y1 Y2].
      destruct (retr_transp (product cs) _ _ _) as [y b], (retr_transp M _ _ _) as [y' b']. cbn [fst snd] in *.
      repeat split; auto.
    - cbn [fst snd man val state]. repeat split; auto. cbn [val]. apply at_retr; [exact V|apply at_smul, R].
  Qed.
  Lemma sgd_stabilize_one h P p : man P = Some (product cs) -> sgd_one P p ->
    man (sgd_stabilize h P) = Some (product cs) /\ sgd_one (sgd_stabilize h P) (sgd_stabilize h p).
  Proof.
    intros MP [Mp [V S]]. unfold sgd_stabilize. rewrite MP, Mp. pose proof (at_projx _ _ V) as PV.
    repeat split; cbn [man val state]; auto. destruct (has_momentum h); [|exact S].
    unfold at_opt in *. destruct (state P), (state p); try tauto. apply at_proju; auto.
  Qed.

  (** ** Adam *)
  Definition adam_st (am : bool) (A a : adam_state) : Prop :=
    count A = count a /\ same_at (exp_avg A) (exp_avg a) /\ same_at (exp_avg_sq A) (exp_avg_sq a) /\
    at_opt (max_exp_avg_sq A) (max_exp_avg_sq a) /\ (am = true -> max_exp_avg_sq A <> None).
  Definition adam_one (am : bool) (P p : adam_param) : Prop :=
    man p = Some M /\ same_at (val P) (val p) /\
    match state P, state p with None, None => True | Some A, Some a => adam_st am A a | _, _ => False end.
  Lemma adam_update_one h P p : man P = Some (product cs) -> adam_one (amsgrad h) P p -> dense_pair P p ->
    man (fst (adam_update h P)) = Some (product cs) /\ adam_one (amsgrad h) (fst (adam_update h P)) (fst (adam_update h p)) /\
    snd (adam_update h P) = Ok /\ snd (adam_update h p) = Ok /\
    (exists g, grad (fst (adam_update h P)) = Dense g) /\ (exists g, grad (fst (adam_update h p)) = Dense g).
  Proof.
    intros MP [Mp [V S]] [g [g' [E [E' G]]]]. unfold adam_update. rewrite E, E'. unfold manifold_of. rewrite MP, Mp.
    assert (SS : adam_st (amsgrad h) (adam_init h (state P)) (adam_init h (state p))).
    { destruct (state P), (state p); try tauto. cbn [adam_init]. repeat split; cbn; auto using at_zero.
      - destruct (amsgrad h); cbn; auto using at_zero.
      - destruct (amsgrad h); congruence. }
    clear S. destruct (adam_init h (state P)) as [N A1 A2 A3], (adam_init h (state p)) as [N' B1 B2 B3].
    destruct SS as [CN [S1 [S2 [S3 S4]]]]. cbn [count exp_avg exp_avg_sq max_exp_avg_sq] in *. subst N'.
    set (D := vadd g _). set (D' := vadd g' _).
    assert (DD : same_at D D') by (apply at_add; [exact G|apply at_smul, V]). clearbody D D'.
    pose proof (at_egrad _ _ _ _ V DD) as R.
    set (r := egrad2rgrad (product cs) (val P) D) in *. set (r' := egrad2rgrad M (val p) D') in *.
    pose proof (at_inner _ _ _ _ V R) as Q. cbn zeta.
    assert (F1 : same_at (first_moment h A1 r) (first_moment h B1 r')) by (apply at_add; apply at_smul; auto).
    assert (F2 : same_at (second_moment h A2 (component_inner (product cs) (val P) r)) (second_moment h B2 (component_inner M (val p) r')))
      by (apply at_add; apply at_smul; auto).
    set (m := first_moment h A1 r) in *. set (m' := first_moment h B1 r') in *.
    set (v := second_moment h A2 _) in *. set (v' := second_moment h B2 _) in *. clearbody m m' v v'.
    assert (W : forall d d', same_at d d' -> same_at (smul (- a_lr h) (adam_direction h (Datatypes.S N) m d)) (smul (- a_lr h) (adam_direction h (Datatypes.S N) m' d'))).
    { intros d d' H. apply at_smul. apply at_divv; [apply at_div, F1|]. apply at_add; [|apply at_refl_const]. apply at_sqrt, at_div, H. }
    destruct (amsgrad h) eqn:AM.
    - unfold at_opt in S3. destruct A3 as [A3|]; [|destruct (S4 eq_refl eq_refl)]. destruct B3 as [B3|]; [|tauto].
      pose proof (at_max _ _ _ _ S3 F2) as MX. destruct (at_move _ _ _ _ _ _ V (W _ _ MX) F1) as [Y1 Y2].
      destruct (retr_transp (product cs) _ _ _) as [y b], (retr_transp M _ _ _) as [y' b']. cbn [fst snd] in *.
      repeat split; cbn; auto; try (eexists; reflexivity). discriminate.
    - destruct (at_move _ _ _ _ _ _ V (W _ _ F2) F1) as [Y1 Y2].
      destruct (retr_transp (product cs) _ _ _) as [y b], (retr_transp M _ _ _) as [y' b']. cbn [fst snd] in *.
      repeat split; cbn; auto; try (eexists; reflexivity).
  Qed.
  Lemma adam_stabilize_one am P p : man P = Some (product cs) -> adam_one am P p ->
    man (adam_stabilize P) = Some (product cs) /\ adam_one am (adam_stabilize P) (adam_stabilize p).
  Proof.
    intros MP [Mp [V S]]. unfold adam_stabilize. rewrite MP, Mp. pose proof (at_projx _ _ V) as PV.
    destruct (state P) as [A|] eqn:EP, (state p) as [a|] eqn:Ep; try tauto.
    - destruct S as [S0 [S1 [S2 [S3 S4]]]]. repeat split; cbn; auto. apply at_proju; auto.
    - repeat split; auto. rewrite EP, Ep. exact I.
  Qed.
End At.

(** ** groups and training *)
Lemma F2_length {A B} (R : A -> B -> Prop) l m : Forall2 R l m -> length l = length m.
Proof. induction 1; cbn; congruence. Qed.
Lemma F2_map {A B C} (f : B -> C) (R : A -> B -> Prop) (Q : A -> C -> Prop) l m :
  Forall2 R l m -> (forall a b, In a l -> R a b -> Q a (f b)) -> Forall2 Q l (map f m).
Proof.
  induction 1 as [|a b l m H F IH]; intros W; cbn; constructor; [apply W; [left|]; auto|]. apply IH. intros; apply W; [right|]; auto.
Qed.
Lemma F2_and {A B} (R Q : A -> B -> Prop) l m : Forall2 R l m -> Forall2 Q l m -> Forall2 (fun a b => R a b /\ Q a b) l m.
Proof. intros H. induction H; intros K; inversion K; subst; constructor; auto. Qed.
Lemma F2_imp {A B} (R Q : A -> B -> Prop) l m : (forall a b, In a l -> R a b -> Q a b) -> Forall2 R l m -> Forall2 Q l m.
Proof. intros W H. induction H; constructor; [apply W; [left|]; auto|]. apply IHForall2. intros; apply W; [right|]; auto. Qed.
Lemma F2_right {A B} (Q : B -> Prop) (l : list A) m : Forall2 (fun _ b => Q b) l m -> Forall Q m.
Proof. induction 1; constructor; auto. Qed.
Lemma assign_F2 {S} (R : nat -> param S -> Prop) (Q : nat -> param S -> Prop) G ps : forall a m,
  (forall j p, R j p -> Q j {| man := man p; val := val p; grad := G j; state := state p |}) ->
  Forall2 R (seq a m) ps -> Forall2 Q (seq a m) (assign G a ps).
Proof.
  induction ps as [|p ps IH]; intros a m W H; destruct m; cbn [seq] in *; inversion H; subst; cbn [assign]; constructor; auto.
Qed.
Section Train.
  Variable cs : list component.
  Hypothesis NE : cs <> [].
  Hypothesis RW : Forall (fun c => rows_of (fst c) (snd c)) cs.
  Lemma rows_at j : (j < length cs)%nat -> rows_of (extent cs j) (snd (nth j cs dft)).
  Proof. intros J. rewrite Forall_forall in RW. apply RW. apply nth_In, J. Qed.
  Lemma in_seq0 j m : In j (seq 0 m) -> (j < m)%nat. Proof. rewrite in_seq. lia. Qed.
  (** values of the parts *)
  Lemma joined_F2 {S} (X : vec) (ps : list (param S)) : joined cs X (map val ps) <-> Forall2 (fun j p => same_at cs j X (val p)) (seq 0 (length cs)) ps.
  Proof.
    rewrite joined_nth, map_length. split.
    - intros [L H]. assert (K : forall a m (qs : list (param S)), length qs = m -> (forall j, (j < m)%nat -> same_at cs (a + j) X (nth j (map val qs) vzero)) ->
        Forall2 (fun j p => same_at cs j X (val p)) (seq a m) qs).
      { intros a m qs. revert a m. induction qs as [|q qs IH]; intros a m Lm W; subst m; cbn; constructor.
        - specialize (W O ltac:(cbn; lia)). rewrite Nat.add_0_r in W. exact W.
        - apply IH; auto. intros j J. specialize (W (Datatypes.S j) ltac:(cbn; lia)). rewrite Nat.add_succ_r in W. exact W. }
      apply K; auto. intros j J i I. apply H; auto.
    - intros F. assert (L : length ps = length cs) by (apply F2_length in F; rewrite seq_length in F; auto). split; auto.
      assert (K : forall a m (qs : list (param S)), Forall2 (fun j p => same_at cs j X (val p)) (seq a m) qs ->
        forall j, (j < m)%nat -> same_at cs (a + j) X (nth j (map val qs) vzero)).
      { intros a m qs. revert a m. induction qs as [|q qs IH]; intros a m W j Jm; destruct m; cbn [seq] in W; inversion W; subst; [lia|].
        destruct j; [rewrite Nat.add_0_r; assumption|]. rewrite Nat.add_succ_r. apply (IH (Datatypes.S a) m); auto. lia. }
      intros j i J I. apply (K O _ _ F j J i I).
  Qed.
  Definition gets {S} (P : param S) (ps : list (param S)) : Prop := Forall2 (fun j p => dense_pair cs j P p) (seq 0 (length cs)) ps.

  (** SGD *)
  Definition sgd_rel (P : sgd_param) (ps : list sgd_param) : Prop :=
    man P = Some (product cs) /\ Forall2 (fun j p => sgd_one cs j P p) (seq 0 (length cs)) ps.
  Lemma sgd_group_rel h k P ps : sgd_rel P ps -> gets P ps ->
    exists P', params (fst (sgd_step_group {| hyp := h; steps := k; params := [P] |})) = [P'] /\
      sgd_rel P' (params (fst (sgd_step_group {| hyp := h; steps := k; params := ps |}))) /\
      steps (fst (sgd_step_group {| hyp := h; steps := k; params := [P] |})) = steps (fst (sgd_step_group {| hyp := h; steps := k; params := ps |})).
  Proof.
    intros [MP R] D. pose proof (F2_and _ _ _ _ R D) as RD.
    assert (U : Forall2 (fun j p => (sgd_one cs j (fst (sgd_update h P)) (fst (sgd_update h p))) /\ snd (sgd_update h P) = Ok /\ snd (sgd_update h p) = Ok /\
       man (fst (sgd_update h P)) = Some (product cs)) (seq 0 (length cs)) ps).
    { revert RD. apply F2_imp. intros j p I [A B]. apply in_seq0 in I.
      destruct (sgd_update_one cs j I (rows_at j I) h P p MP A B) as [U1 [U2 [U3 U4]]]. auto. }
    assert (OP : snd (sgd_update h P) = Ok /\ man (fst (sgd_update h P)) = Some (product cs)).
    { clear - U NE. destruct cs; [congruence|]. inversion U; subst. tauto. }
    destruct OP as [OP MP'].
    assert (LP : loop (sgd_update h) ps = (map (fun p => fst (sgd_update h p)) ps, Ok)).
    { apply loop_total. apply (F2_right (A := nat)) with (l := seq 0 (length cs)). revert U. apply F2_imp. tauto. }
    assert (R' : sgd_rel (fst (sgd_update h P)) (map (fun p => fst (sgd_update h p)) ps)).
    { split; auto. apply (F2_map _ _ _ _ _ U). tauto. }
    unfold sgd_step_group. cbn [hyp steps params]. rewrite LP.
    rewrite (loop_total (sgd_update h) [P]) by (constructor; [exact OP|constructor]). cbn [map].
    destruct (stabilize h) as [[|N]|]; [eexists; repeat split; try reflexivity; apply R'| |eexists; repeat split; try reflexivity; apply R'].
    destruct (_ mod _ =? 0)%nat; [|eexists; repeat split; try reflexivity; apply R'].
    cbn [fst params map steps]. exists (sgd_stabilize h (fst (sgd_update h P))). split; [reflexivity|]. split; [|reflexivity].
    destruct R' as [_ R']. split.
    - unfold sgd_stabilize. rewrite MP'. reflexivity.
    - apply (F2_map _ _ _ _ _ R'). intros j p I A. apply in_seq0 in I. apply (sgd_stabilize_one cs j I (rows_at j I) h _ _ MP' A).
  Qed.
  Lemma gets_assign {S} t (G G' : nat -> list vec -> nat -> gradient) (P : param S) ps : same_gradients cs G G' -> joined cs (val P) (map val ps) ->
    gets {| man := man P; val := val P; grad := G' t [val P] O; state := state P |} (assign (G t (map val ps)) 0 ps).
  Proof.
    intros SG Jn. destruct (SG t _ _ Jn) as [g [gs [E [Jg H]]]]. rewrite E. unfold gets.
    apply joined_F2 in Jn. apply joined_nth in Jg. destruct Jg as [_ Jg].
    assert (Jn' : Forall2 (fun j (_ : param S) => (j < length cs)%nat) (seq 0 (length cs)) ps).
    { revert Jn. apply F2_imp. intros j p I _. apply in_seq0, I. }
    revert Jn'. apply assign_F2. intros j p J. rewrite (H j J). exists g, (nth j gs vzero). repeat split; auto. intros i I. apply Jg; auto.
  Qed.
  Lemma sgd_rel_joined P ps : sgd_rel P ps -> joined cs (val P) (map val ps).
  Proof. intros [_ R]. apply joined_F2. revert R. apply F2_imp. intros j p _ [_ [V _]]. exact V. Qed.
  Lemma start_man {S} (ps : list (param S)) : map man ps = map (fun c => Some (snd c)) cs ->
    Forall2 (fun j p => man p = Some (snd (nth j cs dft))) (seq 0 (length cs)) ps.
  Proof.
    intros H. assert (K : forall (ds : list component) (qs : list (param S)), map man qs = map (fun c => Some (snd c)) ds ->
      forall pre, cs = pre ++ ds -> Forall2 (fun j p => man p = Some (snd (nth j cs dft))) (seq (length pre) (length ds)) qs).
    { intros ds. induction ds as [|d ds IH]; intros [|q qs] E pre C; try discriminate; cbn; constructor.
      - rewrite C, app_nth2, Nat.sub_diag by lia. cbn in *. congruence.
      - injection E as _ E. specialize (IH qs E (pre ++ [d])). rewrite app_length, Nat.add_1_r in IH. apply IH. rewrite <- app_assoc. exact C. }
    apply (K cs ps H [] eq_refl).
  Qed.
  Lemma F2_Forall {A B} (Q : B -> Prop) (l : list A) m : length l = length m -> Forall Q m -> Forall2 (fun _ b => Q b) l m.
  Proof. revert m. induction l; intros [|b m] L F; try discriminate; constructor; inversion F; auto. Qed.
  Lemma sgd_training_product hs G G' P0 ps0 : same_gradients cs G G' -> on_components cs P0 ps0 -> forall t,
    exists P, params (sgd_training hs G' [P0] t) = [P] /\ joined cs (val P) (map val (params (sgd_training hs G ps0 t))).
  Proof.
    intros SG [MP [SP [Jn [Mp Fr]]]] t.
    assert (K : exists P, params (sgd_training hs G' [P0] t) = [P] /\ sgd_rel P (params (sgd_training hs G ps0 t)) /\
      steps (sgd_training hs G' [P0] t) = steps (sgd_training hs G ps0 t)).
    { induction t as [|t [P [E [R S]]]].
      - exists P0. repeat split; auto. cbn [sgd_training params]. apply joined_F2 in Jn. pose proof (start_man ps0 Mp) as Hm.
        pose proof (F2_and _ _ _ _ Jn Hm) as H1. pose proof (F2_Forall fresh (seq 0 (length cs)) ps0 (F2_length _ _ _ Hm) Fr) as H2.
        pose proof (F2_and _ _ _ _ H1 H2) as H3. revert H3. apply F2_imp. intros j p _ [[A B] C]. repeat split; auto.
        unfold fresh in C. rewrite SP, C. exact I.
      - cbn [sgd_training]. rewrite E. cbn [assign map]. rewrite S.
        destruct (sgd_group_rel (hs t) (steps (sgd_training hs G ps0 t)) {| man := man P; val := val P; grad := G' t [val P] O; state := state P |}
          (assign (G t (map val (params (sgd_training hs G ps0 t)))) 0 (params (sgd_training hs G ps0 t)))) as [P' [A [B C]]].
        + destruct R as [R1 R2]. split; [exact R1|]. revert R2. apply assign_F2. intros j p H. exact H.
        + apply gets_assign; auto. apply sgd_rel_joined, R.
        + exists P'. auto. }
    destruct K as [P [A [B _]]]. exists P. split; auto. apply sgd_rel_joined, B.
  Qed.

  (** Adam *)
  Definition adam_rel (am : bool) (P : adam_param) (ps : list adam_param) : Prop :=
    man P = Some (product cs) /\ Forall2 (fun j p => adam_one cs j am P p) (seq 0 (length cs)) ps.
  Lemma adam_group_rel h P ps : a_stabilize h <> Some O -> adam_rel (amsgrad h) P ps -> gets P ps ->
    exists P', a_params (fst (adam_step_group {| a_hyp := h; a_params := [P] |})) = [P'] /\
      adam_rel (amsgrad h) P' (a_params (fst (adam_step_group {| a_hyp := h; a_params := ps |}))).
  Proof.
    intros Z [MP R] D. pose proof (F2_and _ _ _ _ R D) as RD.
    set (V := fun p : adam_param => fst (adam_update h p)).
    assert (U : Forall2 (fun j p => (adam_one cs j (amsgrad h) (V P) (V p)) /\ snd (adam_update h P) = Ok /\ snd (adam_update h p) = Ok /\
       man (V P) = Some (product cs) /\ (exists g, grad (V P) = Dense g) /\ (exists g, grad (V p) = Dense g)) (seq 0 (length cs)) ps).
    { revert RD. apply F2_imp. intros j p I [A B]. apply in_seq0 in I.
      destruct (adam_update_one cs j I (rows_at j I) h P p MP A B) as [U1 [U2 [U3 [U4 [U5 U6]]]]]. repeat split; auto; apply U2. }
    assert (VS : forall p, snd (adam_update h p) = Ok -> adam_visit h p = (V p, Ok)).
    { intros p H. unfold adam_visit, V. destruct (adam_update h p) as [q s]. cbn in H. subst s. cbn [fst].
      destruct (a_stabilize h) as [[|N]|]; [congruence| |]; destruct (grad q); reflexivity. }
    assert (OP : snd (adam_update h P) = Ok /\ man (V P) = Some (product cs) /\ exists g, grad (V P) = Dense g).
    { clear - U NE. destruct cs; [congruence|]. inversion U; subst. tauto. }
    destruct OP as [OP [MP' [gP GP]]].
    assert (F : Forall (fun p => snd (adam_update h p) = Ok) ps).
    { apply (F2_right (A := nat)) with (l := seq 0 (length cs)). revert U. apply F2_imp. tauto. }
    assert (LP : loop (adam_visit h) ps = (map V ps, Ok)).
    { clear - F VS. induction F as [|p ps H F IH]; cbn [loop map]; [reflexivity|]. rewrite (VS p H), IH. reflexivity. }
    assert (R' : adam_rel (amsgrad h) (V P) (map V ps)).
    { split; auto. apply (F2_map _ _ _ _ _ U). tauto. }
    assert (AK : forall N, existsb (asks N) (map V ps) = asks N (V P)).
    { intros N.
      assert (Q : Forall (fun p => asks N (V p) = asks N (V P)) ps).
      { apply (F2_right (A := nat)) with (l := seq 0 (length cs)). revert U. apply F2_imp.
        intros j p _ [[_ [_ A]] [_ [_ [_ [[g B] [g' C]]]]]]. unfold asks. rewrite B, C. destruct (state (V P)), (state (V p)); try tauto.
        destruct A as [-> _]. reflexivity. }
      assert (L : ps <> []) by (intros ->; inversion U as [E|]; destruct cs; [congruence|discriminate]).
      clear - Q L. destruct Q as [|p ps H F]; [congruence|]. cbn [map existsb]. rewrite H.
      destruct (asks N (V P)) eqn:E; [reflexivity|]. cbn. induction F as [|q qs H' F IH]; cbn; [reflexivity|]. rewrite H'. cbn. apply IH. discriminate. }
    unfold adam_step_group. cbn [a_hyp a_params]. rewrite LP. cbn [loop]. rewrite (VS P OP). 
    destruct (a_stabilize h) as [N|]; [|exists (V P); split; [reflexivity|exact R']].
    rewrite AK. cbn [existsb]. rewrite orb_false_r. destruct (asks N (V P)); [|exists (V P); split; [reflexivity|exact R']].
    cbn [fst a_params map]. exists (adam_stabilize (V P)). split; [reflexivity|].
    destruct R' as [_ R']. split.
    - unfold adam_stabilize. rewrite MP'. destruct (state (V P)); [reflexivity|exact MP'].
    - apply (F2_map _ _ _ _ _ R'). intros j p I A. apply in_seq0 in I. apply (adam_stabilize_one cs j I (rows_at j I) (amsgrad h) _ _ MP' A).
  Qed.
  Lemma adam_rel_joined am P ps : adam_rel am P ps -> joined cs (val P) (map val ps).
  Proof. intros [_ R]. apply joined_F2. revert R. apply F2_imp. intros j p _ [_ [V _]]. exact V. Qed.
  Lemma adam_training_product am hs G G' P0 ps0 : (forall t, amsgrad (hs t) = am /\ a_stabilize (hs t) <> Some O) ->
    same_gradients cs G G' -> on_components cs P0 ps0 -> forall t,
    exists P, a_params (adam_training hs G' [P0] t) = [P] /\ joined cs (val P) (map val (a_params (adam_training hs G ps0 t))).
  Proof.
    intros HH SG [MP [SP [Jn [Mp Fr]]]] t.
    assert (K : exists P, a_params (adam_training hs G' [P0] t) = [P] /\ adam_rel am P (a_params (adam_training hs G ps0 t))).
    { induction t as [|t [P [E R]]].
      - exists P0. repeat split; auto. cbn [adam_training a_params]. apply joined_F2 in Jn. pose proof (start_man ps0 Mp) as Hm.
        pose proof (F2_and _ _ _ _ Jn Hm) as H1. pose proof (F2_Forall fresh (seq 0 (length cs)) ps0 (F2_length _ _ _ Hm) Fr) as H2.
        pose proof (F2_and _ _ _ _ H1 H2) as H3. revert H3. apply F2_imp. intros j p _ [[A B] C]. repeat split; auto.
        unfold fresh in C. rewrite SP, C. exact I.
      - cbn [adam_training]. rewrite E. cbn [assign map]. destruct (HH t) as [<- Z].
        apply adam_group_rel; auto.
        + destruct R as [R1 R2]. split; [exact R1|]. revert R2. apply assign_F2. intros j p H. exact H.
        + apply gets_assign; auto. eapply adam_rel_joined, R. }
    destruct K as [P [A B]]. exists P. split; auto. eapply adam_rel_joined, B.
  Qed.
End Train.
