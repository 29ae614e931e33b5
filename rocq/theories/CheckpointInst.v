(** Training without sparse gradients does not raise; cases for the checkpoint theorems. *)
From Coq Require Import Reals List Arith Lia.
From Verif Require Import RVec OptimModel OptimProofs SparseModel CheckpointModel OptimDecaySpec GroupingSpec CheckpointSpec CheckpointProofs RotationInst ProductOptimInst ScaledOptimProofs.
Import ListNotations.

Lemma assigned {S} (G : nat -> gradient) (P : gradient -> Prop) : (forall i, P (G i)) -> forall (ps : list (param S)) i, Forall (fun p => P (grad p)) (assign G i ps).
Proof. intro H. induction ps as [|p ps IH]; intro i; constructor; [apply H|apply IH]. Qed.
Lemma assigned_groups {S} (G : nat -> gradient) (P : gradient -> Prop) : (forall i, P (G i)) -> forall (pss : list (list (param S))) i, Forall (Forall (fun p => P (grad p))) (assign_groups G i pss).
Proof. intro H. induction pss as [|p ps IH]; intro i; constructor; [now apply assigned|apply IH]. Qed.
Lemma combined {A B C} (r : A -> B -> C) (P : A -> Prop) (Q : B -> Prop) (T : C -> Prop) : (forall a b, P a -> Q b -> T (r a b)) ->
  forall l m, Forall P l -> Forall Q m -> Forall T (map (fun x => r (fst x) (snd x)) (combine l m)).
Proof. intro H. induction l as [|a l IH]; intros [|b m] L M; simpl; constructor; inversion L; inversion M; subst; auto. Qed.
Lemma each_total {G} (f : G -> G * status) (P : G -> Prop) : forall gs, Forall (fun g => snd (f g) = Ok /\ P (fst (f g))) gs ->
  exists hs, each f gs = (hs, Ok) /\ Forall P hs.
Proof.
  induction 1 as [|g gs [H1 H2] _ [hs [E F]]]; [now exists []|]. exists (fst (f g) :: hs). simpl. rewrite E. destruct (f g) as [g' s]. simpl in *. subst s.
  split; [reflexivity|]. now constructor.
Qed.
Definition legal_sgd (h : sgd_hyper) : Prop := stabilize h <> Some O.
Lemma train_sgd_runs E G : no_sparse G -> (forall t h, legal_sgd h -> legal_sgd (E t h)) -> forall n t o, Forall (fun g => legal_sgd (hyp g)) o ->
  exists o1, train_sgd E G t n o = (o1, Ok) /\ Forall (fun g => legal_sgd (hyp g)) o1.
Proof.
  intros NS L. induction n as [|n IH]; intros t o H; [now exists o|]. cbn [train_sgd].
  match goal with |- context [sgd_step ?x] => set (o2 := x) end.
  assert (Q : Forall (fun g => legal_sgd (hyp g) /\ Forall (fun p => grad p <> Sparse) (params g)) o2).
  { unfold o2. apply (combined (fun a b => {| hyp := E t (hyp a); steps := steps a; params := b |}) (fun g => legal_sgd (hyp g)) (Forall (fun p => grad p <> Sparse))).
    - intros a b A B. split; [now apply L|exact B].
    - exact H.
    - apply (assigned_groups _ (fun g => g <> Sparse)). intro i. apply NS. }
  destruct (each_total sgd_step_group (fun g => legal_sgd (hyp g)) o2) as (o3 & E3 & F3).
  { refine (Forall_impl _ _ Q). intros g [A B]. unfold sgd_step_group.
    rewrite loop_total by (refine (Forall_impl _ _ B); intros p NP; unfold sgd_update; destruct (grad p); try reflexivity; [destruct has_momentum; [now destruct retr_transp|reflexivity]|congruence]).
    destruct (stabilize (hyp g)) as [[|N]|] eqn:St; [now elim A| |]; [destruct (_ =? _)|]; split; auto. }
  unfold sgd_step. rewrite E3. now apply IH.
Qed.
Definition legal_adam (h : adam_hyper) : Prop := a_stabilize h <> Some O /\ amsgrad h = false.
Lemma train_adam_runs E G : no_sparse G -> (forall t h, legal_adam h -> legal_adam (E t h)) -> forall n t o, Forall (fun g => legal_adam (a_hyp g)) o ->
  exists o1, train_adam E G t n o = (o1, Ok) /\ Forall (fun g => legal_adam (a_hyp g)) o1.
Proof.
  intros NS L. induction n as [|n IH]; intros t o H; [now exists o|]. cbn [train_adam].
  match goal with |- context [adam_step ?x] => set (o2 := x) end.
  assert (Q : Forall (fun g => legal_adam (a_hyp g) /\ Forall (fun p => grad p <> Sparse) (a_params g)) o2).
  { unfold o2. apply (combined (fun a b => {| a_hyp := E t (a_hyp a); a_params := b |}) (fun g => legal_adam (a_hyp g)) (Forall (fun p => grad p <> Sparse))).
    - intros a b A B. split; [now apply L|exact B].
    - exact H.
    - apply (assigned_groups _ (fun g => g <> Sparse)). intro i. apply NS. }
  destruct (each_total adam_step_group (fun g => legal_adam (a_hyp g)) o2) as (o3 & E3 & F3).
  { refine (Forall_impl _ _ Q). intros g [[A A2] B]. unfold adam_step_group.
    rewrite loop_total.
    - destruct (a_stabilize (a_hyp g)) as [N|] eqn:St; [destruct existsb|]; (split; [reflexivity|split; cbn; congruence]).
    - refine (Forall_impl _ _ B). intros p NP. unfold adam_visit. 
      assert (U : snd (adam_update (a_hyp g) p) = Ok).
      { unfold adam_update. destruct (grad p); try reflexivity; [|congruence]. rewrite A2. now destruct retr_transp. }
      destruct (adam_update (a_hyp g) p) as [q s]. simpl in U. subst s.
      destruct (a_stabilize (a_hyp g)) as [[|N]|]; [now elim A| |]; reflexivity. }
  unfold adam_step. rewrite E3. now apply IH.
Qed.

(** The two groups of the cases: a circle and a disc, then a plain parameter. *)
Definition plain {S} : param S := {| man := None; val := ScaledOptimProofs.g34; grad := NoGrad; state := None |}.
Definition script {S} : list (list (param S)) := [circle_and_disc; [plain]].
Lemma sgd_case h : stabilize h = Some 3%nat ->
  let o := map (fun ps => {| hyp := h; steps := None; params := ps |}) script in
  exists o1, train_sgd (fun _ h => h) twice 0 7 o = (o1, Ok).
Proof.
  intros St o. destruct (train_sgd_runs (fun _ h => h) twice) with (n := 7) (t := 0) (o := o) as (o1 & T & _).
  - intros t xs i. discriminate.
  - auto.
  - repeat constructor; unfold legal_sgd; cbn; rewrite St; discriminate.
  - now exists o1.
Qed.
Lemma adam_case h : a_stabilize h = Some 3%nat -> amsgrad h = false ->
  let o := map (fun ps => {| a_hyp := h; a_params := ps |}) script in
  exists o1, train_adam (fun _ h => h) twice 0 7 o = (o1, Ok).
Proof.
  intros St Am o. destruct (train_adam_runs (fun _ h => h) twice) with (n := 7) (t := 0) (o := o) as (o1 & T & _).
  - intros t xs i. discriminate.
  - auto.
  - repeat constructor; unfold legal_adam; cbn; rewrite ?St; first [discriminate|exact Am].
  - now exists o1.
Qed.

(** A sparse case: one matrix on the sphere with a gradient on row 1 and one without gradient. *)
Definition two_tables {S} : list (list (sparam S)) :=
  [[{| s_man := Some (OptimInstances.sphere 2); s_val := fun _ => g34; s_grad := SNone; s_state := None |}];
   [{| s_man := None; s_val := fun _ => g34; s_grad := SNone; s_state := None |}]].
Definition row_one (_ : nat) (xs : list matrix) (i : nat) : sgradient :=
  match i with O => SSparse [(1, nth 0 xs mzero 1)] | _ => SNone end.
Lemma ssgd_case h : stabilize h = Some 3%nat ->
  exists o1, train_ssgd (fun _ h => h) row_one 0 2 (map (fun ps => {| s_hyp := h; s_steps := None; s_params := ps |}) two_tables) = (o1, Ok).
Proof.
  intros St. cbn. unfold ssgd_step, ssgd_step_group, ssgd_update. cbn. destruct (has_momentum h) eqn:M; cbn; rewrite St; cbn;
    unfold ssgd_step_group, ssgd_update; cbn; rewrite M; cbn; rewrite St; cbn; eexists; reflexivity.
Qed.
Lemma sadam_case h : a_stabilize h = Some 3%nat -> amsgrad h = false ->
  exists o1, train_sadam (fun _ h => h) row_one 0 2 (map (fun ps => {| sa_hyp := h; sa_params := ps |}) two_tables) = (o1, Ok).
Proof.
  intros St Am. cbn. unfold sadam_step, sadam_step_group, sadam_visit, sadam_update. cbn. rewrite Am. cbn. rewrite St. cbn.
  unfold sadam_step_group, sadam_visit, sadam_update. cbn. rewrite Am. cbn. rewrite St. cbn. eexists. reflexivity.
Qed.
