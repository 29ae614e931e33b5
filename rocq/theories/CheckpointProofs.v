(** Lemmas: checkpoints. *)
From Coq Require Import Reals List Arith Lia.
From Verif Require Import RVec OptimModel SparseModel CheckpointModel OptimDecaySpec GroupingSpec CheckpointSpec.
Import ListNotations.

Section Saved.
  Variables P V S H K : Type.
  Variables (get_val : P -> V) (get_state : P -> option S) (restore : P -> V -> option S -> P) (kind : P -> K).
  Hypothesis KR : forall p q v s, kind p = kind q -> restore q v s = restore p v s.
  Definition gforget (p : P) : P := restore p (get_val p) (get_state p).
  Notation groups := (list (H * list P)).
  Notation all_params := (@all_params P H).
  Notation pack_state := (pack_state P S get_state).
  Notation pack_groups := (pack_groups P H).
  Notation find_state := (find_state S).
  Notation load_params := (load_params P V S restore).
  Notation load_groups := (load_groups P V S H restore).
  Definition forget_all (o : groups) : groups := map (fun g => (fst g, map gforget (snd g))) o.

  Lemma find_low (ps : list P) : forall i j, j < i -> find_state j (pack_state i ps) = None.
  Proof using.
    induction ps as [|p ps IH]; intros i j L; [reflexivity|]. simpl. destruct (get_state p); simpl.
    - destruct (Nat.eqb_spec j i); [lia|]. apply IH. lia.
    - apply IH. lia.
  Qed.
  Lemma find_packed (ps : list P) : forall i k p, nth_error ps k = Some p -> find_state (i + k) (pack_state i ps) = get_state p.
  Proof using.
    induction ps as [|q ps IH]; intros i k p E; destruct k; simpl in E; try discriminate.
    - injection E as ->. simpl. rewrite Nat.add_0_r. destruct (get_state p) eqn:Q; simpl.
      + now rewrite Nat.eqb_refl.
      + apply find_low. lia.
    - simpl. replace (i + Datatypes.S k) with (Datatypes.S i + k) by lia. destruct (get_state q); cbn [CheckpointModel.find_state Nat.add].
      + rewrite (proj2 (Nat.eqb_neq (Datatypes.S (i + k)) i)) by lia. apply (IH (Datatypes.S i)); exact E.
      + apply (IH (Datatypes.S i)); exact E.
  Qed.
  Lemma load_params_saved (st : list (nat * S)) (vs : list V) : forall ps ps' i, map kind ps = map kind ps' ->
    (forall k p, nth_error ps k = Some p -> find_state (i + k) st = get_state p) ->
    load_params st (seq i (length ps)) (map get_val ps ++ vs) ps' = map gforget ps.
  Proof using KR.
    induction ps as [|p ps IH]; intros [|p' ps'] i E F; simpl in *; try discriminate; [reflexivity|].
    injection E as E1 E2. f_equal.
    - unfold gforget. rewrite (KR p p' _ _ E1). f_equal. rewrite <- (F O p eq_refl). now rewrite Nat.add_0_r.
    - apply IH; [exact E2|]. intros k q Q. rewrite <- (F (Datatypes.S k) q Q). f_equal. lia.
  Qed.
  Lemma skip_app {A B} (l : list A) (m : list B) (r : list A) : length m = length l -> skipn (length m) (l ++ r) = r.
  Proof using. intros ->. rewrite skipn_app, skipn_all, Nat.sub_diag. reflexivity. Qed.
  Definition same_script (o o' : groups) : Prop := map (fun g => map kind (snd g)) o = map (fun g => map kind (snd g)) o'.
  Lemma load_groups_saved (st : list (nat * S)) : forall (o o' : groups) i, same_script o o' ->
    (forall k p, nth_error (all_params o) k = Some p -> find_state (i + k) st = get_state p) ->
    load_groups st (pack_groups i o) (map get_val (all_params o)) o' = forget_all o.
  Proof using KR.
    unfold same_script. induction o as [|[h ps] o IH]; intros [|[h' ps'] o'] i E F; simpl in *; try discriminate; [reflexivity|].
    injection E as E1 E2. unfold CheckpointModel.all_params in *. simpl in *.
    assert (L : length ps' = length (map get_val ps)) by (rewrite map_length, <- (map_length kind ps'), <- E1; apply map_length).
    rewrite map_app. f_equal.
    - f_equal. apply load_params_saved; [exact E1|]. intros k p Q. apply F. rewrite nth_error_app1; [exact Q|].
      apply nth_error_Some. congruence.
    - rewrite skip_app by exact L. apply IH; [exact E2|]. intros k p Q. rewrite <- (F (length ps + k) p).
      + f_equal. lia.
      + rewrite nth_error_app2 by lia. replace (length ps + k - length ps) with k by lia. exact Q.
  Qed.
  Lemma pack_sizes (o : groups) : forall i, map (fun g => length (snd g)) (pack_groups i o) = map (fun g => length (snd g)) o.
  Proof using. induction o as [|[h ps] o IH]; intro i; simpl; [reflexivity|]. now rewrite seq_length, IH. Qed.
  Lemma same_sizes : forall o o' : groups, same_script o o' -> map (fun g => length (snd g)) o' = map (fun g => length (snd g)) o.
  Proof using.
    intros o o' E. apply (f_equal (map (@length _))) in E. rewrite !map_map in E.
    rewrite (map_ext _ (fun g : H * list P => length (snd g))) in E by (intro; apply map_length).
    rewrite (map_ext (fun g => length (map kind (snd g))) (fun g : H * list P => length (snd g))) in E by (intro; apply map_length).
    now symmetry.
  Qed.
  Lemma load_saved (o o' : groups) : same_script o o' -> load P V S H restore (save P V S H get_val get_state o) o' = Some (forget_all o).
  Proof using KR.
    intro E. unfold load, save. simpl. destruct list_eq_dec as [D|D].
    - f_equal. apply load_groups_saved; [exact E|]. intros k p Q. exact (find_packed _ 0 k p Q).
    - exfalso. apply D. rewrite pack_sizes. now apply same_sizes.
  Qed.
  Lemma load_other (o o' : groups) : map (fun g => length (snd g)) o <> map (fun g => length (snd g)) o' ->
    load P V S H restore (save P V S H get_val get_state o) o' = None.
  Proof using.
    intro N. unfold load, save. simpl. rewrite pack_sizes. destruct list_eq_dec as [D|D]; [|reflexivity]. now rewrite D in N.
  Qed.
End Saved.
Definition forget {S} : param S -> param S := gforget (param S) vec S val state restore_param.
Definition sforget {S} : sparam S -> sparam S := gforget (sparam S) matrix S s_val s_state restore_sparam.
Lemma reload_saved {H S} (o o' : list (H * list (param S))) : map (fun g => map man (snd g)) o = map (fun g => map man (snd g)) o' ->
  reload o o' = Some (map (fun g => (fst g, map forget (snd g))) o).
Proof. apply (load_saved (param S) vec S H _ val state restore_param man). intros p q v s E. unfold restore_param. now rewrite E. Qed.
Lemma sreload_saved {H S} (o o' : list (H * list (sparam S))) : map (fun g => map s_man (snd g)) o = map (fun g => map s_man (snd g)) o' ->
  sreload o o' = Some (map (fun g => (fst g, map sforget (snd g))) o).
Proof. apply (load_saved (sparam S) matrix S H _ s_val s_state restore_sparam s_man). intros p q v s E. unfold restore_sparam. now rewrite E. Qed.
Lemma reload_other {H S} (o o' : list (H * list (param S))) : map (fun g => length (snd g)) o <> map (fun g => length (snd g)) o' -> reload o o' = None.
Proof. apply load_other. Qed.
Lemma sreload_other {H S} (o o' : list (H * list (sparam S))) : map (fun g => length (snd g)) o <> map (fun g => length (snd g)) o' -> sreload o o' = None.
Proof. apply load_other. Qed.

(** Gradients are overwritten before a step. *)
Lemma assign_forget {S} G : forall (ps : list (param S)) i, assign G i (map forget ps) = assign G i ps.
Proof. induction ps as [|p ps IH]; intro i; simpl; [reflexivity|]. now rewrite IH. Qed.
Lemma assign_groups_forget {S} G : forall (pss : list (list (param S))) i, assign_groups G i (map (map forget) pss) = assign_groups G i pss.
Proof. induction pss as [|ps pss IH]; intro i; simpl; [reflexivity|]. now rewrite assign_forget, map_length, IH. Qed.
Lemma val_forget {S} (pss : list (list (param S))) : map val (concat (map (map forget) pss)) = map val (concat pss).
Proof. rewrite <- concat_map, map_map. reflexivity. Qed.
Lemma man_assign {S} G : forall (ps : list (param S)) i, map man (assign G i ps) = map man ps.
Proof. induction ps as [|p ps IH]; intro i; simpl; [reflexivity|]. now rewrite IH. Qed.
Lemma man_assign_groups {S} G : forall (pss : list (list (param S))) i, map (map man) (assign_groups G i pss) = map (map man) pss.
Proof. induction pss as [|ps pss IH]; intro i; simpl; [reflexivity|]. now rewrite man_assign, IH. Qed.
Lemma length_assign_groups {S} G : forall (pss : list (list (param S))) i, length (assign_groups G i pss) = length pss.
Proof. induction pss as [|ps pss IH]; intro i; simpl; [reflexivity|]. now rewrite IH. Qed.
Lemma man_loop {S} (f : param S -> param S * status) : (forall p, man (fst (f p)) = man p) -> forall ps, map man (fst (loop f ps)) = map man ps.
Proof.
  intro F. induction ps as [|p ps IH]; [reflexivity|]. simpl. specialize (F p). destruct (f p) as [q s]. simpl in F.
  destruct s; simpl; try (now rewrite F). destruct (loop f ps) as [qs s]. simpl in *. now rewrite F, IH.
Qed.
(** The same for sparse parameters. *)
Lemma sassign_forget {S} G : forall (ps : list (sparam S)) i, sassign G i (map sforget ps) = sassign G i ps.
Proof. induction ps as [|p ps IH]; intro i; simpl; [reflexivity|]. now rewrite IH. Qed.
Lemma sassign_groups_forget {S} G : forall (pss : list (list (sparam S))) i, sassign_groups G i (map (map sforget) pss) = sassign_groups G i pss.
Proof. induction pss as [|ps pss IH]; intro i; simpl; [reflexivity|]. now rewrite sassign_forget, map_length, IH. Qed.
Lemma sval_forget {S} (pss : list (list (sparam S))) : map s_val (concat (map (map sforget) pss)) = map s_val (concat pss).
Proof. rewrite <- concat_map, map_map. reflexivity. Qed.
Lemma man_sassign {S} G : forall (ps : list (sparam S)) i, map s_man (sassign G i ps) = map s_man ps.
Proof. induction ps as [|p ps IH]; intro i; simpl; [reflexivity|]. now rewrite IH. Qed.
Lemma man_sassign_groups {S} G : forall (pss : list (list (sparam S))) i, map (map s_man) (sassign_groups G i pss) = map (map s_man) pss.
Proof. induction pss as [|ps pss IH]; intro i; simpl; [reflexivity|]. now rewrite man_sassign, IH. Qed.
Lemma length_sassign_groups {S} G : forall (pss : list (list (sparam S))) i, length (sassign_groups G i pss) = length pss.
Proof. induction pss as [|ps pss IH]; intro i; simpl; [reflexivity|]. now rewrite IH. Qed.
Lemma man_sloop {S} (f : sparam S -> sparam S * status) : (forall p, s_man (fst (f p)) = s_man p) -> forall ps, map s_man (fst (sloop f ps)) = map s_man ps.
Proof.
  intro F. induction ps as [|p ps IH]; [reflexivity|]. simpl. specialize (F p). destruct (f p) as [q s]. simpl in F.
  destruct s; simpl; try (now rewrite F). destruct (sloop f ps) as [qs s]. simpl in *. now rewrite F, IH.
Qed.
Lemma each_map {G A} (f : G -> G * status) (r : G -> A) : (forall g, r (fst (f g)) = r g) -> forall gs, map r (fst (each f gs)) = map r gs.
Proof.
  intro F. induction gs as [|g gs IH]; [reflexivity|]. simpl. specialize (F g). destruct (f g) as [g' s]. simpl in F.
  destruct s; simpl; try (now rewrite F). destruct (each f gs) as [qs s]. simpl in *. now rewrite F, IH.
Qed.
Lemma combine_snd {A B C} (r : A -> B -> C) (q : B -> list (option manifold)) (k : C -> list (option manifold)) : (forall a b, k (r a b) = q b) ->
  forall (o : list A) (l : list B), length l = length o -> map k (map (fun x => r (fst x) (snd x)) (combine o l)) = map q l.
Proof.
  intros K. induction o as [|a o IH]; intros [|b l] L; simpl in *; try discriminate; [reflexivity|]. rewrite K, IH; [reflexivity|lia].
Qed.
(** ** RiemannianSGD *)
Lemma sgd_update_man h p : man (fst (sgd_update h p)) = man p.
Proof. unfold sgd_update. destruct (grad p); try reflexivity. destruct has_momentum; [|reflexivity]. now destruct retr_transp. Qed.
Lemma sgd_stabilize_man h p : man (sgd_stabilize h p) = man p.
Proof. unfold sgd_stabilize. destruct (man p) eqn:E; [reflexivity|exact E]. Qed.
Lemma sgd_group_man g : map man (params (fst (sgd_step_group g))) = map man (params g).
Proof.
  unfold sgd_step_group. generalize (man_loop _ (sgd_update_man (hyp g)) (params g)). destruct loop as [ps s]. simpl. intro E.
  destruct s; try exact E. destruct (stabilize (hyp g)) as [[|N]|]; try exact E. destruct (_ =? _); [|exact E].
  simpl. rewrite map_map, (map_ext _ _ (sgd_stabilize_man (hyp g))). exact E.
Qed.
Lemma train_sgd_man E G : forall n t o, map (fun g => map man (params g)) (fst (train_sgd E G t n o)) = map (fun g => map man (params g)) o.
Proof.
  induction n as [|n IH]; intros t o; [reflexivity|]. simpl.
  match goal with |- context [sgd_step ?x] => set (o2 := x) end.
  assert (M : map (fun g => map man (params g)) (fst (sgd_step o2)) = map (fun g => map man (params g)) o).
  { unfold sgd_step. rewrite (each_map _ _ sgd_group_man). unfold o2.
    rewrite (combine_snd (fun a b => {| hyp := E t (hyp a); steps := steps a; params := b |}) (map man)); [|reflexivity|].
    - etransitivity; [apply man_assign_groups|]. now rewrite map_map.
    - etransitivity; [apply length_assign_groups|]. apply map_length. }
  destruct (sgd_step o2) as [o3 s]. simpl in M. destruct s; try exact M. rewrite IH. exact M.
Qed.
Lemma train_sgd_app E G m : forall n t o o1, train_sgd E G t n o = (o1, Ok) -> train_sgd E G t (n + m) o = train_sgd E G (t + n) m o1.
Proof.
  induction n as [|n IH]; intros t o o1 T; simpl in *.
  - injection T as ->. now rewrite Nat.add_0_r.
  - destruct sgd_step as [o2 s]. destruct s; try discriminate. rewrite (IH _ _ _ T). f_equal. lia.
Qed.
Lemma sgd_forget_step E G t n o : train_sgd E G t (S n) (sgd_groups_of (map (fun g => (fst g, map forget (snd g))) (groups_of_sgd o))) = train_sgd E G t (S n) o.
Proof.
  assert (P : map params (sgd_groups_of (map (fun g => (fst g, map forget (snd g))) (groups_of_sgd o))) = map (map forget) (map params o)).
  { unfold sgd_groups_of, groups_of_sgd. now rewrite !map_map. }
  assert (V : map val (concat (map params (sgd_groups_of (map (fun g => (fst g, map forget (snd g))) (groups_of_sgd o))))) = map val (concat (map params o))) by (rewrite P; apply val_forget).
  assert (A : forall H, assign_groups H 0 (map params (sgd_groups_of (map (fun g => (fst g, map forget (snd g))) (groups_of_sgd o)))) = assign_groups H 0 (map params o)) by (intro; rewrite P; apply assign_groups_forget).
  cbn [train_sgd]. rewrite V, A.
  match goal with |- context [combine o ?l] => generalize l; intro qss end.
  replace (map _ (combine (sgd_groups_of _) qss)) with
    (map (fun x => {| hyp := E t (hyp (fst x)); steps := steps (fst x); params := snd x |}) (combine o qss)); [reflexivity|].
  clear P V A. revert qss. induction o as [|g o IH]; intros [|q qss]; try reflexivity. simpl. f_equal. apply IH.
Qed.
Lemma sgd_resumed E G n m o o1 o' : map (fun g => map man (params g)) o = map (fun g => map man (params g)) o' ->
  train_sgd E G 0 n o = (o1, Ok) ->
  exists r, resume_sgd o1 o' = Some r /\ map val (concat (map params r)) = map val (concat (map params o1)) /\
    train_sgd E G n (S m) r = train_sgd E G 0 (n + S m) o.
Proof.
  intros M T. exists (sgd_groups_of (map (fun g => (fst g, map forget (snd g))) (groups_of_sgd o1))). unfold resume_sgd. rewrite reload_saved.
  - split; [reflexivity|]. split.
    + unfold sgd_groups_of, groups_of_sgd. rewrite !map_map. simpl. rewrite <- (map_map params (map forget)). apply val_forget.
    + rewrite sgd_forget_step, (train_sgd_app _ _ _ _ _ _ _ T). reflexivity.
  - unfold groups_of_sgd. rewrite !map_map. simpl. rewrite <- M.
    rewrite <- (train_sgd_man E G n 0 o), T. reflexivity.
Qed.

(** ** RiemannianAdam *)
Lemma adam_visit_man h p : man (fst (adam_visit h p)) = man p.
Proof.
  assert (U : man (fst (adam_update h p)) = man p).
  { unfold adam_update. destruct (grad p); try reflexivity. destruct (amsgrad h).
    - destruct max_exp_avg_sq; [now destruct retr_transp|reflexivity].
    - now destruct retr_transp. }
  unfold adam_visit. destruct (adam_update h p) as [q s]. simpl in U. destruct s; try exact U.
  destruct (a_stabilize h) as [[|N]|]; try exact U. now destruct (grad q).
Qed.
Lemma adam_stabilize_man p : man (adam_stabilize p) = man p.
Proof. unfold adam_stabilize. destruct (man p) eqn:E; [|exact E]. destruct (state p); [reflexivity|exact E]. Qed.
Lemma adam_group_man g : map man (a_params (fst (adam_step_group g))) = map man (a_params g).
Proof.
  unfold adam_step_group. generalize (man_loop _ (adam_visit_man (a_hyp g)) (a_params g)). destruct loop as [ps s]. simpl. intro E.
  destruct s; try exact E. destruct (a_stabilize (a_hyp g)) as [N|]; try exact E. destruct existsb; [|exact E].
  simpl. rewrite map_map, (map_ext _ _ adam_stabilize_man). exact E.
Qed.
Lemma train_adam_man E G : forall n t o, map (fun g => map man (a_params g)) (fst (train_adam E G t n o)) = map (fun g => map man (a_params g)) o.
Proof.
  induction n as [|n IH]; intros t o; [reflexivity|]. simpl.
  match goal with |- context [adam_step ?x] => set (o2 := x) end.
  assert (M : map (fun g => map man (a_params g)) (fst (adam_step o2)) = map (fun g => map man (a_params g)) o).
  { unfold adam_step. rewrite (each_map _ _ adam_group_man). unfold o2.
    rewrite (combine_snd (fun a b => {| a_hyp := E t (a_hyp a); a_params := b |}) (map man)); [|reflexivity|].
    - etransitivity; [apply man_assign_groups|]. now rewrite map_map.
    - etransitivity; [apply length_assign_groups|]. apply map_length. }
  destruct (adam_step o2) as [o3 s]. simpl in M. destruct s; try exact M. rewrite IH. exact M.
Qed.
Lemma train_adam_app E G m : forall n t o o1, train_adam E G t n o = (o1, Ok) -> train_adam E G t (n + m) o = train_adam E G (t + n) m o1.
Proof.
  induction n as [|n IH]; intros t o o1 T; simpl in *.
  - injection T as ->. now rewrite Nat.add_0_r.
  - destruct adam_step as [o2 s]. destruct s; try discriminate. rewrite (IH _ _ _ T). f_equal. lia.
Qed.
Lemma adam_forget_step E G t n o : train_adam E G t (S n) (adam_groups_of (map (fun g => (fst g, map forget (snd g))) (groups_of_adam o))) = train_adam E G t (S n) o.
Proof.
  assert (P : map a_params (adam_groups_of (map (fun g => (fst g, map forget (snd g))) (groups_of_adam o))) = map (map forget) (map a_params o)).
  { unfold adam_groups_of, groups_of_adam. now rewrite !map_map. }
  assert (V : map val (concat (map a_params (adam_groups_of (map (fun g => (fst g, map forget (snd g))) (groups_of_adam o))))) = map val (concat (map a_params o))) by (rewrite P; apply val_forget).
  assert (A : forall H, assign_groups H 0 (map a_params (adam_groups_of (map (fun g => (fst g, map forget (snd g))) (groups_of_adam o)))) = assign_groups H 0 (map a_params o)) by (intro; rewrite P; apply assign_groups_forget).
  cbn [train_adam]. rewrite V, A.
  match goal with |- context [combine o ?l] => generalize l; intro qss end.
  replace (map _ (combine (adam_groups_of _) qss)) with
    (map (fun x => {| a_hyp := E t (a_hyp (fst x)); a_params := snd x |}) (combine o qss)); [reflexivity|].
  clear P V A. revert qss. induction o as [|g o IH]; intros [|q qss]; try reflexivity. simpl. f_equal. apply IH.
Qed.
Lemma adam_resumed E G n m o o1 o' : map (fun g => map man (a_params g)) o = map (fun g => map man (a_params g)) o' ->
  train_adam E G 0 n o = (o1, Ok) ->
  exists r, resume_adam o1 o' = Some r /\ map val (concat (map a_params r)) = map val (concat (map a_params o1)) /\
    train_adam E G n (S m) r = train_adam E G 0 (n + S m) o.
Proof.
  intros M T. exists (adam_groups_of (map (fun g => (fst g, map forget (snd g))) (groups_of_adam o1))). unfold resume_adam. rewrite reload_saved.
  - split; [reflexivity|]. split.
    + unfold adam_groups_of, groups_of_adam. rewrite !map_map. simpl. rewrite <- (map_map a_params (map forget)). apply val_forget.
    + rewrite adam_forget_step, (train_adam_app _ _ _ _ _ _ _ T). reflexivity.
  - unfold groups_of_adam. rewrite !map_map. simpl. rewrite <- M.
    rewrite <- (train_adam_man E G n 0 o), T. reflexivity.
Qed.
(** ** SparseRiemannianSGD *)
Lemma ssgd_update_man h p : s_man (fst (ssgd_update h p)) = s_man p.
Proof. unfold ssgd_update. destruct (s_grad p); try reflexivity. now destruct has_momentum. Qed.
Lemma ssgd_stabilize_man h p : s_man (ssgd_stabilize h p) = s_man p.
Proof. unfold ssgd_stabilize. destruct (s_man p) eqn:E; [reflexivity|exact E]. Qed.
Lemma ssgd_group_man g : map s_man (s_params (fst (ssgd_step_group g))) = map s_man (s_params g).
Proof.
  unfold ssgd_step_group. generalize (man_sloop _ (ssgd_update_man (s_hyp g)) (s_params g)). destruct sloop as [ps s]. simpl. intro E.
  destruct s; try exact E. destruct (stabilize (s_hyp g)) as [[|N]|]; try exact E. destruct (_ =? _); [|exact E].
  simpl. rewrite map_map, (map_ext _ _ (ssgd_stabilize_man (s_hyp g))). exact E.
Qed.
Lemma train_ssgd_man E G : forall n t o, map (fun g => map s_man (s_params g)) (fst (train_ssgd E G t n o)) = map (fun g => map s_man (s_params g)) o.
Proof.
  induction n as [|n IH]; intros t o; [reflexivity|]. simpl.
  match goal with |- context [ssgd_step ?x] => set (o2 := x) end.
  assert (M : map (fun g => map s_man (s_params g)) (fst (ssgd_step o2)) = map (fun g => map s_man (s_params g)) o).
  { unfold ssgd_step. rewrite (each_map _ _ ssgd_group_man). unfold o2.
    rewrite (combine_snd (fun a b => {| s_hyp := E t (s_hyp a); s_steps := s_steps a; s_params := b |}) (map s_man)); [|reflexivity|].
    - etransitivity; [apply man_sassign_groups|]. now rewrite map_map.
    - etransitivity; [apply length_sassign_groups|]. apply map_length. }
  destruct (ssgd_step o2) as [o3 s]. simpl in M. destruct s; try exact M. rewrite IH. exact M.
Qed.
Lemma train_ssgd_app E G m : forall n t o o1, train_ssgd E G t n o = (o1, Ok) -> train_ssgd E G t (n + m) o = train_ssgd E G (t + n) m o1.
Proof.
  induction n as [|n IH]; intros t o o1 T; simpl in *.
  - injection T as ->. now rewrite Nat.add_0_r.
  - destruct ssgd_step as [o2 s]. destruct s; try discriminate. rewrite (IH _ _ _ T). f_equal. lia.
Qed.
Lemma ssgd_forget_step E G t n o : train_ssgd E G t (S n) (ssgd_groups_of (map (fun g => (fst g, map sforget (snd g))) (groups_of_ssgd o))) = train_ssgd E G t (S n) o.
Proof.
  assert (P : map s_params (ssgd_groups_of (map (fun g => (fst g, map sforget (snd g))) (groups_of_ssgd o))) = map (map sforget) (map s_params o)).
  { unfold ssgd_groups_of, groups_of_ssgd. now rewrite !map_map. }
  assert (V : map s_val (concat (map s_params (ssgd_groups_of (map (fun g => (fst g, map sforget (snd g))) (groups_of_ssgd o))))) = map s_val (concat (map s_params o))) by (rewrite P; apply sval_forget).
  assert (A : forall H, sassign_groups H 0 (map s_params (ssgd_groups_of (map (fun g => (fst g, map sforget (snd g))) (groups_of_ssgd o)))) = sassign_groups H 0 (map s_params o)) by (intro; rewrite P; apply sassign_groups_forget).
  cbn [train_ssgd]. rewrite V, A.
  match goal with |- context [combine o ?l] => generalize l; intro qss end.
  replace (map _ (combine (ssgd_groups_of _) qss)) with
    (map (fun x => {| s_hyp := E t (s_hyp (fst x)); s_steps := s_steps (fst x); s_params := snd x |}) (combine o qss)); [reflexivity|].
  clear P V A. revert qss. induction o as [|g o IH]; intros [|q qss]; try reflexivity. simpl. f_equal. apply IH.
Qed.
Lemma ssgd_resumed E G n m o o1 o' : map (fun g => map s_man (s_params g)) o = map (fun g => map s_man (s_params g)) o' ->
  train_ssgd E G 0 n o = (o1, Ok) ->
  exists r, resume_ssgd o1 o' = Some r /\ map s_val (concat (map s_params r)) = map s_val (concat (map s_params o1)) /\
    train_ssgd E G n (S m) r = train_ssgd E G 0 (n + S m) o.
Proof.
  intros M T. exists (ssgd_groups_of (map (fun g => (fst g, map sforget (snd g))) (groups_of_ssgd o1))). unfold resume_ssgd. rewrite sreload_saved.
  - split; [reflexivity|]. split.
    + unfold ssgd_groups_of, groups_of_ssgd. rewrite !map_map. simpl. rewrite <- (map_map s_params (map sforget)). apply sval_forget.
    + rewrite ssgd_forget_step, (train_ssgd_app _ _ _ _ _ _ _ T). reflexivity.
  - unfold groups_of_ssgd. rewrite !map_map. simpl. rewrite <- M.
    rewrite <- (train_ssgd_man E G n 0 o), T. reflexivity.
Qed.

(** ** SparseRiemannianAdam *)
Lemma sadam_visit_man h p : s_man (fst (sadam_visit h p)) = s_man p.
Proof.
  assert (U : s_man (fst (sadam_update h p)) = s_man p).
  { unfold sadam_update. destruct (s_grad p); try reflexivity. destruct (amsgrad h); [|reflexivity]. now destruct s_max. }
  unfold sadam_visit. destruct (sadam_update h p) as [q s]. simpl in U. destruct s; try exact U.
  destruct (a_stabilize h) as [[|N]|]; try exact U. now destruct (s_grad q).
Qed.
Lemma sadam_stabilize_man p : s_man (sadam_stabilize p) = s_man p.
Proof. unfold sadam_stabilize. destruct (s_man p) eqn:E; [|exact E]. destruct (s_state p); [reflexivity|exact E]. Qed.
Lemma sadam_group_man g : map s_man (sa_params (fst (sadam_step_group g))) = map s_man (sa_params g).
Proof.
  unfold sadam_step_group. generalize (man_sloop _ (sadam_visit_man (sa_hyp g)) (sa_params g)). destruct sloop as [ps s]. simpl. intro E.
  destruct s; try exact E. destruct (a_stabilize (sa_hyp g)) as [N|]; try exact E. destruct existsb; [|exact E].
  simpl. rewrite map_map, (map_ext _ _ sadam_stabilize_man). exact E.
Qed.
Lemma train_sadam_man E G : forall n t o, map (fun g => map s_man (sa_params g)) (fst (train_sadam E G t n o)) = map (fun g => map s_man (sa_params g)) o.
Proof.
  induction n as [|n IH]; intros t o; [reflexivity|]. simpl.
  match goal with |- context [sadam_step ?x] => set (o2 := x) end.
  assert (M : map (fun g => map s_man (sa_params g)) (fst (sadam_step o2)) = map (fun g => map s_man (sa_params g)) o).
  { unfold sadam_step. rewrite (each_map _ _ sadam_group_man). unfold o2.
    rewrite (combine_snd (fun a b => {| sa_hyp := E t (sa_hyp a); sa_params := b |}) (map s_man)); [|reflexivity|].
    - etransitivity; [apply man_sassign_groups|]. now rewrite map_map.
    - etransitivity; [apply length_sassign_groups|]. apply map_length. }
  destruct (sadam_step o2) as [o3 s]. simpl in M. destruct s; try exact M. rewrite IH. exact M.
Qed.
Lemma train_sadam_app E G m : forall n t o o1, train_sadam E G t n o = (o1, Ok) -> train_sadam E G t (n + m) o = train_sadam E G (t + n) m o1.
Proof.
  induction n as [|n IH]; intros t o o1 T; simpl in *.
  - injection T as ->. now rewrite Nat.add_0_r.
  - destruct sadam_step as [o2 s]. destruct s; try discriminate. rewrite (IH _ _ _ T). f_equal. lia.
Qed.
Lemma sadam_forget_step E G t n o : train_sadam E G t (S n) (sadam_groups_of (map (fun g => (fst g, map sforget (snd g))) (groups_of_sadam o))) = train_sadam E G t (S n) o.
Proof.
  assert (P : map sa_params (sadam_groups_of (map (fun g => (fst g, map sforget (snd g))) (groups_of_sadam o))) = map (map sforget) (map sa_params o)).
  { unfold sadam_groups_of, groups_of_sadam. now rewrite !map_map. }
  assert (V : map s_val (concat (map sa_params (sadam_groups_of (map (fun g => (fst g, map sforget (snd g))) (groups_of_sadam o))))) = map s_val (concat (map sa_params o))) by (rewrite P; apply sval_forget).
  assert (A : forall H, sassign_groups H 0 (map sa_params (sadam_groups_of (map (fun g => (fst g, map sforget (snd g))) (groups_of_sadam o)))) = sassign_groups H 0 (map sa_params o)) by (intro; rewrite P; apply sassign_groups_forget).
  cbn [train_sadam]. rewrite V, A.
  match goal with |- context [combine o ?l] => generalize l; intro qss end.
  replace (map _ (combine (sadam_groups_of _) qss)) with
    (map (fun x => {| sa_hyp := E t (sa_hyp (fst x)); sa_params := snd x |}) (combine o qss)); [reflexivity|].
  clear P V A. revert qss. induction o as [|g o IH]; intros [|q qss]; try reflexivity. simpl. f_equal. apply IH.
Qed.
Lemma sadam_resumed E G n m o o1 o' : map (fun g => map s_man (sa_params g)) o = map (fun g => map s_man (sa_params g)) o' ->
  train_sadam E G 0 n o = (o1, Ok) ->
  exists r, resume_sadam o1 o' = Some r /\ map s_val (concat (map sa_params r)) = map s_val (concat (map sa_params o1)) /\
    train_sadam E G n (S m) r = train_sadam E G 0 (n + S m) o.
Proof.
  intros M T. exists (sadam_groups_of (map (fun g => (fst g, map sforget (snd g))) (groups_of_sadam o1))). unfold resume_sadam. rewrite sreload_saved.
  - split; [reflexivity|]. split.
    + unfold sadam_groups_of, groups_of_sadam. rewrite !map_map. simpl. rewrite <- (map_map sa_params (map sforget)). apply sval_forget.
    + rewrite sadam_forget_step, (train_sadam_app _ _ _ _ _ _ _ T). reflexivity.
  - unfold groups_of_sadam. rewrite !map_map. simpl. rewrite <- M.
    rewrite <- (train_sadam_man E G n 0 o), T. reflexivity.
Qed.
