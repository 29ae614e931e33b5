(** Lemmas about packing and component-wise operations. *)
From Coq Require Import List Bool Arith Lia.
From Verif Require Import BaseModel ProductModel ProductSpec.
Import ListNotations.
Local Open Scope nat_scope.

Lemma fold_left_mul s a : fold_left Nat.mul s a = a * fold_right Nat.mul 1 s.
Proof. revert a. induction s as [|x s IH]; intro a; simpl; [lia|]. rewrite IH. lia. Qed.
Lemma size_eq s : size s = fold_right Nat.mul 1 s.
Proof. unfold size. rewrite fold_left_mul. lia. Qed.
Lemma size_app a b : size (a ++ b) = size a * size b.
Proof. rewrite !size_eq. induction a as [|x a IH]; simpl; lia. Qed.
Lemma size_single a : size [a] = a.
Proof. rewrite size_eq. simpl. lia. Qed.
Lemma size_nonempty s : ~ In 0 s <-> size s <> 0.
Proof.
  rewrite size_eq. induction s as [|x s IH]; simpl; [lia|]. split; intros H.
  - intros E. apply Nat.eq_mul_0 in E. destruct E; subst; tauto.
  - intros [->|E]; [lia|]. apply IH; auto. intro E'. rewrite E' in H. lia.
Qed.
Lemma wf_size {A} (t : tensor A) : wf t <-> List.length (t_data t) = size (t_shape t).
Proof. unfold wf. now rewrite size_eq. Qed.

(** rows *)
Section Rows.
  Context {A : Type}.
  Implicit Type l : list A.
  Lemma rows_length k n l : List.length (rows k n l) = k.
  Proof. revert l. induction k; intro; simpl; auto. Qed.
  Lemma rows_concat k n l : List.length l = k * n -> concat (rows k n l) = l.
  Proof.
    revert l. induction k; intros l H; simpl in *.
    - now destruct l.
    - rewrite IHk. apply firstn_skipn. rewrite skipn_length. lia.
  Qed.
  Lemma rows_all k n l : List.length l = k * n -> Forall (fun r => List.length r = n) (rows k n l).
  Proof.
    revert l. induction k; intros l H; simpl in *; constructor.
    - rewrite firstn_length. lia.
    - apply IHk. rewrite skipn_length. lia.
  Qed.
  Lemma rows_of_concat n rs : Forall (fun r : list A => List.length r = n) rs ->
    rows (List.length rs) n (concat rs) = rs.
  Proof.
    induction 1; simpl; auto. f_equal.
    - rewrite <- H. rewrite firstn_app, firstn_all, Nat.sub_diag. simpl. apply app_nil_r.
    - rewrite <- H, skipn_app, skipn_all, Nat.sub_diag. simpl. now rewrite H.
  Qed.
  Lemma skipn_skipn a b l : skipn a (skipn b l) = skipn (b + a) l.
  Proof. revert l. induction b; intro l; simpl; auto. destruct l; simpl; auto. now rewrite skipn_nil. Qed.
  Lemma rows_nth k n l i : i < k -> nth i (rows k n l) [] = firstn n (skipn (i * n) l).
  Proof.
    revert l i. induction k; intros l i H; [lia|]. simpl. destruct i; simpl; auto.
    rewrite IHk by lia. now rewrite skipn_skipn.
  Qed.
  Lemma concat_length_const n rs : Forall (fun r : list A => List.length r = n) rs ->
    List.length (concat rs) = List.length rs * n.
  Proof. induction 1; simpl; auto. rewrite app_length. lia. Qed.
End Rows.

Lemma map_nth_seq {A} (d : A) l : map (fun i => nth i l d) (seq 0 (List.length l)) = l.
Proof.
  induction l; simpl; auto. f_equal. rewrite <- seq_shift, map_map. exact IHl.
Qed.

(** slices *)
Lemma slices_from_nth p shapes i : i < List.length shapes ->
  nth i (slices_from p shapes) (0, 0) =
  (p + list_sum (map size (firstn i shapes)), p + list_sum (map size (firstn (S i) shapes))).
Proof.
  revert p i. induction shapes as [|s r IH]; intros p i H; [simpl in H; lia|].
  destruct i; simpl.
  - f_equal; lia.
  - simpl in H. rewrite IH by lia. simpl. f_equal; lia.
Qed.
Lemma end_from_sum p shapes : end_from p shapes = p + list_sum (map size shapes).
Proof. revert p. induction shapes; intro p; simpl; [lia|]. rewrite IHshapes. lia. Qed.
Lemma n_elements_sum shapes : n_elements shapes = list_sum (map size shapes).
Proof. unfold n_elements. now rewrite end_from_sum. Qed.

Lemma slices_partition_from p shapes :
  concat (map (fun '(a, b) => seq a (b - a)) (slices_from p shapes)) = seq p (list_sum (map size shapes)).
Proof.
  revert p. induction shapes as [|s r IH]; intro p; simpl; auto.
  rewrite IH. replace (p + size s - p) with (size s) by lia. now rewrite <- seq_app.
Qed.
Lemma slices_partition shapes :
  concat (map (fun '(a, b) => seq a (b - a)) (slices shapes)) = seq 0 (n_elements shapes).
Proof. rewrite n_elements_sum. apply slices_partition_from. Qed.
Lemma slices_length shapes : List.length (slices shapes) = List.length shapes.
Proof. unfold slices. generalize 0. induction shapes; intro; simpl; auto. Qed.

Definition slice_of {A} (shapes : list (list nat)) (i : nat) (r : list A) : list A :=
  firstn (snd (nth i (slices shapes) (0,0)) - fst (nth i (slices shapes) (0,0)))
         (skipn (fst (nth i (slices shapes) (0,0))) r).

Lemma list_sum_firstn_S l i : i < List.length l ->
  list_sum (firstn (S i) l) = list_sum (firstn i l) + nth i l 0.
Proof.
  revert i. induction l as [|a l IH]; intros i H; simpl in *; [lia|].
  destruct i; simpl; [lia|]. rewrite <- Nat.add_assoc, <- IH by lia. reflexivity.
Qed.

Lemma slice_width shapes i : i < List.length shapes ->
  snd (nth i (slices shapes) (0,0)) - fst (nth i (slices shapes) (0,0)) = size (nth i shapes []).
Proof.
  intros H. unfold slices. rewrite slices_from_nth by auto. cbn [fst snd].
  rewrite <- !firstn_map, list_sum_firstn_S by now rewrite map_length.
  rewrite (nth_indep _ 0 (size [])) by now rewrite map_length.
  rewrite map_nth. lia.
Qed.

Lemma slice_piece {A} shapes (ps : list (list A)) i :
  Forall2 (fun p s => List.length p = size s) ps shapes -> i < List.length shapes ->
  slice_of shapes i (concat ps) = nth i ps [].
Proof.
  intros F H. unfold slice_of. rewrite slice_width by auto.
  unfold slices. rewrite slices_from_nth by auto. cbn [fst]. simpl.
  revert i H. induction F as [|p s ps shapes E F IH]; intros i H; [simpl in H; lia|].
  destruct i; simpl.
  - rewrite firstn_app, <- E, firstn_all, Nat.sub_diag. simpl. apply app_nil_r.
  - simpl in H. rewrite skipn_app. rewrite (skipn_all2 p) by lia. simpl.
    replace (size s + list_sum (map size (firstn i shapes)) - List.length p)
      with (list_sum (map size (firstn i shapes))) by lia.
    apply IH. lia.
Qed.

Lemma concat_slices {A} shapes (r : list A) : List.length r = n_elements shapes ->
  concat (map (fun i => slice_of shapes i r) (seq 0 (List.length shapes))) = r.
Proof.
  intros H.
  (* cut r into pieces *)
  assert (G : exists ps, Forall2 (fun p s => List.length p = size s) ps shapes /\ concat ps = r).
  { rewrite n_elements_sum in H. clear - H. revert r H. induction shapes as [|s l IH]; intros r H; simpl in H.
    - exists []. split; [constructor|]. now destruct r.
    - destruct (IH (skipn (size s) r)) as (ps & F & E); [rewrite skipn_length; lia|].
      exists (firstn (size s) r :: ps). split.
      + constructor; auto. rewrite firstn_length. lia.
      + simpl. rewrite E. apply firstn_skipn. }
  destruct G as (ps & F & <-).
  assert (L : List.length ps = List.length shapes) by (clear - F; induction F; simpl; auto).
  f_equal. transitivity (map (fun i => nth i ps []) (seq 0 (List.length ps))); [|apply map_nth_seq]. rewrite L.
  apply map_ext_in. intros i Hi. apply in_seq in Hi. apply slice_piece; auto. lia.
Qed.

(** take *)
Lemma removelast_snoc {A} (l : list A) a : removelast (l ++ [a]) = l.
Proof. apply removelast_last. Qed.

Lemma take_eq {A} shapes (x : tensor A) i batch n :
  t_shape x = batch ++ [n] -> i < List.length shapes ->
  take A shapes x i true =
  mk (batch ++ nth i shapes []) (concat (map (slice_of shapes i) (rows (size batch) n (t_data x)))).
Proof.
  intros E H. unfold take. destruct (nth i (slices shapes) (0, 0)) as [a b] eqn:S.
  unfold narrow_last, reshape. cbn [t_shape t_data].
  rewrite E, !removelast_snoc, last_last. f_equal. f_equal.
  apply map_ext. intro r. unfold slice_of. now rewrite S.
Qed.

Lemma slice_length {A} shapes i (r : list A) : i < List.length shapes ->
  List.length r = n_elements shapes -> List.length (slice_of shapes i r) = size (nth i shapes []).
Proof.
  intros H L. unfold slice_of. rewrite slice_width by auto. rewrite firstn_length, skipn_length, L.
  unfold slices. rewrite slices_from_nth by auto. cbn [fst]. rewrite n_elements_sum. simpl.
  apply Nat.min_l.
  rewrite <- (firstn_skipn i shapes) at 2. rewrite map_app, list_sum_app.
  destruct (skipn i shapes) as [|s r'] eqn:E.
  - exfalso. assert (List.length (skipn i shapes) = 0) by now rewrite E. rewrite skipn_length in H0. lia.
  - simpl. assert (nth i shapes [] = s).
    { rewrite <- (firstn_skipn i shapes), app_nth2; rewrite firstn_length; [|lia].
      rewrite E. replace (i - Nat.min i (List.length shapes)) with 0 by lia. reflexivity. }
    rewrite H0. lia.
Qed.

Lemma take_wf {A} shapes (x : tensor A) i batch :
  has_shape x (batch ++ [n_elements shapes]) -> i < List.length shapes ->
  has_shape (take A shapes x i true) (batch ++ nth i shapes []).
Proof.
  intros [E W] H. rewrite (take_eq _ _ _ _ _ E H). split; auto. apply wf_size. cbn [t_data t_shape].
  apply wf_size in W. rewrite E, size_app, size_single in W.
  rewrite (concat_length_const (size (nth i shapes []))).
  - rewrite map_length, rows_length, size_app. reflexivity.
  - rewrite Forall_map. eapply Forall_impl; [|apply rows_all; exact W].
    intros r Hr. simpl in *. apply slice_length; auto.
Qed.

Definition flat {A} (batch s : list nat) (t : tensor A) : tensor A := mk (batch ++ [size s]) (t_data t).

Lemma reshape_infer_flat {A} (t : tensor A) batch s : nonempty batch -> has_shape t (batch ++ s) ->
  reshape_infer t batch = Returns (flat batch s t).
Proof.
  intros N [E W]. unfold reshape_infer. apply size_nonempty in N.
  destruct (Nat.eqb_spec (size batch) 0); [congruence|]. unfold reshape, flat. do 4 f_equal.
  apply wf_size in W. rewrite W, E, size_app, Nat.mul_comm. now apply Nat.div_mul.
Qed.

Lemma tail_of_app b s : tail_of (List.length s) (b ++ s) = s.
Proof.
  unfold tail_of. rewrite app_length. replace (List.length b + List.length s - List.length s) with (List.length b) by lia.
  rewrite skipn_app, skipn_all, Nat.sub_diag. reflexivity.
Qed.
Lemma head_of_app b s : head_of (List.length s) (b ++ s) = b.
Proof.
  unfold head_of. rewrite app_length. replace (List.length b + List.length s - List.length s) with (List.length b) by lia.
  rewrite firstn_app, firstn_all, Nat.sub_diag. simpl. apply app_nil_r.
Qed.

Lemma flatten_part_flat {A} (t : tensor A) batch s : nonempty batch -> has_shape t (batch ++ s) ->
  flatten_part A t s = Returns (flat batch s t).
Proof.
  intros N H. unfold flatten_part. destruct (Nat.ltb_spec 0 (List.length s)) as [L|L].
  - destruct H as [E W]. rewrite E, tail_of_app, head_of_app.
    destruct (list_eq_dec Nat.eq_dec s s); [|congruence]. apply reshape_infer_flat; auto. now split.
  - assert (s = []) by (destruct s; simpl in L; auto; lia). subst.
    destruct H as [E W]. rewrite app_nil_r in E. rewrite E. apply reshape_infer_flat; auto.
    split; auto. now rewrite app_nil_r.
Qed.

Lemma flatten_result_flat {A} (t : tensor A) batch s : nonempty batch -> has_shape t (batch ++ s) ->
  flatten_result A (List.length batch) t = Returns (flat batch s t).
Proof.
  intros N H. unfold flatten_result. replace (firstn (List.length batch) (t_shape t)) with batch.
  - now apply reshape_infer_flat.
  - destruct H as [-> _]. now rewrite firstn_app, firstn_all, Nat.sub_diag, app_nil_r.
Qed.

(** traverse *)
Lemma traverse_returns {A B} (f : A -> outcome B) l bs :
  Forall2 (fun a b => f a = Returns b) l bs -> traverse f l = Returns bs.
Proof. induction 1; simpl; auto. now rewrite H, IHForall2. Qed.
Lemma traverse_inv {A B} (f : A -> outcome B) l bs :
  traverse f l = Returns bs -> Forall2 (fun a b => f a = Returns b) l bs.
Proof.
  revert bs. induction l as [|a l IH]; simpl; intros bs H.
  - injection H as <-. constructor.
  - destruct (f a) eqn:E; try discriminate. destruct (traverse f l) eqn:E'; try discriminate.
    injection H as <-. constructor; auto.
Qed.
Lemma F2_length {A B} (R : A -> B -> Prop) l l' : Forall2 R l l' -> List.length l = List.length l'.
Proof. induction 1; simpl; auto. Qed.
Lemma F2_nth {A B} (R : A -> B -> Prop) l l' i a b : Forall2 R l l' -> i < List.length l ->
  R (nth i l a) (nth i l' b).
Proof.
  intros F. revert i. induction F; intros i Hi; simpl in *; [lia|]. destruct i; auto. apply IHF. lia.
Qed.
Lemma F2_intro {A B} (R : A -> B -> Prop) l l' a b : List.length l = List.length l' ->
  (forall i, i < List.length l -> R (nth i l a) (nth i l' b)) -> Forall2 R l l'.
Proof.
  revert l'. induction l as [|x l IH]; intros [|y l'] E H; try discriminate; constructor.
  - apply (H 0). simpl. lia.
  - apply IH; [auto|]. intros i Hi. apply (H (S i)). simpl. lia.
Qed.

Definition flats {A} batch (shapes : list (list nat)) (parts : list (tensor A)) :=
  map (fun '(t, s) => flat batch s t) (combine parts shapes).

Lemma traverse_flatten_parts {A} batch shapes (parts : list (tensor A)) :
  nonempty batch -> parts_of batch shapes parts ->
  traverse (fun '(t, s) => flatten_part A t s) (combine parts shapes) = Returns (flats batch shapes parts).
Proof.
  intros N F. apply traverse_returns. unfold flats. induction F; simpl; constructor; auto.
  now apply flatten_part_flat.
Qed.
Lemma traverse_flatten_results {A} batch shapes (parts : list (tensor A)) :
  nonempty batch -> parts_of batch shapes parts ->
  traverse (flatten_result A (List.length batch)) parts = Returns (flats batch shapes parts).
Proof.
  intros N F. apply traverse_returns. unfold flats. induction F; simpl; constructor; auto.
  now apply flatten_result_flat.
Qed.

Definition joined {A} batch (shapes : list (list nat)) (parts : list (tensor A)) : tensor A :=
  mk (batch ++ [n_elements shapes])
     (concat (cat_rows (size batch)
        (map (fun '(t, s) => rows (size batch) (size s) (t_data t)) (combine parts shapes)))).

Lemma cat_flats {A} batch shapes (parts : list (tensor A)) : shapes <> [] ->
  parts_of batch shapes parts -> cat_last (flats batch shapes parts) = Returns (joined batch shapes parts).
Proof.
  intros N F. unfold cat_last.
  assert (Hd : exists p r, flats batch shapes parts = p :: r /\ removelast (t_shape p) = batch).
  { destruct F; [congruence|]. unfold flats. simpl. do 2 eexists. split; [reflexivity|].
    simpl. apply removelast_snoc. }
  destruct Hd as (p & r & E & Eb). rewrite E at 1. cbv zeta. rewrite Eb.
  assert (Fb : forallb (fun q => if list_eq_dec Nat.eq_dec (removelast (t_shape q)) batch then true else false)
                 (flats batch shapes parts) = true).
  { apply forallb_forall. intros q Hq. unfold flats in Hq. apply in_map_iff in Hq.
    destruct Hq as ([t s] & <- & _). simpl. rewrite removelast_snoc. now destruct (list_eq_dec _ batch batch). }
  rewrite Fb. unfold joined. f_equal. f_equal.
  - f_equal. f_equal. rewrite n_elements_sum. clear -F. unfold flats. rewrite map_map.
    induction F; simpl; auto. rewrite last_last. now f_equal.
  - f_equal. f_equal. unfold flats. rewrite map_map. apply map_ext. intros [t s]. simpl. now rewrite last_last.
Qed.

Lemma pack_joined {A} batch shapes (parts : list (tensor A)) : shapes <> [] -> nonempty batch ->
  parts_of batch shapes parts -> pack_point A shapes parts = Returns (joined batch shapes parts).
Proof.
  intros Ns N F. unfold pack_point. rewrite (F2_length _ _ _ F), Nat.eqb_refl.
  rewrite (traverse_flatten_parts batch) by auto. simpl. now apply cat_flats.
Qed.

Lemma pieces_row {A} batch shapes (parts : list (tensor A)) i :
  parts_of batch shapes parts -> i < size batch ->
  Forall2 (fun p s => List.length p = size s)
    (map (fun '(t, s) => nth i (rows (size batch) (size s) (t_data t)) []) (combine parts shapes)) shapes.
Proof.
  intros F H. induction F; simpl; constructor; auto.
  destruct H0 as [E W]. apply wf_size in W. rewrite E, size_app in W.
  pose proof (rows_all _ _ _ W) as Fa. rewrite Forall_forall in Fa. apply Fa. apply nth_In. now rewrite rows_length.
Qed.

Lemma cat_rows_all {A} batch shapes (parts : list (tensor A)) :
  parts_of batch shapes parts ->
  Forall (fun r => List.length r = n_elements shapes)
    (cat_rows (size batch) (map (fun '(t, s) => rows (size batch) (size s) (t_data t)) (combine parts shapes))).
Proof.
  intros F. unfold cat_rows. rewrite Forall_map. apply Forall_forall. intros i Hi. apply in_seq in Hi.
  rewrite map_map. rewrite n_elements_sum.
  pose proof (pieces_row batch shapes parts i F ltac:(lia)) as P.
  clear -P. 
  revert P. generalize (combine parts shapes). intros l P.
  remember (map (fun '(t, s) => nth i (rows (size batch) (size s) (t_data t)) []) l) as ps eqn:E.
  replace (map (fun x : tensor A * list nat => nth i (let '(t, s) := x in rows (size batch) (size s) (t_data t)) []) l) with ps
    by (rewrite E; apply map_ext; intros [t s]; reflexivity).
  clear E. induction P; simpl; auto. rewrite app_length. lia.
Qed.

Lemma joined_wf {A} batch shapes (parts : list (tensor A)) :
  parts_of batch shapes parts -> has_shape (joined batch shapes parts) (batch ++ [n_elements shapes]).
Proof.
  intros F. split; auto. apply wf_size. unfold joined. cbn [t_data t_shape].
  rewrite (concat_length_const (n_elements shapes)) by now apply cat_rows_all.
  unfold cat_rows. now rewrite map_length, seq_length, size_app, size_single.
Qed.

Lemma cat_rows_length {A} k (ps : list (list (list A))) : List.length (cat_rows k ps) = k.
Proof. unfold cat_rows. now rewrite map_length, seq_length. Qed.

Lemma take_joined {A} batch shapes (parts : list (tensor A)) i d :
  parts_of batch shapes parts -> i < List.length shapes ->
  take A shapes (joined batch shapes parts) i true = nth i parts d.
Proof.
  intros F H. rewrite (take_eq _ _ _ batch (n_elements shapes)) by auto.
  assert (Hp : has_shape (nth i parts d) (batch ++ nth i shapes [])).
  { apply (F2_nth _ _ _ i d [] F). rewrite (F2_length _ _ _ F). auto. }
  destruct Hp as [E W]. destruct (nth i parts d) as [sh data] eqn:Et. cbn [t_shape t_data] in *. subst sh. f_equal.
  unfold joined. cbn [t_data].
  set (C := cat_rows _ _).
  assert (Lc : List.length C = size batch) by apply cat_rows_length.
  rewrite <- Lc, rows_of_concat by (apply cat_rows_all; auto).
  apply wf_size in W. cbn [t_data t_shape] in W. rewrite size_app in W.
  rewrite <- (rows_concat (size batch) (size (nth i shapes [])) data) by auto. f_equal.
  rewrite <- (map_nth_seq [] (rows (size batch) (size (nth i shapes [])) data)), rows_length.
  unfold C, cat_rows. rewrite map_map. apply map_ext_in. intros r Hr. apply in_seq in Hr.
  rewrite map_map.
  pose proof (pieces_row batch shapes parts r F ltac:(lia)) as P.
  replace (map (fun x : tensor A * list nat => nth r (let '(t, s) := x in rows (size batch) (size s) (t_data t)) []) (combine parts shapes))
    with (map (fun '(t, s) => nth r (rows (size batch) (size s) (t_data t)) []) (combine parts shapes))
    by (apply map_ext; intros [t s]; reflexivity).
  rewrite (slice_piece shapes _ i P H).
  set (g := fun '(t, s) => nth r (rows (size batch) (size s) (t_data t)) []).
  rewrite (nth_indep _ [] (g (mk [] [], []))) by (rewrite map_length, combine_length, (F2_length _ _ _ F); lia).
  rewrite map_nth. rewrite combine_nth by now rewrite (F2_length _ _ _ F).
  unfold g. rewrite (nth_indep _ (mk [] []) d) by (rewrite (F2_length _ _ _ F); auto).
  now rewrite Et.
Qed.

Lemma unpack_joined {A} batch shapes (parts : list (tensor A)) :
  parts_of batch shapes parts -> unpack_tensor A shapes (joined batch shapes parts) = parts.
Proof.
  intros F. unfold unpack_tensor. rewrite <- (F2_length _ _ _ F) at 1.
  transitivity (map (fun i => nth i parts (mk [] [])) (seq 0 (List.length parts))); [|apply map_nth_seq].
  apply map_ext_in. intros i Hi. apply in_seq in Hi.
  rewrite (F2_length _ _ _ F) in Hi. apply take_joined; auto. lia.
Qed.

Lemma unpack_pack {A} batch shapes (parts : list (tensor A)) : shapes <> [] -> nonempty batch ->
  parts_of batch shapes parts ->
  exists x, pack_point A shapes parts = Returns x /\ has_shape x (batch ++ [n_elements shapes]) /\
            unpack_tensor A shapes x = parts.
Proof.
  intros Ns N F. exists (joined batch shapes parts). split; [now apply pack_joined|].
  split; [now apply joined_wf|now apply unpack_joined].
Qed.

Lemma unpack_parts {A} batch shapes (x : tensor A) : has_shape x (batch ++ [n_elements shapes]) ->
  parts_of batch shapes (unpack_tensor A shapes x).
Proof.
  intros H. apply (F2_intro _ _ _ (take A shapes x 0 true) []).
  - unfold unpack_tensor. now rewrite map_length, seq_length.
  - unfold unpack_tensor. rewrite map_length, seq_length. intros i Hi.
    rewrite (map_nth (fun i => take A shapes x i true)), seq_nth by auto. simpl.
    now apply take_wf.
Qed.

Lemma unpack_inj {A} batch shapes (x y : tensor A) :
  has_shape x (batch ++ [n_elements shapes]) -> has_shape y (batch ++ [n_elements shapes]) ->
  unpack_tensor A shapes x = unpack_tensor A shapes y -> x = y.
Proof.
  intros Hx Hy E.
  assert (G : forall z : tensor A, has_shape z (batch ++ [n_elements shapes]) ->
     t_data z = concat (cat_rows (size batch) (map (fun t => rows (size batch) (List.length (t_data t) / size batch) (t_data t)) (unpack_tensor A shapes z)))).
  { intros z [Ez Wz]. apply wf_size in Wz. rewrite Ez, size_app, size_single in Wz.
    rewrite <- (rows_concat (size batch) (n_elements shapes) (t_data z)) at 1 by auto. f_equal.
    rewrite <- (map_nth_seq [] (rows (size batch) (n_elements shapes) (t_data z))), rows_length.
    unfold cat_rows. apply map_ext_in. intros r Hr. apply in_seq in Hr.
    set (row := nth r (rows (size batch) (n_elements shapes) (t_data z)) []).
    assert (Lr : List.length row = n_elements shapes).
    { pose proof (rows_all _ _ _ Wz) as Fa. rewrite Forall_forall in Fa. apply Fa. apply nth_In. rewrite rows_length. lia. }
    rewrite <- (concat_slices shapes row Lr) at 1. f_equal. unfold unpack_tensor. rewrite !map_map.
    apply map_ext_in. intros i Hi. apply in_seq in Hi.
    rewrite (take_eq _ _ _ batch (n_elements shapes)) by (auto; lia). cbn [t_data].
    assert (Fs : Forall (fun p => List.length p = size (nth i shapes [])) (map (slice_of shapes i) (rows (size batch) (n_elements shapes) (t_data z)))).
    { rewrite Forall_map. eapply Forall_impl; [|apply rows_all; exact Wz]. intros q Hq. apply slice_length; auto. lia. }
    rewrite (concat_length_const _ _ Fs), map_length, rows_length.
    rewrite Nat.mul_comm, Nat.div_mul by lia.
    pose proof (rows_of_concat _ _ Fs) as Rc. rewrite map_length, rows_length in Rc. rewrite Rc.
    rewrite (nth_indep _ [] (slice_of shapes i [])) by (rewrite map_length, rows_length; lia).
    now rewrite map_nth. }
  destruct x as [sx dx], y as [sy dy]. destruct Hx as [Ex Wx], Hy as [Ey Wy]. simpl in *. subst.
  f_equal. change dx with (t_data (mk (batch ++ [n_elements shapes]) dx)).
  rewrite G by (split; auto). rewrite E. rewrite <- G by (split; auto). reflexivity.
Qed.

Lemma pack_unpack {A} batch shapes (x : tensor A) : shapes <> [] -> nonempty batch ->
  has_shape x (batch ++ [n_elements shapes]) ->
  pack_point A shapes (unpack_tensor A shapes x) = Returns x.
Proof.
  intros Ns N H. pose proof (unpack_parts _ _ _ H) as P.
  destruct (unpack_pack batch shapes _ Ns N P) as (y & E & Hy & U). rewrite E. f_equal.
  eapply unpack_inj; eauto.
Qed.

(** when pack_point raises *)
Lemma ends_with_tail s tail : ends_with s tail <-> tail_of (List.length tail) s = tail.
Proof.
  unfold ends_with. split.
  - intros (f & ->). apply tail_of_app.
  - intros E. exists (head_of (List.length tail) s). unfold head_of, tail_of in *.
    rewrite <- E at 2. now rewrite firstn_skipn.
Qed.
Lemma size_prefix a b : size (a ++ b) <> 0 -> size a <> 0.
Proof. rewrite size_app. lia. Qed.

Lemma flatten_part_cases {A} (t : tensor A) s : ~ In 0 (t_shape t) ->
  (ends_with (t_shape t) s /\ exists r, flatten_part A t s = Returns r) \/
  (~ ends_with (t_shape t) s /\ flatten_part A t s = RaisesValueError).
Proof.
  intros N. apply size_nonempty in N. rewrite ends_with_tail. unfold flatten_part.
  destruct (Nat.ltb_spec 0 (List.length s)) as [L|L].
  - destruct (list_eq_dec Nat.eq_dec (tail_of (List.length s) (t_shape t)) s) as [E|E]; [left|right; auto].
    split; auto. unfold reshape_infer.
    assert (size (head_of (List.length s) (t_shape t)) <> 0).
    { apply (size_prefix _ (tail_of (List.length s) (t_shape t))). unfold head_of, tail_of. now rewrite firstn_skipn. }
    destruct (Nat.eqb_spec (size (head_of (List.length s) (t_shape t))) 0); [congruence|eauto].
  - assert (s = []) by (destruct s; simpl in L; auto; lia). subst. left. split.
    + unfold tail_of. simpl. apply skipn_all2. lia.
    + unfold reshape_infer. destruct (Nat.eqb_spec (size (t_shape t)) 0); [congruence|eauto].
Qed.

Lemma cat_last_no_value_error {A} (l : list (tensor A)) : cat_last l <> RaisesValueError.
Proof. destruct l; simpl; [discriminate|]. destruct (_ && _)%bool; discriminate. Qed.

Lemma pack_raises {A} shapes (parts : list (tensor A)) :
  (forall t, In t parts -> ~ In 0 (t_shape t)) ->
  (pack_point A shapes parts = RaisesValueError <->
   List.length parts <> List.length shapes \/
   exists i, i < List.length parts /\ i < List.length shapes /\
     ~ ends_with (t_shape (nth i parts (mk [] []))) (nth i shapes [])).
Proof.
  intros N. unfold pack_point. destruct (Nat.eqb_spec (List.length parts) (List.length shapes)) as [L|L]; [|tauto].
  assert (G : (exists rs, traverse (fun '(t, s) => flatten_part A t s) (combine parts shapes) = Returns rs /\
                forall i, i < List.length parts -> ends_with (t_shape (nth i parts (mk [] []))) (nth i shapes [])) \/
              (traverse (fun '(t, s) => flatten_part A t s) (combine parts shapes) = RaisesValueError /\
               exists i, i < List.length parts /\ ~ ends_with (t_shape (nth i parts (mk [] []))) (nth i shapes []))).
  { revert shapes L. induction parts as [|t parts IH]; intros [|s shapes] L; try discriminate.
    - left. exists []. split; auto. simpl. lia.
    - simpl combine. simpl traverse.
      destruct (flatten_part_cases t s) as [[Ee [r Er]]|[Ee Er]]; [apply N; left; auto| |].
      + rewrite Er. destruct (IH (fun t h => N t (or_intror h)) shapes ltac:(simpl in L; lia)) as [(rs & E & F)|(E & i & Hi & F)]; rewrite E.
        * left. eexists. split; [reflexivity|]. intros [|i] Hi; simpl in *; auto. apply F. lia.
        * right. split; auto. exists (S i). simpl. split; [lia|auto].
      + rewrite Er. right. split; auto. exists 0. simpl. split; [lia|auto]. }
  destruct G as [(rs & E & F)|(E & i & Hi & F)]; rewrite E; simpl; split.
  - intros X. destruct (cat_last_no_value_error rs X).
  - intros [X|(i & Hi & _ & X)]; [congruence|]. destruct X. now apply F.
  - intros _. right. exists i. split; [auto|split; [lia|auto]].
  - auto.
Qed.

Lemma pack_empty_batch {A} shapes (x : tensor A) batch : In 0 batch -> shapes <> [] ->
  has_shape x (batch ++ [n_elements shapes]) ->
  pack_point A shapes (unpack_tensor A shapes x) = RaisesOther.
Proof.
  intros Z Ns H. pose proof (unpack_parts _ _ _ H) as P. unfold pack_point.
  rewrite (F2_length _ _ _ P), Nat.eqb_refl.
  destruct P as [|t s ts ss [E W] P]; [congruence|]. simpl.
  assert (Sz : size batch = 0).
  { destruct (Nat.eq_dec (size batch) 0); auto. apply size_nonempty in n. tauto. }
  assert (Ef : flatten_part A t s = RaisesOther).
  { unfold flatten_part. destruct (Nat.ltb_spec 0 (List.length s)) as [L|L].
    - rewrite E, tail_of_app, head_of_app. destruct (list_eq_dec Nat.eq_dec s s); [|congruence].
      unfold reshape_infer. now rewrite Sz.
    - assert (s = []) by (destruct s; simpl in L; auto; lia). subst. rewrite app_nil_r in E.
      unfold reshape_infer. now rewrite E, Sz. }
  now rewrite Ef.
Qed.

(** component-wise operations *)
Lemma apply_parts_spec {A} shapes fs (args : list (tensor A)) rs :
  apply_parts A shapes fs args = Returns rs <->
  Forall2 (fun '(i, f) r => f (map (fun a => take A shapes a i true) args) = Returns r)
          (combine (seq 0 (List.length fs)) fs) rs.
Proof.
  unfold apply_parts. split; intros H.
  - apply traverse_inv in H. induction H; constructor; auto. destruct x. auto.
  - apply traverse_returns. induction H; constructor; auto. destruct x. auto.
Qed.

Lemma apply_parts_nth {A} shapes (fs : list (list (tensor A) -> outcome (tensor A))) args rs d :
  List.length fs = List.length rs ->
  (forall i, i < List.length fs ->
     nth i fs (fun _ => RaisesOther) (map (fun a => take A shapes a i true) args) = Returns (nth i rs d)) ->
  apply_parts A shapes fs args = Returns rs.
Proof.
  intros L H. apply apply_parts_spec.
  apply (F2_intro _ _ _ (0, fun _ => RaisesOther) d).
  - rewrite combine_length, seq_length. lia.
  - rewrite combine_length, seq_length, Nat.min_id. intros i Hi.
    rewrite combine_nth by now rewrite seq_length. rewrite seq_nth by auto. simpl. now apply H.
Qed.

Lemma lift_components {A} batch shapes (fs : list (list (tensor A) -> outcome (tensor A))) args rs :
  shapes <> [] -> nonempty batch -> List.length fs = List.length shapes ->
  List.length batch = target_batch_dim (map (dim A) args) ->
  (forall i, i < List.length shapes ->
     nth i fs (fun _ => RaisesOther) (map (fun a => take A shapes a i true) args) = Returns (nth i rs (mk [] []))) ->
  parts_of batch shapes rs ->
  exists y, lift A shapes fs args = Returns y /\ has_shape y (batch ++ [n_elements shapes]) /\
            unpack_tensor A shapes y = rs.
Proof.
  intros Ns N L B H P. exists (joined batch shapes rs). split; [|split; [now apply joined_wf|now apply unpack_joined]].
  unfold lift. rewrite (apply_parts_nth shapes fs args rs (mk [] [])).
  - simpl. rewrite <- B, (traverse_flatten_results batch shapes rs) by auto. simpl. now apply cat_flats.
  - rewrite (F2_length _ _ _ P). auto.
  - rewrite L. exact H.
Qed.

Lemma traverse_reshape_infer {A} batch shapes (parts : list (tensor A)) :
  nonempty batch -> parts_of batch shapes parts ->
  traverse (fun r => reshape_infer r batch) parts = Returns (flats batch shapes parts).
Proof.
  intros N F. apply traverse_returns. unfold flats. induction F; simpl; constructor; auto.
  now apply reshape_infer_flat.
Qed.

Lemma projx_components {A} batch shapes (fs : list (list (tensor A) -> outcome (tensor A))) x rs :
  shapes <> [] -> nonempty batch -> List.length fs = List.length shapes ->
  has_shape x (batch ++ [n_elements shapes]) ->
  (forall i, i < List.length shapes ->
     nth i fs (fun _ => RaisesOther) [take A shapes x i true] = Returns (nth i rs (mk [] []))) ->
  parts_of batch shapes rs ->
  exists y, projx A shapes fs x = Returns y /\ has_shape y (batch ++ [n_elements shapes]) /\
            unpack_tensor A shapes y = rs.
Proof.
  intros Ns N L [Ex Wx] H P. exists (joined batch shapes rs). split; [|split; [now apply joined_wf|now apply unpack_joined]].
  unfold projx. rewrite (apply_parts_nth shapes fs [x] rs (mk [] [])).
  - simpl. rewrite Ex, removelast_snoc, (traverse_reshape_infer batch shapes rs) by auto. simpl. now apply cat_flats.
  - rewrite (F2_length _ _ _ P). auto.
  - rewrite L. exact H.
Qed.

Lemma map_fst_combine_same {A B} (l : list A) (l' : list B) : List.length l = List.length l' ->
  map fst (combine l l') = l.
Proof. revert l'. induction l; intros [|b l'] H; try discriminate; simpl; auto. f_equal. auto. Qed.
Lemma map_snd_combine_same {A B} (l : list A) (l' : list B) : List.length l = List.length l' ->
  map snd (combine l l') = l'.
Proof. revert l'. induction l; intros [|b l'] H; try discriminate; simpl; auto. f_equal. auto. Qed.

Lemma lift_pair_components {A} batch shapes (fs : list (list (tensor A) -> outcome (tensor A * tensor A))) args ps vs :
  shapes <> [] -> nonempty batch -> List.length fs = List.length shapes ->
  List.length batch = target_batch_dim (map (dim A) args) ->
  (forall i, i < List.length shapes ->
     nth i fs (fun _ => RaisesOther) (map (fun a => take A shapes a i true) args)
     = Returns (nth i ps (mk [] []), nth i vs (mk [] []))) ->
  parts_of batch shapes ps -> parts_of batch shapes vs ->
  exists y w, lift_pair A shapes fs args = Returns (y, w) /\
     has_shape y (batch ++ [n_elements shapes]) /\ has_shape w (batch ++ [n_elements shapes]) /\
     unpack_tensor A shapes y = ps /\ unpack_tensor A shapes w = vs.
Proof.
  intros Ns N L B H Pp Pv. exists (joined batch shapes ps), (joined batch shapes vs).
  split; [|split; [now apply joined_wf|split; [now apply joined_wf|split; now apply unpack_joined]]].
  unfold lift_pair. rewrite <- B.
  rewrite (traverse_returns _ _ (combine (flats batch shapes ps) (flats batch shapes vs))).
  - assert (Lp : List.length (flats batch shapes ps) = List.length shapes).
    { unfold flats. rewrite map_length, combine_length, (F2_length _ _ _ Pp). lia. }
    assert (Lv : List.length (flats batch shapes vs) = List.length shapes).
    { unfold flats. rewrite map_length, combine_length, (F2_length _ _ _ Pv). lia. }
    simpl. rewrite map_fst_combine_same, map_snd_combine_same by congruence.
    rewrite !cat_flats by auto. reflexivity.
  - apply (F2_intro _ _ _ (0, fun _ => RaisesOther) (flat batch [] (mk [] []), flat batch [] (mk [] []))).
    + unfold flats. rewrite !combine_length, !map_length, !combine_length, seq_length, (F2_length _ _ _ Pp), (F2_length _ _ _ Pv). lia.
    + rewrite combine_length, seq_length, Nat.min_id. intros i Hi.
      rewrite combine_nth by now rewrite seq_length. rewrite seq_nth by auto. simpl.
      rewrite H by lia. simpl.
      assert (Hp := F2_nth _ _ _ i (mk [] []) [] Pp ltac:(rewrite (F2_length _ _ _ Pp); lia)).
      assert (Hv := F2_nth _ _ _ i (mk [] []) [] Pv ltac:(rewrite (F2_length _ _ _ Pv); lia)).
      rewrite (flatten_result_flat _ _ _ N Hv). simpl. rewrite (flatten_result_flat _ _ _ N Hp). simpl.
      unfold flats.
      rewrite combine_nth by (rewrite !map_length, !combine_length, (F2_length _ _ _ Pp), (F2_length _ _ _ Pv); lia).
      do 2 f_equal.
      * rewrite (map_nth (fun '(t, s) => flat batch s t) _ (mk [] [], [])).
        now rewrite combine_nth by now rewrite (F2_length _ _ _ Pp).
      * rewrite (map_nth (fun '(t, s) => flat batch s t) _ (mk [] [], [])).
        now rewrite combine_nth by now rewrite (F2_length _ _ _ Pv).
Qed.

(** checks *)
Lemma check_loop_spec cs acc : fst acc = true ->
  (fst (check_loop cs acc) = true <-> forall c, In c cs -> fst c = true) /\
  (fst (check_loop cs acc) = false ->
     exists front rest, cs = front ++ check_loop cs acc :: rest /\ (forall c, In c front -> fst c = true)).
Proof.
  revert acc. induction cs as [|c cs IH]; intros acc Ha; simpl.
  - split; [split; intros; tauto|congruence].
  - destruct (fst c) eqn:E.
    + destruct (IH c E) as [I1 I2]. split.
      * rewrite I1. split; [intros H d [<-|Hd]; auto|auto].
      * intros F. destruct (I2 F) as (front & rest & Ec & Hf). exists (c :: front), rest. split.
        -- simpl. now f_equal.
        -- intros d [<-|Hd]; auto.
    + split.
      * rewrite E. split; [discriminate|]. intros H. specialize (H c (or_introl eq_refl)). congruence.
      * intros _. exists [], cs. split; [auto|intros d []].
Qed.

Lemma check_all_spec cs :
  (fst (check_all cs) = true <-> forall c, In c cs -> fst c = true) /\
  (fst (check_all cs) = false ->
     exists front rest, cs = front ++ check_all cs :: rest /\ (forall c, In c front -> fst c = true)).
Proof. now apply check_loop_spec. Qed.

Lemma check_point_components {A} shapes (fs : list (tensor A -> verdict)) x :
  fst (check_point_on A shapes fs x) = true <->
  forall i, i < List.length fs -> fst (nth i fs (fun _ => (true, None)) (take A shapes x i true)) = true.
Proof.
  unfold check_point_on. rewrite (proj1 (check_all_spec _)). split.
  - intros H i Hi. apply H. apply in_map_iff. exists (i, nth i fs (fun _ => (true, None))). split; auto.
    replace (i, nth i fs (fun _ => (true, None))) with (nth i (combine (seq 0 (List.length fs)) fs) (0, fun _ => (true, None)))
      by (rewrite combine_nth by apply seq_length; rewrite seq_nth by auto; reflexivity).
    apply nth_In. rewrite combine_length, seq_length. lia.
  - intros H c Hc. apply in_map_iff in Hc. destruct Hc as ([i f] & <- & Hin).
    apply (In_nth _ _ (0, fun _ => (true, None))) in Hin. destruct Hin as (j & Hj & E).
    rewrite combine_length, seq_length in Hj. rewrite combine_nth in E by apply seq_length.
    rewrite seq_nth in E by lia. injection E as <- <-. simpl. apply H. lia.
Qed.
Lemma check_vector_components {A} shapes (fs : list (tensor A -> tensor A -> verdict)) x u :
  fst (check_vector_on A shapes fs x u) = true <->
  forall i, i < List.length fs -> fst (nth i fs (fun _ _ => (true, None)) (take A shapes x i true) (take A shapes u i true)) = true.
Proof.
  unfold check_vector_on. rewrite (proj1 (check_all_spec _)). split.
  - intros H i Hi. apply H. apply in_map_iff. exists (i, nth i fs (fun _ _ => (true, None))). split; auto.
    replace (i, nth i fs (fun _ _ => (true, None))) with (nth i (combine (seq 0 (List.length fs)) fs) (0, fun _ _ => (true, None)))
      by (rewrite combine_nth by apply seq_length; rewrite seq_nth by auto; reflexivity).
    apply nth_In. rewrite combine_length, seq_length. lia.
  - intros H c Hc. apply in_map_iff in Hc. destruct Hc as ([i f] & <- & Hin).
    apply (In_nth _ _ (0, fun _ _ => (true, None))) in Hin. destruct Hin as (j & Hj & E).
    rewrite combine_length, seq_length in Hj. rewrite combine_nth in E by apply seq_length.
    rewrite seq_nth in E by lia. injection E as <- <-. simpl. apply H. lia.
Qed.

(** random / origin *)
Lemma from_components_spec {A} batch shapes (gens : list (list nat -> tensor A)) :
  shapes <> [] -> nonempty batch -> List.length gens = List.length shapes ->
  (forall g s, In g gens -> has_shape (g s) s) ->
  exists x, from_components A shapes gens (batch ++ [n_elements shapes]) = Returns x /\
    has_shape x (batch ++ [n_elements shapes]) /\
    unpack_tensor A shapes x = map (fun '(g, s) => g (batch ++ s)) (combine gens shapes).
Proof.
  intros Ns N L Hg. unfold from_components, check_shape.
  destruct (batch ++ [n_elements shapes]) as [|a l] eqn:E; [destruct batch; discriminate|].
  rewrite <- E. rewrite last_last, Nat.eqb_refl. simpl. rewrite removelast_snoc.
  apply unpack_pack; auto.
  clear Ns E. revert shapes L. induction gens as [|g gens IH]; intros [|s shapes] L; try discriminate; simpl; constructor.
  - apply Hg. now left.
  - apply IH; [|simpl in L; lia]. intros; apply Hg. now right.
Qed.

(** from_point *)
Lemma same_batch_spec b k l : same_batch b k l = true <-> forall s, In s l -> firstn k s = b.
Proof.
  induction l as [|s l IH]; simpl; [tauto|].
  destruct (list_eq_dec Nat.eq_dec (firstn k s) b) as [E|E].
  - rewrite IH. split; [intros H t [<-|Ht]; auto|auto].
  - split; [discriminate|]. intros H. destruct E. apply H. auto.
Qed.
Lemma from_point_spec part_shapes k shapes :
  from_point part_shapes k = Returns shapes ->
  exists batch, shapes = map (skipn k) part_shapes /\
    Forall2 (fun t s => t = batch ++ s) part_shapes shapes.
Proof.
  unfold from_point. destruct part_shapes as [|s rest]; [discriminate|].
  destruct (same_batch (firstn k s) k rest) eqn:E; [|discriminate]. intros H. injection H as <-.
  exists (firstn k s). split; auto. rewrite same_batch_spec in E. constructor.
  - symmetry. apply firstn_skipn.
  - clear -E. induction rest as [|t rest IH]; simpl; constructor.
    + rewrite <- (E t) by (now left). symmetry. apply firstn_skipn.
    + apply IH. intros; apply E. now right.
Qed.
Lemma from_point_raises part_shapes k :
  from_point part_shapes k = RaisesValueError <->
  part_shapes = [] \/ exists s t, In s part_shapes /\ In t part_shapes /\ firstn k s <> firstn k t.
Proof.
  unfold from_point. destruct part_shapes as [|s rest]; [tauto|].
  destruct (same_batch (firstn k s) k rest) eqn:E; split; try discriminate; auto.
  - rewrite same_batch_spec in E. intros [X|(a & b & Ha & Hb & X)]; [discriminate|]. destruct X.
    assert (Ea : firstn k a = firstn k s) by (destruct Ha as [<-|Ha]; auto).
    assert (Eb : firstn k b = firstn k s) by (destruct Hb as [<-|Hb]; auto). congruence.
  - intros _. right.
    assert (X : exists t, In t rest /\ firstn k t <> firstn k s).
    { clear -E. induction rest as [|t rest IH]; simpl in *; [discriminate|].
      destruct (list_eq_dec Nat.eq_dec (firstn k t) (firstn k s)); [destruct (IH E) as (u & ? & ?)|]; eauto. }
    destruct X as (t & Ht & Hne). exists t, s. simpl. auto.
Qed.
