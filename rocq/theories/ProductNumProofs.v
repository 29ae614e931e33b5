(** Lemmas about the numeric part of products. *)
From Coq Require Import List Bool Arith Lia Reals Lra FunctionalExtensionality.
From Verif Require Import RVec BaseModel ProductModel ProductSpec ProductProofs ProductNumModel.
From Verif Require StereoSpec StereoModel StereoProofs StereoProofs2.
Import ListNotations.
Local Open Scope R_scope.

Lemma total_seq m f : total (map f (seq 0 m)) = Rsum m f.
Proof.
  unfold total. induction m; [reflexivity|]. rewrite seq_S, map_app, fold_right_app. simpl.
  rewrite <- IHm. generalize (seq 0 m). intro l. induction l; simpl; [lra|]. rewrite IHl. lra.
Qed.

Lemma flatten_sum_spec (t : tensor R) batch w : nonempty batch -> has_shape t (batch ++ w) ->
  flatten_sum (List.length batch) t =
  Returns (mk batch (map total (rows (size batch) (size w) (t_data t)))).
Proof.
  intros N [E W]. unfold flatten_sum. rewrite E, firstn_app, firstn_all, Nat.sub_diag. simpl.
  rewrite app_nil_r. apply size_nonempty in N. destruct (Nat.eqb_spec (size batch) 0); [congruence|].
  apply wf_size in W. rewrite W, E, size_app, Nat.mul_comm, Nat.div_mul by auto. reflexivity.
Qed.

Lemma map_combine_nth (l l' : list R) b : List.length l = List.length l' ->
  nth b (map (fun '(p, q) => p + q) (combine l l')) 0 = nth b l 0 + nth b l' 0.
Proof.
  revert l' b. induction l as [|a l IH]; intros [|a' l'] b H; try discriminate.
  - destruct b; simpl; lra.
  - destruct b; simpl; auto.
Qed.

Lemma sum_tensors_spec batch k acc l :
  t_shape acc = batch -> List.length (t_data acc) = k ->
  Forall (fun t => t_shape t = batch /\ List.length (t_data t) = k) l ->
  exists r, sum_tensors acc l = Returns r /\ t_shape r = batch /\ List.length (t_data r) = k /\
    forall b, nth b (t_data r) 0 = nth b (t_data acc) 0 + total (map (fun t => nth b (t_data t) 0) l).
Proof.
  revert acc. induction l as [|t l IH]; intros acc E L F.
  - exists acc. simpl. repeat split; auto. intro. unfold total. simpl. lra.
  - inversion F as [|? ? [Et Lt] F']; subst. simpl. unfold add_tensor at 1.
    destruct (list_eq_dec Nat.eq_dec (t_shape acc) (t_shape t)) as [_|X]; [|congruence]. simpl.
    destruct (IH (mk (t_shape acc) (map (fun '(p, q) => p + q) (combine (t_data acc) (t_data t))))) as (r & Er & Sr & Lr & Hr); auto.
    + simpl. rewrite map_length, combine_length. lia.
    + exists r. split; [exact Er|]. split; [exact Sr|]. split; [exact Lr|]. intro b. rewrite Hr. cbn [t_data].
      rewrite map_combine_nth by lia. unfold total. simpl. lra.
Qed.

Lemma sum_components_spec batch shapes ws fs args rs keepdim :
  shapes <> [] -> nonempty batch -> List.length fs = List.length shapes -> List.length ws = List.length shapes ->
  List.length batch = target_batch_dim (map (dim R) args) ->
  (forall i, (i < List.length shapes)%nat ->
     nth i fs (fun _ => RaisesOther) (map (fun a => take R shapes a i true) args) = Returns (nth i rs (mk [] []))) ->
  parts_of batch ws rs ->
  exists y, sum_components shapes fs args keepdim = Returns y /\
    has_shape y (if keepdim then batch ++ [1%nat] else batch) /\
    forall b, (b < size batch)%nat ->
      nth b (t_data y) 0 = total (map (fun '(t, w) => total (entries (size w) b t)) (combine rs ws)).
Proof.
  intros Ns N L Lw B H P. unfold sum_components.
  rewrite (apply_parts_nth shapes fs args rs (mk [] [])); [|rewrite (F2_length _ _ _ P); congruence|rewrite L; exact H].
  cbn [bind]. rewrite <- B.
  set (sums := map (fun '(t, w) => mk batch (map total (rows (size batch) (size w) (t_data t)))) (combine rs ws)).
  assert (Et : traverse (flatten_sum (List.length batch)) rs = Returns sums).
  { apply traverse_returns. unfold sums. clear -N P. induction P; simpl; constructor; auto. now apply flatten_sum_spec. }
  rewrite Et. cbn [bind].
  assert (Fs : Forall (fun t => t_shape t = batch /\ List.length (t_data t) = size batch) sums).
  { unfold sums. rewrite Forall_map. apply Forall_forall. intros [t w] _. simpl. split; auto. now rewrite map_length, rows_length. }
  assert (Ls : List.length sums = List.length shapes).
  { unfold sums. rewrite map_length, combine_length, (F2_length _ _ _ P). lia. }
  assert (Hn : forall b, (b < size batch)%nat ->
     total (map (fun t => nth b (t_data t) 0) sums) = total (map (fun '(t, w) => total (entries (size w) b t)) (combine rs ws))).
  { intros b Hb. unfold sums. rewrite map_map. f_equal. apply map_ext. intros [t w]. cbn [t_data].
    change 0 with (total []). rewrite map_nth. f_equal. now apply rows_nth. }
  destruct sums as [|s sums]; [destruct shapes; [congruence|discriminate]|].
  inversion Fs as [|? ? [Es Lss] Fs']; subst. simpl py_sum.
  destruct (sum_tensors_spec (t_shape s) (size (t_shape s)) s sums eq_refl Lss Fs') as (r & Er & Sr & Lr & Hr).
  rewrite Er. cbn [bind]. exists (unsqueeze_if keepdim r). split; auto.
  assert (D : t_data (unsqueeze_if keepdim r) = t_data r) by now destruct keepdim.
  split.
  - split.
    + destruct keepdim; simpl; congruence.
    + apply wf_size. rewrite D, Lr. destruct keepdim; simpl; rewrite ?Sr; auto.
      rewrite size_app, size_single. lia.
  - intros b Hb. rewrite D, Hr, <- Hn by auto. reflexivity.
Qed.

(** one value per batch element and component *)
Lemma total_single a : total [a] = a.
Proof. unfold total. simpl. lra. Qed.
Lemma entries_single b (t : tensor R) : (b < List.length (t_data t))%nat -> total (entries 1 b t) = nth b (t_data t) 0.
Proof.
  unfold entries. rewrite Nat.mul_1_r. destruct t as [s l]. cbn [t_data]. revert b. induction l; intros b H; simpl in *; [lia|].
  destruct b; simpl; [unfold total; simpl; lra|]. apply IHl. lia.
Qed.

(** the distance *)
Lemma e15_pos : 0 < StereoModel.e15.
Proof. unfold StereoModel.e15. apply Rinv_0_lt_compat. lra. Qed.
Lemma dist_of_dist2_max s : 0 <= s -> dist_of_dist2 s = Rmax (sqrt s) (sqrt StereoModel.e15).
Proof.
  intros H. pose proof e15_pos. unfold dist_of_dist2, StereoModel.clamp_min, Rmax.
  destruct (Rle_dec s StereoModel.e15) as [L|L], (Rle_dec (sqrt s) (sqrt StereoModel.e15)) as [M|M]; auto.
  - destruct M. now apply sqrt_le_1_alt.
  - exfalso. apply L. apply sqrt_le_0; lra.
Qed.
Lemma dist_of_dist2_floor s : sqrt StereoModel.e15 <= dist_of_dist2 s.
Proof. unfold dist_of_dist2. apply sqrt_le_1_alt. apply Rmax_r. Qed.
Lemma floor_pos : 0 < sqrt StereoModel.e15.
Proof. apply sqrt_lt_R0, e15_pos. Qed.

Lemma minkowski m (a b c : nat -> R) :
  (forall i, (i < m)%nat -> 0 <= c i <= a i + b i) ->
  sqrt (Rsum m (fun i => c i ^ 2)) <= sqrt (Rsum m (fun i => a i ^ 2)) + sqrt (Rsum m (fun i => b i ^ 2)).
Proof.
  intros H.
  apply Rle_trans with (sqrt (Rsum m (fun i => (a i + b i) ^ 2))).
  - apply sqrt_le_1_alt. apply Rsum_le. intros i Hi. specialize (H i Hi). nra.
  - pose proof (nrm_triangle m a b) as T. unfold nrm, dot, vadd in T.
    assert (E : forall f : vec, Rsum m (fun i => f i ^ 2) = Rsum m (fun i => f i * f i)).
    { intro f. apply Rsum_ext. intros; ring. }
    rewrite (E a), (E b), (E (fun i => a i + b i)). exact T.
Qed.

Lemma dist_of_dist2_triangle m (a b c : nat -> R) :
  (forall i, (i < m)%nat -> 0 <= c i <= a i + b i) ->
  dist_of_dist2 (Rsum m (fun i => c i ^ 2)) <=
  dist_of_dist2 (Rsum m (fun i => a i ^ 2)) + dist_of_dist2 (Rsum m (fun i => b i ^ 2)).
Proof.
  intros H. pose proof (minkowski m a b c H) as M. pose proof floor_pos as F.
  assert (P : forall f, 0 <= Rsum m (fun i => f i ^ 2)) by (intro f; apply Rsum_nonneg; intros; apply pow2_ge_0).
  rewrite !dist_of_dist2_max by auto.
  pose proof (Rmax_l (sqrt (Rsum m (fun i => a i ^ 2))) (sqrt StereoModel.e15)).
  pose proof (Rmax_r (sqrt (Rsum m (fun i => a i ^ 2))) (sqrt StereoModel.e15)).
  pose proof (Rmax_l (sqrt (Rsum m (fun i => b i ^ 2))) (sqrt StereoModel.e15)).
  pose proof (Rmax_r (sqrt (Rsum m (fun i => b i ^ 2))) (sqrt StereoModel.e15)).
  apply Rmax_lub; lra.
Qed.

(** components whose dist2 with keepdim gives one value per batch element, the
    square of [d i b] *)
Definition metric_components batch (shapes : list (list nat))
  (fs : list (list (tensor R) -> outcome (tensor R))) (d : nat -> nat -> tensor R -> tensor R -> R) : Prop :=
  List.length fs = List.length shapes /\
  forall i a c, (i < List.length shapes)%nat ->
    has_shape a (batch ++ nth i shapes []) -> has_shape c (batch ++ nth i shapes []) ->
    nth i fs (fun _ => RaisesOther) [a; c] =
    Returns (mk (batch ++ [1%nat]) (map (fun b => d i b a c ^ 2) (seq 0 (size batch)))).

Lemma dist_value batch shapes fs d x y : shapes <> [] -> nonempty batch ->
  metric_components batch shapes fs d ->
  has_shape x (batch ++ [n_elements shapes]) -> has_shape y (batch ++ [n_elements shapes]) ->
  exists t, dist shapes fs x y false = Returns t /\ has_shape t batch /\
   forall b, (b < size batch)%nat -> nth b (t_data t) 0 =
     dist_of_dist2 (Rsum (List.length shapes) (fun i => d i b (take R shapes x i true) (take R shapes y i true) ^ 2)).
Proof.
  intros Ns N [L M] Hx Hy.
  set (rs := map (fun i => mk (batch ++ [1%nat]) (map (fun b => d i b (take R shapes x i true) (take R shapes y i true) ^ 2) (seq 0 (size batch)))) (seq 0 (List.length shapes))).
  set (ws := map (fun _ : nat => [1%nat]) (seq 0 (List.length shapes))).
  destruct (sum_components_spec batch shapes ws fs [x; y] rs false) as (r & Er & Sr & Hr); auto.
  - unfold ws. now rewrite map_length, seq_length.
  - destruct Hx as [Ex _], Hy as [Ey _]. unfold target_batch_dim, dim. simpl. rewrite Ex, Ey, !app_length. simpl. lia.
  - intros i Hi. cbn [map]. rewrite M by (auto; apply take_wf; auto). f_equal. unfold rs.
    set (g := fun i => mk (batch ++ [1%nat]) (map (fun b => d i b (take R shapes x i true) (take R shapes y i true) ^ 2) (seq 0 (size batch)))).
    rewrite (nth_indep _ (mk [] []) (g 0%nat)) by now rewrite map_length, seq_length.
    now rewrite map_nth, seq_nth.
  - unfold parts_of, rs, ws. generalize (seq 0 (List.length shapes)). intro l. induction l; simpl; constructor; auto.
    split; auto. apply wf_size. cbn [t_data t_shape]. now rewrite map_length, seq_length, size_app, size_single, Nat.mul_1_r.
  - unfold dist. rewrite Er. cbn [bind]. eexists. split; [reflexivity|]. destruct Sr as [Sr Wr].
    split; [split; auto|].
    { apply wf_size. apply wf_size in Wr. cbn [t_data t_shape]. now rewrite map_length. }
    intros b Hb. cbn [t_data].
    rewrite (nth_indep _ 0 (dist_of_dist2 0)).
    2:{ rewrite map_length. apply wf_size in Wr. rewrite Wr, Sr. exact Hb. }
    rewrite map_nth. f_equal. rewrite Hr by auto. rewrite <- total_seq. f_equal.
    unfold rs, ws. generalize (seq 0 (List.length shapes)). intro l. induction l as [|i l IH]; auto.
    simpl. f_equal; auto.
    change (size [1%nat]) with 1%nat. rewrite entries_single by (cbn [t_data]; now rewrite map_length, seq_length).
    cbn [t_data].
    set (g := fun b => d i b (take R shapes x i true) (take R shapes y i true) ^ 2).
    change (d i b (take R shapes x i true) (take R shapes y i true) * (d i b (take R shapes x i true) (take R shapes y i true) * 1)) with (g b).
    rewrite (nth_indep _ 0 (g 0%nat)) by now rewrite map_length, seq_length.
    now rewrite map_nth, seq_nth.
Qed.

Lemma dist_triangle batch shapes fs d x y z : shapes <> [] -> nonempty batch ->
  metric_components batch shapes fs d ->
  (forall i b p q r, 0 <= d i b p r <= d i b p q + d i b q r) ->
  has_shape x (batch ++ [n_elements shapes]) -> has_shape y (batch ++ [n_elements shapes]) ->
  has_shape z (batch ++ [n_elements shapes]) ->
  exists txy tyz txz, dist shapes fs x y false = Returns txy /\ dist shapes fs y z false = Returns tyz /\
    dist shapes fs x z false = Returns txz /\
    forall b, (b < size batch)%nat -> nth b (t_data txz) 0 <= nth b (t_data txy) 0 + nth b (t_data tyz) 0.
Proof.
  intros Ns N M D Hx Hy Hz.
  destruct (dist_value batch shapes fs d x y) as (txy & E1 & _ & H1); auto.
  destruct (dist_value batch shapes fs d y z) as (tyz & E2 & _ & H2); auto.
  destruct (dist_value batch shapes fs d x z) as (txz & E3 & _ & H3); auto.
  exists txy, tyz, txz. repeat split; auto. intros b Hb. rewrite H1, H2, H3 by auto.
  apply (dist_of_dist2_triangle _
    (fun i => d i b (take R shapes x i true) (take R shapes y i true))
    (fun i => d i b (take R shapes y i true) (take R shapes z i true))
    (fun i => d i b (take R shapes x i true) (take R shapes z i true))). auto.
Qed.

Lemma dist_symmetric batch shapes fs d x y : shapes <> [] -> nonempty batch ->
  metric_components batch shapes fs d ->
  (forall i b p q, d i b p q = d i b q p) ->
  has_shape x (batch ++ [n_elements shapes]) -> has_shape y (batch ++ [n_elements shapes]) ->
  exists t t', dist shapes fs x y false = Returns t /\ dist shapes fs y x false = Returns t' /\
    forall b, (b < size batch)%nat -> nth b (t_data t) 0 = nth b (t_data t') 0.
Proof.
  intros Ns N M D Hx Hy.
  destruct (dist_value batch shapes fs d x y) as (txy & E1 & _ & H1); auto.
  destruct (dist_value batch shapes fs d y x) as (tyx & E2 & _ & H2); auto.
  exists txy, tyx. repeat split; auto. intros b Hb. rewrite H1, H2 by auto. f_equal.
  apply Rsum_ext. intros i _. now rewrite D.
Qed.

Lemma dist_floor batch shapes fs d x y : shapes <> [] -> nonempty batch ->
  metric_components batch shapes fs d ->
  has_shape x (batch ++ [n_elements shapes]) -> has_shape y (batch ++ [n_elements shapes]) ->
  exists t, dist shapes fs x y false = Returns t /\
    forall b, (b < size batch)%nat ->
      nth b (t_data t) 0 = Rmax (sqrt (Rsum (List.length shapes)
         (fun i => d i b (take R shapes x i true) (take R shapes y i true) ^ 2))) (sqrt (/ 10 ^ 15)).
Proof.
  intros Ns N M Hx Hy.
  destruct (dist_value batch shapes fs d x y) as (t & E1 & _ & H1); auto.
  exists t. split; auto. intros b Hb. rewrite H1 by auto. apply dist_of_dist2_max.
  apply Rsum_nonneg. intros; apply pow2_ge_0.
Qed.

Lemma dist_self batch shapes fs d x : shapes <> [] -> nonempty batch ->
  metric_components batch shapes fs d -> (forall i b p, d i b p p = 0) ->
  has_shape x (batch ++ [n_elements shapes]) ->
  exists t, dist shapes fs x x false = Returns t /\
    forall b, (b < size batch)%nat -> nth b (t_data t) 0 = sqrt (/ 10 ^ 15) /\ nth b (t_data t) 0 <> 0.
Proof.
  intros Ns N M D Hx. destruct (dist_floor batch shapes fs d x x) as (t & E & H); auto.
  exists t. split; auto. intros b Hb. rewrite H by auto.
  rewrite (Rsum_ext _ _ (fun _ => 0)) by (intros; rewrite D; ring). rewrite Rsum_zero, sqrt_0.
  pose proof floor_pos as F. unfold StereoModel.e15 in F. rewrite Rmax_right by lra. split; lra.
Qed.

(** Stereographic products *)
Lemma expmap_zero n e k x u : (forall j, u j = 0) -> StereoModel.expmap n e k x u = x.
Proof.
  intros H. assert (u = vzero) as -> by (apply functional_extensionality; exact H).
  unfold StereoModel.expmap.
  match goal with |- StereoModel.mobius_add _ _ _ ?v = _ => replace v with vzero end.
  - apply StereoProofs.add_0_r.
  - apply functional_extensionality. intro j. unfold smul, vdiv, vzero, Rdiv. ring.
Qed.

Lemma wrapped_normal_mean e n k proj mean noise std i :
  wrapped_normal_scalar e n k proj mean noise std i = proj (n i) (k i) (mean i).
Proof.
  unfold wrapped_normal_scalar, component_wrapped_normal. f_equal. apply expmap_zero.
  intro j. unfold vdiv. unfold Rdiv. ring.
Qed.

Lemma signed_dist2plane e m n k signed scaled x p a : 0 <= dist2plane e m n k signed scaled x p a.
Proof. apply sqrt_pos. Qed.

Lemma sdist_geodesic_unit e m n k t x u :
  (forall i, (i < m)%nat -> StereoModel.dist (n i) e (k i) (x i) (geodesic_unit e n k t x u i) = t) ->
  0 <= t -> sqrt (/ 10 ^ 15) <= sqrt (INR m) * t ->
  sdist e m n k x (geodesic_unit e n k t x u) = sqrt (INR m) * t.
Proof.
  intros H Ht F. unfold sdist. rewrite (Rsum_ext _ _ (fun _ => t ^ 2)) by (intros; now rewrite H).
  rewrite Rsum_const. rewrite dist_of_dist2_max by (apply Rmult_le_pos; [apply pos_INR|apply pow2_ge_0]).
  rewrite sqrt_mult by (apply pos_INR || apply pow2_ge_0). rewrite sqrt_pow2 by auto.
  apply Rmax_left. exact F.
Qed.

Lemma geodesic_unit_flat n t x u : 0 <= t -> / 10 ^ 15 <= nrm n u ->
  StereoModel.dist n StereoModel.e15 0 x (StereoModel.geodesic_unit n StereoModel.e15 0 t x u) = t.
Proof.
  intros Ht Hu. pose proof e15_pos. assert (I : / 10 ^ 15 <= 1) by (rewrite <- Rinv_1; apply Rinv_le_contravar; lra).
  apply StereoProofs2.geodesic_unit_dist; auto.
  - lra.
  - now left.
  - split; intros; lra.
  - unfold StereoSpec.regular. lra.
  - unfold StereoSpec.regular. lra.
Qed.

Definition line_point (a b : R) : point := fun i => match i with O => fun _ => a | _ => fun _ => b end.

Lemma nrm_1 c : nrm 1 (fun _ => c) = Rabs c.
Proof. unfold nrm, dot. simpl. rewrite Rplus_0_l. apply sqrt_Rsqr_abs. Qed.

Lemma geodesic_unit_refuted_lemma : exists x u,
  norm 2 (fun _ => 1%nat) (fun _ => 0) x u = 1 /\
  sdist StereoModel.e15 2 (fun _ => 1%nat) (fun _ => 0) x
    (geodesic_unit StereoModel.e15 (fun _ => 1%nat) (fun _ => 0) 1 x u) <> 1.
Proof.
  exists (line_point 0 0), (line_point (3/10) (4/10)).
  assert (I : / 10 ^ 15 <= 1 / 10) by (unfold Rdiv; rewrite Rmult_1_l; apply Rinv_le_contravar; lra).
  split.
  - unfold norm, StereoModel.inner, StereoModel.lambda_x, StereoModel.clamp_min, StereoModel.e15. simpl Rsum.
    rewrite !Rmult_0_l, Rplus_0_r, Rmax_left by lra. unfold dot. simpl.
    match goal with |- sqrt ?a = 1 => replace a with 1 by lra end. apply sqrt_1.
  - rewrite sdist_geodesic_unit.
    + simpl INR. rewrite Rmult_1_r. intro E. apply (f_equal (fun a => a * a)) in E.
      rewrite sqrt_sqrt in E; lra.
    + intros i Hi. unfold geodesic_unit. apply geodesic_unit_flat; [lra|].
      destruct i as [|i]; unfold line_point; rewrite nrm_1, Rabs_right; lra.
    + lra.
    + rewrite Rmult_1_r. apply sqrt_le_1_alt. simpl INR. lra.
Qed.

(** mobius_* on components of rank two or more *)
Lemma flat_has_shape batch s (t : tensor R) : has_shape t (batch ++ s) -> has_shape (flat batch s t) (batch ++ [size s]).
Proof.
  intros [E W]. split; auto. apply wf_size. apply wf_size in W. simpl. rewrite W, E, !size_app, size_single. reflexivity.
Qed.

Lemma ends_with_last front a tail b : ends_with (front ++ [a]) (tail ++ [b]) -> a = b.
Proof.
  intros (f & E). rewrite app_assoc in E. apply app_inj_tail in E. tauto.
Qed.

Lemma mobius_rank_1 batch shapes fs x y rs :
  shapes <> [] -> nonempty batch -> List.length fs = List.length shapes ->
  List.length batch = target_batch_dim (map (dim R) [x; y]) ->
  (forall i, (i < List.length shapes)%nat ->
     nth i fs (fun _ => RaisesOther) [take R shapes x i true; take R shapes y i true] = Returns (nth i rs (mk [] []))) ->
  parts_of batch shapes rs ->
  (forall s, In s shapes -> List.length s = 1%nat) ->
  exists z, mobius_2_args shapes fs x y = Returns z /\ has_shape z (batch ++ [n_elements shapes]) /\
            unpack_tensor R shapes z = rs.
Proof.
  intros Ns N L B H P S1. unfold mobius_2_args.
  rewrite (apply_parts_nth shapes fs [x; y] rs (mk [] [])); [|rewrite (F2_length _ _ _ P); auto|rewrite L; exact H].
  cbn [bind]. rewrite <- B, (traverse_flatten_results batch shapes rs) by auto. cbn [bind].
  replace (flats batch shapes rs) with rs.
  - apply unpack_pack; auto.
  - unfold flats. clear -P S1. induction P as [|t s rs shapes [E W] P IH]; simpl; auto.
    f_equal; [|apply IH; intros; apply S1; now right].
    specialize (S1 s (or_introl eq_refl)). destruct s as [|a [|? ?]]; try discriminate.
    unfold flat. rewrite size_single, <- E. now destruct t.
Qed.

Lemma mobius_rank_2 batch shapes fs x y rs s a :
  shapes <> [] -> nonempty batch -> List.length fs = List.length shapes ->
  List.length batch = target_batch_dim (map (dim R) [x; y]) ->
  (forall i, (i < List.length shapes)%nat ->
     nth i fs (fun _ => RaisesOther) [take R shapes x i true; take R shapes y i true] = Returns (nth i rs (mk [] []))) ->
  parts_of batch shapes rs ->
  (forall s, In s shapes -> ~ In 0%nat s) ->
  In (s ++ [a]) shapes -> size s <> 1%nat ->
  mobius_2_args shapes fs x y = RaisesValueError.
Proof.
  intros Ns N L B H P Z I S1. unfold mobius_2_args.
  rewrite (apply_parts_nth shapes fs [x; y] rs (mk [] [])); [|rewrite (F2_length _ _ _ P); auto|rewrite L; exact H].
  cbn [bind]. rewrite <- B, (traverse_flatten_results batch shapes rs) by auto. cbn [bind].
  apply pack_raises.
  - intros t Ht. unfold flats in Ht. apply in_map_iff in Ht. destruct Ht as ([t' s'] & <- & Hin).
    simpl. rewrite in_app_iff. intros [X|[X|[]]]; [now apply N|].
    apply in_combine_r in Hin. specialize (Z _ Hin). apply size_nonempty in Z. congruence.
  - right. apply (In_nth _ _ []) in I. destruct I as (i & Hi & E).
    pose proof (F2_length _ _ _ P) as Lr.
    exists i. assert (Lf : List.length (flats batch shapes rs) = List.length shapes).
    { unfold flats. rewrite map_length, combine_length. lia. }
    rewrite Lf. split; [auto|split; [auto|]]. rewrite E.
    replace (t_shape (nth i (flats batch shapes rs) (mk [] []))) with (batch ++ [size (s ++ [a])]).
    + intros X. apply ends_with_last in X. rewrite size_app, size_single in X.
      assert (a <> 0%nat).
      { intros ->. apply (Z (s ++ [0%nat])); [rewrite <- E; now apply nth_In|]. apply in_app_iff. right. now left. }
      nia.
    + unfold flats. rewrite (nth_indep _ (mk [] []) (flat batch [] (mk [] []))) by (rewrite map_length, combine_length; lia).
      rewrite (map_nth (fun '(t, s) => flat batch s t) _ (mk [] [], [])). rewrite combine_nth by auto.
      simpl. now rewrite E.
Qed.

(** concrete cases *)
Local Open Scope nat_scope.
Lemma product_case : has_shape (mk [2; 4] [1;2;3;4;5;6;7;8]) ([2] ++ [n_elements [[2]; [1;2]]]) /\
  unpack_tensor nat [[2]; [1;2]] (mk [2; 4] [1;2;3;4;5;6;7;8]) = [mk [2;2] [1;2;5;6]; mk [2;1;2] [3;4;7;8]] /\
  nonempty [2] /\
  unpack_tensor nat [[]; [2]] (mk [2; 3] [1;2;3;4;5;6]) = [mk [2] [1;4]; mk [2;2] [2;3;5;6]].
Proof. repeat split. intros [H|[]]; discriminate. Qed.
Lemma empty_batch_case : In 0 [0] /\ has_shape (mk [0; 4] (@nil nat)) ([0] ++ [n_elements [[2]; [1;2]]]).
Proof. repeat split. now left. Qed.
Definition swap_op (args : list (tensor nat)) : outcome (tensor nat) :=
  match args with x :: _ => Returns (mk (t_shape x) (rev (t_data x))) | [] => RaisesOther end.
Definition add_op (args : list (tensor nat)) : outcome (tensor nat) :=
  match args with
  | [x; u] => Returns (mk (t_shape x) (map (fun '(a, b) => a + b) (combine (t_data x) (t_data u))))
  | _ => RaisesOther
  end.
Definition line_d (i b : nat) (p q : tensor R) : R := Rabs (nth b (t_data p) 0%R - nth b (t_data q) 0%R).
Definition line_dist2 (args : list (tensor R)) : outcome (tensor R) :=
  match args with
  | [p; q] => Returns (mk [2; 1] (map (fun b => (line_d 0 b p q ^ 2)%R) [0; 1]))
  | _ => RaisesOther
  end.
Lemma line_case : metric_components [2] [[1]; [1]] [line_dist2; line_dist2] line_d /\
  (forall i b p q r, 0 <= line_d i b p r <= line_d i b p q + line_d i b q r)%R /\
  (forall i b p q, line_d i b p q = line_d i b q p) /\ (forall i b p, line_d i b p p = 0%R).
Proof.
  repeat split.
  - intros i a c Hi _ _. destruct i as [|[|i]]; [reflexivity|reflexivity|simpl in Hi; lia].
  - apply Rabs_pos.
  - unfold line_d. replace (nth b (t_data p) 0 - nth b (t_data r) 0)%R
      with ((nth b (t_data p) 0 - nth b (t_data q) 0) + (nth b (t_data q) 0 - nth b (t_data r) 0))%R by ring.
    apply Rabs_triang.
  - intros. apply Rabs_minus_sym.
  - intros. unfold line_d. rewrite Rminus_diag_eq by reflexivity. apply Rabs_R0.
Qed.
Lemma mobius_case : parts_of [3] [[2;2]] [mk [3;2;2] (repeat 0%R 12)] /\ In ([2] ++ [2]) [[2;2]] /\ fold_left Nat.mul [2] 1 <> 1.
Proof. repeat split; [|now left|discriminate]. repeat constructor. Qed.

Local Open Scope R_scope.
Lemma arsin_k_flat e x : StereoModel.arsin_k_at e x 0 = x.
Proof.
  unfold StereoModel.arsin_k_at. destruct (StereoModel.k_zero 0) as [_|X].
  - unfold StereoModel.arsin_k_zero_taylor5, StereoModel.abs_zero_grad. field.
  - exfalso. apply X. rewrite Rabs_R0. unfold StereoModel.e8. left. apply Rinv_0_lt_compat. lra.
Qed.
Lemma component_sign : StereoModel.dist2plane 1 StereoModel.e15 0 true false (fun _ => -1) (fun _ => 1) (fun _ => 0) < 0.
Proof.
  unfold StereoModel.dist2plane, StereoModel.arsin_k. rewrite arsin_k_flat.
  assert (E : StereoModel.mobius_add 1 0 (vopp (fun _ => 0)) (fun _ => -1) = (fun _ => -1)).
  { replace (vopp (fun _ => 0)) with vzero by (apply functional_extensionality; intro; unfold vopp, vzero; ring).
    apply StereoProofs.add_0_l. }
  rewrite E, nrm_1. unfold dot. simpl Rsum. rewrite Rabs_R1, Rmult_0_l, Rplus_0_r, Rmult_1_r.
  unfold StereoModel.clamp_abs, StereoModel.sign, StereoModel.sabs, StereoModel.torch_sign.
  pose proof e15_pos. rewrite Rmult_1_l, ?Rabs_R1.
  destruct (Rlt_dec 1 0); [lra|]. destruct (Rlt_dec 0 1); [|lra].
  repeat (match goal with |- context [Rlt_dec ?a ?b] => destruct (Rlt_dec a b); try lra end).
  apply Ropp_lt_cancel. rewrite Ropp_0.
  replace (- (2 * (0 + -1) / (1 * (1 + StereoModel.e15)))) with (2 / (1 + StereoModel.e15)) by (field; lra).
  apply Rdiv_lt_0_compat; lra.
Qed.

Lemma sqrt_sumsq_nonneg m f : 0 <= Rsum m (fun i => f i ^ 2).
Proof. apply Rsum_nonneg; intros; apply pow2_ge_0. Qed.

Lemma sdist_zero e m n k x :
  sdist e m n k (fun _ => vzero) x = Rmax (dist0 e m n k x) (sqrt (/ 10 ^ 15)).
Proof.
  unfold sdist, dist0. rewrite dist_of_dist2_max by apply sqrt_sumsq_nonneg.
  do 2 f_equal. apply Rsum_ext. intros i _. now rewrite StereoProofs.dist_from_0.
Qed.

Lemma dist0_pythagoras e m n k x :
  dist0 e (S m) n k x ^ 2 = dist0 e m n k x ^ 2 + StereoModel.dist0 (n m) e (k m) (x m) ^ 2 /\
  dist0 e 0 n k x = 0.
Proof.
  split; [|apply sqrt_0]. unfold dist0. rewrite !pow2_sqrt by apply sqrt_sumsq_nonneg. reflexivity.
Qed.

Lemma dist2plane_pythagoras e m n k signed scaled x p a :
  dist2plane e (S m) n k signed scaled x p a ^ 2 =
  dist2plane e m n k signed scaled x p a ^ 2 + StereoModel.dist2plane (n m) e (k m) signed scaled (x m) (a m) (p m) ^ 2 /\
  dist2plane e 0 n k signed scaled x p a = 0.
Proof.
  split; [|apply sqrt_0]. unfold dist2plane. rewrite !pow2_sqrt by apply sqrt_sumsq_nonneg. reflexivity.
Qed.
