(** Lemmas behind StereoProps.v: batches, shapes, refutations. *)
From Coq Require Import Reals Lra Psatz Lia List.
From Verif Require Import RVec StereoModel StereoSpec GyroAlgebra StereoTrig StereoProofs
  StereoProofs2 StereoProofs3
  StereoBatchModel UtilsModel UtilsSpec UtilsProofs.
Import ListNotations.
Local Open Scope R_scope.

Lemma map_ext_in' {A B} (f g : A -> B) l : (forall a, In a l -> f a = g a) -> map f l = map g l.
Proof. apply map_ext_in. Qed.

Definition one (e : R) (z : R -> R -> R) (neg pos : R -> R) (p : R * R) : R :=
  if k_zero (snd p) then z (fst p) (snd p)
  else if Rlt_dec (snd p) 0 then / k_sqrt e (snd p) * neg (fst p * k_sqrt e (snd p))
  else / k_sqrt e (snd p) * pos (fst p * k_sqrt e (snd p)).

Lemma batched_map e z neg pos l : batched e z z neg pos pos l = map (one e z neg pos) l.
Proof.
  pose proof e8_pos. unfold batched.
  destruct (all_zero l) eqn:Z.
  { apply map_ext_in. intros p Hp. unfold all_zero in Z. rewrite forallb_forall in Z.
    specialize (Z p Hp). unfold one. destruct k_zero; [auto|discriminate]. }
  destruct (all_neg l) eqn:N.
  { apply map_ext_in. intros p Hp. unfold all_neg in N. rewrite forallb_forall in N.
    specialize (N p Hp). unfold one. destruct k_zero; [discriminate|].
    destruct Rlt_dec; [auto|discriminate]. }
  destruct (all_pos l) eqn:P.
  { apply map_ext_in. intros p Hp. unfold all_pos in P. rewrite forallb_forall in P.
    specialize (P p Hp). unfold one. destruct k_zero; [discriminate|].
    destruct (Rlt_dec 0 (snd p)); [|discriminate]. destruct Rlt_dec; [lra|auto]. }
  apply map_ext. intros p. unfold one, where_zero, where_pos. destruct (k_zero (snd p)) as [|Hz]; auto.
  destruct (Rlt_dec 0 (snd p)); destruct (Rlt_dec (snd p) 0); try lra; try ring.
  exfalso; apply Hz. assert (snd p = 0) as -> by lra. rewrite Rabs_R0; lra.
Qed.

Lemma tan_k_batch_map e l : tan_k_batch e l = map (fun p => tan_k_at e (fst p) (snd p)) l.
Proof. unfold tan_k_batch. rewrite batched_map. reflexivity. Qed.
Lemma artan_k_batch_map e l : artan_k_batch e l = map (fun p => artan_k_at e (fst p) (snd p)) l.
Proof. unfold artan_k_batch. rewrite batched_map. reflexivity. Qed.

(** agreement of the mixed branch outside the Taylor region *)
Lemma batched_map_gen e z1 z2 neg p1 p2 l :
  (forall p, In p l -> (Rabs (snd p) <= e8 -> z1 (fst p) (snd p) = z2 (fst p) (snd p)) /\
    (e8 < snd p -> p1 (fst p * k_sqrt e (snd p)) = p2 (fst p * k_sqrt e (snd p)))) ->
  batched e z1 z2 neg p1 p2 l = map (one e z1 neg p1) l.
Proof.
  intros H. rewrite <- batched_map. unfold batched.
  destruct all_zero; auto. destruct all_neg; auto. destruct all_pos; auto.
  apply map_ext_in. intros p Hp. destruct (H p Hp) as [H1 H2]. unfold where_zero, where_pos.
  destruct (k_zero (snd p)) as [Hz|Hz].
  - symmetry; auto.
  - destruct Rlt_dec; auto. rewrite H2; auto.
    rewrite Rabs_right in Hz; lra.
Qed.

Lemma sin_k_batch_map e l : (forall p, In p l -> closed_form (snd p)) ->
  sin_k_batch e l = map (fun p => sin_k_at e (fst p) (snd p)) l.
Proof.
  intros H. unfold sin_k_batch. rewrite batched_map_gen; [reflexivity|].
  intros p Hp. split; auto. intros Hz.
  assert (E : snd p = 0).
  { destruct (H p Hp) as [E|[E|E]]; auto; fold e8 in E.
    - rewrite Rabs_left in Hz; pose proof e8_pos; lra.
    - rewrite Rabs_right in Hz; pose proof e8_pos; lra. }
  rewrite E. unfold sin_k_zero_taylor1, sin_k_zero_taylor5. rewrite abs_zero_grad_abs, Rabs_R0.
  cbv zeta. field.
Qed.
Lemma arsin_k_batch_map e l : (forall p, In p l -> closed_form (snd p) /\
    (0 < snd p -> Rabs (fst p) * rt e (snd p) <= 1 - / 10 ^ 7)) -> 0 <= e ->
  arsin_k_batch e l = map (fun p => arsin_k_at e (fst p) (snd p)) l.
Proof.
  intros H He. unfold arsin_k_batch. rewrite batched_map_gen; [reflexivity|].
  intros p Hp. destruct (H p Hp) as [K B]. split.
  - intros Hz. assert (E : snd p = 0).
    { destruct K as [E|[E|E]]; auto; fold e8 in E.
      - rewrite Rabs_left in Hz; pose proof e8_pos; lra.
      - rewrite Rabs_right in Hz; pose proof e8_pos; lra. }
    rewrite E. unfold arsin_k_zero_taylor1, arsin_k_zero_taylor5. rewrite abs_zero_grad_abs, Rabs_R0.
    cbv zeta. field.
  - intros Hk. pose proof e8_pos. specialize (B ltac:(lra)). fold e7 in B.
    change (rt e (snd p)) with (k_sqrt e (snd p)) in B.
    assert (0 < k_sqrt e (snd p)) by (apply k_sqrt_pos; auto; left; lra).
    rewrite <- (Rabs_right (k_sqrt e (snd p))) in B at 1 by lra. rewrite <- Rabs_mult in B.
    rewrite clamp_id; auto. pose proof (Rle_abs (fst p * k_sqrt e (snd p))).
    pose proof (Rle_abs (- (fst p * k_sqrt e (snd p)))) as H3. rewrite Rabs_Ropp in H3. lra.
Qed.

Lemma sin_k_batch_refuted_lemma : exists e x k k',
  e = e15 /\ nth 0 (sin_k_batch e [(x, k)]) 0 <> nth 0 (sin_k_batch e [(x, k); (x, k')]) 0.
Proof.
  exists e15, 1, e8, 1. split; auto. pose proof e8_val as V. pose proof e8_pos.
  assert (A8 : Rabs e8 <= e8) by (rewrite Rabs_right; lra).
  assert (A1 : ~ Rabs 1 <= e8) by (rewrite Rabs_right; lra).
  unfold sin_k_batch, batched, all_zero, all_neg, all_pos, where_zero, where_pos. simpl.
  destruct (k_zero e8); [|tauto]. simpl. destruct (k_zero 1); [tauto|]. simpl.
  destruct (k_zero e8); [|tauto].
  unfold sin_k_zero_taylor1, sin_k_zero_taylor5. rewrite abs_zero_grad_abs, Rabs_right by lra.
  cbv zeta. rewrite V. lra.
Qed.
Lemma arsin_k_batch_refuted_lemma : exists e x k k',
  e = e15 /\ nth 0 (arsin_k_batch e [(x, k)]) 0 <> nth 0 (arsin_k_batch e [(x, k); (x, k')]) 0.
Proof.
  exists e15, 1, e8, 1. split; auto. pose proof e8_val as V. pose proof e8_pos.
  assert (A8 : Rabs e8 <= e8) by (rewrite Rabs_right; lra).
  assert (A1 : ~ Rabs 1 <= e8) by (rewrite Rabs_right; lra).
  unfold arsin_k_batch, batched, all_zero, all_neg, all_pos, where_zero, where_pos. simpl.
  destruct (k_zero e8); [|tauto]. simpl. destruct (k_zero 1); [tauto|]. simpl.
  destruct (k_zero e8); [|tauto].
  unfold arsin_k_zero_taylor1, arsin_k_zero_taylor5. rewrite abs_zero_grad_abs, Rabs_right by lra.
  cbv zeta. rewrite V. lra.
Qed.

(** ** shapes of inner *)
Lemma removelast_app_one {A} (l : list A) a : removelast (l ++ [a]) = l.
Proof. rewrite removelast_app by discriminate. simpl. apply app_nil_r. Qed.

Lemma bcast_columns_length cols ds : bcast_columns cols = Some ds -> length ds = length cols.
Proof.
  revert ds; induction cols; simpl; intros ds H.
  - inversion H; auto.
  - destruct (bcast_dims 1 a); [|discriminate]. destruct bcast_columns; [|discriminate].
    inversion H; subst. simpl. f_equal; auto.
Qed.
Lemma broadcast_length shapes r : broadcast_shapes shapes = Some r ->
  length r = list_max (map (@length nat) shapes).
Proof.
  unfold broadcast_shapes. destruct bcast_columns eqn:E; [|discriminate].
  intros H; inversion H; subst. rewrite rev_length, (bcast_columns_length _ _ E).
  unfold zip_longest. rewrite map_length, seq_length, map_map. f_equal.
  apply map_ext. intros; apply rev_length.
Qed.

Lemma inner_rank B n r : inner_shape false (B ++ [n]) (B ++ [n]) = Some r ->
  length r = S (length B).
Proof.
  intros H. apply broadcast_length in H. rewrite H. unfold reduce_last.
  rewrite removelast_app_one. simpl. rewrite app_length. simpl. lia.
Qed.
Lemma broadcast_self s : (forall d, In d s -> (1 <= d)%nat) -> broadcast_shapes [s; s] = Some s.
Proof.
  intros H. apply broadcast_shapes_correct_lemma.
  - intros t [<-|[<-|[]]]; auto.
  - repeat split.
    + intros t [<-|[<-|[]]]; auto.
    + right. exists s. simpl; auto.
    + intros j t [<-|[<-|[]]]; auto.
    + intros j. right. exists s. simpl; auto.
Qed.
Lemma inner_keepdim B n : (forall d, In d B -> (1 <= d)%nat) ->
  inner_shape true (B ++ [n]) (B ++ [n]) = Some (B ++ [1%nat]).
Proof.
  intros H. unfold inner_shape, reduce_last. rewrite removelast_app_one. apply broadcast_self.
  intros d Hd. apply in_app_or in Hd. destruct Hd as [Hd|[<-|[]]]; auto.
Qed.
Lemma inner_square b n : (1 <= b)%nat -> inner_shape false [b; n] [b; n] = Some [b; b].
Proof.
  intros H. unfold inner_shape, reduce_last. simpl. apply broadcast_shapes_correct_lemma.
  - intros t [<-|[<-|[]]] d; simpl; intuition lia.
  - repeat split.
    + intros t [<-|[<-|[]]]; simpl; lia.
    + right. exists [b; 1%nat]. simpl; auto.
    + intros j t [<-|[<-|[]]]; unfold size_from_right; destruct j as [|[|j]]; simpl; auto;
        destruct j; auto.
    + intros j. right. unfold size_from_right. destruct j as [|[|j]].
      * exists [b]. simpl; auto.
      * exists [b; 1%nat]. simpl; auto.
      * exists [b; 1%nat]. simpl; split; auto; destruct j; auto.
Qed.
Lemma norm_shape_right kd B n : (forall d, In d B -> (1 <= d)%nat) ->
  norm_shape kd (B ++ [n]) (B ++ [n]) = Some (if kd then B ++ [1%nat] else B).
Proof.
  intros H. unfold norm_shape, reduce_last. rewrite removelast_app_one. destruct kd.
  - apply broadcast_self. intros d Hd. apply in_app_or in Hd. destruct Hd as [Hd|[<-|[]]]; auto.
  - apply broadcast_self. auto.
Qed.

(** ** refutations by one-dimensional points *)
Definition pt (c : R) : vec := fun _ => c.
Lemma dot1 a b : dot 1 (pt a) (pt b) = a * b.
Proof. unfold dot, pt. simpl. ring. Qed.
Lemma nrm1 a : nrm 1 (pt a) = Rabs a.
Proof. unfold nrm. rewrite dot1. rewrite <- (sqrt_Rsqr_abs a). reflexivity. Qed.
Lemma pt_opp a : vopp (pt a) = pt (- a).
Proof. reflexivity. Qed.
Lemma pt_vdiv a c : vdiv (pt a) c = pt (a / c). Proof. reflexivity. Qed.
Lemma pt_smul a c : smul c (pt a) = pt (c * a). Proof. reflexivity. Qed.
Lemma pt_vadd a b : vadd (pt a) (pt b) = pt (a + b). Proof. reflexivity. Qed.
Lemma pt_add k a b : mobius_add 1 k (pt a) (pt b) =
  pt (((1 - 2 * k * (a * b) - k * (b * b)) * a + (1 + k * (a * a)) * b)
      / clamp_min e15 (1 - 2 * k * (a * b) + k ^ 2 * (a * a) * (b * b))).
Proof.
  unfold mobius_add, mobius_num, mobius_den. rewrite !dot1, !pt_smul, pt_vadd, pt_vdiv. reflexivity.
Qed.

Lemma expmap_leaves_ball_lemma : exists k u,
  k < 0 /\ ~ in_domain 1 k (expmap0 1 e15 k u).
Proof.
  exists (- e8), (pt 20000). pose proof e8_pos. pose proof e8_val as V. pose proof e15_val as V15.
  split; [lra|]. unfold expmap0. rewrite nrm1, Rabs_right by lra.
  rewrite clamp_min_id by lra. rewrite pt_vdiv, pt_smul. unfold in_domain. rewrite dot1.
  unfold tan_k, tan_k_at. destruct (k_zero (- e8)) as [Hz|Hz].
  - unfold tan_k_zero_taylor1. cbv zeta. rewrite abs_zero_grad_abs, Rabs_left by lra.
    rewrite V. lra.
  - exfalso; apply Hz. rewrite Rabs_left; lra.
Qed.

Lemma dist_negative_lemma : exists k x y, 0 < k /\ dist 1 e15 k x y < 0.
Proof.
  exists e8, (pt 0), (pt 20000). pose proof e8_pos. pose proof e8_val as V. pose proof e15_val as V15.
  split; [lra|]. unfold dist. rewrite pt_opp, pt_add. rewrite clamp_min_id by lra.
  match goal with |- 2 * artan_k _ (nrm 1 (pt ?t)) _ < 0 => replace t with 20000 by (field; lra) end.
  rewrite nrm1, Rabs_right by lra. unfold artan_k, artan_k_at.
  destruct (k_zero e8) as [Hz|Hz].
  - unfold artan_k_zero_taylor1. cbv zeta. rewrite abs_zero_grad_abs, Rabs_right by lra. rewrite V. lra.
  - exfalso; apply Hz. rewrite Rabs_right; lra.
Qed.

Lemma dist_antipodal_lemma e : dist 1 e 1 (pt 1) (pt (-1)) = 0.
Proof.
  unfold dist. rewrite pt_opp, pt_add.
  match goal with |- 2 * artan_k _ (nrm 1 (pt ?t)) _ = 0 => replace t with 0 end.
  - rewrite nrm1, Rabs_R0, artan_k_0. ring.
  - unfold Rdiv. ring.
Qed.

Lemma triangle_refuted_lemma : exists k x y z,
  k = -1 /\ safe 1 k x /\ safe 1 k y /\ safe 1 k z /\
  dist 1 e15 k x y + dist 1 e15 k y z < dist 1 e15 k x z.
Proof.
  exists (-1), (pt (-1/2)), (pt 0), (pt (1/2)). split; auto.
  pose proof e15_val as V15. pose proof e15_pos. pose proof e8_val. pose proof e7_val.
  assert (Ss : forall a, Rabs a <= 1/2 -> safe 1 (-1) (pt a)).
  { intros a Ha. unfold safe. replace (- (-1)) with 1 by ring. rewrite sqrt_1, nrm1.
    replace (/ 10 ^ 5) with (1/100000) by (simpl; field). lra. }
  split; [apply Ss; rewrite Rabs_left; lra|]. split; [apply Ss; rewrite Rabs_R0; lra|].
  split; [apply Ss; rewrite Rabs_right; lra|].
  unfold dist. rewrite !pt_opp, !pt_add. rewrite !clamp_min_id by lra.
  match goal with |- 2 * artan_k _ (nrm 1 (pt ?a)) _ + 2 * artan_k _ (nrm 1 (pt ?b)) _ <
    2 * artan_k _ (nrm 1 (pt ?c)) _ =>
    replace a with (1/2) by (field; lra); replace b with (1/2) by (field; lra);
    replace c with (4/5) by (field; lra) end.
  rewrite !nrm1, !Rabs_right by lra.
  assert (Hk : -1 < - e8) by lra. rewrite !artan_k_neg by auto.
  assert (Sq := k_sqrt_sq e15 (-1) ltac:(lra)). rewrite Rabs_left in Sq by lra.
  assert (Sp : 0 < k_sqrt e15 (-1)) by (apply k_sqrt_pos; lra).
  set (s := k_sqrt e15 (-1)) in *.
  assert (S1 : 1 < s) by nra. assert (S2 : s < 1 + e15) by nra.
  rewrite !artanh_c_id by lra.
  assert (Hi : 0 < / s) by (apply Rinv_0_lt_compat; auto).
  assert (Hlt : atanh (1/2*s) + atanh (1/2*s) < atanh (4/5*s)).
  { rewrite <- (atanh_tanh (atanh (1/2*s) + atanh (1/2*s))).
    rewrite tanh_plus, tanh_atanh by lra.
    assert (0 < 1 + 1/2*s * (1/2*s)) by nra.
    apply atanh_incr; try lra.
    - assert (0 < (1/2*s + 1/2*s) / (1 + 1/2*s * (1/2*s))).
      { unfold Rdiv at 1. apply Rmult_lt_0_compat; [lra|apply Rinv_0_lt_compat; auto]. } lra.
    - apply (Rmult_lt_reg_r (1 + 1/2*s * (1/2*s))); auto. unfold Rdiv at 1.
      rewrite Rmult_assoc, Rinv_l by lra. nra. }
  nra.
Qed.

(** ** ball versions *)
Section Ball.
  Variable n : nat.
  Lemma ball_exp_log e k x y : 0 <= e -> k < - / 10 ^ 8 -> safe n k x -> in_domain n k y ->
    norm_ok n (mobius_add n k (vopp x) y) ->
    length_ok e k (nrm n (mobius_add n k (vopp x) y)) ->
    norm_ok n (logmap n e k x y) ->
    same n (expmap n e k x (logmap n e k x y)) y.
  Proof.
    intros He Hk Sx Dy N1 L N2. fold e8 in Hk. pose proof e8_pos.
    assert (Dx : in_domain n k x) by (apply safe_in_domain; auto; lra).
    apply exp_log; auto.
    - right; left; auto.
    - apply safe_regular; auto using safe_opp; lra.
    - apply safe_regular; auto; [lra|]. apply add_in_domain; auto using in_domain_opp; lra.
  Qed.
  Lemma ball_log_exp e k x u : 0 <= e -> k < - / 10 ^ 8 -> safe n k x -> norm_ok n u ->
    angle_ok e k (lambda_x n k x * nrm n u / 2) ->
    e15 <= tan_k e (lambda_x n k x * nrm n u / 2) k \/ nrm n u = 0 ->
    same n (logmap n e k x (expmap n e k x u)) u.
  Proof.
    intros He Hk Sx N A T. fold e8 in Hk. pose proof e8_pos.
    assert (Dx : in_domain n k x) by (apply safe_in_domain; auto; lra).
    apply log_exp; auto.
    - right; left; auto.
    - apply safe_regular; auto; [lra|]. destruct (Req_dec (nrm n u) 0) as [Z|Z].
      + apply in_domain_le with vzero; [lra|apply in_domain_0|]. vexp.
        replace (dot n u u) with 0 by (rewrite <- nrm_sq, Z; ring). unfold Rdiv. lra.
      + apply short_in_domain with e; auto; [lra|apply tan_k_neg_small; auto|].
        pose proof (nrm_nonneg n u). rewrite nrm_vdiv by auto. rewrite Rabs_right by lra.
        right. field. auto.
    - apply safe_regular; auto using safe_opp; [lra|]. apply expmap_in_domain; auto.
  Qed.
  Lemma ball_geodesic_dist e k t x y : 0 <= e -> k < - / 10 ^ 8 -> 0 <= t <= 1 ->
    safe n k x -> in_domain n k y -> norm_ok n (mobius_add n k (vopp x) y) ->
    dist n e k x (geodesic n e k t x y) = t * dist n e k x y.
  Proof.
    intros He Hk Ht Sx Dy N. fold e8 in Hk. pose proof e8_pos.
    assert (Dx : in_domain n k x) by (apply safe_in_domain; auto; lra).
    apply geodesic_dist; auto.
    - right; left; auto.
    - apply safe_regular; auto; [lra|]. apply scalar_mul_in_domain; auto.
    - apply safe_regular; auto using safe_opp; [lra|]. apply geodesic_in_domain; auto.
  Qed.
End Ball.

(** ** satisfiability examples *)
Ltac e15num := pose proof e15_val as V15; unfold e15 in V15; pose proof e7_val as V7; unfold e7 in V7;
  pose proof e8_val as V8; unfold e8 in V8;
  assert (V5 : / 10 ^ 5 = 1 / 100000) by (simpl; field).

Lemma ex_left_cancel : regular 1 1 (pt (1/2)) (pt (1/4))
  /\ regular 1 1 (vopp (pt (1/2))) (mobius_add 1 1 (pt (1/2)) (pt (1/4))).
Proof.
  e15num. split; [unfold regular; rewrite !dot1, V15; lra|].
  rewrite pt_add, clamp_min_id by (rewrite e15_val; lra).
  unfold regular. rewrite pt_opp, !dot1, V15. lra.
Qed.
Lemma safe_pt a : Rabs a <= 9/10 -> safe 1 (-1) (pt a).
Proof.
  e15num. intros H. unfold safe. replace (- (-1)) with 1 by ring. rewrite sqrt_1, nrm1, V5. lra.
Qed.
Lemma domain_pt a : Rabs a <= 9/10 -> in_domain 1 (-1) (pt a).
Proof. intros; apply safe_in_domain; [lra|apply safe_pt; auto]. Qed.
Lemma ex_ball : safe 1 (-1) (pt (1/2)) /\ in_domain 1 (-1) (pt (3/4)).
Proof. split; [apply safe_pt|apply domain_pt]; rewrite Rabs_right; lra. Qed.
Lemma ex_domain : in_domain 1 (-1) (pt (3/4)) /\ ~ in_domain 1 (-1) (pt 1).
Proof. split; [apply domain_pt; rewrite Rabs_right; lra|]. unfold in_domain. rewrite dot1. lra. Qed.
Lemma ex_project : e15 <= nrm 1 (pt 2) /\ maxnorm e15 (/ 10 ^ 5) (-1) < nrm 1 (pt 2)
  /\ e15 <= maxnorm e15 (/ 10 ^ 5) (-1).
Proof.
  e15num. rewrite nrm1, Rabs_right by lra. rewrite e15_val.
  assert (Sq := k_sqrt_sq e15 (-1) ltac:(pose proof e15_pos; lra)). rewrite Rabs_left in Sq by lra.
  assert (Sp : 0 < k_sqrt e15 (-1)) by (pose proof e15_pos; apply k_sqrt_pos; lra).
  rewrite e15_val in Sq, Sp.
  unfold maxnorm. destruct Rlt_dec; [|lra]. fold (k_sqrt (1 / 1000000000000000) (-1)).
  set (s := k_sqrt (1 / 1000000000000000) (-1)) in *.
  assert (1 < s < 2) by nra.
  assert (/ 2 < / s < 1).
  { split; [apply Rinv_lt_contravar; lra|]. rewrite <- Rinv_1. apply Rinv_lt_contravar; lra. }
  rewrite V5. unfold Rdiv at 2 5. repeat split; try lra; nra.
Qed.
Lemma ex_triangle : closed_form (-1) /\ in_domain 1 (-1) (pt (1/2)) /\
  in_domain 1 (-1) (pt 0) /\ in_domain 1 (-1) (pt (1/4)) /\
  regular 1 (-1) (vopp (pt (1/2))) (pt 0) /\ regular 1 (-1) (vopp (pt 0)) (pt (1/4)) /\
  regular 1 (-1) (vopp (pt (1/2))) (pt (1/4)).
Proof.
  e15num. split; [right; left; rewrite V8; lra|].
  repeat split; try (apply domain_pt; rewrite Rabs_right; lra);
    unfold regular; rewrite !pt_opp, !dot1, V15; lra.
Qed.
Lemma pt0 : vzero = pt 0. Proof. reflexivity. Qed.
Lemma ks_bounds : 1 < k_sqrt e15 (-1) < 1 + e15.
Proof.
  pose proof e15_val. pose proof e15_pos.
  assert (Sq := k_sqrt_sq e15 (-1) ltac:(lra)). rewrite Rabs_left in Sq by lra.
  assert (Sp : 0 < k_sqrt e15 (-1)) by (apply k_sqrt_pos; lra). split; nra.
Qed.
Lemma ex_exp_log : safe 1 (-1) vzero /\ in_domain 1 (-1) (pt (1/2)) /\
  norm_ok 1 (mobius_add 1 (-1) (vopp vzero) (pt (1/2))) /\
  length_ok e15 (-1) (nrm 1 (mobius_add 1 (-1) (vopp vzero) (pt (1/2)))) /\
  norm_ok 1 (logmap 1 e15 (-1) vzero (pt (1/2))).
Proof.
  e15num. replace (vopp vzero) with vzero by (veq; ring). rewrite add_0_l.
  pose proof ks_bounds. pose proof e15_val as E15. pose proof e8_val. pose proof e15_pos.
  split; [rewrite pt0; apply safe_pt; rewrite Rabs_R0; lra|].
  split; [apply domain_pt; rewrite Rabs_right; lra|].
  split; [left; rewrite nrm1, Rabs_right, V15; lra|].
  split.
  - intros _. rewrite nrm1, Rabs_right, V7 by lra. change (rt e15 (-1)) with (k_sqrt e15 (-1)). lra.
  - left. rewrite logmap_at_0. unfold logmap0. rewrite nrm1, Rabs_right by lra.
    rewrite clamp_min_id by lra. rewrite pt_vdiv, pt_smul, nrm1.
    rewrite artan_k_neg by lra. pose proof e7_val. rewrite artanh_c_id by lra.
    set (s := k_sqrt e15 (-1)) in *.
    assert (Hi : / 2 < / s) by (apply Rinv_lt_contravar; lra).
    assert (Ha : 1/4 <= atanh (1/2*s)).
    { assert (tanh (1/4) <= 1/2 * s).
      { rewrite tanh_exp. assert (exp (2 * (1/4)) <= 3).
        { apply Rle_trans with (exp 1); [left; apply exp_increasing; lra|apply exp_le_3]. }
        pose proof (exp_pos (2 * (1/4))).
        apply (Rmult_le_reg_r (exp (2 * (1 / 4)) + 1)); [lra|]. unfold Rdiv at 1.
        rewrite Rmult_assoc, Rinv_l by lra. nra. }
      rewrite <- (atanh_tanh (1/4)). apply atanh_le; [apply tanh_lt_1|auto|lra]. }
    rewrite Rabs_right; [rewrite V15; nra|]. apply Rle_ge. apply Rmult_le_pos; [|lra].
    apply Rmult_le_pos; lra.
Qed.
Lemma ex_log_exp : norm_ok 1 (pt (1/2)) /\
  angle_ok e15 (-1) (lambda_x 1 (-1) vzero * nrm 1 (pt (1/2)) / 2) /\
  e15 <= tan_k e15 (lambda_x 1 (-1) vzero * nrm 1 (pt (1/2)) / 2) (-1).
Proof.
  e15num. pose proof ks_bounds. pose proof e15_val as E15. pose proof e8_val. pose proof e7_val.
  rewrite lambda_0, nrm1, Rabs_right by lra. replace (2 * (1/2) / 2) with (1/2) by field.
  split; [left; rewrite nrm1, Rabs_right, V15; lra|].
  set (s := k_sqrt e15 (-1)) in *.
  assert (T : tanh (1/2 * s) < 3/4).
  { rewrite tanh_exp. assert (exp (2 * (1/2 * s)) < 7).
    { apply Rlt_le_trans with (exp (1 + 1/4)); [apply exp_increasing; lra|].
      rewrite exp_plus. pose proof exp_le_3. pose proof (exp_pos 1). pose proof (exp_pos (1/4)).
      assert (exp (1/4) * exp (1/4) * (exp (1/4) * exp (1/4)) <= 3).
      { rewrite <- !exp_plus. replace (1/4+1/4+(1/4+1/4)) with 1 by field. auto. }
      generalize dependent (exp (1/4)). intros q Hq Hq4.
      assert (Hp : q * q <= 2).
      { generalize dependent (q * q). intros p Hp. destruct (Rle_dec p 2); [auto|]. nra. }
      assert (q <= 3/2) by (clear - Hp Hq; nra). nra. }
    pose proof (exp_pos (2 * (1/2 * s))).
    apply (Rmult_lt_reg_r (exp (2 * (1 / 2 * s)) + 1)); [lra|]. unfold Rdiv at 1.
    rewrite Rmult_assoc, Rinv_l by lra. nra. }
  split.
  - apply angle_ok_free. split; [|lra]. intros _. fold s. rewrite <- (atanh_tanh (1/2*s)).
    apply atanh_le; [apply tanh_lt_1|lra|lra].
  - rewrite tan_k_neg by lra. fold s. unfold tanh_c. rewrite clamp_id by lra.
    assert (Hi : / 2 < / s) by (apply Rinv_lt_contravar; lra).
    assert (1/8 <= tanh (1/2 * s)).
    { apply Rle_trans with (tanh (1/2)); [|apply tanh_le; lra].
      rewrite tanh_exp. replace (2 * (1/2)) with 1 by field. pose proof (exp_ineq1_le 1).
      apply (Rmult_le_reg_r (exp 1 + 1)); [lra|]. unfold Rdiv at 2.
      rewrite Rmult_assoc, Rinv_l by lra. lra. }
    rewrite E15. nra.
Qed.
Lemma ex_transport : regular 1 (-1) (pt (1/2)) (vopp (pt (1/4))).
Proof. e15num. unfold regular. rewrite pt_opp, !dot1, V15. lra. Qed.
Lemma ex_cross_terms : exists k xs us,
  inner_rows 1 k xs us us 0 1 <> inner 1 k (xs 0%nat) (us 0%nat) (us 0%nat) /\
  inner_rows 1 k xs us us 0 1 <> inner 1 k (xs 1%nat) (us 1%nat) (us 1%nat).
Proof.
  exists (-1), (fun i => match i with O => pt 0 | _ => pt (1/2) end),
    (fun i => match i with O => pt 1 | _ => pt 2 end).
  unfold inner_rows, inner, lambda_x. rewrite !dot1. pose proof e15_val.
  rewrite !clamp_min_id by lra. split; lra.
Qed.
Lemma ex_surface : exists z : vec,
  1 * dot 1 z z + (Rabs 1 + 0) * z 1%nat ^ 2 = 1 /\
  0 < 1 + sqrt (Rabs 1 + 0) * z 1%nat <= 2 * 10 ^ 15 /\ z 0%nat <> 0.
Proof.
  exists (fun i => match i with O => 3/5 | _ => 4/5 end).
  rewrite Rabs_right, Rplus_0_r, sqrt_1 by lra. unfold dot; simpl. lra.
Qed.
