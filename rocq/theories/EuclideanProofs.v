(** Lemmas for EuclideanProps. *)
From Coq Require Import Reals List ZArith Lia Bool Arith FunctionalExtensionality Lra.
From Verif Require Import RVec UtilsModel BaseModel NdModel NdSpec NdProofs EuclideanModel EuclideanSpec.
Import ListNotations.
Local Open Scope nat_scope.

(** * Shapes *)
Lemma columns_spec (f : nat -> list nat) : forall n i r, bcast_columns (map f (seq i n)) = Some r <->
  length r = n /\ forall j, j < n -> bcast_dims 1 (f (i + j)) = Some (nth j r 1).
Proof.
  induction n as [|n IH]; intros i r; cbn [seq map bcast_columns].
  - split; [intros [= <-]; split; [reflexivity|lia]|]. intros [L _]. destruct r; [reflexivity|discriminate].
  - split.
    + destruct (bcast_dims 1 (f i)) as [d|] eqn:D; [|discriminate]. destruct (bcast_columns (map f (seq (S i) n))) as [ds|] eqn:E; [|discriminate].
      intros [= <-]. apply IH in E as [L E]. split; [cbn; lia|]. intros [|j] J; [rewrite Nat.add_0_r; exact D|]. cbn [nth].
      replace (i + S j) with (S i + j) by lia. apply E. lia.
    + intros [L H]. destruct r as [|d r]; [discriminate|]. pose proof (H 0 ltac:(lia)) as D. rewrite Nat.add_0_r in D. rewrite D. cbn [nth].
      assert (E : bcast_columns (map f (seq (S i) n)) = Some r).
      { apply IH. split; [cbn in L; lia|]. intros j J. specialize (H (S j) ltac:(lia)). replace (S i + j) with (i + S j) by lia. exact H. }
      rewrite E. reflexivity.
Qed.
Lemma target_columns l : target l = bcast_columns (zip_longest l).
Proof.
  unfold target, broadcast_shapes. rewrite map_map. replace (map (fun x => rev (rev x)) l) with l.
  - destruct (bcast_columns (zip_longest l)); [rewrite rev_involutive|]; reflexivity.
  - induction l; cbn; [|rewrite rev_involutive]; congruence.
Qed.
Lemma dims2 a b : 1 <= a -> 1 <= b -> bcast_dims 1 [a; b] = bdim a b.
Proof.
  intros A B. unfold bdim. cbn [bcast_dims].
  repeat match goal with
  | |- context [?x =? ?y] => destruct (Nat.eqb_spec x y); cbn [negb andb]
  | |- context [?x <? ?y] => destruct (Nat.ltb_spec x y); cbn [negb andb]
  end; subst; try reflexivity; try congruence; try lia; f_equal; lia.
Qed.
Lemma nth_pos s a : Forall (fun d => 1 <= d) s -> 1 <= nth a s 1.
Proof. intros F. destruct (lt_dec a (length s)); [|rewrite nth_overflow by lia; lia]. rewrite Forall_forall in F. apply F, nth_In. auto. Qed.
Lemma target2_iff s1 s2 r : Forall (fun d => 1 <= d) s1 -> Forall (fun d => 1 <= d) s2 -> (target [s1; s2] = Some r <-> bshape s1 s2 = Some r).
Proof.
  intros P1 P2. rewrite target_columns. unfold zip_longest. rewrite columns_spec, bshape_spec.
  assert (M : list_max (map (@length nat) [s1; s2]) = Nat.max (length s1) (length s2)) by (cbn; lia). rewrite M.
  split; intros [L H]; (split; [exact L|]).
  - intros a. destruct (lt_dec a (Nat.max (length s1) (length s2))) as [A|A].
    + specialize (H a A). cbn [map Nat.add] in H. rewrite dims2 in H by (apply nth_pos; auto). exact H.
    + rewrite !nth_overflow by lia. reflexivity.
  - intros j _. cbn [map Nat.add]. rewrite dims2 by (apply nth_pos; auto). apply H.
Qed.
Lemma target2 s1 s2 : Forall (fun d => 1 <= d) s1 -> Forall (fun d => 1 <= d) s2 -> target [s1; s2] = bshape s1 s2.
Proof.
  intros P1 P2. destruct (target [s1; s2]) as [r|] eqn:E.
  - symmetry. apply target2_iff; auto.
  - destruct (bshape s1 s2) as [r|] eqn:B; [|reflexivity]. apply target2_iff in B; auto. congruence.
Qed.
Lemma bdim_pos a b c : 1 <= a -> 1 <= b -> bdim a b = Some c -> 1 <= c.
Proof. intros A B H. apply bdim_spec in H as (_ & _ & _ & [->| ->]); auto. Qed.
Lemma bshape_pos s1 : forall s2 s, Forall (fun d => 1 <= d) s1 -> Forall (fun d => 1 <= d) s2 -> bshape s1 s2 = Some s -> Forall (fun d => 1 <= d) s.
Proof.
  induction s1 as [|a s1 IH]; intros s2 s P1 P2 B; cbn in B; [injection B as <-; exact P2|]. destruct s2 as [|b s2]; [injection B as <-; exact P1|].
  destruct (bdim a b) as [d|] eqn:D; [|discriminate]. destruct (bshape s1 s2) as [r|] eqn:R; [|discriminate]. injection B as <-.
  inversion P1; inversion P2; subst. constructor; [apply (bdim_pos a b d); assumption|apply (IH s2); assumption].
Qed.
Lemma dims3 a b c d : 1 <= a -> 1 <= b -> 1 <= c -> bdim a b = Some d -> bcast_dims 1 [a; b; c] = bdim d c.
Proof.
  intros A B C D. pose proof (bdim_pos _ _ _ A B D) as Dp. rewrite <- (dims2 d c Dp C).
  rewrite <- (dims2 a b A B) in D.
  assert (S : forall l x, bcast_dims x (l ++ [c]) = match bcast_dims x l with Some y => bcast_dims y [c] | None => None end).
  { induction l as [|h l IH]; intros x; [reflexivity|]. cbn [app bcast_dims].
    destruct (negb (x =? 1) && negb (h =? 1) && negb (h =? x)); [reflexivity|]. destruct (x <? h); apply IH. }
  change [a; b; c] with ([a; b] ++ [c]). rewrite (S [a; b] 1), D.
  change [d; c] with ([d] ++ [c]). rewrite (S [d] 1).
  assert (E : bcast_dims 1 [d] = Some d). { cbn [bcast_dims]. destruct (Nat.ltb_spec 1 d); cbn; [reflexivity|]. f_equal. lia. }
  rewrite E. reflexivity.
Qed.
Lemma target3 s1 s2 s3 s r : Forall (fun d => 1 <= d) s1 -> Forall (fun d => 1 <= d) s2 -> Forall (fun d => 1 <= d) s3 ->
  bshape s1 s2 = Some s -> bshape s s3 = Some r -> target [s1; s2; s3] = Some r.
Proof.
  intros P1 P2 P3 B C. rewrite target_columns. unfold zip_longest. apply columns_spec.
  apply bshape_spec in B as [L H]. apply bshape_spec in C as [M K].
  split; [cbn; lia|]. intros j _. cbn [map Nat.add]. rewrite (dims3 _ _ _ (nth j s 1)) by (try apply nth_pos; auto). apply K.
Qed.
Lemma expands_r s1 : forall s2 s, bshape s1 s2 = Some s -> expands s s2 = true.
Proof.
  induction s1 as [|a s1 IH]; intros s2 s B; cbn in B.
  - injection B as <-. induction s2; cbn; [reflexivity|]. rewrite Nat.eqb_refl. exact IHs2.
  - destruct s2 as [|b s2]; [destruct s; reflexivity|]. destruct (bdim a b) as [d|] eqn:D; [|discriminate]. destruct (bshape s1 s2) as [r|] eqn:R; [|discriminate].
    injection B as <-. cbn. apply bdim_spec in D as (_ & [->| ->] & _); [rewrite orb_true_r|rewrite Nat.eqb_refl]; cbn; apply (IH _ _ R).
Qed.
Lemma expand_r s1 s t : bshape s1 (rsh t) = Some s -> exists z, expand s t = Some z /\ rsh z = s /\ forall ix, read z ix = read t ix.
Proof.
  intros B. unfold expand. rewrite (expands_r _ _ _ B). eexists. split; [reflexivity|]. split; [reflexivity|]. intros ix.
  unfold read at 1. cbn [at_ rsh]. unfold read. rewrite (norm_bshape_r _ _ _ _ B). reflexivity.
Qed.
Lemma proju_spec x u s : nonempty x -> nonempty u -> bshape (rsh x) (rsh u) = Some s ->
  exists w, proju x u = Some w /\ rsh w = s /\ forall ix, read w ix = read u ix.
Proof. intros Px Pu B. unfold proju. rewrite target2 by auto. rewrite B. apply (expand_r _ _ _ B). Qed.
Lemma transp_spec x y v s r : nonempty x -> nonempty y -> nonempty v -> bshape (rsh x) (rsh y) = Some s -> bshape s (rsh v) = Some r ->
  exists w, transp x y v = Some w /\ rsh w = r /\ forall ix, read w ix = read v ix.
Proof. intros Px Py Pv B C. unfold transp. rewrite (target3 _ _ _ _ _ Px Py Pv B C). apply (expand_r _ _ _ C). Qed.

(** * Sums over the manifold axes *)
Lemma over_ext sizes : forall f g, (forall js, within sizes js -> f js = g js) -> over sizes f = over sizes g.
Proof.
  induction sizes as [|d sizes IH]; intros f g H; cbn; [apply H; constructor|]. apply IH. intros js W. apply Rsum_ext. intros j J. apply H. constructor; assumption.
Qed.
Lemma sum_last_spec k : forall t, k <= length (rsh t) -> exists z, sum_last k t = Some z /\ rsh z = skipn k (rsh t) /\
  forall ix, read z ix = over (firstn k (rsh t)) (fun js => read t (together js ix)).
Proof.
  induction k as [|k IH]; intros t L.
  - exists t. split; [reflexivity|]. split; [reflexivity|]. intros ix. cbn. f_equal. apply functional_extensionality. intros a. unfold together. cbn. f_equal. lia.
  - destruct (rsh t) as [|d r] eqn:E; [cbn in L; lia|]. destruct (sum_drop t 0 d) as (z1 & S1 & R1 & V1); [rewrite E; reflexivity|].
    cbn [sum_last]. cbn in S1. rewrite S1. assert (R1' : rsh z1 = r) by (rewrite R1, E; reflexivity).
    destruct (IH z1) as (z & S & R & V); [rewrite R1'; cbn in L; lia|]. exists z. split; [exact S|]. split; [rewrite R, R1'; reflexivity|].
    intros ix. rewrite V, R1'. cbn [firstn over]. apply over_ext. intros js _. rewrite V1. apply Rsum_ext. intros j _. f_equal.
    apply functional_extensionality. intros [|a]; unfold ins, together; cbn; [reflexivity|]. rewrite Nat.sub_0_r. reflexivity.
Qed.
Lemma read_keep_axes k t ix : read (keep_axes k t) ix = read t (fun a => ix (a + k)).
Proof.
  unfold read at 1. cbn [at_ rsh keep_axes]. unfold read. f_equal. apply functional_extensionality. intros a. unfold norm_index.
  rewrite app_nth2 by (rewrite repeat_length; lia). rewrite repeat_length. replace (a + k - k) with a by lia. destruct (nth a (rsh t) 1 =? 1); reflexivity.
Qed.
Lemma sum_dims_spec k kd t : k <= length (rsh t) -> exists z, sum_dims k kd t = Some z /\ rsh z = ones kd k ++ skipn k (rsh t) /\
  forall ix, read z ix = over (firstn k (rsh t)) (block kd k t ix).
Proof.
  intros L. destruct (sum_last_spec k t L) as (z & S & R & V). unfold sum_dims. rewrite S. destruct kd.
  - eexists. split; [reflexivity|]. split; [cbn; rewrite R; reflexivity|]. intros ix. rewrite read_keep_axes, V. reflexivity.
  - exists z. auto.
Qed.
Lemma norm_dims_spec k kd t : k <= length (rsh t) -> exists z, norm_dims k kd t = Some z /\ rsh z = ones kd k ++ skipn k (rsh t) /\
  forall ix, read z ix = sqrt (over (firstn k (rsh t)) (fun js => block kd k t ix js ^ 2)%R).
Proof.
  intros L. destruct (sum_dims_spec k kd (lift1 (fun a => a ^ 2)%R t) L) as (z & S & R & V). unfold norm_dims. rewrite S.
  eexists. split; [reflexivity|]. split; [exact R|]. intros ix. rewrite read_lift1, V. f_equal. apply over_ext. intros js _. unfold block. rewrite read_lift1. reflexivity.
Qed.
Lemma bs_ones k : forall a b s, bshape a b = Some s -> bshape (repeat 1 k ++ a) (repeat 1 k ++ b) = Some (repeat 1 k ++ s).
Proof. induction k as [|k IH]; intros a b s B; cbn; [exact B|]. rewrite (IH _ _ _ B). reflexivity. Qed.
Lemma block0 kd t ix : block kd 0 t ix [] = read t ix.
Proof.
  unfold block. f_equal. apply functional_extensionality. intros a. unfold together, batch. cbn. destruct kd; f_equal; lia.
Qed.
Lemma pos_skipn k s : Forall (fun d => 1 <= d) s -> Forall (fun d => 1 <= d) (skipn k s).
Proof. intros F. rewrite <- (firstn_skipn k s) in F. apply Forall_app in F. apply F. Qed.
Lemma pos_ones k s : Forall (fun d => 1 <= d) s -> Forall (fun d => 1 <= d) (repeat 1 k ++ s).
Proof. intros F. apply Forall_app. split; [|exact F]. apply Forall_forall. intros d D. apply repeat_spec in D. lia. Qed.

Lemma inner_of k kd x p s : nonempty x -> nonempty p -> k <= length (rsh p) -> bshape (skipn k (rsh x)) (skipn k (rsh p)) = Some s ->
  exists i, (if 0 <? k then
      let* i := sum_dims k kd p in
      let x_shape := (if kd then repeat 1 k else []) ++ skipn k (rsh x) in
      let* s := target [x_shape; rsh i] in
      expand s i
    else
      let* s := target [rsh x; rsh p] in
      expand s p) = Some i /\ rsh i = ones kd k ++ s /\ forall ix, read i ix = over (firstn k (rsh p)) (block kd k p ix).
Proof.
  intros Px Pp L B. destruct (Nat.ltb_spec 0 k) as [K|K].
  - destruct (sum_dims_spec k kd p L) as (z & S & R & V). rewrite S. cbv zeta.
    assert (T : target [(if kd then repeat 1 k else []) ++ skipn k (rsh x); rsh z] = Some (ones kd k ++ s)).
    { rewrite R. unfold ones. rewrite target2.
      - destruct kd; [apply bs_ones|]; exact B.
      - destruct kd; [apply pos_ones|]; apply pos_skipn; exact Px.
      - destruct kd; [apply pos_ones|]; apply pos_skipn; exact Pp. }
    rewrite T. rewrite target2 in T.
    + destruct (expand_r _ _ _ T) as (i & I & Ri & Vi). exists i. split; [exact I|]. split; [exact Ri|]. intros ix. rewrite Vi. apply V.
    + destruct kd; [apply pos_ones|]; apply pos_skipn; exact Px.
    + rewrite R. unfold ones. destruct kd; [apply pos_ones|]; apply pos_skipn; exact Pp.
  - assert (k = 0) as -> by lia. cbn in B. rewrite target2 by auto. rewrite B.
    destruct (expand_r _ _ _ B) as (i & I & Ri & Vi). exists i. split; [exact I|]. split; [rewrite Ri; unfold ones; destruct kd; reflexivity|].
    intros ix. rewrite Vi. cbn [firstn over]. symmetry. apply block0.
Qed.
Lemma inner_spec k kd x u v p s : nonempty x -> nonempty u -> nonempty v -> bshape (rsh u) (rsh v) = Some p -> k <= length p ->
  bshape (skipn k (rsh x)) (skipn k p) = Some s ->
  exists i, inner k kd x u (Some v) = Some i /\ rsh i = ones kd k ++ s /\
    forall ix, read i ix = over (firstn k p) (fun js => block kd k u ix js * block kd k v ix js)%R.
Proof.
  intros Px Pu Pv B L S. unfold inner. destruct (lift2_some Rmult _ _ _ B) as (t & T & Rt & Vt). rewrite T.
  destruct (inner_of k kd x t s) as (i & I & Ri & Vi); auto.
  - unfold nonempty. rewrite Rt. apply (bshape_pos _ _ _ Pu Pv B).
  - rewrite Rt. exact L.
  - rewrite Rt. exact S.
  - exists i. split; [exact I|]. split; [exact Ri|]. intros ix. rewrite Vi, Rt. apply over_ext. intros js _. unfold block. apply Vt.
Qed.
Lemma inner_none k kd x u s : nonempty x -> nonempty u -> k <= length (rsh u) -> bshape (skipn k (rsh x)) (skipn k (rsh u)) = Some s ->
  exists i, inner k kd x u None = Some i /\ rsh i = ones kd k ++ s /\
    forall ix, read i ix = over (firstn k (rsh u)) (fun js => block kd k u ix js * block kd k u ix js)%R.
Proof.
  intros Px Pu L S. unfold inner. destruct (inner_of k kd x (lift1 (fun a => a ^ 2)%R u) s) as (i & I & Ri & Vi); auto.
  exists i. split; [exact I|]. split; [exact Ri|]. intros ix. rewrite Vi. apply over_ext. intros js _. unfold block. rewrite read_lift1. ring.
Qed.
Lemma abs_sqrt a : Rabs a = sqrt (a ^ 2)%R.
Proof. rewrite <- sqrt_Rsqr_abs. f_equal. unfold Rsqr. ring. Qed.
Lemma norm_spec k kd x u : k <= length (rsh u) -> exists n, norm k kd x u = Some n /\ rsh n = ones kd k ++ skipn k (rsh u) /\
  forall ix, read n ix = sqrt (over (firstn k (rsh u)) (fun js => block kd k u ix js ^ 2)%R).
Proof.
  intros L. unfold norm. destruct (Nat.ltb_spec 0 k); [apply norm_dims_spec; exact L|]. assert (k = 0) as -> by lia.
  eexists. split; [reflexivity|]. split; [destruct kd; reflexivity|]. intros ix. rewrite read_lift1. cbn [firstn over]. rewrite block0. apply abs_sqrt.
Qed.
Lemma dist_spec k kd x y s : bshape (rsh x) (rsh y) = Some s -> k <= length s -> exists d, dist k kd x y = Some d /\ rsh d = ones kd k ++ skipn k s /\
  forall ix, read d ix = sqrt (over (firstn k s) (fun js => (block kd k x ix js - block kd k y ix js) ^ 2)%R).
Proof.
  intros B L. unfold dist. destruct (lift2_some Rminus _ _ _ B) as (t & T & Rt & Vt). rewrite T. destruct (Nat.ltb_spec 0 k).
  - destruct (norm_dims_spec k kd t) as (z & Z & Rz & Vz); [rewrite Rt; exact L|]. exists z. split; [exact Z|]. split; [rewrite Rz, Rt; reflexivity|].
    intros ix. rewrite Vz, Rt. f_equal. apply over_ext. intros js _. unfold block. rewrite Vt. reflexivity.
  - assert (k = 0) as -> by lia. eexists. split; [reflexivity|]. split; [cbn; rewrite Rt; destruct kd; reflexivity|]. intros ix. rewrite read_lift1, Vt.
    cbn [firstn over]. rewrite !block0. apply abs_sqrt.
Qed.
Lemma dist2_spec k kd x y s : bshape (rsh x) (rsh y) = Some s -> k <= length s -> exists d, dist2 k kd x y = Some d /\ rsh d = ones kd k ++ skipn k s /\
  forall ix, read d ix = over (firstn k s) (fun js => (block kd k x ix js - block kd k y ix js) ^ 2)%R.
Proof.
  intros B L. unfold dist2. destruct (lift2_some Rminus _ _ _ B) as (t & T & Rt & Vt). rewrite T. destruct (Nat.ltb_spec 0 k).
  - destruct (sum_dims_spec k kd (lift1 (fun a => a ^ 2)%R t)) as (z & Z & Rz & Vz); [cbn; rewrite Rt; exact L|]. exists z. split; [exact Z|]. split; [rewrite Rz; cbn; rewrite Rt; reflexivity|].
    intros ix. rewrite Vz. cbn [rsh lift1]. rewrite Rt. apply over_ext. intros js _. unfold block. rewrite read_lift1, Vt. reflexivity.
  - assert (k = 0) as -> by lia. eexists. split; [reflexivity|]. split; [cbn; rewrite Rt; destruct kd; reflexivity|]. intros ix. rewrite read_lift1, Vt.
    cbn [firstn over]. rewrite !block0. reflexivity.
Qed.
(** * over is a positive linear form *)
Local Open Scope R_scope.
Lemma over_plus sizes : forall f g, over sizes (fun js => f js + g js) = over sizes f + over sizes g.
Proof.
  induction sizes as [|d sizes IH]; intros f g; cbn; [reflexivity|]. rewrite <- IH. apply over_ext. intros js _. apply Rsum_plus.
Qed.
Lemma over_scal sizes a : forall f, over sizes (fun js => a * f js) = a * over sizes f.
Proof.
  induction sizes as [|d sizes IH]; intros f; cbn; [reflexivity|]. rewrite <- IH. apply over_ext. intros js _. apply Rsum_scal.
Qed.
Lemma over_nonneg sizes : forall f, (forall js, 0 <= f js) -> 0 <= over sizes f.
Proof. induction sizes as [|d sizes IH]; intros f H; cbn; [apply H|]. apply IH. intros js. apply Rsum_nonneg. auto. Qed.
Lemma over_zero sizes : forall f, (forall js, 0 <= f js) -> over sizes f = 0 -> forall js, within sizes js -> f js = 0.
Proof.
  induction sizes as [|d sizes IH]; intros f H E js W; inversion W; subst; cbn in E; [exact E|].
  pose proof (IH _ (fun js => Rsum_nonneg d _ (fun j _ => H (j :: js))) E l' ltac:(assumption)) as S.
  apply (Rsum_nonneg_zero d (fun j => f (j :: l')) (fun j _ => H (j :: l')) S). assumption.
Qed.
Lemma over_cs sizes f g : over sizes (fun js => f js * g js) ^ 2 <= over sizes (fun js => f js ^ 2) * over sizes (fun js => g js ^ 2).
Proof.
  set (A := over sizes (fun js => f js ^ 2)). set (B := over sizes (fun js => f js * g js)). set (C := over sizes (fun js => g js ^ 2)).
  assert (Q : forall a b, 0 <= a ^ 2 * A + 2 * a * b * B + b ^ 2 * C).
  { intros a b. replace (a ^ 2 * A + 2 * a * b * B + b ^ 2 * C) with (over sizes (fun js => (a * f js + b * g js) ^ 2)).
    - apply over_nonneg. intros js. apply pow2_ge_0.
    - unfold A, B, C. rewrite <- !over_scal, <- !over_plus. apply over_ext. intros js _. ring. }
  assert (C0 : 0 <= C) by (apply over_nonneg; intros; apply pow2_ge_0).
  destruct (Rle_lt_or_eq_dec _ _ C0) as [Cp|Cz].
  - pose proof (Q C (- B)) as H. apply Rmult_le_reg_l with C; [exact Cp|]. nra.
  - rewrite <- Cz in *. rewrite Rmult_0_r. assert (A0 : 0 <= A) by (apply over_nonneg; intros; apply pow2_ge_0).
    destruct (Req_dec B 0) as [->|Bn]; [lra|]. exfalso. pose proof (Q 1 (- (A + 1) / B)) as H.
    replace (2 * 1 * (- (A + 1) / B) * B) with (- 2 * (A + 1)) in H by (field; exact Bn). lra.
Qed.
Lemma over_minkowski sizes f g : sqrt (over sizes (fun js => (f js + g js) ^ 2)) <= sqrt (over sizes (fun js => f js ^ 2)) + sqrt (over sizes (fun js => g js ^ 2)).
Proof.
  pose proof (over_cs sizes f g) as CS.
  set (A := over sizes (fun js => f js ^ 2)) in *. set (B := over sizes (fun js => f js * g js)) in *. set (C := over sizes (fun js => g js ^ 2)) in *.
  assert (A0 : 0 <= A) by (apply over_nonneg; intros; apply pow2_ge_0). assert (C0 : 0 <= C) by (apply over_nonneg; intros; apply pow2_ge_0).
  replace (over sizes (fun js => (f js + g js) ^ 2)) with (A + 2 * B + C).
  2: { unfold A, B, C. rewrite <- over_scal, <- !over_plus. apply over_ext. intros js _. ring. }
  pose proof (sqrt_pos A) as SA. pose proof (sqrt_pos C) as SC. rewrite <- (sqrt_pow2 (sqrt A + sqrt C)) by lra.
  apply sqrt_le_1_alt. assert (B <= sqrt A * sqrt C).
  { rewrite <- sqrt_mult by assumption. destruct (Rle_or_lt B 0); [eapply Rle_trans; [eassumption|apply sqrt_pos]|].
    rewrite <- (sqrt_pow2 B) by lra. apply sqrt_le_1_alt, CS. }
  pose proof (pow2_sqrt A A0). pose proof (pow2_sqrt C C0). nra.
Qed.
