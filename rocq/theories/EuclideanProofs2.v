(** Lemmas for EuclideanProps: metric laws, maps, counterexamples. *)
From Coq Require Import Reals List ZArith Lia Bool Arith FunctionalExtensionality Lra.
From Verif Require Import RVec UtilsModel BaseModel NdModel NdSpec NdProofs EuclideanModel EuclideanSpec EuclideanProofs.
Import ListNotations.
Local Open Scope R_scope.

Lemma bs_firstn k : forall a b s, bshape a b = Some s -> (k <= length a)%nat -> (k <= length b)%nat -> firstn k a = firstn k b -> firstn k s = firstn k a.
Proof.
  induction k as [|k IH]; intros a b s B La Lb E; [reflexivity|]. destruct a as [|x a], b as [|y b]; cbn in La, Lb; try lia. cbn in E. injection E as -> E. cbn in B.
  rewrite bdim_same in B. destruct (bshape a b) as [r|] eqn:R; [|discriminate]. injection B as <-. cbn. f_equal. apply (IH _ _ _ R); auto; lia.
Qed.
Lemma bs_long_l a b s : bshape a b = Some s -> (length a <= length s)%nat.
Proof. intros B. apply bshape_spec in B as [-> _]. lia. Qed.
Lemma dist_defined k kd x y d : dist k kd x y = Some d -> exists s, bshape (rsh x) (rsh y) = Some s.
Proof. unfold dist, lift2. destruct (bshape (rsh x) (rsh y)) as [s|]; [eauto|discriminate]. Qed.
Lemma dist_value k kd x y d : same_axes k x y -> dist k kd x y = Some d ->
  forall ix, read d ix = sqrt (over (firstn k (rsh x)) (fun js => (block kd k x ix js - block kd k y ix js) ^ 2)).
Proof.
  intros (Lx & Ly & E) D. destruct (dist_defined _ _ _ _ _ D) as [s B]. pose proof (bs_long_l _ _ _ B) as L.
  destruct (dist_spec k kd x y s B ltac:(lia)) as (d' & D' & _ & V). rewrite D in D'. injection D' as <-.
  intros ix. rewrite V, (bs_firstn k _ _ _ B) by auto. reflexivity.
Qed.
Lemma dist_sym k kd x y d d' : dist k kd x y = Some d -> dist k kd y x = Some d' -> same_axes k x y -> forall ix, read d ix = read d' ix.
Proof.
  intros D D' (Lx & Ly & E) ix. rewrite (dist_value k kd x y d) by (repeat split; auto). rewrite (dist_value k kd y x d') by (repeat split; auto).
  rewrite E. f_equal. apply over_ext. intros js _. ring.
Qed.
Lemma dist_triangle k kd x y z a b c : same_axes k x y -> same_axes k y z ->
  dist k kd x y = Some a -> dist k kd y z = Some b -> dist k kd x z = Some c -> forall ix, 0 <= read c ix <= read a ix + read b ix.
Proof.
  intros (Lx & Ly & E) (_ & Lz & F) A B C ix.
  rewrite (dist_value k kd x y a), (dist_value k kd y z b), (dist_value k kd x z c) by (repeat split; auto; congruence). rewrite <- E.
  split; [apply sqrt_pos|]. eapply Rle_trans; [|apply over_minkowski]. apply Req_le. f_equal. apply over_ext. intros js _. ring.
Qed.
Lemma dist_zero k kd x y d : same_axes k x y -> dist k kd x y = Some d ->
  forall ix, read d ix = 0 <-> forall js, within (firstn k (rsh x)) js -> block kd k x ix js = block kd k y ix js.
Proof.
  intros S D ix. rewrite (dist_value _ _ _ _ _ S D). split.
  - intros E js W. apply sqrt_eq_0 in E; [|apply over_nonneg; intros; apply pow2_ge_0].
    pose proof (over_zero _ _ (fun js => pow2_ge_0 _) E js W) as Z. cbn beta in Z. nra.
  - intros H. rewrite (over_ext _ _ (fun _ => 0 * 0)); [|intros js W; rewrite (H js W); ring]. rewrite over_scal, Rmult_0_l. apply sqrt_0.
Qed.
Lemma dist_dist2 k kd x y d d2 : dist k kd x y = Some d -> dist2 k kd x y = Some d2 -> rsh d = rsh d2 /\ forall ix, read d2 ix = read d ix ^ 2.
Proof.
  unfold dist, dist2. destruct (lift2 Rminus x y) as [t|]; [|discriminate]. destruct (0 <? k)%nat.
  - unfold norm_dims. destruct (sum_dims k kd (lift1 (fun a => a ^ 2) t)) as [z|] eqn:Z; [|discriminate]. intros [= <-] [= <-]. split; [reflexivity|].
    intros ix. rewrite read_lift1. symmetry. apply pow2_sqrt.
    unfold sum_dims in Z. assert (L : (k <= length (rsh t))%nat).
    { destruct (sum_last k (lift1 (fun a => a ^ 2) t)) as [w|] eqn:W; [|discriminate]. change (rsh t) with (rsh (lift1 (fun a => a ^ 2) t)). revert W. generalize (lift1 (fun a => a ^ 2) t). clear. revert w.
      induction k as [|k IH]; intros w t W; [lia|]. cbn [sum_last] in W. destruct (rsh t) as [|d r] eqn:E.
      - unfold sum_ in W. rewrite E in W. cbn in W. discriminate.
      - destruct (sum_drop t 0 d) as (z1 & S1 & R1 & _); [rewrite E; reflexivity|]. cbn in S1. rewrite S1 in W. apply IH in W. rewrite R1, E in W. cbn in W. cbn. lia. }
    destruct (sum_dims_spec k kd (lift1 (fun a => a ^ 2) t) L) as (z' & Z' & _ & V). unfold sum_dims in Z'. rewrite Z in Z'. injection Z' as <-.
    rewrite V. apply over_nonneg. intros js. unfold block. rewrite read_lift1. apply pow2_ge_0.
  - intros [= <-] [= <-]. split; [reflexivity|]. intros ix. rewrite !read_lift1. symmetry. apply pow2_abs.
Qed.

(** * Exponential and logarithm *)
Lemma exp_log x y s : bshape (rsh x) (rsh y) = Some s -> exists u w, logmap x y = Some u /\ expmap x u = Some w /\ rsh w = s /\ forall ix, read w ix = read y ix.
Proof.
  intros B. pose proof (bs_comm _ _ _ B) as B'. destruct (lift2_some Rminus _ _ _ B') as (u & U & Ru & Vu).
  assert (C : bshape (rsh x) (rsh u) = Some s) by (rewrite Ru; apply bs_comm, (bs_lower_l _ _ _ B)).
  destruct (lift2_some Rplus _ _ _ C) as (w & W & Rw & Vw). exists u, w. split; [exact U|]. split; [exact W|]. split; [exact Rw|]. intros ix. rewrite Vw, Vu. ring.
Qed.
Lemma log_exp x u s : bshape (rsh x) (rsh u) = Some s -> exists y w, expmap x u = Some y /\ logmap x y = Some w /\ rsh w = s /\ forall ix, read w ix = read u ix.
Proof.
  intros B. destruct (lift2_some Rplus _ _ _ B) as (y & Y & Ry & Vy).
  assert (C : bshape (rsh y) (rsh x) = Some s) by (rewrite Ry; apply (bs_lower_l _ _ _ B)).
  destruct (lift2_some Rminus _ _ _ C) as (w & W & Rw & Vw). exists y, w. split; [exact Y|]. split; [exact W|]. split; [exact Rw|]. intros ix. rewrite Vw, Vy. ring.
Qed.
Lemma exp_dist k kd x u y d n : same_axes k x u -> expmap x u = Some y -> dist k kd x y = Some d -> norm k kd x u = Some n -> forall ix, read d ix = read n ix.
Proof.
  intros (Lx & Lu & E) Y D N ix. unfold expmap, lift2 in Y. destruct (bshape (rsh x) (rsh u)) as [s|] eqn:B; [|discriminate].
  destruct (lift2_some Rplus _ _ _ B) as (y' & Y' & Ry & Vy). unfold lift2 in Y'. rewrite B in Y'. rewrite Y in Y'. injection Y' as <-.
  assert (Fs : firstn k s = firstn k (rsh x)) by (apply (bs_firstn k _ _ _ B); auto).
  rewrite (dist_value k kd x y d); [|split; [exact Lx|]; rewrite Ry; split; [pose proof (bs_long_l _ _ _ B); lia|symmetry; exact Fs]|exact D].
  destruct (norm_spec k kd x u Lu) as (n' & N' & _ & V). rewrite N in N'. injection N' as <-. rewrite V, E. f_equal. apply over_ext. intros js _. unfold block. rewrite Vy. ring.
Qed.
Lemma norm_inner k kd x u i n : nonempty x -> nonempty u -> (k <= length (rsh u))%nat -> inner k kd x u None = Some i -> norm k kd x u = Some n -> forall ix, read i ix = read n ix ^ 2.
Proof.
  intros Px Pu L I N ix. destruct (norm_spec k kd x u L) as (n' & N' & _ & V). rewrite N in N'. injection N' as <-. rewrite V.
  assert (B : exists s, bshape (skipn k (rsh x)) (skipn k (rsh u)) = Some s).
  { destruct (bshape (skipn k (rsh x)) (skipn k (rsh u))) as [s|] eqn:B; [eauto|]. exfalso. unfold inner in I. destruct (Nat.ltb_spec 0 k).
    - destruct (sum_dims_spec k kd (lift1 (fun a => a ^ 2) u) L) as (z & Z & Rz & _). rewrite Z in I. rewrite Rz in I. cbn [rsh lift1] in I. unfold ones in I. rewrite target2 in I.
      + destruct kd.
        * assert (G : forall k a b, bshape (repeat 1%nat k ++ a) (repeat 1%nat k ++ b) = None <-> bshape a b = None).
          { clear. induction k as [|k IH]; intros a b; cbn; [tauto|]. rewrite <- (IH a b). destruct (bshape (repeat 1%nat k ++ a) (repeat 1%nat k ++ b)); split; congruence. }
          rewrite (proj2 (G k _ _) B) in I. discriminate.
        * cbn [app] in I. rewrite B in I. discriminate.
      + destruct kd; [apply pos_ones|]; apply pos_skipn; exact Px.
      + destruct kd; [apply pos_ones|]; apply pos_skipn; exact Pu.
    - assert (k = 0%nat) as -> by lia. cbn [skipn] in B. cbn [rsh lift1] in I. rewrite target2 in I by auto. rewrite B in I. discriminate. }
  destruct B as [s B]. destruct (inner_none k kd x u s Px Pu L B) as (i' & I' & _ & W). rewrite I in I'. injection I' as <-. rewrite W, pow2_sqrt.
  - apply over_ext. intros js _. ring.
  - apply over_nonneg. intros js. apply pow2_ge_0.
Qed.
Lemma component_sum k kd x u v p s i c : nonempty x -> nonempty u -> nonempty v -> bshape (rsh u) (rsh v) = Some p -> (k <= length p)%nat -> (k <= length (rsh x))%nat ->
  firstn k (rsh x) = firstn k p -> bshape (rsh x) p = Some s ->
  inner k kd x u (Some v) = Some i -> component_inner x u (Some v) = Some c ->
  rsh c = s /\ forall ix, read i ix = over (firstn k (rsh c)) (block kd k c ix).
Proof.
  intros Px Pu Pv B L Lx E S I C. unfold component_inner in C. destruct (lift2_some Rmult _ _ _ B) as (t & T & Rt & Vt). rewrite T in C.
  rewrite target2 in C; [|exact Px|rewrite Rt; apply (bshape_pos _ _ _ Pu Pv B)]. rewrite Rt, S in C. rewrite <- Rt in S. destruct (expand_r _ _ _ S) as (c' & C' & Rc & Vc).
  rewrite C in C'. injection C' as <-. split; [exact Rc|]. intros ix. rewrite Rt in S.
  assert (Bk : exists r, bshape (skipn k (rsh x)) (skipn k p) = Some r).
  { clear -S L Lx. revert s S L Lx. generalize (rsh x) as a. revert p. induction k as [|k IH]; intros p a s S L Lx; [eauto|].
    destruct a as [|y a], p as [|z p]; cbn in L, Lx; try lia. cbn in S. destruct (bdim y z); [|discriminate]. destruct (bshape a p) as [r|] eqn:R; [|discriminate]. apply (IH _ _ _ R); lia. }
  destruct Bk as [r Bk]. destruct (inner_spec k kd x u v p r Px Pu Pv B L Bk) as (i' & I' & _ & V). rewrite I in I'. injection I' as <-. rewrite V, Rc.
  rewrite (bs_firstn k _ _ _ S Lx L E), E. apply over_ext. intros js _. unfold block. rewrite Vc, Vt. reflexivity.
Qed.

(** * Counterexamples *)
Definition filled (s : list nat) (a : R) : nd := {| rsh := s; at_ := fun _ => a |}.
Lemma inner_shrunk : exists x u w i j, nonempty x /\ nonempty u /\ proju x u = Some w /\ inner 1 false x u None = Some i /\ inner 1 false x w None = Some j /\
  rsh i = rsh j /\ forall ix, read i ix = 1 /\ read j ix = 3.
Proof.
  exists (filled [3%nat] 0), (filled [1%nat] 1). unfold proju, inner. cbn. unfold expand. cbn. do 3 eexists. split; [repeat constructor|]. split; [repeat constructor|].
  split; [reflexivity|]. split; [reflexivity|]. split; [reflexivity|]. split; [reflexivity|]. intros ix. unfold read. cbn. unfold read. cbn. split; lra.
Qed.
Lemma triangle_broadcast : exists x y z a b c, nonempty x /\ nonempty y /\ nonempty z /\ dist 1 false x y = Some a /\ dist 1 false y z = Some b /\ dist 1 false x z = Some c /\
  rsh a = [] /\ rsh b = [] /\ rsh c = [] /\ forall ix, read a ix = 1 /\ read b ix = 0 /\ read c ix = sqrt 4.
Proof.
  exists (filled [1%nat] 0), (filled [1%nat] 1), (filled [4%nat] 1). unfold dist, norm_dims. cbn. do 3 eexists. split; [repeat constructor|]. split; [repeat constructor|]. split; [repeat constructor; lia|].
  split; [reflexivity|]. split; [reflexivity|]. split; [reflexivity|]. split; [reflexivity|]. split; [reflexivity|]. split; [reflexivity|]. intros ix. unfold read. cbn. unfold read. cbn.
  split; [|split].
  - transitivity (sqrt 1); [f_equal; lra|apply sqrt_1].
  - transitivity (sqrt 0); [f_equal; lra|apply sqrt_0].
  - f_equal. lra.
Qed.
Lemma norm_shape : exists x u i n, nonempty x /\ nonempty u /\ inner 1 false x u None = Some i /\ norm 1 false x u = Some n /\ rsh i = [2%nat] /\ rsh n = [].
Proof.
  exists (filled [3; 2]%nat 0), (filled [3%nat] 1). unfold inner, norm, norm_dims. cbn. unfold expand. cbn. do 2 eexists. split; [repeat constructor; lia|]. split; [repeat constructor; lia|]. repeat split.
Qed.
Lemma empty_target n c l s : zip_longest l = map c [0; 1]%nat -> bcast_dims 1 (c 1%nat) = Some 1%nat -> target l = Some s -> expands s [n; 0%nat] = false.
Proof.
  intros Z C T. rewrite target_columns, Z in T. change [0; 1]%nat with (seq 0 2) in T. apply columns_spec in T as [L H]. destruct s as [|a [|b [|]]]; try discriminate L.
  pose proof (H 1%nat ltac:(lia)) as B. cbn [Nat.add nth] in B. rewrite C in B. injection B as <-. cbn. rewrite andb_false_r. reflexivity.
Qed.
Lemma empty_batch n : let x := filled [n; 0%nat] 0 in proju x x = None /\ egrad2rgrad x x = None /\ transp x x x = None /\ component_inner x x None = None /\
  inner 1 false x x None = None /\ exists d, dist 1 false x x = Some d /\ rsh d = [0%nat].
Proof.
  cbv zeta. set (x := filled [n; 0%nat] 0).
  assert (P : forall t, rsh t = [n; 0%nat] -> (let* s := target [rsh x; rsh t] in expand s t) = None).
  { intros t R. unfold expand. rewrite R. destruct (target [rsh x; [n; 0%nat]]) as [s|] eqn:T; [|reflexivity].
    rewrite (empty_target n (fun i => [nth i [n; 0%nat] 1%nat; nth i [n; 0%nat] 1%nat]) [rsh x; [n; 0%nat]] s) by (exact T || reflexivity). reflexivity. }
  split; [apply P; reflexivity|]. split; [apply P; reflexivity|]. split; [|split; [apply P; reflexivity|split]].
  - unfold transp. destruct (target [rsh x; rsh x; rsh x]) as [s|] eqn:T; [|reflexivity]. unfold expand. change (rsh x) with [n; 0%nat].
    rewrite (empty_target n (fun i => [nth i [n; 0%nat] 1%nat; nth i [n; 0%nat] 1%nat; nth i [n; 0%nat] 1%nat]) [rsh x; rsh x; rsh x] s) by (exact T || reflexivity). reflexivity.
  - reflexivity.
  - destruct (dist_spec 1 false x x [n; 0%nat]) as (d & D & R & _); [apply bs_self|cbn; lia|]. exists d. split; [exact D|]. exact R.
Qed.

(** * random and origin *)
Lemma size_ok_iff k size : size_ok k size = true <-> (k <= length size)%nat.
Proof. unfold size_ok, assert_check_shape, default_check_shape. cbn. rewrite rev_length. destruct (Nat.leb_spec k (length size)); split; try discriminate; try lia; auto. Qed.
Lemma bs_nil_r s : bshape s [] = Some s.
Proof. destruct s; reflexivity. Qed.
Lemma random_number k size z m sd : (k <= length size)%nat -> exists t, random_normal k size z (filled [] m) (filled [] sd) = Some t /\ rsh t = size /\ forall ix, read t ix = z (norm_index size ix) * sd + m.
Proof.
  intros L. unfold random_normal. rewrite (proj2 (size_ok_iff _ _) L).
  destruct (lift2_some Rmult {| rsh := size; at_ := z |} (filled [] sd) size) as (t & T & Rt & Vt); [apply bs_nil_r|]. rewrite T.
  destruct (lift2_some Rplus t (filled [] m) size) as (w & W & Rw & Vw); [rewrite Rt; apply bs_nil_r|]. exists w. split; [exact W|]. split; [exact Rw|].
  intros ix. rewrite Vw, Vt. reflexivity.
Qed.
Lemma random_short k size z m sd : (length size < k)%nat -> random_normal k size z m sd = None /\ origin k size = None.
Proof. intros L. unfold random_normal, origin. destruct (size_ok k size) eqn:E; [apply size_ok_iff in E; lia|]. auto. Qed.
Lemma origin_spec k size : (k <= length size)%nat -> exists o, origin k size = Some o /\ rsh o = size /\ forall ix, read o ix = 0.
Proof. intros L. unfold origin. rewrite (proj2 (size_ok_iff _ _) L). eexists. split; [reflexivity|]. split; reflexivity. Qed.
Lemma random_shape : exists k size z mean std t, random_normal k size z mean std = Some t /\ rsh t <> size.
Proof. exists 1%nat, [3%nat], (fun _ => 0), (filled [3; 2]%nat 0), (filled [] 1). cbn. eexists. split; [reflexivity|]. cbn. discriminate. Qed.
