(** Lemmas about NdModel: how entries of each operation are read, and the
    fibrewise description of the two stereographic functions. *)
From Coq Require Import Reals List ZArith Lia Bool Arith FunctionalExtensionality Lra.
From Verif Require Import RVec StereoModel NdModel NdSpec.
Import ListNotations.

Lemma bdim_spec a b c : bdim a b = Some c ->
  (a = 1 \/ a = c) /\ (b = 1 \/ b = c) /\ (c = 1 -> a = 1 /\ b = 1) /\ (c = a \/ c = b).
Proof.
  unfold bdim. destruct (Nat.eqb_spec a b); [intros [= <-]; subst; tauto|].
  destruct (Nat.eqb_spec a 1); [intros [= <-]; subst; repeat split; auto; intros; subst; auto; tauto|].
  destruct (Nat.eqb_spec b 1); [intros [= <-]; subst; repeat split; auto; intros; subst; tauto|discriminate].
Qed.
Lemma bdim_1 b : bdim 1 b = Some b.
Proof. unfold bdim. destruct (Nat.eqb_spec 1 b); subst; reflexivity. Qed.
Lemma bdim_1r a : bdim a 1 = Some a.
Proof. unfold bdim. destruct (Nat.eqb_spec a 1); subst; [reflexivity|]. reflexivity. Qed.
Lemma bdim_same a : bdim a a = Some a.
Proof. unfold bdim. rewrite Nat.eqb_refl. reflexivity. Qed.
Lemma bdim_lower a b c : bdim a b = Some c -> bdim c a = Some c.
Proof.
  intros H. apply bdim_spec in H as ([->| ->]&_); [apply bdim_1r|apply bdim_same].
Qed.
Lemma bdim_comm a b : bdim a b = bdim b a.
Proof.
  unfold bdim. destruct (Nat.eqb_spec a b), (Nat.eqb_spec b a); subst; try congruence; auto.
  destruct (Nat.eqb_spec a 1), (Nat.eqb_spec b 1); subst; try congruence; auto.
Qed.

(** bshape, axis by axis. *)
Lemma bshape_spec s1 : forall s2 s, bshape s1 s2 = Some s <->
  length s = max (length s1) (length s2) /\
  forall a, bdim (nth a s1 1) (nth a s2 1) = Some (nth a s 1).
Proof.
  induction s1 as [|x s1 IH]; intros s2 s.
  - cbn [bshape length Nat.max]. split.
    + intros [= <-]. split; auto. intros a. replace (nth a [] 1) with 1 by (destruct a; auto). apply bdim_1.
    + intros [L H]. f_equal. symmetry. apply (nth_ext _ _ 1 1); auto.
      intros a _. specialize (H a). replace (nth a [] 1) with 1 in H by (destruct a; auto).
      rewrite bdim_1 in H. congruence.
  - destruct s2 as [|y s2]; cbn [bshape].
    + split.
      * intros [= <-]. split; auto. intros a. replace (nth a [] 1) with 1 by (destruct a; auto). apply bdim_1r.
      * intros [L H]. f_equal. symmetry. apply (nth_ext _ _ 1 1); auto.
        intros a _. specialize (H a). replace (nth a [] 1) with 1 in H by (destruct a; auto).
        rewrite bdim_1r in H. congruence.
    + split.
      * destruct (bdim x y) eqn:B; [|discriminate]. destruct (bshape s1 s2) eqn:R; [|discriminate].
        intros [= <-]. apply IH in R as [L H]. split; [cbn; lia|]. intros [|a]; [exact B|apply H].
      * intros [L H]. destruct s as [|z s]; [cbn in L; discriminate|].
        pose proof (H 0) as H0. cbn in H0. rewrite H0.
        assert (E : bshape s1 s2 = Some s).
        { apply IH. split; [cbn in L; lia|]. intros a. exact (H (S a)). }
        rewrite E. reflexivity.
Qed.

(** Index normalisation. *)
Lemma norm_idem s ix : norm_index s (norm_index s ix) = norm_index s ix.
Proof.
  apply functional_extensionality; intros a. unfold norm_index.
  destruct (nth a s 1 =? 1); reflexivity.
Qed.
Lemma norm_bshape_l s1 s2 s ix : bshape s1 s2 = Some s ->
  norm_index s1 (norm_index s ix) = norm_index s1 ix.
Proof.
  intros H. apply bshape_spec in H as [_ H]. apply functional_extensionality; intros a.
  specialize (H a). apply bdim_spec in H as (_&_&H&_). unfold norm_index.
  destruct (Nat.eqb_spec (nth a s1 1) 1); [reflexivity|].
  destruct (Nat.eqb_spec (nth a s 1) 1); [tauto|reflexivity].
Qed.
Lemma norm_bshape_r s1 s2 s ix : bshape s1 s2 = Some s ->
  norm_index s2 (norm_index s ix) = norm_index s2 ix.
Proof.
  intros H. apply bshape_spec in H as [_ H]. apply functional_extensionality; intros a.
  specialize (H a). apply bdim_spec in H as (_&_&H&_). unfold norm_index.
  destruct (Nat.eqb_spec (nth a s2 1) 1); [reflexivity|].
  destruct (Nat.eqb_spec (nth a s 1) 1); [tauto|reflexivity].
Qed.

Lemma read_norm t ix : read t (norm_index (rsh t) ix) = read t ix.
Proof. unfold read. rewrite norm_idem. reflexivity. Qed.
Lemma read_lift1 f t ix : read (lift1 f t) ix = f (read t ix).
Proof. unfold read at 1. cbn [lift1 at_ rsh]. rewrite read_norm. reflexivity. Qed.
Lemma lift2_some f x y s : bshape (rsh x) (rsh y) = Some s ->
  exists z, lift2 f x y = Some z /\ rsh z = s /\
    forall ix, read z ix = f (read x ix) (read y ix).
Proof.
  intros H. unfold lift2. rewrite H. eexists; split; [reflexivity|]. split; [reflexivity|].
  intros ix. unfold read at 1. cbn [at_ rsh]. unfold read.
  rewrite (norm_bshape_l _ _ _ _ H), (norm_bshape_r _ _ _ _ H). reflexivity.
Qed.

(** Sizes after changing one axis. *)
Lemma set_axis_length a d s : a < length s -> length (set_axis a d s) = length s.
Proof.
  intros H. unfold set_axis. rewrite app_length. cbn [length].
  rewrite firstn_length, skipn_length. lia.
Qed.
Lemma nth_set_axis a d s b x : a < length s ->
  nth b (set_axis a d s) x = if b =? a then d else nth b s x.
Proof.
  intros H. unfold set_axis.
  assert (L : length (firstn a s) = a) by (rewrite firstn_length; lia).
  destruct (Nat.eqb_spec b a) as [->|N].
  - rewrite app_nth2 by lia. rewrite L, Nat.sub_diag. reflexivity.
  - destruct (Nat.lt_ge_cases b a).
    + rewrite app_nth1 by lia. rewrite <- (firstn_skipn a s) at 2.
      rewrite app_nth1 by lia. reflexivity.
    + rewrite app_nth2 by lia. rewrite L. replace (b - a) with (S (b - a - 1)) by lia. cbn [nth].
      rewrite <- (firstn_skipn (S a) s) at 2.
      rewrite app_nth2 by (rewrite firstn_length; lia).
      rewrite firstn_length. f_equal. lia.
Qed.
Lemma drop_axis_length a s : a < length s -> length (drop_axis a s) = length s - 1.
Proof.
  intros H. unfold drop_axis. rewrite app_length, firstn_length, skipn_length. lia.
Qed.
Lemma nth_drop_axis a s b x : a < length s ->
  nth b (drop_axis a s) x = if b <? a then nth b s x else nth (S b) s x.
Proof.
  intros H. unfold drop_axis.
  assert (L : length (firstn a s) = a) by (rewrite firstn_length; lia).
  destruct (Nat.ltb_spec b a).
  - rewrite app_nth1 by lia. rewrite <- (firstn_skipn a s) at 2.
    rewrite app_nth1 by lia. reflexivity.
  - rewrite app_nth2 by lia. rewrite L. rewrite <- (firstn_skipn (S a) s) at 2.
    rewrite app_nth2 by (rewrite firstn_length; lia). rewrite firstn_length. f_equal. lia.
Qed.
Lemma add_axis_length a d s : a <= length s -> length (add_axis a d s) = S (length s).
Proof.
  intros H. unfold add_axis. rewrite app_length. cbn [length].
  rewrite firstn_length, skipn_length. lia.
Qed.
Lemma nth_add_axis a d s b x : a <= length s ->
  nth b (add_axis a d s) x = if b <? a then nth b s x else if b =? a then d else nth (b - 1) s x.
Proof.
  intros H. unfold add_axis.
  assert (L : length (firstn a s) = a) by (rewrite firstn_length; lia).
  destruct (Nat.ltb_spec b a).
  - rewrite app_nth1 by lia. rewrite <- (firstn_skipn a s) at 2.
    rewrite app_nth1 by lia. reflexivity.
  - rewrite app_nth2 by lia. rewrite L. destruct (Nat.eqb_spec b a) as [->|N].
    + rewrite Nat.sub_diag. reflexivity.
    + replace (b - a) with (S (b - a - 1)) by lia. cbn [nth].
      rewrite <- (firstn_skipn a s) at 2.
      rewrite app_nth2 by (rewrite firstn_length; lia).
      rewrite firstn_length. f_equal. lia.
Qed.

(** Negative dims: [dim = -(a+1)] is axis [a]. *)
Lemma axis_neg a r : a < r -> axis (- Z.of_nat a - 1) r = Some a.
Proof.
  intros H. unfold axis.
  destruct (Z.leb_spec (- Z.of_nat r) (- Z.of_nat a - 1)); [|lia].
  destruct (Z.ltb_spec (- Z.of_nat a - 1) (Z.of_nat r)); [|lia]. cbn [andb].
  destruct (Z.ltb_spec (- Z.of_nat a - 1) 0); [|lia]. f_equal. lia.
Qed.

Lemma upd_upd ix a i j : upd (upd ix a i) a j = upd ix a j.
Proof. apply functional_extensionality; intros b. unfold upd. destruct (b =? a); auto. Qed.
Lemma upd_ins ix a i j : upd (ins ix a i) a j = ins ix a j.
Proof.
  apply functional_extensionality; intros b. unfold upd, ins.
  destruct (Nat.eqb_spec b a); auto. destruct (Nat.ltb_spec b a); auto. lia.
Qed.
Lemma fiber_ins t a ix i : fiber t a (ins ix a i) = fun j => read t (ins ix a j).
Proof. apply functional_extensionality; intros j. unfold fiber. rewrite upd_ins. reflexivity. Qed.
Lemma fiber_upd t a ix i : fiber t a (upd ix a i) = fiber t a ix.
Proof. apply functional_extensionality; intros j. unfold fiber. rewrite upd_upd. reflexivity. Qed.

Lemma sum_keep t a n : nth_error (rsh t) a = Some n ->
  exists z, sum_ (- Z.of_nat a - 1) true t = Some z /\ rsh z = set_axis a 1 (rsh t) /\
    forall ix, read z ix = Rsum n (fiber t a ix).
Proof.
  intros H. assert (a < length (rsh t)) by (apply nth_error_Some; congruence).
  unfold sum_. rewrite axis_neg by auto. rewrite (nth_error_nth _ _ 0 H).
  eexists; split; [reflexivity|]. split; [reflexivity|]. intros ix.
  unfold read at 1. cbn [at_ rsh]. apply Rsum_ext; intros j Hj. unfold fiber, read. f_equal.
  apply functional_extensionality; intros b. unfold norm_index, upd.
  rewrite nth_set_axis by auto.
  destruct (nth b (rsh t) 1 =? 1) eqn:E; [reflexivity|]. destruct (Nat.eqb_spec b a); [reflexivity|].
  rewrite E. reflexivity.
Qed.
Lemma sum_drop t a n : nth_error (rsh t) a = Some n ->
  exists z, sum_ (- Z.of_nat a - 1) false t = Some z /\ rsh z = drop_axis a (rsh t) /\
    forall ix, read z ix = Rsum n (fun j => read t (ins ix a j)).
Proof.
  intros H. assert (a < length (rsh t)) by (apply nth_error_Some; congruence).
  unfold sum_. rewrite axis_neg by auto. rewrite (nth_error_nth _ _ 0 H).
  eexists; split; [reflexivity|]. split; [reflexivity|]. intros ix.
  unfold read at 1. cbn [at_ rsh]. apply Rsum_ext; intros j Hj. unfold read. f_equal.
  apply functional_extensionality; intros b. unfold norm_index, ins.
  destruct (nth b (rsh t) 1 =? 1) eqn:E; [reflexivity|].
  rewrite !nth_drop_axis by auto. destruct (Nat.ltb_spec b a).
  - rewrite E. reflexivity.
  - destruct (Nat.eqb_spec b a); [reflexivity|]. destruct (Nat.ltb_spec (b - 1) a); [lia|].
    replace (S (b - 1)) with b by lia. rewrite E. reflexivity.
Qed.

(** Shapes of the intermediate tensors of a reduction along axis [a]. *)
Lemma ax_l1 (s1 : list nat) a n : nth_error s1 a = Some n -> a < length s1.
Proof. intros H. apply nth_error_Some; congruence. Qed.
Lemma ax_n1 (s1 : list nat) a n : nth_error s1 a = Some n -> nth a s1 1 = n.
Proof. intros H. apply nth_error_nth; auto. Qed.
Lemma ax_l s1 s2 s a n : bshape s1 s2 = Some s -> nth_error s1 a = Some n -> a < length s.
Proof. intros B N1. apply bshape_spec in B as [-> _]. apply ax_l1 in N1. lia. Qed.
Lemma ax_n s1 s2 s a n : bshape s1 s2 = Some s ->
  nth_error s1 a = Some n -> nth_error s2 a = Some n -> nth a s 1 = n.
Proof.
  intros B N1 N2. apply bshape_spec in B as [_ H]. specialize (H a).
  rewrite (ax_n1 _ _ _ N1), (ax_n1 _ _ _ N2), bdim_same in H. congruence.
Qed.
Lemma ax_nth s1 s2 s a n : bshape s1 s2 = Some s ->
  nth_error s1 a = Some n -> nth_error s2 a = Some n -> nth_error s a = Some n.
Proof.
  intros B N1 N2. rewrite <- (ax_n _ _ _ _ _ B N1 N2). apply nth_error_nth'. eapply ax_l; eauto.
Qed.

Ltac bsolve B a :=
  pose proof B as [?BL ?BH]%bshape_spec; apply bshape_spec; split;
  [ rewrite ?set_axis_length by auto; lia
  | intros b; rewrite ?nth_set_axis by auto;
    destruct (Nat.eqb_spec b a) as [->|]; auto ].

Lemma bs_self s : bshape s s = Some s.
Proof. apply bshape_spec. split; [lia|]. intros a. apply bdim_same. Qed.
Lemma bs_set_set s1 s2 s a n : bshape s1 s2 = Some s -> nth_error s1 a = Some n -> nth_error s2 a = Some n ->
  bshape (set_axis a 1 s1) (set_axis a 1 s2) = Some (set_axis a 1 s).
Proof.
  intros B N1 N2. pose proof (ax_l1 s1 a n N1); pose proof (ax_l1 s2 a n N2).
  pose proof (ax_l _ _ _ a n B N1). bsolve B a.
Qed.
Lemma bs_set_l s1 s2 s a n : bshape s1 s2 = Some s -> nth_error s1 a = Some n -> nth_error s2 a = Some n ->
  bshape (set_axis a 1 s1) s2 = Some s.
Proof.
  intros B N1 N2. pose proof (ax_l1 s1 a n N1); pose proof (ax_l1 s2 a n N2).
  pose proof (ax_l _ _ _ a n B N1). pose proof (ax_n _ _ _ a n B N1 N2). pose proof (ax_n1 _ _ _ N2).
  bsolve B a. rewrite bdim_1. congruence.
Qed.
Lemma bs_lower_l s1 s2 s : bshape s1 s2 = Some s -> bshape s s1 = Some s.
Proof.
  intros B. apply bshape_spec in B as [L H]. apply bshape_spec. split; [lia|].
  intros b. eapply bdim_lower; apply H.
Qed.
Lemma bs_comm s1 s2 s : bshape s1 s2 = Some s -> bshape s2 s1 = Some s.
Proof.
  intros B. apply bshape_spec in B as [L H]. apply bshape_spec. split; [lia|].
  intros b. rewrite bdim_comm. apply H.
Qed.
Lemma bs_lower_r s1 s2 s : bshape s1 s2 = Some s -> bshape s s2 = Some s.
Proof. intros B. eapply bs_lower_l, bs_comm, B. Qed.
Lemma bs_drop s1 s2 s a n : bshape s1 s2 = Some s -> nth_error s1 a = Some n -> nth_error s2 a = Some n ->
  bshape (drop_axis a s1) (drop_axis a s2) = Some (drop_axis a s).
Proof.
  intros B N1 N2. pose proof (ax_l1 s1 a n N1); pose proof (ax_l1 s2 a n N2).
  pose proof (ax_l _ _ _ a n B N1). pose proof B as [L H']%bshape_spec. apply bshape_spec. split.
  - rewrite !drop_axis_length by auto. lia.
  - intros b. rewrite !nth_drop_axis by auto. destruct (b <? a); apply H'.
Qed.

(** Both reductions at once. *)
Lemma upd_place keep ix a i j : upd (place keep ix a i) a j = place keep ix a j.
Proof. destruct keep; [apply upd_upd|apply upd_ins]. Qed.
Lemma place_at keep ix a j : place keep ix a j a = j.
Proof.
  destruct keep; unfold place, upd, ins; rewrite Nat.eqb_refl; auto.
  destruct (Nat.ltb_spec a a); auto. lia.
Qed.
Lemma sum_red t a n keep : nth_error (rsh t) a = Some n ->
  exists z, sum_ (- Z.of_nat a - 1) keep t = Some z /\ rsh z = red keep a (rsh t) /\
    forall ix, read z ix = Rsum n (fun j => read t (place keep ix a j)).
Proof. destruct keep; [apply sum_keep|apply sum_drop]. Qed.
Lemma bs_red keep s1 s2 s a n : bshape s1 s2 = Some s -> nth_error s1 a = Some n -> nth_error s2 a = Some n ->
  bshape (red keep a s1) (red keep a s2) = Some (red keep a s).
Proof. destruct keep; [apply bs_set_set|apply bs_drop]. Qed.
Lemma norm_red t a n keep : nth_error (rsh t) a = Some n ->
  exists z, norm_ (- Z.of_nat a - 1) keep t = Some z /\ rsh z = red keep a (rsh t) /\
    forall ix, read z ix = nrm n (fun j => read t (place keep ix a j)).
Proof.
  intros H. unfold norm_.
  destruct (sum_red (lift1 (fun v => (v * v)%R) t) a n keep H) as (z & Hz & Sz & Rz). rewrite Hz.
  eexists; split; [reflexivity|]. split; [exact Sz|]. intros ix. rewrite read_lift1, Rz.
  unfold nrm, dot. f_equal. apply Rsum_ext; intros. rewrite read_lift1. reflexivity.
Qed.

Section Fibres.
  Variable e : R.
  Local Open Scope R_scope.
  Ltac step L z Hz Sz Rz := destruct L as (z & Hz & Sz & Rz); rewrite Hz.

  (** _mobius_add with [dim = -(a+1)]: each output row along that axis is the
      row-level addition of the (broadcast) input rows. *)
  Lemma mobius_add_fibres k x y s a n :
    bshape (rsh x) (rsh y) = Some s ->
    nth_error (rsh x) a = Some n -> nth_error (rsh y) a = Some n ->
    exists z, mobius_add_nd k x y (- Z.of_nat a - 1) = Some z /\ rsh z = s /\
      forall ix, read z ix = mobius_add n k (fiber x a ix) (fiber y a ix) (ix a).
  Proof.
    intros B N1 N2. unfold mobius_add_nd.
    pose proof (ax_nth _ _ _ _ _ B N1 N2) as N.
    pose proof (bs_set_set _ _ _ _ _ B N1 N2) as Bss.
    pose proof (bs_lower_l _ _ _ B) as Bl. pose proof (bs_lower_r _ _ _ B) as Br.
    step (sum_keep (lift1 (fun v => v ^ 2) x) a n N1) x2 Hx2 Sx2 Rx2.
    step (sum_keep (lift1 (fun v => v ^ 2) y) a n N2) y2 Hy2 Sy2 Ry2.
    cbn [lift1 rsh] in Sx2, Sy2.
    step (lift2_some Rmult x y s B) pr Hpr Spr Rpr.
    step (sum_keep pr a n ltac:(rewrite Spr; exact N)) xy Hxy Sxy Rxy. rewrite Spr in Sxy.
    step (lift2_some (fun xy y2 => 1 - 2 * k * xy - k * y2) xy y2 (set_axis a 1 s)
            ltac:(rewrite Sxy, Sy2; exact (bs_set_set _ _ _ _ _ Br N N2))) c Hc Sc Rc.
    step (lift2_some Rmult c x s ltac:(rewrite Sc; exact (bs_set_l _ _ _ _ _ Bl N N1))) n1 Hn1 Sn1 Rn1.
    step (lift2_some Rmult (lift1 (fun x2 => 1 + k * x2) x2) y s
            ltac:(cbn [lift1 rsh]; rewrite Sx2; exact (bs_set_l _ _ _ _ _ B N1 N2))) n2 Hn2 Sn2 Rn2.
    step (lift2_some Rplus n1 n2 s ltac:(rewrite Sn1, Sn2; apply bs_self)) nm Hnm Snm Rnm.
    step (lift2_some (fun x2 y2 => k ^ 2 * x2 * y2) x2 y2 (set_axis a 1 s)
            ltac:(rewrite Sx2, Sy2; exact Bss)) q Hq Sq Rq.
    step (lift2_some (fun xy q => 1 - 2 * k * xy + q) xy q (set_axis a 1 s)
            ltac:(rewrite Sxy, Sq; apply bs_self)) dn Hdn Sdn Rdn.
    destruct (lift2_some (fun a b => a / clamp_min e15 b) nm dn s) as (z & Hz & Sz & Rz).
    { rewrite Snm, Sdn. apply bs_comm. exact (bs_set_l _ _ _ _ _ (bs_self s) N N). }
    exists z. split; [exact Hz|]. split; [exact Sz|]. intros ix.
    rewrite Rz, Rnm, Rdn, Rn1, Rn2, Rq, read_lift1, Rc, Rx2, Ry2, Rxy.
    unfold mobius_add, vdiv, mobius_num, mobius_den, vadd, smul, dot.
    assert (EX : Rsum n (fiber (lift1 (fun v => v ^ 2) x) a ix) = Rsum n (fun i => fiber x a ix i * fiber x a ix i)).
    { apply Rsum_ext; intros; unfold fiber; rewrite read_lift1; ring. }
    assert (EY : Rsum n (fiber (lift1 (fun v => v ^ 2) y) a ix) = Rsum n (fun i => fiber y a ix i * fiber y a ix i)).
    { apply Rsum_ext; intros; unfold fiber; rewrite read_lift1; ring. }
    assert (EXY : Rsum n (fiber pr a ix) = Rsum n (fun i => fiber x a ix i * fiber y a ix i)).
    { apply Rsum_ext; intros; unfold fiber; rewrite Rpr; ring. }
    rewrite EX, EY, EXY. unfold fiber at 5 9.
    assert (U : upd ix a (ix a) = ix).
    { apply functional_extensionality; intros b. unfold upd. destruct (Nat.eqb_spec b a); subst; auto. }
    assert (FX : fiber x a ix (ix a) = read x ix) by (unfold fiber; rewrite U; reflexivity).
    assert (FY : fiber y a ix (ix a) = read y ix) by (unfold fiber; rewrite U; reflexivity).
    rewrite ?U, ?FX, ?FY. reflexivity.
  Qed.

  (** _dist2plane with [dim = -(ax+1)]. *)
  Lemma dist2plane_fibres k x a p s s' ax n keep signed scaled :
    bshape (rsh p) (rsh x) = Some s -> bshape s (rsh a) = Some s' ->
    nth_error (rsh x) ax = Some n -> nth_error (rsh a) ax = Some n -> nth_error (rsh p) ax = Some n ->
    exists z, dist2plane_nd e k x a p keep signed scaled (- Z.of_nat ax - 1) = Some z /\
      rsh z = red keep ax s' /\
      forall ix, read z ix =
        dist2plane n e k signed scaled (fun j => read x (place keep ix ax j))
          (fun j => read a (place keep ix ax j)) (fun j => read p (place keep ix ax j)).
  Proof.
    intros B B' Nx Na Np. unfold dist2plane_nd.
    pose proof (ax_nth _ _ _ _ _ B Np Nx) as N. pose proof (ax_nth _ _ _ _ _ B' N Na) as N'.
    step (mobius_add_fibres k (lift1 Ropp p) x s ax n B Np Nx) df Hdf Sdf Rdf.
    step (sum_red (lift1 (fun v => v ^ 2) df) ax n keep ltac:(cbn [lift1 rsh]; rewrite Sdf; exact N)) s2 Hs2 Ss2 Rs2.
    cbn [lift1 rsh] in Ss2. rewrite Sdf in Ss2.
    step (lift2_some Rmult df a s' ltac:(rewrite Sdf; exact B')) da Hda Sda Rda.
    step (sum_red da ax n keep ltac:(rewrite Sda; exact N')) sc Hsc Ssc Rsc. rewrite Sda in Ssc.
    step (norm_red a ax n keep Na) an Han San Ran.
    step (lift2_some Rmult (lift1 (fun v => 1 + k * v) (lift1 (clamp_min e15) s2)) an (red keep ax s')
            ltac:(cbn [lift1 rsh]; rewrite Ss2, San; exact (bs_red keep _ _ _ _ _ B' N Na))) d Hd Sd Rd.
    step (lift2_some Rdiv (lift1 (fun v => 2 * v) (if signed then sc else lift1 Rabs sc)) (lift1 (clamp_abs e15) d)
            (red keep ax s') ltac:(destruct signed; cbn [lift1 rsh]; rewrite Ssc, Sd; apply bs_self)) q Hq Sq Rq.
    assert (F : forall ix, dot n (fun j => read df (place keep ix ax j)) (fun j => read df (place keep ix ax j)) =
      Rsum n (fun j => read (lift1 (fun v => v ^ 2) df) (place keep ix ax j))).
    { intros ix. apply Rsum_ext; intros. rewrite read_lift1. ring. }
    assert (G : forall ix, dot n (fun j => read df (place keep ix ax j)) (fun j => read a (place keep ix ax j)) =
      Rsum n (fun j => read da (place keep ix ax j))).
    { intros ix. apply Rsum_ext; intros. rewrite Rda. ring. }
    assert (Dq : forall ix, arsin_k e (read q ix) k =
      dist2plane n e k signed false (fun j => read x (place keep ix ax j))
          (fun j => read a (place keep ix ax j)) (fun j => read p (place keep ix ax j))).
    { intros ix. unfold dist2plane.
      assert (E : mobius_add n k (vopp (fun j => read p (place keep ix ax j))) (fun j => read x (place keep ix ax j))
                  = (fun j => read df (place keep ix ax j))).
      { apply functional_extensionality; intros j. rewrite Rdf, place_at. f_equal.
        - apply functional_extensionality; intros i. unfold fiber, vopp. rewrite upd_place, read_lift1. reflexivity.
        - apply functional_extensionality; intros i. unfold fiber. rewrite upd_place. reflexivity. }
      rewrite E, F, G. rewrite Rq, !read_lift1, Rd, Ran, !read_lift1, Rs2.
      destruct signed; rewrite ?read_lift1, Rsc; reflexivity. }
    destruct scaled.
    - destruct (lift2_some Rmult (lift1 (fun v => arsin_k e v k) q) an (red keep ax s')) as (z & Hz & Sz & Rz).
      { cbn [lift1 rsh]. rewrite Sq, San. eapply bs_lower_r. exact (bs_red keep _ _ _ _ _ B' N Na). }
      exists z. split; [exact Hz|]. split; [exact Sz|]. intros ix. rewrite Rz, read_lift1, Dq, Ran. reflexivity.
    - eexists; split; [reflexivity|]. split; [exact Sq|]. intros ix. rewrite read_lift1. apply Dq.
  Qed.
End Fibres.
