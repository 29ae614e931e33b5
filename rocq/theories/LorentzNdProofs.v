(** Each tensor function of LorentzNdModel applies its row function along [dim]. *)
From Coq Require Import Reals List ZArith Lia Bool Arith FunctionalExtensionality Lra.
From Verif Require Import RVec StereoModel NdModel NdSpec NdProofs StereoNdModel StereoNdSpec StereoNdProofs StereoNdProofs2 StereoNdProofs3.
From Verif Require LorentzModel.
From Verif Require Import LorentzNdModel LorentzNdSpec.
Import ListNotations.

Section Rows.
  (** the shape [T], of rank [r], to which everything broadcasts, and the axis *)
  Variables (T : nat -> nat) (r : nat) (dim : Z) (a d : nat).
  Hypothesis Tr : axis dim r = Some a.
  Hypothesis Tn : T a = S d.
  Notation n := (S d).

  Record vg (z : nd) (L : nat) (D : nat -> nat) (F : index -> vec) : Prop := {
    g_len : length (rsh z) = L; g_dim : forall b, nth b (rsh z) 1 = D b;
    g_fit : forall b, D b = 1 \/ D b = T b; g_le : L <= r;
    g_ax : axis dim L = Some a; g_n : D a = n;
    g_read : forall ix, ix a < n -> read z ix = F ix (ix a);
    g_inv : forall ix j, F (upd ix a j) = F ix }.
  Notation sg := (srow T r a).

  Lemma g_lift1 f z L D F : vg z L D F -> vg (lift1 f z) L D (fun ix j => f (F ix j)).
  Proof.
    intros []; split; auto; intros.
    - rewrite read_lift1, g_read0; auto.
    - rewrite g_inv0; auto.
  Qed.
  Lemma g_ext z L D F G : (forall ix, F ix = G ix) -> vg z L D F -> vg z L D G.
  Proof. intros H []; split; auto; intros; rewrite <- ?H; auto. Qed.
  Lemma g_shape z L L' D D' F : L = L' -> (forall b, D b = D' b) -> vg z L D F -> vg z L' D' F.
  Proof. intros <- H []; split; auto; intros; rewrite <- ?H; auto. Qed.

  Lemma gg_lift2 f x y L1 D1 F L2 D2 G : vg x L1 D1 F -> vg y L2 D2 G ->
    exists z, lift2 f x y = Some z /\
      vg z (max L1 L2) (fun b => jd (D1 b) (D2 b)) (fun ix j => f (F ix j) (G ix j)).
  Proof.
    intros [l1 d1 f1 e1 a1 n1 r1 i1] [l2 d2 f2 e2 a2 n2 r2 i2].
    destruct (lift2_jd T f x y) as (z & Hz & Lz & Dz & Rz).
    { intros b. rewrite d1. auto. } { intros b. rewrite d2; auto. }
    exists z. split; [exact Hz|]. split; intros.
    - rewrite Lz, l1, l2; auto.
    - rewrite Dz, d1, d2; auto.
    - apply jd_fit; auto.
    - lia.
    - apply (axis_between dim a L1 _ r); auto. lia.
    - unfold jd. destruct (Nat.eqb_spec (D1 a) 1); auto.
    - rewrite Rz, r1, r2; auto.
    - rewrite i1, i2; auto.
  Qed.
  Lemma sg_lift2 f x y L1 D1 F L2 D2 G : sg x L1 D1 F -> vg y L2 D2 G ->
    exists z, lift2 f x y = Some z /\
      vg z (max L1 L2) (fun b => jd (D1 b) (D2 b)) (fun ix j => f (F ix) (G ix j)).
  Proof.
    intros [l1 d1 f1 e1 n1 r1 i1] [l2 d2 f2 e2 a2 n2 r2 i2].
    destruct (lift2_jd T f x y) as (z & Hz & Lz & Dz & Rz).
    { intros b. rewrite d1. auto. } { intros b. rewrite d2; auto. }
    exists z. split; [exact Hz|]. split; intros.
    - rewrite Lz, l1, l2; auto.
    - rewrite Dz, d1, d2; auto.
    - apply jd_fit; auto.
    - lia.
    - apply (axis_between dim a L2 _ r); auto. lia.
    - unfold jd. rewrite n1. auto.
    - rewrite Rz, r1, r2; auto.
    - rewrite i1, i2; auto.
  Qed.
  Lemma gs_lift2 f x y L1 D1 F L2 D2 G : vg x L1 D1 F -> sg y L2 D2 G ->
    exists z, lift2 f x y = Some z /\
      vg z (max L1 L2) (fun b => jd (D1 b) (D2 b)) (fun ix j => f (F ix j) (G ix)).
  Proof.
    intros [l1 d1 f1 e1 a1 n1 r1 i1] [l2 d2 f2 e2 n2 r2 i2].
    destruct (lift2_jd T f x y) as (z & Hz & Lz & Dz & Rz).
    { intros b. rewrite d1. auto. } { intros b. rewrite d2; auto. }
    exists z. split; [exact Hz|]. split; intros.
    - rewrite Lz, l1, l2; auto.
    - rewrite Dz, d1, d2; auto.
    - apply jd_fit; auto.
    - lia.
    - apply (axis_between dim a L1 _ r); auto. lia.
    - unfold jd. rewrite n2, n1. destruct (Nat.eqb_spec n 1); auto.
    - rewrite Rz, r1, r2; auto.
    - rewrite i1, i2; auto.
  Qed.
  Notation d1 := (d1a a).
  Lemma g_has z L D F : vg z L D F -> has_rows z dim a n.
  Proof.
    intros [l dd f e ax nn rd iv]. split; [rewrite l; exact ax|].
    pose proof (axis_lt _ _ _ ax). rewrite (nth_error_nth' _ 1) by lia. rewrite dd, nn. reflexivity.
  Qed.
  Lemma norm_upd_set s ix j m : a < length s ->
    norm_index s (upd (norm_index (set_axis a m s) ix) a j) = norm_index s (upd ix a j).
  Proof. intros La. exact (norm_upd a s ix j m La). Qed.
  Lemma g_sum z L D F : vg z L D F ->
    exists y, sum_ dim true z = Some y /\ sg y L (d1 D) (fun ix => Rsum n (F ix)).
  Proof.
    intros [l dd f e ax nn rd iv]. unfold sum_. rewrite l, ax. eexists; split; [reflexivity|].
    pose proof (axis_lt _ _ _ ax) as La.
    assert (E : nth a (rsh z) 0 = n) by (rewrite (nth_indep _ 0 1), dd; [auto|lia]).
    split; cbn [rsh]; intros; unfold d1a.
    - rewrite set_axis_length; lia.
    - rewrite nth_set_axis by lia. rewrite dd; auto.
    - destruct (b =? a); auto.
    - auto.
    - rewrite Nat.eqb_refl; auto.
    - unfold read. cbn [rsh at_]. rewrite E. apply Rsum_ext; intros j Hj.
      transitivity (read z (upd ix a j)).
      { unfold read. f_equal. apply norm_upd_set. lia. }
      rewrite rd by (unfold upd; rewrite Nat.eqb_refl; auto). rewrite iv. unfold upd. rewrite Nat.eqb_refl. reflexivity.
    - rewrite iv; auto.
  Qed.

  (** ** Time and space parts *)
  Lemma g_time z L D F : vg z L D F ->
    exists y, time_ dim z = Some y /\ sg y L (d1 D) (fun ix => F ix 0).
  Proof.
    intros [l dd f e ax nn rd iv]. pose proof (axis_lt _ _ _ ax) as La.
    assert (E : nth a (rsh z) 0 = n) by (rewrite (nth_indep _ 0 1), dd; [auto|lia]).
    unfold time_, narrow. rewrite l, ax, E. cbn [Z.ltb Z.compare].
    destruct (Z.leb_spec 0 0); [|lia]. destruct (Z.leb_spec 0 (Z.of_nat n)); [|lia].
    destruct (Z.leb_spec 0 1); [|lia]. destruct (Z.leb_spec (0 + 1) (Z.of_nat n)); [|lia]. cbn [andb].
    eexists; split; [reflexivity|]. change (Z.to_nat 1) with 1. change (Z.to_nat 0) with 0.
    split; cbn [rsh]; intros; unfold d1a.
    - rewrite set_axis_length; lia.
    - rewrite nth_set_axis by lia. rewrite dd; auto.
    - destruct (b =? a); auto.
    - auto.
    - rewrite Nat.eqb_refl; auto.
    - unfold read at 1. cbn [rsh at_ Nat.add].
      transitivity (read z (upd ix a 0)).
      { unfold read. f_equal. rewrite norm_upd_set by lia. do 2 f_equal.
        unfold norm_index. rewrite nth_set_axis, !Nat.eqb_refl by lia. reflexivity. }
      rewrite rd by (unfold upd; rewrite Nat.eqb_refl; lia). rewrite iv. unfold upd. rewrite Nat.eqb_refl. reflexivity.
    - rewrite iv; auto.
  Qed.
  Lemma g_dn z L D F : vg z L D F -> dn_ dim z = Some (Z.of_nat d).
  Proof.
    intros V. destruct (g_has _ _ _ _ V) as [A N]. unfold dn_, size_. rewrite A, (nth_error_nth _ _ 0 N). f_equal. lia.
  Qed.
  Lemma g_space z L D F : vg z L D F ->
    exists y, space_ dim (Z.of_nat d) z = Some y /\ rsh y = set_axis a d (rsh z) /\
      forall ix, ix a < d -> read y ix = F ix (S (ix a)).
  Proof.
    intros [l dd f e ax nn rd iv]. pose proof (axis_lt _ _ _ ax) as La.
    assert (E : nth a (rsh z) 0 = n) by (rewrite (nth_indep _ 0 1), dd; [auto|lia]).
    unfold space_, narrow. rewrite l, ax, E. cbn [Z.ltb Z.compare].
    destruct (Z.leb_spec 0 1); [|lia]. destruct (Z.leb_spec 1 (Z.of_nat n)); [|lia].
    destruct (Z.leb_spec 0 (Z.of_nat d)); [|lia]. destruct (Z.leb_spec (1 + Z.of_nat d) (Z.of_nat n)); [|lia]. cbn [andb].
    eexists; split; [reflexivity|]. rewrite Nat2Z.id. change (Z.to_nat 1) with 1. split; [reflexivity|].
    intros ix Hi. unfold read at 1. cbn [rsh at_ Nat.add].
    transitivity (read z (upd ix a (S (ix a)))).
    { unfold read. f_equal. rewrite norm_upd_set by lia. do 3 f_equal.
      unfold norm_index. rewrite nth_set_axis, Nat.eqb_refl by lia. destruct (Nat.eqb_spec d 1); lia. }
    rewrite rd by (unfold upd; rewrite Nat.eqb_refl; lia). rewrite iv. unfold upd. rewrite Nat.eqb_refl. reflexivity.
  Qed.
  Lemma g_cat h w s L D f G : sg h L (d1 D) f -> length s = L -> (forall b, nth b s 1 = D b) ->
    (forall b, D b = 1 \/ D b = T b) -> axis dim L = Some a -> D a = n ->
    rsh w = set_axis a d s -> (forall ix, ix a < d -> read w ix = G ix (ix a)) ->
    (forall ix j, G (upd ix a j) = G ix) ->
    exists y, cat2 dim h w = Some y /\ vg y L D (fun ix => LorentzModel.cat (f ix) (G ix)).
  Proof.
    intros [l dd ff e nn rd iv] Ls Ds Fs ax Dn Sw Rw Iw. pose proof (axis_lt _ _ _ ax) as La.
    unfold cat2. rewrite l, ax.
    assert (Sh : rsh h = set_axis a 1 s).
    { apply shape_ext; [rewrite set_axis_length; lia|]. intros b. rewrite dd, nth_set_axis by lia. unfold d1a.
      destruct (b =? a); auto. }
    assert (S0 : forall m, set_axis a 0 (set_axis a m s) = set_axis a 0 s).
    { intros m. apply shape_ext; [rewrite !set_axis_length; rewrite ?set_axis_length; lia|].
      intros b. rewrite !nth_set_axis by (rewrite ?set_axis_length; lia). destruct (b =? a); auto. }
    rewrite Sh, Sw, !S0. destruct (list_eq_dec Nat.eq_dec _ _) as [_|C]; [|contradiction].
    rewrite !nth_set_axis, !Nat.eqb_refl by lia.
    assert (Se : set_axis a (1 + d) (set_axis a 1 s) = s).
    { apply shape_ext; [rewrite !set_axis_length; rewrite ?set_axis_length; lia|].
      intros b. rewrite !nth_set_axis by (rewrite ?set_axis_length; lia). destruct (Nat.eqb_spec b a) as [->|]; auto.
      rewrite Ds, Dn. reflexivity. }
    rewrite Se. eexists; split; [reflexivity|]. split; cbn [rsh]; auto.
    - intros ix Hi. unfold read at 1. cbn [rsh at_].
      assert (I : norm_index s ix a = ix a).
      { unfold norm_index. rewrite Ds, Dn. destruct (Nat.eqb_spec n 1); lia. }
      rewrite I. unfold LorentzModel.cat.
      assert (K : forall t ix, (forall b, nth b s 1 = 1 -> b <> a -> nth b (rsh t) 1 = 1) -> a < length s ->
                  ix a < n -> read t (norm_index s ix) = read t ix).
      { intros t ix0 H _ H0. unfold read. f_equal. apply functional_extensionality; intros b. unfold norm_index.
        destruct (Nat.eqb_spec (nth b (rsh t) 1) 1) as [|N]; auto. destruct (Nat.eqb_spec (nth b s 1) 1) as [E|]; auto.
        destruct (Nat.eq_dec b a) as [->|B]; [|exfalso; auto]. rewrite Ds, Dn in E. lia. }
      destruct (Nat.ltb_spec (ix a) 1) as [H0|H0].
      + replace (ix a) with 0 by lia. rewrite K; [apply rd| |lia|lia].
        intros b B1 B2. rewrite Sh, nth_set_axis by lia. destruct (Nat.eqb_spec b a); auto.
      + destruct (ix a) as [|j] eqn:Ej; [lia|]. replace (S j - 1) with j by lia.
        transitivity (read w (upd ix a j)).
        { unfold read. f_equal. rewrite Sw. apply functional_extensionality; intros b. unfold norm_index, upd.
          rewrite nth_set_axis by lia. destruct (Nat.eqb_spec b a); auto.
          destruct (Nat.eqb_spec (nth b s 1) 1); auto. }
        rewrite Rw by (unfold upd; rewrite Nat.eqb_refl; lia). rewrite Iw. unfold upd. rewrite Nat.eqb_refl. reflexivity.
    - intros ix j. rewrite iv, Iw. reflexivity.
  Qed.
  Lemma g_join h z L D f F w : sg h L (d1 D) f -> vg z L D F ->
    space_ dim (Z.of_nat d) z = Some w ->
    exists y, cat2 dim h w = Some y /\ vg y L D (fun ix => LorentzModel.cat (f ix) (LorentzModel.tl (F ix))).
  Proof.
    intros Sh V E. destruct (g_space _ _ _ _ V) as (w' & E' & Sw & Rw). rewrite E in E'. injection E' as <-.
    destruct V as [l dd ff e ax nn rd iv].
    apply (g_cat h w (rsh z) L D f (fun ix => LorentzModel.tl (F ix))); auto. intros. rewrite iv. reflexivity.
  Qed.

  (** ** The functions *)
  Lemma d1_off D b : b <> a -> d1 D b = D b.
  Proof. clear. intros H. unfold d1a. destruct (Nat.eqb_spec b a); auto; contradiction. Qed.
  Local Open Scope R_scope.
  Ltac ez := eauto 4 using g_lift1, s_lift1.
  Ltac into lem :=
    let z := fresh "z" in let E := fresh "E" in let V := fresh "V" in
    edestruct lem as (z & E & V); [ez .. | rewrite E; clear E].
  Ltac op2 f' x' y' k :=
    first [ k (gg_lift2 f' x' y') | k (sg_lift2 f' x' y') | k (gs_lift2 f' x' y') | k (ss_lift2 T r a _ Tn f' x' y') ].
  Ltac lemax := match goal with
    | |- (?x <= ?x)%nat => apply le_n
    | |- (?x <= Nat.max ?p ?q)%nat =>
        first [ apply (Nat.le_trans _ p); [lemax | apply Nat.le_max_l]
              | apply (Nat.le_trans _ q); [lemax | apply Nat.le_max_r] ]
    end.
  Ltac lens := apply Nat.le_antisymm; repeat apply Nat.max_lub; lemax.
  Ltac sizes :=
    let b := fresh "b" in let Hb := fresh "Hb" in
    intros b; destruct (Nat.eq_dec b a) as [->|Hb];
    [ repeat first [rewrite d1a_at | progress (cbv beta)];
      repeat match goal with
      | V : vg _ _ ?D _ |- context [?D a] => is_var D; rewrite (g_n _ _ _ _ V)
      | V : sg _ _ ?D _ |- context [?D a] => is_var D; rewrite (s_n _ _ _ _ _ _ _ V)
      end; rewrite ?jd_1l, ?jd_1r, ?jd_same; reflexivity
    | repeat first [rewrite (d1_off _ b Hb) | progress (cbv beta)];
      repeat match goal with
      | V : vg _ _ ?D _ |- context [?D b] => is_var D; destruct (g_fit _ _ _ _ V b) as [->| ->]
      | V : sg _ _ ?D _ |- context [?D b] => is_var D; destruct (s_fit _ _ _ _ _ _ _ V b) as [->| ->]
      end; repeat (rewrite ?jd_1l, ?jd_1r, ?jd_same); reflexivity ].

  Lemma Rsum_cat m (x : R) (F : vec) : Rsum (S m) (LorentzModel.cat x F) = x + Rsum m F.
  Proof. induction m; cbn [Rsum] in *; [cbn; ring|]. rewrite IHm. cbn. ring. Qed.

  Lemma g_linner x y L1 D1 F L2 D2 G : vg x L1 D1 F -> vg y L2 D2 G ->
    exists z, linner_nd x y true dim = Some z /\
      sg z (max L1 L2) (d1 (fun b => jd (D1 b) (D2 b))) (fun ix => LorentzModel.inner d (F ix) (G ix)).
  Proof.
    intros V1 V2. unfold linner_nd. rewrite (g_dn _ _ _ _ V1).
    into (gg_lift2 Rmult x y). rename z into uv.
    destruct (g_time _ _ _ _ V) as (t & -> & St).
    destruct (g_space _ _ _ _ V) as (w & Ew & _). rewrite Ew.
    destruct (g_join _ _ _ _ _ _ _ (s_lift1 _ _ _ Ropp _ _ _ _ St) V Ew) as (c & -> & Vc).
    destruct (g_sum _ _ _ _ Vc) as (z & -> & Sz'). exists z. split; [reflexivity|].
    eapply srow_ext; [|exact Sz']. intros ix. cbn beta. rewrite Rsum_cat. reflexivity.
  Qed.
  Lemma g_linner0 k x L1 D1 F : vg x L1 D1 F ->
    exists z, linner0_nd k x true dim = Some z /\
      sg z L1 (d1 D1) (fun ix => LorentzModel.inner0 k (F ix)).
  Proof.
    intros V1. unfold linner0_nd. destruct (g_time _ _ _ _ V1) as (t & -> & St).
    eexists; split; [reflexivity|]. exact (s_lift1 _ _ _ _ _ _ _ _ St).
  Qed.
  Lemma g_ldist k x y L1 D1 F L2 D2 G : vg x L1 D1 F -> vg y L2 D2 G ->
    exists z, ldist_nd k x y true dim = Some z /\
      sg z (max L1 L2) (d1 (fun b => jd (D1 b) (D2 b))) (fun ix => LorentzModel.dist d k (F ix) (G ix)).
  Proof.
    intros V1 V2. unfold ldist_nd. destruct (g_linner _ _ _ _ _ _ _ _ V1 V2) as (i & -> & Si).
    eexists; split; [reflexivity|]. exact (s_lift1 _ _ _ _ _ _ _ _ Si).
  Qed.
  Lemma g_ldist0 k x L1 D1 F : vg x L1 D1 F ->
    exists z, ldist0_nd k x true dim = Some z /\
      sg z L1 (d1 D1) (fun ix => LorentzModel.dist0 k (F ix)).
  Proof.
    intros V1. unfold ldist0_nd. destruct (g_linner0 k _ _ _ _ V1) as (i & -> & Si).
    eexists; split; [reflexivity|]. exact (s_lift1 _ _ _ _ _ _ _ _ Si).
  Qed.
  Lemma ins_del ix j : ins (del ix a) a j = upd ix a j.
  Proof.
    clear Tr Tn. apply functional_extensionality; intros b. unfold ins, del, upd.
    destruct (Nat.ltb_spec b a).
    - destruct (Nat.ltb_spec b a); [|lia]. destruct (Nat.eqb_spec b a); [lia|auto].
    - destruct (Nat.eqb_spec b a); auto. destruct (Nat.ltb_spec (b - 1) a); [lia|]. f_equal. lia.
  Qed.
  Lemma g_lproject k x L D F : vg x L D F ->
    exists z, lproject_nd k x dim = Some z /\ vg z L D (fun ix => LorentzModel.project d k (F ix)).
  Proof.
    intros V. unfold lproject_nd. rewrite (g_dn _ _ _ _ V).
    destruct (g_space _ _ _ _ V) as (w & Ew & Sw & Rw). rewrite Ew.
    pose proof (axis_lt _ _ _ (g_ax _ _ _ _ V)) as La. pose proof (g_len _ _ _ _ V) as Lx.
    assert (Hw : has_rows w dim a d).
    { split; rewrite Sw; [rewrite set_axis_length, Lx by lia; exact (g_ax _ _ _ _ V)|].
      rewrite (nth_error_nth' _ 1%nat) by (rewrite set_axis_length; lia). rewrite nth_set_axis, Nat.eqb_refl by lia. reflexivity. }
    destruct (red_norm w dim a d false Hw) as (q & -> & Sq & Rq). cbn [red] in Sq.
    assert (Lq : length (rsh q) = (L - 1)%nat) by (rewrite Sq, Sw, drop_axis_length; rewrite set_axis_length; lia).
    unfold unsqueeze. cbn [lift1 rsh]. rewrite Lq. replace (S (L - 1)) with L by lia. rewrite (g_ax _ _ _ _ V).
    match goal with |- exists z, match cat2 dim ?h w with _ => _ end = _ /\ _ => idtac | |- exists z, cat2 dim ?h w = _ /\ _ =>
      destruct (g_join h x L D (fun ix => sqrt (k + nrm d (LorentzModel.tl (F ix)) ^ 2)) F w) as (z & Ez & Vz) end; auto.
    - assert (Sh : add_axis a 1 (rsh q) = set_axis a 1 (rsh x)).
      { apply shape_ext; [rewrite add_axis_length, set_axis_length, Lq; lia|].
        intros b. rewrite nth_add_axis by lia. rewrite nth_set_axis by lia. rewrite Sq, Sw.
        destruct (Nat.ltb_spec b a).
        - rewrite nth_drop_axis by (rewrite set_axis_length; lia). destruct (Nat.ltb_spec b a); [|lia].
          rewrite nth_set_axis by lia. destruct (Nat.eqb_spec b a); [lia|auto].
        - destruct (Nat.eqb_spec b a); auto. rewrite nth_drop_axis by (rewrite set_axis_length; lia).
          destruct (Nat.ltb_spec (b - 1) a); [lia|]. rewrite nth_set_axis by lia. destruct (Nat.eqb_spec (S (b - 1)) a); [lia|].
          f_equal. lia. }
      rewrite Sh. split; cbn [rsh].
      + rewrite set_axis_length; lia.
      + intros b. rewrite nth_set_axis by lia. unfold d1a. rewrite (g_dim _ _ _ _ V). reflexivity.
      + intros b. unfold d1a. destruct (b =? a)%nat; auto. apply (g_fit _ _ _ _ V).
      + apply (g_le _ _ _ _ V).
      + apply d1a_at.
      + intros ix. unfold read at 1. cbn [at_ rsh]. rewrite read_lift1, Rq.
        match goal with |- sqrt (k + ?p ^ 2) = sqrt (k + ?q ^ 2) => replace p with q; [reflexivity|] end.
        symmetry. unfold nrm, dot. f_equal. apply Rsum_ext; intros j Hj.
        assert (K : row_at w (place false (del (norm_index (set_axis a 1 (rsh x)) ix) a) a) j = LorentzModel.tl (F ix) j).
        { unfold row_at, place. rewrite ins_del.
          transitivity (read w (upd ix a j)).
          - unfold read. f_equal. rewrite Sw. apply functional_extensionality; intros b. unfold norm_index, upd.
            rewrite !nth_set_axis by lia. destruct (Nat.eqb_spec b a); auto.
            destruct (Nat.eqb_spec (nth b (rsh x) 1%nat) 1%nat); auto.
          - rewrite Rw by (unfold upd; rewrite Nat.eqb_refl; lia). rewrite (g_inv _ _ _ _ V). unfold upd.
            rewrite Nat.eqb_refl. reflexivity. }
        rewrite K. reflexivity.
      + intros. rewrite (g_inv _ _ _ _ V). reflexivity.
    - exists z. split; [exact Ez|exact Vz].
  Qed.
  Lemma g_lpolar k x L D F : vg x L D F ->
    exists z, lproject_polar_nd k x dim = Some z /\ vg z L D (fun ix => LorentzModel.project_polar d k (F ix)).
  Proof.
    intros V. unfold lproject_polar_nd. rewrite (g_dn _ _ _ _ V).
    pose proof (axis_lt _ _ _ (g_ax _ _ _ _ V)) as La. pose proof (g_len _ _ _ _ V) as Lx.
    destruct (narrow_init x dim a d (g_has _ _ _ _ V)) as (w & Ew & Sw & Rw).
    replace (Z.of_nat (S d) - 1)%Z with (Z.of_nat d) in Ew by lia. rewrite Ew.
    destruct (narrow_last x dim a d (g_has _ _ _ _ V)) as (l & El & Sl & Rl). rewrite El.
    assert (Hl : sg l L (d1 D) (fun ix => F ix d)).
    { split; rewrite ?Sl.
      - rewrite set_axis_length; lia.
      - intros b. rewrite nth_set_axis by lia. unfold d1a. rewrite (g_dim _ _ _ _ V). reflexivity.
      - intros b. unfold d1a. destruct (b =? a)%nat; auto. apply (g_fit _ _ _ _ V).
      - apply (g_le _ _ _ _ V).
      - apply d1a_at.
      - intros ix. rewrite Rl, (g_read _ _ _ _ V) by (unfold upd; rewrite Nat.eqb_refl; lia).
        rewrite (g_inv _ _ _ _ V). unfold upd. rewrite Nat.eqb_refl. reflexivity.
      - intros. rewrite (g_inv _ _ _ _ V). reflexivity. }
    match goal with |- context [lift2 Rmult ?p0 w] =>
      destruct (lift2_some Rmult p0 w (set_axis a d (rsh x))) as (p & -> & Sp & Rp) end.
    { cbn [lift1 rsh]. rewrite Sl, Sw. apply bshape_spec. rewrite !set_axis_length by lia. split; [lia|].
      intros b. rewrite !nth_set_axis by lia. destruct (b =? a)%nat; [apply bdim_1|apply bdim_same]. }
    destruct V as [xl xd xf xe xax xn xr xi].
    eapply (g_cat _ p (rsh x) L D _ (fun ix => smul (sqrt k * sinh (F ix d / sqrt k)) (F ix)));
      [exact (s_lift1 _ _ _ (fun r => cosh (r / sqrt k)) _ _ _ _ Hl)| auto ..].
    - intros ix Hi. rewrite Rp, read_lift1, Rw by auto. rewrite (s_read _ _ _ _ _ _ _ Hl), xr by lia. reflexivity.
    - intros. rewrite xi. reflexivity.
  Qed.
  Lemma g_project_u k x v L1 D1 F L2 D2 G : vg x L1 D1 F -> vg v L2 D2 G ->
    exists z, lproject_u_nd k x v dim = Some z /\
      vg z (max L1 L2) (fun b => jd (D1 b) (D2 b)) (fun ix => LorentzModel.project_u d k (F ix) (G ix)).
  Proof.
    intros V1 V2. unfold lproject_u_nd, addcmul.
    destruct (g_linner _ _ _ _ _ _ _ _ V1 V2) as (i & -> & Si).
    into (sg_lift2 Rmult i (lift1 (fun x => x / k) x)).
    edestruct (gg_lift2 Rplus v z) as (q & E & Vq); [ez..|]. exists q. split; [exact E|].
    refine (g_ext _ _ _ _ _ _ (g_shape _ _ _ _ _ _ _ _ Vq)); [reflexivity|lens|sizes].
  Qed.
  Lemma g_geodesic_unit k t x u L0 D0 f L1 D1 F L2 D2 G : sg t L0 D0 f -> vg x L1 D1 F -> vg u L2 D2 G ->
    exists z, lgeodesic_unit_nd k t x u = Some z /\
      vg z (max L0 (max L1 L2)) (fun b => jd (D0 b) (jd (D1 b) (D2 b)))
        (fun ix => LorentzModel.geodesic_unit k (f ix) (F ix) (G ix)).
  Proof.
    intros V0 V1 V2. unfold lgeodesic_unit_nd.
    into (sg_lift2 Rmult (lift1 (fun t => cosh (t / sqrt k)) t) x).
    into (sg_lift2 Rmult (lift1 (fun t => sqrt k * sinh (t / sqrt k)) t) u).
    edestruct (gg_lift2 Rplus z z0) as (q & E & Vq); [ez..|]. exists q. split; [exact E|].
    refine (g_ext _ _ _ _ _ _ (g_shape _ _ _ _ _ _ _ _ Vq)); [reflexivity|lens|sizes].
  Qed.
End Rows.
