(** Each tensor function of StereoNdModel applies its row function along [dim]. *)
From Coq Require Import Reals List ZArith Lia Bool Arith FunctionalExtensionality Lra.
From Verif Require Import RVec StereoModel StereoExtraModel NdModel NdSpec NdProofs StereoNdModel StereoNdSpec.
Import ListNotations.

(** joint size of an axis *)
Definition jd (d1 d2 : nat) : nat := if d1 =? 1 then d2 else d1.

Lemma bdim_jd d1 d2 m : (d1 = 1 \/ d1 = m) -> (d2 = 1 \/ d2 = m) -> bdim d1 d2 = Some (jd d1 d2).
Proof.
  intros [->| ->] [->| ->]; unfold jd; cbn [Nat.eqb]; rewrite ?bdim_1, ?bdim_1r, ?bdim_same; auto;
    destruct (Nat.eqb_spec m 1); subst; auto.
Qed.
Lemma bshape_jd s1 : forall s2 S, (forall b, nth b s1 1 = 1 \/ nth b s1 1 = S b) ->
  (forall b, nth b s2 1 = 1 \/ nth b s2 1 = S b) ->
  exists s, bshape s1 s2 = Some s /\ length s = max (length s1) (length s2) /\
    forall b, nth b s 1 = jd (nth b s1 1) (nth b s2 1).
Proof.
  induction s1 as [|d1 s1 IH]; intros s2 S H1 H2.
  - exists s2. split; [reflexivity|]. split; [reflexivity|]. intros b. destruct b; reflexivity.
  - destruct s2 as [|d2 s2].
    + exists (d1 :: s1). split; [reflexivity|]. split; [cbn; lia|]. intros b.
      unfold jd. destruct (Nat.eqb_spec (nth b (d1 :: s1) 1) 1) as [E|]; auto.
      rewrite E. destruct b; reflexivity.
    + cbn [bshape]. pose proof (H1 0) as A1. pose proof (H2 0) as A2. cbn [nth] in A1, A2.
      rewrite (bdim_jd _ _ _ A1 A2).
      destruct (IH s2 (fun b => S (1 + b))) as (s & -> & L & N).
      { intros b. exact (H1 (1 + b)). } { intros b. exact (H2 (1 + b)). }
      eexists; split; [reflexivity|]. split; [cbn; lia|]. intros [|b]; [reflexivity|]. apply N.
Qed.
Lemma shape_ext (s1 s2 : list nat) : length s1 = length s2 ->
  (forall b, nth b s1 1 = nth b s2 1) -> s1 = s2.
Proof.
  revert s2. induction s1 as [|d s1 IH]; intros [|d2 s2] L H; cbn in L; try lia; auto.
  f_equal; [exact (H 0)|]. apply IH; [lia|]. intros b. exact (H (S b)).
Qed.
Lemma axis_between dim a l1 l l2 : l1 <= l <= l2 -> axis dim l1 = Some a -> axis dim l2 = Some a ->
  axis dim l = Some a.
Proof.
  unfold axis. intros [A B].
  destruct (Z.leb_spec (- Z.of_nat l1) dim), (Z.ltb_spec dim (Z.of_nat l1)); cbn [andb]; try discriminate.
  destruct (Z.leb_spec (- Z.of_nat l2) dim), (Z.ltb_spec dim (Z.of_nat l2)); cbn [andb]; try discriminate.
  destruct (Z.leb_spec (- Z.of_nat l) dim), (Z.ltb_spec dim (Z.of_nat l)); cbn [andb]; try lia.
  destruct (Z.ltb_spec dim 0); auto. intros [= <-] [= E]. f_equal. lia.
Qed.
Lemma axis_lt dim r a : axis dim r = Some a -> a < r.
Proof.
  unfold axis. destruct (Z.leb_spec (- Z.of_nat r) dim), (Z.ltb_spec dim (Z.of_nat r)); cbn [andb]; try discriminate.
  destruct (Z.ltb_spec dim 0); intros [= <-]; lia.
Qed.

Section Rows.
  (** the shape [S], of rank [r], to which everything broadcasts, and the axis *)
  Variables (S : nat -> nat) (r : nat) (dim : Z) (a n : nat).
  Hypothesis Sr : axis dim r = Some a.
  Hypothesis Sn : S a = n.

  Record vrow (z : nd) (L : nat) (D : nat -> nat) (F : index -> vec) : Prop := {
    v_len : length (rsh z) = L; v_dim : forall b, nth b (rsh z) 1 = D b;
    v_fit : forall b, D b = 1 \/ D b = S b; v_le : L <= r;
    v_ax : axis dim L = Some a; v_n : D a = n;
    v_read : forall ix, read z ix = F ix (ix a);
    v_inv : forall ix j, F (upd ix a j) = F ix }.
  Record srow (z : nd) (L : nat) (D : nat -> nat) (f : index -> R) : Prop := {
    s_len : length (rsh z) = L; s_dim : forall b, nth b (rsh z) 1 = D b;
    s_fit : forall b, D b = 1 \/ D b = S b; s_le : L <= r;
    s_n : D a = 1;
    s_read : forall ix, read z ix = f ix;
    s_inv : forall ix j, f (upd ix a j) = f ix }.

  Lemma v_lift1 f z L D F : vrow z L D F -> vrow (lift1 f z) L D (fun ix j => f (F ix j)).
  Proof.
    intros []; split; auto; intros.
    - rewrite read_lift1, v_read0; auto.
    - rewrite v_inv0; auto.
  Qed.
  Lemma s_lift1 f z L D F : srow z L D F -> srow (lift1 f z) L D (fun ix => f (F ix)).
  Proof.
    intros []; split; auto; intros.
    - rewrite read_lift1, s_read0; auto.
    - rewrite s_inv0; auto.
  Qed.
  Lemma lift2_jd f x y : (forall b, nth b (rsh x) 1 = 1 \/ nth b (rsh x) 1 = S b) ->
    (forall b, nth b (rsh y) 1 = 1 \/ nth b (rsh y) 1 = S b) ->
    exists z, lift2 f x y = Some z /\ length (rsh z) = max (length (rsh x)) (length (rsh y)) /\
      (forall b, nth b (rsh z) 1 = jd (nth b (rsh x) 1) (nth b (rsh y) 1)) /\
      forall ix, read z ix = f (read x ix) (read y ix).
  Proof.
    intros H1 H2. destruct (bshape_jd _ _ S H1 H2) as (s & B & L & N).
    destruct (lift2_some f x y s B) as (z & Hz & Sz & Rz). exists z. subst s. auto.
  Qed.
  Lemma jd_fit d1 d2 m : d1 = 1 \/ d1 = m -> d2 = 1 \/ d2 = m -> jd d1 d2 = 1 \/ jd d1 d2 = m.
  Proof. unfold jd. destruct (Nat.eqb_spec d1 1); tauto. Qed.
  Ltac fit := match goal with V : forall b, _ = ?D b |- forall b, nth b _ 1 = 1 \/ _ => intros b; rewrite V; auto end.

  Lemma vv_lift2 f x y L1 D1 F L2 D2 G : vrow x L1 D1 F -> vrow y L2 D2 G ->
    exists z, lift2 f x y = Some z /\
      vrow z (max L1 L2) (fun b => jd (D1 b) (D2 b)) (fun ix j => f (F ix j) (G ix j)).
  Proof.
    intros [l1 d1 f1 e1 a1 n1 r1 i1] [l2 d2 f2 e2 a2 n2 r2 i2].
    destruct (lift2_jd f x y) as (z & Hz & Lz & Dz & Rz).
    { intros b. rewrite d1. auto. } { intros b. rewrite d2; auto. }
    exists z. split; [exact Hz|]. split; intros.
    - rewrite Lz, l1, l2; auto.
    - rewrite Dz, d1, d2; auto.
    - apply jd_fit; auto.
    - lia.
    - apply (axis_between dim a L1 _ r); auto. lia.
    - unfold jd. destruct (Nat.eqb_spec (D1 a) 1); auto.
    - rewrite Rz, r1, r2; auto.
    - rewrite i1, i2; auto.
  Qed.
  Lemma sv_lift2 f x y L1 D1 F L2 D2 G : srow x L1 D1 F -> vrow y L2 D2 G ->
    exists z, lift2 f x y = Some z /\
      vrow z (max L1 L2) (fun b => jd (D1 b) (D2 b)) (fun ix j => f (F ix) (G ix j)).
  Proof.
    intros [l1 d1 f1 e1 n1 r1 i1] [l2 d2 f2 e2 a2 n2 r2 i2].
    destruct (lift2_jd f x y) as (z & Hz & Lz & Dz & Rz).
    { intros b. rewrite d1. auto. } { intros b. rewrite d2; auto. }
    exists z. split; [exact Hz|]. split; intros.
    - rewrite Lz, l1, l2; auto.
    - rewrite Dz, d1, d2; auto.
    - apply jd_fit; auto.
    - lia.
    - apply (axis_between dim a L2 _ r); auto. lia.
    - unfold jd. rewrite n1. auto.
    - rewrite Rz, r1, r2; auto.
    - rewrite i1, i2; auto.
  Qed.
  Lemma vs_lift2 f x y L1 D1 F L2 D2 G : vrow x L1 D1 F -> srow y L2 D2 G ->
    exists z, lift2 f x y = Some z /\
      vrow z (max L1 L2) (fun b => jd (D1 b) (D2 b)) (fun ix j => f (F ix j) (G ix)).
  Proof.
    intros [l1 d1 f1 e1 a1 n1 r1 i1] [l2 d2 f2 e2 n2 r2 i2].
    destruct (lift2_jd f x y) as (z & Hz & Lz & Dz & Rz).
    { intros b. rewrite d1. auto. } { intros b. rewrite d2; auto. }
    exists z. split; [exact Hz|]. split; intros.
    - rewrite Lz, l1, l2; auto.
    - rewrite Dz, d1, d2; auto.
    - apply jd_fit; auto.
    - lia.
    - apply (axis_between dim a L1 _ r); auto. lia.
    - unfold jd. rewrite n2, n1. destruct (Nat.eqb_spec n 1); auto.
    - rewrite Rz, r1, r2; auto.
    - rewrite i1, i2; auto.
  Qed.
  Lemma ss_lift2 f x y L1 D1 F L2 D2 G : srow x L1 D1 F -> srow y L2 D2 G ->
    exists z, lift2 f x y = Some z /\
      srow z (max L1 L2) (fun b => jd (D1 b) (D2 b)) (fun ix => f (F ix) (G ix)).
  Proof.
    intros [l1 d1 f1 e1 n1 r1 i1] [l2 d2 f2 e2 n2 r2 i2].
    destruct (lift2_jd f x y) as (z & Hz & Lz & Dz & Rz).
    { intros b. rewrite d1. auto. } { intros b. rewrite d2; auto. }
    exists z. split; [exact Hz|]. split; intros.
    - rewrite Lz, l1, l2; auto.
    - rewrite Dz, d1, d2; auto.
    - apply jd_fit; auto.
    - lia.
    - unfold jd. rewrite n1, n2. auto.
    - rewrite Rz, r1, r2; auto.
    - rewrite i1, i2; auto.
  Qed.
  Definition d1a (D : nat -> nat) : nat -> nat := fun b => if b =? a then 1 else D b.
  Lemma v_sum z L D F : vrow z L D F ->
    exists y, sum_ dim true z = Some y /\ srow y L (d1a D) (fun ix => Rsum n (F ix)).
  Proof.
    intros [l d f e ax nn rd iv]. unfold sum_. rewrite l, ax. eexists; split; [reflexivity|].
    pose proof (axis_lt _ _ _ ax) as La.
    assert (E : nth a (rsh z) 0 = n) by (rewrite (nth_indep _ 0 1), d; [auto|lia]).
    split; cbn [rsh]; intros; unfold d1a.
    - rewrite set_axis_length; lia.
    - rewrite nth_set_axis by lia. rewrite d; auto.
    - destruct (b =? a); auto.
    - auto.
    - rewrite Nat.eqb_refl; auto.
    - unfold read. cbn [rsh at_]. rewrite E. apply Rsum_ext; intros j Hj.
      fold (read z (upd (norm_index (set_axis a 1 (rsh z)) ix) a j)).
      transitivity (read z (upd ix a j)).
      { unfold read. f_equal. apply functional_extensionality; intros b.
        unfold norm_index, upd. destruct (Nat.eqb_spec (nth b (rsh z) 1) 1); auto.
        destruct (Nat.eqb_spec b a); auto. rewrite nth_set_axis by lia.
        destruct (Nat.eqb_spec b a); try lia. destruct (Nat.eqb_spec (nth b (rsh z) 1) 1); auto; lia. }
      rewrite rd, iv. unfold upd. rewrite Nat.eqb_refl. reflexivity.
    - rewrite iv; auto.
  Qed.
  Lemma srow_ext z L D f g : (forall ix, f ix = g ix) -> srow z L D f -> srow z L D g.
  Proof. intros H []; split; auto; intros; rewrite <- ?H; auto. Qed.
  Lemma vrow_ext z L D F G : (forall ix, F ix = G ix) -> vrow z L D F -> vrow z L D G.
  Proof. intros H []; split; auto; intros; rewrite <- ?H; auto. Qed.
  Lemma v_norm z L D F : vrow z L D F ->
    exists y, norm_ dim true z = Some y /\ srow y L (d1a D) (fun ix => nrm n (F ix)).
  Proof.
    intros V. unfold norm_. destruct (v_sum _ _ _ _ (v_lift1 (fun v => (v * v)%R) _ _ _ _ V)) as (y & -> & Sy).
    eexists; split; [reflexivity|]. apply (s_lift1 sqrt) in Sy.
    eapply srow_ext; [|exact Sy]. reflexivity.
  Qed.
  Lemma v_shape z L L' D D' F : L = L' -> (forall b, D b = D' b) -> vrow z L D F -> vrow z L' D' F.
  Proof. intros <- H []; split; auto; intros; rewrite <- ?H; auto. Qed.
  Lemma s_shape z L L' D D' F : L = L' -> (forall b, D b = D' b) -> srow z L D F -> srow z L' D' F.
  Proof. intros <- H []; split; auto; intros; rewrite <- ?H; auto. Qed.
  Lemma v_sumsq z L D F : vrow z L D F ->
    exists y, sum_ dim true (lift1 (fun v => (v ^ 2)%R) z) = Some y /\ srow y L (d1a D) (fun ix => dot n (F ix) (F ix)).
  Proof.
    intros V. destruct (v_sum _ _ _ _ (v_lift1 (fun v => (v ^ 2)%R) _ _ _ _ V)) as (y & E & Sy).
    exists y. split; [exact E|]. eapply srow_ext; [|exact Sy]. intros ix. unfold dot.
    apply Rsum_ext; intros; cbn beta; ring.
  Qed.
  Lemma v_lambda k z L D F : vrow z L D F ->
    exists y, lambda_x_nd k z true dim = Some y /\ srow y L (d1a D) (fun ix => lambda_x n k (F ix)).
  Proof.
    intros V. unfold lambda_x_nd, pow2. destruct (v_sumsq _ _ _ _ V) as (y & -> & Sy).
    eexists; split; [reflexivity|]. exact (s_lift1 _ _ _ _ _ Sy).
  Qed.

  Ltac vof x := lazymatch x with
    | lift1 ?f ?y => let H := vof y in constr:(v_lift1 f _ _ _ _ H)
    | _ => match goal with H : vrow x _ _ _ |- _ => constr:(H) end
    end.
  Ltac sof x := lazymatch x with
    | lift1 ?f ?y => let H := sof y in constr:(s_lift1 f _ _ _ _ H)
    | _ => match goal with H : srow x _ _ _ |- _ => constr:(H) end
    end.
  Ltac two f x y :=
    match constr:(Set) with
    | _ => let H1 := vof x in let H2 := vof y in constr:(vv_lift2 f _ _ _ _ _ _ _ _ H1 H2)
    | _ => let H1 := sof x in let H2 := vof y in constr:(sv_lift2 f _ _ _ _ _ _ _ _ H1 H2)
    | _ => let H1 := vof x in let H2 := sof y in constr:(vs_lift2 f _ _ _ _ _ _ _ _ H1 H2)
    | _ => let H1 := sof x in let H2 := sof y in constr:(ss_lift2 f _ _ _ _ _ _ _ _ H1 H2)
    end.
  Ltac extra t := fail.
  Ltac op t := lazymatch t with
    | sum_ dim true (lift1 (fun v => (v ^ 2)%R) ?x) => let H := vof x in constr:(v_sumsq _ _ _ _ H)
    | sum_ dim true ?x => let H := vof x in constr:(v_sum _ _ _ _ H)
    | norm_ dim true ?x => let H := vof x in constr:(v_norm _ _ _ _ H)
    | lambda_x_nd ?k ?x true dim => let H := vof x in constr:(v_lambda k _ _ _ _ H)
    | lift2 ?f ?x ?y => two f x y
    | _ => extra t
    end.
  Ltac step :=
    cbv zeta;
    lazymatch goal with
    | |- exists z, match ?t with Some _ => _ | None => _ end = _ /\ _ =>
        let H := op t in let z := fresh "z" in let E := fresh "E" in
        destruct H as (z & E & ?V); rewrite E; clear E
    end.
  Ltac last :=
    cbv zeta;
    lazymatch goal with
    | |- exists z, ?t = Some z /\ _ =>
        let H := op t in let z := fresh "z" in let E := fresh "E" in let V := fresh "V" in
        destruct H as (z & E & V); exists z; split; [exact E|];
        refine (vrow_ext _ _ _ _ _ _ (v_shape _ _ _ _ _ _ _ _ V)); clear V
    end.
  Lemma jd_1l d : jd 1 d = d. Proof. reflexivity. Qed.
  Lemma jd_1r d : jd d 1 = d. Proof. unfold jd. destruct (Nat.eqb_spec d 1); auto. Qed.
  Lemma jd_same d : jd d d = d. Proof. unfold jd. destruct (Nat.eqb_spec d 1); auto. Qed.
  Lemma d1a_at D : d1a D a = 1. Proof. unfold d1a. rewrite Nat.eqb_refl. auto. Qed.
  Lemma d1a_off D b : b <> a -> d1a D b = D b.
  Proof. intros H. unfold d1a. destruct (Nat.eqb_spec b a); auto; lia. Qed.
  Ltac sizes :=
    let b := fresh "b" in let Hb := fresh "Hb" in
    intros b; destruct (Nat.eq_dec b a) as [->|Hb];
    [ repeat first [rewrite d1a_at | progress (cbv beta)];
      repeat match goal with
      | V : vrow _ _ ?D _ |- context [?D a] => is_var D; rewrite (v_n _ _ _ _ V)
      | V : srow _ _ ?D _ |- context [?D a] => is_var D; rewrite (s_n _ _ _ _ V)
      end; rewrite ?jd_1l, ?jd_1r, ?jd_same; reflexivity
    | repeat first [rewrite (d1a_off _ b Hb) | progress (cbv beta)];
      repeat match goal with
      | V : vrow _ _ ?D _ |- context [?D b] => is_var D; destruct (v_fit _ _ _ _ V b) as [->| ->]
      | V : srow _ _ ?D _ |- context [?D b] => is_var D; destruct (s_fit _ _ _ _ V b) as [->| ->]
      end; repeat (rewrite ?jd_1l, ?jd_1r, ?jd_same); reflexivity ].

  Lemma v_mobius_add k x y L1 D1 F L2 D2 G : vrow x L1 D1 F -> vrow y L2 D2 G ->
    exists z, mobius_add_nd k x y dim = Some z /\
      vrow z (max L1 L2) (fun b => jd (D1 b) (D2 b)) (fun ix => mobius_add n k (F ix) (G ix)).
  Proof.
    intros V1 V2. unfold mobius_add_nd.
    repeat step. last.
    - intros ix. apply functional_extensionality; intros j.
      unfold mobius_add, vdiv, mobius_num, mobius_den, vadd, smul. reflexivity.
    - lia.
    - sizes.
  Qed.
  Variable e : R.
  Local Open Scope R_scope.
  Ltac lemax := match goal with
    | |- (?x <= ?x)%nat => apply le_n
    | |- (?x <= Nat.max ?p ?q)%nat =>
        first [ apply (Nat.le_trans _ p); [lemax | apply Nat.le_max_l]
              | apply (Nat.le_trans _ q); [lemax | apply Nat.le_max_r] ]
    end.
  Ltac lens := apply Nat.le_antisymm; repeat apply Nat.max_lub; lemax.
  Ltac fin tac := last; [ intros ix; apply functional_extensionality; intros j; tac; reflexivity | lens | sizes ].

  Lemma v_gyration k u v w L1 D1 F L2 D2 G L3 D3 H : vrow u L1 D1 F -> vrow v L2 D2 G -> vrow w L3 D3 H ->
    exists z, gyration_nd k u v w dim = Some z /\
      vrow z (max L1 (max L2 L3)) (fun b => jd (D1 b) (jd (D2 b) (D3 b))) (fun ix => gyration n k (F ix) (G ix) (H ix)).
  Proof.
    intros V1 V2 V3. unfold gyration_nd, pow2.
    repeat step. fin ltac:(unfold gyration, vadd, vdiv, smul, gyr_den).
  Qed.
  Ltac extra t ::= lazymatch t with
    | mobius_add_nd ?k ?x ?y dim => let H1 := vof x in let H2 := vof y in constr:(v_mobius_add k _ _ _ _ _ _ _ _ H1 H2)
    | gyration_nd ?k ?x ?y ?z dim => let H1 := vof x in let H2 := vof y in let H3 := vof z in
        constr:(v_gyration k _ _ _ _ _ _ _ _ _ _ _ _ H1 H2 H3)
    end.
  Lemma v_coadd k x y L1 D1 F L2 D2 G : vrow x L1 D1 F -> vrow y L2 D2 G ->
    exists z, mobius_coadd_nd k x y dim = Some z /\
      vrow z (max L1 L2) (fun b => jd (D1 b) (D2 b)) (fun ix => mobius_coadd n k (F ix) (G ix)).
  Proof. intros V1 V2. unfold mobius_coadd_nd, neg. repeat step. fin idtac. Qed.
  Lemma v_scalar_mul k t x L1 D1 f L2 D2 G : srow t L1 D1 f -> vrow x L2 D2 G ->
    exists z, mobius_scalar_mul_nd e k t x dim = Some z /\
      vrow z (max L1 L2) (fun b => jd (D1 b) (D2 b)) (fun ix => mobius_scalar_mul n e k (f ix) (G ix)).
  Proof. intros V1 V2. unfold mobius_scalar_mul_nd. repeat step. fin idtac. Qed.
  Ltac extra t ::= lazymatch t with
    | mobius_add_nd ?k ?x ?y dim => let H1 := vof x in let H2 := vof y in constr:(v_mobius_add k _ _ _ _ _ _ _ _ H1 H2)
    | gyration_nd ?k ?x ?y ?z dim => let H1 := vof x in let H2 := vof y in let H3 := vof z in
        constr:(v_gyration k _ _ _ _ _ _ _ _ _ _ _ _ H1 H2 H3)
    | mobius_coadd_nd ?k ?x ?y dim => let H1 := vof x in let H2 := vof y in constr:(v_coadd k _ _ _ _ _ _ _ _ H1 H2)
    | mobius_scalar_mul_nd e ?k ?x ?y dim => let H1 := sof x in let H2 := vof y in constr:(v_scalar_mul k _ _ _ _ _ _ _ _ H1 H2)
    end.
  Lemma v_sub k x y L1 D1 F L2 D2 G : vrow x L1 D1 F -> vrow y L2 D2 G ->
    exists z, mobius_sub_nd k x y dim = Some z /\
      vrow z (max L1 L2) (fun b => jd (D1 b) (D2 b)) (fun ix => mobius_sub n k (F ix) (G ix)).
  Proof. intros V1 V2. unfold mobius_sub_nd, neg. repeat step. fin idtac. Qed.
  Lemma v_cosub k x y L1 D1 F L2 D2 G : vrow x L1 D1 F -> vrow y L2 D2 G ->
    exists z, mobius_cosub_nd k x y dim = Some z /\
      vrow z (max L1 L2) (fun b => jd (D1 b) (D2 b)) (fun ix => mobius_cosub n k (F ix) (G ix)).
  Proof. intros V1 V2. unfold mobius_cosub_nd, neg. repeat step. fin idtac. Qed.
  Lemma v_geodesic k t x y L0 D0 f L1 D1 F L2 D2 G : srow t L0 D0 f -> vrow x L1 D1 F -> vrow y L2 D2 G ->
    exists z, geodesic_nd e k t x y dim = Some z /\
      vrow z (max L0 (max L1 L2)) (fun b => jd (D0 b) (jd (D1 b) (D2 b)))
        (fun ix => geodesic n e k (f ix) (F ix) (G ix)).
  Proof. intros V0 V1 V2. unfold geodesic_nd, neg. repeat step. fin idtac. Qed.
  Lemma v_expmap k x y L1 D1 F L2 D2 G : vrow x L1 D1 F -> vrow y L2 D2 G ->
    exists z, expmap_nd e k x y dim = Some z /\
      vrow z (max L1 L2) (fun b => jd (D1 b) (D2 b)) (fun ix => expmap n e k (F ix) (G ix)).
  Proof. intros V1 V2. unfold expmap_nd. repeat step. fin idtac. Qed.
  Lemma v_expmap0 k x L1 D1 F : vrow x L1 D1 F ->
    exists z, expmap0_nd e k x dim = Some z /\ vrow z L1 D1 (fun ix => expmap0 n e k (F ix)).
  Proof. intros V1. unfold expmap0_nd. repeat step. fin idtac. Qed.
  Lemma v_geodesic_unit k t x y L0 D0 f L1 D1 F L2 D2 G : srow t L0 D0 f -> vrow x L1 D1 F -> vrow y L2 D2 G ->
    exists z, geodesic_unit_nd e k t x y dim = Some z /\
      vrow z (max L0 (max L1 L2)) (fun b => jd (D0 b) (jd (D1 b) (D2 b)))
        (fun ix => geodesic_unit n e k (f ix) (F ix) (G ix)).
  Proof. intros V0 V1 V2. unfold geodesic_unit_nd. repeat step. fin idtac. Qed.
  Lemma v_logmap k x y L1 D1 F L2 D2 G : vrow x L1 D1 F -> vrow y L2 D2 G ->
    exists z, logmap_nd e k x y dim = Some z /\
      vrow z (max L1 L2) (fun b => jd (D1 b) (D2 b)) (fun ix => logmap n e k (F ix) (G ix)).
  Proof. intros V1 V2. unfold logmap_nd, neg. repeat step. fin idtac. Qed.
  Lemma v_logmap0 k x L1 D1 F : vrow x L1 D1 F ->
    exists z, logmap0_nd e k x dim = Some z /\ vrow z L1 D1 (fun ix => logmap0 n e k (F ix)).
  Proof.
    intros V1. unfold logmap0_nd. repeat step.
    last; [ intros ix; apply functional_extensionality; intros j; unfold logmap0, smul, vdiv; apply Rmult_comm | lens | sizes ].
  Qed.
  Lemma v_transport k x y u L1 D1 F L2 D2 G L3 D3 H : vrow x L1 D1 F -> vrow y L2 D2 G -> vrow u L3 D3 H ->
    exists z, parallel_transport_nd k x y u dim = Some z /\
      vrow z (max L1 (max L2 L3)) (fun b => jd (D1 b) (jd (D2 b) (D3 b)))
        (fun ix => parallel_transport n k (F ix) (G ix) (H ix)).
  Proof.
    intros V1 V2 V3. unfold parallel_transport_nd, neg. repeat step.
    last; [ intros ix; apply functional_extensionality; intros j; unfold parallel_transport, smul, vdiv;
            rewrite (Rmult_comm (lambda_x n k (F ix))); reflexivity | lens | sizes ].
  Qed.
  Lemma v_transport0 k x y L1 D1 F L2 D2 G : vrow x L1 D1 F -> vrow y L2 D2 G ->
    exists z, parallel_transport0_nd k x y dim = Some z /\
      vrow z (max L1 L2) (fun b => jd (D1 b) (D2 b)) (fun ix => parallel_transport0 n k (F ix) (G ix)).
  Proof.
    intros V1 V2. unfold parallel_transport0_nd, pow2. repeat step.
    last; [ intros ix; apply functional_extensionality; intros j; apply Rmult_comm | lens | sizes ].
  Qed.
  Lemma v_transport0back k x y L1 D1 F L2 D2 G : vrow x L1 D1 F -> vrow y L2 D2 G ->
    exists z, parallel_transport0back_nd k x y dim = Some z /\
      vrow z (max L1 L2) (fun b => jd (D1 b) (D2 b)) (fun ix => parallel_transport0back n k (F ix) (G ix)).
  Proof. intros V1 V2. unfold parallel_transport0back_nd, pow2. repeat step. fin idtac. Qed.
  Lemma v_egrad2rgrad k x y L1 D1 F L2 D2 G : vrow x L1 D1 F -> vrow y L2 D2 G ->
    exists z, egrad2rgrad_nd k x y dim = Some z /\
      vrow z (max L1 L2) (fun b => jd (D1 b) (D2 b)) (fun ix => egrad2rgrad n k (F ix) (G ix)).
  Proof. intros V1 V2. unfold egrad2rgrad_nd. repeat step. fin idtac. Qed.

  Lemma svv_lift3 f x y w L1 D1 F L2 D2 G L3 D3 H : srow x L1 D1 F -> vrow y L2 D2 G -> vrow w L3 D3 H ->
    exists z, lift3 f x y w = Some z /\
      vrow z (max L1 (max L2 L3)) (fun b => jd (D1 b) (jd (D2 b) (D3 b)))
        (fun ix j => f (F ix) (G ix j) (H ix j)).
  Proof.
    intros V1 V2 V3. unfold lift3.
    destruct (sv_lift2 (fun p q => p) _ _ _ _ _ _ _ _ V1 V2) as (p & Ep & Vp).
    unfold lift2 in Ep. destruct (bshape (rsh x) (rsh y)) as [s|]; [|discriminate].
    injection Ep as Ep.
    destruct (vv_lift2 (fun p q => p) _ _ _ _ _ _ _ _ Vp V3) as (q & Eq & Vq).
    assert (Es : rsh p = s) by (rewrite <- Ep; reflexivity).
    unfold lift2 in Eq. rewrite Es in Eq. destruct (bshape s (rsh w)) as [t|] eqn:B2; [|discriminate].
    injection Eq as Eq. eexists. split; [reflexivity|].
    assert (Et : rsh q = t) by (rewrite <- Eq; reflexivity).
    apply (v_shape _ _ (max L1 (max L2 L3)) _ (fun b => jd (D1 b) (jd (D2 b) (D3 b)))) in Vq; [|lens|sizes].
    destruct Vq as [l d f1 le ax nn rd iv]. destruct V1, V2, V3, Vp as [lp dp fp lep axp np rp ip].
    split; cbn [rsh]; intros; rewrite <- ?Et; auto.
    - rewrite ?Et. unfold read at 1. cbn [at_ rsh].
      assert (N3 : read w (norm_index t ix) = read w ix).
      { unfold read. f_equal. exact (norm_bshape_r _ _ _ _ B2). }
      assert (N2 : forall v, (forall b, nth b t 1 = 1 -> nth b (rsh v) 1 = 1)%nat -> read v (norm_index t ix) = read v ix).
      { intros v Hv. unfold read. f_equal. apply functional_extensionality; intros b. unfold norm_index.
        destruct (Nat.eqb_spec (nth b (rsh v) 1%nat) 1%nat) as [|Nv]; auto.
        destruct (Nat.eqb_spec (nth b t 1%nat) 1%nat) as [Nt|]; auto. exfalso. auto. }
      assert (J : forall b, (nth b (rsh q) 1 = 1 -> D1 b = 1 /\ D2 b = 1)%nat).
      { intros b. rewrite d. unfold jd. destruct (Nat.eqb_spec (D1 b) 1%nat), (Nat.eqb_spec (D2 b) 1%nat); try tauto; lia. }
      rewrite N3, !N2; [rewrite s_read0, v_read0, v_read1; auto| |];
        intros b Hb; rewrite <- Et in Hb; apply J in Hb; [rewrite v_dim0|rewrite s_dim0]; tauto.
    - rewrite s_inv0, v_inv0, v_inv1; auto.
  Qed.
  Lemma v_project eps k x L D F : vrow x L D F ->
    exists z, project_nd e eps k x dim = Some z /\ vrow z L D (fun ix => project n e eps k (F ix)).
  Proof.
    intros V1. unfold project_nd. repeat step. cbv zeta.
    match goal with |- exists z, lift3 ?f ?x ?y ?w = _ /\ _ =>
      let H1 := sof x in let H2 := vof y in let H3 := vof w in
      destruct (svv_lift3 f _ _ _ _ _ _ _ _ _ _ _ _ H1 H2 H3) as (r' & Er & Vr) end.
    exists r'. split; [exact Er|]. refine (vrow_ext _ _ _ _ _ _ (v_shape _ _ _ _ _ _ _ _ Vr)); clear Vr.
    - intros ix. apply functional_extensionality; intros j. unfold project.
      destruct (Rlt_dec _ _); [|reflexivity]. unfold smul, vdiv. apply Rmult_comm.
    - lens.
    - sizes.
  Qed.
  Lemma all_below_ext m f g : (forall i, (i < m)%nat -> f i = g i) -> all_below m f = all_below m g.
  Proof. induction m; intros H; cbn; auto. rewrite IHm, H; auto. Qed.
  Lemma v_all_close z L D F : vrow z L D F ->
    exists y, all_close dim z = Some y /\
      srow y L (d1a D) (fun ix => if all_below n (fun j => close_to_zero (F ix j)) then 1 else 0).
  Proof.
    intros [l d f e0 ax nn rd iv]. unfold all_close. rewrite l, ax. eexists; split; [reflexivity|].
    pose proof (axis_lt _ _ _ ax) as La.
    assert (E : nth a (rsh z) 0%nat = n) by (rewrite (nth_indep _ 0%nat 1%nat), d; [auto|lia]).
    split; cbn [rsh]; intros; unfold d1a.
    - rewrite set_axis_length; lia.
    - rewrite nth_set_axis by lia. rewrite d; auto.
    - destruct (b =? a); auto.
    - auto.
    - rewrite Nat.eqb_refl; auto.
    - unfold read. cbn [rsh at_]. rewrite E.
      erewrite all_below_ext; [reflexivity|]. intros j Hj. cbn beta. f_equal.
      fold (read z (upd (norm_index (set_axis a 1 (rsh z)) ix) a j)).
      transitivity (read z (upd ix a j)).
      { unfold read. f_equal. apply functional_extensionality; intros b.
        unfold norm_index, upd. destruct (Nat.eqb_spec (nth b (rsh z) 1%nat) 1%nat); auto.
        destruct (Nat.eqb_spec b a); auto. rewrite nth_set_axis by lia.
        destruct (Nat.eqb_spec b a); try lia. destruct (Nat.eqb_spec (nth b (rsh z) 1%nat) 1%nat); auto; lia. }
      rewrite rd, iv. unfold upd. rewrite Nat.eqb_refl. reflexivity.
    - rewrite iv; auto.
  Qed.
  Ltac extra t ::= lazymatch t with
    | mobius_add_nd ?k ?x ?y dim => let H1 := vof x in let H2 := vof y in constr:(v_mobius_add k _ _ _ _ _ _ _ _ H1 H2)
    | all_close dim ?x => let H := vof x in constr:(v_all_close _ _ _ _ H)
    | geodesic_unit_nd e ?k ?t ?x ?y dim => let H0 := sof t in let H1 := vof x in let H2 := vof y in
        constr:(v_geodesic_unit k _ _ _ _ _ _ _ _ _ _ _ _ H0 H1 H2)
    end.
  Lemma v_pointwise k x y L1 D1 F L2 D2 G : vrow x L1 D1 F -> vrow y L2 D2 G ->
    exists z, mobius_pointwise_mul_nd e k x y dim = Some z /\
      vrow z (max L1 L2) (fun b => jd (D1 b) (D2 b)) (fun ix => mobius_pointwise_mul n e k (F ix) (G ix)).
  Proof.
    intros V1 V2. unfold mobius_pointwise_mul_nd. repeat step. last; [|lens|sizes].
    intros ix. apply functional_extensionality; intros j. unfold mobius_pointwise_mul.
    destruct (all_below n _); destruct (Req_EM_T _ _); try lra; reflexivity.
  Qed.
  Lemma v_antipode k x L D F : vrow x L D F ->
    exists z, antipode_nd e k x dim = Some z /\ vrow z L D (fun ix => antipode n e k (F ix)).
  Proof.
    intros V1. unfold antipode_nd, antipode. destruct (Rle_dec k 0).
    - eexists; split; [reflexivity|]. exact (v_lift1 Ropp _ _ _ _ V1).
    - repeat step.
      assert (P : srow {| rsh := []; at_ := fun _ => 3141592653589793 / 10 ^ 15 * / sqrt (sabs e k) |}
                0 (fun _ => 1%nat) (fun _ => 3141592653589793 / 10 ^ 15 * / sqrt (sabs e k))).
      { split; auto; [intros []; reflexivity|lia]. }
      last; [reflexivity|rewrite Nat.max_0_l; lens|sizes].
  Qed.

  (** ** sums over several axes *)
  Definition one_at (b : nat) (D : nat -> nat) : nat -> nat := fun c => if (c =? b)%nat then 1%nat else D c.
  Definition many (l : list nat) (D : nat -> nat) : nat -> nat := fold_left (fun D b => one_at b D) l D.
  Fixpoint cellsS (l : list nat) (ix : index) : list index :=
    match l with
    | [] => [ix]
    | b :: l => flat_map (fun c => map (upd c b) (seq 0 (S b))) (cellsS l ix)
    end.
  Lemma total_app {A} (f : A -> R) l1 l2 : total f (l1 ++ l2) = total f l1 + total f l2.
  Proof.
    unfold total. induction l1 as [|c l1 IH]; cbn [app fold_right]; [lra|]. rewrite IH. lra.
  Qed.
  Lemma total_flat {A B} (f : B -> R) (g : A -> list B) l : total f (flat_map g l) = total (fun c => total f (g c)) l.
  Proof. induction l as [|c l IH]; [reflexivity|]. cbn [flat_map]. rewrite total_app, IH. reflexivity. Qed.
  Lemma total_of_map {A B} (f : B -> R) (g : A -> B) l : total f (map g l) = total (fun c => f (g c)) l.
  Proof. induction l as [|c l IH]; [reflexivity|]. cbn. unfold total in IH. rewrite IH. reflexivity. Qed.
  Lemma total_eq {A} (f g : A -> R) l : (forall c, In c l -> f c = g c) -> total f l = total g l.
  Proof.
    induction l as [|c l IH]; intros H; [reflexivity|]. cbn. rewrite H by (left; auto). f_equal.
    apply IH. intros; apply H; right; auto.
  Qed.
  Lemma Rsum_total m f : Rsum m f = total f (seq 0 m).
  Proof.
    induction m; [reflexivity|]. rewrite seq_S, total_app, <- IHm. cbn. ring.
  Qed.
  Lemma cells_total f b l ix : total f (cellsS (b :: l) ix) = total (fun c => Rsum (S b) (fun i => f (upd c b i))) (cellsS l ix).
  Proof.
    cbn [cellsS]. rewrite total_flat. apply total_eq; intros c _. rewrite total_of_map, Rsum_total. reflexivity.
  Qed.
  Lemma upd_swap ix b c i j : b <> c -> upd (upd ix b i) c j = upd (upd ix c j) b i.
  Proof.
    intros H. apply functional_extensionality; intros q. unfold upd.
    destruct (Nat.eqb_spec q c), (Nat.eqb_spec q b); auto; congruence.
  Qed.
  Lemma cells_upd l ix b j : ~ In b l -> cellsS l (upd ix b j) = map (fun c => upd c b j) (cellsS l ix).
  Proof.
    induction l as [|c l IH]; intros H; [reflexivity|]. cbn [cellsS]. rewrite IH by (intros X; apply H; right; auto).
    assert (N : b <> c) by (intros ->; apply H; left; auto). clear H IH.
    induction (cellsS l ix) as [|q cs IH]; [reflexivity|]. cbn [map flat_map]. rewrite map_app, IH. f_equal.
    rewrite map_map. apply map_ext. intros i. apply upd_swap; auto.
  Qed.
  Lemma cells_over l ix b j : In b l -> cellsS l (upd ix b j) = cellsS l ix.
  Proof.
    induction l as [|c l IH]; intros H; [destruct H|]. cbn [cellsS].
    destruct (in_dec Nat.eq_dec b l) as [I|I]; [rewrite IH; auto|].
    destruct H as [->|H]; [|contradiction]. rewrite cells_upd by auto.
    clear IH. induction (cellsS l ix) as [|q cs IH]; [reflexivity|]. cbn [map flat_map]. rewrite IH. f_equal.
    apply map_ext. intros i. apply upd_upd.
  Qed.
  Lemma cells_cells l : forall ix c, In c (cellsS l ix) -> forall m, incl l m -> cellsS m c = cellsS m ix.
  Proof.
    induction l as [|b l IH]; intros ix c H m I; cbn in H.
    - destruct H as [<-|[]]; auto.
    - apply in_flat_map in H as (q & Hq & H). apply in_map_iff in H as (i & <- & _).
      rewrite cells_over by (apply I; left; auto). apply IH; auto. intros z Hz. apply I; right; auto.
  Qed.
  Lemma cells_off l : forall ix c b, In c (cellsS l ix) -> ~ In b l -> c b = ix b.
  Proof.
    induction l as [|d l IH]; intros ix c b H N; cbn in H.
    - destruct H as [<-|[]]; auto.
    - apply in_flat_map in H as (q & Hq & H). apply in_map_iff in H as (i & <- & _).
      unfold upd. destruct (Nat.eqb_spec b d); [subst; exfalso; apply N; left; auto|].
      apply (IH ix); auto. intros X; apply N; right; auto.
  Qed.
  Lemma cells_in l : forall ix c b, In c (cellsS l ix) -> In b l -> (c b < S b)%nat.
  Proof.
    induction l as [|d l IH]; intros ix c b H N; cbn in H; [destruct N|].
    apply in_flat_map in H as (q & Hq & H). apply in_map_iff in H as (i & <- & Hi).
    unfold upd. destruct (Nat.eqb_spec b d); [subst; apply in_seq in Hi; lia|].
    destruct N as [->|N]; [congruence|]. apply (IH ix); auto.
  Qed.
  Lemma many_in l : forall D b, In b l -> many l D b = 1%nat.
  Proof.
    induction l as [|c l IH] using rev_ind; intros D b H; [destruct H|].
    unfold many. rewrite fold_left_app. cbn [fold_left]. unfold one_at at 1.
    destruct (Nat.eqb_spec b c); auto. apply (IH D). apply in_app_or in H as [H|[->|[]]]; auto; congruence.
  Qed.
  Lemma many_out l : forall D b, ~ In b l -> many l D b = D b.
  Proof.
    induction l as [|c l IH] using rev_ind; intros D b H; [reflexivity|].
    unfold many. rewrite fold_left_app. cbn [fold_left]. unfold one_at at 1.
    destruct (Nat.eqb_spec b c); [subst; exfalso; apply H, in_or_app; right; left; auto|].
    apply (IH D). intros X. apply H, in_or_app; auto.
  Qed.

  Lemma read_sum_off z b ix i : (b < length (rsh z))%nat ->
    read z (upd (norm_index (set_axis b 1 (rsh z)) ix) b i) = read z (upd ix b i).
  Proof.
    intros L. unfold read. f_equal. apply functional_extensionality; intros c.
    unfold norm_index, upd. destruct (Nat.eqb_spec (nth c (rsh z) 1%nat) 1%nat); auto.
    destruct (Nat.eqb_spec c b); auto. rewrite nth_set_axis by lia.
    destruct (Nat.eqb_spec c b); try lia. destruct (Nat.eqb_spec (nth c (rsh z) 1%nat) 1%nat); auto; lia.
  Qed.
  Lemma v_sum_ax z D F d b : vrow z r D F -> axis d r = Some b -> b <> a -> D b = S b ->
    exists y, sum_ d true z = Some y /\ vrow y r (one_at b D) (fun ix j => Rsum (S b) (fun i => F (upd ix b i) j)).
  Proof.
    intros [l di f e0 ax nn rd iv] A Nb Db. unfold sum_. rewrite l, A. eexists; split; [reflexivity|].
    pose proof (axis_lt _ _ _ A) as La.
    assert (E : nth b (rsh z) 0%nat = S b) by (rewrite (nth_indep _ 0%nat 1%nat), di; [auto|lia]).
    split; cbn [rsh]; intros; unfold one_at; auto.
    - rewrite set_axis_length; lia.
    - rewrite nth_set_axis by lia. rewrite di; auto.
    - destruct (b0 =? b)%nat; auto.
    - destruct (Nat.eqb_spec a b); auto; congruence.
    - unfold read at 1. cbn [rsh at_]. rewrite E. apply Rsum_ext; intros i Hi.
      rewrite read_sum_off by lia. rewrite rd. f_equal. unfold upd. destruct (Nat.eqb_spec a b); auto; congruence.
    - apply functional_extensionality; intros q. apply Rsum_ext; intros i Hi.
      rewrite upd_swap by auto. rewrite iv. reflexivity.
  Qed.
  Lemma s_sum_ax z D f d b : srow z r D f -> axis d r = Some b -> b <> a -> D b = S b ->
    exists y, sum_ d true z = Some y /\ srow y r (one_at b D) (fun ix => Rsum (S b) (fun i => f (upd ix b i))).
  Proof.
    intros [l di fi e0 nn rd iv] A Nb Db. unfold sum_. rewrite l, A. eexists; split; [reflexivity|].
    pose proof (axis_lt _ _ _ A) as La.
    assert (E : nth b (rsh z) 0%nat = S b) by (rewrite (nth_indep _ 0%nat 1%nat), di; [auto|lia]).
    split; cbn [rsh]; intros; unfold one_at; auto.
    - rewrite set_axis_length; lia.
    - rewrite nth_set_axis by lia. rewrite di; auto.
    - destruct (b0 =? b)%nat; auto.
    - destruct (Nat.eqb_spec a b); auto; congruence.
    - unfold read at 1. cbn [rsh at_]. rewrite E. apply Rsum_ext; intros i Hi.
      rewrite read_sum_off by lia. rewrite rd. reflexivity.
    - apply Rsum_ext; intros i Hi. rewrite upd_swap by auto. rewrite iv. reflexivity.
  Qed.
  Lemma v_sum_each dims : forall l z D F, axes_of r dims = Some l -> NoDup l -> ~ In a l ->
    (forall b, In b l -> D b = S b) -> vrow z r D F ->
    exists y, sum_each dims z = Some y /\ vrow y r (many l D) (fun ix j => total (fun c => F c j) (cellsS l ix)).
  Proof.
    induction dims as [|d dims IH]; intros l z D F A ND Na Full V; cbn in A.
    - injection A as <-. exists z. split; [reflexivity|]. eapply vrow_ext; [|exact V].
      intros ix. apply functional_extensionality; intros j. cbn. lra.
    - destruct (axis d r) as [b|] eqn:Ab; [|discriminate].
      destruct (axes_of r dims) as [l'|] eqn:Al; [|discriminate]. injection A as <-.
      inversion_clear ND as [|? ? Nb ND'].
      destruct (v_sum_ax z D F d b V Ab) as (y & Ey & Vy).
      { intros ->. apply Na; left; auto. } { apply Full; left; auto. }
      cbn [sum_each]. rewrite Ey.
      assert (N1 : ~ In a l') by (intros X; apply Na; right; auto).
      assert (N2 : forall c, In c l' -> one_at b D c = S c).
      { intros c Hc. unfold one_at. destruct (Nat.eqb_spec c b); [subst; contradiction|]. apply Full; right; auto. }
      destruct (IH l' y (one_at b D) _ eq_refl ND' N1 N2 Vy) as (w & Ew & Vw).
      exists w. split; [exact Ew|]. eapply vrow_ext; [|exact Vw].
      intros ix. apply functional_extensionality; intros j. cbn beta. symmetry. apply cells_total.
  Qed.
  Lemma s_sum_each dims : forall l z D f, axes_of r dims = Some l -> NoDup l -> ~ In a l ->
    (forall b, In b l -> D b = S b) -> srow z r D f ->
    exists y, sum_each dims z = Some y /\ srow y r (many l D) (fun ix => total f (cellsS l ix)).
  Proof.
    induction dims as [|d dims IH]; intros l z D f A ND Na Full V; cbn in A.
    - injection A as <-. exists z. split; [reflexivity|]. eapply srow_ext; [|exact V].
      intros ix. cbn. lra.
    - destruct (axis d r) as [b|] eqn:Ab; [|discriminate].
      destruct (axes_of r dims) as [l'|] eqn:Al; [|discriminate]. injection A as <-.
      inversion_clear ND as [|? ? Nb ND'].
      destruct (s_sum_ax z D f d b V Ab) as (y & Ey & Vy).
      { intros ->. apply Na; left; auto. } { apply Full; left; auto. }
      cbn [sum_each]. rewrite Ey.
      assert (N1 : ~ In a l') by (intros X; apply Na; right; auto).
      assert (N2 : forall c, In c l' -> one_at b D c = S c).
      { intros c Hc. unfold one_at. destruct (Nat.eqb_spec c b); [subst; contradiction|]. apply Full; right; auto. }
      destruct (IH l' y (one_at b D) _ eq_refl ND' N1 N2 Vy) as (w & Ew & Vw).
      exists w. split; [exact Ew|]. eapply srow_ext; [|exact Vw].
      intros ix. cbn beta. symmetry. apply cells_total.
  Qed.
  Lemma distinct_ok l : NoDup l -> distinct l = true.
  Proof.
    induction 1 as [|b l Nb ND IH]; [reflexivity|]. cbn. rewrite IH.
    destruct (existsb (Nat.eqb b) l) eqn:E; [|reflexivity].
    apply existsb_exists in E as (c & Hc & Ec). apply Nat.eqb_eq in Ec. subst. contradiction.
  Qed.
  Lemma sum_list_each dims l z : (length (rsh z) = r)%nat -> axes_of r dims = Some l -> NoDup l -> l <> [] ->
    sum_list dims z = sum_each dims z.
  Proof.
    intros L A ND NE. destruct dims as [|d dims]; [cbn in A; congruence|].
    unfold sum_list. rewrite L, A, distinct_ok; auto.
  Qed.

  (** ** the midpoint *)
  Lemma v_dist k x y L1 D1 F L2 D2 G : vrow x L1 D1 F -> vrow y L2 D2 G ->
    exists z, dist_nd e k x y true dim = Some z /\
      srow z (max L1 L2) (d1a (fun b => jd (D1 b) (D2 b))) (fun ix => dist n e k (F ix) (G ix)).
  Proof.
    intros V1 V2. unfold dist_nd, neg. repeat step. eexists. split; [reflexivity|].
    match goal with |- srow (lift1 ?g ?w) _ _ _ => let H := sof w in pose proof (s_lift1 g _ _ _ _ H) as X end.
    exact X.
  Qed.
  Lemma s_scalar v : srow (scalar_nd v) 0 (fun _ => 1%nat) (fun _ => v).
  Proof. split; auto; [intros []; reflexivity|lia]. Qed.

  (** lines 1971-1999 for rows: entries are (conformal factor, weight, row) *)
  Definition mean_of (d k : R) (lincomb : bool) (entries : list (R * R * vec)) : vec :=
    let denominator := total (fun '(g, w, x) => (g - 1) * w) entries in
    let nominator := vtotal (fun '(g, w, x) => smul (g * w) x) entries in
    let two_mean := vdiv nominator (clamp_abs d denominator) in
    let a_mean := mobius_scalar_mul n e k (1 / 2) two_mean in
    let a_mean :=
      if Rlt_dec 0 k then
        let b_mean := antipode n e k a_mean in
        let a_dist := total (fun '(g, w, x) => dist n e k a_mean x) entries in
        let b_dist := total (fun '(g, w, x) => dist n e k b_mean x) entries in
        if Rlt_dec b_dist a_dist then b_mean else a_mean
      else a_mean in
    if lincomb then
      let alpha := total (fun '(g, w, x) => w) entries in
      mobius_scalar_mul n e k alpha a_mean
    else a_mean.

  Section Mid.
    Variables (dims : list Z) (l : list nat).
    Hypothesis Ax : axes_of r dims = Some l.
    Hypothesis ND : NoDup l.
    Hypothesis Na : ~ In a l.
    Hypothesis NE : l <> [].
    Lemma l_lt b : In b l -> (b < r)%nat.
    Proof.
      clear ND Na NE. revert l Ax. induction dims as [|d ds IH]; cbn; intros l0 A; [injection A as <-; intros []|].
      destruct (axis d r) as [c|] eqn:E; [|discriminate]. destruct (axes_of r ds) as [l'|]; [|discriminate].
      injection A as <-. intros [->|H]; [exact (axis_lt _ _ _ E)|]. eapply IH; eauto.
    Qed.
    Lemma v_sum_list z D F : (forall b, In b l -> D b = S b) -> vrow z r D F ->
      exists y, sum_list dims z = Some y /\ vrow y r (many l D) (fun ix j => total (fun c => F c j) (cellsS l ix)).
    Proof. intros Full V. rewrite (sum_list_each dims l z (v_len _ _ _ _ V) Ax ND NE). eapply v_sum_each; eauto. Qed.
    Lemma s_sum_list z D f : (forall b, In b l -> D b = S b) -> srow z r D f ->
      exists y, sum_list dims z = Some y /\ srow y r (many l D) (fun ix => total f (cellsS l ix)).
    Proof. intros Full V. rewrite (sum_list_each dims l z (s_len _ _ _ _ V) Ax ND NE). eapply s_sum_each; eauto. Qed.

    Lemma jd_full m1 m2 : jd m1 m2 = if (m1 =? 1)%nat then m2 else m1. Proof. reflexivity. Qed.
    Variables (xs gamma w : nd) (F : index -> vec) (g f : index -> R) (L0 : nat) (D0 : nat -> nat).
    Hypothesis VX : vrow xs r S F.
    Hypothesis VG : srow gamma r (d1a S) g.
    Hypothesis VW : srow w L0 D0 f.
    Definition entries_at (ix : index) := map (fun c => (g c, f c, F c)) (cellsS l ix).

    Lemma D0fit b : D0 b = 1%nat \/ D0 b = S b. Proof. apply (s_fit _ _ _ _ VW). Qed.
    Lemma joint_w : forall b, jd (d1a S b) (D0 b) = d1a S b.
    Proof.
      intros b. destruct (Nat.eq_dec b a) as [->|N].
      - rewrite d1a_at, (s_n _ _ _ _ VW). reflexivity.
      - rewrite d1a_off by auto. destruct (D0fit b) as [->| ->]; [apply jd_1r|apply jd_same].
    Qed.
    Lemma joint_wx : forall b, jd (d1a S b) (S b) = S b.
    Proof.
      intros b. destruct (Nat.eq_dec b a) as [->|N].
      - rewrite d1a_at. reflexivity.
      - rewrite d1a_off by auto. apply jd_same.
    Qed.
    Lemma full_g b : In b l -> d1a S b = S b.
    Proof. intros H. apply d1a_off. intros ->. contradiction. Qed.
    Lemma max_r : Nat.max r L0 = r. Proof. pose proof (s_le _ _ _ _ VW). lia. Qed.

    Lemma mid_two d k : exists z,
      (let* gw := lift2 (fun g w => (g - 1) * w) gamma w in
       let* denominator := sum_list dims gw in
       let* gw' := lift2 Rmult gamma w in
       let* gwx := lift2 Rmult gw' xs in
       let* nominator := sum_list dims gwx in
       let* two_mean := lift2 Rdiv nominator (lift1 (clamp_abs d) denominator) in
       mobius_scalar_mul_nd e k (scalar_nd (1 / 2)) two_mean dim) = Some z /\
      vrow z r (many l S) (fun ix => mobius_scalar_mul n e k (1 / 2)
        (vdiv (vtotal (fun '(g, w, x) => smul (g * w) x) (entries_at ix))
           (clamp_abs d (total (fun '(g, w, x) => (g - 1) * w) (entries_at ix))))).
    Proof.
      destruct (ss_lift2 (fun g w => (g - 1) * w) _ _ _ _ _ _ _ _ VG VW) as (z1 & -> & V1).
      apply (s_shape _ _ r _ (d1a S)) in V1; [|exact max_r|exact joint_w].
      destruct (s_sum_list _ _ _ full_g V1) as (z2 & -> & V2).
      destruct (ss_lift2 Rmult _ _ _ _ _ _ _ _ VG VW) as (z3 & -> & V3).
      apply (s_shape _ _ r _ (d1a S)) in V3; [|exact max_r|exact joint_w].
      destruct (sv_lift2 Rmult _ _ _ _ _ _ _ _ V3 VX) as (z4 & -> & V4).
      apply (v_shape _ _ r _ S) in V4; [|apply Nat.max_id|exact joint_wx].
      destruct (v_sum_list _ _ _ (fun b _ => eq_refl) V4) as (z5 & -> & V5).
      destruct (vs_lift2 Rdiv _ _ _ _ _ _ _ _ V5 (s_lift1 (clamp_abs d) _ _ _ _ V2)) as (z6 & -> & V6).
      destruct (v_scalar_mul k _ _ _ _ _ _ _ _ (s_scalar (1 / 2)) V6) as (z7 & -> & V7).
      exists z7. split; [reflexivity|].
      refine (vrow_ext _ _ _ _ _ _ (v_shape _ _ _ _ _ _ _ _ V7)).
      - intros ix. unfold vdiv, vtotal, entries_at.
        f_equal. apply functional_extensionality; intros j. rewrite !total_of_map. reflexivity.
      - rewrite Nat.max_0_l. apply Nat.max_id.
      - intros b. rewrite jd_1l. destruct (in_dec Nat.eq_dec b l).
        + rewrite !many_in; auto.
        + rewrite !many_out by auto. destruct (Nat.eq_dec b a) as [->|N].
          * rewrite d1a_at, jd_1r. reflexivity.
          * rewrite d1a_off by auto. apply jd_same.
    Qed.
    Lemma many_d1a b : b <> a -> many l (d1a S) b = many l S b.
    Proof.
      intros N. destruct (in_dec Nat.eq_dec b l); [rewrite !many_in; auto|].
      rewrite !many_out by auto. apply d1a_off; auto.
    Qed.
    Lemma many_a : many l (d1a S) a = 1%nat.
    Proof. rewrite many_out by auto. apply d1a_at. Qed.
    Lemma jd_many b : jd (many l S b) (S b) = S b.
    Proof.
      destruct (in_dec Nat.eq_dec b l); [rewrite many_in by auto; apply jd_1l|].
      rewrite many_out by auto. apply jd_same.
    Qed.
    (** a mean that does not depend on the reduced coordinates *)
    Lemma mid_dist k m M : vrow m r (many l S) M -> (forall ix c, In c (cellsS l ix) -> M c = M ix) ->
      exists z, (let* da := dist_nd e k m xs true dim in sum_list dims da) = Some z /\
        srow z r (many l (d1a S)) (fun ix => total (fun '(g, w, x) => dist n e k (M ix) x) (entries_at ix)).
    Proof.
      intros V I. destruct (v_dist k _ _ _ _ _ _ _ _ V VX) as (z1 & -> & V1).
      apply (s_shape _ _ r _ (d1a S)) in V1; [|apply Nat.max_id|].
      2: { intros b. unfold d1a. destruct (b =? a)%nat; auto. apply jd_many. }
      destruct (s_sum_list _ _ _ full_g V1) as (z2 & -> & V2).
      exists z2. split; [reflexivity|]. eapply srow_ext; [|exact V2].
      intros ix. unfold entries_at. rewrite total_of_map. apply total_eq. intros c Hc. cbn beta. rewrite (I ix c Hc). reflexivity.
    Qed.
    Lemma entries_cells ix c : In c (cellsS l ix) -> entries_at c = entries_at ix.
    Proof. intros H. unfold entries_at. rewrite (cells_cells l ix c H l); auto. intros z; auto. Qed.
    Lemma size_prod : exists p, sizes_product dims xs = Some p /\
      forall ix, p = INR (length (cellsS l ix)).
    Proof.
      clear ND Na NE. revert l Ax. induction dims as [|d ds IH]; cbn [axes_of sizes_product]; intros l0 A.
      - injection A as <-. exists 1. split; [reflexivity|]. intros ix. reflexivity.
      - unfold size_. rewrite (v_len _ _ _ _ VX). destruct (axis d r) as [c|] eqn:E; [|discriminate].
        destruct (axes_of r ds) as [l'|]; [|discriminate]. injection A as <-.
        destruct (IH l' eq_refl) as (p & -> & Hp). eexists. split; [reflexivity|]. intros ix.
        pose proof (axis_lt _ _ _ E) as Lc. rewrite (Hp ix).
        rewrite (nth_indep _ 0%nat 1%nat), (v_dim _ _ _ _ VX) by (rewrite (v_len _ _ _ _ VX); auto).
        rewrite <- mult_INR. f_equal. cbn [cellsS].
        induction (cellsS l' ix) as [|q qs IHq]; cbn [flat_map length]; [lia|].
        rewrite app_length, map_length, seq_length, <- IHq. lia.
    Qed.
    Lemma numel_one s : numel s = 1%nat -> forall b, nth b s 1%nat = 1%nat.
    Proof.
      unfold numel. induction s as [|q s IH]; cbn; intros H [|b]; auto; apply Nat.eq_mul_1 in H as [-> H]; auto.
    Qed.
    Lemma total_const {A} (c : R) (q : list A) h : (forall y, In y q -> h y = c) -> total h q = c * INR (length q).
    Proof.
      induction q as [|y q IH]; intros H; [cbn; lra|]. cbn [length]. rewrite S_INR.
      change (total h (y :: q)) with (h y + total h q). rewrite H, IH; [lra| |left; auto].
      intros; apply H; right; auto.
    Qed.
    Lemma mid_alpha : exists z L D, 
      (if (numel (rsh w) =? 1)%nat then let* p := sizes_product dims xs in Some (lift1 (fun v => v * p) w)
       else let* w := lift2 (fun w g => w) w gamma in sum_list dims w) = Some z /\
      srow z L D (fun ix => total (fun '(g, w, x) => w) (entries_at ix)) /\ (L <= r)%nat /\
      (forall b, D b = 1%nat \/ D b = many l S b).
    Proof.
      destruct (Nat.eqb_spec (numel (rsh w)) 1) as [E|E].
      - destruct size_prod as (p & -> & Hp). eexists _, L0, D0. split; [reflexivity|].
        assert (One : forall b, D0 b = 1%nat) by (intros b; rewrite <- (s_dim _ _ _ _ VW); apply numel_one; auto).
        assert (Const : forall ix ix', f ix = f ix').
        { intros ix ix'. rewrite <- !(s_read _ _ _ _ VW). unfold read. f_equal.
          apply functional_extensionality; intros b. unfold norm_index.
          rewrite (s_dim _ _ _ _ VW), One. reflexivity. }
        split; [|split; [apply (s_le _ _ _ _ VW)|auto]].
        eapply srow_ext; [|exact (s_lift1 (fun v => v * p) _ _ _ _ VW)].
        intros ix. cbn beta. unfold entries_at. rewrite total_of_map.
        rewrite (total_const (f ix)) by (intros; apply Const). rewrite (Hp ix). reflexivity.
      - destruct (ss_lift2 (fun w g => w) _ _ _ _ _ _ _ _ VW VG) as (z1 & -> & V1).
        apply (s_shape _ _ r _ (d1a S)) in V1; [|rewrite Nat.max_comm; exact max_r|].
        2: { intros b. destruct (Nat.eq_dec b a) as [->|N].
             - rewrite d1a_at, (s_n _ _ _ _ VW). reflexivity.
             - rewrite d1a_off by auto. destruct (D0fit b) as [->| ->]; [apply jd_1l|apply jd_same]. }
        destruct (s_sum_list _ _ _ full_g V1) as (z2 & -> & V2).
        exists z2, r, (many l (d1a S)). split; [reflexivity|]. split; [|split; [lia|]].
        + eapply srow_ext; [|exact V2]. intros ix. unfold entries_at. rewrite total_of_map. reflexivity.
        + intros b. destruct (Nat.eq_dec b a) as [->|N]; [left; apply many_a|right; apply many_d1a; auto].
    Qed.
    Lemma v_midpoint d k lincomb : exists z,
      midpoint_nd e d k gamma w xs dims dim true lincomb = Some z /\
      vrow z r (many l S) (fun ix => mean_of d k lincomb (entries_at ix)).
    Proof.
      destruct (mid_two d k) as (m & Em & Vm). unfold midpoint_nd.
      repeat match type of Em with
      | match ?t with Some _ => _ | None => _ end = Some _ => destruct t as [?z|]; [|discriminate Em]; cbv beta iota in Em
      end.
      rewrite Em.
      set (two := fun ix => mobius_scalar_mul n e k (1 / 2)
        (vdiv (vtotal (fun '(g, w, x) => smul (g * w) x) (entries_at ix))
           (clamp_abs d (total (fun '(g, w, x) => (g - 1) * w) (entries_at ix))))) in Vm.
      set (ch := fun ix => if Rlt_dec 0 k then
          if Rlt_dec (total (fun '(g, w, x) => dist n e k (antipode n e k (two ix)) x) (entries_at ix))
                     (total (fun '(g, w, x) => dist n e k (two ix) x) (entries_at ix))
          then antipode n e k (two ix) else two ix else two ix).
      assert (Ch : exists y, (if Rlt_dec 0 k then
          let* b_mean := antipode_nd e k m dim in
          let* da := dist_nd e k m xs true dim in
          let* a_dist := sum_list dims da in
          let* db := dist_nd e k b_mean xs true dim in
          let* b_dist := sum_list dims db in
          let* better := lift2 (fun b a => if Rlt_dec b a then 1 else 0) b_dist a_dist in
          lift3 (fun c b a => if Req_EM_T c 1 then b else a) better b_mean m
        else Some m) = Some y /\ vrow y r (many l S) ch).
      { unfold ch. destruct (Rlt_dec 0 k) as [K|K]; [|eexists; split; [reflexivity|exact Vm]].
        destruct (v_antipode k _ _ _ _ Vm) as (b & Eb & Vb). rewrite Eb.
        assert (I2 : forall ix c, In c (cellsS l ix) -> two c = two ix).
        { intros ix c H. unfold two. rewrite (entries_cells ix c H). reflexivity. }
        destruct (mid_dist k m _ Vm I2) as (da & Ea & Va).
        destruct (mid_dist k b (fun ix => antipode n e k (two ix)) Vb) as (db & Edb & Vdb).
        { intros ix c H. rewrite (I2 ix c H). reflexivity. }
        destruct (dist_nd e k m xs true dim) as [q1|]; [|discriminate Ea]. rewrite Ea.
        destruct (dist_nd e k b xs true dim) as [q2|]; [|discriminate Edb]. rewrite Edb.
        destruct (ss_lift2 (fun b a => if Rlt_dec b a then 1 else 0) _ _ _ _ _ _ _ _ Vdb Va) as (bt & -> & Vbt).
        destruct (svv_lift3 (fun c b a => if Req_EM_T c 1 then b else a) _ _ _ _ _ _ _ _ _ _ _ _ Vbt Vb Vm) as (y & -> & Vy).
        exists y. split; [reflexivity|]. refine (vrow_ext _ _ _ _ _ _ (v_shape _ _ _ _ _ _ _ _ Vy)).
        - intros ix. apply functional_extensionality; intros j. cbn beta.
          destruct (Rlt_dec _ _); destruct (Req_EM_T _ _); try lra; reflexivity.
        - rewrite !Nat.max_id. reflexivity.
        - intros q. rewrite !jd_same. destruct (Nat.eq_dec q a) as [->|N].
          + rewrite many_a. reflexivity.
          + rewrite many_d1a by auto. apply jd_same. }
      destruct Ch as (y & -> & Vy).
      destruct lincomb.
      - destruct mid_alpha as (al & La & Da & -> & Val & Lal & Fal).
        destruct (v_scalar_mul k _ _ _ _ _ _ _ _ Val Vy) as (zz & -> & Vz).
        exists zz. split; [reflexivity|]. refine (vrow_ext _ _ _ _ _ _ (v_shape _ _ _ _ _ _ _ _ Vz)).
        + intros ix. reflexivity.
        + lia.
        + intros b. destruct (Fal b) as [->| ->]; [apply jd_1l|apply jd_same].
      - exists y. split; [reflexivity|]. exact Vy.
    Qed.
  End Mid.
End Rows.
