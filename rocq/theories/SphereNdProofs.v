(** Each tensor function of SphereNdModel applies its row function along the last axis. *)
From Coq Require Import Reals List ZArith Lia Bool Arith FunctionalExtensionality Lra.
From Verif Require Import RVec StereoModel NdModel NdSpec NdProofs StereoNdModel StereoNdSpec StereoNdProofs StereoNdProofs2 StereoNdProofs3.
From Verif Require SphereModel.
From Verif Require Import LorentzNdModel LorentzNdSpec LorentzNdProofs LorentzNdProofs3 SphereNdModel SphereNdSpec.
Import ListNotations.

Lemma matrix_upd P ix j : matrix_at P (upd ix 0 j) = matrix_at P ix.
Proof.
  unfold matrix_at. destruct P as [p|]; [|reflexivity]. cbn [option_map]. f_equal.
  apply functional_extensionality; intros i. apply functional_extensionality; intros k. rewrite upd_upd. reflexivity.
Qed.
Lemma read_transpose t c r bs y ix : rsh t = c :: r :: bs -> transpose_nd t = Some y -> read y ix = read t (swap01 ix).
Proof.
  intros E. unfold transpose_nd. rewrite E. intros [= <-]. unfold read at 1. cbn [rsh at_].
  unfold read. f_equal. rewrite E. apply functional_extensionality; intros b. unfold norm_index, swap01.
  destruct b as [|[|b]]; cbn [nth];
    repeat match goal with |- context [(?p =? ?q)%nat] => destruct (Nat.eqb_spec p q) end; auto.
Qed.

Section Rows.
  Variables (T : nat -> nat) (r d : nat).
  Hypothesis Tr : axis (-1) r = Some 0.
  Hypothesis Tn : T 0 = S d.
  Notation n := (S d).
  Notation vg := (vg T r (-1) 0 d).
  Notation sg := (srow T r 0).
  Notation d1 := (d1a 0).

  Variable P : option nd.
  Variable eps : R.
  Notation Q := (batch_of P).
  Hypothesis QT : forall b, nth b Q 1 = 1 \/ nth b Q 1 = T b.
  Hypothesis Ql : length Q <= r.

  Definition pfit (L : nat) : Prop :=
    match P with Some p => exists bs, rsh p = n :: n :: bs /\ (bs <> [] -> 2 <= L) | None => True end.
  Lemma Q0 : nth 0 Q 1 = 1.
  Proof. clear. destruct P as [p|]; [|reflexivity]. unfold batch_of. destruct (rsh p) as [|? [|? [|? ?]]]; reflexivity. Qed.
  Lemma Q1 : nth 1 Q 1 = 1.
  Proof. clear. destruct P as [p|]; [|reflexivity]. unfold batch_of. destruct (rsh p) as [|? [|? [|? ?]]]; reflexivity. Qed.
  Lemma pfit_mono L L' : L <= L' -> pfit L -> pfit L'.
  Proof. unfold pfit. destruct P; auto. intros H (bs & E & F). exists bs. split; auto. intros B. specialize (F B). lia. Qed.

  (** the product with the transposed projector *)
  Lemma g_subspace z L D F : vg z L D F -> pfit L ->
    exists y, subspace_nd P z = Some y /\
      vg y (max L (length Q)) (fun b => jd (D b) (nth b Q 1))
         (fun ix => SphereModel.project_on_subspace n (matrix_at P ix) (F ix)).
  Proof.
    intros V PF. pose proof (axis_lt _ _ _ (g_ax _ _ _ _ _ _ _ _ _ V)) as L0.
    assert (Inv : forall ix j, SphereModel.project_on_subspace n (matrix_at P (upd ix 0 j)) (F (upd ix 0 j)) =
      SphereModel.project_on_subspace n (matrix_at P ix) (F ix)).
    { intros. rewrite matrix_upd, (g_inv _ _ _ _ _ _ _ _ _ V). reflexivity. }
    unfold pfit in PF. unfold subspace_nd. destruct P as [p|] eqn:EP.
    2:{ exists z. split; [reflexivity|]. cbn [batch_of].
        refine (g_shape _ _ _ _ _ _ _ _ _ _ _ _ _ V); [cbn [length]; lia|].
        intros b. cbn [nth]. destruct b; rewrite jd_1r; reflexivity. }
    destruct PF as (bs & Ep & Eb).
    assert (Et : exists pt, transpose_nd p = Some pt /\ rsh pt = n :: n :: bs).
    { unfold transpose_nd. rewrite Ep. eexists; split; reflexivity. }
    destruct Et as (pt & Et & St). rewrite Et.
    assert (Rt : forall ix, read pt ix = read p (swap01 ix)) by (intros; eapply read_transpose; eauto).
    destruct V as [l dd f e ax nn rd iv].
    assert (Az : exists zs, rsh z = n :: zs).
    { destruct (rsh z) as [|q zs] eqn:E; [cbn in l; lia|]. exists zs. f_equal. specialize (dd 0). cbn in dd. congruence. }
    destruct Az as (zs & Ez). unfold matmul_nd. rewrite Ez, St.
    assert (Row : forall (m : nat -> index) ix, ix 0 < n ->
      (forall j, j < n -> forall b, swap01 (m j) b = upd (upd ix 0 j) 1 (ix 0) b \/ nth b (rsh p) 1 = 1) ->
      Rsum n (fun j => read z (upd ix 0 j) * read pt (m j))%R =
      SphereModel.project_on_subspace n (matrix_at (Some p) ix) (F ix) (ix 0)).
    { intros m ix Hi Hm. unfold SphereModel.project_on_subspace. cbn [matrix_at option_map]. apply Rsum_ext; intros j Hj.
      rewrite rd by (unfold upd; rewrite Nat.eqb_refl; exact Hj). rewrite iv. unfold upd at 1. rewrite Nat.eqb_refl.
      f_equal. rewrite Rt. unfold read. f_equal. apply functional_extensionality; intros b. unfold norm_index.
      destruct (Nat.eqb_spec (nth b (rsh p) 1) 1); auto. destruct (Hm j Hj b); [assumption|contradiction]. }
    destruct zs as [|q zs].
    - (* a vector *)
      assert (bs = []).
      { destruct bs; [reflexivity|]. rewrite Ez in l. cbn in l. assert (2 <= L) by (apply Eb; discriminate). lia. }
      subst bs. rewrite Nat.eqb_refl. eexists; split; [reflexivity|].
      unfold batch_of. rewrite Ep. cbn [length].
      split; cbn [rsh].
      + rewrite Ez in l. cbn in *. lia.
      + intros b. rewrite <- dd, Ez. destruct b as [|b]; [cbn [nth]; rewrite jd_1r; reflexivity|]. cbn [nth]. destruct b; rewrite jd_1r; reflexivity.
      + intros b. replace (nth b [] 1) with 1 by (destruct b; reflexivity). rewrite jd_1r. apply f.
      + lia.
      + replace (max L 0) with L by lia. exact ax.
      + cbn [nth]. rewrite jd_1r. exact nn.
      + intros ix Hi. unfold read at 1. cbn [rsh at_].
        assert (I0 : norm_index [n] ix 0 = ix 0).
        { unfold norm_index. cbn [nth]. destruct (Nat.eqb_spec n 1); [lia|auto]. }
        transitivity (SphereModel.project_on_subspace n (matrix_at (Some p) (norm_index [n] ix)) (F (norm_index [n] ix)) (norm_index [n] ix 0)).
        1: apply Row.
        3:{ rewrite I0. cbn [matrix_at option_map]. unfold SphereModel.project_on_subspace. apply Rsum_ext; intros j Hj.
          f_equal.
          -- rewrite <- (iv ix j), <- (iv (norm_index [n] ix) j).
             pose proof (rd (upd ix 0 j) Hj) as R1. pose proof (rd (upd (norm_index [n] ix) 0 j) Hj) as R2.
             unfold upd at 3 in R1. unfold upd at 3 in R2. cbn [Nat.eqb] in R1, R2. rewrite <- R1, <- R2.
             unfold read. f_equal. apply functional_extensionality; intros b. unfold norm_index, upd. rewrite Ez.
             destruct b as [|b]; cbn [Nat.eqb nth]; auto. destruct b; cbn; auto.
          -- unfold read. f_equal. apply functional_extensionality; intros b. unfold norm_index, upd. rewrite Ep.
             destruct b as [|[|b]]; cbn [Nat.eqb nth]; auto. destruct b; cbn; auto. }
        * rewrite I0. exact Hi.
        * intros j Hj b. destruct b as [|[|b]]; [left; reflexivity|left; reflexivity|right; rewrite Ep; destruct b; reflexivity].
      + exact Inv.
    - (* at least one axis before the last *)
      rewrite Nat.eqb_refl.
      assert (Bt : exists s, bshape zs bs = Some s /\ length s = max (length zs) (length bs) /\
                     forall b, nth b s 1 = jd (nth b zs 1) (nth b bs 1)).
      { apply (bshape_jd zs bs (fun b => T (S (S b)))).
        - intros b. destruct (f (S (S b))) as [H|H]; rewrite <- dd, Ez in H; cbn [nth] in H; auto.
        - intros b. specialize (QT (S (S b))). unfold batch_of in QT. rewrite Ep in QT.
          destruct bs as [|q' bs]; [left; destruct b; reflexivity|]. exact QT. }
      destruct Bt as (s & Es & Ls & Ns). rewrite Es. eexists; split; [reflexivity|].
      assert (LQ : length (batch_of (Some p)) = if bs then 0 else S (S (length bs))).
      { unfold batch_of. rewrite Ep. destruct bs; reflexivity. }
      assert (NQ : forall b, nth (S (S b)) (batch_of (Some p)) 1 = nth b bs 1).
      { intros b. unfold batch_of. rewrite Ep. destruct bs; [destruct b|]; reflexivity. }
      assert (Lz : length (n :: q :: zs) = L) by (rewrite <- Ez; exact l). cbn [length] in Lz.
      assert (Dz : forall b, nth b (n :: q :: zs) 1 = D b) by (intros; rewrite <- Ez; apply dd).
      assert (Lm : S (S (length s)) = max L (length (batch_of (Some p)))).
      { rewrite LQ, Ls. destruct bs; cbn [length]; lia. }
      assert (Dm : forall b, nth b (n :: q :: s) 1 = jd (D b) (nth b (batch_of (Some p)) 1)).
      { intros [|[|b]].
        - pose proof Q0 as q0. rewrite EP in q0. rewrite q0, jd_1r, <- Dz. reflexivity.
        - pose proof Q1 as q1. rewrite EP in q1. rewrite q1, jd_1r, <- Dz. reflexivity.
        - rewrite NQ, <- Dz. cbn [nth]. apply Ns. }
      split; cbn [rsh]; auto.
      + intros b. apply jd_fit; auto.
      + lia.
      + apply (axis_between _ _ L _ r); auto. lia.
      + pose proof Q0 as q0. rewrite EP in q0. rewrite q0, jd_1r. exact nn.
      + intros ix Hi. unfold read at 1. cbn [rsh at_].
        set (ix' := norm_index (n :: q :: s) ix).
        assert (I0 : ix' 0 = ix 0).
        { unfold ix', norm_index. cbn [nth]. destruct (Nat.eqb_spec n 1); [lia|auto]. }
        assert (Jz : forall j b, nth b (rsh z) 1 <> 1 -> upd ix' 0 j b = upd ix 0 j b).
        { intros j b Hb. unfold upd. destruct (Nat.eqb_spec b 0) as [|b0]; auto. unfold ix', norm_index.
          destruct (Nat.eqb_spec (nth b (n :: q :: s) 1) 1) as [Hq|]; auto. rewrite Dm in Hq. rewrite dd in Hb.
          unfold jd in Hq. destruct (Nat.eqb_spec (D b) 1); contradiction. }
        assert (Jp : forall j b, nth b (rsh p) 1 <> 1 -> upd (upd ix' 0 j) 1 (ix 0) b = upd (upd ix 0 j) 1 (ix 0) b).
        { intros j b Hb. destruct b as [|[|b]]; [reflexivity|reflexivity|]. unfold upd. cbn [Nat.eqb]. unfold ix', norm_index.
          destruct (Nat.eqb_spec (nth (S (S b)) (n :: q :: s) 1) 1) as [Hq|]; auto. rewrite Dm, NQ in Hq.
          rewrite Ep in Hb. cbn [nth] in Hb. unfold jd in Hq.
          destruct (Nat.eqb_spec (D (S (S b))) 1); contradiction. }
        rewrite (Rsum_ext _ _ (fun j => read z (upd ix 0 j) * read pt (upd ix' 1 j)))%R.
        2:{ intros j Hj. f_equal. unfold read. f_equal. apply functional_extensionality; intros b. unfold norm_index.
            destruct (Nat.eqb_spec (nth b (rsh z) 1) 1) as [|Hb]; auto. }
        apply Row; [exact Hi|]. intros j Hj b. destruct (Nat.eq_dec (nth b (rsh p) 1) 1) as [|Hb]; [auto|left].
        rewrite <- Jp by exact Hb. rewrite <- I0. destruct b as [|[|b]]; reflexivity.
  Qed.

  Local Open Scope R_scope.
  Lemma g_norm z L D F : vg z L D F ->
    exists y, norm_ (-1) true z = Some y /\ sg y L (d1 D) (fun ix => nrm n (F ix)).
  Proof.
    intros V. unfold norm_.
    destruct (g_sum T r (-1) 0 d Tn _ _ _ _ (g_lift1 _ _ _ _ _ (fun v => v * v) _ _ _ _ V)) as (y & -> & Sy).
    eexists; split; [reflexivity|]. exact (s_lift1 _ _ _ sqrt _ _ _ _ Sy).
  Qed.
  Lemma d1_off D b : b <> 0%nat -> d1 D b = D b.
  Proof. clear. intros H. unfold d1a. destruct (Nat.eqb_spec b 0); auto; contradiction. Qed.
  Definition sz_fit (D : nat -> nat) := forall b, D b = 1%nat \/ D b = T b.
  Lemma Qfit : sz_fit (fun b => nth b Q 1%nat).
  Proof. exact QT. Qed.
  Ltac ez := eauto 4 using g_lift1, s_lift1.
  Ltac into lem :=
    let z := fresh "z" in let E := fresh "E" in let V := fresh "V" in
    edestruct lem as (z & E & V); [ez .. | rewrite E; clear E].
  Ltac lemax := match goal with
    | |- (?x <= ?x)%nat => apply le_n
    | |- (?x <= Nat.max ?p ?q)%nat =>
        first [ apply (Nat.le_trans _ p); [lemax | apply Nat.le_max_l]
              | apply (Nat.le_trans _ q); [lemax | apply Nat.le_max_r] ]
    end.
  Ltac lens := apply Nat.le_antisymm; repeat apply Nat.max_lub; lemax.
  Ltac sizes :=
    let b := fresh "b" in let Hb := fresh "Hb" in
    intros b; destruct (Nat.eq_dec b 0) as [->|Hb];
    [ repeat first [rewrite d1a_at | rewrite Q0 | progress (cbv beta)];
      repeat match goal with
      | V : LorentzNdProofs.vg _ _ _ _ _ _ _ ?D _ |- context [?D 0%nat] => is_var D; rewrite (g_n _ _ _ _ _ _ _ _ _ V)
      | V : srow _ _ _ _ _ ?D _ |- context [?D 0%nat] => is_var D; rewrite (s_n _ _ _ _ _ _ _ V)
      end; rewrite ?jd_1l, ?jd_1r, ?jd_same; reflexivity
    | repeat first [rewrite (d1_off _ b Hb) | progress (cbv beta)];
      destruct (QT b) as [HQ|HQ]; rewrite ?HQ;
      repeat match goal with
      | V : LorentzNdProofs.vg _ _ _ _ _ _ _ ?D _ |- context [?D b] => is_var D; destruct (g_fit _ _ _ _ _ _ _ _ _ V b) as [->| ->]
      | V : srow _ _ _ _ _ ?D _ |- context [?D b] => is_var D; destruct (s_fit _ _ _ _ _ _ _ V b) as [->| ->]
      end; repeat (rewrite ?jd_1l, ?jd_1r, ?jd_same); reflexivity ].
  Ltac fin V := refine (g_ext _ _ _ _ _ _ _ _ _ _ _ (g_shape _ _ _ _ _ _ _ _ _ _ _ _ _ V)); [|lens|sizes].

  Lemma sgg_lift3 f x y w L1 D1 F L2 D2 G L3 D3 H : sg x L1 D1 F -> vg y L2 D2 G -> vg w L3 D3 H ->
    exists z, lift3 f x y w = Some z /\
      vg z (max L1 (max L2 L3)) (fun b => jd (D1 b) (jd (D2 b) (D3 b)))
        (fun ix j => f (F ix) (G ix j) (H ix j)).
  Proof.
    intros V1 V2 V3. unfold lift3.
    destruct (sg_lift2 T r (-1) 0 d Tr Tn (fun p q => p) _ _ _ _ _ _ _ _ V1 V2) as (p & Ep & Vp).
    unfold lift2 in Ep. destruct (bshape (rsh x) (rsh y)) as [s|]; [|discriminate].
    injection Ep as Ep.
    destruct (gg_lift2 T r (-1) 0 d Tr Tn (fun p q => p) _ _ _ _ _ _ _ _ Vp V3) as (q & Eq & Vq).
    assert (Es : rsh p = s) by (rewrite <- Ep; reflexivity).
    unfold lift2 in Eq. rewrite Es in Eq. destruct (bshape s (rsh w)) as [t|] eqn:B2; [|discriminate].
    injection Eq as Eq. eexists. split; [reflexivity|].
    assert (Et : rsh q = t) by (rewrite <- Eq; reflexivity).
    apply (g_shape _ _ _ _ _ _ _ (max L1 (max L2 L3)) _ (fun b => jd (D1 b) (jd (D2 b) (D3 b)))) in Vq; [|lens|sizes].
    destruct Vq as [l dq f1 le ax nn rd iv]. destruct V1, V2, V3, Vp as [lp dp fp lep axp np rp ip].
    split; cbn [rsh]; intros; rewrite <- ?Et; auto.
    - rewrite ?Et. unfold read at 1. cbn [at_ rsh].
      assert (N3 : read w (norm_index t ix) = read w ix).
      { unfold read. f_equal. exact (norm_bshape_r _ _ _ _ B2). }
      assert (N2 : forall v, (forall b, nth b t 1 = 1 -> nth b (rsh v) 1 = 1)%nat -> read v (norm_index t ix) = read v ix).
      { intros v Hv. unfold read. f_equal. apply functional_extensionality; intros b. unfold norm_index.
        destruct (Nat.eqb_spec (nth b (rsh v) 1%nat) 1%nat) as [|Nv]; auto.
        destruct (Nat.eqb_spec (nth b t 1%nat) 1%nat) as [Nt|]; auto. exfalso. auto. }
      assert (J : forall b, (nth b (rsh q) 1 = 1 -> D1 b = 1 /\ D2 b = 1)%nat).
      { intros b. rewrite dq. unfold jd. destruct (Nat.eqb_spec (D1 b) 1%nat), (Nat.eqb_spec (D2 b) 1%nat); try tauto; lia. }
      rewrite N3, !N2; [rewrite s_read, g_read, g_read0; auto| |];
        intros b Hb; rewrite <- Et in Hb; apply J in Hb; [rewrite g_dim|rewrite s_dim]; tauto.
    - rewrite s_inv, g_inv, g_inv0; auto.
  Qed.

  Lemma g_sprojx z L D F : vg z L D F -> pfit L ->
    exists y, sprojx_nd P z = Some y /\
      vg y (max L (length Q)) (fun b => jd (D b) (nth b Q 1%nat))
         (fun ix => SphereModel.projx n (matrix_at P ix) (F ix)).
  Proof.
    intros V PF. unfold sprojx_nd. destruct (g_subspace _ _ _ _ V PF) as (y & -> & Vy).
    destruct (g_norm _ _ _ _ Vy) as (q & -> & Sq).
    destruct (gs_lift2 T r (-1) 0 d Tr Tn Rdiv y q _ _ _ _ _ _ Vy Sq) as (w & -> & Vw).
    exists w. split; [reflexivity|]. fin Vw. reflexivity.
  Qed.
  Lemma g_sproju x u L1 D1 F L2 D2 G : vg x L1 D1 F -> vg u L2 D2 G -> pfit (max L1 L2) ->
    exists y, sproju_nd P x u = Some y /\
      vg y (max (max L1 L2) (length Q)) (fun b => jd (jd (D1 b) (D2 b)) (nth b Q 1%nat))
         (fun ix => SphereModel.proju n (matrix_at P ix) (F ix) (G ix)).
  Proof.
    intros V1 V2 PF. unfold sproju_nd.
    destruct (gg_lift2 T r (-1) 0 d Tr Tn Rmult x u _ _ _ _ _ _ V1 V2) as (xu & -> & Vxu).
    destruct (g_sum T r (-1) 0 d Tn _ _ _ _ Vxu) as (s & -> & Ss).
    destruct (sg_lift2 T r (-1) 0 d Tr Tn Rmult s x _ _ _ _ _ _ Ss V1) as (sx & -> & Vsx).
    destruct (gg_lift2 T r (-1) 0 d Tr Tn Rminus u sx _ _ _ _ _ _ V2 Vsx) as (w & -> & Vw).
    apply (g_shape _ _ _ _ _ _ _ (max L1 L2) _ (fun b => jd (D1 b) (D2 b))) in Vw; [|lens|sizes].
    destruct (g_subspace _ _ _ _ Vw PF) as (y & -> & Vy). exists y. split; [reflexivity|].
    refine (g_ext _ _ _ _ _ _ _ _ _ _ _ Vy). intros ix. reflexivity.
  Qed.
  Lemma g_sretr x u L1 D1 F L2 D2 G : vg x L1 D1 F -> vg u L2 D2 G -> pfit (max L1 L2) ->
    exists y, sretr_nd P x u = Some y /\
      vg y (max (max L1 L2) (length Q)) (fun b => jd (jd (D1 b) (D2 b)) (nth b Q 1%nat))
         (fun ix => SphereModel.retr n (matrix_at P ix) (F ix) (G ix)).
  Proof.
    intros V1 V2 PF. unfold sretr_nd.
    destruct (gg_lift2 T r (-1) 0 d Tr Tn Rplus x u _ _ _ _ _ _ V1 V2) as (xu & -> & Vxu).
    destruct (g_sprojx _ _ _ _ Vxu PF) as (y & -> & Vy). exists y. split; [reflexivity|]. exact Vy.
  Qed.
  Lemma g_sexpmap x u L1 D1 F L2 D2 G : vg x L1 D1 F -> vg u L2 D2 G -> pfit (max L1 L2) ->
    exists y, sexpmap_nd P eps x u = Some y /\
      vg y (max (max L1 L2) (length Q)) (fun b => jd (jd (D1 b) (D2 b)) (nth b Q 1%nat))
         (fun ix => SphereModel.expmap n (matrix_at P ix) eps (F ix) (G ix)).
  Proof.
    intros V1 V2 PF. unfold sexpmap_nd.
    destruct (g_norm _ _ _ _ V2) as (q & -> & Sq).
    destruct (gs_lift2 T r (-1) 0 d Tr Tn Rmult x (lift1 cos q) _ _ _ _ _ _ V1 (s_lift1 _ _ _ cos _ _ _ _ Sq)) as (a & -> & Va).
    destruct (gs_lift2 T r (-1) 0 d Tr Tn Rmult u (lift1 sin q) _ _ _ _ _ _ V2 (s_lift1 _ _ _ sin _ _ _ _ Sq)) as (b & -> & Vb).
    destruct (gs_lift2 T r (-1) 0 d Tr Tn Rdiv b q _ _ _ _ _ _ Vb Sq) as (c & -> & Vc).
    destruct (gg_lift2 T r (-1) 0 d Tr Tn Rplus a c _ _ _ _ _ _ Va Vc) as (ex & -> & Vex).
    destruct (gg_lift2 T r (-1) 0 d Tr Tn Rplus x u _ _ _ _ _ _ V1 V2) as (xu & -> & Vxu).
    destruct (g_sprojx _ _ _ _ Vxu PF) as (y & -> & Vy).
    destruct (sgg_lift3 (fun norm_u ex retr => if Rlt_dec eps norm_u then ex else retr) _ _ _ _ _ _ _ _ _ _ _ _ Sq Vex Vy)
      as (w & -> & Vw).
    exists w. split; [reflexivity|]. fin Vw. intros ix. apply functional_extensionality; intros j.
    unfold SphereModel.expmap. cbv zeta. destruct (Rlt_dec _ _); [|reflexivity].
    unfold vadd, smul, vdiv. unfold Rdiv. ring.
  Qed.
  Lemma expand_fit t s1 s : bshape s1 (rsh t) = Some s ->
    exists y, expand_nd t s = Some y /\ rsh y = s /\ forall ix, read y ix = read t ix.
  Proof.
    clear. intros B. unfold expand_nd. rewrite (bs_comm _ _ _ (bs_lower_r _ _ _ B)).
    destruct (list_eq_dec _ _ _) as [_|C]; [|contradiction]. eexists; split; [reflexivity|]. split; [reflexivity|].
    intros ix. unfold read at 1. cbn [rsh at_]. unfold read. f_equal. exact (norm_bshape_r _ _ _ _ B).
  Qed.
  Lemma g_sinner x u v L1 D1 F L2 D2 G L3 D3 H : vg x L1 D1 F -> vg u L2 D2 G -> vg v L3 D3 H ->
    exists z, sinner_nd x u (Some v) true = Some z /\
      sg z (max L1 (max L2 L3)) (d1 (fun b => jd (D1 b) (jd (D2 b) (D3 b)))) (fun ix => dot n (G ix) (H ix)).
  Proof.
    intros V1 V2 V3. unfold sinner_nd.
    destruct (gg_lift2 T r (-1) 0 d Tr Tn Rmult u v _ _ _ _ _ _ V2 V3) as (uv & -> & Vuv).
    destruct (g_sum T r (-1) 0 d Tn _ _ _ _ Vuv) as (i & -> & Si).
    assert (S1 : length ([1%nat] ++ tl (rsh x)) = L1 /\ forall b, nth b ([1%nat] ++ tl (rsh x)) 1%nat = d1 D1 b).
    { pose proof (axis_lt _ _ _ (g_ax _ _ _ _ _ _ _ _ _ V1)). pose proof (g_len _ _ _ _ _ _ _ _ _ V1) as Lx.
      destruct (rsh x) as [|q xs] eqn:E; [cbn in Lx; lia|]. cbn [app tl]. split; [exact Lx|].
      intros [|b]; [reflexivity|]. rewrite d1_off by lia. rewrite <- (g_dim _ _ _ _ _ _ _ _ _ V1), E. reflexivity. }
    destruct S1 as [S1 N1].
    destruct (bshape_jd ([1%nat] ++ tl (rsh x)) (rsh i) T) as (s & Es & Ls & Ns).
    { intros b. rewrite N1. unfold d1a. destruct (b =? 0)%nat; auto. apply (g_fit _ _ _ _ _ _ _ _ _ V1). }
    { intros b. rewrite (s_dim _ _ _ _ _ _ _ Si). apply (s_fit _ _ _ _ _ _ _ Si). }
    rewrite Es. destruct (expand_fit _ _ _ Es) as (z & -> & Ez & Rz). exists z. split; [reflexivity|].
    destruct Si as [l dd ff e nn rd iv]. pose proof (g_fit _ _ _ _ _ _ _ _ _ V1) as F1.
    split.
    - rewrite Ez, Ls, S1, l. reflexivity.
    - intros b. rewrite Ez, Ns, N1, dd. unfold d1a. destruct (b =? 0)%nat; reflexivity.
    - intros b. unfold d1a. destruct (Nat.eqb_spec b 0) as [|b0]; auto. apply jd_fit; auto.
      specialize (ff b). rewrite d1_off in ff by auto. exact ff.
    - pose proof (g_le _ _ _ _ _ _ _ _ _ V1). lia.
    - reflexivity.
    - intros ix. rewrite Rz, rd. reflexivity.
    - exact iv.
  Qed.
  Lemma g_sdist x y L1 D1 F L2 D2 G : vg x L1 D1 F -> vg y L2 D2 G ->
    exists z, sdist_nd eps x y true = Some z /\
      sg z (max L1 L2) (d1 (fun b => jd (D1 b) (D2 b))) (fun ix => SphereModel.dist n eps (F ix) (G ix)).
  Proof.
    intros V1 V2. unfold sdist_nd. destruct (g_sinner _ _ _ _ _ _ _ _ _ _ _ _ V1 V1 V2) as (i & -> & Si).
    eexists; split; [reflexivity|].
    refine (s_shape _ _ _ _ _ _ _ _ _ _ _ (s_lift1 _ _ _ (fun i => acos (clamp (-1 + eps) (1 - eps) i)) _ _ _ _ Si)).
    - lens.
    - intros b. destruct (Nat.eq_dec b 0) as [->|Hb]; [reflexivity|]. rewrite !d1_off by auto.
      destruct (g_fit _ _ _ _ _ _ _ _ _ V1 b) as [->| ->], (g_fit _ _ _ _ _ _ _ _ _ V2 b) as [->| ->];
      repeat (rewrite ?jd_1l, ?jd_1r, ?jd_same); reflexivity.
  Qed.
  Lemma g_slogmap x y L1 D1 F L2 D2 G : vg x L1 D1 F -> vg y L2 D2 G -> pfit (max L1 L2) ->
    exists z, slogmap_nd P eps x y = Some z /\
      vg z (max (max L1 L2) (length Q)) (fun b => jd (jd (D1 b) (D2 b)) (nth b Q 1%nat))
         (fun ix => SphereModel.logmap n (matrix_at P ix) eps (F ix) (G ix)).
  Proof.
    intros V1 V2 PF. unfold slogmap_nd.
    destruct (gg_lift2 T r (-1) 0 d Tr Tn Rminus y x _ _ _ _ _ _ V2 V1) as (yx & -> & Vyx).
    apply (g_shape _ _ _ _ _ _ _ (max L1 L2) _ (fun b => jd (D1 b) (D2 b))) in Vyx; [|lens|sizes].
    destruct (g_sproju _ _ _ _ _ _ _ _ V1 Vyx) as (u & -> & Vu).
    { refine (pfit_mono _ _ _ PF). lia. }
    apply (g_shape _ _ _ _ _ _ _ (max (max L1 L2) (length Q)) _ (fun b => jd (jd (D1 b) (D2 b)) (nth b Q 1%nat))) in Vu; [|lens|sizes].
    destruct (g_sdist _ _ _ _ _ _ _ _ V1 V2) as (q & -> & Sq).
    destruct (gs_lift2 T r (-1) 0 d Tr Tn Rmult u q _ _ _ _ _ _ Vu Sq) as (ud & -> & Vud).
    destruct (g_norm _ _ _ _ Vu) as (nu & -> & Sn).
    destruct (gs_lift2 T r (-1) 0 d Tr Tn Rdiv ud (lift1 (clamp_min eps) nu) _ _ _ _ _ _ Vud (s_lift1 _ _ _ (clamp_min eps) _ _ _ _ Sn))
      as (w & -> & Vw).
    destruct (sgg_lift3 (fun dist w u => if Rlt_dec eps dist then w else u) _ _ _ _ _ _ _ _ _ _ _ _ Sq Vw Vu) as (z & -> & Vz).
    exists z. split; [reflexivity|]. fin Vz. intros ix. apply functional_extensionality; intros j.
    unfold SphereModel.logmap. cbv zeta. destruct (Rlt_dec _ _); [|reflexivity].
    unfold smul, vdiv. rewrite (Rmult_comm (SphereModel.proju _ _ _ _ j)). reflexivity.
  Qed.
End Rows.

(** ** From the joint-shape lemmas to the vocabulary *)
Lemma last_rows x n : last_size x n -> has_rows x (-1) 0 n.
Proof.
  unfold last_size. intros H. split; [|exact H]. destruct (rsh x) as [|q xs]; [discriminate|].
  exact (axis_neg 0 (length (q :: xs)) ltac:(cbn; lia)).
Qed.
Lemma axis_pos r : 0 < r -> axis (-1) r = Some 0.
Proof. intros H. exact (axis_neg 0 r H). Qed.
Lemma fits_pfit P d s : fits P (S d) s <-> pfit d P (length s).
Proof. reflexivity. Qed.
Lemma srows1_of P (op : nd -> option nd) row :
  (forall T r d, axis (-1) r = Some 0 -> T 0 = S d -> (forall b, nth b (batch_of P) 1 = 1 \/ nth b (batch_of P) 1 = T b) ->
     length (batch_of P) <= r -> forall x L D F, vg T r (-1) 0 d x L D F -> pfit d P L ->
     exists z, op x = Some z /\ vg T r (-1) 0 d z (max L (length (batch_of P))) (fun b => jd (D b) (nth b (batch_of P) 1))
        (fun ix => row (S d) (matrix_at P ix) (F ix))) ->
  srows1 P op row.
Proof.
  intros H x n s Hn HX PF B. destruct n as [|d]; [lia|]. apply last_rows in HX.
  pose proof (bfit_l _ _ _ B) as [Fx Lx]. pose proof (bfit_r _ _ _ B) as [Fq Lq].
  destruct (bshape_jd_eq _ _ _ B) as [Ls Ns].
  assert (L0 : 0 < length (rsh x)) by (exact (axis_lt _ _ _ (proj1 HX))).
  assert (An : nth 0 s 1 = S d).
  { rewrite Ns, (nth_error_nth _ _ 1 (proj2 HX)), Q0. apply jd_1r. }
  destruct (H (Sz s) (length s) d (axis_pos (length s) ltac:(lia)) An Fq Lq x _ _ _ (vg_of s _ _ _ _ HX Fx Lx)) as (z & E & V).
  { exact PF. }
  eapply makes_of_g; [exact E|exact V|lia|]. intros b. rewrite Ns. reflexivity.
Qed.
Lemma srows2_of P (op : nd -> nd -> option nd) row :
  (forall T r d, axis (-1) r = Some 0 -> T 0 = S d -> (forall b, nth b (batch_of P) 1 = 1 \/ nth b (batch_of P) 1 = T b) ->
     length (batch_of P) <= r -> forall x y L1 D1 F L2 D2 G, vg T r (-1) 0 d x L1 D1 F -> vg T r (-1) 0 d y L2 D2 G ->
     pfit d P (max L1 L2) ->
     exists z, op x y = Some z /\ vg T r (-1) 0 d z (max (max L1 L2) (length (batch_of P)))
        (fun b => jd (jd (D1 b) (D2 b)) (nth b (batch_of P) 1))
        (fun ix => row (S d) (matrix_at P ix) (F ix) (G ix))) ->
  srows2 P op row.
Proof.
  intros H x y n s1 s Hn HX HY B1 PF B. destruct n as [|d]; [lia|]. apply last_rows in HX, HY.
  pose proof (bfit_r _ _ _ B) as [Fq Lq]. pose proof (bfit_l _ _ _ B) as F1.
  destruct (fit_trans _ _ _ (bfit_l _ _ _ B1) F1) as [Fx Lx].
  destruct (fit_trans _ _ _ (bfit_r _ _ _ B1) F1) as [Fy Ly].
  destruct (bshape_jd_eq _ _ _ B) as [Ls Ns]. destruct (bshape_jd_eq _ _ _ B1) as [Ls1 Ns1].
  assert (L0 : 0 < length (rsh x)) by (exact (axis_lt _ _ _ (proj1 HX))).
  assert (An : nth 0 s 1 = S d).
  { rewrite Ns, Ns1, (nth_error_nth _ _ 1 (proj2 HX)), (nth_error_nth _ _ 1 (proj2 HY)), Q0, jd_same. apply jd_1r. }
  destruct (H (Sz s) (length s) d (axis_pos (length s) ltac:(lia)) An Fq Lq x y _ _ _ _ _ _ (vg_of s _ _ _ _ HX Fx Lx)
     (vg_of s _ _ _ _ HY Fy Ly)) as (z & E & V).
  { rewrite <- Ls1. exact PF. }
  eapply makes_of_g; [exact E|exact V|lia|]. intros b. rewrite Ns, Ns1. reflexivity.
Qed.
