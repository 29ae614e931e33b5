(** From the joint-shape lemmas to the vocabulary of LorentzNdSpec; numbers, conversions
    and checks. *)
From Coq Require Import Reals List ZArith Lia Bool Arith FunctionalExtensionality Lra.
From Verif Require Import RVec StereoModel NdModel NdSpec NdProofs StereoNdModel StereoNdSpec StereoNdProofs StereoNdProofs2 StereoNdProofs3.
From Verif Require LorentzModel.
From Verif Require Import LorentzNdModel LorentzNdSpec LorentzNdProofs LorentzNdProofs2.
Import ListNotations.

Lemma vg_of (s : list nat) dim a d x : has_rows x dim a (S d) ->
  (forall b, nth b (rsh x) 1 = 1 \/ nth b (rsh x) 1 = nth b s 1) -> length (rsh x) <= length s ->
  vg (Sz s) (length s) dim a d x (length (rsh x)) (Sz (rsh x)) (fiber x a).
Proof. intros H F L. destruct (vrow_of s dim a (S d) x H F L). split; auto. Qed.
Lemma makes_of_g T r dim a d (s : list nat) z L D F (res : option nd) :
  res = Some z -> vg T r dim a d z L D F -> L = length s -> (forall b, D b = nth b s 1) ->
  makes_rows res s a (S d) F.
Proof.
  intros -> V E H. exists z. split; [reflexivity|]. destruct V. split; auto.
  apply shape_ext; [lia|]. intros b. rewrite g_dim, H. reflexivity.
Qed.
Section Convert.
  Variable on : nat -> Prop.
  Lemma lrows1_of (op : nd -> Z -> option nd) row :
    (forall T r dim a d, on a -> axis dim r = Some a -> T a = S d -> forall x L D F, vg T r dim a d x L D F ->
       exists z, op x dim = Some z /\ vg T r dim a d z L D (fun ix => row d (F ix))) ->
    lrows1 on op row.
  Proof.
    intros H x dim a d O [A N].
    destruct (H (Sz (rsh x)) (length (rsh x)) dim a d O A ltac:(exact (nth_error_nth _ _ 1 N)) x _ _ _
       (vg_of (rsh x) dim a d x (conj A N) ltac:(auto) ltac:(auto))) as (z & E & V).
    eapply makes_of_g; eauto.
  Qed.
  Lemma two_shapes x y dim a d s : has_rows x dim a (S d) -> has_rows y dim a (S d) ->
    bshape (rsh x) (rsh y) = Some s ->
    axis dim (length s) = Some a /\ nth a s 1 = S d /\
    vg (Sz s) (length s) dim a d x (length (rsh x)) (Sz (rsh x)) (fiber x a) /\
    vg (Sz s) (length s) dim a d y (length (rsh y)) (Sz (rsh y)) (fiber y a) /\
    length s = max (length (rsh x)) (length (rsh y)) /\ forall b, nth b s 1 = jd (nth b (rsh x) 1) (nth b (rsh y) 1).
  Proof.
    intros HX HY B. pose proof (bfit_l _ _ _ B) as [Fx Lx]. pose proof (bfit_r _ _ _ B) as [Fy Ly].
    destruct (bshape_jd_eq _ _ _ B) as [Ls Ns].
    assert (Ar : axis dim (length s) = Some a) by (rewrite Ls; apply axis_max; [apply HX|apply HY]).
    assert (An : nth a s 1 = S d).
    { rewrite Ns. rewrite (nth_error_nth _ _ 1 (proj2 HX)), (nth_error_nth _ _ 1 (proj2 HY)). apply jd_same. }
    split; [exact Ar|]. split; [exact An|]. split; [exact (vg_of s _ _ _ _ HX Fx Lx)|].
    split; [exact (vg_of s _ _ _ _ HY Fy Ly)|]. auto.
  Qed.
  Lemma lrows2_of (op : nd -> nd -> Z -> option nd) row :
    (forall T r dim a d, on a -> axis dim r = Some a -> T a = S d ->
       forall x y L1 D1 F L2 D2 G, vg T r dim a d x L1 D1 F -> vg T r dim a d y L2 D2 G ->
       exists z, op x y dim = Some z /\
         vg T r dim a d z (max L1 L2) (fun b => jd (D1 b) (D2 b)) (fun ix => row d (F ix) (G ix))) ->
    lrows2 on op row.
  Proof.
    intros H x y dim a d s O HX HY B.
    destruct (two_shapes _ _ _ _ _ _ HX HY B) as (Ar & An & Vx & Vy & Ls & Ns).
    destruct (H (Sz s) (length s) dim a d O Ar An x y _ _ _ _ _ _ Vx Vy) as (z & E & V).
    eapply makes_of_g; [exact E|exact V|lia|]. intros; cbn beta. rewrite Ns; auto.
  Qed.
  Lemma lrows3_of (op : nd -> nd -> nd -> Z -> option nd) row :
    (forall T r dim a d, on a -> axis dim r = Some a -> T a = S d ->
       forall x y u L1 D1 F L2 D2 G L3 D3 H, vg T r dim a d x L1 D1 F -> vg T r dim a d y L2 D2 G ->
       vg T r dim a d u L3 D3 H ->
       exists z, op x y u dim = Some z /\
         vg T r dim a d z (max L1 (max L2 L3)) (fun b => jd (D1 b) (jd (D2 b) (D3 b)))
           (fun ix => row d (F ix) (G ix) (H ix))) ->
    lrows3 on op row.
  Proof.
    intros H x y u dim a d s1 s O HX HY HU B1 B2.
    pose proof (bfit_l _ _ _ B2) as F1.
    destruct (fit_trans _ _ _ (bfit_l _ _ _ B1) F1) as [Fx Lx].
    destruct (fit_trans _ _ _ (bfit_r _ _ _ B1) F1) as [Fy Ly].
    pose proof (bfit_r _ _ _ B2) as [Fu Lu].
    destruct (bshape_jd_eq _ _ _ B1) as [Ls1 Ns1]. destruct (bshape_jd_eq _ _ _ B2) as [Ls Ns].
    assert (Ar : axis dim (length s) = Some a).
    { rewrite Ls, Ls1. repeat apply axis_max; [apply HX|apply HY|apply HU]. }
    assert (An : nth a s 1 = S d).
    { rewrite Ns, Ns1. rewrite (nth_error_nth _ _ 1 (proj2 HX)), (nth_error_nth _ _ 1 (proj2 HY)), (nth_error_nth _ _ 1 (proj2 HU)).
      rewrite !jd_same. reflexivity. }
    destruct (H (Sz s) (length s) dim a d O Ar An x y u _ _ _ _ _ _ _ _ _ (vg_of s _ _ _ _ HX Fx Lx)
      (vg_of s _ _ _ _ HY Fy Ly) (vg_of s _ _ _ _ HU Fu Lu)) as (z & E & V).
    eapply makes_of_g; [exact E|exact V|lia|]. intros; cbn beta. rewrite Ns, Ns1.
    unfold jd. destruct (Nat.eqb_spec (nth b (rsh x) 1) 1); auto.
    destruct (Nat.eqb_spec (nth b (rsh x) 1) 1); auto; lia.
  Qed.
  Lemma lscaled2_of (op : nd -> nd -> nd -> Z -> option nd) row :
    (forall T r dim a d, on a -> axis dim r = Some a -> T a = S d ->
       forall t x y L0 D0 f L1 D1 F L2 D2 G, srow T r a t L0 D0 f -> vg T r dim a d x L1 D1 F ->
       vg T r dim a d y L2 D2 G ->
       exists z, op t x y dim = Some z /\
         vg T r dim a d z (max L0 (max L1 L2)) (fun b => jd (D0 b) (jd (D1 b) (D2 b)))
           (fun ix => row d (f ix) (F ix) (G ix))) ->
    lscaled2 on op row.
  Proof.
    intros H t x y dim a d s1 s O HX HY HT B1 B2 Ar.
    pose proof (bfit_r _ _ _ B2) as F1. pose proof (bfit_l _ _ _ B2) as [Ft Lt].
    destruct (fit_trans _ _ _ (bfit_l _ _ _ B1) F1) as [Fx Lx].
    destruct (fit_trans _ _ _ (bfit_r _ _ _ B1) F1) as [Fy Ly].
    destruct (bshape_jd_eq _ _ _ B1) as [Ls1 Ns1]. destruct (bshape_jd_eq _ _ _ B2) as [Ls Ns].
    assert (An : nth a s 1 = S d).
    { rewrite Ns, Ns1, HT. rewrite (nth_error_nth _ _ 1 (proj2 HX)), (nth_error_nth _ _ 1 (proj2 HY)).
      rewrite jd_same. reflexivity. }
    destruct (H (Sz s) (length s) dim a d O Ar An t x y _ _ _ _ _ _ _ _ _ (srow_of s a t HT Ft Lt)
      (vg_of s _ _ _ _ HX Fx Lx) (vg_of s _ _ _ _ HY Fy Ly)) as (z & E & V).
    eapply makes_of_g; [exact E|exact V|lia|]. intros; cbn beta. rewrite Ns, Ns1. reflexivity.
  Qed.
End Convert.

(** ** Numbers *)
Local Open Scope R_scope.
Lemma drop_set a m s : (a < length s)%nat -> drop_axis a (set_axis a m s) = drop_axis a s.
Proof.
  intros L. apply shape_ext; [rewrite !drop_axis_length; rewrite ?set_axis_length; lia|].
  intros b. rewrite !nth_drop_axis by (rewrite ?set_axis_length; lia).
  rewrite !nth_set_axis by lia.
  destruct (Nat.ltb_spec b a).
  - destruct (Nat.eqb_spec b a); [lia|auto].
  - destruct (Nat.eqb_spec (S b) a); [lia|auto].
Qed.
Lemma num_true (res : option nd) z T r a L D f s val : res = Some z -> srow T r a z L (d1a a D) f ->
  (a < length s)%nat -> L = length s -> (forall b, D b = nth b s 1%nat) ->
  (forall ix, f ix = val (place true ix a)) -> reduced res s true a val.
Proof.
  intros -> [l dd ff e nn rd iv] La EL ED EV. exists z. split; [reflexivity|]. split.
  - cbn [red]. apply shape_ext; [rewrite set_axis_length; lia|]. intros b. rewrite dd, nth_set_axis by lia.
    unfold d1a. destruct (b =? a)%nat; auto.
  - intros ix. rewrite rd. apply EV.
Qed.
Lemma num_inner : lnumbers2 any_axis linner_nd LorentzModel.inner.
Proof.
  intros x y keep dim a d s _ HX HY B.
  destruct (two_shapes _ _ _ _ _ _ HX HY B) as (Ar & An & Vx & Vy & Ls & Ns).
  pose proof (axis_lt _ _ _ Ar) as La.
  destruct keep.
  - destruct (g_linner (Sz s) (length s) dim a d Ar An x y _ _ _ _ _ _ Vx Vy) as (z & E & Sz').
    eapply num_true; [exact E|exact Sz'|auto|auto|intros; symmetry; apply Ns|]. intros ix. reflexivity.
  - unfold linner_nd. rewrite (g_dn (Sz s) _ _ _ _ An _ _ _ _ Vx).
    destruct (gg_lift2 (Sz s) (length s) dim a d Ar An Rmult x y _ _ _ _ _ _ Vx Vy) as (uv & -> & Vu).
    destruct (g_time (Sz s) _ _ _ _ An _ _ _ _ Vu) as (t & -> & St).
    destruct (g_space (Sz s) _ _ _ _ An _ _ _ _ Vu) as (w & -> & Sw & Rw).
    assert (Su : rsh uv = s).
    { destruct Vu. apply shape_ext; [lia|]. intros b. rewrite g_dim, Ns. reflexivity. }
    assert (Sht : rsh t = set_axis a 1 s).
    { destruct St. apply shape_ext; [rewrite set_axis_length; lia|]. intros b. rewrite s_dim, nth_set_axis by lia.
      unfold d1a. destruct (b =? a)%nat; auto. }
    rewrite Su in Sw.
    assert (HS : forall q m, rsh q = set_axis a m s -> has_rows q dim a m).
    { intros q m Eq. split; rewrite Eq; [rewrite set_axis_length by lia; exact Ar|].
      rewrite (nth_error_nth' _ 1%nat) by (rewrite set_axis_length; lia). rewrite nth_set_axis, Nat.eqb_refl by lia. reflexivity. }
    destruct (red_sum t dim a 1 false (HS _ _ Sht)) as (t' & -> & St' & Rt').
    destruct (red_sum w dim a d false (HS _ _ Sw)) as (w' & -> & Sw' & Rw').
    cbn [red] in *. rewrite Sht, drop_set in St' by auto. rewrite Sw, drop_set in Sw' by auto.
    destruct (lift2_some (fun t s => - t + s) t' w' (drop_axis a s)) as (z & Ez & Sz' & Rz).
    { rewrite St', Sw'. apply bs_self. }
    exists z. split; [exact Ez|]. split; [exact Sz'|]. intros ix. rewrite Rz, Rt', Rw'.
    unfold LorentzModel.inner. f_equal.
    + cbn [Rsum]. rewrite Rplus_0_l. unfold row_at at 1. cbn [place]. rewrite (s_read _ _ _ _ _ _ _ St).
      rewrite !fiber_ins. reflexivity.
    + apply Rsum_ext; intros j Hj. unfold row_at at 1. cbn [place]. rewrite Rw.
      * rewrite !fiber_ins. change (ins ix a j a) with (place false ix a j a). rewrite place_at. reflexivity.
      * change (ins ix a j a) with (place false ix a j a). rewrite place_at. exact Hj.
Qed.
Lemma self_shapes x dim a d : has_rows x dim a (S d) ->
  nth a (rsh x) 1%nat = S d /\ vg (Sz (rsh x)) (length (rsh x)) dim a d x (length (rsh x)) (Sz (rsh x)) (fiber x a).
Proof.
  intros H. split; [exact (nth_error_nth _ _ 1%nat (proj2 H))|]. apply vg_of; auto.
Qed.
Lemma num_inner0 k : lnumbers1 any_axis (linner0_nd k) (fun d => LorentzModel.inner0 k).
Proof.
  intros x keep dim a d _ HX. destruct (self_shapes _ _ _ _ HX) as [An Vx].
  pose proof (axis_lt _ _ _ (proj1 HX)) as La.
  destruct keep.
  - destruct (g_linner0 (Sz (rsh x)) (length (rsh x)) dim a d An k x _ _ _ Vx) as (z & E & Sz').
    eapply num_true; [exact E|exact Sz'|auto|auto|reflexivity|]. intros ix. reflexivity.
  - unfold linner0_nd. destruct (g_time (Sz (rsh x)) _ _ _ _ An _ _ _ _ Vx) as (t & -> & St).
    assert (Sht : rsh t = set_axis a 1 (rsh x)).
    { destruct St. apply shape_ext; [rewrite set_axis_length; lia|]. intros b. rewrite s_dim, nth_set_axis by lia.
      unfold d1a. destruct (b =? a)%nat; auto. }
    unfold squeeze_nd. cbn [lift1 rsh]. rewrite Sht.
    destruct (set_axis a 1 (rsh x)) as [|p q] eqn:Es.
    { exfalso. apply (f_equal (@length nat)) in Es. rewrite set_axis_length in Es by lia. cbn in Es. lia. }
    rewrite <- Es. rewrite set_axis_length, (proj1 HX) by lia. rewrite nth_set_axis, !Nat.eqb_refl by lia. cbn [Nat.eqb].
    eexists; split; [reflexivity|]. cbn [rsh red]. split; [apply drop_set; auto|]. intros ix.
    unfold read at 1. cbn [rsh at_]. rewrite read_lift1.
    transitivity (- read t (ins ix a 0) * sqrt k).
    + do 2 f_equal. rewrite drop_set by auto. unfold read. f_equal. rewrite Sht, <- Es.
      apply functional_extensionality; intros b. unfold norm_index, ins.
      rewrite nth_set_axis by lia. destruct (Nat.eqb_spec b a); auto.
      destruct (Nat.eqb_spec (nth b (rsh x) 1%nat) 1%nat) as [|N]; auto.
      destruct (Nat.ltb_spec b a).
      * rewrite nth_drop_axis by lia. destruct (Nat.ltb_spec b a); [|lia].
        destruct (Nat.eqb_spec (nth b (rsh x) 1%nat) 1%nat); [contradiction|auto].
      * rewrite nth_drop_axis by lia. destruct (Nat.ltb_spec (b - 1) a); [lia|].
        replace (S (b - 1)) with b by lia. destruct (Nat.eqb_spec (nth b (rsh x) 1%nat) 1%nat); [contradiction|auto].
    + rewrite (s_read _ _ _ _ _ _ _ St), fiber_ins. reflexivity.
Qed.
Lemma num_lift1 (res : option nd) g s keep a val : reduced res s keep a val ->
  reduced (match res with None => None | Some i => Some (lift1 g i) end) s keep a (fun p => g (val p)).
Proof.
  intros (z & -> & S1 & R1). eexists; split; [reflexivity|]. split; [exact S1|]. intros ix. rewrite read_lift1, R1. reflexivity.
Qed.
Lemma num_dist k : lnumbers2 any_axis (ldist_nd k) (fun d => LorentzModel.dist d k).
Proof.
  intros x y keep dim a d s O HX HY B. apply (num_lift1 (linner_nd x y keep dim) (fun i => sqrt k * LorentzModel.arcosh (- i / k))).
  exact (num_inner x y keep dim a d s O HX HY B).
Qed.
Lemma num_dist0 k : lnumbers1 any_axis (ldist0_nd k) (fun d => LorentzModel.dist0 k).
Proof.
  intros x keep dim a d O HX. apply (num_lift1 (linner0_nd k x keep dim) (fun i => sqrt k * LorentzModel.arcosh (- i / k))).
  exact (num_inner0 k x keep dim a d O HX).
Qed.
Lemma num_norm : lnumbers1 last_axis lnorm_nd LorentzModel.norm.
Proof.
  intros x keep dim a d O HX. unfold last_axis in O. subst a.
  apply (num_lift1 (linner_nd x x keep (-1)%Z) (fun i => sqrt (clamp_min e8 i))).
  apply (num_inner x x keep (-1)%Z 0%nat d (rsh x) I); [| |apply bs_self]; (split; [apply (axis_last dim _ 0%nat); apply HX|apply HX]).
Qed.

(** ** Conversions to and from the Poincare ball *)
Section Conv.
  Variables (k : R).
  Lemma to_poincare_rows x dim a d : has_rows x dim a (S d) -> axis (- dim)%Z (length (rsh x)) = Some a ->
    makes_rows (to_poincare_nd k x dim) (set_axis a d (rsh x)) a d
      (fun ix => LorentzModel.lorentz_to_poincare k (fiber x a ix)).
  Proof.
    intros HX Ad. destruct (self_shapes _ _ _ _ HX) as [An Vx]. pose proof (axis_lt _ _ _ Ad) as La.
    unfold to_poincare_nd. rewrite (g_dn (Sz (rsh x)) _ _ _ _ An _ _ _ _ Vx).
    destruct (g_space (Sz (rsh x)) _ _ _ _ An _ _ _ _ Vx) as (w & -> & Sw & Rw).
    assert (Vx' : vg (Sz (rsh x)) (length (rsh x)) (- dim)%Z a d x (length (rsh x)) (Sz (rsh x)) (fiber x a)).
    { apply vg_of; auto. split; [exact Ad|apply HX]. }
    destruct (g_time (Sz (rsh x)) _ _ _ _ An _ _ _ _ Vx') as (t & Et & St). unfold time_ in Et. rewrite Et.
    assert (Sht : rsh t = set_axis a 1 (rsh x)).
    { destruct St. apply shape_ext; [rewrite set_axis_length; lia|]. intros b. rewrite s_dim, nth_set_axis by lia.
      unfold d1a. destruct (b =? a)%nat; auto. }
    destruct (lift2_some Rdiv w (lift1 (fun t => t + sqrt k) t) (set_axis a d (rsh x))) as (z & Ez & Sz' & Rz).
    { cbn [lift1 rsh]. rewrite Sht, Sw. apply bshape_spec. rewrite !set_axis_length by lia. split; [lia|].
      intros b. rewrite !nth_set_axis by lia. destruct (b =? a)%nat; [apply bdim_1r|apply bdim_same]. }
    exists z. split; [exact Ez|]. split; [exact Sz'|]. intros ix Hi. rewrite Rz, read_lift1, Rw by auto.
    rewrite (s_read _ _ _ _ _ _ _ St). reflexivity.
  Qed.
  Lemma to_lorentz_rows eps x dim a d : has_rows x dim a d -> 
    makes_rows (to_lorentz_nd k eps x dim) (set_axis a (S d) (rsh x)) a (S d)
      (fun ix => LorentzModel.poincare_to_lorentz d k eps (fiber x a ix)).
  Proof.
    intros HX. pose proof (axis_lt _ _ _ (proj1 HX)) as La. unfold to_lorentz_nd.
    destruct (red_sum (lift1 (fun x => x * x) x) dim a d true (has_lift1 _ _ _ _ _ HX)) as (q & -> & Sq & Rq).
    cbn [red lift1 rsh] in Sq. set (s := set_axis a (S d) (rsh x)).
    assert (Lsz : length s = length (rsh x)) by (unfold s; rewrite set_axis_length; lia).
    assert (Ns : nth a s 1%nat = S d) by (unfold s; rewrite nth_set_axis, Nat.eqb_refl by lia; reflexivity).
    assert (Rq' : forall ix, read q ix = dot d (fiber x a ix) (fiber x a ix)).
    { intros ix. rewrite Rq. unfold dot. apply Rsum_ext; intros j Hj. unfold row_at, place. rewrite read_lift1. reflexivity. }
    assert (Hq : srow (Sz s) (length s) a q (length s) (d1a a (Sz s)) (fun ix => dot d (fiber x a ix) (fiber x a ix))).
    { split.
      - rewrite Sq, set_axis_length; lia.
      - intros b. rewrite Sq. unfold d1a, s. rewrite !nth_set_axis by lia. destruct (b =? a)%nat; auto.
      - intros b. unfold d1a. destruct (b =? a)%nat; auto.
      - auto.
      - apply d1a_at.
      - exact Rq'.
      - intros. rewrite fiber_upd. reflexivity. }
    destruct (g_cat (Sz s) (length s) dim a d Ns (lift1 (fun s => 1 + s) q) (lift1 (fun x => 2 * x) x) s (length s) (Sz s)
      (fun ix => 1 + dot d (fiber x a ix) (fiber x a ix)) (fun ix => smul 2 (fiber x a ix))) as (c & -> & Vc).
    - exact (s_lift1 _ _ _ (fun s => 1 + s) _ _ _ _ Hq).
    - reflexivity.
    - reflexivity.
    - auto.
    - rewrite Lsz. apply HX.
    - exact Ns.
    - cbn [lift1 rsh]. apply shape_ext; unfold s; [rewrite !set_axis_length; rewrite ?set_axis_length; lia|].
      intros b. rewrite !nth_set_axis by (rewrite ?set_axis_length; lia). destruct (Nat.eqb_spec b a) as [->|]; auto.
      exact (nth_error_nth _ _ 1%nat (proj2 HX)).
    - intros ix _. rewrite read_lift1. unfold smul, fiber. rewrite upd_self. reflexivity.
    - intros. rewrite fiber_upd. reflexivity.
    - destruct (gs_lift2 (Sz s) (length s) dim a d ltac:(rewrite Lsz; apply HX) Ns Rdiv (lift1 (fun c => sqrt k * c) c)
        (lift1 (fun s => 1 - s + eps) q) _ _ _ _ _ _ (g_lift1 _ _ _ _ _ _ _ _ _ _ Vc) (s_lift1 _ _ _ _ _ _ _ _ Hq)) as (z & Ez & Vz).
      eapply makes_of_g; [exact Ez|exact Vz|lia|]. intros b. unfold d1a. destruct (Nat.eqb_spec b a) as [->|].
      + rewrite jd_1r. reflexivity.
      + apply jd_same.
  Qed.
End Conv.
