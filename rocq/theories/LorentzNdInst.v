(** The function-by-function instances, the checks, and the functions whose [dim] is not
    passed on. *)
From Coq Require Import Reals List ZArith Lia Bool Arith FunctionalExtensionality Lra.
From Verif Require Import RVec StereoModel NdModel NdSpec NdProofs StereoNdModel StereoNdSpec StereoNdProofs StereoNdProofs2 StereoNdProofs3 StereoMidNdProofs.
From Verif Require LorentzModel LorentzProofs2.
From Verif Require Import LorentzNdModel LorentzNdSpec LorentzNdProofs LorentzNdProofs2 LorentzNdProofs3.
Import ListNotations.

Ltac on_last := let O := fresh in intros T r dim a d O; unfold last_axis in O; subst a; intros.
Section Inst.
  Variable k : R.
  Lemma i_project : lrows1 any_axis (lproject_nd k) (fun d => LorentzModel.project d k).
  Proof. apply lrows1_of. intros. eapply g_lproject; eauto. Qed.
  Lemma i_polar : lrows1 any_axis (lproject_polar_nd k) (fun d => LorentzModel.project_polar d k).
  Proof. apply lrows1_of. intros. eapply g_lpolar; eauto. Qed.
  Lemma i_project_u : lrows2 any_axis (lproject_u_nd k) (fun d => LorentzModel.project_u d k).
  Proof. apply lrows2_of. intros. eapply g_project_u; eauto. Qed.
  Lemma i_expmap : lrows2 last_axis (lexpmap_nd k) (fun d => LorentzModel.expmap d k).
  Proof. apply lrows2_of. on_last. eapply l_expmap; eauto. Qed.
  Lemma i_expmap0 : lrows1 last_axis (lexpmap0_nd k) (fun d => LorentzModel.expmap0 d k).
  Proof. apply lrows1_of. on_last. eapply l_expmap0; eauto. Qed.
  Lemma i_logmap : lrows2 last_axis (llogmap_nd k) (fun d => LorentzModel.logmap d k).
  Proof. apply lrows2_of. on_last. eapply l_logmap; eauto. Qed.
  Lemma i_logmap0 : lrows1 last_axis (llogmap0_nd k) (fun d => LorentzModel.logmap0 d k).
  Proof. apply lrows1_of. on_last. eapply l_logmap0; eauto. Qed.
  Lemma i_logmap0back : lrows1 last_axis (llogmap0back_nd k) (fun d => LorentzModel.logmap0back d k).
  Proof. apply lrows1_of. on_last. eapply l_logmap0back; eauto. Qed.
  Lemma i_transport : lrows3 last_axis (ltransport_nd k) (fun d => LorentzModel.parallel_transport d k).
  Proof. apply lrows3_of. on_last. eapply l_transport; eauto. Qed.
  Lemma i_transport0 : lrows2 last_axis (ltransport0_nd k) (fun d => LorentzModel.parallel_transport0 d k).
  Proof. apply lrows2_of. on_last. eapply l_transport0; eauto. Qed.
  Lemma i_transport0back : lrows2 last_axis (ltransport0back_nd k) (fun d => LorentzModel.parallel_transport0back d k).
  Proof. apply lrows2_of. on_last. eapply l_transport0back; eauto. Qed.
  Lemma i_mexpmap nt pr : lrows2 last_axis (m_lexpmap_nd k nt pr) (fun d => LorentzModel.l_expmap d k nt pr).
  Proof. apply lrows2_of. on_last. eapply l_mexpmap; eauto. Qed.
  Lemma i_mexpmap0 pr : lrows1 last_axis (m_lexpmap0_nd k pr) (fun d => LorentzModel.l_expmap0 d k pr).
  Proof. apply lrows1_of. on_last. eapply l_mexpmap0; eauto. Qed.
  Lemma i_follow pr : lrows3 last_axis (m_transp_follow_nd k pr) (fun d => LorentzModel.transp_follow_expmap d k pr).
  Proof. apply lrows3_of. on_last. eapply l_transp_follow; eauto. Qed.
  Lemma i_geodesic_unit pr : lscaled2 any_axis (m_lgeodesic_unit_nd k pr) (fun d => LorentzModel.l_geodesic_unit d k pr).
  Proof.
    apply lscaled2_of. intros. unfold m_lgeodesic_unit_nd.
    edestruct (g_geodesic_unit T r dim a d ltac:(auto) ltac:(auto) k t x y) as (z & -> & V); [eauto..|].
    destruct pr.
    - edestruct (g_lproject T r dim a d ltac:(auto) k z) as (q & E & Vq); [exact V|]. exists q. split; [exact E|exact Vq].
    - exists z. split; [reflexivity|exact V].
  Qed.
  Lemma i_minner x : lnumbers2 any_axis (fun u v => m_linner_nd x u (Some v)) LorentzModel.inner.
  Proof. exact num_inner. Qed.
  Lemma i_minner1 x : lnumbers1 any_axis (fun u => m_linner_nd x u None) (fun d u => LorentzModel.inner d u u).
  Proof. intros u keep dim a d O H. exact (num_inner u u keep dim a d _ O H H (bs_self _)). Qed.
  Lemma i_egrad2rgrad x g dim d s : has_rows x dim 0 (S d) -> has_rows g dim 0 (S d) -> bshape (rsh x) (rsh g) = Some s ->
    exists g' z, legrad2rgrad_nd k x g dim = Some (g', z) /\ rsh g' = rsh g /\ rsh z = s /\
      forall ix, ix 0 < S d ->
        read g' ix = fst (LorentzModel.egrad2rgrad d k (fiber x 0 ix) (fiber g 0 ix)) (ix 0) /\
        read z ix = snd (LorentzModel.egrad2rgrad d k (fiber x 0 ix) (fiber g 0 ix)) (ix 0).
  Proof.
    intros HX HG B. destruct (two_shapes _ _ _ _ _ _ HX HG B) as (Ar & An & Vx & Vg & Ls & Ns).
    destruct (l_egrad2rgrad (Sz s) (length s) dim d k Ar An x g _ _ _ _ _ _ Vx Vg) as (g' & z & E & V1 & V2).
    exists g', z. split; [exact E|].
    destruct (makes_of_g _ _ _ _ _ (rsh g) _ _ _ _ _ eq_refl V1 eq_refl ltac:(auto)) as (q1 & [= <-] & S1 & R1).
    destruct (makes_of_g _ _ _ _ _ s _ _ _ _ _ eq_refl V2 ltac:(auto) ltac:(auto)) as (q2 & [= <-] & S2 & R2).
    auto.
  Qed.
End Inst.

(** ** Checks *)
Lemma grid_inside s : forall o q c, In c (grid (combine (seq o (length s)) s) q) ->
  (forall b, b < length s -> c (o + b) < nth b s 1) /\ (forall b, b < o -> c b = q b).
Proof.
  induction s as [|d s IH]; intros o q c H; cbn [length seq combine grid] in H.
  - destruct H as [<-|[]]. split; [cbn; lia|auto].
  - apply in_flat_map in H as (j & Hj & H). apply in_seq in Hj. destruct (IH _ _ _ H) as [A B]. split.
    + intros [|b] Hb; cbn in Hb.
      * rewrite Nat.add_0_r. rewrite B by lia. unfold upd. rewrite Nat.eqb_refl. cbn. lia.
      * rewrite Nat.add_succ_r. apply A. lia.
    + intros b Hb. rewrite B by lia. unfold upd. destruct (Nat.eqb_spec b o); [lia|auto].
Qed.
Lemma read_near t p c : (forall b, b < length (rsh t) -> c b = p b) -> read t c = read t p.
Proof.
  intros H. unfold read. f_equal. apply functional_extensionality; intros b. unfold norm_index.
  destruct (Nat.lt_ge_cases b (length (rsh t))) as [B|B]; [rewrite H; auto|]. rewrite nth_overflow by lia. reflexivity.
Qed.
Lemma all_entries t (P : R -> bool) (Q : R -> Prop) : (forall v, P v = true <-> Q v) ->
  forallb (fun ix => P (read t ix)) (entries (rsh t)) = true <-> (forall ix, inside (rsh t) ix -> Q (read t ix)).
Proof.
  intros PQ. rewrite forallb_forall. split.
  - intros H ix I. apply PQ. destruct (grid_all (rsh t) 0 ix (fun _ => 0)) as (c & Ic & A & _); [intros; apply I; auto|].
    rewrite <- (read_near t ix c); [apply H; exact Ic|]. intros b Hb. exact (A b Hb).
  - intros H c Ic. apply PQ, H. intros b Hb. destruct (grid_inside _ _ _ _ Ic) as [A _]. exact (A b Hb).
Qed.
Local Open Scope R_scope.
Lemma close_true v c tol : (if Rle_dec (Rabs (v - c)) tol then true else false) = true <-> Rabs (v - c) <= tol.
Proof. destruct (Rle_dec _ _); split; intros; auto; discriminate. Qed.
Lemma i_check_point k atol rtol x dim a d : has_rows x dim a (S d) ->
  exists b, check_point_nd k atol rtol x dim = Some b /\
    (b = true <-> every_row (rsh x) (fun ix => LorentzModel.check_point d k atol rtol (fiber x a ix))).
Proof.
  intros HX. destruct (self_shapes _ _ _ _ HX) as [An Vx]. pose proof (axis_lt _ _ _ (proj1 HX)) as La.
  unfold check_point_nd. rewrite (g_dn (Sz (rsh x)) _ _ _ _ An _ _ _ _ Vx).
  pose proof (g_lift1 _ _ _ _ _ (fun v => v ^ 2) _ _ _ _ Vx) as V2. cbv zeta.
  destruct (g_time (Sz (rsh x)) _ _ _ _ An _ _ _ _ V2) as (t & -> & St).
  destruct (g_space (Sz (rsh x)) _ _ _ _ An _ _ _ _ V2) as (w & -> & Sw & Rw). cbn [lift1 rsh] in Sw.
  assert (Hw : has_rows w dim a d).
  { split; rewrite Sw; [rewrite set_axis_length by lia; apply HX|].
    rewrite (nth_error_nth' _ 1%nat) by (rewrite set_axis_length; lia). rewrite nth_set_axis, Nat.eqb_refl by lia. reflexivity. }
  destruct (red_sum w dim a d true Hw) as (q & -> & Sq & Rq). cbn [red] in Sq.
  assert (Sht : rsh t = set_axis a 1 (rsh x)).
  { destruct St. apply shape_ext; [rewrite set_axis_length; lia|]. intros b. rewrite s_dim, nth_set_axis by lia.
    unfold d1a. destruct (b =? a)%nat; auto. }
  assert (Shq : rsh q = set_axis a 1 (rsh x)).
  { rewrite Sq, Sw. apply shape_ext; [rewrite !set_axis_length; rewrite ?set_axis_length; lia|].
    intros b. rewrite !nth_set_axis by (rewrite ?set_axis_length; lia). destruct (b =? a)%nat; auto. }
  destruct (lift2_some (fun t s => - t + s) t q (set_axis a 1 (rsh x))) as (z & -> & Sz' & Rz).
  { rewrite Sht, Shq. apply bs_self. }
  eexists; split; [reflexivity|].
  rewrite (all_entries z (fun v => if Rle_dec (Rabs (v - - k)) (atol + rtol * Rabs (- k)) then true else false)
    (fun v => Rabs (v - - k) <= atol + rtol * Rabs (- k))) by (intros; apply close_true).
  assert (RZ : forall ix, Rabs (read z ix - - k) <= atol + rtol * Rabs (- k) <-> LorentzModel.check_point d k atol rtol (fiber x a ix)).
  { intros ix. unfold LorentzModel.check_point. cbv zeta. rewrite Rz, (s_read _ _ _ _ _ _ _ St), Rq. cbn beta.
    replace (Rsum d (row_at w (place true ix a))) with (Rsum d (LorentzModel.tl (fun i => fiber x a ix i ^ 2))); [reflexivity|].
    apply Rsum_ext; intros j Hj. unfold row_at. cbn [place]. rewrite Rw by (unfold upd; rewrite Nat.eqb_refl; lia).
    rewrite fiber_upd. unfold upd. rewrite Nat.eqb_refl. reflexivity. }
  unfold every_row. rewrite Sz'. split; intros H ix I.
  - rewrite <- (fiber_upd x a ix 0). apply RZ, H. intros b Hb. rewrite set_axis_length in Hb by lia.
    rewrite nth_set_axis by lia. unfold upd. destruct (Nat.eqb_spec b a); [lia|apply I; auto].
  - apply RZ. rewrite <- (fiber_upd x a ix 0). apply H. intros b Hb. unfold upd. destruct (Nat.eqb_spec b a) as [->|B].
    + rewrite An. lia.
    + specialize (I b ltac:(rewrite set_axis_length; lia)). rewrite nth_set_axis in I by lia.
      destruct (Nat.eqb_spec b a); [contradiction|auto].
Qed.
Lemma i_check_vector atol rtol x u dim a d s : has_rows x dim a (S d) -> has_rows u dim a (S d) ->
  bshape (rsh u) (rsh x) = Some s ->
  exists b, check_vector_nd atol rtol x u dim = Some b /\
    (b = true <-> every_row s (fun ix => LorentzModel.check_vector d atol rtol (fiber x a ix) (fiber u a ix))).
Proof.
  intros HX HU B. unfold check_vector_nd.
  destruct (num_inner u x false dim a d s I HU HX B) as (z & -> & Sz' & Rz). cbn [red] in Sz'.
  destruct (two_shapes _ _ _ _ _ _ HU HX B) as (Ar & An & _). pose proof (axis_lt _ _ _ Ar) as La.
  eexists; split; [reflexivity|].
  rewrite (all_entries z (fun v => if Rle_dec (Rabs (v - 0)) (atol + rtol * Rabs 0) then true else false)
    (fun v => Rabs (v - 0) <= atol + rtol * Rabs 0)) by (intros; apply close_true).
  unfold every_row, LorentzModel.check_vector. rewrite Sz'. split; intros H ix J.
  - specialize (H (del ix a)). rewrite Rz in H.
    assert (E : forall t, row_at t (place false (del ix a) a) = fiber t a ix).
    { intros t. apply functional_extensionality; intros j. unfold row_at, place, fiber. rewrite ins_del. reflexivity. }
    rewrite !E in H. apply H. intros b Hb. rewrite drop_axis_length in Hb by auto. rewrite nth_drop_axis by auto.
    unfold del. destruct (Nat.ltb_spec b a); apply J; lia.
  - rewrite Rz. specialize (H (ins ix a 0)). rewrite !fiber_ins in H. apply H. intros b Hb.
    unfold ins. destruct (Nat.ltb_spec b a).
    + specialize (J b). rewrite drop_axis_length, nth_drop_axis in J by auto.
      destruct (Nat.ltb_spec b a); [|lia]. apply J. lia.
    + destruct (Nat.eqb_spec b a) as [->|]; [rewrite An; lia|].
      specialize (J (b - 1)%nat). rewrite drop_axis_length, nth_drop_axis in J by auto.
      destruct (Nat.ltb_spec (b - 1) a); [lia|]. replace (S (b - 1)) with b in J by lia. apply J. lia.
Qed.
