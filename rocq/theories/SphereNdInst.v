(** Instances, inner products with [keepdim], the checks, and the batch of projectors that
    does not line up with a batch of points. *)
From Coq Require Import Reals List ZArith Lia Bool Arith FunctionalExtensionality Lra.
From Verif Require Import RVec StereoModel NdModel NdSpec NdProofs StereoNdModel StereoNdSpec StereoNdProofs StereoNdProofs2 StereoNdProofs3 StereoMidNdProofs.
From Verif Require SphereModel.
From Verif Require Import LorentzNdModel LorentzNdSpec LorentzNdProofs LorentzNdProofs3 LorentzNdInst SphereNdModel SphereNdSpec SphereNdProofs.
Import ListNotations.

Section Inst.
  Variables (P : option nd) (eps : R).
  Lemma i_subspace : srows1 P (subspace_nd P) SphereModel.project_on_subspace.
  Proof. apply srows1_of. intros. eapply g_subspace; eauto. Qed.
  Lemma i_sprojx : srows1 P (sprojx_nd P) SphereModel.projx.
  Proof. apply srows1_of. intros. eapply g_sprojx; eauto. Qed.
  Lemma i_sproju : srows2 P (sproju_nd P) SphereModel.proju.
  Proof. apply srows2_of. intros. eapply g_sproju; eauto. Qed.
  Lemma i_sretr : srows2 P (sretr_nd P) SphereModel.retr.
  Proof. apply srows2_of. intros. eapply g_sretr; eauto. Qed.
  Lemma i_sexpmap : srows2 P (sexpmap_nd P eps) (fun n M => SphereModel.expmap n M eps).
  Proof. apply srows2_of. intros. eapply g_sexpmap; eauto. Qed.
  Lemma i_slogmap : srows2 P (slogmap_nd P eps) (fun n M => SphereModel.logmap n M eps).
  Proof. apply srows2_of. intros. eapply g_slogmap; eauto. Qed.
  Lemma i_stransp x x0 : srows2 P (stransp_nd P x) (fun n M => SphereModel.transp n M x0).
  Proof. exact i_sproju. Qed.
End Inst.

(** ** Inner products *)
Lemma red0 (keep : bool) x n : last_size x n -> (if keep then [1] else []) ++ tl (rsh x) = red keep 0 (rsh x).
Proof. unfold last_size. destruct (rsh x); [discriminate|]. destruct keep; reflexivity. Qed.
Lemma lift2_last f x y s n : last_size x n -> last_size y n -> bshape (rsh x) (rsh y) = Some s ->
  exists z, lift2 f x y = Some z /\ rsh z = s /\ last_size z n /\ forall ix, read z ix = f (read x ix) (read y ix).
Proof.
  intros HX HY B. destruct (lift2_some f x y s B) as (z & E & Sz' & Rz). exists z. repeat split; auto.
  unfold last_size. rewrite Sz'. exact (ax_nth _ _ _ _ _ B HX HY).
Qed.
Lemma i_sinner x u v keep n s1 s : last_size x n -> last_size u n -> last_size v n ->
  bshape (rsh u) (rsh v) = Some s1 -> bshape (rsh x) s1 = Some s ->
  reduced (sinner_nd x u (Some v) keep) s keep 0
    (fun p => SphereModel.inner n (row_at x p) (row_at u p) (row_at v p)).
Proof.
  intros HX HU HV B1 B. unfold sinner_nd.
  destruct (lift2_last Rmult u v s1 n HU HV B1) as (uv & -> & Suv & Huv & Ruv).
  destruct (red_sum uv (-1) 0 n keep (last_rows _ _ Huv)) as (i & -> & Si & Ri).
  rewrite (red0 keep x n HX), Si, Suv.
  assert (Hs1 : nth_error s1 0 = Some n) by (rewrite <- Suv; exact Huv).
  assert (Br : bshape (red keep 0 (rsh x)) (red keep 0 s1) = Some (red keep 0 s)) by (eapply bs_red; eauto).
  rewrite Br. destruct (expand_fit i (red keep 0 (rsh x)) (red keep 0 s)) as (z & -> & Ez & Rz).
  { rewrite Si, Suv. exact Br. }
  exists z. split; [reflexivity|]. split; [exact Ez|]. intros ix. rewrite Rz, Ri. unfold SphereModel.inner, dot.
  apply Rsum_ext; intros j Hj. unfold row_at. rewrite Ruv. reflexivity.
Qed.
Lemma i_sinner1 x u keep n s : last_size x n -> last_size u n -> bshape (rsh x) (rsh u) = Some s ->
  reduced (sinner_nd x u None keep) s keep 0
    (fun p => SphereModel.inner n (row_at x p) (row_at u p) (row_at u p)).
Proof. intros HX HU B. exact (i_sinner x u u keep n _ s HX HU HU (bs_self _) B). Qed.
Lemma i_sdist eps x y keep n s : last_size x n -> last_size y n -> bshape (rsh x) (rsh y) = Some s ->
  reduced (sdist_nd eps x y keep) s keep 0 (fun p => SphereModel.dist n eps (row_at x p) (row_at y p)).
Proof.
  intros HX HY B. apply (num_lift1 (sinner_nd x x (Some y) keep) (fun i => acos (clamp (-1 + eps) (1 - eps) i))).
  exact (i_sinner x x y keep n s s HX HX HY B (bs_comm _ _ _ (bs_lower_l _ _ _ B))).
Qed.

(** ** Checks *)
Lemma entries_all s (f : index -> bool) :
  (forall p c, (forall b, b < length s -> c b = p b) -> f c = f p) ->
  forallb f (entries s) = true <-> forall ix, inside s ix -> f ix = true.
Proof.
  intros K. rewrite forallb_forall. split.
  - intros H ix I. destruct (grid_all s 0 ix (fun _ => 0)) as (c & Ic & A & _); [intros; apply I; auto|].
    rewrite <- (K ix c); [apply H; exact Ic|]. intros b Hb. exact (A b Hb).
  - intros H c Ic. apply H. intros b Hb. destruct (grid_inside _ _ _ _ Ic) as [A _]. exact (A b Hb).
Qed.
Lemma allclose_all atol rtol a b s : bshape (rsh a) (rsh b) = Some s ->
  exists ok, allclose_nd atol rtol a b = Some ok /\
    (ok = true <-> forall ix, inside s ix -> SphereModel.close atol rtol (read a ix) (read b ix) = true).
Proof.
  intros B. unfold allclose_nd. rewrite B. eexists; split; [reflexivity|]. apply entries_all.
  intros p c H. destruct (bfit_l _ _ _ B) as [_ La]. destruct (bfit_r _ _ _ B) as [_ Lb].
  rewrite (read_near a p c), (read_near b p c); auto; intros; apply H; lia.
Qed.
Lemma bs_one s : exists s', bshape s [1] = Some s' /\ forall ix, inside s ix -> inside s' (fun b => if b <? length s then ix b else 0).
Proof.
  destruct s as [|c s].
  - exists [1]. split; [reflexivity|]. intros ix _ b Hb. cbn in *. destruct b; [cbn; lia|lia].
  - exists (c :: s). split.
    + cbn [bshape]. rewrite bdim_1r. destruct s; reflexivity.
    + intros ix I b Hb. destruct (Nat.ltb_spec b (length (c :: s))); [apply I; auto|lia].
Qed.
Lemma bs_one_inside s s' ix : bshape s [1] = Some s' -> inside s' ix -> inside s ix.
Proof.
  intros B I b Hb. destruct s as [|c s]; [cbn in Hb; lia|]. cbn [bshape] in B. rewrite bdim_1r in B.
  destruct s; injection B as <-; apply I; auto.
Qed.
Lemma allclose_const atol rtol a v :
  exists ok, allclose_nd atol rtol a (fill1 v) = Some ok /\
    (ok = true <-> forall ix, inside (rsh a) ix -> SphereModel.close atol rtol (read a ix) v = true).
Proof.
  destruct (bs_one (rsh a)) as (s & B & I). destruct (allclose_all atol rtol a (fill1 v) s B) as (ok & -> & H).
  exists ok. split; [reflexivity|]. rewrite H. split; intros K ix J.
  - specialize (K _ (I ix J)). change (read (fill1 v) _) with v in K.
    rewrite <- (read_near a ix (fun b => if b <? length (rsh a) then ix b else 0)); [exact K|].
    intros b Hb. destruct (Nat.ltb_spec b (length (rsh a))); [auto|lia].
  - change (read (fill1 v) ix) with v. apply K. exact (bs_one_inside _ _ _ B J).
Qed.
Lemma fiber_near t ix ix' : (forall b, b <> 0 -> b < length (rsh t) -> ix b = ix' b) -> fiber t 0 ix = fiber t 0 ix'.
Proof.
  intros H. apply functional_extensionality; intros j. unfold fiber. apply read_near. intros b Hb. unfold upd.
  destruct (Nat.eqb_spec b 0); auto.
Qed.
Lemma i_scheck_point P atol rtol x n : 0 < n -> last_size x n -> fits P n (rsh x) ->
  bshape (rsh x) (batch_of P) = Some (rsh x) ->
  exists b, scheck_point_nd P atol rtol x = Some b /\
    (b = true <-> every_row (rsh x) (fun ix => SphereModel.check_point n (matrix_at P ix) atol rtol (fiber x 0 ix) = true)).
Proof.
  intros Hn HX PF B. unfold scheck_point_nd.
  destruct (red_norm x (-1) 0 n false (last_rows _ _ HX)) as (q & -> & Sq & Rq). cbn [red] in Sq.
  destruct (allclose_const atol rtol q 1) as (ok & -> & Hok).
  assert (N : ok = true <-> forall ix, inside (rsh x) ix -> SphereModel.close atol rtol (nrm n (fiber x 0 ix)) 1 = true).
  { rewrite Hok, Sq. unfold last_size in HX. destruct (rsh x) as [|m xs] eqn:E; [discriminate|]. injection HX as ->.
    change (drop_axis 0 (n :: xs)) with xs. split; intros K ix J.
    - specialize (K (del ix 0)). rewrite Rq in K.
      replace (fiber x 0 ix) with (row_at x (place false (del ix 0) 0)).
      + apply K. intros b Hb. unfold del. cbn. apply (J (S b)). cbn. lia.
      + apply functional_extensionality; intros j. unfold row_at, place, fiber. rewrite ins_del. reflexivity.
    - rewrite Rq. specialize (K (ins ix 0 0)). rewrite fiber_ins in K. apply K. intros b Hb. unfold ins.
      destruct b as [|b]; cbn [Nat.ltb Nat.leb Nat.eqb]; [exact Hn|]. replace (S b - 1) with b by lia. apply (J b). cbn in Hb. lia. }
  unfold every_row, SphereModel.check_point. destruct ok.
  2:{ exists false. split; [reflexivity|]. split; [discriminate|]. intros K. exfalso.
      assert (H : false = true); [|discriminate]. apply N. intros ix J. specialize (K ix J).
      destruct (SphereModel.close _ _ _ _); [reflexivity|discriminate]. }
  assert (N1 := proj1 N eq_refl). destruct (i_subspace P x n (rsh x) Hn HX PF B) as (px & -> & Sp & Rp).
  destruct (allclose_all atol rtol px x (rsh x)) as (ok & -> & H2). { rewrite Sp. apply bs_self. }
  exists ok. split; [reflexivity|]. rewrite H2.
  assert (Sx : forall ix, inside (rsh x) ix -> ix 0 < n).
  { unfold last_size in HX. intros ix J. specialize (J 0). destruct (rsh x) as [|m xs]; [discriminate|].
    injection HX as ->. apply J. cbn. lia. }
  split; intros K ix J.
  - rewrite N1 by exact J. unfold SphereModel.allclose. apply forallb_forall. intros j Hj. apply in_seq in Hj.
    specialize (K (upd ix 0 j)). rewrite Rp in K by (unfold upd; cbn; lia). rewrite matrix_upd, fiber_upd in K.
    apply K. intros b Hb. unfold upd. destruct (Nat.eqb_spec b 0) as [->|]; [|apply J; auto].
    unfold last_size in HX. rewrite (nth_error_nth _ _ _ HX). lia.
  - specialize (K ix J). rewrite N1 in K by exact J. unfold SphereModel.allclose in K. rewrite forallb_forall in K.
    specialize (K (ix 0) ltac:(apply in_seq; specialize (Sx ix J); lia)). rewrite Rp by (apply Sx; exact J).
    replace (read x ix) with (fiber x 0 ix (ix 0)); [exact K|]. unfold fiber. rewrite upd_self. reflexivity.
Qed.
Lemma i_scheck_vector atol rtol x u n s : 0 < n -> last_size x n -> last_size u n -> bshape (rsh x) (rsh u) = Some s ->
  exists b, scheck_vector_nd atol rtol x u = Some b /\
    (b = true <-> every_row s (fun ix => SphereModel.check_vector n atol rtol (fiber x 0 ix) (fiber u 0 ix) = true)).
Proof.
  intros Hn HX HU B. unfold scheck_vector_nd.
  destruct (i_sinner x x u true n s s HX HX HU B (bs_comm _ _ _ (bs_lower_l _ _ _ B))) as (i & -> & Si & Ri).
  destruct (allclose_const atol rtol i 0) as (ok & -> & H). exists ok. split; [reflexivity|]. rewrite H, Si. cbn [red].
  assert (Es : nth_error s 0 = Some n) by (exact (ax_nth _ _ _ _ _ B HX HU)).
  destruct s as [|m s]; [discriminate|]. injection Es as ->. change (set_axis 0 1 (n :: s)) with (1 :: s).
  unfold every_row, SphereModel.check_vector. split; intros K ix J.
  - specialize (K (upd ix 0 0)). rewrite Ri in K.
    change (row_at x (place true (upd ix 0 0) 0)) with (fiber x 0 (upd ix 0 0)) in K.
    change (row_at u (place true (upd ix 0 0) 0)) with (fiber u 0 (upd ix 0 0)) in K.
    rewrite !fiber_upd in K. apply K. intros b Hb. unfold upd. destruct b; cbn; [lia|]. apply (J (S b)). exact Hb.
  - rewrite Ri. unfold place. specialize (K (upd ix 0 0)). rewrite !fiber_upd in K. apply K. intros b Hb. unfold upd.
    destruct b; cbn; [exact Hn|]. apply (J (S b)). exact Hb.
Qed.

(** ** A batch of projectors *)
(** for points (b, n) and projectors (c, n, n) the product has shape (c, b, n) *)
Lemma batch_matmul x p n b c : rsh x = [n; b] -> rsh p = [n; n; c] ->
  exists z, subspace_nd (Some p) x = Some z /\ rsh z = [n; b; c] /\
    forall ix, ix 0 < n -> read z ix = SphereModel.project_on_subspace n (matrix_at (Some p) ix) (fiber x 0 ix) (ix 0).
Proof.
  intros Ex Ep. destruct n as [|d].
  { unfold subspace_nd, transpose_nd. rewrite Ep. unfold matmul_nd. rewrite Ex. cbn [rsh Nat.eqb bshape].
    eexists; split; [reflexivity|]. split; [reflexivity|]. intros; lia. }
  apply (i_subspace (Some p) x (S d) [S d; b; c]).
  - lia.
  - unfold last_size. rewrite Ex. reflexivity.
  - exists [c]. split; [exact Ep|]. rewrite Ex. cbn. lia.
  - unfold batch_of. rewrite Ex, Ep. cbn [bshape]. rewrite !bdim_1r. reflexivity.
Qed.
Lemma batch_projx x p n b c : rsh x = [n; b] -> rsh p = [n; n; c] ->
  exists z, sprojx_nd (Some p) x = Some z /\ rsh z = [n; b; c].
Proof.
  intros Ex Ep. unfold sprojx_nd. destruct (batch_matmul x p n b c Ex Ep) as (y & -> & Sy & _).
  destruct (red_norm y (-1) 0 n true) as (q & -> & Sq & _).
  { apply last_rows. unfold last_size. rewrite Sy. reflexivity. }
  cbn [red] in Sq. rewrite Sy in Sq. change (set_axis 0 1 [n; b; c]) with [1; b; c] in Sq.
  destruct (lift2_some Rdiv y q [n; b; c]) as (z & -> & Ez & _).
  { rewrite Sy, Sq. cbn [bshape]. rewrite bdim_1r, !bdim_same. reflexivity. }
  exists z. auto.
Qed.
Lemma batch_refuted : exists x p, rsh x = [2; 3] /\ rsh p = [2; 2; 3] /\
  forall z, sprojx_nd (Some p) x = Some z -> rsh z <> rsh x.
Proof.
  exists {| rsh := [2; 3]; at_ := fun _ => 1%R |}, {| rsh := [2; 2; 3]; at_ := fun _ => 1%R |}.
  split; [reflexivity|]. split; [reflexivity|]. intros z E.
  destruct (batch_projx {| rsh := [2; 3]; at_ := fun _ => 1%R |} {| rsh := [2; 2; 3]; at_ := fun _ => 1%R |} 2 3 3 eq_refl eq_refl)
    as (z' & E' & S'). rewrite E in E'. injection E' as ->. rewrite S'. discriminate.
Qed.
