(** From the joint-shape lemmas of StereoNdProofs to the vocabulary of StereoNdSpec. *)
From Coq Require Import Reals List ZArith Lia Bool Arith FunctionalExtensionality Lra.
From Verif Require Import RVec StereoModel StereoExtraModel NdModel NdSpec NdProofs StereoNdModel StereoNdSpec StereoNdProofs.
Import ListNotations.

Lemma upd_self ix a : upd ix a (ix a) = ix.
Proof. apply functional_extensionality; intros b. unfold upd. destruct (Nat.eqb_spec b a); subst; auto. Qed.
Notation Sz s := (fun b : nat => nth b s 1).

Lemma vrow_of (s : list nat) dim a n x : has_rows x dim a n ->
  (forall b, nth b (rsh x) 1 = 1 \/ nth b (rsh x) 1 = nth b s 1) -> length (rsh x) <= length s ->
  vrow (Sz s) (length s) dim a n x (length (rsh x)) (Sz (rsh x)) (fiber x a).
Proof.
  intros [A N] H L. split; auto; intros.
  - apply (nth_error_nth _ _ 1) in N. exact N.
  - unfold fiber. rewrite upd_self. reflexivity.
  - apply fiber_upd.
Qed.
Lemma srow_of (s : list nat) a t : nth a (rsh t) 1 = 1 ->
  (forall b, nth b (rsh t) 1 = 1 \/ nth b (rsh t) 1 = nth b s 1) -> length (rsh t) <= length s ->
  srow (Sz s) (length s) a t (length (rsh t)) (Sz (rsh t)) (read t).
Proof.
  intros N H L. split; auto; intros. unfold read. f_equal.
  apply functional_extensionality; intros b. unfold norm_index, upd.
  destruct (Nat.eqb_spec (nth b (rsh t) 1) 1); auto. destruct (Nat.eqb_spec b a); subst; auto. contradiction.
Qed.
Lemma bfit_l s1 s2 s : bshape s1 s2 = Some s ->
  (forall b, nth b s1 1 = 1 \/ nth b s1 1 = nth b s 1) /\ length s1 <= length s.
Proof.
  intros H. apply bshape_spec in H as [L H]. split; [|lia].
  intros b. specialize (H b). apply bdim_spec in H. tauto.
Qed.
Lemma bfit_r s1 s2 s : bshape s1 s2 = Some s ->
  (forall b, nth b s2 1 = 1 \/ nth b s2 1 = nth b s 1) /\ length s2 <= length s.
Proof.
  intros H. apply bshape_spec in H as [L H]. split; [|lia].
  intros b. specialize (H b). apply bdim_spec in H. tauto.
Qed.
Lemma fit_trans (s1 s2 s3 : list nat) :
  (forall b, nth b s1 1 = 1 \/ nth b s1 1 = nth b s2 1) /\ length s1 <= length s2 ->
  (forall b, nth b s2 1 = 1 \/ nth b s2 1 = nth b s3 1) /\ length s2 <= length s3 ->
  (forall b, nth b s1 1 = 1 \/ nth b s1 1 = nth b s3 1) /\ length s1 <= length s3.
Proof.
  intros [A B] [C D]. split; [|lia]. intros b. destruct (A b) as [->|E]; auto. rewrite E. auto.
Qed.
Lemma bshape_jd_eq s1 s2 s : bshape s1 s2 = Some s ->
  length s = max (length s1) (length s2) /\ forall b, nth b s 1 = jd (nth b s1 1) (nth b s2 1).
Proof.
  intros H. destruct (bshape_jd s1 s2 (Sz s)) as (s' & E & L & N).
  { apply (bfit_l _ _ _ H). } { apply (bfit_r _ _ _ H). }
  rewrite H in E. injection E as <-. auto.
Qed.
Lemma axis_max dim a l1 l2 : axis dim l1 = Some a -> axis dim l2 = Some a -> axis dim (max l1 l2) = Some a.
Proof.
  intros A B. destruct (Nat.max_spec l1 l2) as [[_ ->]|[_ ->]]; auto.
Qed.
Lemma makes_of S r dim a n (s : list nat) z L D F (res : option nd) :
  res = Some z -> vrow S r dim a n z L D F -> L = length s -> (forall b, D b = nth b s 1) ->
  makes res s a F.
Proof.
  intros -> V E H. exists z. split; [reflexivity|]. destruct V. split; auto.
  apply shape_ext; [lia|]. intros b. rewrite v_dim, H. reflexivity.
Qed.

Lemma rows1 (op : nd -> Z -> option nd) row :
  (forall S r dim a n, axis dim r = Some a -> S a = n -> forall x L D F, vrow S r dim a n x L D F ->
     exists z, op x dim = Some z /\ vrow S r dim a n z L D (fun ix => row n (F ix))) ->
  by_rows1 op row.
Proof.
  intros H x dim a n [A N].
  destruct (H (Sz (rsh x)) (length (rsh x)) dim a n A ltac:(exact (nth_error_nth _ _ 1 N)) x _ _ _
     (vrow_of (rsh x) dim a n x (conj A N) ltac:(auto) ltac:(auto))) as (z & E & V).
  eapply makes_of; eauto.
Qed.
Lemma rows2 (op : nd -> nd -> Z -> option nd) row :
  (forall S r dim a n, axis dim r = Some a -> S a = n ->
     forall x y L1 D1 F L2 D2 G, vrow S r dim a n x L1 D1 F -> vrow S r dim a n y L2 D2 G ->
     exists z, op x y dim = Some z /\
       vrow S r dim a n z (max L1 L2) (fun b => jd (D1 b) (D2 b)) (fun ix => row n (F ix) (G ix))) ->
  by_rows2 op row.
Proof.
  intros H x y dim a n s HX HY B. pose proof (bfit_l _ _ _ B) as [Fx Lx]. pose proof (bfit_r _ _ _ B) as [Fy Ly].
  destruct (bshape_jd_eq _ _ _ B) as [Ls Ns].
  assert (Ar : axis dim (length s) = Some a) by (rewrite Ls; apply axis_max; [apply HX|apply HY]).
  assert (An : nth a s 1 = n).
  { rewrite Ns. rewrite (nth_error_nth _ _ 1 (proj2 HX)), (nth_error_nth _ _ 1 (proj2 HY)). apply jd_same. }
  destruct (H (Sz s) (length s) dim a n Ar An x y _ _ _ _ _ _ (vrow_of s _ _ _ _ HX Fx Lx) (vrow_of s _ _ _ _ HY Fy Ly)) as (z & E & V).
  eapply makes_of; [exact E|exact V|lia|]. intros; cbn beta. rewrite Ns; auto.
Qed.
Lemma rows3 (op : nd -> nd -> nd -> Z -> option nd) row :
  (forall S r dim a n, axis dim r = Some a -> S a = n ->
     forall x y u L1 D1 F L2 D2 G L3 D3 H, vrow S r dim a n x L1 D1 F -> vrow S r dim a n y L2 D2 G ->
     vrow S r dim a n u L3 D3 H ->
     exists z, op x y u dim = Some z /\
       vrow S r dim a n z (max L1 (max L2 L3)) (fun b => jd (D1 b) (jd (D2 b) (D3 b)))
         (fun ix => row n (F ix) (G ix) (H ix))) ->
  by_rows3 op row.
Proof.
  intros H x y u dim a n s1 s HX HY HU B1 B2.
  pose proof (bfit_l _ _ _ B2) as F1.
  destruct (fit_trans _ _ _ (bfit_l _ _ _ B1) F1) as [Fx Lx].
  destruct (fit_trans _ _ _ (bfit_r _ _ _ B1) F1) as [Fy Ly].
  pose proof (bfit_r _ _ _ B2) as [Fu Lu].
  destruct (bshape_jd_eq _ _ _ B1) as [Ls1 Ns1]. destruct (bshape_jd_eq _ _ _ B2) as [Ls Ns].
  assert (Ar : axis dim (length s) = Some a).
  { rewrite Ls, Ls1. repeat apply axis_max; [apply HX|apply HY|apply HU]. }
  assert (An : nth a s 1 = n).
  { rewrite Ns, Ns1. rewrite (nth_error_nth _ _ 1 (proj2 HX)), (nth_error_nth _ _ 1 (proj2 HY)), (nth_error_nth _ _ 1 (proj2 HU)).
    rewrite !jd_same. reflexivity. }
  destruct (H (Sz s) (length s) dim a n Ar An x y u _ _ _ _ _ _ _ _ _ (vrow_of s _ _ _ _ HX Fx Lx)
    (vrow_of s _ _ _ _ HY Fy Ly) (vrow_of s _ _ _ _ HU Fu Lu)) as (z & E & V).
  eapply makes_of; [exact E|exact V|lia|]. intros; cbn beta. rewrite Ns, Ns1.
  unfold jd. destruct (Nat.eqb_spec (nth b (rsh x) 1) 1); auto.
  destruct (Nat.eqb_spec (nth b (rsh x) 1) 1); auto; lia.
Qed.
Lemma scaled1 (op : nd -> nd -> Z -> option nd) row :
  (forall S r dim a n, axis dim r = Some a -> S a = n ->
     forall t x L0 D0 f L1 D1 F, srow S r a t L0 D0 f -> vrow S r dim a n x L1 D1 F ->
     exists z, op t x dim = Some z /\
       vrow S r dim a n z (max L0 L1) (fun b => jd (D0 b) (D1 b)) (fun ix => row n (f ix) (F ix))) ->
  by_scaled_rows1 op row.
Proof.
  intros H t x dim a n s HX HT B Ar. pose proof (bfit_l _ _ _ B) as [Ft Lt]. pose proof (bfit_r _ _ _ B) as [Fx Lx].
  destruct (bshape_jd_eq _ _ _ B) as [Ls Ns].
  assert (An : nth a s 1 = n) by (rewrite Ns, HT; exact (nth_error_nth _ _ 1 (proj2 HX))).
  destruct (H (Sz s) (length s) dim a n Ar An t x _ _ _ _ _ _ (srow_of s a t HT Ft Lt) (vrow_of s _ _ _ _ HX Fx Lx)) as (z & E & V).
  eapply makes_of; [exact E|exact V|lia|]. intros; cbn beta. rewrite Ns; auto.
Qed.
Lemma scaled2 (op : nd -> nd -> nd -> Z -> option nd) row :
  (forall S r dim a n, axis dim r = Some a -> S a = n ->
     forall t x y L0 D0 f L1 D1 F L2 D2 G, srow S r a t L0 D0 f -> vrow S r dim a n x L1 D1 F ->
     vrow S r dim a n y L2 D2 G ->
     exists z, op t x y dim = Some z /\
       vrow S r dim a n z (max L0 (max L1 L2)) (fun b => jd (D0 b) (jd (D1 b) (D2 b)))
         (fun ix => row n (f ix) (F ix) (G ix))) ->
  by_scaled_rows2 op row.
Proof.
  intros H t x y dim a n s1 s HX HY HT B1 B2 Ar.
  pose proof (bfit_r _ _ _ B2) as F1. pose proof (bfit_l _ _ _ B2) as [Ft Lt].
  destruct (fit_trans _ _ _ (bfit_l _ _ _ B1) F1) as [Fx Lx].
  destruct (fit_trans _ _ _ (bfit_r _ _ _ B1) F1) as [Fy Ly].
  destruct (bshape_jd_eq _ _ _ B1) as [Ls1 Ns1]. destruct (bshape_jd_eq _ _ _ B2) as [Ls Ns].
  assert (An : nth a s 1 = n).
  { rewrite Ns, Ns1, HT. rewrite (nth_error_nth _ _ 1 (proj2 HX)), (nth_error_nth _ _ 1 (proj2 HY)).
    rewrite jd_same. reflexivity. }
  destruct (H (Sz s) (length s) dim a n Ar An t x y _ _ _ _ _ _ _ _ _ (srow_of s a t HT Ft Lt)
    (vrow_of s _ _ _ _ HX Fx Lx) (vrow_of s _ _ _ _ HY Fy Ly)) as (z & E & V).
  eapply makes_of; [exact E|exact V|lia|]. intros; cbn beta. rewrite Ns, Ns1. reflexivity.
Qed.

(** ** One number for each row *)
Lemma sum_dim t dim a n keep : has_rows t dim a n ->
  sum_ dim keep t = sum_ (- Z.of_nat a - 1) keep t /\ norm_ dim keep t = norm_ (- Z.of_nat a - 1) keep t.
Proof.
  intros [A N]. unfold norm_, sum_. cbn [lift1 rsh]. rewrite A, axis_neg; auto. exact (axis_lt _ _ _ A).
Qed.
Lemma has_lift1 f t dim a n : has_rows t dim a n -> has_rows (lift1 f t) dim a n.
Proof. auto. Qed.
Lemma red_sum t dim a n keep : has_rows t dim a n ->
  exists z, sum_ dim keep t = Some z /\ rsh z = red keep a (rsh t) /\
    forall ix, read z ix = Rsum n (row_at t (place keep ix a)).
Proof. intros H. rewrite (proj1 (sum_dim _ _ _ _ keep H)). apply sum_red. apply H. Qed.
Lemma red_norm t dim a n keep : has_rows t dim a n ->
  exists z, norm_ dim keep t = Some z /\ rsh z = red keep a (rsh t) /\
    forall ix, read z ix = nrm n (row_at t (place keep ix a)).
Proof. intros H. rewrite (proj2 (sum_dim _ _ _ _ keep H)). apply norm_red. apply H. Qed.

Section Numbers.
  Variable e : R.
  Local Open Scope R_scope.
  Lemma num_lambda k : by_numbers1 (lambda_x_nd k) (fun n => lambda_x n k).
  Proof.
    intros x keep dim a n H. unfold lambda_x_nd.
    destruct (red_sum (pow2 x) dim a n keep (has_lift1 _ _ _ _ _ H)) as (z & -> & Sz' & Rz).
    eexists; split; [reflexivity|]. split; [exact Sz'|]. intros ix. rewrite read_lift1, Rz.
    unfold lambda_x. do 4 f_equal. unfold dot. apply Rsum_ext; intros j Hj.
    unfold row_at, pow2. rewrite read_lift1. ring.
  Qed.
  Lemma num_norm k : by_numbers2 (norm_nd k) (fun n => norm n k).
  Proof.
    intros x u keep dim a n s HX HU B. unfold norm_nd.
    destruct (num_lambda k x keep dim a n HX) as (l & -> & Sl & Rl).
    destruct (red_norm u dim a n keep HU) as (q & -> & Sq & Rq).
    destruct (lift2_some Rmult l q (red keep a s)) as (z & Hz & Sz' & Rz).
    { rewrite Sl, Sq. exact (bs_red keep _ _ _ _ _ B (proj2 HX) (proj2 HU)). }
    exists z. split; [exact Hz|]. split; [exact Sz'|]. intros ix. rewrite Rz, Rl, Rq. reflexivity.
  Qed.
  Lemma num_dist0 k : by_numbers1 (dist0_nd e k) (fun n => dist0 n e k).
  Proof.
    intros x keep dim a n H. unfold dist0_nd.
    destruct (red_norm x dim a n keep H) as (z & -> & Sz' & Rz).
    eexists; split; [reflexivity|]. split; [exact Sz'|]. intros ix. rewrite read_lift1, Rz. reflexivity.
  Qed.
  Lemma num_dist k : by_numbers2 (dist_nd e k) (fun n => dist n e k).
  Proof.
    intros x y keep dim a n s HX HY B. unfold dist_nd.
    assert (M : by_rows2 (mobius_add_nd k) (fun n => mobius_add n k)).
    { apply rows2. intros. eapply v_mobius_add; eauto. }
    destruct (M (neg x) y dim a n s HX HY B) as (d & -> & Sd & Rd).
    assert (HD : has_rows d dim a n).
    { split; rewrite Sd.
      - destruct (bshape_jd_eq _ _ _ B) as [-> _]. apply axis_max; [apply HX|apply HY].
      - exact (ax_nth _ _ _ _ _ B (proj2 HX) (proj2 HY)). }
    destruct (red_norm d dim a n keep HD) as (z & -> & Sz' & Rz).
    eexists; split; [reflexivity|]. rewrite Sd in Sz'. split; [exact Sz'|]. intros ix.
    rewrite read_lift1, Rz. unfold dist. do 3 f_equal.
    apply functional_extensionality; intros j. unfold row_at. rewrite Rd, place_at. f_equal.
    - apply functional_extensionality; intros i. unfold fiber, neg, vopp. rewrite read_lift1, upd_place. reflexivity.
    - apply functional_extensionality; intros i. unfold fiber. rewrite upd_place. reflexivity.
  Qed.
  (** _inner with keepdim=True *)
  Lemma num_inner k x u v dim a n s1 s : has_rows x dim a n -> has_rows u dim a n -> has_rows v dim a n ->
    bshape (rsh x) (rsh u) = Some s1 -> bshape s1 (rsh v) = Some s ->
    reduced (inner_nd k x u v true dim) s true a
      (fun p => inner n k (row_at x p) (row_at u p) (row_at v p)).
  Proof.
    intros HX HU HV B1 B2. unfold inner_nd.
    pose proof (bfit_l _ _ _ B2) as F1.
    pose proof (fit_trans _ _ _ (bfit_l _ _ _ B1) F1) as [Fx Lx].
    pose proof (fit_trans _ _ _ (bfit_r _ _ _ B1) F1) as [Fu Lu].
    pose proof (bfit_r _ _ _ B2) as [Fv Lv].
    destruct (num_lambda k x true dim a n HX) as (l & -> & Sl & Rl).
    destruct (bshape_jd (rsh u) (rsh v) (Sz s) Fu Fv) as (s2 & B & L2 & N2).
    destruct (lift2_some Rmult u v s2 B) as (p & -> & Sp & Rp).
    assert (HP : has_rows p dim a n).
    { split; rewrite Sp.
      - rewrite L2. apply axis_max; [apply HU|apply HV].
      - exact (ax_nth _ _ _ _ _ B (proj2 HU) (proj2 HV)). }
    destruct (red_sum p dim a n true HP) as (q & -> & Sq & Rq).
    assert (Bx : bshape (rsh x) s2 = Some s).
    { destruct (bshape_jd (rsh x) s2 (Sz s) Fx) as (s3 & B3 & L3 & N3).
      { intros b. rewrite N2. apply (jd_fit (nth b (rsh u) 1%nat) (nth b (rsh v) 1%nat) (nth b s 1%nat)); auto. }
      rewrite B3. f_equal. destruct (bshape_jd_eq _ _ _ B1) as [M1 K1]. destruct (bshape_jd_eq _ _ _ B2) as [M2 K2].
      apply shape_ext; [lia|]. intros b. rewrite N3, N2, K2, K1.
      unfold jd. destruct (Nat.eqb_spec (nth b (rsh x) 1%nat) 1%nat); auto.
      destruct (Nat.eqb_spec (nth b (rsh x) 1%nat) 1%nat); auto; lia. }
    destruct (lift2_some Rmult (lift1 (fun l => l ^ 2) l) q (red true a s)) as (z & Hz & Sz' & Rz).
    { cbn [lift1 rsh]. rewrite Sl, Sq, Sp.
      exact (bs_red true _ _ _ _ _ Bx (proj2 HX) ltac:(rewrite <- Sp; apply HP)). }
    exists z. split; [exact Hz|]. split; [exact Sz'|]. intros ix.
    rewrite Rz, read_lift1, Rl, Rq. unfold inner. f_equal. unfold dot. apply Rsum_ext; intros j Hj.
    unfold row_at. rewrite Rp. reflexivity.
  Qed.
End Numbers.
