(** Stereographic projection of tensors, and the shape of the inner product. *)
From Coq Require Import Reals List ZArith Lia Bool Arith FunctionalExtensionality Lra.
From Verif Require Import RVec StereoModel StereoExtraModel NdModel NdSpec NdProofs StereoNdModel StereoNdSpec StereoNdProofs StereoNdProofs2.
Import ListNotations.

Section Proj.
  Variables (e : R) (x : nd) (dim : Z) (a : nat).
  Lemma norm_upd s ix j d : a < length s ->
    norm_index s (upd (norm_index (set_axis a d s) ix) a j) = norm_index s (upd ix a j).
  Proof.
    intros L. apply functional_extensionality; intros b. unfold norm_index, upd.
    destruct (Nat.eqb_spec (nth b s 1) 1) as [|N]; auto. destruct (Nat.eqb_spec b a) as [|B]; auto.
    rewrite nth_set_axis by auto. destruct (Nat.eqb_spec b a); try lia.
    destruct (Nat.eqb_spec (nth b s 1) 1); auto; lia.
  Qed.
  Lemma narrow_last n : has_rows x dim a (S n) ->
    exists z, narrow dim (-1) 1 x = Some z /\ rsh z = set_axis a 1 (rsh x) /\
      forall ix, read z ix = read x (upd ix a n).
  Proof.
    intros [A N]. pose proof (axis_lt _ _ _ A) as La. unfold narrow. rewrite A.
    rewrite (nth_error_nth _ _ 0 N). cbn [Z.ltb Z.compare].
    replace (-1 + Z.of_nat (S n))%Z with (Z.of_nat n) by lia.
    destruct (Z.leb_spec 0 (Z.of_nat n)); [|lia]. destruct (Z.leb_spec (Z.of_nat n) (Z.of_nat (S n))); [|lia].
    destruct (Z.leb_spec 0 1); [|lia]. destruct (Z.leb_spec (Z.of_nat n + 1) (Z.of_nat (S n))); [|lia]. cbn [andb].
    eexists; split; [reflexivity|]. split; [reflexivity|]. intros ix.
    unfold read. cbn [rsh at_]. rewrite Nat2Z.id. unfold read. f_equal. rewrite (norm_upd (rsh x) ix) by auto.
    f_equal. unfold norm_index at 1. change (Z.to_nat 1) with 1. rewrite nth_set_axis, !Nat.eqb_refl by auto. f_equal. lia.
  Qed.
  Lemma narrow_init n : has_rows x dim a (S n) ->
    exists z, narrow dim 0 (Z.of_nat (S n) - 1) x = Some z /\ rsh z = set_axis a n (rsh x) /\
      forall ix, ix a < n -> read z ix = read x ix.
  Proof.
    intros [A N]. pose proof (axis_lt _ _ _ A) as La. unfold narrow. rewrite A.
    rewrite (nth_error_nth _ _ 0 N). cbn [Z.ltb Z.compare].
    replace (Z.of_nat (S n) - 1)%Z with (Z.of_nat n) by lia.
    destruct (Z.leb_spec 0 0); [|lia]. destruct (Z.leb_spec 0 (Z.of_nat (S n))); [|lia].
    destruct (Z.leb_spec 0 (Z.of_nat n)); [|lia]. destruct (Z.leb_spec (0 + Z.of_nat n) (Z.of_nat (S n))); [|lia]. cbn [andb].
    eexists; split; [reflexivity|]. rewrite Nat2Z.id. split; [reflexivity|]. intros ix Hi.
    unfold read. cbn [rsh at_]. unfold read. f_equal. rewrite (norm_upd (rsh x) ix) by auto. f_equal.
    rewrite <- (upd_self ix a) at 3. f_equal.
    unfold norm_index. change (Z.to_nat 0) with 0. rewrite nth_set_axis, Nat.eqb_refl by auto. cbn [Nat.add].
    destruct (Nat.eqb_spec n 1); lia.
  Qed.
  Lemma sproj_rows k n : has_rows x dim a (S n) ->
    exists z, sproj_nd e k x dim = Some z /\ rsh z = set_axis a n (rsh x) /\
      forall ix, ix a < n -> read z ix = sproj n e k (fiber x a ix) (ix a).
  Proof.
    intros H. unfold sproj_nd. pose proof (axis_lt _ _ _ (proj1 H)) as La.
    destruct (narrow_last n H) as (l & -> & Sl & Rl).
    unfold size_. rewrite (proj1 H), (nth_error_nth _ _ 0 (proj2 H)).
    destruct (narrow_init n H) as (i & -> & Si & Ri).
    destruct (lift2_some Rmult (lift1 (fun v => 1 / (1 + sqrt (sabs e k) * v))%R l) i (set_axis a n (rsh x))) as (z & Hz & Sz' & Rz).
    { cbn [lift1 rsh]. rewrite Sl, Si. apply bshape_spec. rewrite !set_axis_length by auto. split; [lia|].
      intros b. rewrite !nth_set_axis by auto. destruct (b =? a); [apply bdim_1|apply bdim_same]. }
    exists z. split; [exact Hz|]. split; [exact Sz'|]. intros ix Hi.
    rewrite Rz, read_lift1, Rl, Ri by auto. unfold sproj, smul, fiber. rewrite upd_self. reflexivity.
  Qed.
  Lemma inv_sproj_rows k n : has_rows x dim a n ->
    exists z, inv_sproj_nd e k x dim = Some z /\ rsh z = set_axis a (n + 1) (rsh x) /\
      forall ix, ix a < n + 1 -> read z ix = inv_sproj n e k (fiber x a ix) (ix a).
  Proof.
    intros H. unfold inv_sproj_nd. pose proof (axis_lt _ _ _ (proj1 H)) as La.
    pose proof (nth_error_nth _ _ 1 (proj2 H)) as Nx.
    destruct (num_lambda k x true dim a n H) as (l & -> & Sl & Rl). cbn [red] in Sl. cbv zeta.
    assert (Bl : bshape (rsh l) (rsh x) = Some (rsh x)).
    { rewrite Sl. exact (bs_set_l _ _ _ _ _ (bs_self (rsh x)) (proj2 H) (proj2 H)). }
    destruct (lift2_some Rmult l x _ Bl) as (A & -> & SA & RA).
    unfold cat2. rewrite SA, (proj1 H). cbn [lift1 rsh].
    assert (NA : nth a (rsh x) 0 = n) by exact (nth_error_nth _ _ 0 (proj2 H)).
    assert (NB : nth a (rsh l) 0 = 1).
    { rewrite Sl, nth_set_axis, Nat.eqb_refl by auto. reflexivity. }
    assert (Sx : set_axis a 0 (rsh x) = set_axis a 0 (rsh l)).
    { rewrite Sl. apply shape_ext; [rewrite !set_axis_length; rewrite ?set_axis_length; auto|].
      intros b. rewrite !nth_set_axis; rewrite ?set_axis_length; auto. destruct (b =? a); auto. }
    destruct (list_eq_dec Nat.eq_dec _ _) as [_|C]; [|contradiction].
    rewrite NA, NB. eexists; split; [reflexivity|]. split; [reflexivity|]. intros ix Hi.
    assert (La' : forall ix j, read l (upd ix a j) = lambda_x n k (fiber x a ix)).
    { intros. rewrite Rl. unfold row_at, place. f_equal. unfold fiber. apply functional_extensionality; intros i.
      rewrite upd_upd. reflexivity. }
    assert (La2 : forall ix, read l ix = lambda_x n k (fiber x a ix)).
    { intros. rewrite <- (upd_self ix0 a) at 1. apply La'. }
    set (ix' := norm_index (set_axis a (n + 1) (rsh x)) ix).
    assert (F : fiber x a ix' = fiber x a ix).
    { unfold fiber. apply functional_extensionality; intros j. unfold read. f_equal. apply norm_upd; auto. }
    assert (I : ix' a = ix a).
    { unfold ix', norm_index. rewrite nth_set_axis, Nat.eqb_refl by auto. destruct (Nat.eqb_spec (n + 1) 1); lia. }
    unfold read at 1. cbn [rsh at_]. fold ix'. rewrite I. unfold inv_sproj.
    destruct (Nat.ltb_spec (ix a) n).
    - rewrite RA, La2, F. f_equal. transitivity (fiber x a ix' (ix' a)).
      + unfold fiber. rewrite upd_self. reflexivity.
      + rewrite F, I. reflexivity.
    - rewrite read_lift1, La', F. reflexivity.
  Qed.
End Proj.

(** the inner product with keepdim=False on a batch of [b] rows *)
Lemma inner_square k x u v b n : rsh x = [n; b] -> rsh u = [n; b] -> rsh v = [n; b] ->
  exists z, inner_nd k x u v false (-1)%Z = Some z /\ rsh z = [b; b] /\
    forall i j, i < b -> j < b -> forall ix, ix 0 = j -> ix 1 = i ->
      read z ix = (lambda_x n k (fun c => read x (fun q => match q with 0 => c | _ => i end)) ^ 2 *
        dot n (fun c => read u (fun q => match q with 0 => c | _ => j end))
              (fun c => read v (fun q => match q with 0 => c | _ => j end)))%R.
Proof.
  intros Sx Su Sv. unfold inner_nd.
  assert (H : forall t, rsh t = [n; b] -> has_rows t (-1)%Z 0 n) by (intros t E; split; rewrite E; reflexivity).
  destruct (num_lambda k x true (-1)%Z 0 n (H x Sx)) as (l & -> & Sl & Rl).
  destruct (lift2_some Rmult u v [n; b]) as (p & -> & Sp & Rp); [rewrite Su, Sv; apply bs_self|].
  destruct (red_sum p (-1)%Z 0 n false (H p Sp)) as (q & -> & Sq & Rq).
  rewrite Sx in Sl. rewrite Sp in Sq. cbn in Sl, Sq.
  destruct (lift2_some Rmult (lift1 (fun l => (l ^ 2)%R) l) q [b; b]) as (z & Hz & Sz' & Rz).
  { cbn [lift1 rsh]. rewrite Sl, Sq. cbn [bshape]. rewrite bdim_1. destruct b; reflexivity. }
  exists z. split; [exact Hz|]. split; [exact Sz'|]. intros i j Hi Hj ix I0 I1.
  rewrite Rz, read_lift1, Rl, Rq. f_equal.
  - unfold row_at. do 2 f_equal. apply functional_extensionality; intros c. unfold read, place, upd, norm_index.
    rewrite Sx. f_equal. apply functional_extensionality; intros [|[|[|w]]]; cbn; auto. rewrite I1. reflexivity.
  - unfold dot. apply Rsum_ext; intros c Hc. unfold row_at. rewrite Rp. unfold read, place, ins, norm_index.
    rewrite Su, Sv. f_equal; f_equal; apply functional_extensionality; intros [|[|[|w]]]; cbn; auto; rewrite I0; reflexivity.
Qed.
