(** Concrete shapes for C119 and the instances for reducedim=None. *)
From Coq Require Import Reals List ZArith Sorted Lia.
From Verif Require Import RVec UtilsModel StereoModel StereoExtraModel NdModel NdSpec NdProofs StereoNdModel StereoNdSpec StereoMidNdProofs.
Import ListNotations.

Definition batch_points : nd :=
  {| rsh := [3; 4; 2]; at_ := fun ix => (INR (ix 0%nat) / 10 + INR (ix 1%nat) / 20 - INR (ix 2%nat) / 4)%R |}.
Definition batch_weights : nd := {| rsh := [4; 2]; at_ := fun ix => (INR (ix 0%nat) - INR (ix 1%nat))%R |}.
Lemma case_ok :
  has_rows batch_points (-1)%Z 0 3 /\ names (length (rsh batch_points)) [1%Z] [1] /\
  names (length (rsh batch_points)) [-2]%Z [1] /\ names (length (rsh batch_points)) [0; 1]%Z [2; 1] /\
  Sorted gt [2; 1] /\ NoDup [2; 1] /\ ~ In 0 [2; 1] /\ (forall b, In b [2; 1] -> 0 < b) /\
  weights_fit (Some batch_weights) batch_points (-1)%Z 0 /\ weights_fit None batch_points (-1)%Z 0 /\
  length (group batch_points (Some batch_weights) 0 [1] (fun _ => 0)) = 4.
Proof.
  repeat split; try (repeat constructor; fail); cbn; try (intuition congruence).
  - repeat constructor; cbn; intuition congruence.
  - intros b [<-|[<-|[]]]; lia.
Qed.
Lemma method_plain e eps d k xs weights reducedim dim keepdim lincomb posweight :
  m_weighted_midpoint_nd e eps d k xs weights reducedim dim keepdim lincomb posweight false =
  weighted_midpoint_nd e d k xs weights reducedim dim keepdim lincomb posweight.
Proof. unfold m_weighted_midpoint_nd. destruct (weighted_midpoint_nd _ _ _ _ _ _ _ _ _ _); reflexivity. Qed.
Lemma midpoint_all_keep e d k xs weights dim a n lincomb posweight :
  has_rows xs dim a n -> 2 <= length (rsh xs) -> weights_fit weights xs dim a ->
  exists z, weighted_midpoint_nd e d k xs weights None dim true lincomb posweight = Some z /\
    rsh z = flat_axes (others (length (rsh xs)) a) (rsh xs) /\
    forall ix, inside (rsh z) ix ->
      read z ix = weighted_midpoint n e d k lincomb posweight
        (group xs weights a (others (length (rsh xs)) a) ix) (ix a).
Proof.
  intros HX H2 HW. destruct (none_dims xs dim a (proj1 HX)) as (dims & HR & HN & Pos).
  eapply midpoint_keep; eauto.
  - pose proof (others_sorted (length (rsh xs)) a) as Hs. induction (others (length (rsh xs)) a) as [|b l IH] in Hs |- *; constructor.
    + intros I. pose proof (desc_head _ _ _ Hs I). lia.
    + apply IH. inversion Hs; auto.
  - apply others_not.
  - apply others_some; auto.
Qed.
Lemma given_keep e d k xs weights dims l dim a n lincomb posweight :
  has_rows xs dim a n -> names (length (rsh xs)) dims l -> NoDup l -> ~ In a l -> l <> [] ->
  weights_fit weights xs dim a ->
  exists z, weighted_midpoint_nd e d k xs weights (Some dims) dim true lincomb posweight = Some z /\
    rsh z = flat_axes l (rsh xs) /\
    forall ix, inside (rsh z) ix ->
      read z ix = weighted_midpoint n e d k lincomb posweight (group xs weights a l ix) (ix a).
Proof. intros. apply midpoint_keep with (dims := dims); auto. Qed.
Lemma given_drop e d k xs weights dims l dim a n lincomb posweight :
  has_rows xs dim a n -> names (length (rsh xs)) dims l -> Sorted gt l -> ~ In a l -> l <> [] ->
  Forall (Z.le 0) dims \/ length dims = 1 ->
  weights_fit weights xs dim a ->
  exists z, weighted_midpoint_nd e d k xs weights (Some dims) dim false lincomb posweight = Some z /\
    rsh z = drop_axes l (rsh xs) /\
    forall ix, inside (rsh z) ix ->
      read z ix = weighted_midpoint n e d k lincomb posweight
        (group xs weights a l (insert_axes l ix)) (insert_axes l ix a).
Proof. intros. apply midpoint_drop with (dims := dims); auto. Qed.
Lemma given_method_keep e eps d k xs weights dims l dim a n lincomb posweight :
  has_rows xs dim a n -> names (length (rsh xs)) dims l -> NoDup l -> ~ In a l -> l <> [] ->
  weights_fit weights xs dim a ->
  exists z, m_weighted_midpoint_nd e eps d k xs weights (Some dims) dim true lincomb posweight true = Some z /\
    rsh z = flat_axes l (rsh xs) /\
    forall ix, inside (rsh z) ix ->
      read z ix = project n e eps k (weighted_midpoint n e d k lincomb posweight (group xs weights a l ix)) (ix a).
Proof. intros. apply method_keep with (dims := dims); auto. Qed.
Lemma given_method e eps d k xs weights dims l dim a n lincomb posweight :
  has_rows xs dim a n -> names (length (rsh xs)) dims l -> Sorted gt l -> l <> [] ->
  Forall (Z.le 0) dims \/ length dims = 1 -> (dim < 0)%Z -> (forall b, In b l -> a < b) ->
  weights_fit weights xs dim a ->
  exists z, m_weighted_midpoint_nd e eps d k xs weights (Some dims) dim false lincomb posweight true = Some z /\
    rsh z = drop_axes l (rsh xs) /\
    forall ix, inside (rsh z) ix ->
      read z ix = project n e eps k
        (weighted_midpoint n e d k lincomb posweight (group xs weights a l (insert_axes l ix))) (ix a).
Proof. intros. apply method_drop with (dims := dims); auto. Qed.
