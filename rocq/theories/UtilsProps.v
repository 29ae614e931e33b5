(** Properties C01-C05. *)
From Coq Require Import List ZArith Lia Permutation.
From Verif Require Import UtilsModel UtilsSpec UtilsProofs.
Import ListNotations.

(** C01: for shapes without empty axes, [broadcast_shapes] returns [r] exactly
    when [r] is the numpy broadcast, and raises exactly when there is none. *)
Theorem C01_broadcast_shapes_correct : forall shapes r,
  positive_sizes shapes ->
  (broadcast_shapes shapes = Some r <-> is_broadcast shapes r).
Proof. exact broadcast_shapes_correct_lemma. Qed.
Print Assumptions C01_broadcast_shapes_correct.

Example C01_case : positive_sizes [[2;1;4]; [3;1]; [4]]
  /\ broadcast_shapes [[2;1;4]; [3;1]; [4]] = Some [2;3;4].
Proof.
  split; [|reflexivity].
  intros s Hs d Hd. simpl in *. intuition (subst; simpl in *; lia).
Qed.

Theorem C01_broadcast_shapes_raises : forall shapes,
  positive_sizes shapes ->
  (broadcast_shapes shapes = None <-> forall r, ~ is_broadcast shapes r).
Proof. exact broadcast_shapes_error_lemma. Qed.
Print Assumptions C01_broadcast_shapes_raises.

Example C01_raises_case : positive_sizes [[2;3]; [2;4]] /\ broadcast_shapes [[2;3]; [2;4]] = None.
Proof.
  split; [|reflexivity].
  intros s Hs d Hd. simpl in *. intuition (subst; simpl in *; lia).
Qed.

(** The broadcast is unique, so the function is determined by the spec. *)
Theorem C01_broadcast_unique : forall shapes r1 r2,
  is_broadcast shapes r1 -> is_broadcast shapes r2 -> r1 = r2.
Proof. exact is_broadcast_unique. Qed.
Print Assumptions C01_broadcast_unique.

Theorem C01_broadcast_order_irrelevant : forall s1 s2,
  positive_sizes s1 -> Permutation s1 s2 -> broadcast_shapes s1 = broadcast_shapes s2.
Proof. exact broadcast_shapes_perm_lemma. Qed.
Print Assumptions C01_broadcast_order_irrelevant.

(** Empty axes: the returned shape is not the broadcast, and the answer depends
    on the order of the arguments. *)
Theorem C01_broadcast_empty_axis_refuted :
  broadcast_shapes [[0]] = Some [1] /\ is_broadcast [[0]] [0] /\ ~ is_broadcast [[0]] [1].
Proof. exact broadcast_zero_wrong. Qed.
Print Assumptions C01_broadcast_empty_axis_refuted.

Theorem C01_broadcast_empty_axis_order_refuted :
  broadcast_shapes [[0]; [2]] = Some [2] /\ broadcast_shapes [[2]; [0]] = None.
Proof. exact broadcast_zero_order. Qed.
Print Assumptions C01_broadcast_empty_axis_order_refuted.

(** C02 *)
Theorem C02_negative_alias : forall dim i, (0 < dim)%Z -> (- dim <= i < dim)%Z ->
  exists j, idx2sign i dim true = Some j /\ (- dim <= j < 0)%Z /\ same_axis dim i j.
Proof. exact idx2sign_neg_lemma. Qed.
Print Assumptions C02_negative_alias.

Theorem C02_nonnegative_alias : forall dim i, (0 < dim)%Z -> (- dim <= i < dim)%Z ->
  exists j, idx2sign i dim false = Some j /\ (0 <= j < dim)%Z /\ same_axis dim i j.
Proof. exact idx2sign_pos_lemma. Qed.
Print Assumptions C02_nonnegative_alias.

Theorem C02_round_trip : forall dim i, (0 <= i < dim)%Z ->
  exists j, idx2sign i dim true = Some j /\ idx2sign j dim false = Some i.
Proof. exact idx2sign_roundtrip_lemma. Qed.
Print Assumptions C02_round_trip.

Theorem C02_canonical_dims : forall dims dim, (0 < dim)%Z ->
  (forall i, In i dims -> (- dim <= i < dim)%Z) ->
  exists js, canonical_dims dims dim = Some js /\
    Forall2 (fun i j => (0 <= j < dim)%Z /\ same_axis dim i j) dims js.
Proof. exact canonical_dims_lemma. Qed.
Print Assumptions C02_canonical_dims.

Example C02_case : idx2sign 2 5 true = Some (-3)%Z /\ idx2sign (-3) 5 false = Some 2%Z
  /\ canonical_dims [-1; 0; 3; -4]%Z 4 = Some [3; 0; 3; 0]%Z.
Proof. repeat split; reflexivity. Qed.

(** C03 *)
Theorem C03_drop_dims_ascending : forall s dims,
  ascending dims ->
  (forall d, In d dims -> d < length s /\ nth d s 0 = 1) ->
  drop_dims s (map Z.of_nat dims) = Some (without_axes s dims).
Proof. exact drop_dims_lemma. Qed.
Print Assumptions C03_drop_dims_ascending.

Example C03_case : ascending [0; 2; 3] /\
  drop_dims [1; 5; 1; 1; 7] [0; 2; 3]%Z = Some [5; 7].
Proof. split; [repeat constructor | reflexivity]. Qed.

(** A decreasing list, and a list of negative axes, drop the wrong axes. *)
Theorem C03_drop_dims_unsorted_refuted :
  drop_dims [1; 1; 3] [1; 0]%Z = Some [1; 3] /\ without_axes [1; 1; 3] [1; 0] = [3] /\
  drop_dims [1; 1; 3] [-3; -2]%Z = None /\ without_axes [1; 1; 3] [0; 1] = [3].
Proof. repeat split; reflexivity. Qed.
Print Assumptions C03_drop_dims_unsorted_refuted.

(** C04 *)
Theorem C04_size2shape_variadic : forall l,
  (forall x, l <> [PList x] /\ l <> [PTuple x]) -> size2shape l = l.
Proof. exact size2shape_variadic. Qed.
Print Assumptions C04_size2shape_variadic.

Theorem C04_size2shape_forms_agree : forall l,
  (forall x, l <> [PList x] /\ l <> [PTuple x]) ->
  size2shape l = size2shape [PTuple l] /\ size2shape [PTuple l] = size2shape [PList l].
Proof. intros l H. split; [exact (size2shape_variadic l H) | reflexivity]. Qed.
Print Assumptions C04_size2shape_forms_agree.

Theorem C04_strip_make_tuple : forall l, length l <> 1 -> make_tuple (strip_tuple l) = l.
Proof. exact strip_make. Qed.
Print Assumptions C04_strip_make_tuple.

Example C04_case : size2shape [PInt 3; PInt 4] = [PInt 3; PInt 4]
  /\ size2shape [PTuple [PInt 3; PInt 4]] = [PInt 3; PInt 4]
  /\ size2shape [PInt 3] = [PInt 3] /\ size2shape [] = [].
Proof. repeat split; reflexivity. Qed.

(** C05: any number of Scaled layers is stripped. *)
Theorem C05_canonical_strips_all : forall (cls : Type) n (c : cls),
  canonical_manifold cls (wrap cls n (Inst c)) = Inst c.
Proof. exact canonical_wrap. Qed.
Print Assumptions C05_canonical_strips_all.

Theorem C05_canonical_never_scaled : forall (cls : Type) (o b : pyobj cls),
  canonical_manifold cls o <> ScaledOf b.
Proof. exact canonical_not_scaled. Qed.
Print Assumptions C05_canonical_never_scaled.

Theorem C05_ismanifold_sees_innermost :
  forall (cls : Type) (subclass : cls -> cls -> bool) (cManifold cScaled : cls) n c k,
    subclass cScaled cManifold = true -> subclass c cManifold = true ->
    subclass k cManifold = true ->
    ismanifold cls subclass cManifold cScaled (wrap cls n (Inst c)) k = Some (subclass c k).
Proof. exact ismanifold_wrap. Qed.
Print Assumptions C05_ismanifold_sees_innermost.

(** Classes numbered 0 Manifold, 1 Scaled, 2 Euclidean, 3 Sphere. *)
Example C05_case :
  let sub a b := (Nat.eqb b 0 || Nat.eqb a b)%bool in
  ismanifold nat sub 0 1 (wrap nat 3 (Inst 2)) 2 = Some true /\
  ismanifold nat sub 0 1 (wrap nat 3 (Inst 2)) 3 = Some false /\
  ismanifold nat sub 0 1 (wrap nat 3 (Inst 2)) 1 = Some false.
Proof. repeat split; reflexivity. Qed.
