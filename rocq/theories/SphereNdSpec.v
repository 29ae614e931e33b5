(** Vocabulary: the rows of a tensor are taken along its last axis (axis 0 from the right);
    a projector with more than two axes is one matrix for each position of the axes before
    the last two. *)
From Coq Require Import Reals List Arith.
From Verif Require Import RVec NdModel NdSpec StereoNdSpec LorentzNdSpec.
From Verif Require SphereModel.
Import ListNotations.

(** The last axis of [x] has size [n]. *)
Definition last_size (x : nd) (n : nat) : Prop := nth_error (rsh x) 0 = Some n.
(** The projector matrix that belongs to the position [ix]: row [i], column [j]. *)
Definition matrix_at (P : option nd) (ix : index) : option SphereModel.mat :=
  option_map (fun p i j => read p (upd (upd ix 0 j) 1 i)) P.
(** The axes the projector adds to a tensor of rows. *)
Definition batch_of (P : option nd) : list nat :=
  match P with
  | Some p => match rsh p with _ :: _ :: d :: bs => 1 :: 1 :: d :: bs | _ => [] end
  | None => []
  end.
(** The projector consists of [n] x [n] matrices and, if there are several, the tensor of
    rows of shape [s] has at least two axes, the last of which the matrices do not count. *)
Definition fits (P : option nd) (n : nat) (s : list nat) : Prop :=
  match P with
  | Some p => exists bs, rsh p = n :: n :: bs /\ (bs <> [] -> 2 <= length s)
  | None => True
  end.

Definition srows1 (P : option nd) (op : nd -> option nd)
    (row : nat -> option SphereModel.mat -> vec -> vec) : Prop :=
  forall x n s, 0 < n -> last_size x n -> fits P n (rsh x) -> bshape (rsh x) (batch_of P) = Some s ->
  makes_rows (op x) s 0 n (fun ix => row n (matrix_at P ix) (fiber x 0 ix)).
Definition srows2 (P : option nd) (op : nd -> nd -> option nd)
    (row : nat -> option SphereModel.mat -> vec -> vec -> vec) : Prop :=
  forall x y n s1 s, 0 < n -> last_size x n -> last_size y n -> bshape (rsh x) (rsh y) = Some s1 ->
  fits P n s1 -> bshape s1 (batch_of P) = Some s ->
  makes_rows (op x y) s 0 n (fun ix => row n (matrix_at P ix) (fiber x 0 ix) (fiber y 0 ix)).
