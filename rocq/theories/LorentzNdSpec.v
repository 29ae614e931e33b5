(** Vocabulary: what it means that a tensor function applies a function of Lorentz vectors
    (a time coordinate and [d] space coordinates) along the axis named by [dim].  [on] says
    for which axes, counted from the right, this is claimed. *)
From Coq Require Import Reals List ZArith.
From Verif Require Import RVec NdModel NdSpec StereoNdSpec.

Definition any_axis (a : nat) : Prop := True.
Definition last_axis (a : nat) : Prop := a = 0.

(** The result exists, has shape [s], and the [n] entries of its row along [a] through [ix]
    are those of [row ix]. *)
Definition makes_rows (res : option nd) (s : list nat) (a n : nat) (row : index -> vec) : Prop :=
  exists z, res = Some z /\ rsh z = s /\ forall ix, ix a < n -> read z ix = row ix (ix a).

Definition lrows1 (on : nat -> Prop) (op : nd -> Z -> option nd) (row : nat -> vec -> vec) : Prop :=
  forall x dim a d, on a -> has_rows x dim a (S d) ->
  makes_rows (op x dim) (rsh x) a (S d) (fun ix => row d (fiber x a ix)).
Definition lrows2 (on : nat -> Prop) (op : nd -> nd -> Z -> option nd) (row : nat -> vec -> vec -> vec) : Prop :=
  forall x y dim a d s, on a -> has_rows x dim a (S d) -> has_rows y dim a (S d) ->
  bshape (rsh x) (rsh y) = Some s ->
  makes_rows (op x y dim) s a (S d) (fun ix => row d (fiber x a ix) (fiber y a ix)).
Definition lrows3 (on : nat -> Prop) (op : nd -> nd -> nd -> Z -> option nd)
    (row : nat -> vec -> vec -> vec -> vec) : Prop :=
  forall x y u dim a d s1 s, on a -> has_rows x dim a (S d) -> has_rows y dim a (S d) -> has_rows u dim a (S d) ->
  bshape (rsh x) (rsh y) = Some s1 -> bshape s1 (rsh u) = Some s ->
  makes_rows (op x y u dim) s a (S d) (fun ix => row d (fiber x a ix) (fiber y a ix) (fiber u a ix)).
(** The first argument has one number for each row. *)
Definition lscaled2 (on : nat -> Prop) (op : nd -> nd -> nd -> Z -> option nd)
    (row : nat -> R -> vec -> vec -> vec) : Prop :=
  forall t x y dim a d s1 s, on a -> has_rows x dim a (S d) -> has_rows y dim a (S d) -> nth a (rsh t) 1 = 1 ->
  bshape (rsh x) (rsh y) = Some s1 -> bshape (rsh t) s1 = Some s -> axis dim (length s) = Some a ->
  makes_rows (op t x y dim) s a (S d) (fun ix => row d (read t ix) (fiber x a ix) (fiber y a ix)).
(** One number for each row. *)
Definition lnumbers1 (on : nat -> Prop) (op : nd -> bool -> Z -> option nd) (num : nat -> vec -> R) : Prop :=
  forall x keepdim dim a d, on a -> has_rows x dim a (S d) ->
  reduced (op x keepdim dim) (rsh x) keepdim a (fun p => num d (row_at x p)).
Definition lnumbers2 (on : nat -> Prop) (op : nd -> nd -> bool -> Z -> option nd) (num : nat -> vec -> vec -> R) : Prop :=
  forall x y keepdim dim a d s, on a -> has_rows x dim a (S d) -> has_rows y dim a (S d) ->
  bshape (rsh x) (rsh y) = Some s ->
  reduced (op x y keepdim dim) s keepdim a (fun p => num d (row_at x p) (row_at y p)).
(** A check of every row. *)
Definition every_row (s : list nat) (P : index -> Prop) : Prop := forall ix, inside s ix -> P ix.
