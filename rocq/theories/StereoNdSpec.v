(** Vocabulary: what it means that a tensor function applies a function of rows along the
    axis named by [dim].  Axes are counted from the right; [axis dim r = Some a] says that
    Python's [dim] (negative or not) names axis [a] of a tensor with [r] axes. *)
From Coq Require Import Reals List ZArith.
From Verif Require Import RVec NdModel NdSpec.

(** [t] has [n] entries along the axis [a] named by [dim]. *)
Definition has_rows (t : nd) (dim : Z) (a n : nat) : Prop :=
  axis dim (length (rsh t)) = Some a /\ nth_error (rsh t) a = Some n.

(** The result exists, has shape [s], and its row along [a] through [ix] is [row ix]. *)
Definition makes (res : option nd) (s : list nat) (a : nat) (row : index -> vec) : Prop :=
  exists z, res = Some z /\ rsh z = s /\ forall ix, read z ix = row ix (ix a).

(** Functions of one, two or three tensors of rows, whose batch axes broadcast. *)
Definition by_rows1 (op : nd -> Z -> option nd) (row : nat -> vec -> vec) : Prop :=
  forall x dim a n, has_rows x dim a n ->
  makes (op x dim) (rsh x) a (fun ix => row n (fiber x a ix)).
Definition by_rows2 (op : nd -> nd -> Z -> option nd) (row : nat -> vec -> vec -> vec) : Prop :=
  forall x y dim a n s, has_rows x dim a n -> has_rows y dim a n ->
  bshape (rsh x) (rsh y) = Some s ->
  makes (op x y dim) s a (fun ix => row n (fiber x a ix) (fiber y a ix)).
Definition by_rows3 (op : nd -> nd -> nd -> Z -> option nd)
    (row : nat -> vec -> vec -> vec -> vec) : Prop :=
  forall x y u dim a n s1 s, has_rows x dim a n -> has_rows y dim a n -> has_rows u dim a n ->
  bshape (rsh x) (rsh y) = Some s1 -> bshape s1 (rsh u) = Some s ->
  makes (op x y u dim) s a (fun ix => row n (fiber x a ix) (fiber y a ix) (fiber u a ix)).

(** The first argument is a tensor of numbers, one for each row: its axis [a], if it has
    one, is of size 1; it may have more axes than the tensor of rows as long as [dim]
    still names axis [a] of the result. *)
Definition by_scaled_rows1 (op : nd -> nd -> Z -> option nd) (row : nat -> R -> vec -> vec) : Prop :=
  forall t x dim a n s, has_rows x dim a n -> nth a (rsh t) 1 = 1 ->
  bshape (rsh t) (rsh x) = Some s -> axis dim (length s) = Some a ->
  makes (op t x dim) s a (fun ix => row n (read t ix) (fiber x a ix)).
Definition by_scaled_rows2 (op : nd -> nd -> nd -> Z -> option nd)
    (row : nat -> R -> vec -> vec -> vec) : Prop :=
  forall t x y dim a n s1 s, has_rows x dim a n -> has_rows y dim a n -> nth a (rsh t) 1 = 1 ->
  bshape (rsh x) (rsh y) = Some s1 -> bshape (rsh t) s1 = Some s -> axis dim (length s) = Some a ->
  makes (op t x y dim) s a (fun ix => row n (read t ix) (fiber x a ix) (fiber y a ix)).

(** Functions with one number for each row; [keepdim] says whether the axis stays. *)
Definition reduced (res : option nd) (s : list nat) (keepdim : bool) (a : nat)
    (val : (nat -> index) -> R) : Prop :=
  exists z, res = Some z /\ rsh z = red keepdim a s /\ forall ix, read z ix = val (place keepdim ix a).
Definition row_at (t : nd) (p : nat -> index) : vec := fun j => read t (p j).
Definition by_numbers1 (op : nd -> bool -> Z -> option nd) (num : nat -> vec -> R) : Prop :=
  forall x keepdim dim a n, has_rows x dim a n ->
  reduced (op x keepdim dim) (rsh x) keepdim a (fun p => num n (row_at x p)).
Definition by_numbers2 (op : nd -> nd -> bool -> Z -> option nd) (num : nat -> vec -> vec -> R) : Prop :=
  forall x y keepdim dim a n s, has_rows x dim a n -> has_rows y dim a n ->
  bshape (rsh x) (rsh y) = Some s ->
  reduced (op x y keepdim dim) s keepdim a (fun p => num n (row_at x p) (row_at y p)).

(** ** Reductions over several axes *)
(** every position obtained from [ix] by letting the coordinates on the axes [l] range over
    their sizes in the shape [s] *)
Fixpoint cells (s : list nat) (l : list nat) (ix : index) : list index :=
  match l with
  | nil => ix :: nil
  | b :: l => flat_map (fun c => map (upd c b) (seq 0 (nth b s 1))) (cells s l ix)
  end%list.
(** shapes with the axes of [l] of size 1, or removed (the highest first), and the position
    in the former that a position in the latter stands for *)
Definition flat_axes (l : list nat) (s : list nat) : list nat := fold_left (fun s b => set_axis b 1 s) l s.
Definition drop_axes (l : list nat) (s : list nat) : list nat := fold_left (fun s b => drop_axis b s) l s.
Definition insert_axes (l : list nat) (ix : index) : index := fold_right (fun b ix => ins ix b 0) ix l.
(** [ix] addresses an entry of a tensor of shape [s] *)
Definition inside (s : list nat) (ix : index) : Prop := forall b, b < length s -> ix b < nth b s 1.

(** ** weighted_midpoint *)
(** [dims] names the axes [l] of a tensor with [r] axes. *)
Definition names (r : nat) (dims : list Z) (l : list nat) : Prop :=
  Forall2 (fun d b => axis d r = Some b) dims l.
(** The weight of the row through [c]: the tensor of weights has every axis of the points
    but [a]; without weights it is 1. *)
Definition weight_at (weights : option nd) (a : nat) (c : index) : R :=
  match weights with None => 1%R | Some w => read w (del c a) end.
(** Weights whose shape, with the axis of the points inserted, broadcasts to that of [xs]. *)
Definition weights_fit (weights : option nd) (xs : nd) (dim : Z) (a : nat) : Prop :=
  match weights with
  | None => True
  | Some w => axis dim (S (length (rsh w))) = Some a /\ bshape (add_axis a 1 (rsh w)) (rsh xs) = Some (rsh xs)
  end.
(** The weighted points whose position agrees with [ix] outside the axes [l]. *)
Definition group (xs : nd) (weights : option nd) (a : nat) (l : list nat) (ix : index) : list (R * vec) :=
  map (fun c => (weight_at weights a c, fiber xs a c)) (cells (rsh xs) l ix).
(** All axes of a tensor with [r] axes, the leftmost first, but [a]. *)
Definition others (r a : nat) : list nat := filter (fun b => negb (Nat.eqb b a)) (rev (seq 0 r)).
