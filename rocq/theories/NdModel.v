(** Tensors with values and shapes: the torch operations (broadcasting,
    reductions over [dim], unsqueeze, permute, view) that
    geoopt/manifolds/stereographic/math.py and geoopt/layers/stereographic.py
    apply, and the two functions of math.py the layer calls.

    Axes are numbered from the right (axis 0 is the last one), because torch
    aligns shapes at the right and the code passes negative [dim]; [rsh] is
    the shape listed in that order.  An index assigns a coordinate to each
    axis.  [None] is a raised RuntimeError/IndexError. *)
From Coq Require Import Reals List ZArith Lia Bool Arith.
From Verif Require Import RVec StereoModel.
Import ListNotations.

Definition index := nat -> nat.
Record nd := { rsh : list nat; at_ : index -> R }.

(** Reading with broadcasting: an axis of size 1 (or a missing one) is read at
    coordinate 0. *)
Definition norm_index (s : list nat) (ix : index) : index :=
  fun a => if nth a s 1 =? 1 then 0 else ix a.
Definition read (t : nd) (ix : index) : R := at_ t (norm_index (rsh t) ix).

(** torch's shape of a binary pointwise operation. *)
Definition bdim (a b : nat) : option nat :=
  if a =? b then Some a else if a =? 1 then Some b else if b =? 1 then Some a else None.
Fixpoint bshape (s1 s2 : list nat) : option (list nat) :=
  match s1, s2 with
  | [], s => Some s
  | s, [] => Some s
  | a :: s1, b :: s2 =>
      match bdim a b, bshape s1 s2 with
      | Some d, Some r => Some (d :: r)
      | _, _ => None
      end
  end.

(** Pointwise operations. *)
Definition lift1 (f : R -> R) (t : nd) : nd :=
  {| rsh := rsh t; at_ := fun ix => f (read t ix) |}.
Definition lift2 (f : R -> R -> R) (x y : nd) : option nd :=
  match bshape (rsh x) (rsh y) with
  | None => None
  | Some s => Some {| rsh := s; at_ := fun ix => f (read x ix) (read y ix) |}
  end.

(** Axis (from the right) named by a Python [dim] for a tensor of rank [r]. *)
Definition axis (dim : Z) (r : nat) : option nat :=
  (if (- Z.of_nat r <=? dim) && (dim <? Z.of_nat r)
   then Some (Z.to_nat (if dim <? 0 then - dim - 1 else Z.of_nat r - 1 - dim))
   else None)%Z.

(** Index surgery: overwrite, insert or delete the coordinate of one axis. *)
Definition upd (ix : index) (a j : nat) : index := fun b => if b =? a then j else ix b.
Definition ins (ix : index) (a j : nat) : index :=
  fun b => if b <? a then ix b else if b =? a then j else ix (b - 1).
Definition del (ix : index) (a : nat) : index := fun b => if b <? a then ix b else ix (S b).
Definition set_axis (a d : nat) (s : list nat) : list nat := firstn a s ++ d :: skipn (S a) s.
Definition drop_axis (a : nat) (s : list nat) : list nat := firstn a s ++ skipn (S a) s.
Definition add_axis (a d : nat) (s : list nat) : list nat := firstn a s ++ d :: skipn a s.

(** [t.sum(dim=dim, keepdim=keepdim)]. Simplified: torch also accepts
    dim = -1 and 0 for a 0-dimensional tensor; here that is [None]. *)
Definition sum_ (dim : Z) (keepdim : bool) (t : nd) : option nd :=
  match axis dim (length (rsh t)) with
  | None => None
  | Some a =>
      let n := nth a (rsh t) 0 in
      Some (if keepdim
            then {| rsh := set_axis a 1 (rsh t);
                    at_ := fun ix => Rsum n (fun j => read t (upd ix a j)) |}
            else {| rsh := drop_axis a (rsh t);
                    at_ := fun ix => Rsum n (fun j => read t (ins ix a j)) |})
  end.

(** [t.norm(dim=dim, keepdim=keepdim, p=2)]. *)
Definition norm_ (dim : Z) (keepdim : bool) (t : nd) : option nd :=
  match sum_ dim keepdim (lift1 (fun v => (v * v)%R) t) with
  | None => None
  | Some s => Some (lift1 sqrt s)
  end.

(** [t.unsqueeze(dim)]: the new axis is counted in the result. *)
Definition unsqueeze (dim : Z) (t : nd) : option nd :=
  match axis dim (S (length (rsh t))) with
  | None => None
  | Some a => Some {| rsh := add_axis a 1 (rsh t); at_ := fun ix => read t (del ix a) |}
  end.

(** [t.permute(1, 0)]: two axes exactly. *)
Definition permute10 (t : nd) : option nd :=
  match rsh t with
  | [c; r] => Some {| rsh := [r; c];
                      at_ := fun ix => read t (fun a => match a with 0 => ix 1 | 1 => ix 0 | _ => ix a end) |}
  | _ => None
  end.

(** [t.view(shape)]: same elements in row-major order. Simplified: torch also
    raises when the strides do not allow a view; appending axes of size 1, the
    only use here, always does. *)
Fixpoint ravel (s : list nat) (a : nat) (ix : index) : nat :=
  match s with
  | [] => 0
  | d :: s => ix a + d * ravel s (S a) ix
  end.
Definition numel (s : list nat) : nat := fold_right Nat.mul 1 s.
Definition unravel (s : list nat) (f : nat) : index :=
  fun a => (f / numel (firstn a s)) mod (nth a s 1).
Definition view_ (s : list nat) (t : nd) : option nd :=
  if numel s =? numel (rsh t)
  then Some {| rsh := s; at_ := fun ix => read t (unravel (rsh t) (ravel s 0 ix)) |}
  else None.

Notation "'let*' x ':=' e 'in' f" :=
  (match e with None => None | Some x => f end) (at level 200, x name, e at level 100).

Section Stereo.
  Variable e : R.                    (* the eps of sabs, see StereoModel *)
  Local Open Scope R_scope.

  (** math.py:502-521 _mobius_add, line by line; the curvature is a
      0-dimensional tensor, scalar arithmetic between two reductions is fused. *)
  Definition mobius_add_nd (k : R) (x y : nd) (dim : Z) : option nd :=
    let* x2 := sum_ dim true (lift1 (fun v => v ^ 2) x) in
    let* y2 := sum_ dim true (lift1 (fun v => v ^ 2) y) in
    let* prod := lift2 Rmult x y in
    let* xy := sum_ dim true prod in
    let* c := lift2 (fun xy y2 => 1 - 2 * k * xy - k * y2) xy y2 in
    let* n1 := lift2 Rmult c x in
    let* n2 := lift2 Rmult (lift1 (fun x2 => 1 + k * x2) x2) y in
    let* num := lift2 Rplus n1 n2 in
    let* q := lift2 (fun x2 y2 => k ^ 2 * x2 * y2) x2 y2 in
    let* denom := lift2 (fun xy q => 1 - 2 * k * xy + q) xy q in
    lift2 (fun a b => a / clamp_min e15 b) num denom.

  (** math.py:1560-1582 _dist2plane (argument order x, a, p), k 0-dimensional. *)
  Definition dist2plane_nd (k : R) (x a p : nd) (keepdim signed scaled : bool) (dim : Z)
      : option nd :=
    let* diff := mobius_add_nd k (lift1 Ropp p) x dim in
    let* s := sum_ dim keepdim (lift1 (fun v => v ^ 2) diff) in
    let diff_norm2 := lift1 (clamp_min e15) s in
    let* da := lift2 Rmult diff a in
    let* sc := sum_ dim keepdim da in
    let sc_diff_a := if signed then sc else lift1 Rabs sc in
    let* a_norm := norm_ dim keepdim a in
    let num := lift1 (fun v => 2 * v) sc_diff_a in
    let* d := lift2 Rmult (lift1 (fun v => 1 + k * v) diff_norm2) a_norm in
    let denom := lift1 (clamp_abs e15) d in
    let* q := lift2 Rdiv num denom in
    let distance := lift1 (fun v => arsin_k e v k) q in
    if scaled then lift2 Rmult distance a_norm else Some distance.
End Stereo.
