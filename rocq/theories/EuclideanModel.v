(** Model of geoopt/manifolds/euclidean.py on tensors with shapes (NdModel: axes are
    numbered from the right, [rsh] is the shape in that order, [None] is a raised
    exception).  [k] is the attribute ndim, the number of trailing manifold axes. *)
From Coq Require Import Reals List ZArith Bool Arith String.
From Verif Require Import RVec UtilsModel BaseModel NdModel.
Import ListNotations.
Local Open Scope nat_scope.

(** utils.broadcast_shapes on shapes listed from the right *)
Definition target (shapes : list (list nat)) : option (list nat) :=
  match broadcast_shapes (map (@rev nat) shapes) with None => None | Some s => Some (rev s) end.
(** torch's [t.expand(s)]: every axis of t has the size asked for or size 1 *)
Fixpoint expands (s t : list nat) : bool :=
  match s, t with
  | _, [] => true
  | [], _ :: _ => false
  | a :: s, b :: t => ((b =? a) || (b =? 1)) && expands s t
  end.
Definition expand (s : list nat) (t : nd) : option nd :=
  if expands s (rsh t) then Some {| rsh := s; at_ := read t |} else None.

(** [t.sum(dim=tuple(range(-k, 0)), keepdim=keepdim)]: the last k axes one after the
    other, put back with size 1 on request.  As in NdModel.sum_, fewer than k axes raise. *)
Fixpoint sum_last (k : nat) (t : nd) : option nd :=
  match k with
  | O => Some t
  | S k => let* t := sum_ (-1) false t in sum_last k t
  end.
Definition keep_axes (k : nat) (t : nd) : nd :=
  {| rsh := repeat 1 k ++ rsh t; at_ := fun ix => read t (fun a => ix (a + k)) |}.
Definition sum_dims (k : nat) (keepdim : bool) (t : nd) : option nd :=
  let* s := sum_last k t in Some (if keepdim then keep_axes k s else s).
(** [t.norm(dim=tuple(range(-k, 0)), keepdim=keepdim)]: the Frobenius norm.  Simplified:
    some torch versions refuse more than two axes. *)
Definition norm_dims (k : nat) (keepdim : bool) (t : nd) : option nd :=
  let* s := sum_dims k keepdim (lift1 (fun a => a ^ 2)%R t) in Some (lift1 sqrt s).

Section Euclidean.
  Variable k : nat.
  (** euclidean.py:41-42, 103-104 *)
  Definition retr (x u : nd) : option nd := lift2 Rplus x u.
  Definition expmap (x u : nd) : option nd := lift2 Rplus x u.
  (** 44-58 *)
  Definition inner (keepdim : bool) (x u : nd) (v : option nd) : option nd :=
    let* p := match v with None => Some (lift1 (fun a => a ^ 2)%R u) | Some v => lift2 Rmult u v end in
    if 0 <? k then
      let* i := sum_dims k keepdim p in
      let x_shape := (if keepdim then repeat 1 k else []) ++ skipn k (rsh x) in
      let* s := target [x_shape; rsh i] in
      expand s i
    else
      let* s := target [rsh x; rsh p] in
      expand s p.
  (** 60-69 *)
  Definition component_inner (x u : nd) (v : option nd) : option nd :=
    let* p := match v with None => Some (lift1 (fun a => a ^ 2)%R u) | Some v => lift2 Rmult u v end in
    let* s := target [rsh x; rsh p] in
    expand s p.
  (** 71-75 *)
  Definition norm (keepdim : bool) (x u : nd) : option nd :=
    if 0 <? k then norm_dims k keepdim u else Some (lift1 Rabs u).
  (** 77-79, 99-101 *)
  Definition proju (x u : nd) : option nd :=
    let* s := target [rsh x; rsh u] in expand s u.
  Definition egrad2rgrad (x u : nd) : option nd :=
    let* s := target [rsh x; rsh u] in expand s u.
  (** 81-82 *)
  Definition projx (x : nd) : nd := x.
  (** 84-85 *)
  Definition logmap (x y : nd) : option nd := lift2 Rminus y x.
  (** 87-91 *)
  Definition dist (keepdim : bool) (x y : nd) : option nd :=
    let* d := lift2 Rminus x y in
    if 0 <? k then norm_dims k keepdim d else Some (lift1 Rabs d).
  (** 93-97 *)
  Definition dist2 (keepdim : bool) (x y : nd) : option nd :=
    let* d := lift2 Rminus x y in
    if 0 <? k then sum_dims k keepdim (lift1 (fun a => a ^ 2)%R d) else Some (lift1 (fun a => a ^ 2)%R d).
  (** 106-108 *)
  Definition transp (x y v : nd) : option nd :=
    let* s := target [rsh x; rsh y; rsh v] in expand s v.
  (** base.py:738-791 as inherited: are there at least ndim axes *)
  Definition size_ok (size : list nat) : bool :=
    match assert_check_shape nd unit
            {| h_shape := default_check_shape k; h_point := fun _ _ => (true, None); h_vector := fun _ _ _ => (true, None) |}
            (rev size) "x"%string with
    | Returns _ => true
    | _ => false
    end.
  (** 110-139; [z] holds the standard normal draws, [mean] and [std] are tensors (a number
      is a tensor without axes); dtypes are not modelled *)
  Definition random_normal (size : list nat) (z : index -> R) (mean std : nd) : option nd :=
    if size_ok size then
      let* t := lift2 Rmult {| rsh := size; at_ := z |} std in
      lift2 Rplus t mean
    else None.
  (** 143-167 *)
  Definition origin (size : list nat) : option nd :=
    if size_ok size then Some {| rsh := size; at_ := fun _ => 0%R |} else None.
End Euclidean.
