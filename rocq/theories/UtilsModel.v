(** Model of geoopt/utils.py (shape, axis and tuple helpers).
    Tensors are represented by their shapes only: every function here is
    independent of the tensor data. *)
From Coq Require Import List ZArith Lia Bool.
Import ListNotations.

(** ** broadcast_shapes, geoopt/utils.py:123-134 *)

(** [itertools.zip_longest( *rows, fillvalue=1)], utils.py:126: column [i] holds
    the i-th entry of every row, 1 where a row is exhausted; as many columns as
    the longest row has entries. *)
Definition zip_longest (rows : list (list nat)) : list (list nat) :=
  map (fun i => map (fun r => nth i r 1) rows)
      (seq 0 (list_max (map (@length nat) rows))).

(** Inner loop, utils.py:127-132; [None] is the ValueError of line 130. *)
Fixpoint bcast_dims (dim : nat) (dims : list nat) : option nat :=
  match dims with
  | [] => Some dim
  | d :: rest =>
      if negb (dim =? 1) && negb (d =? 1) && negb (d =? dim) then None
      else if dim <? d then bcast_dims d rest
      else bcast_dims dim rest
  end.

(** Outer loop, utils.py:125-133: append one result per column. *)
Fixpoint bcast_columns (cols : list (list nat)) : option (list nat) :=
  match cols with
  | [] => Some []
  | c :: rest =>
      match bcast_dims 1 c with
      | None => None
      | Some d => match bcast_columns rest with
                  | None => None
                  | Some ds => Some (d :: ds)
                  end
      end
  end.

(** utils.py:123-134. *)
Definition broadcast_shapes (shapes : list (list nat)) : option (list nat) :=
  match bcast_columns (zip_longest (map (@rev nat) shapes)) with
  | None => None
  | Some ds => Some (rev ds)
  end.

(** ** Axis indices *)

(** idx2sign, utils.py:66-90.  Python's [%] is floor modulo, which is
    [Z.modulo], also for a negative divisor; TorchScript integer [%] follows
    Python. Division by zero ([dim = 0] with neg=False) is [None]. *)
Definition idx2sign (idx dim : Z) (neg : bool) : option Z :=
  if neg then
    if (idx <? 0)%Z then Some idx
    else if (- (dim + 1) =? 0)%Z then None
         else Some ((idx + 1) mod (- (dim + 1)))%Z
  else if (dim =? 0)%Z then None else Some (idx mod dim)%Z.

(** canonical_dims, utils.py:111-116. *)
Fixpoint canonical_dims (dims : list Z) (maxdim : Z) : option (list Z) :=
  match dims with
  | [] => Some []
  | i :: rest =>
      match idx2sign i maxdim false, canonical_dims rest maxdim with
      | Some j, Some js => Some (j :: js)
      | _, _ => None
      end
  end.

(** list_range, utils.py:103-108. *)
Definition list_range (n : nat) : list Z := map Z.of_nat (seq 0 n).

(** [torch.Tensor.squeeze(d)] on shapes: negative axes wrap once, an axis out
    of range raises ([None]), an axis whose size is not 1 is left alone.
    A 0-dimensional tensor accepts -1 and 0 and is unchanged. *)
Definition remove_nth (i : nat) (s : list nat) : list nat :=
  firstn i s ++ skipn (S i) s.

Definition squeeze (s : list nat) (d : Z) : option (list nat) :=
  let r := Z.of_nat (length s) in
  match s with
  | [] => if ((d =? 0) || (d =? -1))%Z then Some [] else None
  | _ =>
      if ((- r <=? d) && (d <? r))%Z then
        let i := Z.to_nat (if (d <? 0)%Z then d + r else d)%Z in
        Some (if nth i s 0 =? 1 then remove_nth i s else s)
      else None
  end.

(** drop_dims, utils.py:93-100: [seen] counts the axes squeezed so far. *)
Fixpoint drop_dims_from (seen : Z) (s : list nat) (dims : list Z)
  : option (list nat) :=
  match dims with
  | [] => Some s
  | d :: rest =>
      match squeeze s (d - seen)%Z with
      | None => None
      | Some s' => drop_dims_from (seen + 1) s' rest
      end
  end.

Definition drop_dims (s : list nat) (dims : list Z) : option (list nat) :=
  drop_dims_from 0 s dims.

(** ** Tuples and sizes *)

(** The Python values that reach [size2shape]: integers, tuples, lists. *)
Inductive pyval : Type :=
| PInt (z : Z)
| PTuple (l : list pyval)
| PList (l : list pyval).

(** strip_tuple, utils.py:30-34; the argument is a tuple given by its items. *)
Definition strip_tuple (tup : list pyval) : pyval :=
  match tup with
  | [x] => x
  | _ => PTuple tup
  end.

(** make_tuple, utils.py:37-43; the result is a tuple given by its items. *)
Definition make_tuple (obj : pyval) : list pyval :=
  match obj with
  | PList l => l
  | PTuple l => l
  | PInt _ => [obj]
  end.

(** size2shape, utils.py:119-120; [size] is the tuple of positional arguments. *)
Definition size2shape (size : list pyval) : list pyval :=
  make_tuple (strip_tuple size).

(** prod, utils.py:46-47. *)
Definition prod (items : list nat) : nat := fold_left Nat.mul items 1.

(** ** Manifold objects behind Scaled proxies *)

Section Classes.
  (** Python classes with [issubclass]; [Manifold] and [Scaled] are the two
      classes named in the code. *)
  Variable cls : Type.
  Variable subclass : cls -> cls -> bool.
  Variables cManifold cScaled : cls.

  (** A Python object: a Scaled instance holding [base] (scaled.py:79), or an
      instance of any other class. Objects are finite, no reference cycles. *)
  Inductive pyobj : Type :=
  | Inst (c : cls)
  | ScaledOf (base : pyobj).

  Definition class_of (o : pyobj) : cls :=
    match o with Inst c => c | ScaledOf _ => cScaled end.

  Definition isinstance (o : pyobj) (c : cls) : bool := subclass (class_of o) c.

  (** canonical_manifold, utils.py:164-181 (the while loop of lines 179-180 is
      recursion on the nesting of [base]). *)
  Fixpoint canonical_manifold (o : pyobj) : pyobj :=
    match o with
    | ScaledOf b => canonical_manifold b
    | Inst c => Inst c
    end.

  (** ismanifold, utils.py:137-161; [None] is the TypeError of line 154. *)
  Definition ismanifold (o : pyobj) (c : cls) : option bool :=
    if negb (subclass c cManifold) then None
    else if negb (isinstance o cManifold) then Some false
         else Some (isinstance (canonical_manifold o) c).
End Classes.
Arguments Inst {cls}.
Arguments ScaledOf {cls}.
