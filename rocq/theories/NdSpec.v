(** Vocabulary for tensors with a reduction axis. *)
From Coq Require Import Reals List.
From Verif Require Import RVec NdModel.

(** The row of [t] along axis [a] (counted from the right) through index [ix]. *)
Definition fiber (t : nd) (a : nat) (ix : index) : vec := fun j => read t (upd ix a j).
(** Shape after reducing axis [a], and the input index that output index [ix]
    and coordinate [j] of the reduced axis stand for. *)
Definition red (keepdim : bool) (a : nat) (s : list nat) : list nat :=
  if keepdim then set_axis a 1 s else drop_axis a s.
Definition place (keepdim : bool) (ix : index) (a j : nat) : index :=
  if keepdim then upd ix a j else ins ix a j.
