(** Vocabulary for the properties of the hyperplane layer: shapes and entries
    in torch's own order. *)
From Coq Require Import Reals List.
From Verif Require Import NdModel.
Import ListNotations.

(** [t.shape] and [t[i0, i1, ...]]. *)
Definition shape (t : nd) : list nat := rev (rsh t).
Definition entry (t : nd) (idx : list nat) : R := read t (fun a => nth a (rev idx) 0).
(** Every coordinate is below the size of its axis. *)
Definition in_range (idx sizes : list nat) : Prop := Forall2 lt idx sizes.

(** What the options [signed] and [squared] make of a distance [d] (already
    signed or not as requested): unchanged; or a value of magnitude d squared,
    which never has the sign opposite to d when signed, and is nonnegative
    otherwise. *)
Definition reports (signed squared : bool) (d v : R) : Prop :=
  if squared then Rabs v = (d ^ 2)%R /\ (if signed then 0 <= v * d else 0 <= v)%R
  else v = d.
