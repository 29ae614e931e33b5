(** Vocabulary for the product properties. *)
From Coq Require Import List Arith Reals.
From Verif Require Import BaseModel ProductModel.
Import ListNotations.

(** A tensor has as many entries as its shape says. *)
Definition wf {A} (t : tensor A) : Prop := List.length (t_data t) = fold_right Nat.mul 1 (t_shape t).
(** A tensor of the given shape. *)
Definition has_shape {A} (t : tensor A) (s : list nat) : Prop := t_shape t = s /\ wf t.
(** One tensor per component, the i-th of shape batch ++ shape_i. *)
Definition parts_of {A} (batch : list nat) (shapes : list (list nat)) (parts : list (tensor A)) : Prop :=
  Forall2 (fun t s => has_shape t (batch ++ s)) parts shapes.
(** No empty batch: some entry exists per component row. *)
Definition nonempty (batch : list nat) : Prop := ~ In 0 batch.
(** Entries of batch element [b] of a tensor whose trailing dimensions hold [w]
    entries. *)
Definition entries {A} (w b : nat) (t : tensor A) : list A := firstn w (skipn (b * w) (t_data t)).
Definition total (l : list R) : R := fold_right Rplus 0%R l.
(** Does the trailing part of a shape agree? *)
Definition ends_with (s tail : list nat) : Prop := exists front, s = front ++ tail.
