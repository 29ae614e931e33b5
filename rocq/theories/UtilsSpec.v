(** Independent vocabulary for the claims about geoopt/utils.py. *)
From Coq Require Import List ZArith.
From Verif Require Import UtilsModel.
Import ListNotations.

(** Size of axis [j] counted from the right; missing axes have size 1. *)
Definition size_from_right (s : list nat) (j : nat) : nat := nth j (rev s) 1.

(** [r] is the numpy/torch broadcast of [shapes]: its rank is the largest rank,
    each input size is 1 or the result size, and a result size other than 1
    comes from some input. *)
Definition is_broadcast (shapes : list (list nat)) (r : list nat) : Prop :=
  (forall s, In s shapes -> length s <= length r) /\
  (r = [] \/ exists s, In s shapes /\ length s = length r) /\
  (forall j s, In s shapes ->
     size_from_right s j = 1 \/ size_from_right s j = size_from_right r j) /\
  (forall j, size_from_right r j = 1 \/
     exists s, In s shapes /\ size_from_right s j = size_from_right r j).

Definition positive_sizes (shapes : list (list nat)) : Prop :=
  forall s, In s shapes -> forall d, In d s -> 1 <= d.

(** The axis of a rank-[n] tensor an index denotes: [i] and [i - n] are the
    same axis. *)
Definition same_axis (n i j : Z) : Prop := (i = j \/ i = j + n \/ j = i + n)%Z.

(** [s] with the positions listed in [dims] deleted. *)
Definition without_axes (s : list nat) (dims : list nat) : list nat :=
  map (fun i => nth i s 0)
      (filter (fun i => negb (existsb (Nat.eqb i) dims)) (seq 0 (length s))).

Inductive ascending : list nat -> Prop :=
| asc_nil : ascending []
| asc_one : forall a, ascending [a]
| asc_cons : forall a b l, a < b -> ascending (b :: l) -> ascending (a :: b :: l).

(** A manifold object wrapped [n] times in Scaled. *)
Fixpoint wrap (cls : Type) (n : nat) (o : pyobj cls) : pyobj cls :=
  match n with 0 => o | S k => ScaledOf (wrap cls k o) end.
