(** Vocabulary for the tree dataset: nodes of the complete c-ary tree numbered in
    breadth-first order. *)
From Coq Require Import Reals List Arith ZArith.
From Verif Require Import RVec TreeModel.
Import ListNotations.

(** The parent of node i > 0 is (i-1)/c, and i is its child number (i-1) mod c. *)
Definition parent (c i : nat) : nat := (i - 1) / c.
Definition birth (c i : nat) : nat := (i - 1) mod c.
(** [path c i l]: l lists the nodes from the first level down to i; the length of l is
    the depth of i. *)
Inductive path (c : nat) : nat -> list nat -> Prop :=
| path_root : path c 0 []
| path_child i l : i <> O -> path c (parent c i) l -> path c i (l ++ [i]).
(** Number of nodes with depth below e: 1 + c + ... + c^(e-1). *)
Fixpoint nodes_above (c e : nat) : nat := match e with O => O | S e => 1 + c * nodes_above c e end.

(** The label vector of node i: the classes of the nodes on its path, then -1; the root
    is 0, then -1. *)
Definition tree_label (depth : nat) (i : nat) (l : list nat) : list Z :=
  match i with
  | O => 0%Z :: repeat (-1)%Z depth
  | _ => map Z.of_nat l ++ repeat (-1)%Z (S depth - length l)
  end.

(** What the data set of a complete tree must contain: node i is in row i of origin_data,
    its label vector has i as largest entry, its value is a geodesic step from its
    parent's value along one of the parent's directions, and observation j belongs to
    node j / siblings. *)
Definition described (dim depth c siblings : nat) (dist_children sigma_sibling : R) (geo : R -> vec -> vec -> vec)
  (draw : nat -> nat -> vec) (sample : R -> nat -> nat -> vec -> vec) (root : vec) (d : dataset) : Prop :=
  let N := nodes_above c (S depth) in
  length (origin_data d) = N /\ length (origin_labels d) = N /\ size d = (siblings * N)%nat /\ num_classes d = Z.of_nat N /\
  (forall i, (i < N)%nat -> exists l v,
     path c i l /\ (length l <= depth)%nat /\ nth_error (origin_data d) i = Some v /\
     nth_error (origin_labels d) i = Some (firstn depth (tree_label depth i l)) /\ max_of (firstn depth (tree_label depth i l)) = Z.of_nat i /\
     match i with
     | O => v = root
     | _ => exists p u, nth_error (origin_data d) (parent c i) = Some p /\
              nth_error (get_directions dim c draw (parent c i) p) (birth c i) = Some u /\ v = geo dist_children p u
     end) /\
  (forall j, (j < siblings * N)%nat -> exists l v,
     path c (j / siblings) l /\ nth_error (origin_data d) (j / siblings) = Some v /\
     get_item d j = Some (sample (sqrt sigma_sibling) (j / siblings) (j mod siblings) v, tree_label depth (j / siblings) l, Z.of_nat (j / siblings))).
