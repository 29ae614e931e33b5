(** Properties of StereographicTreeDataset.  Meanings: TreeSpec. *)
From Coq Require Import Reals List Bool Arith ZArith.
From Verif Require Import RVec TreeModel TreeSpec TreeProofs TreeProofs2.
Import ListNotations.
Local Open Scope R_scope.

(** * C67 *)
(** The queue loop ends after one round per node, for every tree. *)
Theorem C67_tree : forall dim depth c siblings dist_children sigma_sibling geo draw sample root fuel,
  (2 <= c)%nat -> (1 <= depth)%nat -> (1 <= siblings)%nat -> (nodes_above c (S depth) < fuel)%nat ->
  exists d, construct dim depth c siblings dist_children sigma_sibling geo draw sample root fuel = Some (TOk d) /\
    described dim depth c siblings dist_children sigma_sibling geo draw sample root d.
Proof. exact (built). Qed.
Print Assumptions C67_tree.

Theorem C67_count : forall c e, (Z.of_nat (nodes_above c e) * (Z.of_nat c - 1) = Z.of_nat c ^ Z.of_nat e - 1)%Z.
Proof. exact (nodes_above_closed). Qed.
Print Assumptions C67_count.

(** Every node has exactly one path, and the nodes listed are those of depth at most depth. *)
Theorem C67_whole : forall c i, (1 <= c)%nat ->
  exists l, path c i l /\ (forall l', path c i l' -> l' = l) /\ forall depth, (length l <= depth)%nat <-> (i < nodes_above c (S depth))%nat.
Proof. exact (whole). Qed.
Print Assumptions C67_whole.

Example C67_case : path 2 5 [2; 5]%nat /\ tree_label 3 5 [2; 5]%nat = [2; 5; -1; -1]%Z /\ nodes_above 2 4 = 15%nat.
Proof. exact (path_case). Qed.

(** One child per node: ZeroDivisionError at every depth. *)
Theorem C67_chain_refuted : forall dim depth c siblings dist_children sigma_sibling geo draw sample root fuel,
  c = 1%nat -> (nodes_above c (S depth) < fuel)%nat ->
  construct dim depth c siblings dist_children sigma_sibling geo draw sample root fuel = Some (TRaise TZeroDivisionError).
Proof. exact (chain_raises). Qed.
Print Assumptions C67_chain_refuted.

(** Depth 0 (only the root) or no siblings: RuntimeError. *)
Theorem C67_unusable : forall dim depth c siblings dist_children sigma_sibling geo draw sample root fuel,
  (2 <= c)%nat -> (depth = 0 \/ siblings = 0)%nat -> (nodes_above c (S depth) < fuel)%nat ->
  construct dim depth c siblings dist_children sigma_sibling geo draw sample root fuel = Some (TRaise TRuntimeError).
Proof. exact (unusable). Qed.
Print Assumptions C67_unusable.

(** Children leave orthogonally to the line from the origin to their parent. *)
Theorem C67_directions : forall dim c draw n v u, / 10 ^ 15 <= nrm dim v -> In u (get_directions dim c draw n v) -> dot dim v u = 0.
Proof. exact (directions_orth). Qed.
Print Assumptions C67_directions.

Theorem C67_directions_root : forall dim c draw n, (dim =? 2)%nat && (c =? 2)%nat = false -> get_directions dim c draw n vzero = map (draw n) (seq 0 c).
Proof. exact (directions_root). Qed.
Print Assumptions C67_directions_root.

Theorem C67_directions_two : forall draw n v, exists d, get_directions 2 2 draw n v = [d; vopp d].
Proof. exact (directions_two). Qed.
Print Assumptions C67_directions_two.

