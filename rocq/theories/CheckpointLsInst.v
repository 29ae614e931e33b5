(** A run: f(x) = x from 0 with Armijo backtracking, interrupted after the first step. *)
From Coq Require Import Reals List Lra.
From Verif Require Import RVec LineSearchModel LineSearchSpec LineSearchProofs LineSearchProofs2 LineSearchProofs3 LineSearchProofs4 LineSearchProofs5 LineSearchInstances CheckpointLsModel.
Import ListNotations.
Local Open Scope R_scope.

Definition linear (xs : list vec) : R * list (option vec) :=
  (fold_right (fun x s => x 0%nat + s) 0 xs, map (fun x => Some (const 1)) xs).
(** scipy's scalar_search_armijo evaluates alpha0 and returns it if the Armijo condition
    holds there; [rest] is what it does otherwise. *)
Definition armijo_first (rest : R -> R -> R -> R -> R -> R -> asks) : R -> R -> R -> R -> R -> asks :=
  fun phi0 derphi0 c1 alpha0 amin => AskPhi alpha0 (fun v =>
    if Rle_dec v (phi0 + c1 * alpha0 * derphi0) then Answer (Some alpha0) else rest phi0 derphi0 c1 alpha0 amin v).
Definition search rest : M (option R) :=
  step dot1 linear false false false (cg_constant 0) 1 None (armijo_backtracking (armijo_first rest) (1 / 10000) 0 None) true false false.
Definition at_zero : lopt := new_opt [new_param None (const 0) true].

Ltac known := repeat match goal with |- context [?x / ?d] => progress (replace (x / d) with (202 / 100) by (field; lra)) end.
Ltac dec1 :=
  match goal with
  | |- context [Req_EM_T ?a ?b] => let L := fresh in destruct (Req_EM_T a b) as [L|L]; [solve [exfalso; lra]|]
  | |- context [Req_EM_T ?a ?b] => let L := fresh in destruct (Req_EM_T a b) as [L|L]; [|solve [exfalso; apply L; lra]]
  | |- context [Rle_dec ?a ?b] => let L := fresh in destruct (Rle_dec a b) as [L|L]; [solve [exfalso; lra]|]
  | |- context [Rle_dec ?a ?b] => let L := fresh in destruct (Rle_dec a b) as [L|L]; [|solve [exfalso; lra]]
  end; known.
Ltac solve2 := run; known; repeat dec1; reflexivity.
Ltac bstep2 := erewrite bind_of; [|solve [solve2]]; cbv beta iota.
Ltac same2 :=
  match goal with
  | |- context [opt_eqb ?x ?y] =>
      let E := fresh in
      first [assert (E : opt_eqb x y = true) by solve2 | assert (E : opt_eqb x y = false) by solve2]; rewrite !E; clear E
  end.
Ltac run2 := unfold step, armijo_backtracking, armijo_first; do 4 bstep2; same2; cbn [negb orb andb]; do 2 bstep2; solve2.
Lemma interrupted rest : exists r1 o1 r2 o2 r3 o3,
  search rest at_zero = (LOk r1, o1) /\ search rest o1 = (LOk r2, o2) /\ search rest (reload o1) = (LOk r3, o3) /\
  map (fun p => l_val p 0%nat) (ps o1) = [-1] /\ map (fun p => l_val p 0%nat) (ps o2) = [- 302 / 100] /\ map (fun p => l_val p 0%nat) (ps o3) = [-2].
Proof.
  unfold search, at_zero.
  eexists _, _, _, _, _, _. split; [run2|]. 
  split; [run2|].
  split; [run2|].
  run. repeat split; f_equal; lra.
Qed.
