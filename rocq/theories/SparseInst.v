(** Concrete cases for the sparse optimizers. *)
From Coq Require Import Reals List Bool Arith Lra.
From Verif Require Import RVec OptimModel OptimSpec OptimInstances SparseModel SparseSpec SparseProofs SparseProofs2.
From Verif Require SphereModel SphereSpec.
Import ListNotations.
Local Open Scope R_scope.

(** An embedding table whose rows are unit vectors; row 3 is named twice. *)
Definition table : sadam_param := {| s_man := Some (sphere 2); s_val := fun _ => north; s_grad := SSparse [(3%nat, east); (3%nat, north)]; s_state := None |}.
Definition table_opt : list sadam_group := [{| sa_hyp := {| a_lr := 1; beta1 := 9 / 10; beta2 := 99 / 100; eps := 1 / 100; a_decay := 0; amsgrad := true; a_stabilize := Some 2%nat |}; sa_params := [table] |}].
Lemma table_case : let on (_ : manifold) := SphereSpec.on_sphere 2 None in let tan (_ : manifold) := SphereSpec.tangent 2 None in
  let law (p : sadam_param) := lawful (s_manifold p) (on (s_manifold p)) (tan (s_manifold p)) /\
    blocked (s_manifold p) (on (s_manifold p)) (tan (s_manifold p)) (fun _ _ => True) in
  sadam_all (fun _ p => law p /\ rows_on on p /\ s_state p = None) table_opt /\
  sadam_history (fun p => law p /\ rows_on on p) (sadam_all (fun h _ => 0 <= beta1 h < 1 /\ 0 <= beta2 h < 1 /\ 0 < eps h)) table_opt (fst (sadam_step table_opt)).
Proof.
  cbv zeta. split.
  - intros g p [<-|[]] [<-|[]]. split; [split; [apply sphere_lawful|apply sphere_blocked]|]. split; [intros r; apply north_on|reflexivity].
  - eapply h_step; [apply h_start|]. intros g p [<-|[]] [<-|[]]. cbn. lra.
Qed.
(** A table whose rows have drifted to length 2. *)
Definition drift : ssgd_param := {| s_man := Some (sphere 2); s_val := fun _ => smul 2 north; s_grad := SSparse []; s_state := Some (fun _ => north) |}.
Lemma drift_case : s_man drift = Some (sphere 2) /\ Forall (fun p => s_grad p <> SDense) [drift] /\ s_val (ssgd_stabilize h_on drift) 5%nat 0%nat = 1.
Proof.
  split; [reflexivity|]. split; [repeat constructor; discriminate|].
  rewrite (proj1 (sstabilized h_on drift (sphere 2) eq_refl 5%nat)). cbn [projx sphere s_val drift].
  unfold SphereModel.projx, SphereModel.project_on_subspace. cbv beta zeta iota. unfold vdiv, nrm.
  replace (dot 2 (smul 2 north) (smul 2 north)) with (2 * 2) by (unfold dot, smul, north; cbn; ring).
  rewrite sqrt_square by lra. unfold smul, north. field.
Qed.
