(** A run on positive numbers: 1x1 symmetric positive definite matrices. *)
From Coq Require Import Reals List Bool Arith Lra Lia FunctionalExtensionality.
From Verif Require Import RVec LineSearchModel LineSearchSpec LineSearchCgSpec LineSearchProofs LineSearchProofs2 LineSearchProofs3
  LineSearchProofs4 LineSearchProofs5 LineSearchInstances LineSearchCg.
Import ListNotations.
Local Open Scope R_scope.

(** manifolds/symmetric_positive_definite.py:162-163 (egrad2rgrad), 235-237 (inner),
    239-241 (retr), 254-263 (transp), for 1x1 matrices, where they are x g x, u v / x^2,
    x + u + u^2 / (2 x) and v y / x; the projections do nothing. *)
Definition spd1 : lmanifold :=
  let retr (x u : vec) : vec := fun _ => x O + u O + / 2 * (u O * / x O * u O) in
  let transp (x y v : vec) : vec := fun _ => v O * (y O * / x O) in
  {| l_egrad := fun x g _ => x O * g O * x O; l_inner := fun x u v => / x O * u O * / x O * v O;
     l_retr := retr; l_retr_transp := fun x u v => (retr x u, transp x (retr x u) v);
     l_transp_follow := fun x u v => transp x (retr x u) v; l_projx := fun x => x; l_proju := fun x u => u |}.
Definition linear (xs : list vec) : R * list (option vec) :=
  (fold_right (fun x s => x O + s) 0 xs, map (fun x => Some (const 1)) xs).
Definition positive : lopt := new_opt [new_param (Some spd1) (const 1) true].
(** tries the unit step and takes it *)
Definition unit_step : method := fun _ _ _ _ _ => AskPhi 1 (fun _ => Answer (Some 1)).
Lemma linear_total : all_gradients linear.
Proof.
  intros vs. unfold linear. cbn [snd]. split; [apply map_length|].
  apply Forall_forall. intros g Hg. apply in_map_iff in Hg. destruct Hg as (x & <- & _). discriminate.
Qed.
Lemma unit_step_ends phi0 s a b c : ends_on (fun _ _ => True) [] None (unit_step phi0 s a b c).
Proof. constructor; [easy|]. intros v. now constructor. Qed.
Definition one_step (meth : method) := step dot1 linear false false true (cg_fletcher_reeves dot1) 1 None meth false false false.
(** the optimizer after the first step *)
Definition halfway : lopt :=
  {| ps := [{| l_man := Some spd1; l_val := const (1 / 2); l_grad := Some (const 1); l_requires := true;
               s_dir := Some (const (0 - 1)); s_transported := Some (const (0 - 1 / 2)); s_new_grad := None; s_derphi := None;
               s_new_point := Some (const (1 / 2)); s_grad := Some (const 1); s_prev_grad := None; s_prev_norm2 := None;
               s_grad_transported := None |}];
     dict := [(1, 1 / 2)]; last_try := Some 1; fresh_grads := false; prev_loss := Some (1 / 2); old_phi0 := Some 1;
     old_derphi0 := Some (0 - 1); last_size := Some 1; history := [Some 1]; count := 1; calls := [[const 1]; [const (1 / 2)]] |}.
Ltac same_vec := first [reflexivity | lra | solve [unfold const; extensionality i; lra] | progress f_equal; same_vec].
Lemma positive_first : one_step unit_step positive = (LOk (Some (1 / 2)), halfway).
Proof.
  unfold one_step. eassert (E : _ = (LOk _, _)); [|rewrite E; clear E].
  - unfold unit_step, step. do 4 bstep; same_step; cbn [negb orb andb]; do 2 bstep; solve_run.
  - run. unfold halfway. same_vec.
Qed.
Ltac decide_le ::=
  match goal with
  | |- context [Req_EM_T (if Req_EM_T ?a ?b then _ else ?n / ?d) 0] =>
      destruct (Req_EM_T a b); [exfalso; lra|];
      let E := fresh in assert (E : d = 4) by lra;
      let N := fresh in assert (N : n / d = 1 / 16) by (rewrite E; lra); rewrite ?N;
      destruct (Req_EM_T (1 / 16) 0); [exfalso; lra|]; clear E N
  | |- context [Rle_dec ?a ?b] => let L := fresh in destruct (Rle_dec a b) as [L|L]; try (exfalso; lra)
  | |- context [Req_EM_T ?a ?b] => let L := fresh in destruct (Req_EM_T a b) as [L|L]; try (exfalso; lra); try (exfalso; apply L; lra)
  end.
Lemma positive_second : exists r o2, one_step unit_step halfway = (LOk r, o2) /\
  exists d, map s_dir (ps o2) = [Some d] /\ d O = 0 - 9 / 32.
Proof.
  eexists _, _. split.
  - unfold one_step, unit_step, step. do 4 bstep; same_step; cbn [negb orb andb]; do 2 bstep; solve_run.
  - eexists. split; [reflexivity|]. run. lra.
Qed.
Lemma positive_scale : exists r o2, one_step unit_step halfway = (LOk r, o2) /\
  forall beta, is_ratio beta (norm2 (observed dot1 halfway o2)) (norm2 (observed dot1 positive halfway)) ->
    ~ follows beta 1 (observed dot1 positive halfway) (observed dot1 halfway o2).
Proof.
  eexists _, _. split.
  - unfold one_step, unit_step, step. do 4 bstep; same_step; cbn [negb orb andb]; do 2 bstep; solve_run.
  - intros beta [B _] [F _].
    match type of B with ?p <> 0 -> _ * _ = ?c =>
      assert (P : p = 1) by (run; lra); assert (C : c = 1 / 4) by (run; lra) end.
    rewrite P, C in B. assert (E : beta = 1 / 4) by (specialize (B ltac:(lra)); lra). subst beta.
    match type of F with ?s < 0 -> _ => assert (S : s < 0) by (run; lra) end.
    apply F in S. apply (f_equal (fun l => match l with v :: _ => v O | [] => 0 end)) in S. revert S. run. lra.
Qed.
Lemma positive_case : all_gradients linear /\ (forall phi0 s a b c, ends_on (fun _ _ => True) [] None (unit_step phi0 s a b c)) /\
  Forall (fun p => l_requires p = true) (ps positive) /\ one_step unit_step positive = (LOk (Some (1 / 2)), halfway) /\
  exists r o2, one_step unit_step halfway = (LOk r, o2).
Proof.
  split; [exact linear_total|]. split; [exact unit_step_ends|]. split; [repeat constructor|]. split; [exact positive_first|].
  destruct positive_scale as (r & o2 & H & _). eauto.
Qed.
Lemma euclidean_uniform : uniform (l_euclidean dot1).
Proof. intros x y u v. reflexivity. Qed.
