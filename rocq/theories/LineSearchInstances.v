(** Concrete runs: minimising x^2 over one Euclidean number. *)
From Coq Require Import Reals List Bool Arith Lra Lia.
From Verif Require Import RVec LineSearchModel LineSearchSpec LineSearchProofs LineSearchProofs2 LineSearchProofs3 LineSearchProofs4 LineSearchProofs5.
Import ListNotations.
Local Open Scope R_scope.

Definition dot1 (u v : vec) : R := u 0%nat * v 0%nat.
Definition square (xs : list vec) : R * list (option vec) :=
  (fold_right (fun x s => x 0%nat * x 0%nat + s) 0 xs, map (fun x => Some (smul 2 x)) xs).
Definition const (a : R) : vec := fun _ => a.
Definition start : lopt := new_opt [new_param None (const 1) true].
(** the same parameter with search direction d *)
Definition aimed (x d : R) : lopt := new_opt [set_dir (const d) (new_param None (const x) true)].

Lemma square_total : all_gradients square.
Proof.
  intros vs. unfold square. cbn [snd]. split; [apply map_length|].
  apply Forall_forall. intros g Hg. apply in_map_iff in Hg. destruct Hg as (x & <- & _). discriminate.
Qed.
Lemma dot1_definite : definite (l_euclidean dot1).
Proof. intros x u. cbn. unfold dot1, vopp. split; [nra|ring]. Qed.
Lemma aimed_agrees x d : Forall (agrees dot1) (ps (aimed x d)).
Proof. constructor; [|constructor]. intros d' Hd a. cbn. repeat split. Qed.
Lemma aimed_directed x d : directed (ps (aimed x d)).
Proof. constructor; [discriminate|constructor]. Qed.

(** A method that tries one step and keeps it if the loss decreases enough. *)
Definition try_once (a : R) : method := fun phi0 s _ _ _ =>
  match phi0 with
  | None => Answer None
  | Some f => AskPhi a (fun v => if Rle_dec v (f + 1 / 10000 * a * s) then Answer (Some a) else Answer None)
  end.
Lemma try_once_sufficient a : 0 <= a -> forall phi0 s b c d, ends_on (sufficient (1 / 10000) phi0 s) [] None (try_once a phi0 s b c d).
Proof.
  intros Ha phi0 s b c d. unfold try_once. destruct phi0 as [f|]; [|constructor].
  constructor; [easy|]. intros v. destruct (Rle_dec _ _); constructor. split; auto.
Qed.
Lemma try_once_evaluates a : evaluates (try_once a).
Proof. discriminate. Qed.
(** A method that never finds a step. *)
Definition try_fail : method := fun _ _ _ _ _ => AskPhi 1 (fun _ => Answer None).
(** A method that answers a constant without trying it. *)
Definition fixed (a : R) : method := fun _ _ _ _ _ => Answer (Some a).

Ltac decide_le :=
  match goal with
  | |- context [Req_EM_T (if Req_EM_T ?a ?b then _ else ?c) 0] =>
      destruct (Req_EM_T a b); [exfalso; lra|]; destruct (Req_EM_T c 0); [exfalso; assert (c = 1) by (field; lra); lra|]
  | |- context [Rle_dec ?a ?b] => let L := fresh in destruct (Rle_dec a b) as [L|L]; try (exfalso; lra)
  | |- context [Req_EM_T ?a ?b] => let L := fresh in destruct (Req_EM_T a b) as [L|L]; try (exfalso; lra); try (exfalso; apply L; lra)
  end.
Ltac run := cbv -[Rplus Rmult Ropp Rinv Rminus Rdiv Rle_dec Req_EM_T IZR Rmin Rle Rlt].

Ltac solve_run := run; repeat decide_le; reflexivity.
Ltac bstep := erewrite bind_of; [|solve [solve_run]]; cbv beta iota.
Ltac same_step :=
  match goal with
  | |- context [opt_eqb ?x ?y] =>
      let E := fresh in
      first [assert (E : opt_eqb x y = true) by solve_run | assert (E : opt_eqb x y = false) by solve_run]; rewrite !E; clear E
  end.
(** one successful step, bind by bind *)
Ltac run_step := unfold step, fixed, try_once, try_fail; do 4 bstep; same_step; cbn [negb orb andb]; do 2 bstep; solve_run.

Lemma untried : exists o' v, step dot1 square false false false (cg_constant 0) 1 None
    (fun _ _ _ _ _ => Answer (Some (1 / 4))) false false false start = (LOk (Some v), o') /\
  v = 0 /\ fst (square (map l_val (ps o'))) = 1 / 4.
Proof. eexists _, _. split; [run_step|]. run. split; lra. Qed.

Lemma accepted : exists o' v, step dot1 square true false false (cg_constant 0) 1 None (try_once (1 / 4)) false false false start =
    (LOk (Some v), o') /\ v = 1 / 4 /\ fst (square (map l_val (ps o'))) = 1 / 4 /\ last_size o' = Some (1 / 4).
Proof. eexists _, _. split; [run_step|]. run. split; [lra|]. split; [lra|reflexivity]. Qed.
Lemma fixed_stale : exists r1 o1 r2 o2,
  step dot1 square true false false (cg_constant 0) 1 None (fixed (1 / 4)) false false false start = (LOk r1, o1) /\
  step dot1 square true false false (cg_constant 0) 1 None (fixed (1 / 4)) false false false o1 = (LOk r2, o2) /\
  fst (square (map l_val (ps o1))) = 1 / 4 /\ exists v, old_phi0 o2 = Some v /\ v = 0.
Proof.
  eexists _, _, _, _. split; [run_step|split; [run_step|]].
  run. split; [lra|]. eexists. split; [reflexivity|lra].
Qed.
Lemma no_step_stale : exists r1 o1 r2 o2,
  step dot1 square true false false (cg_constant 0) 1 None (try_once (1 / 4)) false false true start = (LOk r1, o1) /\
  step dot1 square true false false (cg_constant 0) 1 None (try_once (1 / 4)) false false false o1 = (LOk r2, o2) /\
  fst (square (map l_val (ps o1))) = 1 /\ exists v, old_phi0 o2 = Some v /\ v = 1 / 4.
Proof.
  eexists _, _, _, _. split; [run_step|split; [run_step|]].
  run. split; [lra|]. eexists. split; [reflexivity|lra].
Qed.
Ltac run_raise := unfold step, try_fail, fixed; unfold bind at 1;
  match goal with
  | |- context [init_loss ?d ?c ?g ?r ?o] =>
      let E := fresh in assert (E : exists o', init_loss d c g r o = (LRaise KeyErr, o')) by (eexists; solve_run);
      let o' := fresh in destruct E as [o' E]; rewrite E; clear E
  end; reflexivity.
Lemma unevaluated_key : exists r1 o1,
  step dot1 square true false false (cg_constant 0) 1 None (fun _ _ _ _ _ => Answer None) false false false start = (LOk r1, o1) /\
  fst (step dot1 square true false false (cg_constant 0) 1 None (fun _ _ _ _ _ => Answer None) false false false o1) = LRaise KeyErr.
Proof. eexists _, _. split; [run_step|run_raise]. Qed.
Lemma fr_key : exists r1 o1,
  step dot1 square false false true (cg_fletcher_reeves dot1) 1 None try_fail false false false start = (LOk r1, o1) /\
  fst (step dot1 square false false true (cg_fletcher_reeves dot1) 1 None try_fail false false false o1) = LRaise KeyErr.
Proof. eexists _, _. split; [run_step|run_raise]. Qed.
Lemma slope_stale : exists vs o1 o2, ask_all dot1 square true [QPhi 1; QPhi 2] (aimed 0 1) = (LOk vs, o1) /\
  (exists v, derphi dot1 square true 1 o1 = (LOk v, o2) /\ v = 4) /\
  derivative dot1 square (ps (aimed 0 1)) 1 = 2.
Proof.
  destruct (trials_unchanged dot1 square true square_total [QPhi 1; QPhi 2] (aimed 0 1) (aimed_directed 0 1) eq_refl (or_introl eq_refl))
    as (vs & o1 & H & _).
  destruct (slope_latest dot1 square true square_total _ (aimed 0 1) vs o1 1 (aimed_directed 0 1) eq_refl (aimed_agrees 0 1) eq_refl H) as (o2 & D).
  exists vs, o1, o2. split; auto. split.
  - eexists. split; [exact D|].
    assert (E : last (distinct [] (map step_of [QPhi 1; QPhi 2] ++ [1])) 1 = 2).
    { cbn [map step_of app distinct]. destruct (in_dec Req_EM_T 1 []) as [[]|_].
      destruct (in_dec Req_EM_T 2 [1]) as [[I|[]]|_]; [exfalso; lra|].
      destruct (in_dec Req_EM_T 1 [2; 1]) as [_|I]; [reflexivity|]. exfalso. apply I. right. now left. }
    rewrite E. cbv -[Rplus Rmult IZR]. ring.
  - cbv -[Rplus Rmult IZR]. ring.
Qed.
Lemma constant_armijo dot_all closure cd tg td fallback stab c t d alpha : all_gradients closure ->
  settings Armijo Constant c t d = LOk (cd, tg, td) -> alpha <> 0 ->
  forall meth force recompute no_step l r o1 meth' force' recompute' no_step',
  l <> [] -> Forall (fun p => s_transported p = None) l ->
  step dot_all closure cd tg td (cg_constant alpha) fallback stab meth force recompute no_step (new_opt l) = (LOk r, o1) ->
  fst (step dot_all closure cd tg td (cg_constant alpha) fallback stab meth' force' recompute' no_step' o1) = LRaise KeyErr.
Proof.
  intros T S A meth force rc ns l r o1 meth' force' rc' ns' L Tn H. injection S as <- <- <-.
  apply (constant_raises _ _ _ _ _ (cg_constant alpha) _ _ T meth force rc ns l r o1 meth' force' rc' ns' eq_refl eq_refl (fun _ => A) L Tn H).
Qed.
Lemma step_count dot_all closure cd tg td cg fallback stab : all_gradients closure ->
  forall meth force recompute no_step o r o',
  step dot_all closure cd tg td cg fallback stab meth force recompute no_step o = (LOk r, o') -> count o' = S (count o).
Proof. intros T meth f rc ns o r o' H. now destruct (step_frame _ _ _ _ _ _ _ _ T _ _ _ _ _ _ _ H) as (? & ? & ? & _ & _ & _ & _ & C & _). Qed.
