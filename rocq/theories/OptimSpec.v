(** Vocabulary for the optimizer properties: what a manifold must satisfy, what a user
    may do between steps, and reference SGD and Adam on flat vectors. *)
From Coq Require Import Reals List Arith.
From Verif Require Import RVec OptimModel.
Import ListNotations.
Local Open Scope R_scope.

(** ** Manifolds.  [on] is membership, [tan x] the directions allowed at x. *)
Record lawful (M : manifold) (on : vec -> Prop) (tan : vec -> vec -> Prop) : Prop := {
  tan_add : forall x u v, tan x u -> tan x v -> tan x (vadd u v);
  tan_scale : forall x a u, tan x u -> tan x (smul a u);
  grad_tan : forall x g, on x -> tan x (egrad2rgrad M x g);
  retr_on : forall x u, on x -> tan x u -> on (retr M x u);
  rt_on : forall x u v, on x -> tan x u -> tan x v -> on (fst (retr_transp M x u v));
  rt_tan : forall x u v, on x -> tan x u -> tan x v -> tan (fst (retr_transp M x u v)) (snd (retr_transp M x u v));
  projx_on : forall x, on x -> on (projx M x);
  proju_tan : forall x u, on x -> tan x (proju M x u)
}.
(** The retraction reaches the manifold from every direction, tangent or not. *)
Record absorbing (M : manifold) (on : vec -> Prop) : Prop := {
  any_retr : forall x u, on x -> on (retr M x u);
  any_rt : forall x u v, on x -> on (fst (retr_transp M x u v));
  any_projx : forall x, on x -> on (projx M x)
}.
(** Transport ends in the tangent space whatever it is given. *)
Definition projecting (M : manifold) (on : vec -> Prop) (tan : vec -> vec -> Prop) : Prop :=
  forall x u v, on (fst (retr_transp M x u v)) -> tan (fst (retr_transp M x u v)) (snd (retr_transp M x u v)).
(** [component_inner] is nonnegative and constant on blocks of coordinates, and tangent
    vectors may be rescaled block by block (one block for most manifolds, one per
    factor for products, one per entry for Euclidean). *)
Record blocked (M : manifold) (on : vec -> Prop) (tan : vec -> vec -> Prop) (blk : nat -> nat -> Prop) : Prop := {
  ci_nonneg : forall x u i, on x -> tan x u -> 0 <= component_inner M x u i;
  ci_blk : forall x u i j, on x -> tan x u -> blk i j -> component_inner M x u i = component_inner M x u j;
  tan_blk : forall x u s, tan x u -> (forall i j, blk i j -> s i = s j) -> tan x (vmul s u)
}.

(** ** What happens between steps *)
(** Gradients change; value, manifold and optimizer state do not. *)
Definition kept {S} (p q : param S) : Prop := man p = man q /\ val p = val q /\ state p = state q.
Definition fresh {S} (p : param S) : Prop := state p = None.
(** Hyper-parameters and gradients are edited at will, and new groups may be added
    whose parameters satisfy [new]. *)
Definition sgd_edit (new : sgd_param -> Prop) (o o' : list sgd_group) : Prop :=
  exists o1 added, o' = o1 ++ added /\
    Forall2 (fun g g' => steps g = steps g' /\ Forall2 kept (params g) (params g')) o o1 /\
    Forall (fun g => steps g = None /\ Forall (fun p => fresh p /\ new p) (params g)) added.
Definition adam_edit (new : adam_param -> Prop) (o o' : list adam_group) : Prop :=
  exists o1 added, o' = o1 ++ added /\
    Forall2 (fun g g' => Forall2 kept (a_params g) (a_params g')) o o1 /\
    Forall (fun g => Forall (fun p => fresh p /\ new p) (a_params g)) added.

(** A history: any interleaving of edits and steps; [ok] restricts the optimizer at
    the moment a step is taken.  A step that raises is part of the history too. *)
Inductive history {G} (edit : list G -> list G -> Prop) (step : list G -> list G * status) (ok : list G -> Prop)
  : list G -> list G -> Prop :=
| h_start o : history edit step ok o o
| h_edit o o1 o2 : history edit step ok o o1 -> edit o1 o2 -> history edit step ok o o2
| h_step o o1 : history edit step ok o o1 -> ok o1 -> history edit step ok o (fst (step o1)).
Definition sgd_history new := history (sgd_edit new) sgd_step.
Definition adam_history new := history (adam_edit new) adam_step.

Definition sgd_all (P : sgd_hyper -> sgd_param -> Prop) (o : list sgd_group) : Prop :=
  forall g p, In g o -> In p (params g) -> P (hyp g) p.
Definition adam_all (P : adam_hyper -> adam_param -> Prop) (o : list adam_group) : Prop :=
  forall g p, In g o -> In p (a_params g) -> P (a_hyp g) p.

(** ** Reference optimizers on a flat vector (torch.optim documentation) *)
Definition ref_sgd_step (h : sgd_hyper) (g : vec) (s : vec * option vec) : vec * option vec :=
  let '(x, b) := s in
  let d := fun i => g i + weight_decay h * x i in
  if Req_EM_T (momentum h) 0 then ((fun i => x i - lr h * d i), b)
  else
    let b := match b with None => d | Some b => fun i => momentum h * b i + (1 - dampening h) * d i end in
    let d := if nesterov h then fun i => d i + momentum h * b i else b in
    ((fun i => x i - lr h * d i), Some b).

Record ref_adam := { r_x : vec; r_t : nat; r_m : vec; r_v : vec; r_max : vec }.
Definition ref_adam_step (h : adam_hyper) (g : vec) (s : ref_adam) : ref_adam :=
  let t := S (r_t s) in
  let g := fun i => g i + a_decay h * r_x s i in
  let m := fun i => beta1 h * r_m s i + (1 - beta1 h) * g i in
  let v := fun i => beta2 h * r_v s i + (1 - beta2 h) * g i ^ 2 in
  let mx := fun i => Rmax (r_max s i) (v i) in
  let w := if amsgrad h then mx else v in
  let step_size := a_lr h / (1 - beta1 h ^ t) in
  let denom := fun i => sqrt (w i) / sqrt (1 - beta2 h ^ t) + eps h in
  {| r_x := fun i => r_x s i - step_size * (m i / denom i); r_t := t; r_m := m; r_v := v; r_max := mx |}.

(** ** One plain parameter, trained for t steps.  [hs] is the schedule; [gs t x] is the
    gradient backward() leaves at step t and point x (None: no gradient). *)
Definition to_gradient (g : option vec) : gradient := match g with Some g => Dense g | None => NoGrad end.
Definition plain {S} (x : vec) (s : option S) (g : gradient) : param S := {| man := None; val := x; grad := g; state := s |}.
Fixpoint sgd_train (hs : nat -> sgd_hyper) (gs : nat -> vec -> option vec) (x0 : vec) (t : nat) : list sgd_group :=
  match t with
  | O => [ {| hyp := hs O; steps := None; params := [plain x0 None NoGrad] |} ]
  | S t =>
      fst (sgd_step (map (fun g => {| hyp := hs t; steps := steps g;
        params := map (fun p => {| man := man p; val := val p; grad := to_gradient (gs t (val p)); state := state p |}) (params g) |})
        (sgd_train hs gs x0 t)))
  end.
Fixpoint ref_sgd_train (hs : nat -> sgd_hyper) (gs : nat -> vec -> option vec) (x0 : vec) (t : nat) : vec * option vec :=
  match t with
  | O => (x0, None)
  | S t => let s := ref_sgd_train hs gs x0 t in
           match gs t (fst s) with Some g => ref_sgd_step (hs t) g s | None => s end
  end.
Fixpoint adam_train (hs : nat -> adam_hyper) (gs : nat -> vec -> option vec) (x0 : vec) (t : nat) : list adam_group :=
  match t with
  | O => [ {| a_hyp := hs O; a_params := [plain x0 None NoGrad] |} ]
  | S t =>
      fst (adam_step (map (fun g => {| a_hyp := hs t;
        a_params := map (fun p => {| man := man p; val := val p; grad := to_gradient (gs t (val p)); state := state p |}) (a_params g) |})
        (adam_train hs gs x0 t)))
  end.
Fixpoint ref_adam_train (hs : nat -> adam_hyper) (gs : nat -> vec -> option vec) (x0 : vec) (t : nat) : ref_adam :=
  match t with
  | O => {| r_x := x0; r_t := O; r_m := vzero; r_v := vzero; r_max := vzero |}
  | S t => let s := ref_adam_train hs gs x0 t in
           match gs t (r_x s) with Some g => ref_adam_step (hs t) g s | None => s end
  end.
(** Values of the trained parameters, in order. *)
Definition sgd_values (o : list sgd_group) : list vec := flat_map (fun g => map val (params g)) o.
Definition adam_values (o : list adam_group) : list vec := flat_map (fun g => map val (a_params g)) o.
