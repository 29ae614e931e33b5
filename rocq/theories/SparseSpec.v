(** Vocabulary for the sparse optimizers: which rows a gradient names, and the view of
    one row as a parameter of the dense optimizer. *)
From Coq Require Import Reals List Arith.
From Verif Require Import RVec OptimModel OptimSpec SparseModel.
Import ListNotations.
Local Open Scope R_scope.

Definition named (e : entries) (r : nat) : Prop := exists v, In (r, v) e.
(** Row r of a buffer that may not exist yet. *)
Definition row_of (r : nat) (b : option matrix) : option vec := option_map (fun b => b r) b.
(** One row as a dense parameter: same manifold, that row's value and buffer. *)
Definition sgd_row (r : nat) (p : ssgd_param) : sgd_param :=
  {| man := s_man p; val := s_val p r; grad := NoGrad; state := row_of r (s_state p) |}.
Definition row_adam (r : nat) (s : sadam_state) : adam_state :=
  {| count := s_count s; exp_avg := s_avg s r; exp_avg_sq := s_sq s r; max_exp_avg_sq := option_map (fun m => m r) (s_max s) |}.
Definition row_state (r : nat) (s : option sadam_state) : option adam_state := option_map (row_adam r) s.
Definition adam_row (r : nat) (p : sadam_param) : adam_param :=
  {| man := s_man p; val := s_val p r; grad := NoGrad; state := row_state r (s_state p) |}.
(** moments and maximum of a row, without the shared counter *)
Definition row_moments (r : nat) (s : option sadam_state) : option (vec * vec * option vec) :=
  option_map (fun s => (s_avg s r, s_sq s r, option_map (fun m => m r) (s_max s))) s.
(** ... given the row of the gradient as a dense gradient, and ignoring gradients. *)
Definition as_dense {S} (r : nat) (e : entries) (p : param S) : param S :=
  {| man := man p; val := val p; grad := Dense (dense_row e r); state := state p |}.
Definition drop_grad {S} (p : param S) : param S := {| man := man p; val := val p; grad := NoGrad; state := state p |}.
Definition no_decay (h : sgd_hyper) : sgd_hyper :=
  {| lr := lr h; momentum := momentum h; dampening := dampening h; weight_decay := 0; nesterov := nesterov h; stabilize := stabilize h |}.
Definition no_adecay (h : adam_hyper) : adam_hyper :=
  {| a_lr := a_lr h; beta1 := beta1 h; beta2 := beta2 h; eps := eps h; a_decay := 0; amsgrad := amsgrad h; a_stabilize := a_stabilize h |}.
(** The rows a parameter's current gradient names. *)
Definition touched {S} (p : sparam S) (r : nat) : Prop := match s_grad p with SSparse e => named e r | _ => False end.
(** Any number of steps of one parameter with gradients [es], and of one row of it. *)
Definition with_entries {S} (e : entries) (p : sparam S) : sparam S := {| s_man := s_man p; s_val := s_val p; s_grad := SSparse e; s_state := s_state p |}.
Fixpoint ssgd_run (hs : nat -> sgd_hyper) (es : nat -> entries) (p : ssgd_param) (t : nat) : ssgd_param :=
  match t with O => p | S t => fst (ssgd_update (hs t) (with_entries (es t) (ssgd_run hs es p t))) end.
Fixpoint row_run (hs : nat -> sgd_hyper) (gs : nat -> gradient) (p : sgd_param) (t : nat) : sgd_param :=
  match t with
  | O => p
  | S t => let q := row_run hs gs p t in fst (sgd_update (no_decay (hs t)) {| man := man q; val := val q; grad := gs t; state := state q |})
  end.
(** the gradient a row sees: none at steps that do not name it *)
Definition seen_by (r : nat) (es : nat -> entries) (t : nat) : gradient :=
  if in_dec Nat.eq_dec r (map fst (es t)) then Dense (dense_row (es t) r) else NoGrad.
Fixpoint sadam_run (hs : nat -> adam_hyper) (es : nat -> entries) (p : sadam_param) (t : nat) : sadam_param :=
  match t with O => p | S t => fst (sadam_update (hs t) (with_entries (es t) (sadam_run hs es p t))) end.

(** ** Histories of the sparse optimizers: as [sgd_history] and [adam_history]. *)
Definition skept {S} (p q : sparam S) : Prop := s_man p = s_man q /\ s_val p = s_val q /\ s_state p = s_state q.
Definition ssgd_edit (new : ssgd_param -> Prop) (o o' : list ssgd_group) : Prop :=
  exists o1 added, o' = o1 ++ added /\
    Forall2 (fun g g' => s_steps g = s_steps g' /\ Forall2 skept (s_params g) (s_params g')) o o1 /\
    Forall (fun g => s_steps g = None /\ Forall (fun p => s_state p = None /\ new p) (s_params g)) added.
Definition sadam_edit (new : sadam_param -> Prop) (o o' : list sadam_group) : Prop :=
  exists o1 added, o' = o1 ++ added /\
    Forall2 (fun g g' => Forall2 skept (sa_params g) (sa_params g')) o o1 /\
    Forall (fun g => Forall (fun p => s_state p = None /\ new p) (sa_params g)) added.
Definition ssgd_history new := history (ssgd_edit new) ssgd_step.
Definition sadam_history new := history (sadam_edit new) sadam_step.
Definition ssgd_all (P : sgd_hyper -> ssgd_param -> Prop) (o : list ssgd_group) : Prop :=
  forall g p, In g o -> In p (s_params g) -> P (s_hyp g) p.
Definition sadam_all (P : adam_hyper -> sadam_param -> Prop) (o : list sadam_group) : Prop :=
  forall g p, In g o -> In p (sa_params g) -> P (sa_hyp g) p.
(** Every row is a point of the parameter's manifold. *)
Definition rows_on {S} (on : manifold -> vec -> Prop) (p : sparam S) : Prop := forall r, on (s_manifold p) (s_val p r).
Definition ssgd_count (g : ssgd_group) : nat := match s_steps g with None => O | Some n => n end.
(** A group after t steps, edited before each of them. *)
Fixpoint sgroup_run (edit : nat -> ssgd_group -> ssgd_group) (g : ssgd_group) (t : nat) : ssgd_group :=
  match t with O => g | S t => fst (ssgd_step_group (edit t (sgroup_run edit g t))) end.
