(** Vocabulary for the line search properties: the objective along the search
    direction and its slope, as documented in rlinesearch.py:23-45. *)
From Coq Require Import Reals List.
From Verif Require Import RVec LineSearchModel.
Import ListNotations.
Local Open Scope R_scope.

(** The point R_x(a * eta) of one parameter x with direction eta. *)
Definition reach (dot_all : vec -> vec -> R) (a : R) (p : lparam) : vec :=
  match s_dir p with
  | Some d => l_retr (man_of dot_all p) (l_val p) (smul a d)
  | None => l_val p
  end.
(** The direction transported there. *)
Definition carried (dot_all : vec -> vec -> R) (a : R) (p : lparam) : vec :=
  match s_dir p with
  | Some d => l_transp_follow (man_of dot_all p) (l_val p) (smul a d) d
  | None => vzero
  end.
(** phi(a) = f(R_x(a * eta)) over all parameters *)
Definition objective dot_all (closure : list vec -> R * list (option vec)) (l : list lparam) (a : R) : R :=
  fst (closure (map (reach dot_all a) l)).
(** phi'(a) = sum over the parameters of < grad f(y), T(eta) > at y = R_x(a * eta) *)
Definition total (l : list R) : R := fold_right Rplus 0 l.
Definition derivative dot_all (closure : list vec -> R * list (option vec)) (l : list lparam) (a : R) : R :=
  total (zip_with (fun p g =>
    match g with
    | Some g => let y := reach dot_all a p in
                l_inner (man_of dot_all p) y (l_egrad (man_of dot_all p) y g) (carried dot_all a p)
    | None => 0
    end) l (snd (closure (map (reach dot_all a) l)))).

(** The manifold operations agree along the search line: retr_transp is retr with
    transp_follow_retr, and retractions need no projection. *)
Definition agrees dot_all (p : lparam) : Prop :=
  forall d, s_dir p = Some d -> forall a,
  let m := man_of dot_all p in
  let y := l_retr m (l_val p) (smul a d) in
  let t := l_transp_follow m (l_val p) (smul a d) d in
  l_retr_transp m (l_val p) (smul a d) d = (y, t) /\ l_projx m y = y /\ l_proju m y t = t.
(** A closure that computes every gradient. *)
Definition all_gradients (closure : list vec -> R * list (option vec)) : Prop :=
  forall vs, length (snd (closure vs)) = length vs /\ Forall (fun g => g <> None) (snd (closure vs)).
(** Every parameter has a search direction. *)
Definition directed (l : list lparam) : Prop := Forall (fun p => s_dir p <> None) l.

(** A sequence of questions to phi and derphi. *)
Inductive question := QPhi (a : R) | QDerphi (a : R).
Definition step_of (q : question) : R := match q with QPhi a | QDerphi a => a end.
Section Questions.
  Variables (dot_all : vec -> vec -> R) (closure : list vec -> R * list (option vec)) (cd : bool).
  Definition ask (q : question) : M R :=
    match q with QPhi a => phi dot_all closure cd a | QDerphi a => derphi dot_all closure cd a end.
  Fixpoint ask_all (qs : list question) : M (list R) :=
    match qs with
    | [] => ret []
    | q :: qs => bind (ask q) (fun v => bind (ask_all qs) (fun vs => ret (v :: vs)))
    end.
End Questions.
(** The distinct steps asked for, in order of first appearance, given those in [seen]. *)
Fixpoint distinct (seen : list R) (l : list R) : list R :=
  match l with
  | [] => []
  | a :: l => if in_dec Req_EM_T a seen then distinct seen l else a :: distinct (a :: seen) l
  end.
(** Asking for the derivative needs compute_derphi. *)
Definition allowed (cd : bool) (qs : list question) : Prop :=
  cd = true \/ forall a, ~ In (QDerphi a) qs.

(** A method that answers only the step it evaluated last (or None), with a value
    satisfying [good]; [seen] are the steps already asked for, [last] the latest new
    one with its objective value. *)
Inductive ends_on (good : R -> R -> Prop) : list R -> option (R * R) -> asks -> Prop :=
  | ends_none seen last : ends_on good seen last (Answer None)
  | ends_some seen a v : good a v -> ends_on good seen (Some (a, v)) (Answer (Some a))
  | ends_phi seen last a k : ~ In a seen ->
      (forall v, ends_on good (a :: seen) (Some (a, v)) (k v)) -> ends_on good seen last (AskPhi a k)
  | ends_phi_again seen last a k : In a seen ->
      (forall v, ends_on good seen last (k v)) -> ends_on good seen last (AskPhi a k)
  | ends_derphi seen last a k : ~ In a seen ->
      (forall v s, ends_on good (a :: seen) (Some (a, v)) (k s)) -> ends_on good seen last (AskDerphi a k)
  | ends_derphi_again seen last a k : In a seen ->
      (forall s, ends_on good seen last (k s)) -> ends_on good seen last (AskDerphi a k).
(** A method that answers only steps it asked for (or None). *)
Inductive answers_asked : list R -> asks -> Prop :=
  | asked_none seen : answers_asked seen (Answer None)
  | asked_some seen a : In a seen -> answers_asked seen (Answer (Some a))
  | asked_phi seen a k : (forall v, answers_asked (a :: seen) (k v)) -> answers_asked seen (AskPhi a k)
  | asked_derphi seen a k : (forall v, answers_asked (a :: seen) (k v)) -> answers_asked seen (AskDerphi a k).

(** An inner product, as far as the descent test needs it. *)
Definition definite (m : lmanifold) : Prop :=
  forall x u, 0 <= l_inner m x u u /\ l_inner m x u (vopp u) = - l_inner m x u u.

(** What an optimizer that will reuse its gradients must know: the loss and the
    Riemannian gradients of the current parameters. *)
Definition up_to_date dot_all (closure : list vec -> R * list (option vec)) (o : lopt) : Prop :=
  fresh_grads o = true ->
  prev_loss o = Some (fst (closure (map l_val (ps o)))) /\
  map s_new_grad (ps o) =
  zip_with (fun p g => match g with
                       | Some g => Some (l_egrad (man_of dot_all p) (l_val p) g)
                       | None => None end) (ps o) (snd (closure (map l_val (ps o)))).

(** A new optimizer: the constructor, 223-231, on parameters without state. *)
Definition new_param (m : option lmanifold) (x : vec) (rg : bool) : lparam :=
  {| l_man := m; l_val := x; l_grad := None; l_requires := rg; s_dir := None; s_transported := None;
     s_new_grad := None; s_derphi := None; s_new_point := None; s_grad := None; s_prev_grad := None;
     s_prev_norm2 := None; s_grad_transported := None |}.
Definition new_opt (l : list lparam) : lopt :=
  {| ps := l; dict := []; last_try := None; fresh_grads := false; prev_loss := None; old_phi0 := None;
     old_derphi0 := None; last_size := None; history := []; count := 0; calls := [] |}.

(** Successive successful calls of step; [one recompute] is the call. *)
Inductive runs (one : bool -> M (option R)) : lopt -> lopt -> Prop :=
  | runs_none o : runs one o o
  | runs_more o o1 o2 recompute r : runs one o o1 -> one recompute o1 = (LOk r, o2) -> runs one o o2.
(** The Riemannian gradients of the closure at the current parameters. *)
Definition gradients dot_all (closure : list vec -> R * list (option vec)) (l : list lparam) : list (option vec) :=
  zip_with (fun p g => match g with
                       | Some g => Some (l_egrad (man_of dot_all p) (l_val p) g)
                       | None => None end) l (snd (closure (map l_val l))).
(** The sufficient decrease condition (Armijo). *)
Definition sufficient (c1 : R) (phi0 : option R) (derphi0 : R) (a v : R) : Prop :=
  match phi0 with Some f => 0 <= a /\ v <= f + c1 * a * derphi0 | None => True end.
(** Every method answers after at least one evaluation (given the initial loss). *)
Definition evaluates (meth : method) : Prop := forall f s a b c, meth (Some f) s a b c <> Answer None.
