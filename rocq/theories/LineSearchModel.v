(** Model of geoopt/optim/rlinesearch.py: RiemannianLineSearch with one parameter group.

    A dense tensor is a [vec] of its entries.  The closure is a function of the
    parameter values: it returns the loss and the gradients it leaves in [.grad]
    (None where it leaves no gradient); it is assumed to clear old gradients.  A line
    search method is any finite interaction with the two functions it is given.
    Writes into [self.state[p]] are writes into fields of the parameter.  An exception
    leaves the optimizer as it is when the exception leaves [step]. *)
From Coq Require Import Reals List Bool Arith.
From Verif Require Import RVec.
Import ListNotations.
Local Open Scope R_scope.

(** What the optimizer uses of a manifold; [l_inner] is torch.sum of inner over the
    batch, so one number per parameter. *)
Record lmanifold := {
  l_egrad : vec -> vec -> vec;
  l_inner : vec -> vec -> vec -> R;
  l_retr : vec -> vec -> vec;
  l_retr_transp : vec -> vec -> vec -> vec * vec;
  l_transp_follow : vec -> vec -> vec -> vec;   (* transp_follow_retr *)
  l_projx : vec -> vec;
  l_proju : vec -> vec -> vec
}.

(** A parameter: its manifold (None for a plain torch Parameter), value, gradient,
    requires_grad flag, and the entries of its state dictionary. *)
Record lparam := {
  l_man : option lmanifold; l_val : vec; l_grad : option vec; l_requires : bool;
  s_dir : option vec;            (* "search_direction" *)
  s_transported : option vec;    (* "search_transported" *)
  s_new_grad : option vec;       (* "new_grad" *)
  s_derphi : option R;           (* "der_phi" *)
  s_new_point : option vec;      (* "new_point" *)
  s_grad : option vec;           (* "grad" *)
  s_prev_grad : option vec;      (* "prev_grad" *)
  s_prev_norm2 : option R;       (* "prev_grad_norm_squared" *)
  s_grad_transported : option vec (* "grad_transported" *)
}.
Inductive lerror := ValueErr | KeyErr | TypeErr | RuntimeErr | ZeroDivErr.
Inductive lres (A : Type) := LOk (a : A) | LRaise (e : lerror).
Arguments LOk {A}. Arguments LRaise {A}.

(** The attributes of the optimizer.  [calls] is not in the code: it records the
    parameter values at which the closure was called. *)
Record lopt := {
  ps : list lparam;
  dict : list (R * R);           (* _step_size_dic *)
  last_try : option R;           (* _last_step *)
  fresh_grads : bool;            (* _grads_computed *)
  prev_loss : option R; old_phi0 : option R; old_derphi0 : option R;
  last_size : option R;          (* last_step_size *)
  history : list (option R);     (* step_size_history *)
  count : nat;                   (* group["step"] *)
  calls : list (list vec)
}.

(** Writes to one field. *)
Definition set_val (v : vec) (p : lparam) : lparam :=
  {| l_man := l_man p; l_val := v; l_grad := l_grad p; l_requires := l_requires p; s_dir := s_dir p;
     s_transported := s_transported p; s_new_grad := s_new_grad p; s_derphi := s_derphi p;
     s_new_point := s_new_point p; s_grad := s_grad p; s_prev_grad := s_prev_grad p;
     s_prev_norm2 := s_prev_norm2 p; s_grad_transported := s_grad_transported p |}.
Definition set_egrad (g : option vec) (p : lparam) : lparam :=
  {| l_man := l_man p; l_val := l_val p; l_grad := g; l_requires := l_requires p; s_dir := s_dir p;
     s_transported := s_transported p; s_new_grad := s_new_grad p; s_derphi := s_derphi p;
     s_new_point := s_new_point p; s_grad := s_grad p; s_prev_grad := s_prev_grad p;
     s_prev_norm2 := s_prev_norm2 p; s_grad_transported := s_grad_transported p |}.
Definition set_dir (d : vec) (p : lparam) : lparam :=
  {| l_man := l_man p; l_val := l_val p; l_grad := l_grad p; l_requires := l_requires p; s_dir := Some d;
     s_transported := s_transported p; s_new_grad := s_new_grad p; s_derphi := s_derphi p;
     s_new_point := s_new_point p; s_grad := s_grad p; s_prev_grad := s_prev_grad p;
     s_prev_norm2 := s_prev_norm2 p; s_grad_transported := s_grad_transported p |}.
Definition set_transported (t : vec) (p : lparam) : lparam :=
  {| l_man := l_man p; l_val := l_val p; l_grad := l_grad p; l_requires := l_requires p; s_dir := s_dir p;
     s_transported := Some t; s_new_grad := s_new_grad p; s_derphi := s_derphi p;
     s_new_point := s_new_point p; s_grad := s_grad p; s_prev_grad := s_prev_grad p;
     s_prev_norm2 := s_prev_norm2 p; s_grad_transported := s_grad_transported p |}.
Definition set_slope (g : vec) (s : R) (p : lparam) : lparam :=
  {| l_man := l_man p; l_val := l_val p; l_grad := l_grad p; l_requires := l_requires p; s_dir := s_dir p;
     s_transported := s_transported p; s_new_grad := Some g; s_derphi := Some s;
     s_new_point := s_new_point p; s_grad := s_grad p; s_prev_grad := s_prev_grad p;
     s_prev_norm2 := s_prev_norm2 p; s_grad_transported := s_grad_transported p |}.
Definition set_new_point (y : vec) (p : lparam) : lparam :=
  {| l_man := l_man p; l_val := l_val p; l_grad := l_grad p; l_requires := l_requires p; s_dir := s_dir p;
     s_transported := s_transported p; s_new_grad := s_new_grad p; s_derphi := s_derphi p;
     s_new_point := Some y; s_grad := s_grad p; s_prev_grad := s_prev_grad p;
     s_prev_norm2 := s_prev_norm2 p; s_grad_transported := s_grad_transported p |}.
Definition set_grad (g : vec) (prev : option vec) (n2 : option R) (p : lparam) : lparam :=
  {| l_man := l_man p; l_val := l_val p; l_grad := l_grad p; l_requires := l_requires p; s_dir := s_dir p;
     s_transported := s_transported p; s_new_grad := s_new_grad p; s_derphi := s_derphi p;
     s_new_point := s_new_point p; s_grad := Some g; s_prev_grad := prev;
     s_prev_norm2 := n2; s_grad_transported := s_grad_transported p |}.
Definition set_grad_transported (t : vec) (p : lparam) : lparam :=
  {| l_man := l_man p; l_val := l_val p; l_grad := l_grad p; l_requires := l_requires p; s_dir := s_dir p;
     s_transported := s_transported p; s_new_grad := s_new_grad p; s_derphi := s_derphi p;
     s_new_point := s_new_point p; s_grad := s_grad p; s_prev_grad := s_prev_grad p;
     s_prev_norm2 := s_prev_norm2 p; s_grad_transported := Some t |}.
Definition with_params (l : list lparam) (o : lopt) : lopt :=
  {| ps := l; dict := dict o; last_try := last_try o; fresh_grads := fresh_grads o; prev_loss := prev_loss o;
     old_phi0 := old_phi0 o; old_derphi0 := old_derphi0 o; last_size := last_size o; history := history o;
     count := count o; calls := calls o |}.
Definition with_fresh (b : bool) (o : lopt) : lopt :=
  {| ps := ps o; dict := dict o; last_try := last_try o; fresh_grads := b; prev_loss := prev_loss o;
     old_phi0 := old_phi0 o; old_derphi0 := old_derphi0 o; last_size := last_size o; history := history o;
     count := count o; calls := calls o |}.
Definition with_dict (d : list (R * R)) (o : lopt) : lopt :=
  {| ps := ps o; dict := d; last_try := last_try o; fresh_grads := fresh_grads o; prev_loss := prev_loss o;
     old_phi0 := old_phi0 o; old_derphi0 := old_derphi0 o; last_size := last_size o; history := history o;
     count := count o; calls := calls o |}.
Definition with_try (a v : R) (o : lopt) : lopt :=
  {| ps := ps o; dict := (a, v) :: dict o; last_try := Some a; fresh_grads := fresh_grads o; prev_loss := prev_loss o;
     old_phi0 := old_phi0 o; old_derphi0 := old_derphi0 o; last_size := last_size o; history := history o;
     count := count o; calls := calls o |}.
Definition with_loss (v : R) (o : lopt) : lopt :=
  {| ps := ps o; dict := dict o; last_try := last_try o; fresh_grads := fresh_grads o; prev_loss := Some v;
     old_phi0 := old_phi0 o; old_derphi0 := old_derphi0 o; last_size := last_size o; history := history o;
     count := count o; calls := calls o |}.
Definition with_count (n : nat) (o : lopt) : lopt :=
  {| ps := ps o; dict := dict o; last_try := last_try o; fresh_grads := fresh_grads o; prev_loss := prev_loss o;
     old_phi0 := old_phi0 o; old_derphi0 := old_derphi0 o; last_size := last_size o; history := history o;
     count := n; calls := calls o |}.
(** 459-463 *)
Definition with_result (r : option R) (phi0 : option R) (derphi0 : R) (o : lopt) : lopt :=
  {| ps := ps o; dict := dict o; last_try := last_try o; fresh_grads := fresh_grads o; prev_loss := prev_loss o;
     old_phi0 := phi0; old_derphi0 := Some derphi0; last_size := r; history := history o ++ [r];
     count := count o; calls := calls o |}.

(** manifolds/euclidean.py:41-108 *)
Definition l_euclidean (inner : vec -> vec -> R) : lmanifold := {|
  l_egrad := fun x u => u; l_inner := fun x u v => inner u v; l_retr := fun x u => vadd x u;
  l_retr_transp := fun x u v => (vadd x u, v); l_transp_follow := fun x u v => v;
  l_projx := fun x => x; l_proju := fun x u => u |}.

(** A loop over the parameters, leaving at the first exception. *)
Fixpoint visit (f : lparam -> lres lparam) (l : list lparam) : lres unit * list lparam :=
  match l with
  | [] => (LOk tt, [])
  | p :: l =>
      match f p with
      | LOk p => let '(r, l) := visit f l in (r, p :: l)
      | LRaise e => (LRaise e, p :: l)
      end
  end.
(** [step_size in self._step_size_dic] *)
Fixpoint lookup (a : R) (d : list (R * R)) : option R :=
  match d with
  | [] => None
  | (b, v) :: d => if Req_EM_T a b then Some v else lookup a d
  end.
Fixpoint zip_with {A B C} (f : A -> B -> C) (l : list A) (m : list B) : list C :=
  match l, m with
  | a :: l, b :: m => f a b :: zip_with f l m
  | _, _ => []
  end.
Definition sum_over (f : lparam -> R) (l : list lparam) : R := fold_right (fun p s => f p + s) 0 l.
Definition opt_eqb (a b : option R) : bool :=
  match a, b with
  | Some a, Some b => if Req_EM_T a b then true else false
  | None, None => true
  | _, _ => false
  end.

(** Computations on the optimizer that may raise. *)
Definition M (A : Type) := lopt -> lres A * lopt.
Definition bind {A B} (m : M A) (k : A -> M B) : M B :=
  fun o => match m o with (LOk a, o) => k a o | (LRaise e, o) => (LRaise e, o) end.
Definition ret {A} (a : A) : M A := fun o => (LOk a, o).
Definition raise {A} (e : lerror) : M A := fun o => (LRaise e, o).
Definition modify (f : lopt -> lopt) : M unit := fun o => (LOk tt, f o).
Definition each (f : lparam -> lres lparam) : M unit :=
  fun o => let '(r, l) := visit f (ps o) in (r, with_params l o).

(** A line search method: what it asks phi and derphi for, and its answer. *)
Inductive asks :=
  | Answer (step_size : option R)
  | AskPhi (a : R) (k : R -> asks)
  | AskDerphi (a : R) (k : R -> asks).
(** the keyword arguments phi0, derphi0, old_phi0, old_derphi0, old_step_size *)
Definition method := option R -> R -> option R -> option R -> option R -> asks.

Section LineSearch.
  Variable dot_all : vec -> vec -> R.                   (* the Euclidean inner product *)
  Variable closure : list vec -> R * list (option vec).
  Variables compute_derphi transport_grad transport_dir : bool.
  Variable cg : list lparam -> R.                        (* cg_method *)
  Variable fallback : R.                                 (* fallback_stepsize *)
  Variable stabilize : option nat.

  (** 245-248 *)
  Definition man_of (p : lparam) : lmanifold :=
    match l_man p with Some m => m | None => l_euclidean dot_all end.

  (** Calling the closure: [.grad] of every parameter is what it leaves there. *)
  Definition values (o : lopt) : list vec := map l_val (ps o).
  Definition call_closure : M R := fun o =>
    let '(loss, gs) := closure (values o) in
    (LOk loss,
     {| ps := zip_with (fun p g => set_egrad g p) (ps o) gs; dict := dict o; last_try := last_try o;
        fresh_grads := fresh_grads o; prev_loss := prev_loss o; old_phi0 := old_phi0 o;
        old_derphi0 := old_derphi0 o; last_size := last_size o; history := history o; count := count o;
        calls := calls o ++ [values o] |}).

  (** 241-266 for one parameter *)
  Definition displace (a : R) (p : lparam) : lres lparam :=
    match s_dir p with
    | None => LRaise ValueErr
    | Some d =>
        let m := man_of p in
        if compute_derphi then
          let '(new_point, t) := l_retr_transp m (l_val p) (smul a d) d in
          let new_point := l_projx m new_point in
          LOk (set_val new_point (set_transported (l_proju m new_point t) p))
        else LOk (set_val (l_retr m (l_val p) (smul a d)) p)
    end.
  (** 273-290 for one parameter *)
  Definition store_slope (p : lparam) : lres lparam :=
    match l_grad p with
    | None => LOk p
    | Some g =>
        let m := man_of p in
        let g := l_egrad m (l_val p) g in
        match s_transported p with
        | Some t => LOk (set_slope g (l_inner m (l_val p) g t) p)
        | None => LRaise KeyErr
        end
    end.
  (** 296-300 for one parameter *)
  Definition roll_back (p : lparam) (old : vec) : lparam := set_val old (set_new_point (l_val p) p).
  (** 233-304 _phi *)
  Definition phi (a : R) : M R := fun o =>
    match lookup a (dict o) with
    | Some v => (LOk v, o)
    | None =>
        let copy := values o in
        bind (each (displace a)) (fun _ =>
        bind call_closure (fun v =>
        bind (if compute_derphi
              then bind (each store_slope) (fun _ => modify (with_fresh true)) else ret tt) (fun _ =>
        bind (modify (fun o => with_params (zip_with roll_back (ps o) copy) o)) (fun _ =>
        bind (modify (with_try a v)) (fun _ => ret v))))) o
    end.
  (** 306-330 _derphi *)
  Definition total_derphi (o : lopt) : R :=
    sum_over (fun p => match s_derphi p with Some s => s | None => 0 end) (ps o).
  Definition derphi (a : R) : M R :=
    if compute_derphi then bind (phi a) (fun _ => fun o => (LOk (total_derphi o), o)) else raise ValueErr.

  (** 348-365 for one parameter *)
  Definition take_grad (reuse : bool) (p : lparam) : lres lparam :=
    let m := man_of p in
    let got :=
      if reuse then match s_new_grad p with Some g => LOk g | None => LRaise KeyErr end
      else match l_grad p with Some g => LOk (l_egrad m (l_val p) g) | None => LRaise TypeErr end in
    match got with
    | LRaise e => LRaise e
    | LOk g =>
        match s_grad p with
        | Some g0 => LOk (set_grad g (Some g0) (Some (l_inner m (l_val p) g0 g0)) p)
        | None => LOk (set_grad g (s_prev_grad p) (s_prev_norm2 p) p)
        end
    end.

  (** 379-384 for one parameter (every parameter has a "grad" by then) *)
  Definition grad_of (p : lparam) : vec := match s_grad p with Some g => g | None => vzero end.
  Definition dir_of (p : lparam) : vec := match s_dir p with Some d => d | None => vzero end.
  Definition first_dir (p : lparam) : lparam :=
    match s_dir p with Some _ => p | None => set_dir (vopp (grad_of p)) p end.
  Definition first_time (o : lopt) : bool :=
    existsb (fun p => match s_dir p with Some _ => false | None => true end) (ps o).
  (** 389-397 for one parameter *)
  Definition next_dir (beta : R) (p : lparam) : lres lparam :=
    if Req_EM_T beta 0 then LOk (set_dir (vopp (grad_of p)) p)
    else match s_transported p with
         | Some t => LOk (set_dir (vadd (vopp (grad_of p)) (smul beta t)) p)
         | None => LRaise KeyErr
         end.
  (** 399-409 *)
  Definition initial_slope (o : lopt) : R :=
    sum_over (fun p => l_inner (man_of p) (l_val p) (grad_of p) (dir_of p)) (ps o).
  (** 420 *)
  Definition grad_norm2 (o : lopt) : R :=
    sum_over (fun p => l_inner (man_of p) (l_val p) (grad_of p) (grad_of p)) (ps o).
  (** 373-423 _compute_search_direction *)
  Definition search_direction : M R := fun o =>
    bind (if first_time o then modify (fun o => with_params (map first_dir (ps o)) o)
          else let beta := cg (ps o) in each (next_dir beta)) (fun _ => fun o =>
      let s := initial_slope o in
      if Rle_dec 0 s
      then (LOk (- grad_norm2 o), with_params (map (fun p => set_dir (vopp (grad_of p)) p) (ps o)) o)
      else (LOk s, o)) o.
  (** 332-371 _init_loss *)
  Definition init_loss (recompute : bool) : M (option R * R) := fun o =>
    let again := recompute || negb (fresh_grads o) in
    bind (if again then bind call_closure (fun v => ret (Some v)) else ret (prev_loss o)) (fun loss =>
    bind (modify (with_dict [])) (fun _ =>
    bind (each (take_grad (negb again))) (fun _ =>
    bind search_direction (fun derphi0 =>
    bind (modify (with_fresh true)) (fun _ => ret (loss, derphi0)))))) o.

  (** Running the method on [self._phi] and [self._derphi]. *)
  Fixpoint interact (t : asks) : M (option R) :=
    match t with
    | Answer r => ret r
    | AskPhi a k => bind (phi a) (fun v => interact (k v))
    | AskDerphi a k => bind (derphi a) (fun v => interact (k v))
    end.

  (** 486-519 for one parameter *)
  Definition move (a : R) (redo : bool) (p : lparam) : lres lparam :=
    match s_dir p with
    | None => LOk p
    | Some d =>
        let m := man_of p in
        let x := l_val p in
        match (if redo then Some (l_retr m x (smul a d)) else s_new_point p) with
        | None => LRaise KeyErr
        | Some y =>
            let p := if transport_dir then set_transported (l_transp_follow m x (smul a d) d) p else p in
            if transport_grad then
              match s_grad p with
              | None => LRaise KeyErr
              | Some g => LOk (set_val y (set_grad_transported (l_transp_follow m x (smul a d) g) p))
              end
            else LOk (set_val y p)
        end
    end.
  (** 537-545 for one parameter: [copy_] outside torch.no_grad() refuses a leaf that
      requires grad.  The state is never empty here. *)
  Definition stabilize_one (p : lparam) : lres lparam :=
    match l_man p with
    | None => LOk p
    | Some m => if l_requires p then LRaise RuntimeErr else LOk (set_val (l_projx m (l_val p)) p)
    end.
  (** 521-527 *)
  Definition after_step : M unit := fun o =>
    let n := S (count o) in
    let o := with_count n o in
    match stabilize with
    | None => (LOk tt, o)
    | Some O => (LRaise ZeroDivErr, o)
    | Some N => if n mod N =? 0 then each stabilize_one o else (LOk tt, o)
    end.
  (** 425-535 step; the warning at 478-484 is not modelled *)
  Definition step (meth : method) (force recompute no_step : bool) : M (option R) :=
    bind (init_loss recompute) (fun '(phi0, derphi0) =>
    bind (modify (with_dict [])) (fun _ => fun o =>
    bind (interact (meth phi0 derphi0 (old_phi0 o) (old_derphi0 o) (last_size o))) (fun found =>
    bind (modify (with_result found phi0 derphi0)) (fun _ => fun o =>
      let same := opt_eqb (last_try o) found in
      let o := if negb same || negb compute_derphi then with_fresh false o else o in
      let redo := negb same in
      let '(size, o) :=
        match found with
        | None => if force then (Some fallback, with_fresh false o) else (None, o)
        | Some a => (Some a, o)
        end in
      bind (match size with
            | Some a => if no_step then ret tt else each (move a redo)
            | None => ret tt
            end) (fun _ =>
      bind after_step (fun _ =>
        match size with
        | Some a => bind (phi a) (fun v => bind (modify (with_loss v)) (fun _ => ret (Some v)))
        | None => fun o => (LOk (prev_loss o), o)
        end)) o)) o)).
End LineSearch.

(** ** The constructor *)
Inductive ls_method := Wolfe | Armijo | CustomSearch | UnknownSearch.
Inductive cg_method := Steepest | Constant | FletcherReeves | PolakRibiere | CustomScale | UnknownScale.
(** 183-216: compute_derphi, transport_grad and transport_search_direction as used,
    from the arguments *)
Definition settings (ls : ls_method) (c : cg_method) (cd tg td : bool) : lres (bool * bool * bool) :=
  match ls with
  | UnknownSearch => LRaise ValueErr
  | _ =>
      let cd := match ls with Wolfe => true | Armijo => false | _ => cd end in
      match c with
      | Steepest | Constant => LOk (cd, tg, false)
      | FletcherReeves | CustomScale => LOk (cd, tg, td)
      | PolakRibiere => LOk (cd, true, td)
      | UnknownScale => LRaise ValueErr
      end
  end.

(** ** The line search methods and scale parameters of the module *)
(** 696-705: the first trial step of Armijo backtracking *)
Definition armijo_alpha0 (phi0 derphi0 : R) (old : option R) (amax : option R) : R :=
  let a :=
    match old with
    | Some old => if Req_EM_T derphi0 0 then 1 else 101 / 100 * 2 * (phi0 - old) / derphi0
    | None => 1
    end in
  let a := if Rle_dec a 0 then 1 else a in
  match amax with Some b => Rmin a b | None => a end.
(** 675-711; [scalar] is scipy's scalar_search_armijo(phi, phi0, derphi0, c1, alpha0,
    amin), an external function.  phi0 is None only if the caller passes it. *)
Definition armijo_backtracking (scalar : R -> R -> R -> R -> R -> asks) (c1 amin : R) (amax : option R) : method :=
  fun phi0 derphi0 old _ _ =>
    match phi0 with
    | Some phi0 => scalar phi0 derphi0 c1 (armijo_alpha0 phi0 derphi0 old amax) amin
    | None => Answer None
    end.
(** 553-556 *)
Definition cg_constant (alpha : R) : list lparam -> R := fun _ => alpha.
(** 559-588, 591-625: [num p] is the parameter's term of the numerator; None is the
    missing entry that makes the function return 0 *)
Fixpoint ratio (num : lparam -> option R) (l : list lparam) : option (R * R) :=
  match l with
  | [] => Some (0, 0)
  | p :: l =>
      match num p, s_prev_norm2 p, ratio num l with
      | Some a, Some b, Some (n, d) => Some (a + n, b + d)
      | _, _, _ => None
      end
  end.
Definition quotient (r : option (R * R)) : R :=
  match r with
  | None => 0
  | Some (n, d) => if Req_EM_T d 0 then 0 else n / d
  end.
Definition cg_fletcher_reeves (dot_all : vec -> vec -> R) (l : list lparam) : R :=
  quotient (ratio (fun p => Some (l_inner (man_of dot_all p) (l_val p) (grad_of p) (grad_of p))) l).
(** (a state with "grad_transported" always has "prev_grad_norm_squared") *)
Definition cg_polak_ribiere (dot_all : vec -> vec -> R) (l : list lparam) : R :=
  quotient (ratio (fun p =>
    match s_grad_transported p with
    | Some t => Some (l_inner (man_of dot_all p) (l_val p) (grad_of p) (vsub (grad_of p) t))
    | None => None
    end) l).
