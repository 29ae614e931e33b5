(** Model of the argument checks and of [origin] in geoopt/manifolds/base.py.
    A manifold is given by the three hooks subclasses override; [tensor] is any
    type with a shape.  Exceptions are values. *)
From Coq Require Import List Bool String.
Import ListNotations.

(** Outcome of a call that may raise. *)
Inductive outcome (A : Type) := Returns (a : A) | RaisesValueError | RaisesOther.
Arguments Returns {A}. Arguments RaisesValueError {A}. Arguments RaisesOther {A}.

Section Checks.
  Variable tensor : Type.
  Variable shape_of : tensor -> list nat.
  Variable tol : Type.   (* the pair (atol, rtol) *)

  (** (ok, reason) as returned by the underscore hooks. *)
  Definition verdict := (bool * option string)%type.

  Record hooks := {
    h_shape : list nat -> string -> verdict;           (* _check_shape *)
    h_point : tensor -> tol -> verdict;                (* _check_point_on_manifold *)
    h_vector : tensor -> tensor -> tol -> verdict      (* _check_vector_on_tangent *)
  }.

  (** base.py:738-768 the default _check_shape for a manifold with [ndim]
      trailing dimensions. *)
  Definition default_check_shape (ndim : nat) (shape : list nat) (name : string) : verdict :=
    if Nat.leb ndim (List.length shape) then (true, None)
    else (false, Some ("requires more dim: " ++ name)%string).

  Variable m : hooks.

  (** base.py:139-165 check_point with explain=True; explain=False is [fst]. *)
  Definition check_point (x : tensor) : verdict := h_shape m (shape_of x) "x".
  (** base.py:167-186. *)
  Definition assert_check_point (x : tensor) : outcome unit :=
    let '(ok, _) := h_shape m (shape_of x) "x" in
    if ok then Returns tt else RaisesValueError.
  (** base.py:188-212, 214-233. *)
  Definition check_vector (u : tensor) : verdict := h_shape m (shape_of u) "u".
  Definition assert_check_vector (u : tensor) : outcome unit :=
    let '(ok, _) := h_shape m (shape_of u) "u" in
    if ok then Returns tt else RaisesValueError.
  (** base.py:235-267. *)
  Definition check_point_on_manifold (t : tol) (x : tensor) : verdict :=
    let '(ok, reason) := h_shape m (shape_of x) "x" in
    if ok then h_point m x t else (ok, reason).
  (** base.py:269-288. *)
  Definition assert_check_point_on_manifold (t : tol) (x : tensor) : outcome unit :=
    match assert_check_point x with
    | Returns _ =>
        let '(ok, _) := h_point m x t in
        if ok then Returns tt else RaisesValueError
    | e => e
    end.
  (** base.py:290-337. *)
  Definition check_vector_on_tangent (ok_point : bool) (t : tol) (x u : tensor) : verdict :=
    let '(ok, reason) :=
      if negb ok_point then
        let '(ok, reason) := h_shape m (shape_of x) "x" in
        let '(ok, reason) := if ok then h_shape m (shape_of u) "u" else (ok, reason) in
        if ok then h_point m x t else (ok, reason)
      else (true, None) in
    if ok then h_vector m x u t else (ok, reason).
  (** base.py:339-375 (the same cascade, then raise). *)
  Definition assert_check_vector_on_tangent (ok_point : bool) (t : tol) (x u : tensor) : outcome unit :=
    let '(ok, reason) :=
      if negb ok_point then
        let '(ok, reason) := h_shape m (shape_of x) "x" in
        let '(ok, reason) := if ok then h_shape m (shape_of u) "u" else (ok, reason) in
        if ok then h_point m x t else (ok, reason)
      else (true, None) in
    let '(ok, reason) := if ok then h_vector m x u t else (ok, reason) in
    if negb ok then RaisesValueError else Returns tt.
  (** base.py:770-791. *)
  Definition assert_check_shape (shape : list nat) (name : string) : outcome unit :=
    let '(ok, _) := h_shape m shape name in if ok then Returns tt else RaisesValueError.
End Checks.

(** ** origin, base.py:913-952 *)
Section Origin.
  Variable gen : Type.          (* state of one random generator *)
  Variable seeded : nat -> gen. (* state after manual_seed *)
  Variable A : Type.

  (** The generators of the process: CPU and the CUDA devices. *)
  Record rng := { cpu : gen; cuda : list gen }.
  (** torch.random.get_rng_state / set_rng_state: CPU only. *)
  Definition get_rng_state (s : rng) : gen := cpu s.
  Definition set_rng_state (g : gen) (s : rng) : rng := {| cpu := g; cuda := cuda s |}.
  (** torch.random.manual_seed: seeds the CPU and every CUDA generator. *)
  Definition manual_seed (k : nat) (s : rng) : rng :=
    {| cpu := seeded k; cuda := map (fun _ => seeded k) (cuda s) |}.

  (** A sampler (self.random) may consume any generator and may raise. *)
  Definition sampler := rng -> outcome A * rng.

  Definition origin (random : sampler) (seed : option nat) (s : rng) : outcome A * rng :=
    match seed with
    | Some k =>
        let state := get_rng_state s in
        let s := manual_seed k s in
        let '(r, s) := random s in
        (r, set_rng_state state s)          (* finally *)
    | None => random s
    end.
End Origin.
