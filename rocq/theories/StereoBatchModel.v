(** Tensor-wide behaviour of geoopt/manifolds/stereographic/math.py: functions
    whose code branches on the whole curvature tensor, and shapes. *)
From Coq Require Import Reals Lra List.
From Verif Require Import RVec StereoModel UtilsModel.
Import ListNotations.
Local Open Scope R_scope.

(** A batch after broadcasting: the list of (x, k) entries. *)
Definition batch := list (R * R).

(** [torch.all(k.isclose(0))]; [k_sign] after masked_fill is the sign of k with
    near-zero curvatures set to 0. *)
Definition all_zero (l : batch) : bool :=
  forallb (fun p => if k_zero (snd p) then true else false) l.
Definition all_neg (l : batch) : bool :=
  forallb (fun p => if k_zero (snd p) then false else if Rlt_dec (snd p) 0 then true else false) l.
Definition all_pos (l : batch) : bool :=
  forallb (fun p => if k_zero (snd p) then false else if Rlt_dec 0 (snd p) then true else false) l.
(** [torch.where(k_sign.gt(0), a, b)] for one entry. *)
Definition where_pos (k a b : R) : R :=
  if k_zero k then b else if Rlt_dec 0 k then a else b.
(** [torch.where(k_zero, a, b)] for one entry. *)
Definition where_zero (k a b : R) : R := if k_zero k then a else b.

(** The common skeleton of tan_k (math.py:183-204), artan_k (207-228), arsin_k
    (231-256), sin_k (259-280): [z_all] is the series of the all-zero branch,
    [z_mix] the one of the mixed branch; [pos_all]/[pos_mix] the functions of
    the scaled argument for positive curvature in the two branches. *)
Definition batched (e : R) (z_all z_mix : R -> R -> R) (neg pos_all pos_mix : R -> R)
    (l : batch) : list R :=
  if all_zero l then map (fun p => z_all (fst p) (snd p)) l
  else if all_neg l then
    map (fun p => / k_sqrt e (snd p) * neg (fst p * k_sqrt e (snd p))) l
  else if all_pos l then
    map (fun p => / k_sqrt e (snd p) * pos_all (fst p * k_sqrt e (snd p))) l
  else
    map (fun p => let s := k_sqrt e (snd p) in
                  let scaled_x := fst p * s in
                  let nonzero := where_pos (snd p) (pos_mix scaled_x) (neg scaled_x) * / s in
                  where_zero (snd p) (z_mix (fst p) (snd p)) nonzero) l.

Definition tan_k_batch (e : R) : batch -> list R :=
  batched e tan_k_zero_taylor1 tan_k_zero_taylor1 tanh_c
    (fun z => tan (clamp_max (10 ^ 38) z)) (fun z => tan (clamp_max (10 ^ 38) z)).
Definition artan_k_batch (e : R) : batch -> list R :=
  batched e artan_k_zero_taylor1 artan_k_zero_taylor1 artanh_c atan atan.
(** torch's asin is NaN outside [-1,1]; Coq's [asin] is constant there.  No
    theorem evaluates it outside [-1,1]. *)
Definition arsin_k_batch (e : R) : batch -> list R :=
  batched e arsin_k_zero_taylor5 arsin_k_zero_taylor1 arsinh_c
    asin (fun z => asin (clamp (-1 + e7) (1 - e7) z)).
Definition sin_k_batch (e : R) : batch -> list R :=
  batched e sin_k_zero_taylor5 sin_k_zero_taylor1 sinh sin sin.

(** ** _inner on a batch of rows, math.py:385-396 *)
(** Shape of [t.sum(dim=-1, keepdim=...)] for a tensor of shape [s]. *)
Definition reduce_last (keepdim : bool) (s : list nat) : list nat :=
  if keepdim then removelast s ++ [1%nat] else removelast s.
(** [_lambda_x(x, k, keepdim=True) ** 2 * (u * v).sum(dim, keepdim)], k a scalar:
    note keepdim=True in the first factor whatever the argument. *)
Definition inner_shape (keepdim : bool) (sx suv : list nat) : option (list nat) :=
  broadcast_shapes [reduce_last true sx; reduce_last keepdim suv].
(** Its values for 2-d inputs (B rows of size n) with keepdim=False: a B x B
    table, entry (i,j) multiplies the factor of row i and the dot of row j. *)
Definition inner_rows (n : nat) (k : R) (xs us vs : nat -> vec) (i j : nat) : R :=
  lambda_x n k (xs i) ^ 2 * dot n (us j) (vs j).
(** _norm on shapes, math.py:428-438 (keepdim passed to both factors). *)
Definition norm_shape (keepdim : bool) (sx su : list nat) : option (list nat) :=
  broadcast_shapes [reduce_last keepdim sx; reduce_last keepdim su].
