(** Properties C116 and C117: the Euclidean manifold on tensors of any shape.  [k] is the
    attribute ndim; axes are numbered from the right; vocabulary in EuclideanSpec. *)
From Coq Require Import Reals List Arith.
From Verif Require NdProofs.
From Verif Require Import RVec NdModel EuclideanModel EuclideanSpec EuclideanProofs EuclideanProofs2.
Import ListNotations.
Local Open Scope R_scope.

(** * C116 *)
(** inner sums over the last k axes and has the batch shape of all three arguments. *)
Theorem C116_inner : forall k kd x u v p s,
  nonempty x -> nonempty u -> nonempty v -> bshape (rsh u) (rsh v) = Some p -> (k <= length p)%nat ->
  bshape (skipn k (rsh x)) (skipn k p) = Some s ->
  exists i, inner k kd x u (Some v) = Some i /\ rsh i = ones kd k ++ s /\
    forall ix, read i ix = over (firstn k p) (fun js => block kd k u ix js * block kd k v ix js).
Proof. exact (inner_spec). Qed.
Print Assumptions C116_inner.

Theorem C116_inner_default : forall k kd x u s,
  nonempty x -> nonempty u -> (k <= length (rsh u))%nat -> bshape (skipn k (rsh x)) (skipn k (rsh u)) = Some s ->
  exists i, inner k kd x u None = Some i /\ rsh i = ones kd k ++ s /\
    forall ix, read i ix = over (firstn k (rsh u)) (fun js => block kd k u ix js * block kd k u ix js).
Proof. exact (inner_none). Qed.
Print Assumptions C116_inner_default.

(** the components add up to it *)
Theorem C116_component_inner : forall k kd x u v p s i c,
  nonempty x -> nonempty u -> nonempty v -> bshape (rsh u) (rsh v) = Some p -> (k <= length p)%nat -> (k <= length (rsh x))%nat ->
  firstn k (rsh x) = firstn k p -> bshape (rsh x) p = Some s ->
  inner k kd x u (Some v) = Some i -> component_inner x u (Some v) = Some c ->
  rsh c = s /\ forall ix, read i ix = over (firstn k (rsh c)) (block kd k c ix).
Proof. exact (component_sum). Qed.
Print Assumptions C116_component_inner.

(** norm is the root of inner, up to the shape: it ignores the batch axes of x. *)
Theorem C116_norm : forall k kd x u i n,
  nonempty x -> nonempty u -> (k <= length (rsh u))%nat -> inner k kd x u None = Some i -> norm k kd x u = Some n ->
  forall ix, read i ix = read n ix ^ 2.
Proof. exact (norm_inner). Qed.
Print Assumptions C116_norm.
Theorem C116_norm_value : forall k kd x u, (k <= length (rsh u))%nat ->
  exists n, norm k kd x u = Some n /\ rsh n = ones kd k ++ skipn k (rsh u) /\
    forall ix, read n ix = sqrt (over (firstn k (rsh u)) (fun js => block kd k u ix js ^ 2)).
Proof. exact (norm_spec). Qed.
Print Assumptions C116_norm_value.
Theorem C116_norm_shape_refuted : exists x u i n,
  nonempty x /\ nonempty u /\ inner 1 false x u None = Some i /\ norm 1 false x u = Some n /\ rsh i = [2%nat] /\ rsh n = [].
Proof. exact (norm_shape). Qed.
Print Assumptions C116_norm_shape_refuted.

(** dist and dist2 *)
Theorem C116_dist : forall k kd x y s, bshape (rsh x) (rsh y) = Some s -> (k <= length s)%nat ->
  exists d, dist k kd x y = Some d /\ rsh d = ones kd k ++ skipn k s /\
    forall ix, read d ix = sqrt (over (firstn k s) (fun js => (block kd k x ix js - block kd k y ix js) ^ 2)).
Proof. exact (dist_spec). Qed.
Print Assumptions C116_dist.
Theorem C116_dist2 : forall k kd x y d d2, dist k kd x y = Some d -> dist2 k kd x y = Some d2 ->
  rsh d = rsh d2 /\ forall ix, read d2 ix = read d ix ^ 2.
Proof. exact (dist_dist2). Qed.
Print Assumptions C116_dist2.
Theorem C116_dist2_value : forall k kd x y s, bshape (rsh x) (rsh y) = Some s -> (k <= length s)%nat ->
  exists d, dist2 k kd x y = Some d /\ rsh d = ones kd k ++ skipn k s /\
    forall ix, read d ix = over (firstn k s) (fun js => (block kd k x ix js - block kd k y ix js) ^ 2).
Proof. exact (dist2_spec). Qed.
Print Assumptions C116_dist2_value.
Theorem C116_symmetric : forall k kd x y d d', dist k kd x y = Some d -> dist k kd y x = Some d' -> same_axes k x y ->
  forall ix, read d ix = read d' ix.
Proof. exact (dist_sym). Qed.
Print Assumptions C116_symmetric.
Theorem C116_triangle : forall k kd x y z a b c, same_axes k x y -> same_axes k y z ->
  dist k kd x y = Some a -> dist k kd y z = Some b -> dist k kd x z = Some c ->
  forall ix, 0 <= read c ix <= read a ix + read b ix.
Proof. exact (dist_triangle). Qed.
Print Assumptions C116_triangle.
Theorem C116_zero : forall k kd x y d, same_axes k x y -> dist k kd x y = Some d ->
  forall ix, read d ix = 0 <-> forall js, within (firstn k (rsh x)) js -> block kd k x ix js = block kd k y ix js.
Proof. exact (dist_zero). Qed.
Print Assumptions C116_zero.

Example C116_case : same_axes 2 (filled [3; 2; 5]%nat 1) (filled [3; 2; 1; 4]%nat 0) /\
  exists d, dist 2 true (filled [3; 2; 5]%nat 1) (filled [3; 2; 1; 4]%nat 0) = Some d /\ rsh d = [1; 1; 5; 4]%nat.
Proof. split; [repeat split; cbn; auto with arith|]. eexists. split; reflexivity. Qed.

(** [same_axes] is needed: with a manifold axis of size 1 broadcast against 4 the
    distances are 1, 0 and 2. *)
Theorem C116_broadcast_triangle_refuted : exists x y z a b c,
  nonempty x /\ nonempty y /\ nonempty z /\ dist 1 false x y = Some a /\ dist 1 false y z = Some b /\ dist 1 false x z = Some c /\
  rsh a = [] /\ rsh b = [] /\ rsh c = [] /\ forall ix, read a ix = 1 /\ read b ix = 0 /\ read c ix = sqrt 4.
Proof. exact (triangle_broadcast). Qed.
Print Assumptions C116_broadcast_triangle_refuted.
(** Likewise a vector that broadcasts along a manifold axis is not measured as the tangent
    vector proju makes of it. *)
Theorem C116_broadcast_inner_refuted : exists x u w i j,
  nonempty x /\ nonempty u /\ proju x u = Some w /\ inner 1 false x u None = Some i /\ inner 1 false x w None = Some j /\
  rsh i = rsh j /\ forall ix, read i ix = 1 /\ read j ix = 3.
Proof. exact (inner_shrunk). Qed.
Print Assumptions C116_broadcast_inner_refuted.

(** expmap and logmap undo each other, and expmap moves by the length of the vector. *)
Theorem C116_exp_log : forall x y s, bshape (rsh x) (rsh y) = Some s ->
  exists u w, logmap x y = Some u /\ expmap x u = Some w /\ rsh w = s /\ forall ix, read w ix = read y ix.
Proof. exact (exp_log). Qed.
Print Assumptions C116_exp_log.
Theorem C116_log_exp : forall x u s, bshape (rsh x) (rsh u) = Some s ->
  exists y w, expmap x u = Some y /\ logmap x y = Some w /\ rsh w = s /\ forall ix, read w ix = read u ix.
Proof. exact (log_exp). Qed.
Print Assumptions C116_log_exp.
Theorem C116_exp_dist : forall k kd x u y d n, same_axes k x u -> expmap x u = Some y -> dist k kd x y = Some d -> norm k kd x u = Some n ->
  forall ix, read d ix = read n ix.
Proof. exact (exp_dist). Qed.
Print Assumptions C116_exp_dist.

(** The retraction is the exponential map and adds the vector entry by entry. *)
Theorem C116_retr : forall x u s, bshape (rsh x) (rsh u) = Some s ->
  exists w, retr x u = Some w /\ expmap x u = Some w /\ rsh w = s /\
    forall ix, read w ix = (read x ix + read u ix)%R.
Proof. exact (fun x u s B => match NdProofs.lift2_some Rplus x u s B with ex_intro _ w (conj W P) => ex_intro _ w (conj W (conj W P)) end). Qed.
Print Assumptions C116_retr.

(** proju, egrad2rgrad and transp broadcast without changing values. *)
Theorem C116_proju : forall x u s, nonempty x -> nonempty u -> bshape (rsh x) (rsh u) = Some s ->
  exists w, proju x u = Some w /\ egrad2rgrad x u = Some w /\ rsh w = s /\ forall ix, read w ix = read u ix.
Proof. exact (fun x u s Px Pu B => match proju_spec x u s Px Pu B with ex_intro _ w (conj W P) => ex_intro _ w (conj W (conj W P)) end). Qed.
Print Assumptions C116_proju.
Theorem C116_transp : forall x y v s r, nonempty x -> nonempty y -> nonempty v -> bshape (rsh x) (rsh y) = Some s -> bshape s (rsh v) = Some r ->
  exists w, transp x y v = Some w /\ rsh w = r /\ forall ix, read w ix = read v ix.
Proof. exact (transp_spec). Qed.
Print Assumptions C116_transp.
(** [nonempty] is needed: on a batch of 0 points everything that broadcasts through
    utils.broadcast_shapes raises, while dist works. *)
Theorem C116_empty_batch_refuted : forall n, let x := filled [n; 0%nat] 0 in
  proju x x = None /\ egrad2rgrad x x = None /\ transp x x x = None /\ component_inner x x None = None /\ inner 1 false x x None = None /\
  exists d, dist 1 false x x = Some d /\ rsh d = [0%nat].
Proof. exact (empty_batch). Qed.
Print Assumptions C116_empty_batch_refuted.

(** * C117: random_normal and origin *)
Theorem C117_random : forall k size z m sd, (k <= length size)%nat ->
  exists t, random_normal k size z (filled [] m) (filled [] sd) = Some t /\ rsh t = size /\
    forall ix, read t ix = z (norm_index size ix) * sd + m.
Proof. exact (random_number). Qed.
Print Assumptions C117_random.
Theorem C117_origin : forall k size, (k <= length size)%nat ->
  exists o, origin k size = Some o /\ rsh o = size /\ forall ix, read o ix = 0.
Proof. exact (origin_spec). Qed.
Print Assumptions C117_origin.
Theorem C117_too_few_axes : forall k size z m sd, (length size < k)%nat -> random_normal k size z m sd = None /\ origin k size = None.
Proof. exact (random_short). Qed.
Print Assumptions C117_too_few_axes.
Example C117_case : (2 <= length [3; 4; 5])%nat /\ (length [3] < 2)%nat.
Proof. split; cbn; auto with arith. Qed.
(** With tensors for mean and std the result need not have the requested shape. *)
Theorem C117_shape_refuted : exists k size z mean std t, random_normal k size z mean std = Some t /\ rsh t <> size.
Proof. exact (random_shape). Qed.
Print Assumptions C117_shape_refuted.
