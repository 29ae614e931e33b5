(** Lemmas for RiemannianSGD on one plain parameter: comparison with torch.optim.SGD. *)
From Coq Require Import Reals List Bool Arith Lra Lia.
From Verif Require Import RVec OptimModel OptimSpec OptimProofs.
Import ListNotations.
Local Open Scope R_scope.

Definition solo (h : sgd_hyper) (n : option nat) (p : sgd_param) : list sgd_group := [ {| hyp := h; steps := n; params := [p] |} ].
Lemma solo_step h n x b g :
  exists h' n', fst (sgd_step (solo h n (plain x b (to_gradient g)))) = solo h' n' (fst (sgd_update h (plain x b (to_gradient g)))).
Proof.
  unfold sgd_step, solo. cbn [each]. unfold sgd_step_group. cbn [hyp params steps loop].
  assert (OK : snd (sgd_update h (plain x b (to_gradient g))) = Ok).
  { unfold sgd_update. destruct g; simpl; [|reflexivity]. destruct (has_momentum h); reflexivity. }
  assert (MN : man (fst (sgd_update h (plain x b (to_gradient g)))) = None) by (rewrite man_update; reflexivity).
  destruct (sgd_update h (plain x b (to_gradient g))) as [q s]. simpl in OK, MN. subst s. cbn [fst].
  destruct (stabilize h) as [[|N]|]; try (eexists _, _; reflexivity).
  destruct (_ =? 0)%nat; [|eexists _, _; reflexivity]. cbn [map fst]. unfold sgd_stabilize. rewrite MN. eexists _, _. reflexivity.
Qed.
(** the value and buffer of the single parameter *)
Fixpoint sgd_pair (hs : nat -> sgd_hyper) (gs : nat -> vec -> option vec) (x0 : vec) (t : nat) : vec * option vec :=
  match t with
  | O => (x0, None)
  | S t => let '(x, b) := sgd_pair hs gs x0 t in
           let p := fst (sgd_update (hs t) (@plain vec x b (to_gradient (gs t x)))) in (val p, state p)
  end.
Lemma plain_eta (p : sgd_param) : man p = None -> exists g, p = plain (val p) (state p) g.
Proof. destruct p as [m v g s]. simpl. intros ->. eexists. reflexivity. Qed.
Lemma train_pair hs gs x0 t : exists h n g, sgd_train hs gs x0 t = solo h n (plain (fst (sgd_pair hs gs x0 t)) (snd (sgd_pair hs gs x0 t)) g).
Proof.
  induction t as [|t IH]; [eexists _, _, _; reflexivity|]. destruct IH as [h [n [g E]]]. cbn [sgd_train]. rewrite E. unfold solo at 1. cbn [map hyp steps params].
  cbn [plain man val state].
  cbn [sgd_pair]. destruct (sgd_pair hs gs x0 t) as [x b]. cbn [fst snd].
  destruct (solo_step (hs t) n x b (gs t x)) as [h' [n' S]]. match goal with |- context[sgd_step ?a] => change a with (solo (hs t) n (@plain vec x b (to_gradient (gs t x)))) end. rewrite S.
  set (q := fst (sgd_update (hs t) (@plain vec x b (to_gradient (gs t x))))). assert (M : man q = None) by (unfold q; rewrite man_update; reflexivity).
  destruct (plain_eta q M) as [g' Eq]. exists h', n', g'. f_equal. f_equal. exact Eq.
Qed.
Lemma train_values hs gs x0 t : sgd_values (sgd_train hs gs x0 t) = [fst (sgd_pair hs gs x0 t)].
Proof. destruct (train_pair hs gs x0 t) as [h [n [g ->]]]. reflexivity. Qed.

Lemma update_plain h x b g : let p := fst (sgd_update h (plain x b (Dense g))) in
  val p = vadd x (smul (- lr h) (sgd_direction h euclidean x g b)) /\
  state p = if has_momentum h then Some (new_buffer h (decayed h x g) (sgd_buffer g b)) else b.
Proof. unfold sgd_update, plain. cbn. destruct (has_momentum h); split; reflexivity. Qed.

(** without momentum *)
Lemma no_momentum hs gs x0 : (forall t, momentum (hs t) = 0) -> forall t, sgd_pair hs gs x0 t = ref_sgd_train hs gs x0 t.
Proof.
  intros Z. induction t as [|t IH]; [reflexivity|]. cbn [sgd_pair ref_sgd_train]. rewrite IH. destruct (ref_sgd_train hs gs x0 t) as [x b]. cbn [fst].
  destruct (gs t x) as [g|]; [|reflexivity]. cbn [to_gradient]. destruct (update_plain (hs t) x b g) as [V St]. rewrite V, St.
  assert (H : has_momentum (hs t) = false) by (unfold has_momentum; rewrite Z; destruct (Rlt_dec 0 0); [lra|reflexivity]).
  unfold ref_sgd_step. rewrite Z. destruct (Req_EM_T 0 0) as [_|N]; [|contradiction]. rewrite H. f_equal.
  unfold sgd_direction. rewrite H. cbn. apply vec_ext. intros i. unfold vadd, smul, decayed, vadd, smul. ring.
Qed.

(** with constant momentum and no weight decay, on any sequence of gradients *)
Section Momentum.
  Variables (h : nat -> sgd_hyper) (m damp : R) (g : nat -> vec) (x0 : vec).
  Hypothesis Hm : forall t, momentum (h t) = m.
  Hypothesis Hd : forall t, dampening (h t) = damp.
  Hypothesis Hw : forall t, weight_decay (h t) = 0.
  Hypothesis Hn : forall t, nesterov (h t) = false.
  Hypothesis M0 : 0 < m.
  Let gs := fun t (_ : vec) => Some (g t).

  Lemma hm t : has_momentum (h t) = true.
  Proof. unfold has_momentum. rewrite Hm. destruct (Rlt_dec 0 m); [reflexivity|contradiction]. Qed.
  Lemma momentum_gap t : exists bR bS xR xS, sgd_pair h gs x0 (S t) = (xR, Some bR) /\ ref_sgd_train h gs x0 (S t) = (xS, Some bS) /\
    (forall i, bR i = bS i + m ^ t * (m - damp) * g O i).
  Proof.
    induction t as [|t IH].
    - cbn [sgd_pair ref_sgd_train fst]. unfold gs. cbn [to_gradient]. destruct (update_plain (h 0%nat) x0 None (g 0%nat)) as [V St]. rewrite V, St, hm.
      unfold ref_sgd_step. rewrite Hm, Hn. destruct (Req_EM_T m 0) as [E|_]; [lra|]. eexists _, _, _, _. split; [reflexivity|]. split; [reflexivity|].
      intros i. unfold new_buffer, sgd_buffer, decayed, vadd, smul. rewrite Hm, Hd, Hw. simpl. ring.
    - destruct IH as [bR [bS [xR [xS [ER [ES D]]]]]]. remember (S t) as n. cbn [sgd_pair ref_sgd_train]. rewrite ER, ES. cbn [fst]. unfold gs. cbn [to_gradient].
      destruct (update_plain (h n) xR (Some bR) (g n)) as [V St]. rewrite V, St, hm.
      unfold ref_sgd_step. rewrite Hm, Hn. destruct (Req_EM_T m 0) as [E|_]; [lra|]. eexists _, _, _, _. split; [reflexivity|]. split; [reflexivity|].
      intros i. unfold new_buffer, sgd_buffer, decayed, vadd, smul. rewrite Hm, Hd, Hw, D. subst n. simpl. ring.
  Qed.
  Lemma pair_direction t x b : sgd_direction (h t) euclidean x (g t) b = new_buffer (h t) (decayed (h t) x (g t)) (sgd_buffer (g t) b).
  Proof. unfold sgd_direction. rewrite hm, Hn. reflexivity. Qed.
  Variable l : R.
  Hypothesis Hl : forall t, lr (h t) = l.
  Lemma momentum_points t i : fst (sgd_pair h gs x0 t) i = fst (ref_sgd_train h gs x0 t) i - l * (m - damp) * Rsum t (fun s => m ^ s) * g O i.
  Proof.
    induction t as [|t IH]; [simpl; ring|].
    assert (StepR : fst (sgd_pair h gs x0 (S t)) i = fst (sgd_pair h gs x0 t) i - l * (match snd (sgd_pair h gs x0 (S t)) with Some b => b i | None => 0 end)).
    { cbn [sgd_pair]. destruct (sgd_pair h gs x0 t) as [x b]. unfold gs. cbn [to_gradient]. destruct (update_plain (h t) x b (g t)) as [V St]. rewrite V, St, hm. cbn [fst snd].
      rewrite pair_direction. unfold vadd, smul. rewrite Hl. ring. }
    assert (StepS : fst (ref_sgd_train h gs x0 (S t)) i = fst (ref_sgd_train h gs x0 t) i - l * (match snd (ref_sgd_train h gs x0 (S t)) with Some b => b i | None => 0 end)).
    { cbn [ref_sgd_train]. destruct (ref_sgd_train h gs x0 t) as [x b]. unfold gs. unfold ref_sgd_step. rewrite Hm, Hn, Hl. destruct (Req_EM_T m 0) as [E|_]; [lra|]. reflexivity. }
    destruct (momentum_gap t) as [bR [bS [xR [xS [ER [ES D]]]]]]. rewrite StepR, StepS, IH, ER, ES. cbn [snd]. rewrite D. simpl Rsum. ring.
  Qed.
  (** the trajectories coincide exactly when dampening = momentum or the first gradient is 0 *)
  Lemma momentum_iff : l <> 0 -> ((forall t i, fst (sgd_pair h gs x0 t) i = fst (ref_sgd_train h gs x0 t) i) <-> m = damp \/ forall i, g O i = 0).
  Proof.
    intros L. split.
    - intros H. destruct (Req_dec m damp) as [|N]; [auto|right]. intros i. specialize (H 1%nat i). rewrite momentum_points in H. simpl in H.
      assert (Z : l * (m - damp) * g O i = 0) by lra. apply Rmult_integral in Z. destruct Z as [Z|Z]; [|exact Z]. apply Rmult_integral in Z. destruct Z; lra.
    - intros [E|E] t i; rewrite momentum_points; [rewrite E|rewrite E]; ring.
  Qed.
End Momentum.

(** * What a step does to p.grad *)
Lemma grad_after h p g : grad p = Dense g -> grad (fst (sgd_update h p)) =
  Dense (if has_momentum h && nesterov h && egrad_same (manifold_of p) then sgd_direction h (manifold_of p) (val p) g (state p)
         else egrad_arg (manifold_of p) (val p) (decayed h (val p) g)).
Proof. intros E. unfold sgd_update. rewrite E. destruct (has_momentum h); [|reflexivity]. destruct (retr_transp _ _ _ _). reflexivity. Qed.
Lemma decay_kept h p g : grad p = Dense g -> weight_decay h = 0 -> egrad_arg (manifold_of p) (val p) g = g -> nesterov h = false ->
  grad (fst (sgd_update h p)) = Dense g.
Proof.
  intros E W A N. rewrite (grad_after h p g E), N, andb_false_r. cbn [andb]. f_equal.
  replace (decayed h (val p) g) with g; [exact A|]. apply vec_ext. intros i. unfold decayed, vadd, smul. rewrite W. ring.
Qed.
Definition h_decay : sgd_hyper := {| lr := 1; momentum := 0; dampening := 0; weight_decay := 1 / 2; nesterov := false; stabilize := None |}.
Lemma decay_changes : grad (fst (sgd_update h_decay (plain (fun _ => 2) None (Dense (fun _ => 0))))) = Dense (fun _ => 1).
Proof. rewrite (grad_after h_decay (plain (fun _ => 2) None (Dense (fun _ => 0))) (fun _ => 0) eq_refl). unfold has_momentum, h_decay. cbn. destruct (Rlt_dec 0 0); [lra|]. f_equal. apply vec_ext. intros i. unfold decayed, vadd, smul. cbn. lra. Qed.
Lemma const_ne (a b : R) : a <> b -> Dense (fun _ => a) <> Dense (fun _ => b).
Proof. intros N [= E]. apply N. exact (f_equal (fun f => f O) E). Qed.
(** Two steps on one gradient: weight decay is applied to the already decayed gradient. *)
Lemma two_steps_accumulate h x g : momentum h = 0 ->
  let p1 := fst (sgd_update h (plain x None (Dense g))) in
  let p2 := fst (sgd_update h p1) in
  forall i, val p2 i = val p1 i - lr h * (g i + weight_decay h * x i + weight_decay h * val p1 i).
Proof.
  intros Z. assert (H : has_momentum h = false) by (unfold has_momentum; rewrite Z; destruct (Rlt_dec 0 0); [lra|reflexivity]).
  intros p1 p2 i. unfold p2, p1. unfold sgd_update, plain. cbn. rewrite H. cbn. unfold sgd_direction. rewrite H. cbn. unfold vadd, smul, decayed, vadd, smul. ring.
Qed.
(** Witness for C55. *)
Definition h_mom : sgd_hyper := {| lr := 1; momentum := 1 / 2; dampening := 0; weight_decay := 0; nesterov := false; stabilize := None |}.
Lemma momentum_differs : forall i, fst (sgd_pair (fun _ => h_mom) (fun _ _ => Some (fun _ => 1)) vzero 1) i = - (3 / 2) /\
  fst (ref_sgd_train (fun _ => h_mom) (fun _ _ => Some (fun _ => 1)) vzero 1) i = -1.
Proof.
  intros i. split.
  - rewrite (momentum_points (fun _ => h_mom) (1/2) 0 (fun _ _ => 1) vzero (fun _ => eq_refl) (fun _ => eq_refl) (fun _ => eq_refl) (fun _ => eq_refl) ltac:(lra) 1 (fun _ => eq_refl)).
    cbn. destruct (Req_EM_T (1 / 2) 0); [lra|]. cbn. unfold vzero. lra.
  - cbn. destruct (Req_EM_T (1 / 2) 0); [lra|]. cbn. unfold vzero. lra.
Qed.
Lemma momentum_refuted : ~ forall hs gs x0 t, sgd_values (sgd_train hs gs x0 t) = [fst (ref_sgd_train hs gs x0 t)].
Proof.
  intros H. specialize (H (fun _ => h_mom) (fun _ _ => Some (fun _ => 1)) vzero 1%nat). rewrite train_values in H.
  apply (f_equal (fun l => nth 0 l vzero O)) in H. cbn [nth] in H. pose proof (momentum_differs O) as [A B]. rewrite A, B in H. lra.
Qed.
