(** Lemmas for SamplerProps: staying on the manifold, RSGLD and SGRHMC. *)
From Coq Require Import Reals List Bool Arith Lra Lia.
From Verif Require Import RVec OptimModel OptimSpec SamplerModel SamplerSpec SamplerProofs SamplerProofs2.
Import ListNotations.
Local Open Scope R_scope.

(** * Staying on the manifold *)
Section On.
  Variable on : option manifold -> vec -> Prop.
  Variable tan : option manifold -> vec -> vec -> Prop.
  Definition ruled (p : sparam) : Prop := lawful (s_manifold p) (on (v_man p)) (tan (v_man p)).
  (** on the manifold, and carrying a tangent momentum once it moves *)
  Definition aligned (p : sparam) : Prop :=
    ruled p /\ on (v_man p) (v_val p) /\ (v_grad p <> None -> forall h, v_hmc p = Some h -> on (v_man p) (old_p h) /\ tan (v_man p) (v_val p) (mom h)).
  Lemma kick_aligned p h g x : ruled p -> on (v_man p) (v_val p) -> on (v_man p) (old_p h) -> tan (v_man p) (v_val p) (mom h) -> aligned (put_grad x (kick p h g)).
  Proof.
    intros L O Oo T. unfold kick. set (r := vadd _ _).
    assert (Tr : tan (v_man p) (v_val p) r) by (apply (tan_add _ _ _ L); [exact T|apply (tan_scale _ _ _ L), (grad_tan _ _ _ L), O]).
    pose proof (rt_on _ _ _ L _ (smul (v_eps p) r) r O (tan_scale _ _ _ L _ _ _ Tr) Tr) as R1.
    pose proof (rt_tan _ _ _ L _ (smul (v_eps p) r) r O (tan_scale _ _ _ L _ _ _ Tr) Tr) as R2.
    destruct (retr_transp (s_manifold p) (v_val p) _ _) as [y w]. cbn [fst snd] in R1, R2.
    split; [exact L|]. split; [exact R1|]. intros _ h' E. injection E as <-. split; [exact Oo|exact R2].
  Qed.
  Lemma begin_aligned p z : ruled p -> on (v_man p) (v_val p) -> aligned (fst (begin p z)).
  Proof.
    intros L O. unfold begin. destruct (v_grad p) eqn:G; cbn [fst].
    - apply kick_aligned; auto. cbn [mom]. apply (grad_tan _ _ _ L), O.
    - split; [exact L|]. split; [exact O|]. rewrite G. congruence.
  Qed.
  Lemma continue_aligned p u : aligned p -> aligned (fst (continue p u)).
  Proof.
    intros A. pose proof A as (L & O & T). unfold continue. destruct (v_grad p) eqn:G; cbn [fst]; [|exact A].
    destruct (v_hmc p) eqn:Hh; cbn [fst]; [|exact A]. destruct (T ltac:(congruence) h eq_refl) as [T1 T2]. apply kick_aligned; auto.
  Qed.
  Lemma finish_aligned e p u : aligned p -> aligned (fst (finish e p u)).
  Proof.
    intros A. pose proof A as (L & O & T). unfold finish. destruct (v_grad p) eqn:G; cbn [fst]; [|exact A].
    destruct (v_hmc p) eqn:Hh; cbn [fst]; [|exact A]. destruct e as [e|]; cbn [fst]; [|exact A]. destruct (T ltac:(congruence) h eq_refl) as [T1 T2].
    split; [exact L|]. split; [exact O|]. intros _ h' E. injection E as <-. split; [exact T1|]. cbn [mom].
    apply (tan_add _ _ _ L); [exact T2|apply (tan_scale _ _ _ L), (grad_tan _ _ _ L), O].
  Qed.
  Lemma restore_on p : aligned p -> on (v_man (restore p)) (v_val (restore p)).
  Proof.
    intros (L & O & T). unfold restore. destruct (v_grad p) eqn:G; [|exact O]. destruct (v_hmc p) eqn:Hh; [|exact O].
    apply (T ltac:(congruence) h eq_refl).
  Qed.
  Lemma sweep_inv {A} (P : sparam -> Prop) (f : sparam -> A -> sparam * sstatus) : (forall p x, P p -> P (fst (f p x))) ->
    forall l xs, Forall P l -> Forall P (fst (sweep f l xs)).
  Proof.
    intros H. induction l as [|p l IH]; intros [|x xs] F; simpl; auto. inversion F as [|? ? Pp Fl]; subst.
    pose proof (H p x Pp) as Q. destruct (f p x) as [p' st]. cbn [fst] in Q. destruct st.
    - specialize (IH xs Fl). destruct (sweep f l xs). cbn [fst] in *. constructor; auto.
    - cbn [fst]. constructor; auto.
  Qed.
  (** gradients may only appear where they already are *)
  Lemma backward_aligned l0 l : Forall2 track l0 l -> forall gs, idle gs (map fst l0) -> Forall aligned l -> Forall aligned (backward l gs).
  Proof.
    induction 1 as [|[p0 z] p l0 l T F IH]; intros [|g gs] I A; simpl; auto.
    inversion A as [|? ? Ap Al]; subst. constructor; [|apply IH; [apply (idle_tl g gs p0 (map fst l0) I)|exact Al]].
    destruct g as [g|]; [|exact Ap]. destruct Ap as (L & O & Tn). split; [exact L|]. split; [exact O|]. intros _ h Hh.
    apply Tn; [|exact Hh]. intros G. destruct T as [_ T]. destruct (v_grad p0) eqn:G0.
    - destruct T as (g' & _ & G' & _). congruence.
    - apply (I 0%nat p0 g); [reflexivity|exact G0|reflexivity].
  Qed.
  Section R.
    Variable closure : list vec -> R * list (option vec).
    Variable lim : R.
    Lemma repeat_aligned l0 : calm closure (map fst l0) -> forall k s s' st, Forall2 track l0 (params s) -> Forall aligned (params s) ->
      repeat_continue closure k s = (s', st) -> Forall aligned (params s').
    Proof.
      intros C. induction k as [|k IH]; intros s s' st F A E; simpl in E; [injection E as <- _; exact A|].
      rewrite evaluate_eq in E. cbn [params put_evals put_params] in E.
      assert (T1 : Forall2 track l0 (backward (params s) (snd (closure (values s))))) by (apply track_backward; [exact F|apply C, track_length, F]).
      assert (A1 : Forall aligned (backward (params s) (snd (closure (values s))))) by (eapply backward_aligned; [exact F|apply C, track_length, F|exact A]).
      pose proof (sweep_inv aligned continue continue_aligned _ (units (backward (params s) (snd (closure (values s))))) A1) as A2.
      destruct (sweep continue _ _) as [l st1] eqn:W in E. rewrite W in A2. cbn [fst] in A2.
      destruct st1; [|injection E as <- _; exact A2]. apply IH in E; [exact E| |exact A2]. eapply track_continue; [exact T1|exact W].
    Qed.
    Lemma backward_man l gs : map v_man (backward l gs) = map v_man l.
    Proof. revert gs. induction l as [|p l IH]; intros [|g gs]; simpl; auto. f_equal; [destruct g; reflexivity|]. apply IH. Qed.
    Lemma backward_all (P : sparam -> Prop) : (forall p g, P p -> P (put_grad g p)) -> forall l gs, Forall P l -> Forall P (backward l gs).
    Proof.
      intros H. induction l as [|p l IH]; intros [|g gs] F; simpl; auto. inversion F; subst. constructor; [|apply IH; assumption].
      destruct g; cbn [add_grad]; auto.
    Qed.
    Lemma opened_ruled s : lawfuls on tan s -> settled on s -> Forall (fun p => ruled p /\ on (v_man p) (v_val p)) (opened closure s).
    Proof.
      intros L O. apply backward_all; [auto|]. apply Forall_forall. intros p P. split; [apply L, P|apply O, P].
    Qed.
    Lemma rhmc_aligned zs u s s' st : steady closure -> length zs = length (params s) -> lawfuls on tan s -> settled on s ->
      rhmc_step closure lim zs u s = (s', st) -> Forall (fun p => on (v_man p) (v_val p)) (params s').
    Proof.
      intros S L Lw O E. unfold rhmc_step in E. rewrite evaluate_eq in E. cbv beta iota zeta in E. cbn [params put_evals put_params] in E.
      fold (opened closure s) in E. pose proof (steady_calm closure s S) as C. fold (opened closure s) in C.
      assert (LO : length zs = length (opened closure s)) by (rewrite opened_length; exact L).
      assert (A1 : Forall aligned (fst (sweep begin (opened closure s) zs))).
      { pose proof (opened_ruled s Lw O) as F. revert LO F. generalize (opened closure s) as l. generalize zs. clear.
        induction zs as [|z zs IH]; intros [|p l] L F; simpl in L; try lia; simpl; auto. inversion F as [|? ? [P1 P2] Fl]; subst.
        pose proof (begin_aligned p z P1 P2) as A. pose proof (begin_total p z) as B. destruct (begin p z) as [p' st']. cbn [fst snd] in A, B. subst st'.
        specialize (IH l ltac:(lia) Fl). destruct (sweep begin l zs). cbn [fst] in *. constructor; auto. }
      destruct (sweep begin (opened closure s) zs) as [l1 st1] eqn:W1. pose proof (track_begin _ _ _ _ LO W1) as T1. cbn [fst] in A1.
      rewrite <- (fst_combine (opened closure s) zs) in C by (symmetry; exact LO).
      assert (weak : forall l, Forall aligned l -> Forall (fun p => on (v_man p) (v_val p)) l) by (intros l; apply Forall_impl; intros p (_ & P & _); exact P).
      destruct (repeat_continue closure _ _) as [s2 st2] eqn:W2 in E. pose proof W2 as W2'. cbn [n_steps put_params] in W2.
      apply (repeat_spec closure (combine (opened closure s) zs) C) in W2; [|exact T1]. destruct W2 as (T2 & K2 & N2).
      apply (repeat_aligned _ C) in W2'; [|exact T1|exact A1].
      destruct st2; [|injection E as <- _; apply weak; exact W2'].
      rewrite evaluate_eq in E. cbv beta iota zeta in E. cbn [params put_evals put_params] in E.
      assert (A3 : Forall aligned (backward (params s2) (snd (closure (values s2))))) by (eapply backward_aligned; [exact T2|apply C, track_length, T2|exact W2']).
      pose proof (sweep_inv aligned _ (finish_aligned (last_eps (opened closure s) None)) _ (units (backward (params s2) (snd (closure (values s2))))) A3) as A4.
      destruct (sweep (finish _) _ _) as [l3 st3] eqn:W3 in E. rewrite W3 in A4. cbn [fst] in A4.
      destruct st3; [|injection E as <- _; apply weak; exact A4].
      destruct (Rlt_dec lim _) in E; injection E as <- _; [apply weak; exact A4|].
      unfold decide. cbn [params]. destruct (Rle_dec _ u); [|apply weak; exact A4]. cbn [params put_params].
      apply Forall_forall. intros p P. apply in_map_iff in P. destruct P as (q & <- & Q). apply restore_on. rewrite Forall_forall in A4. apply A4, Q.
    Qed.
    Lemma rhmc_settled zs u s s' st : steady closure -> one_each zs s -> lawfuls on tan s -> settled on s ->
      rhmc_step closure lim zs u s = (s', st) -> settled on s' /\ same_manifolds s s'.
    Proof.
      intros S L Lw O E. split.
      - intros p P. pose proof (rhmc_aligned _ _ _ _ _ S L Lw O E) as F. rewrite Forall_forall in F. apply F, P.
      - pose proof (rhmc_inv closure lim _ _ _ _ _ S L E) as I. unfold same_manifolds.
        assert (LO : length zs = length (opened closure s)) by (rewrite opened_length; exact L).
        assert (Bm : map v_man (opened closure s) = map v_man (params s)).
        { apply backward_man. }
        assert (Tm : forall l, Forall2 track (combine (opened closure s) zs) l -> map v_man l = map v_man (opened closure s)).
        { intros l F. rewrite <- (fst_combine (opened closure s) zs) at 1 by (symmetry; exact LO). symmetry. rewrite map_map.
          eapply f2_map; [|exact F]. intros [p0 z] q [(M & _) _]. symmetry. exact M. }
        destruct st; [|rewrite (Tm _ (proj1 I)); symmetry; exact Bm].
        destruct I as (w & T & _ & _ & Ev). rewrite Ev in E. injection E as <-. rewrite <- Bm, <- (Tm _ T). unfold decide. destruct (Rle_dec _ u); cbn [params]; [|reflexivity].
        rewrite map_map. apply map_ext. intros p. unfold restore. destruct (v_grad p); [destruct (v_hmc p)|]; reflexivity.
    Qed.
  End R.
End On.
