(** Lemmas about the line search model: questions, methods, steps. *)
From Coq Require Import Reals List Bool Arith Lra Lia.
From Verif Require Import RVec LineSearchModel LineSearchSpec LineSearchProofs.
Import ListNotations.
Local Open Scope R_scope.

Section LineSearch.
  Variable dot_all : vec -> vec -> R.
  Variable closure : list vec -> R * list (option vec).
  Variables cd tg td : bool.
  Variable cg : list lparam -> R.
  Variable fallback : R.
  Variable stab : option nat.
  Notation man := (man_of dot_all).
  Hypothesis Htot : all_gradients closure.
  Notation after := (after dot_all closure cd).
  Notation trial := (trial dot_all cd).
  Notation loss_at := (loss_at dot_all closure cd).
  Notation grads_at := (grads_at dot_all closure cd).
  Notation slope_at := (slope_at dot_all closure cd).
  Notation tpoint := (tpoint dot_all cd).
  Notation tdir := (tdir dot_all cd).

  (** ** Questions *)
  Lemma ask_after o0 tried o q : directed (ps o0) -> dict o0 = [] -> after o0 tried o ->
    (cd = true \/ forall a, q <> QDerphi a) ->
    exists v o', ask dot_all closure cd q o = (LOk v, o') /\
      after o0 (if in_dec Req_EM_T (step_of q) tried then tried else step_of q :: tried) o' /\
      (forall a, q = QPhi a -> v = loss_at (ps o0) a).
  Proof.
    intros D E A C. destruct q as [a|a]; cbn [ask step_of].
    - destruct (phi_after dot_all closure cd Htot o0 tried o a D E A) as (o' & P & A').
      exists (loss_at (ps o0) a), o'. split; [exact P|]. split; [exact A'|]. intros b Hb. now injection Hb as <-.
    - assert (C' : cd = true) by (destruct C as [|C]; auto; now destruct (C a)).
      destruct (derphi_after dot_all closure cd Htot o0 tried o a D E A C') as (o' & b & tr & P & T & Dp & A').
      exists (slope_at (ps o0) b), o'. rewrite T. split; [exact Dp|]. split; [exact A'|]. discriminate.
  Qed.
  Lemma ask_all_after o0 qs : directed (ps o0) -> dict o0 = [] -> allowed cd qs ->
    forall tried o, after o0 tried o ->
    exists vs o', ask_all dot_all closure cd qs o = (LOk vs, o') /\
      after o0 (rev (distinct tried (map step_of qs)) ++ tried) o' /\
      Forall2 (fun q v => forall a, q = QPhi a -> v = loss_at (ps o0) a) qs vs.
  Proof.
    intros D E. induction qs as [|q qs IH]; intros C tried o A.
    - exists [], o. split; [reflexivity|]. split; [exact A|constructor].
    - destruct (ask_after o0 tried o q D E A) as (v & o1 & P & A1 & V).
      { destruct C as [C|C]; auto. right. intros a ->. apply (C a). now left. }
      destruct (IH) with (tried := if in_dec Req_EM_T (step_of q) tried then tried else step_of q :: tried) (o := o1)
        as (vs & o2 & P2 & A2 & V2); auto.
      { destruct C as [C|C]; [now left|right]. intros a Ha. apply (C a). now right. }
      exists (v :: vs), o2. split; [|split].
      + cbn [ask_all]. rewrite (bind_of _ _ _ _ _ P), (bind_of _ _ _ _ _ P2). reflexivity.
      + cbn [map distinct]. destruct (in_dec Req_EM_T (step_of q) tried); auto.
        cbn [rev]. rewrite <- app_assoc. exact A2.
      + constructor; auto.
  Qed.

  Lemma tpoint_reach a p : cd = false \/ agrees dot_all p -> tpoint a p = reach dot_all a p.
  Proof.
    unfold LineSearchProofs.tpoint, reach. destruct (s_dir p) as [d|] eqn:E; auto. intros [->|A]; auto.
    destruct cd; auto. destruct (A d E a) as (A1 & A2 & A3). rewrite A1. exact A2.
  Qed.
  Lemma tdir_carried a p : agrees dot_all p -> cd = true -> tdir a p = carried dot_all a p.
  Proof.
    intros A C. unfold LineSearchProofs.tdir. rewrite tpoint_reach by auto. unfold reach, carried.
    destruct (s_dir p) as [d|] eqn:E; auto. destruct (A d E a) as (A1 & A2 & A3). rewrite A1. exact A3.
  Qed.
  Lemma trial_reach l a : cd = false \/ Forall (agrees dot_all) l -> trial l a = map (reach dot_all a) l.
  Proof.
    intros H. apply map_ext_in. intros p Hp. apply tpoint_reach. destruct H as [H|H]; auto.
    right. now apply (proj1 (Forall_forall _ _) H).
  Qed.
  Lemma loss_objective l a : cd = false \/ Forall (agrees dot_all) l -> loss_at l a = objective dot_all closure l a.
  Proof. intros H. unfold LineSearchProofs.loss_at, objective. now rewrite trial_reach. Qed.
  Lemma slope_derivative l a : Forall (agrees dot_all) l -> cd = true -> slope_at l a = derivative dot_all closure l a.
  Proof.
    intros H C. unfold LineSearchProofs.slope_at, LineSearchProofs.grads_at, derivative. rewrite trial_reach by auto. f_equal.
    generalize (snd (closure (map (reach dot_all a) l))). intro gs. revert gs.
    induction l as [|p l IH]; intros gs; auto. destruct gs as [|g gs]; auto. cbn [zip_with]. pose proof (Forall_inv H) as H1. pose proof (Forall_inv_tail H) as H2.
    f_equal; auto. unfold term. destruct g; auto. now rewrite tpoint_reach, tdir_carried by auto.
  Qed.

  (** ** Methods *)
  Definition latest (l0 : list lparam) (tried : list R) : option (R * R) :=
    match tried with [] => None | a :: _ => Some (a, loss_at l0 a) end.
  Lemma interact_after o0 : directed (ps o0) -> dict o0 = [] -> forall t tried o found o',
    after o0 tried o -> interact dot_all closure cd t o = (LOk found, o') ->
    exists tried', after o0 tried' o' /\ (tried' = [] -> t = Answer found) /\ incl tried tried' /\
      (forall good, ends_on good tried (latest (ps o0) tried) t ->
         forall a, found = Some a -> good a (loss_at (ps o0) a) /\ exists tl, tried' = a :: tl) /\
      (forall seen, incl seen tried -> answers_asked seen t -> forall a, found = Some a -> In a tried').
  Proof.
    intros D E. induction t as [r|a k IH|a k IH]; intros tried o found o' A H.
    - injection H as <- <-. exists tried. split; auto. split; auto. split; [apply incl_refl|]. split.
      + intros good En a ->. inversion En; subst. destruct tried as [|b tl]; [discriminate|].
        cbn in *. match goal with Hs : Some _ = Some _ |- _ => injection Hs as -> -> end. split; auto. now exists tl.
      + intros seen I An a ->. inversion An; subst; auto.
    - destruct (phi_after dot_all closure cd Htot o0 tried o a D E A) as (o1 & P & A1).
      cbn [interact] in H. rewrite (bind_of _ _ _ _ _ P) in H.
      destruct (IH _ _ _ _ _ A1 H) as (tr & B1 & B2 & B3 & B4 & B5).
      exists tr. split; auto.
      assert (I : incl tried tr /\ In a tr).
      { destruct (in_dec Req_EM_T a tried) as [I|I].
        - split; auto.
        - split; [intros x Hx; apply B3; now right|apply B3; now left]. }
      split; [intros ->; destruct (proj2 I)|]. split; [tauto|]. split.
      + intros good En b Hb. apply (B4 good); auto. destruct (in_dec Req_EM_T a tried) as [J|J].
        * inversion En; subst; auto. contradiction.
        * inversion En; subst; [|contradiction]. cbn. auto.
      + intros seen Is An b Hb. inversion An; subst. eapply B5; eauto. destruct (in_dec Req_EM_T a tried) as [J|J].
        * intros x [<-|Hx]; auto.
        * intros x [<-|Hx]; [now left|right; auto].
    - destruct cd eqn:C.
      2:{ cbn [interact] in H. unfold derphi, bind, raise in H. discriminate. }
      destruct (derphi_after dot_all closure true Htot o0 tried o a D E A eq_refl) as (o1 & b & tl & P & T & Dp & A1).
      cbn [interact] in H. rewrite (bind_of _ _ _ _ _ Dp) in H.
      destruct (IH _ _ _ _ _ A1 H) as (tr & B1 & B2 & B3 & B4 & B5).
      exists tr. split; auto.
      assert (I : incl tried tr /\ In a tr).
      { destruct (in_dec Req_EM_T a tried) as [I|I].
        - rewrite T in I |- *. auto.
        - injection T as <- <-. split; [intros x Hx; apply B3; now right|apply B3; now left]. }
      split; [intros ->; destruct (proj2 I)|]. split; [tauto|]. split.
      + intros good En c Hc. apply (B4 good); auto. destruct (in_dec Req_EM_T a tried) as [J|J].
        * inversion En; subst; auto. contradiction.
        * injection T as <- <-. inversion En; subst; [|contradiction]. cbn. auto.
      + intros seen Is An c Hc. inversion An; subst. eapply B5; eauto. destruct (in_dec Req_EM_T a tried) as [J|J].
        * rewrite T in J, Is. intros x [<-|Hx]; auto.
        * injection T as <- <-. intros x [<-|Hx]; [now left|right; auto].
  Qed.
End LineSearch.
