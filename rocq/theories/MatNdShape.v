(** Broadcast shapes as a total operation. *)
From Coq Require Import List Arith Lia FunctionalExtensionality.
From Verif Require Import NdModel NdProofs StereoNdProofs.
From Verif Require StereoNdModel StereoNdSpec LorentzNdModel StereoNdProofs2 LorentzNdInst SphereNdInst.
Import ListNotations.

Fixpoint join (s1 s2 : list nat) : list nat :=
  match s1, s2 with
  | [], s => s
  | s, [] => s
  | a :: s1, b :: s2 => jd a b :: join s1 s2
  end.
Definition compat (T : nat -> nat) (s : list nat) : Prop := forall b, nth b s 1 = 1 \/ nth b s 1 = T b.

Lemma join_len s1 : forall s2, length (join s1 s2) = max (length s1) (length s2).
Proof. induction s1; intros [|b s2]; cbn; auto. Qed.
Lemma join_nth s1 : forall s2 b, nth b (join s1 s2) 1 = jd (nth b s1 1) (nth b s2 1).
Proof.
  induction s1 as [|d s1 IH]; intros [|d2 s2] [|b]; cbn; auto.
  - unfold jd. destruct (Nat.eqb_spec d 1); auto.
  - unfold jd. destruct (Nat.eqb_spec (nth b s1 1) 1) as [->|]; auto.
Qed.
Lemma compat_join T s1 s2 : compat T s1 -> compat T s2 -> compat T (join s1 s2).
Proof.
  intros A B b. rewrite join_nth. specialize (A b). specialize (B b). unfold jd.
  destruct (Nat.eqb_spec (nth b s1 1) 1); auto.
Qed.
Lemma bshape_join T s1 s2 : compat T s1 -> compat T s2 -> bshape s1 s2 = Some (join s1 s2).
Proof.
  intros A B. destruct (bshape_jd s1 s2 T A B) as (s & E & L & N). rewrite E. f_equal.
  apply shape_ext; [now rewrite join_len|]. intros b. rewrite join_nth. apply N.
Qed.
Lemma bshape_is_join s1 s2 s : bshape s1 s2 = Some s ->
  s = join s1 s2 /\ compat (fun b => nth b s 1) s1 /\ compat (fun b => nth b s 1) s2.
Proof.
  intros E.
  assert (A : compat (fun b => nth b s 1) s1 /\ compat (fun b => nth b s 1) s2).
  { apply bshape_spec in E as [_ H]. split; intros b; specialize (H b); apply bdim_spec in H; tauto. }
  split; [|exact A]. destruct A as [A B]. rewrite (bshape_join _ _ _ A B) in E. congruence.
Qed.
Lemma compat_trans T s1 s : compat (fun b => nth b s 1) s1 -> compat T s -> compat T s1.
Proof. intros A B b. destruct (A b) as [|E]; auto. rewrite E. apply B. Qed.
Lemma compat_self s : compat (fun b => nth b s 1) s.
Proof. intros b. auto. Qed.
Lemma join_same s : join s s = s.
Proof. apply shape_ext; [rewrite join_len; lia|]. intros b. rewrite join_nth. unfold jd. destruct (_ =? _); auto. Qed.
Lemma join_assoc s1 s2 s3 : join (join s1 s2) s3 = join s1 (join s2 s3).
Proof.
  apply shape_ext; [rewrite !join_len; lia|]. intros b. rewrite !join_nth. unfold jd.
  destruct (Nat.eqb_spec (nth b s1 1) 1) as [E|E]; auto. destruct (Nat.eqb_spec (nth b s1 1) 1); auto; tauto.
Qed.
Lemma join_again s1 s2 : join s1 (join s2 s1) = join s1 s2.
Proof.
  apply shape_ext; [rewrite !join_len; lia|]. intros b. rewrite !join_nth. unfold jd.
  destruct (Nat.eqb_spec (nth b s1 1) 1) as [E|E]; auto. destruct (Nat.eqb_spec (nth b s2 1) 1) as [E2|E2]; congruence.
Qed.
Lemma join_comm T s1 s2 : compat T s1 -> compat T s2 -> join s1 s2 = join s2 s1.
Proof.
  intros A B. apply shape_ext; [rewrite !join_len; lia|]. intros b. rewrite !join_nth. specialize (A b). specialize (B b).
  unfold jd. destruct (Nat.eqb_spec (nth b s1 1) 1) as [E|E], (Nat.eqb_spec (nth b s2 1) 1) as [E2|E2]; congruence + tauto + idtac.
  all: destruct A, B; congruence.
Qed.
Lemma norm_l s1 s2 ix : norm_index s1 (norm_index (join s1 s2) ix) = norm_index s1 ix.
Proof.
  apply functional_extensionality; intros a. unfold norm_index. rewrite join_nth. unfold jd.
  destruct (Nat.eqb_spec (nth a s1 1) 1) as [E|E]; auto. destruct (Nat.eqb_spec (nth a s1 1) 1); auto; tauto.
Qed.
Lemma norm_r T s1 s2 ix : compat T s1 -> compat T s2 -> norm_index s2 (norm_index (join s1 s2) ix) = norm_index s2 ix.
Proof. intros A B. rewrite (join_comm T s1 s2 A B). apply norm_l. Qed.
Lemma norm_under s ix : norm_index s (fun a => norm_index (1 :: 1 :: s) ix (S (S a))) = norm_index s (fun a => ix (S (S a))).
Proof.
  apply functional_extensionality; intros a. unfold norm_index. cbn [nth].
  destruct (nth a s 1 =? 1); auto.
Qed.
Lemma norm_under1 d s ix : norm_index s (fun a => norm_index (d :: s) ix (S a)) = norm_index s (fun a => ix (S a)).
Proof.
  apply functional_extensionality; intros a. unfold norm_index. cbn [nth].
  destruct (nth a s 1 =? 1); auto.
Qed.
Lemma norm_near s p c : (forall b, b < length s -> c b = p b) -> norm_index s c = norm_index s p.
Proof.
  intros H. apply functional_extensionality; intros b. unfold norm_index.
  destruct (Nat.lt_ge_cases b (length s)) as [B|B]; [rewrite H; auto|]. rewrite nth_overflow by lia. reflexivity.
Qed.
(** A position for every index: outside the shape nothing is read. *)
Lemma positions_all s (f : index -> bool) : (forall ix, f (norm_index s ix) = f ix) ->
  forallb f (LorentzNdModel.entries s) = true <-> forall ix, StereoNdSpec.inside s ix -> f ix = true.
Proof.
  intros K. apply SphereNdInst.entries_all. intros p c H. rewrite <- (K c), <- (K p).
  f_equal. apply norm_near. exact H.
Qed.

(** A view of the same shape. *)
Lemma unravel_ravel s : forall k ix, (forall b, b < length s -> ix (k + b) < nth b s 1) ->
  forall a, a < length s -> unravel s (ravel s k ix) a = ix (k + a).
Proof.
  induction s as [|d s IH]; intros k ix I a La; cbn [length] in La; [lia|].
  assert (D : ix k < d) by (specialize (I 0 ltac:(cbn; lia)); rewrite Nat.add_0_r in I; exact I).
  unfold unravel. destruct a as [|a]; cbn [firstn nth ravel].
  - unfold numel. cbn [fold_right]. rewrite Nat.div_1_r, Nat.add_0_r, (Nat.mul_comm d), Nat.mod_add by lia. apply Nat.mod_small, D.
  - change (numel (d :: firstn a s)) with (d * numel (firstn a s)).
    assert (N : numel (firstn a s) <> 0).
    { assert (P : forall l, (forall b, b < length l -> 0 < nth b l 1) -> numel l <> 0).
      { induction l as [|e l IHl]; intros H; [cbn; lia|]. change (numel (e :: l)) with (e * numel l).
        assert (0 < e) by exact (H 0 ltac:(cbn; lia)). assert (numel l <> 0); [|nia].
        apply IHl. intros b Hb. exact (H (S b) ltac:(cbn; lia)). }
      apply P. intros b Hb. rewrite firstn_length in Hb.
      assert (nth b (firstn a s) 1 = nth b s 1) as ->.
      { rewrite <- (firstn_skipn a s) at 2. rewrite app_nth1; auto. rewrite firstn_length. lia. }
      specialize (I (S b) ltac:(cbn; lia)). cbn [nth] in I. lia. }
    rewrite <- Nat.div_div by lia.
    replace ((ix k + d * ravel s (S k) ix) / d) with (ravel s (S k) ix).
    2:{ rewrite (Nat.mul_comm d), Nat.div_add by lia. rewrite Nat.div_small by lia. lia. }
    assert (Q := IH (S k) ix). unfold unravel in Q. rewrite Q; [f_equal; lia| |lia].
    intros b Hb. specialize (I (S b) ltac:(cbn; lia)). cbn [nth] in I. replace (S k + b) with (k + S b) by lia. exact I.
Qed.
Lemma norm_view s ix : StereoNdSpec.inside s ix ->
  norm_index s (unravel s (ravel s 0 (norm_index s ix))) = norm_index s ix.
Proof.
  intros I. rewrite <- (NdProofs.norm_idem s ix) at 2. apply norm_near. intros b Hb.
  rewrite unravel_ravel; auto. intros c Hc. cbn [Nat.add]. specialize (I c Hc).
  unfold norm_index. destruct (Nat.eqb_spec (nth c s 1) 1); lia.
Qed.

(** Two words over the same shapes, all compatible with one shape, are equal. *)
Ltac jsolve :=
  match goal with |- ?a = ?b => apply (shape_ext a b) end;
  [ rewrite ?join_len; lia
  | let c := fresh "c" in intros c; rewrite ?join_nth; unfold jd;
    repeat match goal with
    | H : compat _ ?s |- _ =>
        let E := fresh "E" in let N := fresh "N" in
        pose proof (H c) as E; clear H;
        destruct (Nat.eqb_spec (nth c s 1) 1) as [N|N];
        [rewrite ?N in *; clear E | destruct E as [E|E]; [contradiction|]; rewrite ?E in *]
    end;
    cbn [Nat.eqb];
    repeat (match goal with N : ?t <> 1 |- context [?t =? 1] => rewrite (proj2 (Nat.eqb_neq t 1) N) end; cbn [Nat.eqb]);
    repeat match goal with |- context [?x =? 1] => destruct (Nat.eqb_spec x 1) end; congruence ].
Example jsolve_works T a b c : compat T a -> compat T b -> compat T c ->
  join (join b (join a c)) (join a b) = join (join a b) c.
Proof. intros A B C. jsolve. Qed.
