(** Model of geoopt/datasets/stereographic.py StereographicTreeDataset.

    Values are vectors; geodesic_unit and random of the ball, and the normal draws, are
    arguments.  The draws are indexed: [draw n r] is row r of the matrix drawn in the
    n-th call of get_directions, [sample std n j v] the j-th observation drawn around v
    while visiting node n.  The class counter is a natural number.  The queue loop runs
    on fuel; an exhausted fuel is [None] and never happens (TreeProps). *)
From Coq Require Import Reals List Bool Arith ZArith.
From Verif Require Import RVec.
Import ListNotations.
Local Open Scope R_scope.

Inductive tree_error := TZeroDivisionError | TRuntimeError.
Inductive tree_result (A : Type) := TOk (a : A) | TRaise (e : tree_error).
Arguments TOk {A}. Arguments TRaise {A}.

(** label[i] = z *)
Fixpoint set_at (i : nat) (z : Z) (l : list Z) : list Z :=
  match l, i with
  | [], _ => []
  | _ :: l, O => z :: l
  | a :: l, S i => a :: set_at i z l
  end.
(** labels.max(-1).values *)
Definition max_of (l : list Z) : Z := fold_right Z.max (-1)%Z l.

Record dataset := {
  origin_data : list vec; origin_labels : list (list Z);
  data : list vec; labels : list (list Z); num_classes : Z
}.
(** a queue entry: value, label, depth *)
Notation entry := (vec * list Z * nat)%type.
Section Tree.
  Variables (dim depth children siblings : nat).
  Variables (dist_children sigma_sibling : R).
  Variable geodesic_unit : R -> vec -> vec -> vec.
  Variable draw : nat -> nat -> vec.
  Variable sample : R -> nat -> nat -> vec -> vec.
  Variable root : vec.

  (** 56-66 get_directions, called for the n-th time *)
  Definition unit_of (v : vec) : vec := vdiv v (Rmax (nrm dim v) (/ 10 ^ 15)).
  Definition reject_from (p d : vec) : vec := vsub d (smul (dot dim p d) p).
  Definition get_directions (n : nat) (parent : vec) : list vec :=
    let p := unit_of parent in
    if (dim =? 2)%nat && (children =? 2)%nat then let d := reject_from p (draw n 0) in [d; vopp d]
    else map (fun r => reject_from p (draw n r)) (seq 0 children).

  (** 68-84 get_children with offspring=True; [counter] is the next class number *)
  Definition offspring (n : nat) (v : vec) (l : list Z) (d counter : nat) : list entry :=
    map (fun jr => (geodesic_unit dist_children v (snd jr), set_at d (Z.of_nat (counter + fst jr)) l, S d))
        (combine (seq 0 (length (get_directions n v))) (get_directions n v)).
  (** 85-92 with offspring=False *)
  Definition clones (n : nat) (v : vec) (l : list Z) : list (vec * list Z) :=
    map (fun j => (sample (sqrt sigma_sibling) n j v, l)) (seq 0 siblings).

  (** 103-117; [n] counts the nodes visited *)
  Fixpoint bst_loop (fuel n counter : nat) (queue : list entry) (visited cl : list (vec * list Z)) : option (list (vec * list Z) * list (vec * list Z)) :=
    match fuel with
    | O => None
    | S fuel =>
        match queue with
        | [] => Some (visited, cl)
        | (v, l, d) :: queue =>
            let kids := if (d <? depth)%nat then offspring n v l d counter else [] in
            bst_loop fuel (S n) (counter + length kids) (queue ++ kids) (visited ++ [(v, l)])
              (if (d <=? depth)%nat then cl ++ clones n v l else cl)
        end
    end.
  (** 96-98 *)
  Definition root_label : list Z := set_at 0 0%Z (repeat (-1)%Z (S depth)).
  (** 118-121; float division and int() are exact below 2^53 *)
  Definition expected : option Z :=
    if (children =? 1)%nat then None
    else Some (Z.quot (Z.of_nat children ^ Z.of_nat (S depth) - 1) (Z.of_nat children - 1)).
  (** 122-132 and 44-47: reshape needs the expected number of rows, torch.cat a
      non-empty list, max a non-empty tensor *)
  Definition construct (fuel : nat) : option (tree_result dataset) :=
    match bst_loop fuel 0 1 [(root, root_label, O)] [] [] with
    | None => None
    | Some (visited, cl) =>
        Some match expected with
        | None => TRaise TZeroDivisionError
        | Some n =>
            if negb (Z.of_nat (length visited) =? n)%Z then TRaise TRuntimeError
            else if (length cl =? 0)%nat then TRaise TRuntimeError
            else if negb (Z.of_nat (length cl) =? Z.of_nat siblings * n)%Z then TRaise TRuntimeError
            else if (depth =? 0)%nat then TRaise TRuntimeError
            else TOk {| origin_data := map fst visited;
                        origin_labels := map (fun x => firstn depth (snd x)) visited;
                        data := map fst cl; labels := map snd cl;
                        num_classes := max_of (map max_of (map (fun x => firstn depth (snd x)) visited)) + 1 |}
        end
    end.
  (** 49-54 *)
  Definition size (d : dataset) : nat := length (data d).
  Definition get_item (d : dataset) (i : nat) : option (vec * list Z * Z) :=
    match nth_error (data d) i, nth_error (labels d) i with
    | Some v, Some l => Some (v, l, max_of l)
    | _, _ => None
    end.
End Tree.
