(** Model of [jaccard_distance] and [sort_clusters],
    /repo/src/flowstab/network_clustering.py l.2152-2183 and l.2553-2589. *)
From Verif Require Import PartitionModel InfoModel Base.
Local Open Scope bool_scope.

(** ** jaccard_distance *)
(** l.2158-2169: lists become dictionaries *)
Definition to_dict (a : clusters_arg) : option dict :=
  match a with
  | AList cl => Some (build_dict cl)
  | ADict d => Some d
  | APartition _ => None
  end.
(** l.2171-2183: the loop over pairs; [None] is a KeyError *)
Fixpoint jaccard_loop (c1 c2 : dict) (ps : list (nat * nat)) (same diff : nat) : option (nat * nat) :=
  match ps with
  | [] => Some (same, diff)
  | (n1, n2) :: r =>
      match dget c1 n1, dget c1 n2, dget c2 n1, dget c2 n2 with
      | Some a1, Some a2, Some b1, Some b2 =>
          let same_in_1 := a1 =? a2 in
          let same_in_2 := b1 =? b2 in
          jaccard_loop c1 c2 r
            (if same_in_1 && same_in_2 then S same else same)
            (let d := if negb same_in_1 && same_in_2 then S diff else diff in
             if same_in_1 && negb same_in_2 then S d else d)
      | _, _, _, _ => None
      end
  end.
Definition jaccard_counts (c1 c2 : dict) : option (nat * nat) :=
  jaccard_loop c1 c2 (pairs_of (map fst c1)) 0 0.
(** The function has no return statement: the outer [None] is an exception, [Some None] the
    value None of python. *)
Definition jaccard_distance (a1 a2 : clusters_arg) : option (option num) :=
  match to_dict a1, to_dict a2 with
  | Some c1, Some c2 => match jaccard_counts c1 c2 with None => None | Some _ => Some None end
  | _, _ => None
  end.

(** ** sort_clusters *)
(** [len(clust.intersection(class_clust))/len(clust.union(class_clust))], l.2559-2561; [None]
    is a ZeroDivisionError *)
Definition jacc (a b : list nat) : option num :=
  let i := inter_len a b in
  let u := length a + length b - i in
  if u =? 0 then None else Some (qn i / qn u)%num.
Definition similarity_row (model : list (list nat)) (c : list nat) : option (list num) := all_some (map (jacc c) model).
(** l.2556-2565 *)
Definition similarity (cls model : list (list nat)) : option (list (list num)) := all_some (map (similarity_row model) cls).

(** [scores.max()], l.2581 *)
Definition num_max (l : list num) : num := fold_left (fun m x => if qltb m x then x else m) (tl l) (hd 0%num l).
(** the body of the loop over classes, l.2574-2584; [argsort] is np.argsort, whose order
    among equal values is not specified; [None] is the ValueError of an empty maximum *)
Definition class_step (argsort : list num -> list nat) (thr : num) (M : list (list num)) (all : list nat)
  (cla : nat) (new : list nat) : option (list nat) :=
  let col := map (fun i => nth cla (nth i M []) 0%num) all in
  let sorted_comms := rev (argsort col) in
  let scores := map (fun c => nth c col 0%num) sorted_comms in
  if negb (nonempty scores) then None
  else
    let mx := num_max scores in
    if qltb 0%num mx then
      Some (fold_left (fun new cs =>
              let c := fst cs in
              let s := (snd cs / mx)%num in
              if qleb thr s && negb (memb (nth c all 0) new) then new ++ [nth c all 0] else new)
            (combine sorted_comms scores) new)
    else Some new.
Definition class_pass (argsort : list num -> list nat) (thr : num) (M : list (list num)) (ncla : nat)
  (all new : list nat) : option (list nat) :=
  fold_left (fun acc cla => match acc with None => None | Some new => class_step argsort thr M all cla new end)
    (seq 0 ncla) (Some new).
(** the while loop, l.2572-2588 *)
Inductive sres := SDone (order : list nat) | SRaised | SFuel.
Fixpoint sort_loop (fuel : nat) (argsort : list num -> list nat) (thr : num) (M : list (list num)) (ncla target : nat)
  (all new : list nat) : sres :=
  if length new <? target then
    match fuel with
    | 0 => SFuel
    | S f =>
        match class_pass argsort thr M ncla all new with
        | None => SRaised
        | Some new' => sort_loop f argsort thr M ncla target (filter (fun i => negb (memb i new')) all) new'
        end
    end
  else SDone new.
(** [sort_clusters], l.2553-2589: the list of clusters ([Some]), an exception, or no result
    after [fuel] rounds.  The sum over axis 1 of the array made from an empty list raises an
    exception. *)
Inductive sort_res := Sorted_to (cls : list (list nat)) | Sort_raised | Sort_running.
Definition sort_clusters (fuel : nat) (argsort : list num -> list nat) (cls model : list (list nat)) (thr : num) : sort_res :=
  if negb (nonempty cls) then Sort_raised
  else match similarity cls model with
       | None => Sort_raised
       | Some M =>
           let rows := seq 0 (length cls) in
           let zero := filter (fun i => qeqb (sumL (fun x => x) (nth i M [])) 0%num) rows in
           let all := filter (fun i => negb (memb i zero)) rows in
           match sort_loop fuel argsort thr M (length model) (length cls - length zero) all [] with
           | SDone new => Sorted_to (map (fun i => nth i cls []) (new ++ zero))
           | SRaised => Sort_raised
           | SFuel => Sort_running
           end
       end.
