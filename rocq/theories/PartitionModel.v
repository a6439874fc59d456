(** Model of class [Partition], /repo/src/flowstab/network_clustering.py 62-275.

    Simplifications: node and cluster indices are natural numbers (python would
    also accept negative list indices); a python [set] of nodes is a list whose
    order carries no meaning; aliasing of the caller's containers is not
    modelled. *)
From Verif Require Import Base.

(** python dict with integer keys: association list in insertion order *)
Definition dict := list (nat * nat).
Fixpoint dget (d : dict) (k : nat) : option nat :=
  match d with
  | [] => None
  | (k', v) :: r => if Nat.eqb k' k then Some v else dget r k
  end.
Fixpoint dset (d : dict) (k v : nat) : dict :=
  match d with
  | [] => [(k, v)]
  | (k', v') :: r => if Nat.eqb k' k then (k, v) :: r else (k', v') :: dset r k v
  end.
(** [set.add] *)
Definition set_add (x : nat) (s : list nat) : list nat := if memb x s then s else x :: s.

(** The attributes num_nodes, cluster_list, node_to_cluster_dict (l.97-116). *)
Record partition := mkPart {
  num_nodes : nat;
  cluster_list : list (list nat);
  n2c : dict
}.

(** Outcome of a method that mutates the object: normal return, or an exception
    together with the state the object is left in. *)
Inductive outcome := Done (p : partition) | Raised (p : partition).

(** [for i, clust in enumerate(cluster_list): for node in clust: d[node] = i]
    (l.106-109 and l.170-173); [i] is the running index. *)
Fixpoint build_dict_from (i : nat) (cl : list (list nat)) (d : dict) : dict :=
  match cl with
  | [] => d
  | c :: r => build_dict_from (S i) r (fold_left (fun d x => dset d x i) c d)
  end.
Definition build_dict (cl : list (list nat)) : dict := build_dict_from 0 cl [].

Definition nonempty {A} (c : list A) : bool := match c with [] => false | _ => true end.

(** [remove_empty_clusters], l.160-173. *)
Definition remove_empty_clusters (p : partition) : partition :=
  let cl := filter nonempty (cluster_list p) in
  mkPart (num_nodes p) cl (build_dict cl).

(** [__init__] with neither argument, l.99-102 and l.122. *)
Definition part_default (n : nat) : partition :=
  remove_empty_clusters
    (mkPart n (map (fun x => [x]) (seq 0 n)) (map (fun x => (x, x)) (seq 0 n))).

(** [__init__] with cluster_list, l.104-109 and l.122. *)
Definition part_of_list (n : nat) (cl : list (list nat)) : partition :=
  remove_empty_clusters (mkPart n cl (build_dict cl)).

(** [max(d.values())]; [None] is python's ValueError for an empty dict. *)
Definition dict_max (d : dict) : option nat :=
  match d with
  | [] => None
  | _ => Some (fold_right (fun kv m => Nat.max (snd kv) m) 0 d)
  end.

(** l.113-116: allocate max+1 empty sets and add each node to its cluster *)
Definition lists_of_dict (m : nat) (d : dict) : list (list nat) :=
  fold_left (fun cl kv => upd cl (snd kv) (set_add (fst kv) (nth (snd kv) cl [])))
            d (repeat [] (S m)).

(** [__init__] with node_to_cluster_dict, l.111-116 and l.122. *)
Definition part_of_dict (n : nat) (d : dict) : option partition :=
  match dict_max d with
  | None => None
  | Some m => Some (remove_empty_clusters (mkPart n (lists_of_dict m d) d))
  end.

(** [move_node], l.138-157.  The dict is updated first (l.153), then the node is
    removed from its old set (l.154, KeyError if absent) and added to the new
    one (l.155, IndexError if there is no such cluster). *)
Definition move_node (p : partition) (node c_f : nat) : outcome :=
  match dget (n2c p) node with
  | None => Raised p
  | Some c_i =>
      if Nat.eqb c_i c_f then Done p
      else
        let d' := dset (n2c p) node c_f in
        match nth_error (cluster_list p) c_i with
        | None => Raised (mkPart (num_nodes p) (cluster_list p) d')
        | Some s_i =>
            if memb node s_i then
              let cl1 := upd (cluster_list p) c_i (rem node s_i) in
              match nth_error cl1 c_f with
              | None => Raised (mkPart (num_nodes p) cl1 d')
              | Some s_f => Done (mkPart (num_nodes p) (upd cl1 c_f (set_add node s_f)) d')
              end
            else Raised (mkPart (num_nodes p) (cluster_list p) d')
        end
  end.

(** [get_num_clusters], l.175-192. *)
Definition get_num_clusters (p : partition) (non_empty : bool) : nat :=
  if non_empty then length (filter nonempty (cluster_list p))
  else length (cluster_list p).

(** [check_integrity], l.250-275: [true] means no exception is raised.  The set
    [inter] is only tested for emptiness, so it is modelled by the list of all
    elements added to it. *)
Definition integrity_inter (cl : list (list nat)) : list nat :=
  flat_map (fun i =>
    flat_map (fun j =>
      if Nat.eqb i j then []
      else filter (fun x => memb x (nth j cl [])) (nth i cl []))
      (seq 0 (length cl)))
    (seq 0 (length cl)).
Definition total_len (cl : list (list nat)) : nat :=
  fold_left (fun s c => s + length c) cl 0.
Definition check_integrity (p : partition) : bool :=
  negb (nonempty (integrity_inter (cluster_list p)))
  && Nat.eqb (total_len (cluster_list p)) (num_nodes p).

(** [Partition(n, cluster_list=cl, check_integrity=True)]; [None] = ValueError *)
Definition part_of_list_checked (n : nat) (cl : list (list nat)) : option partition :=
  let p := part_of_list n cl in
  if check_integrity p then Some p else None.

(** [get_indicator(sparse=False)], l.226-232: entry (r, i). *)
Definition indicator_dense (p : partition) (r i : nat) : nat :=
  fold_left (fun h ic => if Nat.eqb (fst ic) i && memb r (snd ic) then 1 else h)
    (combine (seq 0 (length (cluster_list p))) (cluster_list p)) 0.

(** assignment of a list to an array slice starting at [a] *)
Fixpoint slice_set {A} (l : list A) (a : nat) (v : list A) : list A :=
  match v with
  | [] => l
  | x :: r => slice_set (upd l a x) (S a) r
  end.
(** l.218-221: running Hindptr value, Hindices, Hindptr *)
Fixpoint indicator_csc_loop (cl : list (list nat)) (start : nat) (ind : list nat)
  : list nat * list nat :=
  match cl with
  | [] => (ind, [])
  | c :: r =>
      let '(ind', ptr) := indicator_csc_loop r (start + length c) (slice_set ind start c) in
      (ind', (start + length c) :: ptr)
  end.
(** entry (r, i) of the CSC matrix with all-ones data (l.210, 223): the number of
    stored positions of column i whose row index is r. *)
Definition csc_ones_entry (ind ptr : list nat) (r i : nat) : nat :=
  length (filter (fun k => Nat.eqb (nth k ind 0) r)
            (seq (nth i ptr 0) (nth (S i) ptr 0 - nth i ptr 0))).
Definition indicator_sparse (p : partition) (r i : nat) : nat :=
  let '(ind, ptr) := indicator_csc_loop (cluster_list p) 0 (repeat 0 (num_nodes p)) in
  csc_ones_entry ind (0 :: ptr) r i.

(** Histories of public operations; [None] once a call has raised. *)
Inductive pop := PMove (node c : nat) | PClean.
Definition pstep (p : partition) (o : pop) : option partition :=
  match o with
  | PMove x c => match move_node p x c with Done p' => Some p' | Raised _ => None end
  | PClean => Some (remove_empty_clusters p)
  end.
Fixpoint prun (p : partition) (os : list pop) : option partition :=
  match os with
  | [] => Some p
  | o :: r => match pstep p o with Some p' => prun p' r | None => None end
  end.
