(** Model of what /repo/src/flowstab/scripts/run_cov_integrals.py learns from the directory of
    matrices, l.208-236: the number of nodes, read from the files in the order in which
    [os.listdir] gives them, the intervals and the waiting times.

    Simplifications: as in NamesModel.v. *)
From Coq Require Import Ascii String.
From Verif Require Import Base LouvainModel SparseModel EventsModel TransModel FileModel NamesModel.
Local Open Scope bool_scope.
Local Open Scope list_scope.

Section Listing.
(** [nodes x]: the entry "num_nodes" of a dictionary of matrices, which [save_inter_T], [save_T]
    and their linear versions always write (temporal_network.py l.488, l.610, l.811, l.895) *)
Context {A : Type} (nodes : A -> nat).
(** a listed file; [None]: what it holds is not a pickle *)
Definition listing := list (path * option (format * content A)).
Definition listed (d : dir A) : listing := map (fun f => (fst f, Some (snd f))) d.
(** [all_files[i][-3:] == ".gz"], l.216 *)
Definition gz_name (p : path) : bool := path_eqb (skipn (length p - 3) p) (str ".gz").
(** [pd.read_pickle], l.218; [None]: an exception *)
Definition unpickle (f : path * option (format * content A)) : option (content A) :=
  match snd f, gz_name (fst f) with
  | Some (Gzip, c), true => Some c
  | Some (Plain, c), false => Some c
  | _, _ => None
  end.
(** [res.get("num_nodes")] of a dictionary, l.220-221: integrals have no such entry, adjacency
    matrices are not dictionaries *)
Definition num_nodes_of (c : content A) : option nat := match c with CMat _ x => Some (nodes x) | CAdj _ | CInt _ => None end.
(** l.210-223; [None]: an exception of [read_pickle], or IndexError at the end of the list *)
Fixpoint find_nodes (l : listing) : option nat :=
  match l with
  | [] => None
  | f :: r => match unpickle f with
              | None => None
              | Some c => match num_nodes_of c with Some k => Some k | None => find_nodes r end
              end
  end.
(** l.208-236 *)
Definition inputs (l : listing) : option (nat * (list nat * list num)) :=
  match find_nodes l, read_dir (map fst l) with
  | Some k, Some r => Some (k, r)
  | _, _ => None
  end.
End Listing.
Arguments listing : clear implicits.
