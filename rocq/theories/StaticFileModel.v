(** Model of what [worker] of /repo/src/flowstab/scripts/run_clusterings.py, l.647-967, reads and
    writes for one integral when --compute_static_clustering and --not_compute_clustering may be
    given.  Extends the files of ClustModel.v by the static part.

    Simplifications: the integral is there and can be loaded; the variations of information, which
    are saved as well, are in NviModel.v and do not raise here; messages are left out. *)
From Verif Require Import Base ClustModel.
Local Open Scope bool_scope.

(** "clusters_...": the entries of the dictionary l.943-966, if present *)
Record results_file := mkFile { sv_flow : option summary; sv_static : option summary }.
(** the files of one integral: "..._static_A_...", "clusters_..." and "tmpclusters_..." *)
Record disk := mkDisk { k_adjacency : bool; k_saved : option results_file; k_temp : option summary }.
(** the options (compute_clustering is off with --not_compute_clustering, l.171-173) and the random
    seeds of the two kinds of runs, l.741 and l.813 *)
Record call := mkCall { o_static : bool; o_flow : bool; o_before : bool; seeds_flow : list nat; seeds_static : list nat }.
Inductive write := WriteTemp (s : summary) | WriteResults (f : results_file).
Definition written (d : disk) (w : write) : disk :=
  match w with
  | WriteTemp s => mkDisk (k_adjacency d) (k_saved d) (Some s)
  | WriteResults f => mkDisk (k_adjacency d) (Some f) (k_temp d)
  end.

Section Files.
(** the summaries of the runs for the seeds; [None]: the runs raise *)
Context (flow static : list nat -> option summary).

(** a part that is computed if it is asked for; [None]: exception *)
Definition part (asked : bool) (x : option summary) : option (option summary) :=
  if asked then match x with Some s => Some (Some s) | None => None end else Some None.
Definition static_worker (c : call) (d : disk) : list write :=
  match k_saved d with
  | Some _ => []                                               (* l.665-666 *)
  | None =>
      let st := o_static c && k_adjacency d in                 (* l.682-702 *)
      if o_flow c || st then                                   (* l.704 *)
        match k_temp d with
        | Some _ => []  (* l.714-734: compute_nvarinf is set, [sym_clusters] is not, l.876 raises *)
        | None =>
            match part (o_flow c) (flow (seeds_flow c)), part st (static (seeds_static c)) with
            | Some f, Some s =>
                (match f with Some x => if o_before c then [WriteTemp x] else [] | None => [] end)  (* l.850-868 *)
                ++ [WriteResults (mkFile f s)]                 (* l.943-970 *)
            | _, _ => []
            end
        end
      else [WriteResults (mkFile None None)]                   (* l.927-970 *)
  end.
End Files.
