(** Model of networks made from a table of events: the argument [events_table] of
    [ContTempNetwork], temporal_network.py l.159-193, a DataFrame or the path of a csv file.

    Simplifications: node labels are natural numbers; the table has the four columns
    [source_nodes], [target_nodes], [starting_times] and [ending_times]; its index is made of
    natural numbers.  Other columns are left out. *)
From Verif Require Import Base LouvainModel EventsModel.

(** A DataFrame: index label and the values of the four columns of each row. *)
Definition row4 : Type := nat * nat * num * num.
Definition frame := list (nat * row4).
Definition f_src (r : nat * row4) : nat := fst (fst (fst (snd r))).
Definition f_tgt (r : nat * row4) : nat := snd (fst (fst (snd r))).
Definition f_start (r : nat * row4) : num := snd (fst (snd r)).
Definition f_end (r : nat * row4) : num := snd (snd r).

(** l.210-211: the column [durations] is added (or overwritten) in the DataFrame that was
    given, l.179 makes no copy. *)
Definition with_durations (f : frame) : table :=
  map (fun r => (fst r, mkEv (f_src r) (f_tgt r) (f_start r) (f_end r) (f_end r - f_start r)%num)) f.
(** what a DataFrame with durations holds in the four columns *)
Definition columns (t : table) : frame :=
  map (fun r => (fst r, (e_src (snd r), e_tgt (snd r), e_start (snd r), e_end (snd r)))) t.

(** l.187-191: the labels of [label_to_node_dict]; label number n is the one of node n. The table
    itself is not relabelled. *)
Definition frame_labels (f : frame) : list nat := sorted_labels Nat.leb (map f_src f ++ map f_tgt f).

(** [ContTempNetwork(events_table=df)], l.178-225: neither sorted nor with a new index, l.186. *)
Definition net_of_frame (fuel : nat) (merge : bool) (f : frame) : option net :=
  let t := with_durations f in
  let N := mkNet t (node_array t) in
  if merge then merge_all fuel N else Some N.

(** The DataFrame of the caller afterwards. The first round of merging changes ending times in
    it (l.1818); the rows to keep are a new DataFrame (l.1829), which further rounds change. *)
Definition frame_after (merge : bool) (f : frame) : option table :=
  let t := with_durations f in
  if merge then
    let N := mkNet t (node_array t) in
    match static_adjacency N None None with
    | None => None
    | Some A =>
        let ps := flat_map (fun n1 => map (fun n2 => (n1, n2)) (filter (fun n2 => qltb 0%num (A n1 n2)) (seq 0 (num_nodes_of N)))) (nodes N) in
        option_map fst (merge_pairs ps (t, repeat true (length t)))
    end
  else Some t.

(** The argument: a DataFrame, the path (str or Path) of a file that [pd.read_csv] reads as the
    given rows with the index 0, 1, ..., a file that is missing, empty or malformed, or another
    object. *)
Inductive source := Frame (f : frame) | Csv (l : list row4) | BadFile | OtherObject.
Inductive made := Made (N : net) | ValueError | AttributeError | Failed.
Definition of_option (o : option net) : made := match o with Some N => Made N | None => Failed end.
(** l.160-193.  With [relabel_nodes] l.188 reads [events_table.source_nodes] of the argument,
    which is a str or Path when a file is given.  [Failed] is an exception in the merging. *)
Definition net_of_source (fuel : nat) (relabel_nodes merge : bool) (s : source) : made :=
  match s with
  | Frame f => of_option (net_of_frame fuel merge f)
  | Csv l => if relabel_nodes then AttributeError else of_option (net_of_frame fuel merge (combine (seq 0 (length l)) l))
  | BadFile => ValueError
  | OtherObject => ValueError
  end.
