(** Model of the event handling of [ContTempNetwork] and [ContTempInstNetwork],
    /repo/src/flowstab/temporal_network.py: construction l.107-225, static adjacency
    l.1046-1090, time grid l.1093-1139, Laplacians l.1142-1326, merging l.1782-1842 and
    instantaneous events l.1945-2100.

    Simplifications: times are rationals; node ids are natural numbers; an array or sparse
    matrix is a function of its indices; extra attributes, csv files, logging and the saved
    adjacency matrices are left out.  [None] is an exception. *)
From Verif Require Import Base PartitionModel LouvainModel.
Local Open Scope bool_scope.

(** a row of [events_table] and the table with its index *)
Record event := mkEv { e_src : nat; e_tgt : nat; e_start : num; e_end : num; e_dur : num }.
Definition table := list (nat * event).

(** ** Relabelling, l.124-134: labels of any ordered type *)
Section Labels.
Context {L : Type} (leb : L -> L -> bool).
Definition leqb (a b : L) : bool := leb a b && leb b a.
(** [sorted(all_nodes)] of the set of all labels *)
Fixpoint linsert (x : L) (l : list L) : list L :=
  match l with
  | [] => [x]
  | y :: r => if leqb x y then l else if leb x y then x :: l else y :: linsert x r
  end.
Definition sorted_labels (l : list L) : list L := fold_right linsert [] l.
(** [label_to_node_dict]: position in the sorted list; KeyError *)
Fixpoint label_to_node (ls : list L) (x : L) : option nat :=
  match ls with
  | [] => None
  | y :: r => if leqb x y then Some 0 else option_map S (label_to_node r x)
  end.
(** [node_to_label_dict] *)
Definition node_to_label (ls : list L) (n : nat) : option L := nth_error ls n.
(** l.127-134: the new source and target nodes and the sorted labels *)
Definition relabel (srcs tgts : list L) : option (list nat * list nat * list L) :=
  let ls := sorted_labels (srcs ++ tgts) in
  match all_some (map (label_to_node ls) srcs), all_some (map (label_to_node ls) tgts) with
  | Some s, Some t => Some (s, t, ls)
  | _, _ => None
  end.
End Labels.

(** ** Construction *)
(** order of [sort_values(by=["starting_times", "ending_times"])], stable *)
Definition ev_leb (a b : event) : bool :=
  qltb (e_start a) (e_start b) || (qeqb (e_start a) (e_start b) && qleb (e_end a) (e_end b)).
Fixpoint row_insert (x : nat * event) (l : table) : table :=
  match l with
  | [] => [x]
  | y :: r => if ev_leb (snd x) (snd y) then x :: l else y :: row_insert x r
  end.
Definition sort_rows (t : table) : table := fold_right row_insert [] t.
(** [reset_index(drop=True)] *)
Definition reset_index (t : table) : table := combine (seq 0 (length t)) (map snd t).
(** l.121-122, l.138-157, l.196-197 and l.210-211: the table built from lists *)
Fixpoint zip_events (srcs tgts : list nat) (starts ends : list num) : option (list event) :=
  match srcs, tgts, starts, ends with
  | [], [], [], [] => Some []
  | s :: srcs, t :: tgts, a :: starts, b :: ends =>
      match zip_events srcs tgts starts ends with
      | Some evs => Some (mkEv s t a b (b - a)%num :: evs)
      | None => None
      end
  | _, _, _, _ => None
  end.
Definition build_table (reset : bool) (srcs tgts : list nat) (starts ends : list num) : option table :=
  match zip_events srcs tgts starts ends with
  | None => None
  | Some evs =>
      let t := sort_rows (combine (seq 0 (length evs)) evs) in
      Some (if reset then reset_index t else t)
  end.
(** [node_array], l.199-200: sorted distinct node ids *)
Fixpoint nat_insert (x : nat) (l : list nat) : list nat :=
  match l with
  | [] => [x]
  | y :: r => if x =? y then l else if x <? y then x :: l else y :: nat_insert x r
  end.
Definition node_array (t : table) : list nat :=
  fold_right nat_insert [] (map (fun r => e_src (snd r)) t ++ map (fun r => e_tgt (snd r)) t).

(** The attributes of the object that are used here. *)
Record net := mkNet { rows : table; nodes : list nat }.
Definition num_nodes_of (N : net) : nat := length (nodes N).
(** [start_time], [end_time], l.206-208; not a number for an empty table *)
Definition num_min (l : list num) : num := fold_left (fun m x => if qltb x m then x else m) (tl l) (hd 0%num l).
Definition num_maxl (l : list num) : num := fold_left (fun m x => if qltb m x then x else m) (tl l) (hd 0%num l).
Definition start_time (N : net) : num := num_min (map (fun r => e_start (snd r)) (rows N)).
Definition end_time (N : net) : num := num_maxl (map (fun r => e_end (snd r)) (rows N)).

(** ** Static adjacency matrix, l.1046-1090 *)
(** the value added for one event, l.1083 *)
Definition clipped (e : event) (s t : num) : num :=
  ((if qleb (e_end e) t then e_end e else t) - (if qleb s (e_start e) then e_start e else s))%num.
Definition in_window (e : event) (s t : num) : bool := qltb (e_start e) t && qltb s (e_end e).
(** duplicate entries of a coo_matrix are summed; the result is A + A.T; node ids beyond the
    shape raise ValueError *)
Definition ids_ok (N : net) : bool :=
  forallb (fun r => (e_src (snd r) <? num_nodes_of N) && (e_tgt (snd r) <? num_nodes_of N)) (rows N).
Definition coo_entry (t : table) (s u : num) (i j : nat) : num :=
  sumL (fun r => if (e_src (snd r) =? i) && (e_tgt (snd r) =? j) then clipped (snd r) s u else 0%num)
       (filter (fun r => in_window (snd r) s u) t).
Definition static_adjacency (N : net) (start end_ : option num) : option mat :=
  let s := match start with Some s => s | None => start_time N end in
  let u := match end_ with Some u => u | None => end_time N end in
  if ids_ok N then Some (fun i j => coo_entry (rows N) s u i j + coo_entry (rows N) s u j i)%num else None.

(** ** Time grid, l.1093-1122 *)
Record grid_row := mkRow { g_time : num; g_id : nat; g_is_start : bool }.
Definition grid_rows (t : table) : list grid_row :=
  map (fun r => mkRow (e_start (snd r)) (fst r) true) t ++ map (fun r => mkRow (e_end (snd r)) (fst r) false) t.
(** The grid is sorted by time and id (l.1115-1120).  Rows with the same time and id come from
    a zero-duration event and keep the order left by the unstable sort of l.1115. *)
Definition row_le (a b : grid_row) : Prop := (g_time a < g_time b)%num \/ (g_time a = g_time b /\ g_id a <= g_id b).
Definition is_time_grid (t : table) (g : list grid_row) : Prop :=
  Permutation g (grid_rows t) /\ StronglySorted row_le g.
(** [times]: the sorted distinct values of the first index level, l.1122 *)
Fixpoint time_insert (x : num) (l : list num) : list num :=
  match l with
  | [] => [x]
  | y :: r => if qeqb x y then l else if qltb x y then x :: l else y :: time_insert x r
  end.
Definition times (t : table) : list num := fold_right time_insert [] (map g_time (grid_rows t)).

(** [_get_closest_time], l.1125-1139 *)
Fixpoint index_of (x : num) (l : list num) : option nat :=
  match l with
  | [] => None
  | y :: r => if qeqb x y then Some 0 else option_map S (index_of x r)
  end.
Definition closest_time (ts : list num) (t : num) : option (num * nat) :=
  match ts with
  | [] => None
  | t0 :: _ =>
      let t' := if existsb (qeqb t) ts then t
                else if qleb t t0 then t0
                else num_maxl (filter (fun x => qleb x t) ts) in
      match index_of t' ts with Some k => Some (t', k) | None => None end
  end.

(** ** Laplacians, l.1142-1326 *)
(** the arrays A, degrees, S.data and Dm1.data *)
Record lstate := mkL { l_A : mat; l_deg : nat -> num; l_S : nat -> num; l_D : nat -> num }.
Definition delta (i j : nat) : num := if i =? j then 1%num else 0%num.
Definition set1 (f : nat -> num) (i : nat) (v : num) : nat -> num := fun k => if k =? i then v else f k.
Definition set2 (A : mat) (i j : nat) (v : num) : mat := fun a b => if (a =? i) && (b =? j) then v else A a b.
(** l.1182-1194 *)
Definition lstate0 : lstate := mkL (fun _ _ => 0%num) (fun _ => 0%num) (fun _ => 1%num) (fun _ => 1%num).
(** l.1283-1291: the start of an event *)
Definition connect (i j : nat) (s : lstate) : lstate :=
  if negb (qeqb (l_A s i j) 1%num) then
    let d := set1 (l_deg s) i (l_deg s i + 1)%num in
    mkL (set2 (set2 (l_A s) i j 1%num) j i 1%num) (set1 d j (d j + 1)%num) (l_S s) (l_D s)
  else s.
(** l.1293-1298: the end of an event *)
Definition disconnect (i j : nat) (s : lstate) : lstate :=
  if qltb 0%num (l_A s i j) then
    let d := set1 (l_deg s) i (l_deg s i - 1)%num in
    mkL (set2 (set2 (l_A s) i j 0%num) j i 0%num) (set1 d j (d j - 1)%num) (l_S s) (l_D s)
  else s.
(** l.1300-1313: self loop and inverse degree of one node *)
Definition refresh (i : nat) (s : lstate) : lstate :=
  if qeqb (l_deg s i) 0%num
  then mkL (l_A s) (l_deg s) (set1 (l_S s) i 1%num) (set1 (l_D s) i 1%num)
  else mkL (l_A s) (l_deg s) (set1 (l_S s) i 0%num) (set1 (l_D s) i (1 / l_deg s i)%num).
(** l.1280-1313 and, with [is_start] true, l.1232-1254 *)
Definition apply_event (e : event) (is_start : bool) (s : lstate) : lstate :=
  refresh (e_tgt e) (refresh (e_src e)
    (if is_start then connect (e_src e) (e_tgt e) s else disconnect (e_src e) (e_tgt e) s)).
(** [I - Dm1 @ (Acsc + S)], l.1320 *)
Definition laplacian (s : lstate) : mat :=
  fun i j => (delta i j - l_D s i * (l_A s i j + (if i =? j then l_S s i else 0)))%num.

(** [events_table.loc[mid]], l.1277; KeyError *)
Definition row_by_id (t : table) (id : nat) : option event :=
  match find (fun r => fst r =? id) t with Some r => Some (snd r) | None => None end.
Definition apply_row (t : table) (r : grid_row) (s : lstate) : option lstate :=
  match row_by_id t (g_id r) with Some e => Some (apply_event e (g_is_start r) s) | None => None end.
Fixpoint apply_rows (t : table) (rs : list grid_row) (s : lstate) : option lstate :=
  match rs with
  | [] => Some s
  | r :: rs => match apply_row t r s with Some s' => apply_rows t rs s' | None => None end
  end.
(** l.1202-1215: the boundaries of the window *)
Definition window (ts : list num) (t_start t_stop : option num) : option ((num * nat) * (num * nat)) :=
  let first := match t_start with Some t => closest_time ts t | None => match ts with [] => None | t0 :: _ => Some (t0, 0) end end in
  let last_ := match t_stop with Some t => closest_time ts t | None => match ts with [] => None | t0 :: _ => Some (last ts t0, length ts - 1) end end in
  match first, last_ with Some a, Some b => Some (a, b) | _, _ => None end.
(** l.1219-1254: events going on just before the window *)
Definition going_on (e : event) (t : num) : bool := qleb (e_start e) t && qltb t (e_end e).
Definition initial_state (t : table) (ts : list num) (k_start : nat) : lstate :=
  match k_start with
  | 0 => lstate0
  | S k => let tp := nth k ts 0%num in
           fold_left (fun s r => apply_event (snd r) true s) (filter (fun r => going_on (snd r) tp) t) lstate0
  end.
(** l.1258-1320: one Laplacian per group of equal times *)
Fixpoint lap_groups (t : table) (g : list grid_row) (ts : list num) (s : lstate) : option (list mat) :=
  match ts with
  | [] => Some []
  | tk :: ts =>
      match apply_rows t (filter (fun r => qeqb (g_time r) tk) g) s with
      | None => None
      | Some s' => match lap_groups t g ts s' with Some Ls => Some (laplacian s' :: Ls) | None => None end
      end
  end.
(** the method: [_k_start_laplacians], [_k_stop_laplacians] and [laplacians]; [g] is the time
    grid; node ids beyond the shape raise IndexError *)
Definition compute_laplacians (N : net) (g : list grid_row) (t_start t_stop : option num) : option (nat * nat * list mat) :=
  let ts := times (rows N) in
  match window ts t_start t_stop with
  | None => None
  | Some ((ta, ka), (tb, kb)) =>
      if ids_ok N then
        match lap_groups (rows N) g (filter (fun t => qleb ta t && qltb t tb) ts) (initial_state (rows N) ts ka) with
        | Some Ls => Some (ka, kb, Ls)
        | None => None
        end
      else None
  end.

(** ** Merging overlapping events, l.1782-1842 *)
Definition same_pair (n1 n2 : nat) (e : event) : bool :=
  ((e_src e =? n1) && (e_tgt e =? n2)) || ((e_src e =? n2) && (e_tgt e =? n1)).
(** [events_table.loc[id, "ending_times"] = t], l.1818; the column of durations is not touched *)
Definition set_end (t : table) (id : nat) (v : num) : table :=
  map (fun r => if fst r =? id then (fst r, mkEv (e_src (snd r)) (e_tgt (snd r)) (e_start (snd r)) v (e_dur (snd r))) else r) t.
(** l.1806-1822: [ev1], [ev2] are tuples taken from the table before the loop and
    [ev1._replace] (l.1819) has no effect; [keep] is [events_to_keep], indexed by the index
    label (IndexError if there is no such position) *)
Fixpoint merge_loop (ev1 : nat * event) (evs : table) (t : table) (keep : list bool) : option (table * list bool) :=
  match evs with
  | [] => Some (t, keep)
  | ev2 :: r =>
      if qltb (e_start (snd ev2)) (e_end (snd ev1)) then
        if fst ev2 <? length keep then
          merge_loop ev1 r (set_end t (fst ev1) (e_end (snd ev2))) (upd keep (fst ev2) false)
        else None
      else merge_loop ev2 r t keep
  end.
(** l.1793-1823: one pair of nodes; [evs_list[0]] of no events is an IndexError *)
Definition merge_pair (n1 n2 : nat) (st : table * list bool) : option (table * list bool) :=
  match sort_rows (filter (fun r => same_pair n1 n2 (snd r)) (fst st)) with
  | [] => None
  | ev1 :: evs => merge_loop ev1 evs (fst st) (snd st)
  end.
Fixpoint merge_pairs (ps : list (nat * nat)) (st : table * list bool) : option (table * list bool) :=
  match ps with
  | [] => Some st
  | (n1, n2) :: r => match merge_pair n1 n2 st with Some st' => merge_pairs r st' | None => None end
  end.
(** [events_table.loc[events_to_keep]]: a boolean mask is positional *)
Definition mask_rows (t : table) (keep : list bool) : table :=
  map fst (filter (fun rk => snd rk) (combine t keep)).
(** one call: the new table and the number of merged events *)
Definition merge_pass (N : net) : option (net * nat) :=
  match static_adjacency N None None with
  | None => None
  | Some A =>
      let ps := flat_map (fun n1 => map (fun n2 => (n1, n2)) (filter (fun n2 => qltb 0%num (A n1 n2)) (seq 0 (num_nodes_of N)))) (nodes N) in
      match merge_pairs ps (rows N, repeat true (length (rows N))) with
      | None => None
      | Some (t, keep) => Some (mkNet (reset_index (mask_rows t keep)) (nodes N), length (filter negb keep))
      end
  end.
(** l.217-221: repeated until nothing is merged *)
Fixpoint merge_all (fuel : nat) (N : net) : option net :=
  match fuel with
  | 0 => None
  | S f => match merge_pass N with
           | None => None
           | Some (N', k) => if k =? 0 then Some N' else merge_all f N'
           end
  end.

(** ** [ContTempNetwork.__init__] from lists, l.107-225.  The fuel bounds the rounds of
    merging; enough of it exists for every table (theorem C37). *)
Definition make_net (fuel : nat) (reset merge : bool) (srcs tgts : list nat) (starts ends : list num) : option net :=
  match build_table reset srcs tgts starts ends with
  | None => None
  | Some t => let N := mkNet t (node_array t) in if merge then merge_all fuel N else Some N
  end.

(** ** [ContTempInstNetwork], l.1945-2100 *)
(** l.1956-1960: the ending times; IndexError without events *)
Definition uniq_times (l : list num) : list num := fold_right time_insert [] l.
Fixpoint end_map (us : list num) (t : num) : option num :=
  match us with
  | [] => None
  | [u] => if qeqb t u then Some (u + 1)%num else None
  | u :: (v :: _) as r => if qeqb t u then Some v else end_map r t
  end.
Definition inst_ending_times (starts : list num) : option (list num) :=
  if negb (nonempty starts) then None else all_some (map (end_map (uniq_times starts)) starts).
(** l.1962-1974; the durations are set to 1 *)
Definition make_inst_net (reset : bool) (srcs tgts : list nat) (starts : list num) : option net :=
  match inst_ending_times starts with
  | None => None
  | Some ends =>
      match make_net 0 reset false srcs tgts starts ends with
      | None => None
      | Some N => Some (mkNet (map (fun r => (fst r, mkEv (e_src (snd r)) (e_tgt (snd r)) (e_start (snd r)) (e_end (snd r)) 1%num)) (rows N)) (nodes N))
      end
  end.
(** l.2061-2079 *)
Definition inst_event (e : event) (is_start : bool) (s : lstate) : lstate :=
  if is_start && negb (qeqb (l_A s (e_src e) (e_tgt e)) 1%num) then
    let s1 := connect (e_src e) (e_tgt e) s in
    let S1 := set1 (l_S s1) (e_src e) 0%num in
    let D1 := set1 (l_D s1) (e_src e) (1 / l_deg s1 (e_src e))%num in
    mkL (l_A s1) (l_deg s1) (set1 S1 (e_tgt e) 0%num) (set1 D1 (e_tgt e) (1 / l_deg s1 (e_tgt e))%num)
  else s.
Fixpoint inst_rows (t : table) (rs : list grid_row) (s : lstate) : option lstate :=
  match rs with
  | [] => Some s
  | r :: rs => match row_by_id t (g_id r) with
               | Some e => inst_rows t rs (inst_event e (g_is_start r) s)
               | None => None
               end
  end.
(** l.2037-2096: the matrices are reset after every time (l.2092-2096) *)
Fixpoint inst_groups (t : table) (g : list grid_row) (ts : list num) : option (list mat) :=
  match ts with
  | [] => Some []
  | tk :: ts =>
      match inst_rows t (filter (fun r => qeqb (g_time r) tk) g) lstate0 with
      | None => None
      | Some s' => match inst_groups t g ts with Some Ls => Some (laplacian s' :: Ls) | None => None end
      end
  end.
Definition inst_laplacians (N : net) (g : list grid_row) (t_start t_stop : option num) : option (nat * nat * list mat) :=
  let ts := times (rows N) in
  match window ts t_start t_stop with
  | None => None
  | Some ((ta, ka), (tb, kb)) =>
      if ids_ok N then
        match inst_groups (rows N) g (filter (fun t => qleb ta t && qltb t tb) ts) with
        | Some Ls => Some (ka, kb, Ls)
        | None => None
        end
      else None
  end.
