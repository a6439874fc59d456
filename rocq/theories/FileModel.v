(** Model of the files of /repo/src/flowstab/temporal_network.py: [save] l.232-314, [load]
    l.317-404, the names of the files of matrices l.460-478, l.582-600, l.703-726, l.850-872,
    l.937-959 and l.969-992, [save_T] l.790-872, [save_T_lin] l.874-959, [load_T] l.961-1043,
    [save_inter_T_lin] l.571-692, its part of [load_inter_T] l.757-788, and the linear part of
    [_compute_delta_trans_mat] l.1877-1902.

    Simplifications: a file system maps names to contents and every directory exists; pickling
    a dictionary and reading it back is the identity; messages and computing times are left
    out.  [None] is an exception; none is raised after a file was opened for writing. *)
From Coq Require Import Ascii String.
From Verif Require Import Base LouvainModel SparseModel EventsModel TransModel.
Local Open Scope bool_scope.

(** ** Names *)
Notation path := (list ascii).
Definition str (s : string) : path := list_ascii_of_string s.
Fixpoint path_eqb (a b : path) : bool :=
  match a, b with
  | [], [] => true
  | x :: a, y :: b => Ascii.eqb x y && path_eqb a b
  | _, _ => false
  end.
(** [p.rfind(c)]; [None] is -1 *)
Fixpoint rfind (c : ascii) (p : path) : option nat :=
  match p with
  | [] => None
  | x :: r => match rfind c r with
              | Some i => Some (S i)
              | None => if Ascii.eqb x c then Some 0 else None
              end
  end.
(** [os.path.splitext] (posixpath): at the last dot of the last component of the path, unless
    only dots come before it in this component *)
Definition splitext (p : path) : path * path :=
  let name_index := match rfind "/" p with Some i => S i | None => 0 end in
  match rfind "." p with
  | Some d =>
      if (name_index <=? d) && existsb (fun c => negb (Ascii.eqb c ".")) (skipn name_index (firstn d p))
      then (firstn d p, skipn d p) else (p, [])
  | None => (p, [])
  end.

(** ** Files *)
Inductive format := Plain | Gzip.
Section Disk.
Context {C : Type}.
Definition disk := path -> option (format * C).
Definition exists_file (d : disk) (p : path) : bool := match d p with Some _ => true | None => false end.
Definition write (d : disk) (p : path) (f : format) (c : C) : disk := fun q => if path_eqb q p then Some (f, c) else d q.
(** opened with [open] or [gzip.open]: FileNotFoundError, or the error of a file in the other
    format *)
Definition read (d : disk) (p : path) (f : format) : option C :=
  match d p, f with
  | Some (Plain, c), Plain => Some c
  | Some (Gzip, c), Gzip => Some c
  | _, _ => None
  end.
(** l.460-468: the file written *)
Definition written_name (compressed : bool) (p : path) : path :=
  let ext := snd (splitext p) in
  if compressed then if path_eqb ext (str ".gz") then p else p ++ str ".gz"
  else if path_eqb ext (str ".pickle") then p else p ++ str ".pickle".
Definition format_of (compressed : bool) : format := if compressed then Gzip else Plain.
(** l.703-726: the file read *)
Definition read_any (d : disk) (p : path) : option C :=
  let ext := snd (splitext p) in
  if path_eqb ext (str ".gz") then read d p Gzip
  else if path_eqb ext (str ".pickle") then read d p Plain
  else if exists_file d (p ++ str ".pickle") then read d (p ++ str ".pickle") Plain
  else if exists_file d (p ++ str ".gz") then read d (p ++ str ".gz") Gzip
  else if exists_file d (p ++ str ".pickle.gz") then read d (p ++ str ".pickle.gz") Gzip
  else None.
End Disk.
Arguments disk : clear implicits.

(** ** Network objects *)
Section Object.
(** labels of nodes, and the values of the attributes that are only carried around: matrices,
    computing times, ... *)
Context {L A : Type}.
Inductive val :=
| VTable (t : table)                       (** a DataFrame of events *)
| VLabels (d : option (list (nat * L)))    (** node_to_label_dict, perhaps [None] *)
| VIndex (d : list (L * nat))              (** label_to_node_dict *)
| VNodes (l : list nat)
| VCount (n : nat)
| VTime (t : num)
| VTimes (l : list num)
| VGrid (g : list grid_row)
| VFlag (b : bool)
| VEmpty                                   (** an empty dictionary *)
| VOther (x : A).
(** the attributes of an object, [__dict__] *)
Definition attrs := string -> option val.
Definition setattr (o : attrs) (k : string) (v : val) : attrs := fun k' => if String.eqb k' k then Some v else o k'.
Definition setattrs (o : attrs) (l : list (string * val)) : attrs := fold_left (fun o kv => setattr o (fst kv) (snd kv)) l o.
Definition no_attrs : attrs := fun _ => None.
(** class of the object and its attributes *)
Record object := mkObj { o_inst : bool; o_attrs : attrs }.

(** l.199-225: what the constructor derives from the table; the start and end of an empty
    table are NaN, here 0 *)
Definition derived (t : table) (nodes : list nat) (merged : bool) : list (string * val) :=
  [ ("node_array"%string, VNodes nodes);
    ("num_nodes"%string, VCount (length nodes));
    ("num_events"%string, VCount (length t));
    ("start_time"%string, VTime (num_min (map (fun r => e_start (snd r)) t)));
    ("end_time"%string, VTime (num_maxl (map (fun r => e_end (snd r)) t)));
    ("events_table"%string, VTable t);
    ("_compute_times"%string, VEmpty);
    ("_overlapping_events_merged"%string, VFlag merged);
    ("is_directed"%string, VFlag false);
    ("instantaneous_events"%string, VFlag false) ].
(** l.210-211 *)
Definition with_durations (t : table) : table :=
  map (fun r => (fst r, mkEv (e_src (snd r)) (e_tgt (snd r)) (e_start (snd r)) (e_end (snd r)) (e_end (snd r) - e_start (snd r))%num)) t.
(** l.159-225 with [relabel_nodes=False]: from a DataFrame *)
Definition from_table (t : table) (d : option (list (nat * L))) : attrs :=
  setattrs no_attrs (("node_to_label_dict"%string, VLabels d) :: derived (with_durations t) (node_array t) false).
(** l.107-157 and l.196-225: from lists, the nodes relabelled in the order of the labels [ls]
    or not; merging (l.1840) also computes the time grid *)
Inductive naming := Relabelled (ls : list L) | Given (d : option (list (nat * L))).
Definition names_of (nm : naming) : list (string * val) :=
  match nm with
  | Relabelled ls => [ ("label_to_node_dict"%string, VIndex (combine ls (seq 0 (length ls))));
                       ("node_to_label_dict"%string, VLabels (Some (combine (seq 0 (length ls)) ls))) ]
  | Given d => [ ("node_to_label_dict"%string, VLabels d) ]
  end.
Definition construct (fuel : nat) (nm : naming) (reset merge : bool) (srcs tgts : list nat) (starts ends : list num) (g : list grid_row) : option object :=
  match make_net fuel reset merge srcs tgts starts ends with
  | None => None
  | Some N => Some (mkObj false (setattrs no_attrs (names_of nm ++ derived (rows N) (nodes N) merge ++
      (if merge then [("times"%string, VTimes (times (rows N))); ("time_grid"%string, VGrid g)] else []))))
  end.
(** ContTempInstNetwork, l.1953-1974 *)
Definition construct_inst (nm : naming) (reset : bool) (srcs tgts : list nat) (starts : list num) : option object :=
  match make_inst_net reset srcs tgts starts with
  | None => None
  | Some N => Some (mkObj true (setattrs no_attrs (names_of nm ++ derived (rows N) (nodes N) false ++
      [("instantaneous_events"%string, VFlag true)])))
  end.

(** ** save and load, l.232-404 *)
Definition default_matrices : list string :=
  ["laplacians"; "adjacencies"; "inter_T"; "inter_T_lin"; "T"; "T_lin"; "_stationary_trans"; "delta_inter_T"; "delta_inter_T_lin"]%string.
Definition default_attributes : list string :=
  ["node_to_label_dict"; "events_table"; "times"; "time_grid"; "num_nodes"; "_compute_times"; "_t_start_laplacians";
   "_k_start_laplacians"; "_t_stop_laplacians"; "_k_stop_laplacians"; "_overlapping_events_merged"; "is_directed"]%string.
Definition or_default (l : option (list string)) (def : list string) : list string := match l with Some l => l | None => def end.
Definition dict := list (string * val).
Definition listed (k : string) (l : list string) : bool := existsb (String.eqb k) l.
Definition collect (o : attrs) (names : list string) (d : dict) : dict :=
  fold_left (fun d k => match o k with Some v => aset String.eqb d k v | None => d end) names d.
Definition network_file (p : path) : path := fst (splitext p) ++ str ".pickle".
Definition save (o : object) (p : path) (matrices attributes : option (list string)) (d : disk dict) : disk dict :=
  write d (network_file p) Plain
    (collect (o_attrs o) (or_default matrices default_matrices) (collect (o_attrs o) (or_default attributes default_attributes) [])).
(** [pop] of a missing key is a KeyError.  The constructor of ContTempInstNetwork does nothing
    with an events_table, and l.1973 raises AttributeError. *)
Definition load (inst : bool) (p : path) (matrices attributes : option (list string)) (d : disk dict) : option object :=
  match read d (network_file p) Plain with
  | None => None
  | Some c =>
      match aget String.eqb c "events_table"%string, aget String.eqb c "node_to_label_dict"%string with
      | Some (VTable t), Some (VLabels names) =>
          if inst then None
          else
            let rest := filter (fun kv => negb (listed (fst kv) ["events_table"; "node_to_label_dict"]%string)) c in
            let wanted := filter (fun kv => listed (fst kv) (or_default matrices default_matrices) || listed (fst kv) (or_default attributes default_attributes)) rest in
            Some (mkObj false (setattrs (from_table t names) wanted))
      | _, _ => None
      end
  end.
End Object.
Arguments val : clear implicits.
Arguments attrs : clear implicits.
Arguments object : clear implicits.
Arguments naming : clear implicits.
Arguments dict : clear implicits.

(** ** Files of transition matrices *)
Section Matrices.
(** the parameters saved with the matrices, l.482-491: AttributeError, here [None], before the
    Laplacians are computed *)
Context {P : Type}.
(** what T[lamda] or T_lin[lamda][t_s] is *)
Inductive tmat := MCsr (M : csr) | MSparse (B : ssm) | MList (l : list csr).
(** [to_dict], sparse_stoch_mat.py l.272-279 *)
Record sdict := mkSd { d_size : nat; d_csr : csr; d_nz : list nat; d_diag : num }.
Definition ssm_to_dict (B : ssm) : sdict := mkSd (s_size B) (s_small B) (s_nz B) (s_diag B).
Inductive saved := SCsr (M : csr) | SDict (d : sdict).
Record tfile (K : Type) := mkTf { tf_params : P; tf_sparse : bool; tf_T : list (K * saved) }.
Arguments mkTf {K}. Arguments tf_params {K}. Arguments tf_sparse {K}. Arguments tf_T {K}.
(** [copy], sparse_stoch_mat.py l.266-271, and rounding *)
Definition ssm_rounded (tol : num) (B : ssm) : option ssm :=
  match ssm_init (s_size B) (s_small B) (s_nz B) (s_diag B) with
  | Some B' => Some (mkS (s_size B') (s_nz B') (set_to_zeroes (s_small B') tol true false) (s_diag B'))
  | None => None
  end.
(** l.824-847 and l.910-934: one matrix; TypeError *)
Definition pack (round_zeros : bool) (tol : num) (m : tmat) : option saved :=
  match m with
  | MCsr M => Some (SCsr (if round_zeros then set_to_zeroes M tol true false else M))
  | MSparse B => option_map (fun B => SDict (ssm_to_dict B)) (if round_zeros then ssm_rounded tol B else Some B)
  | MList _ => None
  end.
Definition is_sparse (m : tmat) : bool := match m with MSparse _ => true | _ => false end.
(** the dictionary; without any matrix [text] is unbound *)
Definition pack_all {K : Type} (params : option P) (round_zeros : bool) (tol : num) (l : list (K * tmat)) : option (tfile K) :=
  match params, l with
  | Some ps, _ :: _ =>
      match all_some (map (fun km => option_map (pair (fst km)) (pack round_zeros tol (snd km))) l) with
      | Some l' => Some (mkTf ps (existsb (fun km => is_sparse (snd km)) l) l')
      | None => None
      end
  | _, _ => None
  end.
(** l.818-821: the entries asked for; KeyError *)
Definition select {K : Type} (eqb : K -> K -> bool) (T : list (K * tmat)) (key : option K) : option (list (K * tmat)) :=
  match key with
  | None => Some T
  | Some k => match aget eqb T k with Some m => Some [(k, m)] | None => None end
  end.
(** l.790-872; AssertionError without [T] *)
Definition save_T (params : option P) (T : option (list (num * tmat))) (p : path) (lamda : option num) (round_zeros : bool) (tol : num)
    (compressed : bool) (d : disk (tfile num)) : option (disk (tfile num)) :=
  match T with
  | None => None
  | Some T =>
      match select qeqb T lamda with
      | None => None
      | Some l => option_map (write d (written_name compressed p) (format_of compressed)) (pack_all params round_zeros tol l)
      end
  end.
(** l.874-959: the nested dictionary [T_lin], with keys (lamda, t_s); the entries of a lamda *)
Definition select_lin (T : list ((num * num) * tmat)) (lamda : option num) : option (list ((num * num) * tmat)) :=
  match lamda with
  | None => Some T
  | Some x => match filter (fun km => qeqb (fst (fst km)) x) T with [] => None | l => Some l end
  end.
Definition save_T_lin (params : option P) (T : option (list ((num * num) * tmat))) (p : path) (lamda : option num) (round_zeros : bool) (tol : num)
    (compressed : bool) (d : disk (tfile (num * num))) : option (disk (tfile (num * num))) :=
  match T with
  | None => None
  | Some T =>
      match select_lin T lamda with
      | None => None
      | Some l => option_map (write d (written_name compressed p) (format_of compressed)) (pack_all params round_zeros tol l)
      end
  end.
(** l.1003-1039: with [is_sparse_stoch] every entry is given to the constructor of
    SparseStochMat: TypeError for a csr matrix *)
Definition unpack (sparse : bool) (s : saved) : option tmat :=
  match sparse, s with
  | true, SDict d => option_map MSparse (ssm_init (d_size d) (d_csr d) (d_nz d) (d_diag d))
  | true, SCsr _ => None
  | false, SCsr M => Some (MCsr M)
  | false, SDict d => None
  end.
Definition load_T {K : Type} (p : path) (d : disk (tfile K)) : option (P * list (K * tmat)) :=
  match read_any d p with
  | None => None
  | Some f =>
      match all_some (map (fun ks => option_map (pair (fst ks)) (unpack (tf_sparse f) (snd ks))) (tf_T f)) with
      | Some T => Some (tf_params f, T)
      | None => None
      end
  end.
End Matrices.
Arguments mkTf {P K}.
Arguments tf_params {P K}.
Arguments tf_sparse {P K}.
Arguments tf_T {P K}.

(** ** save_inter_T_lin, l.571-692 *)
Section InterLin.
Context (Z : num -> mat -> mat).
(** [inter_T_lin[lamda][t_s]] (with whether the matrices are SparseStochMat) and
    [delta_inter_T_lin[lamda][t_s]]; [None] when there is no such attribute *)
Record lin_state := mkLs {
  l_inter : list (num * list (num * (bool * list mat)));
  l_delta : option (list (num * list (num * list mat))) }.
Inductive lin_file :=
| LDelta (d : list (num * list (num * (mat * list mat))))
| LSparse (d : list (num * list (num * list mat))).
(** l.1877-1902 *)
Definition compute_delta_lin (lamda : num) (round_zeros : bool) (tol : num) (st : lin_state) : lin_state :=
  match aget qeqb (l_inter st) lamda with
  | None => st
  | Some per =>
      let ds := match l_delta st with Some ds => ds | None => [] end in
      match aget qeqb ds lamda with
      | Some _ => mkLs (l_inter st) (Some ds)
      | None => mkLs (l_inter st) (Some (aset qeqb ds lamda (map (fun e => (fst e, map (rounded Z round_zeros tol) (mdiffs (snd (snd e))))) per)))
      end
  end.
(** l.641-652 for one lamda: KeyError when [delta_inter_T_lin[lamda]] has no such t_s *)
Definition lin_deltas (lamda : num) (round_zeros : bool) (tol : num) (st : lin_state) : option (num * list (num * (mat * list mat))) :=
  match l_delta st with
  | None => None
  | Some ds =>
      match aget qeqb (l_inter st) lamda, aget qeqb ds lamda with
      | Some per, Some dper =>
          option_map (pair lamda) (all_some (map (fun e =>
            match aget qeqb dper (fst e), snd (snd e) with
            | Some d, A :: _ => Some (fst e, (rounded Z round_zeros tol A, d))
            | _, _ => None
            end) per))
      | _, _ => None
      end
  end.
(** l.663-677 for one lamda: rounding is in place *)
Definition lin_sparse (lamda : num) (round_zeros : bool) (tol : num) (st : lin_state) : option (list (num * list mat) * lin_state) :=
  match aget qeqb (l_inter st) lamda with
  | None => None
  | Some per =>
      match all_some (map (fun e => match snd e with
                                    | (true, A :: l) => Some (fst e, map (rounded Z round_zeros tol) (A :: l))
                                    | _ => None
                                    end) per) with
      | None => None
      | Some per' => Some (per', mkLs (aset qeqb (l_inter st) lamda (map (fun e => (fst e, (true, snd e))) per')) (l_delta st))
      end
  end.
Fixpoint lin_sparse_all (lamdas : list num) (round_zeros : bool) (tol : num) (st : lin_state) : option (list (num * list (num * list mat)) * lin_state) :=
  match lamdas with
  | [] => Some ([], st)
  | x :: r =>
      match lin_sparse x round_zeros tol st with
      | None => None
      | Some (per, st1) =>
          match lin_sparse_all r round_zeros tol st1 with
          | Some (d, st2) => Some ((x, per) :: d, st2)
          | None => None
          end
      end
  end.
(** Without [save_delta] the default lamdas are those of [delta_inter_T_lin], l.659:
    AttributeError.  With it and without a lamda, the loop of l.621 rebinds [lamda] when the
    differences were not computed before, and only the last one is saved. *)
Definition save_inter_T_lin (lamda : option num) (round_zeros : bool) (tol : num) (save_delta : bool) (st : lin_state) : option (lin_file * lin_state) :=
  if save_delta then
    let st1_lamda :=
      match l_delta st, lamda with
      | None, Some x => (compute_delta_lin x round_zeros tol st, Some x)
      | None, None => (fold_left (fun s x => compute_delta_lin x round_zeros tol s) (map fst (l_inter st)) st,
                       match rev (map fst (l_inter st)) with x :: _ => Some x | [] => None end)
      | Some _, _ => (st, lamda)
      end in
    let st1 := fst st1_lamda in
    match snd st1_lamda with
    | Some x =>
        let st2 := match l_delta st1 with
                   | Some ds => match aget qeqb ds x with Some _ => st1 | None => compute_delta_lin x round_zeros tol st1 end
                   | None => st1
                   end in
        match l_delta st2 with
        | None => None
        | Some _ => option_map (fun e => (LDelta [e], st2)) (lin_deltas x round_zeros tol st2)
        end
    | None =>
        match l_delta st1 with
        | None => Some (LDelta [], st1)
        | Some ds => option_map (fun l => (LDelta l, st1)) (all_some (map (fun x => lin_deltas x round_zeros tol st1) (map fst ds)))
        end
    end
  else
    match lamda, l_delta st with
    | Some x, _ => option_map (fun r => (LSparse (fst r), snd r)) (lin_sparse_all [x] round_zeros tol st)
    | None, Some ds => option_map (fun r => (LSparse (fst r), snd r)) (lin_sparse_all (map fst ds) round_zeros tol st)
    | None, None => None
    end.
(** l.757-788 *)
Definition load_inter_T_lin (f : lin_file) : list (num * list (num * list mat)) :=
  match f with
  | LSparse d => d
  | LDelta d => map (fun e => (fst e, map (fun r => (fst r, cumulate (fst (snd r)) (snd (snd r)))) (snd e))) d
  end.
End InterLin.

(** ** Files of inter-event matrices, l.457-566 and l.695-750; the contents are those of
    TransModel *)
Section InterFile.
Context {P : Type} (Z : num -> mat -> mat).
Definition save_inter_T_to (params : option P) (p : path) (lamda : option num) (round_zeros : bool) (tol : num) (compressed save_delta replace : bool)
    (st : tn) (d : disk (P * file)) : option (disk (P * file) * tn) :=
  match t_inter st with
  | [] => None
  | _ =>
      let name := written_name compressed p in
      if exists_file d name && negb replace then Some (d, st)
      else match params, save_inter_T Z lamda round_zeros tol save_delta st with
           | Some ps, Some (f, st') => Some (write d name (format_of compressed) (ps, f), st')
           | _, _ => None
           end
  end.
Definition load_inter_T_from (p : path) (d : disk (P * file)) : option (P * list (num * list mat)) :=
  option_map (fun c => (fst c, load_inter_T (snd c))) (read_any d p).
End InterFile.
