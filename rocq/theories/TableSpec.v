(** Vocabulary of the statements about tables of events. *)
From Verif Require Import Base EventsModel TableModel.

(** the columns of a table as lists *)
Definition col_sources (f : frame) : list nat := map f_src f.
Definition col_targets (f : frame) : list nat := map f_tgt f.
Definition col_starts (f : frame) : list num := map f_start f.
Definition col_ends (f : frame) : list num := map f_end f.
(** the index counts the rows *)
Definition counts_rows (f : frame) : Prop := map fst f = seq 0 (length f).
(** every row has its own index label *)
Definition distinct_index (f : frame) : Prop := NoDup (map fst f).
(** rows in order of their starting times *)
Definition in_order_of_start (f : frame) : Prop := StronglySorted (fun a b => (f_start a <= f_start b)%num) f.
(** the labels are the numbers below [n] *)
Definition labels_are (n : nat) (f : frame) : Prop :=
  forall x, In x (col_sources f ++ col_targets f) <-> x < n.
(** events end no earlier than they start; events of some duration *)
Definition rows_ordered (f : frame) : Prop := forall r, In r f -> (f_start r <= f_end r)%num.
Definition rows_lasting (f : frame) : Prop := forall r, In r f -> (f_start r < f_end r)%num.
Definition rows_join_two (f : frame) : Prop := forall r, In r f -> f_src r <> f_tgt r.
Definition row_joins (r : nat * row4) (i j : nat) : Prop := (f_src r = i /\ f_tgt r = j) \/ (f_src r = j /\ f_tgt r = i).
(** nodes i and j are in contact at time u *)
Definition row_contact (f : frame) (i j : nat) (u : num) : Prop :=
  exists r, In r f /\ row_joins r i j /\ (f_start r <= u /\ u < f_end r)%num.
(** rows of the same two nodes do not overlap, or do not even touch *)
Definition rows_disjoint (f : frame) : Prop :=
  forall a b i j, In a f -> In b f -> fst a <> fst b -> row_joins a i j -> row_joins b i j ->
    (f_end a <= f_start b)%num \/ (f_end b <= f_start a)%num.
Definition rows_apart (f : frame) : Prop :=
  forall a b i j, In a f -> In b f -> fst a <> fst b -> row_joins a i j -> row_joins b i j ->
    (f_end a < f_start b)%num \/ (f_end b < f_start a)%num.
