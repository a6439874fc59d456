(** Vocabulary of the statements about events, time grids and Laplacians. *)
From Verif Require Import Base LouvainModel EventsModel.

(** [leb] decides a total order *)
Definition total_order {L : Type} (leb : L -> L -> bool) : Prop :=
  (forall a b, leb a b = true \/ leb b a = true) /\
  (forall a b c, leb a b = true -> leb b c = true -> leb a c = true) /\
  (forall a b, leb a b = true -> leb b a = true -> a = b).

(** ** Contacts *)
Definition joins (e : event) (i j : nat) : Prop := (e_src e = i /\ e_tgt e = j) \/ (e_src e = j /\ e_tgt e = i).
(** an event lasts from its start, included, to its end, excluded *)
Definition active (e : event) (t : num) : Prop := (e_start e <= t /\ t < e_end e)%num.
Definition contact (t : table) (i j : nat) (u : num) : Prop :=
  exists e, In e (map snd t) /\ joins e i j /\ active e u.
Definition lasting (t : table) : Prop := forall e, In e (map snd t) -> (e_start e < e_end e)%num.
Definition no_self_contact (t : table) : Prop := forall e, In e (map snd t) -> e_src e <> e_tgt e.
(** no two events of the same pair of nodes overlap (one may end when the other starts) *)
Definition no_overlap (t : table) : Prop :=
  forall a b e f i j, In (a, e) t -> In (b, f) t -> a <> b -> joins e i j -> joins f i j ->
  (e_end e <= e_start f)%num \/ (e_end f <= e_start e)%num.
Definition overlap (e f : event) : Prop := (e_start e < e_end f /\ e_start f < e_end e)%num.
Definition same_nodes (e f : event) : Prop := joins f (e_src e) (e_tgt e).
(** overlaps that merging can handle: overlapping events of a pair start at different times, two
    events overlapping a third one overlap each other, and of such a group of events the one
    that starts last ends last *)
Definition simple_overlaps (t : table) : Prop :=
  (forall a b e f, In (a, e) t -> In (b, f) t -> a <> b -> same_nodes e f -> overlap e f -> e_start e <> e_start f) /\
  (forall e f g, In e (map snd t) -> In f (map snd t) -> In g (map snd t) -> same_nodes e f -> same_nodes f g ->
     overlap e f -> overlap f g -> overlap e g) /\
  (forall e f, In e (map snd t) -> In f (map snd t) -> same_nodes e f -> overlap e f -> (e_start e < e_start f)%num ->
     (forall g, In g (map snd t) -> same_nodes f g -> overlap f g -> (e_start g <= e_start f)%num) -> (e_end e <= e_end f)%num).
(** every event has its own index *)
Definition own_index (t : table) : Prop := NoDup (map fst t).
(** the index follows the starting times *)
Definition index_by_start (t : table) : Prop :=
  forall a b e f, In (a, e) t -> In (b, f) t -> (e_start e < e_start f)%num -> a < b.

(** ** Random walks *)
Definition degree (n : nat) (adj : nat -> nat -> bool) (i : nat) : nat := length (filter (adj i) (seq 0 n)).
(** transition probabilities: uniform over the neighbours; nodes without neighbours stay *)
Definition walk (n : nat) (adj : nat -> nat -> bool) (i j : nat) : num :=
  match degree n adj i with
  | 0 => if i =? j then 1%num else 0%num
  | d => if adj i j then (1 / qn d)%num else 0%num
  end.
(** [L] is the random-walk Laplacian of the graph with edges [R] on nodes 0..n-1 *)
Definition walk_laplacian (n : nat) (R : nat -> nat -> Prop) (L : mat) : Prop :=
  exists adj, (forall i j, i < n -> j < n -> (adj i j = true <-> R i j)) /\
    forall i j, i < n -> j < n -> L i j = ((if i =? j then 1 else 0) - walk n adj i j)%num.
(** I - L is row-stochastic, and L has only zeros and ones on the diagonal *)
Definition walk_like (n : nat) (L : mat) : Prop :=
  (forall i, i < n -> sumN n (fun j => L i j) = 0%num) /\
  (forall i, i < n -> L i i = 0%num \/ L i i = 1%num) /\
  (forall i j, i < n -> j < n -> i <> j -> (- (1) <= L i j /\ L i j <= 0)%num).

(** ** Durations *)
(** length of the part of an event inside a window *)
Definition part_inside (e : event) (s u : num) : num :=
  let len := ((if qleb (e_end e) u then e_end e else u) - (if qleb s (e_start e) then e_start e else s))%num in
  if qleb 0%num len then len else 0%num.
Definition joinsb (e : event) (i j : nat) : bool :=
  (((e_src e =? i) && (e_tgt e =? j)) || ((e_src e =? j) && (e_tgt e =? i)))%bool.
(** total duration of the contacts of a pair inside a window *)
Definition contact_time (t : table) (i j : nat) (s u : num) : num :=
  sumL (fun r => if joinsb (snd r) i j then part_inside (snd r) s u else 0%num) t.

(** ** Windows *)
(** index of the last time not after the requested one, or of the first time *)
Definition start_index (ts : list num) (t : option num) (k : nat) : Prop :=
  match t with
  | None => k = 0
  | Some t => ((nth k ts 0 <= t)%num /\ (forall j, k < j -> j < length ts -> (t < nth j ts 0)%num)) \/ (k = 0 /\ forall x, In x ts -> (t < x)%num)
  end.
Definition stop_index (ts : list num) (t : option num) (k : nat) : Prop :=
  match t with None => S k = length ts | Some _ => start_index ts t k end.

(** ** Instantaneous events *)
(** contacts starting at a time *)
Definition starting (t : table) (i j : nat) (u : num) : Prop := exists e, In e (map snd t) /\ joins e i j /\ e_start e = u.
(** the next distinct starting time, or one unit later *)
Definition is_next (starts : list num) (a b : num) : Prop :=
  (In b starts /\ (a < b)%num /\ forall x, In x starts -> (x <= a)%num \/ (b <= x)%num) \/
  (b = (a + 1)%num /\ forall x, In x starts -> (x <= a)%num).
