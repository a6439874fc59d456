(** Agent based simulation of a temporal network,
    /repo/src/flowstab/synth_temp_network.py.

    Random numbers come from two streams that the theorems quantify over: [exps k] is the k-th
    standard exponential variate (expon.rvs(loc, scale) is loc + scale times it) and
    [chs k] decides the k-th call of np.random.choice. *)
From Verif Require Import Base.
From Coq Require Import ZArith.

(** Result of a computation that may raise an exception, or not end within the given bounds *)
Inductive outcome (A : Type) := Ok (a : A) | Raise | Loop.
Arguments Ok {A} a.
Arguments Raise {A}.
Arguments Loop {A}.
Definition bind {A B} (x : outcome A) (f : A -> outcome B) : outcome B :=
  match x with Ok a => f a | Raise => Raise | Loop => Loop end.

(** l.74-211 Individual: only what the simulation reads. The two functions give (loc, scale) of
    the time between activations and of the duration of interactions (l.147-159; constants by
    default). *)
Record individual := { i_ID : Z; i_group : Z; i_activ : num -> num * num; i_inter : num -> num * num }.
(** l.173-210 with a time, and Distro.draw_val l.65-71; scipy raises an exception for
    a negative scale *)
Definition draw (f : num -> num * num) (t x : num) : outcome num :=
  let (loc, scale) := f t in if qleb scale 0 then Raise else Ok (loc + scale * x)%num.

(** l.262-267 next_event_method with its parameter; [Other] is any other string *)
Inductive method := Uniform | WithinGroup | Block (P : list (list num)) | BlockMod (f : num -> list (list num)) | Other.
Record config := { c_inds : list individual; c_start : num; c_end : num; c_num : nat; c_method : method }.

(** numpy and list indexing with an integer, from the end if negative, IndexError otherwise *)
Definition wrap (n : nat) (z : Z) : option nat :=
  if (0 <=? z)%Z && (z <? Z.of_nat n)%Z then Some (Z.to_nat z)
  else if (- Z.of_nat n <=? z)%Z && (z <? 0)%Z then Some (Z.to_nat (z + Z.of_nat n)) else None.
Definition zmem (z : Z) (l : list Z) : bool := existsb (Z.eqb z) l.

(** l.362-378 Event and the order of the tuples and lists in the priority queue. is_canceled
    is never set and is left out. *)
Inductive ev := Act (t : num) (i : Z) | Int (t : num) (i p : Z).
Definition ev_time (e : ev) : num := match e with Act t _ => t | Int t _ _ => t end.
Definition ev_id (e : ev) : Z := match e with Act _ i => i | Int _ i _ => i end.
Definition ev_leb (a b : ev) : bool :=
  if qltb (ev_time a) (ev_time b) then true else if qltb (ev_time b) (ev_time a) then false
  else if (ev_id a <? ev_id b)%Z then true else if (ev_id b <? ev_id a)%Z then false
  else match a, b with Act _ _, _ => true | Int _ _ _, Act _ _ => false | Int _ _ p, Int _ _ p' => (p <=? p')%Z end.
(** PriorityQueue.get_nowait: a smallest element and the rest; None is the exception Empty *)
Fixpoint pop (q : list ev) : option (ev * list ev) :=
  match q with
  | [] => None
  | e :: r => match pop r with None => Some (e, []) | Some (m, r') => if ev_leb e m then Some (e, r) else Some (m, e :: r') end
  end.

(** One entry of indiv_sources, indiv_targets, start_times and end_times *)
Record contact := { source : Z; target : Z; start_time : num; end_time : num }.
(** l.262-358 attributes that change: _A and _last_times are N x N matrices *)
Record state := {
  s_t : num; s_q : list ev; s_A : nat -> nat -> bool; s_last : nat -> nat -> num; s_rec : list contact;
  s_all : list (num * (nat -> nat -> bool)); s_saved : list (num * (nat -> nat -> bool)); s_bin : num;
  s_ne : nat; s_nc : nat }.
Definition set2 {B} (f : nat -> nat -> B) (a b : nat) (v : B) : nat -> nat -> B :=
  fun i j => if (i =? a) && (j =? b) then v else f i j.
Definition with_queue (s : state) (q : list ev) (ne : nat) : state :=
  {| s_t := s_t s; s_q := q; s_A := s_A s; s_last := s_last s; s_rec := s_rec s; s_all := s_all s; s_saved := s_saved s; s_bin := s_bin s; s_ne := ne; s_nc := s_nc s |}.
Definition with_time (s : state) (t : num) (q : list ev) : state :=
  {| s_t := t; s_q := q; s_A := s_A s; s_last := s_last s; s_rec := s_rec s; s_all := s_all s; s_saved := s_saved s; s_bin := s_bin s; s_ne := s_ne s; s_nc := s_nc s |}.
Definition with_choices (s : state) (nc : nat) : state :=
  {| s_t := s_t s; s_q := s_q s; s_A := s_A s; s_last := s_last s; s_rec := s_rec s; s_all := s_all s; s_saved := s_saved s; s_bin := s_bin s; s_ne := s_ne s; s_nc := nc |}.
Definition with_contact (s : state) (A : nat -> nat -> bool) (L : nat -> nat -> num) (r : list contact) : state :=
  {| s_t := s_t s; s_q := s_q s; s_A := A; s_last := L; s_rec := r; s_all := s_all s; s_saved := s_saved s; s_bin := s_bin s; s_ne := s_ne s; s_nc := s_nc s |}.
Definition with_saved (s : state) (a : list (num * (nat -> nat -> bool))) (d : list (num * (nat -> nat -> bool))) (b : num) : state :=
  {| s_t := s_t s; s_q := s_q s; s_A := s_A s; s_last := s_last s; s_rec := s_rec s; s_all := a; s_saved := d; s_bin := b; s_ne := s_ne s; s_nc := s_nc s |}.

Section Simulation.
Context (c : config) (exps : nat -> num) (chs : nat -> nat).
Definition size : nat := length (c_inds c).
Definition ids : list Z := map i_ID (c_inds c).
Definition groups : list Z := map i_group (c_inds c).
Definition group_at (k : nat) : Z := nth k groups 0%Z.
(** l.296 number of different groups *)
Definition num_groups : nat := length (nodup Z.eq_dec groups).

Definition total (l : list num) : num := sumL (fun x => x) l.
(** l.324-337 inter_group_probs divided by its row sums; None is a row of NaN or inf *)
Definition normalized (P : list (list num)) : list (option (list num)) :=
  map (fun row => if qeqb (total row) 0 then None else Some (map (fun x => x / total row)%num row)) P.
(** l.262-358 __init__; l.277, 284, 298 and 329 are the checks *)
Definition fresh : state :=
  {| s_t := 0; s_q := []; s_A := fun _ _ => false; s_last := fun _ _ => 0%num; s_rec := []; s_all := []; s_saved := []; s_bin := 0; s_ne := 0; s_nc := 0 |}.
Definition create : outcome state :=
  if negb (forallb (fun i => (i <? Z.of_nat size)%Z) ids) then Raise
  else if negb (length (nodup Z.eq_dec ids) =? size) then Raise
  else if negb (forallb (fun g => (g <? Z.of_nat num_groups)%Z) groups) then Raise
  else match c_method c with
    | Block P => if (length P =? num_groups) && forallb (fun row => length row =? num_groups) P then Ok fresh else Raise
    | _ => Ok fresh
    end.

(** l.381-412 put_event; the is_instantaneous branch is never taken, the event_mapper
    dictionaries are never read *)
Definition put_activation (s : state) (i : Z) : outcome state :=
  match wrap size i with
  | None => Raise
  | Some k => match nth_error (c_inds c) k with
    | None => Raise
    | Some ind => bind (draw (i_activ ind) (s_t s) (exps (s_ne s))) (fun d => Ok (with_queue s (Act (s_t s + d) i :: s_q s) (S (s_ne s))))
    end
  end.
Definition put_interaction (s : state) (i p : Z) : outcome state :=
  match wrap size i with
  | None => Raise
  | Some k => match nth_error (c_inds c) k with
    | None => Raise
    | Some ind => bind (draw (i_inter ind) (s_t s) (exps (s_ne s))) (fun d => Ok (with_queue s (Int (s_t s + d) i p :: s_q s) (S (s_ne s))))
    end
  end.

(** l.414-511 get_new_partner *)
(** self and the columns of the nonzero entries of the row of _A *)
Definition un_partners (s : state) (i : Z) (k : nat) : list Z := i :: map Z.of_nat (filter (s_A s k) (seq 0 size)).
(** group_to_ids: positions of the individuals of a group, KeyError if there are none *)
Definition group_to_ids (g : Z) : list Z := map Z.of_nat (filter (fun k => Z.eqb (group_at k) g) (seq 0 size)).
(** while new_partner in un_partners: new_partner = np.random.choice(potential), at most w times *)
Fixpoint reject (w k : nat) (potential un : list Z) : outcome (Z * nat) :=
  match w with
  | 0 => Loop
  | S w' => match potential with
    | [] => Raise
    | _ => let z := nth (chs k mod length potential) potential 0%Z in if zmem z un then reject w' (S k) potential un else Ok (z, S k)
    end
  end.
Definition same_set (a b : list Z) : bool := forallb (fun z => zmem z b) a && forallb (fun z => zmem z a) b.
(** l.416-447 *)
Definition pick_unless (stop : bool) (w : nat) (s : state) (potential un : list Z) : outcome (option Z * state) :=
  if stop then Ok (None, s)
  else bind (reject w (s_nc s) potential un) (fun r => Ok (Some (fst r), with_choices s (snd r))).
(** np.random.choice(np.arange(Ngroups), p=p): an index of positive probability; ValueError if
    the size is wrong, an entry is negative or the sum is not 1 (tolerance 1.5e-8) *)
Definition choice_p (k : nat) (p : list num) : outcome nat :=
  if negb (length p =? num_groups) then Raise
  else if existsb (fun x => qltb x 0) p then Raise
  else if qltb (qf 15 1000000000) (qabs (total p - 1)%num) then Raise
  else let pos := filter (fun g => qltb 0 (nth g p 0%num)) (seq 0 num_groups) in
       match pos with [] => Raise | _ => Ok (nth (chs k mod length pos) pos 0) end.
(** l.449-507; p is None for a row of NaN, which never sums to 0 *)
Definition pick_block (w : nat) (s : state) (i : Z) (k : nat) (row : option (list num)) : outcome (option Z * state) :=
  match row with
  | None => Raise
  | Some p =>
    if qeqb (total p) 0 then Ok (None, s)
    else bind (choice_p (s_nc s) p) (fun g => let s := with_choices s (S (s_nc s)) in
      match group_to_ids (Z.of_nat g) with
      | [] => Raise
      | potential => let un := un_partners s i k in pick_unless (forallb (fun z => zmem z un) potential) w s potential un
      end)
  end.
Definition row_at {A} (P : list A) (g : Z) : option A := match wrap (length P) g with Some k => nth_error P k | None => None end.
Definition new_partner (w : nat) (s : state) (i : Z) : outcome (option Z * state) :=
  match wrap size i with
  | None => Raise
  | Some k => let un := un_partners s i k in
    match c_method c with
    | Uniform => pick_unless (same_set ids un) w s ids un
    | WithinGroup => match group_to_ids (group_at k) with [] => Raise | potential => pick_unless (same_set potential un) w s potential un end
    | Block P => match row_at (normalized P) (group_at k) with None => Raise | Some row => pick_block w s i k row end
    | BlockMod f => match row_at (f (s_t s)) (group_at k) with None => Raise | Some row => pick_block w s i k (Some row) end
    | Other => Raise
    end
  end.

(** l.578-599 one new interaction *)
Definition interact (w : nat) (s : state) (i : Z) : outcome state :=
  bind (new_partner w s i) (fun r => let s := snd r in
    match fst r with
    | None => Ok s
    | Some p => match wrap size i, wrap size p with
      | Some a, Some b => put_interaction (with_contact s (set2 (s_A s) a b true) (set2 (s_last s) a b (s_t s)) (s_rec s)) i p
      | _, _ => Raise
      end
    end).
Fixpoint interact_times (m w : nat) (s : state) (i : Z) : outcome state :=
  match m with 0 => Ok s | S m' => bind (interact w s i) (fun s => interact_times m' w s i) end.
(** l.572-599 an activation *)
Definition activate (w : nat) (s : state) (i : Z) : outcome state :=
  bind (put_activation s i) (fun s => interact_times (c_num c) w s i).
(** l.601-618 the end of an interaction *)
Definition finish (s : state) (i p : Z) : outcome state :=
  match wrap size i, wrap size p with
  | Some a, Some b => Ok (with_contact s (set2 (s_A s) a b false) (set2 (s_last s) a b 0%num)
      (s_rec s ++ [{| source := i; target := p; start_time := s_last s a b; end_time := s_t s |}]))
  | _, _ => Raise
  end.
(** l.620-635 states saved at every new time and every dt *)
Definition save (save_all save_dt : bool) (dt prev : num) (s : state) : state :=
  if qltb prev (s_t s) then
    let all := if save_all then s_all s ++ [(s_t s, s_A s)] else s_all s in
    if save_dt && qleb (s_bin s) (s_t s) then with_saved s all (s_saved s ++ [(s_t s, s_A s)]) (s_bin s + dt)%num else with_saved s all (s_saved s) (s_bin s)
  else s.
(** l.560-635 the body of the loop, for the event taken from the queue *)
Definition treat (save_all save_dt : bool) (dt : num) (w : nat) (s : state) (e : ev) (q : list ev) : outcome state :=
  let prev := s_t s in let s := with_time s (ev_time e) q in
  bind (match e with Act _ i => activate w s i | Int _ i p => finish s i p end) (fun s => Ok (save save_all save_dt dt prev s)).
(** l.558-640 while self.t < self.t_end; an empty queue ends the loop *)
Fixpoint advance (save_all save_dt : bool) (dt : num) (fuel w : nat) (s : state) : outcome state :=
  match fuel with
  | 0 => Loop
  | S f => if qltb (s_t s) (c_end c) then
      match pop (s_q s) with
      | None => Ok s
      | Some (e, q) => bind (treat save_all save_dt dt w s e q) (advance save_all save_dt dt f w)
      end
    else Ok s
  end.
(** l.514-519 initialize_events *)
Fixpoint initialize (l : list Z) (s : state) : outcome state :=
  match l with [] => Ok s | i :: l' => bind (put_activation s i) (initialize l') end.
(** l.521-640 run. all_states and saved_states are new dictionaries, kept as lists: a key is
    repeated only if time goes back *)
Definition run (save_all save_dt : bool) (dt : num) (fuel w : nat) (s : state) : outcome state :=
  let s := with_time s (c_start c) (s_q s) in
  let s := with_saved s (s_all s) (s_saved s) (s_t s + dt)%num in
  bind (initialize ids s) (fun s =>
    let s := with_saved s (if save_all then [(s_t s, s_A s)] else s_all s) (if save_dt then [(s_t s, s_A s)] else s_saved s) (s_bin s) in
    advance save_all save_dt dt fuel w s).
(** SynthTempNetwork(...).run(...) *)
Definition simulate (save_all save_dt : bool) (dt : num) (fuel w : nat) : outcome state :=
  bind create (run save_all save_dt dt fuel w).
End Simulation.
