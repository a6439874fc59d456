(** Model of the names of the files that the three scripts in /repo/src/flowstab/scripts exchange:
    those that run_laplacians_transmats.py writes, l.290-325, l.385-535, how run_cov_integrals.py
    finds intervals and waiting times in them, l.219-233, and loads them, l.262-282, l.301-318,
    the names of its integrals, l.304-318, and how run_clusterings.py selects these, l.205-222, and
    finds static adjacency matrices, l.688-700.

    Simplifications: one directory; names of networks have no "/", no braces and none of the
    characters "*", "?", "[", which [format] and [glob] treat specially; of the spellings accepted
    by [float] and [int] only digits, a decimal point and an exponent after "e"; waiting times are
    exact positive numbers. *)
From Coq Require Import Ascii String Qround.
From Verif Require Import Base LouvainModel SparseModel EventsModel TransModel FileModel.
Local Open Scope bool_scope.
Local Open Scope list_scope.

(** ** Strings *)
Definition prefixb (s p : path) : bool := path_eqb (firstn (length s) p) s.
(** [s in p] *)
Fixpoint containsb (s p : path) : bool := prefixb s p || match p with [] => false | _ :: r => containsb s r end.
(** [p.split("_")] *)
Fixpoint split_us (p : path) : list path :=
  match p with
  | [] => [[]]
  | c :: r => if Ascii.eqb c "_" then [] :: split_us r
              else match split_us r with h :: t => (c :: h) :: t | [] => [[c]] end
  end.
(** before and after the first [c] *)
Fixpoint cut (c : ascii) (p : path) : path * option path :=
  match p with
  | [] => ([], None)
  | x :: r => if Ascii.eqb x c then ([], Some r) else let '(a, b) := cut c r in (x :: a, b)
  end.
Definition digit (d : nat) : ascii := ascii_of_nat (48 + d).
Definition digit_value (c : ascii) : option nat :=
  let k := nat_of_ascii c in if (48 <=? k) && (k <=? 57) then Some (k - 48) else None.
Definition is_digit (c : ascii) : bool := match digit_value c with Some _ => true | None => false end.

(** ** Integers *)
Fixpoint digits_of (fuel k : nat) (acc : path) : path :=
  match fuel with
  | 0 => acc
  | S fuel => if k <? 10 then digit k :: acc else digits_of fuel (k / 10) (digit (k mod 10) :: acc)
  end.
Definition dec (k : nat) : path := digits_of (S k) k [].
(** the format [{:0wd}] *)
Definition padded (w k : nat) : path := repeat (digit 0) (w - length (dec k)) ++ dec k.
Fixpoint read_digits (acc : nat) (p : path) : option nat :=
  match p with
  | [] => Some acc
  | c :: r => match digit_value c with Some d => read_digits (10 * acc + d) r | None => None end
  end.
(** [int(p)]; [None]: ValueError *)
Definition parse_int (p : path) : option nat := match p with [] => None | _ => read_digits 0 p end.

(** ** Numbers *)
(** 10 ** e *)
Definition p10 (e : Z) : num := if (e <? 0)%Z then (1 / qz (10 ^ (- e)))%num else qz (10 ^ e).
(** mantissa at least 1 and less than 10, and exponent *)
Fixpoint sci (fuel : nat) (x : num) (e : Z) : num * Z :=
  match fuel with
  | 0 => (x, e)
  | S fuel => if qleb (qn 10) x then sci fuel (x / qn 10)%num (e + 1)%Z
              else if qltb x 1%num then sci fuel (x * qn 10)%num (e - 1)%Z
              else (x, e)
  end.
Definition sci_fuel (x : num) : nat := S (Pos.size_nat (Z.to_pos (Qnum (this x))) + Pos.size_nat (Qden (this x))).
(** to the nearest integer, ties to even *)
Definition round_even (y : num) : nat :=
  let f := Qfloor (this y) in
  let r := (y - qz f)%num in
  Z.to_nat (if qltb r (1 / 2)%num then f else if qltb (1 / 2)%num r then (f + 1)%Z else if Z.even f then f else (f + 1)%Z).
(** four digits and the exponent of the first *)
Definition four (x : num) : nat * Z :=
  let '(m, e) := sci (sci_fuel x) x 0%Z in
  let r := round_even (m * qn 1000)%num in
  if r =? 10 * 1000 then (1000, (e + 1)%Z) else (r, e).
(** the format [{:.3e}] *)
Definition fmt_e3 (x : num) : path :=
  let '(r, e) := four x in
  digit (r / 1000) :: "."%char :: digit (r / 100 mod 10) :: digit (r / 10 mod 10) :: digit (r mod 10) :: "e"%char ::
  (if (e <? 0)%Z then "-"%char else "+"%char) :: padded 2 (Z.abs_nat e).
(** [float(p)]; [None]: ValueError *)
Definition parse_exponent (p : option path) : option Z :=
  match p with
  | None => Some 0%Z
  | Some (c :: r) => if Ascii.eqb c "-" then option_map (fun k => (- Z.of_nat k)%Z) (parse_int r)
                     else if Ascii.eqb c "+" then option_map Z.of_nat (parse_int r)
                     else option_map Z.of_nat (parse_int (c :: r))
  | Some [] => None
  end.
Definition parse_float (p : path) : option num :=
  let '(mantissa, e) := cut "e" p in
  let '(whole, fraction) := cut "." mantissa in
  let fraction := match fraction with Some f => f | None => [] end in
  match parse_int (whole ++ fraction), parse_exponent e with
  | Some v, Some e => Some (qn v * p10 (e - Z.of_nat (length fraction)))%num
  | _, _ => None
  end.

(** ** Directories *)
Section Files.
Context {A : Type}.
(** a dictionary of matrices with one key lamda, saved by [save_T], [save_inter_T] and their linear
    versions; an adjacency matrix; an integral *)
Inductive content := CMat (lamda : num) (x : A) | CAdj (x : A) | CInt (x : A).
Definition dir := list (path * (format * content)).
Definition disk_of (d : dir) : disk content := fun p => option_map snd (find (fun f => path_eqb p (fst f)) d).
(** [glob.glob(p + "*")] is not empty *)
Definition globbed (d : dir) (p : path) : bool := existsb (fun f => prefixb p (fst f)) d.

(** *** run_laplacians_transmats.py *)
Inductive kind := Between | Over (reversed : bool).
Record task := mkTask { k_tau : num; k_int : nat; k_lin : bool; k_kind : kind }.
(** [net_file], l.290-292, l.319-331, l.384, l.423-429, and the name completed in l.391-398,
    l.423-430, l.451, l.500 *)
Definition file_stem (net : path) (t : task) : path :=
  net ++ str "_tau_w" ++ fmt_e3 (k_tau t) ++ str "_int" ++ padded 6 (k_int t) ++ str "_"
  ++ (match k_kind t with Over true => str "_reversed" | _ => [] end)
  ++ (if k_lin t then str "_lin" else [])
  ++ (match k_kind t with Between => str "_inter_trans_mat" | Over _ => str "_trans_mat" end).
(** the argument of [save_inter_T], l.398, or of [save_T], l.475 *)
Definition given_name (net : path) (t : task) : path :=
  file_stem net t ++ (match k_kind t with Between => [] | Over _ => str ".pickle" end).
(** saved unless [glob] finds a file; [lamda = 1/tau_w] *)
Definition save_task (compress : task -> bool) (compute : task -> A) (net : path) (d : dir) (t : task) : dir :=
  if globbed d (file_stem net t) then d
  else (written_name (compress t) (given_name net t), (format_of (compress t), CMat (1 / k_tau t)%num (compute t))) :: d.
(** l.293-302 *)
Definition adj_name (net : path) (k : nat) : path := net ++ str "_static_adjacency" ++ str "_int" ++ padded 6 k ++ str ".pickle".
Definition save_adj (adj : nat -> A) (net : path) (d : dir) (k : nat) : dir :=
  if existsb (fun f => path_eqb (adj_name net k) (fst f)) d then d else (adj_name net k, (Plain, CAdj (adj k))) :: d.
(** the calls that save, in any order *)
Inductive save_call := SaveTask (t : task) | SaveAdj (k : nat).
Definition run_step1 (compress : task -> bool) (compute : task -> A) (adj : nat -> A) (net : path) (calls : list save_call) (d : dir) : dir :=
  fold_left (fun d c => match c with SaveTask t => save_task compress compute net d t | SaveAdj k => save_adj adj net d k end) calls d.

(** *** run_cov_integrals.py *)
(** [re.search("int[0-9]{6}", p)] *)
Definition int6_here (p : path) : bool :=
  prefixb (str "int") p && (6 <=? length (skipn 3 p)) && forallb is_digit (firstn 6 (skipn 3 p)).
Fixpoint has_int6 (p : path) : bool := int6_here p || match p with [] => false | _ :: r => has_int6 r end.
Inductive found := FInt (k : nat) | FTau (x : num) | FNothing.
(** l.224-227 *)
Definition read_part (p : path) : option found :=
  if has_int6 p then option_map FInt (parse_int (skipn 3 p))
  else if prefixb (str "w") p then option_map FTau (parse_float (skipn 1 p))
  else Some FNothing.
Definition read_name (p : path) : option (list found) := all_some (map read_part (split_us (fst (splitext p)))).
(** [sorted(list(...))] of a set *)
Fixpoint insert_set {X} (ltb eqb : X -> X -> bool) (x : X) (l : list X) : list X :=
  match l with
  | [] => [x]
  | y :: r => if eqb x y then l else if ltb x y then x :: l else y :: insert_set ltb eqb x r
  end.
(** l.219-230: ValueError *)
Definition read_dir (names : list path) : option (list nat * list num) :=
  match all_some (map read_name names) with
  | None => None
  | Some l => Some (fold_right (fun f s => match f with FInt k => insert_set Nat.ltb Nat.eqb k s | _ => s end) [] (concat l),
                    fold_right (fun f s => match f with FTau x => insert_set qltb qeqb x s | _ => s end) [] (concat l))
  end.
(** l.262-273, l.301-302, l.504 and l.565: the names of the matrices of interval [k] *)
Definition lookup_name (net : path) (t : task) : path :=
  match k_kind t with
  | Between => net ++ str "_tau_w" ++ fmt_e3 (k_tau t) ++ str "_int" ++ padded 6 (k_int t) ++ str "_"
               ++ (if k_lin t then str "_lin_inter_trans_mat" else str "_inter_trans_mat")
  | Over r => net ++ str "_tau_w" ++ fmt_e3 (k_tau t) ++ str "_int" ++ padded 6 (k_int t) ++ str "__"
              ++ (if r then str "reversed_" else []) ++ (if k_lin t then str "lin_trans_mat" else str "trans_mat")
  end.
(** [load_T(...)["T"][1/tau_w]]: FileNotFoundError or KeyError *)
Definition load_task (d : dir) (net : path) (t : task) : option A :=
  match read_any (disk_of d) (lookup_name net t) with
  | Some (CMat lamda x) => if qeqb lamda (1 / k_tau t)%num then Some x else None
  | _ => None
  end.

(** names of the integrals and of their temporary files, l.304-318 *)
Definition integral_name (net : path) (tau : num) (lin : bool) (a b : nat) : path :=
  net ++ str "_tau_w" ++ fmt_e3 tau ++ (if lin then str "_PT_lin_" else str "_PT_") ++ padded 6 a ++ str "_to_" ++ padded 6 b ++ str ".pickle".
Definition temp_name (net : path) (tau : num) (lin : bool) (a b : nat) : path :=
  net ++ str "_tau_w" ++ fmt_e3 tau ++ (if lin then str "_temp_integration_lin_" else str "_temp_integration_") ++ padded 6 a ++ str "_to_" ++ padded 6 b ++ str ".pickle".

(** *** run_clusterings.py *)
(** l.210-212 *)
Definition selected (net : path) (names : list path) : list path :=
  filter (fun f => prefixb (net ++ str "_tau_w") f && negb (containsb (str "temp_integration") f) && negb (containsb (str "pTpint") f)) names.
(** [int(extracts[-3]), int(extracts[-1])], l.690-692: IndexError or ValueError *)
Definition start_stop (file : path) : option (nat * nat) :=
  match rev (split_us (fst (splitext file))) with
  | b :: _ :: a :: _ => match parse_int a, parse_int b with
                        | Some a, Some b => Some (Nat.min a b, Nat.max a b)
                        | _, _ => None
                        end
  | _ => None
  end.
(** l.695-696 *)
Definition static_name (net : path) (a b : nat) : path := net ++ str "_static_A_" ++ padded 6 a ++ str "_to_" ++ padded 6 b ++ str ".pickle".
(** the adjacency matrix found for an integral, l.688-709: [None] if the file is not found *)
Definition find_static (d : dir) (net : path) (file : path) : option content :=
  match start_stop file with
  | None => None
  | Some (a, b) => read (disk_of d) (static_name net a b) Plain
  end.
End Files.
Arguments content : clear implicits.
Arguments dir : clear implicits.
