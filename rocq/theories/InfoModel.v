(** Model of the comparison of clusterings by information measures,
    /repo/src/flowstab/network_clustering.py l.2186-2374 and
    /repo/src/flowstab/_cython_fast_funcs.pyx l.116-498.

    Simplifications: doubles are real numbers; nodes are natural numbers; a python set is a
    duplicate-free list whose order carries no meaning.  [None] is an exception or a result
    that is not a number. *)
From Verif Require Import Base PartitionModel.
From Coq Require Export Reals.
Local Open Scope bool_scope.

(** libc.math.log2 / np.log2 *)
Definition log2 (x : R) : R := (ln x / ln 2)%R.
(** [len(clust1.intersection(clust2))] *)
Definition inter_len (c1 c2 : list nat) : nat := length (filter (fun x => memb x c2) c1).

(** ** cython_nvi, _cython_fast_funcs.pyx l.167-205, and the identical fallback,
    network_clustering.py l.2322-2341 *)
(** [VI -= nij*log2((nij*nij)/(ni * nj))], l.195-197 *)
Definition vi_step (ni nj nij : nat) (VI : R) : R :=
  if 0 <? nij then (VI - INR nij * log2 ((INR nij * INR nij) / (INR ni * INR nj)))%R else VI.
(** the loop over clusters2 with the early exit, l.190-201 *)
Fixpoint nvi_inner (c1 : list nat) (cl2 : list (list nat)) (n_inter : nat) (VI : R) : R :=
  match cl2 with
  | [] => VI
  | c2 :: r =>
      let nij := inter_len c1 c2 in
      let VI' := vi_step (length c1) (length c2) nij VI in
      if length c1 <=? n_inter + nij then VI' else nvi_inner c1 r (n_inter + nij) VI'
  end.
(** l.186-205; the division by N*log2(N) is defined for N > 1 *)
Definition cython_nvi (cl1 cl2 : list (list nat)) (N : nat) : option R :=
  if N <=? 1 then None
  else Some (fold_left (fun VI c1 => nvi_inner c1 cl2 0 VI) cl1 0%R / (INR N * log2 (INR N)))%R.

(** ** cython_nvi_vectors, l.259-316 *)
(** [sort], and [sorted_vectors_intersection_length], l.475-498 *)
Fixpoint insert_nat (x : nat) (l : list nat) : list nat :=
  match l with
  | [] => [x]
  | y :: r => if x <=? y then x :: l else y :: insert_nat x r
  end.
Definition sort_nat (l : list nat) : list nat := fold_right insert_nat [] l.
Fixpoint merge_len (fuel : nat) (l1 l2 : list nat) (len : nat) : nat :=
  match fuel with
  | 0 => len
  | S f =>
      match l1, l2 with
      | a :: r1, b :: r2 =>
          if a =? b then merge_len f r1 r2 (S len)
          else if a <? b then merge_len f r1 l2 len
          else merge_len f l1 r2 len
      | _, _ => len
      end
  end.
Definition sorted_inter_len (l1 l2 : list nat) : nat := merge_len (length l1 + length l2) l1 l2 0.
(** l.281-314: no early exit *)
Definition nvi_vectors (cl1 cl2 : list (list nat)) (N : nat) : option R :=
  if N <=? 1 then None
  else Some (fold_left (fun VI c1 => fold_left (fun VI c2 =>
          vi_step (length c1) (length c2) (sorted_inter_len (sort_nat c1) (sort_nat c2)) VI) cl2 VI) cl1 0%R
        / (INR N * log2 (INR N)))%R.

(** ** cython_nvi_mat, l.319-391 *)
(** l.346-366: the nodes of all clusters one after the other in an array of N zeros, and the
    start of every cluster; [None] is a write outside the array (bounds are not checked) *)
Definition fill_indices (N : nat) (cl : list (list nat)) : option (list nat) :=
  if length (concat cl) <=? N then Some (concat cl ++ repeat 0 (N - length (concat cl))) else None.
Fixpoint indptr_from (k : nat) (cl : list (list nat)) : list nat :=
  match cl with
  | [] => [k]
  | c :: r => k :: indptr_from (k + length c) r
  end.
Definition slice_nat (l : list nat) (a b : nat) : list nat := firstn (b - a) (skipn a l).
(** l.374-391; the intersection sorts copies of the two slices, l.442-472 *)
Definition nvi_mat (cl1 cl2 : list (list nat)) (N : nat) : option R :=
  match fill_indices N cl1, fill_indices N cl2 with
  | Some ind1, Some ind2 =>
      let ptr1 := indptr_from 0 cl1 in
      let ptr2 := indptr_from 0 cl2 in
      let VI := fold_left (fun VI i => fold_left (fun VI j =>
          vi_step (nth (S i) ptr1 0 - nth i ptr1 0) (nth (S j) ptr2 0 - nth j ptr2 0)
            (sorted_inter_len (sort_nat (slice_nat ind1 (nth i ptr1 0) (nth (S i) ptr1 0)))
                              (sort_nat (slice_nat ind2 (nth j ptr2 0) (nth (S j) ptr2 0)))) VI)
          (seq 0 (length cl2)) VI) (seq 0 (length cl1)) 0%R in
      if N <=? 1 then None else Some (VI / (INR N * log2 (INR N)))%R
  | _, _ => None
  end.

(** ** cython_nvi_parallel, l.211-253.  [VI_res] is allocated and not initialised (l.235):
    [init i] is what its memory holds.  The threads are modelled as running one after the
    other. *)
Definition nvi_parallel (init : nat -> R) (cl1 cl2 : list (list nat)) (N : nat) : option R :=
  if N <=? 1 then None
  else Some (fold_left (fun VI i =>
          (VI + fold_left (fun v c2 =>
             vi_step (length (nth i cl1 [])) (length c2) (inter_len (nth i cl1 []) c2) v) cl2 (init i))%R)
        (seq O (length cl1)) 0%R / (INR N * log2 (INR N)))%R.

(** ** norm_var_information, network_clustering.py l.2259-2341 *)
(** the accepted forms of a clustering *)
Inductive clusters_arg :=
| AList (cl : list (list nat))
| ADict (d : dict)
| APartition (p : partition).
(** l.2271-2290; [max] of no values raises ValueError *)
Definition to_list (a : clusters_arg) : option (list (list nat)) :=
  match a with
  | AList cl => Some cl
  | ADict d => match dict_max d with None => None | Some m => Some (lists_of_dict m d) end
  | APartition p => Some (cluster_list p)
  end.
(** [min(c)]; not called on an empty cluster *)
Definition set_min (c : list nat) : nat := fold_right Nat.min (hd 0 c) c.
(** [sorted(clusters, key=lambda c: min(c))], stable; ValueError for an empty cluster *)
Fixpoint insert_cl (c : list nat) (l : list (list nat)) : list (list nat) :=
  match l with
  | [] => [c]
  | d :: r => if set_min c <=? set_min d then c :: l else d :: insert_cl c r
  end.
Definition sort_by_min (cl : list (list nat)) : option (list (list nat)) :=
  if forallb nonempty cl then Some (fold_right insert_cl [] cl) else None.
(** equality of sets, and of lists of sets *)
Definition set_eqb (a b : list nat) : bool := forallb (fun x => memb x b) a && forallb (fun x => memb x a) b.
Fixpoint sets_eqb (a b : list (list nat)) : bool :=
  match a, b with
  | [], [] => true
  | x :: r, y :: s => set_eqb x y && sets_eqb r s
  | _, _ => false
  end.
(** l.2293-2326; an empty list raises IndexError at [clusters1[0]] *)
Definition nvi_lists (cl1 cl2 : list (list nat)) (N : option nat) : option R :=
  if nonempty cl1 && nonempty cl2 then
    let n := match N with Some n => n | None => total_len cl1 end in
    if (length cl1 =? length cl2) && (length cl2 =? n) then Some 0%R
    else match sort_by_min cl1, sort_by_min cl2 with
         | Some s1, Some s2 =>
             if (length cl1 =? length cl2) && sets_eqb s1 s2 then Some 0%R
             else cython_nvi s1 s2 n
         | _, _ => None
         end
  else None.
Definition norm_var_information (a1 a2 : clusters_arg) (N : option nat) : option R :=
  match to_list a1, to_list a2 with
  | Some cl1, Some cl2 => nvi_lists cl1 cl2 N
  | _, _ => None
  end.

(** ** avg_norm_var_information, l.2344-2374 *)
(** [combinations(l, 2)] *)
Fixpoint pairs_of {A} (l : list A) : list (A * A) :=
  match l with
  | [] => []
  | a :: r => map (fun b => (a, b)) r ++ pairs_of r
  end.
(** l.2355-2362: the number of samples *)
Definition num_samples_used (num_samples : option nat) (num_repeat : nat) : nat :=
  let m := num_repeat * (num_repeat - 1) / 2 in
  match num_samples with Some k => Nat.min k m | None => m end.
(** l.2369: [s for i, s in enumerate(...) if i in idx] *)
Fixpoint select_from {A} (i : nat) (idx : list nat) (l : list A) : list A :=
  match l with
  | [] => []
  | a :: r => if memb i idx then a :: select_from (S i) idx r else select_from (S i) idx r
  end.
(** l.2364-2374; [idx] is the result of [np.random.choice]; the mean of no numbers is not a
    number *)
Definition avg_nvi (idx : list nat) (cls : list (list (list nat))) : option R :=
  let N := total_len (hd [] cls) in
  match all_some (map (fun pq => nvi_lists (fst pq) (snd pq) (Some N)) (select_from 0 idx (pairs_of cls))) with
  | Some vs => if nonempty vs then Some (fold_right Rplus 0 vs / INR (length vs))%R else None
  | None => None
  end.

(** ** compute_parallel_nvi, /repo/src/flowstab/parallel_clustering.py l.201-229: one value per
    sampled pair, [N] given by the caller; [Pool.map] is [map] *)
Definition parallel_nvi (idx : list nat) (cls : list (list (list nat))) (N : nat) : option (list R) :=
  all_some (map (fun pq => norm_var_information (AList (fst pq)) (AList (snd pq)) (Some N)) (select_from 0 idx (pairs_of cls))).

(** ** norm_mutual_information, l.2186-2256, and cython_nmi, _cython_fast_funcs.pyx l.116-160 *)
(** [if p != 0: H -= p*log2(p)], l.148-156 *)
Definition entropy_of (ps : list R) : R :=
  fold_left (fun H p => if Req_EM_T p 0 then H else (H - p * log2 p)%R) ps 0%R.
(** N = 0 and a zero denominator raise ZeroDivisionError *)
Definition cython_nmi (cl1 cl2 : list (list nat)) (N : nat) : option R :=
  if N =? 0 then None
  else
    let p1 := map (fun c1 => (INR (length c1) / INR N)%R) cl1 in
    let p12 := flat_map (fun c1 => map (fun c2 => (INR (inter_len c1 c2) / INR N)%R) cl2) cl1 in
    let p2 := map (fun c2 => (INR (length c2) / INR N)%R) cl2 in
    let H1 := entropy_of p1 in
    let H2 := entropy_of p2 in
    let H12 := entropy_of p12 in
    if Req_EM_T (Rmax H1 H2) 0 then None else Some ((H1 + H2 - H12) / Rmax H1 H2)%R.
Definition nmi_lists (cl1 cl2 : list (list nat)) : option R :=
  if nonempty cl1 && nonempty cl2 then cython_nmi cl1 cl2 (total_len cl1) else None.
Definition norm_mutual_information (a1 a2 : clusters_arg) : option R :=
  match to_list a1, to_list a2 with
  | Some cl1, Some cl2 => nmi_lists cl1 cl2
  | _, _ => None
  end.
