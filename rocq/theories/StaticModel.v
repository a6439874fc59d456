(** Model of [static_clustering], /repo/src/flowstab/network_clustering.py l.2377-2492.

    Simplifications: a matrix, dense or csr, is the function giving its entries, numbers are
    exact; an exception, a NaN or an infinity is [None]; negative integer times, for which numpy
    inverts the matrix and scipy raises an exception, are left out; the clustering is given by
    p1 = p2, T and the matrix S its constructor computes (C61 for csr matrices). *)
From Verif Require Import Base LouvainModel EventsModel TransModel.
Local Open Scope bool_scope.

(** the Markov time [t]: a python int, or a number of any other type ([isinstance(t,int)] is false
    for numpy integers and for floats), l.2468 *)
Inductive time := PyInt (k : nat) | OtherNumber (x : num).
Definition time_value (t : time) : num := match t with PyInt k => qn k | OtherNumber x => x end.

(** [w[0]] and [v[:,0]] of [np.linalg.eig], or [w[0]] and [v] of [eigs(k=1, which="LM")]: real
    and imaginary parts *)
Record eigenpair := mkEigen { w_re : num; w_im : num; v_re : nat -> num; v_im : nat -> num }.
(** [np.allclose(np.abs(w[0]), 1)]: the modulus is within 1e-8 + 1e-5 of 1; [m2] is its square *)
Definition modulus_tol : num := (qf 1 100000000 + qf 1 100000)%num.
Definition modulus_one (m2 : num) : bool :=
  qleb ((1 - modulus_tol) * (1 - modulus_tol))%num m2 && qleb m2 ((1 + modulus_tol) * (1 + modulus_tol))%num.
Definition transpose (A : mat) : mat := fun i j => A j i.

Section Static.
Context (n : nat) (eig : mat -> eigenpair) (E : num -> mat -> mat).

(** l.2433-2443 *)
Definition degs (A : mat) (i : nat) : num := sumN n (A i).
Definition degs_m1 (A : mat) (i : nat) : num := (1 / (if qeqb (degs A i) 0 then 1 else degs A i))%num.
(** [A_sl[degs==0,degs==0] = 1] sets diagonal elements *)
Definition A_sl (A : mat) : mat := fun i j => if (i =? j) && qeqb (degs A i) 0%num then 1%num else A i j.
Definition Tstat (A : mat) : mat := fun i j => (degs_m1 A i * A_sl A i j)%num.

(** l.2446-2468 *)
Definition stationary (directed : bool) (A : mat) : option (nat -> num) :=
  if qeqb (sumN n (degs A)) 0%num then None
  else if directed then
    let e := eig (transpose (Tstat A)) in
    if negb (modulus_one (w_re e * w_re e + w_im e * w_im e)%num) then None
    else if qeqb (sumN n (v_re e)) 0%num then None
    else Some (fun i => (v_re e i / sumN n (v_re e))%num)
  else Some (fun i => (degs A i / sumN n (degs A))%num).

(** [np.linalg.matrix_power] and [M.__pow__] *)
Fixpoint matrix_power (M : mat) (k : nat) : mat :=
  match k with 0 => ident | S k' => mmul n M (matrix_power M k') end.
(** l.2470-2488; [E t L] is exp(-t L) *)
Definition transition (discrete_time_rw linearized : bool) (t : time) (A : mat) : mat :=
  match discrete_time_rw, t with
  | true, PyInt k => matrix_power (Tstat A) k
  | _, _ =>
      let L := mminus ident (Tstat A) in
      if linearized then mminus ident (mscal (time_value t) L) else E (time_value t) L
  end.

(** [np.isclose(a, b)] with its default tolerances *)
Definition isclose (a b : num) : bool := qleb (qabs (a - b)%num) (qf 1 100000000 + qf 1 100000 * qabs b)%num.
(** the assertion of the constructor of Clustering, l.357-359; SparseClustering has none *)
Definition rows_ok (T : mat) : bool :=
  forallb (fun i => isclose (sumN n (T i)) 1%num || isclose (sumN n (T i)) 0%num) (seq 0 n).

Record static := mkStatic { st_p : nat -> num; st_T : mat; st_S : mat }.
Definition static_clustering (is_csr : bool) (A : mat) (t : time) (discrete_time_rw linearized directed : bool) : option static :=
  match stationary directed A with
  | None => None
  | Some p =>
      let T := transition discrete_time_rw linearized t A in
      if is_csr || rows_ok T then Some (mkStatic p T (compute_S p p T)) else None
  end.
End Static.
