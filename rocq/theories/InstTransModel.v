(** Model of [ContTempInstNetwork.compute_inter_transition_matrices],
    /repo/src/flowstab/temporal_network.py l.2105-2128: the method of ContTempNetwork with
    [fix_tau_k=True]. *)
From Verif Require Import Base LouvainModel EventsModel TransModel.
Definition inst_inter (N : net) (g : list grid_row) (E : num -> mat -> mat) (lamda t_start t_stop : option num) (use_sparse_stoch : bool) (st : tn) : option tn :=
  compute_inter (num_nodes_of N) (times (rows N)) (inst_laplacians N g) E lamda t_start t_stop true use_sparse_stoch st.
(** [compute_lin_inter_transition_matrices], l.2131-2161: likewise *)
Definition inst_lin_inter (N : net) (g : list grid_row) (P : mat -> mat) (lamda t_start t_stop : option num) (t_s : num) (use_sparse_stoch : bool) (st : tn) : option tn :=
  compute_lin_inter (times (rows N)) (inst_laplacians N g) P lamda t_start t_stop t_s true use_sparse_stoch st.
