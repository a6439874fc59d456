(** Model of [make_step_block_probs], /repo/src/flowstab/synth_temp_network.py l.662-704, the function of
    the time that the second example of the module hands to [SynthTempNetwork] for the method
    'block_probs_mod'.  The warning that is printed for times outside of the round is left out. *)
From Verif Require Import Base.
Local Open Scope bool_scope.

(** l.673-689 *)
Definition half_rest (m1 : num) : num := ((1 - m1) / (1 + 1))%num.
Definition within (m1 : num) : list (list num) :=
  let m2 := half_rest m1 in [[m1; m2; m2]; [m2; m1; m2]; [m2; m2; m1]].
Definition ex12 (p1 : num) : list (list num) :=
  let p2 := (1 - p1)%num in [[p2; p1; 0]; [p1; p2; 0]; [0; 0; 0]]%num.
Definition ex23 (p1 : num) : list (list num) :=
  let p2 := (1 - p1)%num in [[0; 0; 0]; [0; p2; p1]; [0; p1; p2]]%num.
Definition ex13 (p1 : num) : list (list num) :=
  let p2 := (1 - p1)%num in [[p2; 0; p1]; [0; 0; 0]; [p1; 0; p2]]%num.
(** l.690-704 *)
Definition step_block_probs (d1 d2 m1 p1 : num) (t : num) : list (list num) :=
  let two := (1 + 1)%num in
  let three := (1 + 1 + 1)%num in
  if qleb 0%num t && qltb t d1 then within m1
  else if qleb d1 t && qltb t (d1 + d2)%num then ex12 p1
  else if qleb (d1 + d2)%num t && qltb t (two * d1 + d2)%num then within m1
  else if qleb (two * d1 + d2)%num t && qltb t (two * (d1 + d2))%num then ex23 p1
  else if qleb (two * (d1 + d2))%num t && qltb t (two * (d1 + d2) + d1)%num then within m1
  else if qleb (two * (d1 + d2) + d1)%num t && qleb t (three * (d1 + d2))%num then ex13 p1
  else within m1.
