(** C05: the result of a parallel loop does not depend on how its iterations are interleaved. *)
From Verif Require Import Base BaseFacts NumPy NumPyFacts DistanceModel PointGravityModel PointGravitySpec PointGravityProofs
  ScheduleModel ScheduleProofs.

(** For every loop whose iterations touch disjoint cells, every number system, every interleaving of
    the individual loads and stores: the final memory is the one of the serial loop. *)
Theorem C05_schedule_independent {C V} (C_eq : forall a b : C, {a = b} + {a <> b})
    n (prog : nat -> list (C * (V -> V))) m sched :
  disjoint n prog -> Forall (fun j => (j < n)%nat) sched -> complete n (run C_eq sched (start prog m)) ->
  forall c, mem (run C_eq sched (start prog m)) c = serial C_eq n prog m c.
Proof. exact (schedule_independent C_eq n prog m sched). Qed.
Print Assumptions C05_schedule_independent.

(** Every interleaving in which each iteration gets its turns completes the loop. *)
Theorem C05_fair_schedules_complete {C V} (C_eq : forall a b : C, {a = b} + {a <> b})
    n (prog : nat -> list (C * (V -> V))) m sched :
  disjoint n prog -> Forall (fun j => (j < n)%nat) sched ->
  (forall i, (i < n)%nat -> (2 * length (prog i) <= count i sched)%nat) -> complete n (run C_eq sched (start prog m)).
Proof. exact (enough_accesses C_eq n prog m sched). Qed.
Print Assumptions C05_fair_schedules_complete.

(** All the parallel loops of harmonica touch disjoint cells, whatever the addition is. *)
Theorem C05_harmonica_loops_disjoint {V} (plus : V -> V -> V) n m k c1 c3 cs c3g (value : nat -> nat -> V) fin fing :
  disjoint n (prog_accumulate plus m c1) /\ disjoint n (prog_accumulate_list plus cs) /\
  disjoint n (prog_vector plus m c3) /\ disjoint n (prog_rows m value) /\
  disjoint n (prog_igrf plus m c3 fin) /\ disjoint n (prog_igrf_grid plus k m c3g fing).
Proof.
  exact (conj (disjoint_accumulate plus n m c1) (conj (disjoint_accumulate_list plus n cs)
    (conj (disjoint_vector plus n m c3) (conj (disjoint_rows n m value)
    (conj (disjoint_igrf plus n m c3 fin) (disjoint_igrf_grid plus n k m c3g fing)))))).
Qed.
Print Assumptions C05_harmonica_loops_disjoint.

(** For an accumulating loop every interleaving leaves in out[i] the contributions added to the
    initial value one by one in the order of the serial program; [plus] need not be associative. *)
Theorem C05_accumulation_order_fixed {V} (plus : V -> V -> V) n m contrib (out : nat -> V) sched i :
  (i < n)%nat -> Forall (fun j => (j < n)%nat) sched ->
  complete n (run Nat.eq_dec sched (start (prog_accumulate plus m contrib) out)) ->
  mem (run Nat.eq_dec sched (start (prog_accumulate plus m contrib) out)) i
  = fold_left (fun v j => plus v (contrib i j)) (range 0 m) (out i).
Proof.
  intros Hi Hs Hc. rewrite (schedule_independent Nat.eq_dec n _ out sched (disjoint_accumulate plus n m contrib) Hs Hc).
  exact (serial_accumulate plus n m contrib out i Hi).
Qed.
Print Assumptions C05_accumulation_order_fixed.

(** parallel=True and parallel=False of point_gravity: any interleaving of the loop over observation
    points leaves in the output the numbers that the serial loop returns. *)
Theorem C05_point_mass_parallel_equals_serial (ps : list point) (ss : list source) (k : kernel_t) sched out :
  let contrib i j := cart_kernel_of k (nth i ps p0) (nth j ss s0) in
  let prog := prog_accumulate Rplus (length ss) contrib in
  let n := length ps in
  Forall (fun j => (j < n)%nat) sched -> complete n (run Nat.eq_dec sched (start prog (fun _ => 0))) ->
  point_mass_cartesian (map fst3 ps) (map snd3 ps) (map thd3 ps)
    (map fst3 (map fst ss)) (map snd3 (map fst ss)) (map thd3 (map fst ss)) (map snd ss) (repeat 0 n) k = Ok out ->
  map (mem (run Nat.eq_dec sched (start prog (fun _ => 0)))) (range 0 n) = out.
Proof.
  intros contrib prog n Hs Hc. unfold n at 1. rewrite (point_mass_cartesian_ok ps ss k). intros [= <-].
  etransitivity; [|exact (map_range_nth ps p0 (fun p => sum_over ss (cart_kernel_of k p)))].
  apply map_ext_in. intros i Hi. apply range_in in Hi.
  unfold prog. rewrite (C05_accumulation_order_fixed Rplus n (length ss) contrib (fun _ => 0) sched i) by (assumption || (unfold n; lia)).
  rewrite fold_left_plus_R, Rplus_0_l. apply (sum_over_range_nth ss s0 (cart_kernel_of k (nth i ps p0))).
Qed.
Print Assumptions C05_point_mass_parallel_equals_serial.

(** The hypotheses are met by a real interleaving: two iterations, two updates each, alternating. *)
Example C05_example :
  let prog := prog_accumulate Nat.add 2 (fun i j => (10 * i + j)%nat) in
  let sched := [0; 1; 1; 0; 1; 0; 0; 1]%nat in
  Forall (fun j => (j < 2)%nat) sched /\ complete 2 (run Nat.eq_dec sched (start prog (fun _ => 5%nat))) /\
  map (mem (run Nat.eq_dec sched (start prog (fun _ => 5%nat)))) [0; 1]%nat = [6; 26]%nat.
Proof.
  repeat split.
  - repeat constructor.
  - intros i Hi. destruct i as [|[|i]]; [reflexivity|reflexivity|lia].
Qed.

(** Disjointness is needed: if the iterations shared one cell, this interleaving would lose updates. *)
Example C05_shared_cell_would_race :
  let prog := fun i : nat => [(0%nat, fun v => (v + S i)%nat)] in
  mem (run Nat.eq_dec [0; 1; 0; 1]%nat (start prog (fun _ => 0%nat))) 0%nat = 2%nat /\
  serial Nat.eq_dec 2 prog (fun _ => 0%nat) 0%nat = 3%nat.
Proof. split; reflexivity. Qed.
