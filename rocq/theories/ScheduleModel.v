(** Model of the parallel loops ([numba.prange]) of harmonica.

    The loops modelled are:
      _forward/point.py:388-398 and 436-447, _forward/prisms/gravity.py:524-537,
      _forward/prisms/layer.py:590-622, _forward/prisms/magnetic.py:317-335 and 382-398,
      _forward/dipole.py:329-346 and 386-400, _forward/tesseroid_gravity.py:305-336 and 408-438,
      _equivalent_sources/utils.py:65-74 and 88-97, _spherical_harmonics/igrf.py:578-629, 656-667
      and 668-704.

    Every one has the same form: iteration [i] performs, in program order, a sequence of updates
    [out[cell] op= value] of cells of the shared output arrays, where the sequence of cells and values
    is computed from read-only inputs and from scratch arrays allocated inside the iteration.  An
    update is two separate memory accesses: the old value is loaded into a register, then the new
    value is stored; other iterations can run in between.  Numbers are an arbitrary type and the
    update functions are arbitrary, so nothing is assumed about floating point arithmetic.
    Not modelled: weak memory (the iterations are data-race free, which is what is proved), how numba
    groups iterations into threads (any grouping is one of the interleavings below), exceptions and
    the progress bar. *)
From Verif Require Import Base NumPy.

Section Machine.
Context {C V : Type}.
Variable C_eq : forall a b : C, {a = b} + {a <> b}.

(** One update: the cell and the function from its old to its new value. Source: e.g. point.py:390. *)
Definition update := (C * (V -> V))%type.

(** What is left to do in an iteration and the loaded register, if any. Source: one iteration of prange, e.g. point.py:388-398. *)
Definition local := (list update * option V)%type.

(** Source: the shared memory and the state of every iteration, e.g. point.py:388-398. *)
Record config := Config { mem : C -> V; loc : nat -> local }.

(** Language primitive: store to a cell, e.g. point.py:390. *)
Definition mset (m : C -> V) (c : C) (v : V) : C -> V := fun c' => if C_eq c c' then v else m c'.
(** Language primitive: new local state of an iteration. *)
Definition lset (l : nat -> local) (i : nat) (x : local) : nat -> local :=
  fun j => if Nat.eq_dec i j then x else l j.

(** One memory access of iteration [i]. Source: e.g. the load or the store of [out[i] += ...], point.py:390. *)
Definition step (i : nat) (s : config) : config :=
  match loc s i with
  | ([], _) => s
  | (((c, f) :: p) as prog, None) => Config (mem s) (lset (loc s) i (prog, Some (mem s c)))
  | ((c, f) :: p, Some v) => Config (mset (mem s) c (f v)) (lset (loc s) i (p, None))
  end.

(** A schedule names the iteration that makes the next memory access. Source: what numba.prange may do, e.g. point.py:388-398. *)
Definition run (sched : list nat) (s : config) : config := fold_left (fun s i => step i s) sched s.

(** Source: the state in which the loop begins, e.g. point.py:388. *)
Definition start (prog : nat -> list update) (m : C -> V) : config := Config m (fun i => (prog i, None)).

(** Source: the loop has ended, e.g. point.py:398. *)
Definition complete (n : nat) (s : config) : Prop := forall i, (i < n)%nat -> fst (loc s i) = [].

(** The serial loop [for i in range(n)]: the updates one after the other. Source: one update without interruption, e.g. point.py:390. *)
Definition do_update (m : C -> V) (u : update) : C -> V := mset m (fst u) (snd u (m (fst u))).
(** Source: the functions compiled without parallel, e.g. prisms/layer.py:631-633. *)
Definition serial (n : nat) (prog : nat -> list update) (m : C -> V) : C -> V :=
  fold_left do_update (flat_map prog (range 0 n)) m.

(** Each iteration touches only cells no other iteration touches. Source: specification of race freedom for the loops listed above. *)
Definition disjoint (n : nat) (prog : nat -> list update) : Prop :=
  forall i j c, (i < n)%nat -> (j < n)%nat -> In c (map fst (prog i)) -> In c (map fst (prog j)) -> i = j.
End Machine.

(** The loops.  [plus], [times] and the contributions are arbitrary functions. *)
Section Loops.
Context {V : Type}.
Variable plus : V -> V -> V.

(** point.py:388-398, 436-447; prisms/gravity.py:524-537; eq. sources utils.py:88-97:
    [for j: out[i] += contrib(i, j)] *)
Definition prog_accumulate (m : nat) (contrib : nat -> nat -> V) (i : nat) : list (nat * (V -> V)) :=
  map (fun j => (i, fun v => plus v (contrib i j))) (range 0 m).

(** layer.py:590-622: the same with cells that are skipped; tesseroid_gravity.py:305-336: the same with
    a number of contributions that depends on the iteration. *)
Definition prog_accumulate_list (contribs : nat -> list V) (i : nat) : list (nat * (V -> V)) :=
  map (fun x => (i, fun v => plus v x)) (contribs i).

(** magnetic.py:317-335, dipole.py:329-346: three output arrays (component 0, 1, 2). *)
Definition prog_vector (m : nat) (contrib : nat -> nat -> V * V * V) (i : nat) : list ((nat * nat) * (V -> V)) :=
  flat_map (fun j => let '(b0, b1, b2) := contrib i j in
    [((0%nat, i), fun v => plus v b0); ((1%nat, i), fun v => plus v b1); ((2%nat, i), fun v => plus v b2)]) (range 0 m).

(** utils.py:65-74 (Jacobian) and igrf.py:656-667: plain stores in row [i]. *)
Definition prog_rows (m : nat) (value : nat -> nat -> V) (i : nat) : list ((nat * nat) * (V -> V)) :=
  map (fun j => ((i, j), fun _ => value i j)) (range 0 m).

(** igrf.py:578-629: three accumulations per term, then the final in-place change of b_east[i]. *)
Definition prog_igrf (m : nat) (contrib : nat -> nat -> V * V * V) (fin : nat -> V -> V) (i : nat) : list ((nat * nat) * (V -> V)) :=
  prog_vector m contrib i ++ [((0%nat, i), fin i)].

(** igrf.py:668-704: the same for every longitude [j] of row [i]; cells (component, (row, column)). *)
Definition prog_igrf_grid (n_lon m : nat) (contrib : nat -> nat -> nat -> V * V * V) (fin : nat -> nat -> V -> V) (i : nat)
  : list ((nat * (nat * nat)) * (V -> V)) :=
  flat_map (fun j =>
    flat_map (fun k => let '(b0, b1, b2) := contrib i j k in
      [((0%nat, (i, j)), fun v => plus v b0); ((1%nat, (i, j)), fun v => plus v b1); ((2%nat, (i, j)), fun v => plus v b2)]) (range 0 m)
    ++ [((0%nat, (i, j)), fin i j)]) (range 0 n_lon).
End Loops.
