(** Textbook definitions used to state the claims about Legendre functions. *)
From Coquelicot Require Import Coquelicot.
From Verif Require Import Base LegendreModel.
Local Open Scope R_scope.

(** Rodrigues' formula: the associated Legendre function of degree n and order m without the
    Condon-Shortley phase,
    (1 - x^2)^(m/2) d^m/dx^m [ 1 / (2^n n!) d^n/dx^n (x^2 - 1)^n ]. *)
Definition rodrigues (n m : nat) (x : R) : R :=
  sqrt (1 - x ^ 2) ^ m * (Derive_n (fun t => (t ^ 2 - 1) ^ n) (n + m) x / (2 ^ n * INR (fact n))).

(** Schmidt semi-normalisation and full normalisation, as in Alken (2022) and Hofmann-Wellenhof and
    Moritz (2006). *)
Definition schmidt_factor (n m : nat) : R :=
  sqrt ((if Nat.eqb m 0 then 1 else 2) * INR (fact (n - m)) / INR (fact (n + m))).
Definition full_factor (n m : nat) : R :=
  sqrt ((if Nat.eqb m 0 then 1 else 2) * (2 * INR n + 1) * INR (fact (n - m)) / INR (fact (n + m))).

(** The array documented for the argument [p]. *)
Definition square (N : nat) (p : table) : Prop := rows p = (N + 1)%nat /\ cols p = (N + 1)%nat.

(** The lower triangle of an array of the documented shape holds the numbers [f n m]. *)
Definition filled (N : nat) (p : table) (f : nat -> nat -> R) : Prop :=
  square N p /\ forall n m, (m <= n)%nat -> (n <= N)%nat -> ent p n m = f n m.

(** A derivative routine applied [k] times, each time to a fresh array. *)
Fixpoint apply_times (k : nat) (routine : table -> table -> res table) (fresh : table) (p : table)
  : res table :=
  match k with
  | O => Ok p
  | S k' => do q <- apply_times k' routine fresh p; routine q fresh
  end.

(** The same function of the colatitude [t] with sin t in place of sqrt (1 - cos^2 t): equal to
    [rodrigues n m (cos t)] on [0, PI] and smooth at the poles. *)
Definition colat (n m : nat) (t : R) : R :=
  sin t ^ m * (Derive_n (fun s => (s ^ 2 - 1) ^ n) (n + m) (cos t) / (2 ^ n * INR (fact n))).
