(** Shared vocabulary of the model: exceptions as values, array accesses that can fail, loops,
    sums of reals, vectors of R^3 and NaN-aware numbers.  No /repo function is modelled here. *)
From Coq Require Export String.
From Coq Require Export Reals ZArith Lia Lra Bool List.
Export ListNotations.
Open Scope R_scope.

(** Python exceptions raised by the modelled code.  [OutOfBounds] stands for an unchecked access
    outside an array inside a numba function compiled without bounds checking (undefined behaviour
    of the real program), [OutOfFuel] for a loop of the model that ran out of fuel. Language primitive: the exception classes the modelled code raises, e.g. _forward/point.py:243, _euler_methods.py:105, _io/icgem_gdf.py:151. *)
Inductive error : Set :=
| ValueError | TypeError | NotImplementedError | OverflowError | IndexError | KeyError
| UnboundLocalError | AttributeError | OSError | ZeroDivisionError | LinAlgError
| OutOfBounds | OutOfFuel.

(** Language primitive: outcome of a Python call (value or exception), used for every function of src/harmonica. *)
Inductive res (A : Type) : Type :=
| Ok (a : A)
| Raise (e : error).
Arguments Ok {A} a.
Arguments Raise {A} e.

(** Language primitive: Python statement order, an exception ends the function. *)
Definition bind {A B} (m : res A) (f : A -> res B) : res B :=
  match m with Ok a => f a | Raise e => Raise e end.
Notation "'do' x <- m ; f" := (bind m (fun x => f)) (at level 200, x pattern, m at level 100, f at level 200).

(** Language primitive: the call returns. *)
Definition is_ok {A} (m : res A) : Prop := exists a, m = Ok a.
(** Language primitive: the call raises [e]. *)
Definition raises {A} (m : res A) (e : error) : Prop := m = Raise e.

(** [a[i]] inside compiled code. Source: used for the loops listed in ScheduleModel.v, e.g. _forward/point.py:388-398. *)
Definition aget {A} (l : list A) (i : nat) : res A :=
  match nth_error l i with Some x => Ok x | None => Raise OutOfBounds end.

(** Language primitive: an array with one element replaced, e.g. _forward/point.py:390. *)
Fixpoint upd {A} (l : list A) (i : nat) (x : A) : list A :=
  match l, i with
  | [], _ => []
  | _ :: l', O => x :: l'
  | y :: l', S i' => y :: upd l' i' x
  end.

(** [a[i] = x] inside compiled code. Source: e.g. _forward/point.py:390. *)
Definition aset {A} (l : list A) (i : nat) (x : A) : res (list A) :=
  if Nat.ltb i (length l) then Ok (upd l i x) else Raise OutOfBounds.

(** [for i in is: s = body(i, s)] with early exit on exception. Source: e.g. _forward/point.py:388-398. *)
Fixpoint for_ {I S} (is : list I) (body : I -> S -> res S) (s : S) : res S :=
  match is with
  | [] => Ok s
  | i :: is' => bind (body i s) (fun s' => for_ is' body s')
  end.

(** Language primitive: the sum of a list, e.g. [np.sum] of _euler_methods.py:164. *)
Fixpoint sumR (l : list R) : R :=
  match l with [] => 0 | x :: l' => x + sumR l' end.

(** Language primitive: sum of a function over a list, e.g. _euler_methods.py:163-164. *)
Definition sum_over {A} (l : list A) (f : A -> R) : R := sumR (map f l).

(** [range(a, b)]; source: e.g. _forward/point.py:389. *)
Definition range (a b : nat) : list nat := seq a (b - a).

(** Language primitive: conditional on a decidable proposition; no line of src/harmonica. *)
Definition if_ {A : Type} {P Q : Prop} (d : {P} + {Q}) (x y : A) : A := if d then x else y.

(** Language primitive: Python [x < y] of floats, e.g. _tesseroid_utils.py:211. *)
Definition Rltb (x y : R) : bool := if Rlt_dec x y then true else false.
(** Language primitive: Python [x <= y] of floats, e.g. ellipsoids.py:230. *)
Definition Rleb (x y : R) : bool := if Rle_dec x y then true else false.
(** Language primitive: Python [x == y] of floats, e.g. prisms/gravity.py:480. *)
Definition Reqb (x y : R) : bool := if Req_EM_T x y then true else false.

Lemma Rltb_spec x y : Bool.reflect (x < y) (Rltb x y).
Proof. unfold Rltb; destruct (Rlt_dec x y); constructor; assumption. Qed.
Lemma Rleb_spec x y : Bool.reflect (x <= y) (Rleb x y).
Proof. unfold Rleb; destruct (Rle_dec x y); constructor; assumption. Qed.
Lemma Reqb_spec x y : Bool.reflect (x = y) (Reqb x y).
Proof. unfold Reqb; destruct (Req_EM_T x y); constructor; assumption. Qed.
Lemma Rltb_true x y : Rltb x y = true <-> x < y.
Proof. destruct (Rltb_spec x y); split; congruence || auto. Qed.
Lemma Rleb_true x y : Rleb x y = true <-> x <= y.
Proof. destruct (Rleb_spec x y); split; congruence || auto. Qed.
Lemma Reqb_true x y : Reqb x y = true <-> x = y.
Proof. destruct (Reqb_spec x y); split; congruence || auto. Qed.

(** Numbers that may be NaN (infinities are not modelled).  Every comparison with NaN is false,
    as in IEEE-754. *)
Inductive num : Type := NaN | Fin (r : R).
(** Source: language: [x < y] of floats that may be NaN, e.g. layer.py:602. *)
Definition nltb (x y : num) : bool := match x, y with Fin a, Fin b => Rltb a b | _, _ => false end.
(** Source: language: [x <= y] of floats that may be NaN. *)
Definition nleb (x y : num) : bool := match x, y with Fin a, Fin b => Rleb a b | _, _ => false end.
(** Source: language: [x == y] of floats that may be NaN, e.g. layer.py:597. *)
Definition neqb (x y : num) : bool := match x, y with Fin a, Fin b => Reqb a b | _, _ => false end.
(** Source: language: [np.isnan], e.g. layer.py:597 and 606. *)
Definition isnan (x : num) : bool := match x with NaN => true | Fin _ => false end.
(** Language primitive: arithmetic on floats that may be NaN, e.g. layer.py:602. *)
Definition nop (f : R -> R -> R) (x y : num) : num :=
  match x, y with Fin a, Fin b => Fin (f a b) | _, _ => NaN end.

(** Degrees to radians ([np.radians]). Source: e.g. harmonica/_utils.py:68-69, igrf.py:357-358. *)
Definition radians (d : R) : R := d * PI / 180.

(** Points of three dimensional space, used by specifications. Source: specification only; in the models a row of coordinates, e.g. ellipsoids/gravity.py:112. *)
Record vec3 := V3 { vx : R; vy : R; vz : R }.
(** Source: componentwise sum of such rows, e.g. ellipsoids/gravity.py:123-125. *)
Definition vadd (a b : vec3) := V3 (vx a + vx b) (vy a + vy b) (vz a + vz b).
(** Source: componentwise difference, e.g. ellipsoids/gravity.py:99-100. *)
Definition vsub (a b : vec3) := V3 (vx a - vx b) (vy a - vy b) (vz a - vz b).
(** Source: product with a number, e.g. ellipsoids/magnetic.py:113. *)
Definition vscale (k : R) (a : vec3) := V3 (k * vx a) (k * vy a) (k * vz a).
(** Source: scalar product, e.g. [@] of ellipsoids/gravity.py:112. *)
Definition dot (a b : vec3) : R := vx a * vx b + vy a * vy b + vz a * vz b.
(** Source: specification only: length of a vector. *)
Definition norm (a : vec3) : R := sqrt (dot a a).
(** Euclidean distance of two points of space. Source: specification of _forward/utils.py:90-118. *)
Definition eucl (a b : vec3) : R := norm (vsub a b).
