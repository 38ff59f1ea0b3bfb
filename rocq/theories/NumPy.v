(** The few numpy notions the forward functions rely on: n-dimensional arrays stored row-major,
    [np.broadcast] of shapes, [np.atleast_1d(x).ravel()], and the accumulating double loop that all
    forward functions share.  numpy itself is external code: these follow its documentation. *)
From Verif Require Import Base.

(** Source: numpy.ndarray as received by e.g. _forward/point.py:235-240. *)
Record arr := Arr { shape : list nat; data : list R }.
(** Source: [cast.size], e.g. _forward/prisms/gravity.py:201. *)
Definition prod_shape (s : list nat) : nat := fold_right Nat.mul 1%nat s.
(** Source: invariant of numpy arrays: as many elements as the shape says. *)
Definition wf_arr (a : arr) : Prop := length (data a) = prod_shape (shape a).

(** Source: a number passed where an array is expected, e.g. _forward/point.py:235-240. *)
Definition scalar (x : R) : arr := Arr [] [x].
(** Source: a one-dimensional array, e.g. _forward/tesseroid_layer.py:391-403. *)
Definition arr1 (l : list R) : arr := Arr [length l] l.

(** Broadcasting of two shapes given innermost dimension first. Source: numpy's broadcasting rule behind [np.broadcast], e.g. prisms/gravity.py:200. *)
Fixpoint bcast_rev (a b : list nat) : option (list nat) :=
  match a, b with
  | [], _ => Some b
  | _, [] => Some a
  | x :: a', y :: b' =>
      match bcast_rev a' b' with
      | None => None
      | Some r => if Nat.eqb x y then Some (x :: r)
                  else if Nat.eqb x 1 then Some (y :: r)
                  else if Nat.eqb y 1 then Some (x :: r)
                  else None
      end
  end.

(** [np.broadcast(a, b, c).shape]; numpy raises ValueError for incompatible shapes. Source: e.g. prisms/gravity.py:200. *)
Definition broadcast3 (a b c : arr) : res (list nat) :=
  match bcast_rev (rev (shape a)) (rev (shape b)) with
  | None => Raise ValueError
  | Some ab => match bcast_rev ab (rev (shape c)) with
               | None => Raise ValueError
               | Some abc => Ok (rev abc)
               end
  end.

(** [np.atleast_1d(a).ravel()]; source: e.g. prisms/gravity.py:203. *)
Definition ravel (a : arr) : list R := data a.

(** Specification of broadcasting: the flat (row-major) position in an array of shape [s] of the
    element that appears at flat position [k] of the array broadcast to shape [S]
    (both shapes innermost dimension first). Source: specification only; [np.broadcast] of prisms/gravity.py:200. *)
Fixpoint bidx (S s : list nat) (k stride : nat) : nat :=
  match S, s with
  | d :: S', x :: s' =>
      ((if Nat.eqb x 1 then 0 else (k mod d) * stride) + bidx S' s' (k / d) (stride * x))%nat
  | _, _ => 0%nat
  end.
(** Source: specification only: the element an array broadcast to shape [S] has at flat position [k] (prisms/gravity.py:200). *)
Definition bcast_get (a : arr) (S : list nat) (k : nat) : R :=
  nth (bidx (rev S) (rev (shape a)) k 1) (data a) 0.

(** [for i in (p)range(n): for j in range(m): out[i] += contrib(i, j)], run serially. Source: _forward/point.py:388-398 and 436-447, prisms/gravity.py:524-540, prisms/magnetic.py:382-397, dipole.py:386-398. *)
Definition accumulate (n m : nat) (contrib : nat -> nat -> res R) (out : list R) : res (list R) :=
  for_ (range 0 n) (fun i out =>
    for_ (range 0 m) (fun j out =>
      do c <- contrib i j;
      do o <- aget out i;
      aset out i (o + c)) out) out.
