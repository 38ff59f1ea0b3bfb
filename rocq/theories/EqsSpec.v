(** Definitions used to state the claims about the equivalent sources. *)
From Coq Require Import Permutation.
From Verif Require Import Base NumPy DistanceModel DistanceSpec PointGravitySpec LegendreModel EqsModel.
Local Open Scope R_scope.

(** Flat coordinate arrays of a list of points. *)
Definition flat (ps : list point) : coords := (map fst3 ps, map snd3 ps, map thd3 ps).

(** The field of point sources with the given coefficients: a sum of coefficient over distance. *)
Definition inverse_distance (place : point -> vec3) (p : point) (sources : list (point * R)) : R :=
  sum_over sources (fun s => snd s / eucl (place p) (place (fst s))).

(** No observation point coincides with a source. *)
Definition apart (place : point -> vec3) (ps qs : list point) : Prop :=
  forall p q, In p ps -> In q qs -> place p <> place q.

(** Entry [i] of a matrix times a vector. *)
Definition times (J : table) (c : list R) (i : nat) : R :=
  sum_over (range 0 (cols J)) (fun j => ent J i j * nth j c 0).

(** The objective of verde's least_squares: weighted squared misfit plus the damping times the squared
    coefficients, each scaled by the standard deviation of its column of the Jacobian (sklearn's
    StandardScaler without centring; a zero deviation is replaced by one). *)
Definition column_mean (J : table) (j : nat) : R := sum_over (range 0 (rows J)) (fun i => ent J i j) / INR (rows J).
Definition column_std (J : table) (j : nat) : R :=
  let s := sqrt (sum_over (range 0 (rows J)) (fun i => (ent J i j - column_mean J j) ^ 2) / INR (rows J)) in
  if Reqb s 0 then 1 else s.
Definition weight (w : option (list R)) (i : nat) : R := match w with Some l => nth i l 0 | None => 1 end.
Definition misfit (J : table) (d : list R) (w : option (list R)) (c : list R) : R :=
  sum_over (range 0 (rows J)) (fun i => weight w i * (nth i d 0 - times J c i) ^ 2).
Definition objective (J : table) (d : list R) (w : option (list R)) (damping : option R) (c : list R) : R :=
  misfit J d w c +
  match damping with
  | None => 0
  | Some a => a * sum_over (range 0 (cols J)) (fun j => (column_std J j * nth j c 0) ^ 2)
  end.
Definition minimises (f : list R -> R) (n : nat) (c : list R) : Prop :=
  length c = n /\ forall c', length c' = n -> f c <= f c'.

(** Difference of two arrays, entry by entry. *)
Definition minus (l m : list R) : list R := map (fun i => nth i l 0 - nth i m 0) (seq 0 (length l)).

(** Root mean square. *)
Definition root_mean_square (l : list R) : R := sqrt (sum_over l (fun x => x ^ 2) / INR (length l)).

(** Indices of a window are distinct positions of an array. *)
Definition window_of (n : nat) (w : list nat) : Prop := NoDup w /\ forall k, In k w -> (k < n)%nat.

(** The matrix of inverse distances between data points and sources. *)
Definition design (place : point -> vec3) (ds qs : list point) : table :=
  Table (length ds) (length qs) (fun i j => 1 / eucl (place (nth i ds (0, 0, 0))) (place (nth j qs (0, 0, 0)))).

(** Points moved down by a depth. *)
Definition lowered (D : R) (ps : list point) : list point := map (fun p => (fst3 p, snd3 p, thd3 p - D)) ps.

(** Arithmetic mean. *)
Definition average (l : list R) : R := sum_over l (fun x => x) / INR (length l).

(** Memory of a matrix with the given element size. *)
Definition bytes (J : table) (element : nat) : nat := (rows J * cols J * element)%nat.

(** Matrices of the same shape with the same entries. *)
Definition same_entries (J K : table) : Prop :=
  rows J = rows K /\ cols J = cols K /\ forall i j, (i < rows J)%nat -> (j < cols J)%nat -> ent J i j = ent K i j.

(** The elements of a list at given positions. *)
Definition chosen {A} (d : A) (l : list A) (positions : list nat) : list A := map (fun k => nth k l d) positions.

(** The prediction of sources at [qs] with coefficients [c] at the points [ds]. *)
Definition predicted (place : point -> vec3) (qs : list point) (c : list R) (ds : list point) : list R :=
  map (fun p => inverse_distance place p (combine qs c)) ds.

(** A default for positions outside a list of points. *)
Definition zero_point : point := (0, 0, 0).

(** What one window of the boosting does: the coefficients of the window grow by the solution for the
    residue in the window, the others stay, and the residue loses the field of the new coefficients. *)
Definition window_result (ls : table -> list R -> option (list R) -> option R -> list R) (damping : option R) (qs ds : list point) (weights : option (list R)) (w : list nat * list nat)
    (residue coefs : list R) (residue' coefs' : list R) : Prop :=
  exists J, same_entries J (design cart_position (chosen zero_point ds (snd w)) (chosen zero_point qs (fst w))) /\
    let chunk := ls J (chosen 0 residue (snd w)) (option_map (fun l => chosen 0 l (snd w)) weights) damping in
    length chunk = length (fst w) /\ length coefs' = length coefs /\
    (forall j, (j < length (fst w))%nat -> nth (nth j (fst w) 0%nat) coefs' 0 = nth (nth j (fst w) 0%nat) coefs 0 + nth j chunk 0) /\
    (forall k, ~ In k (fst w) -> nth k coefs' 0 = nth k coefs 0) /\
    residue' = minus residue (predicted cart_position (chosen zero_point qs (fst w)) chunk ds) /\
    (forall p, inverse_distance cart_position p (combine qs coefs') =
       inverse_distance cart_position p (combine qs coefs) + inverse_distance cart_position p (combine (chosen zero_point qs (fst w)) chunk)).

Definition weights_cover (n : nat) (weights : option (list R)) : Prop := match weights with Some l => length l = n | None => True end.

(** The residue is what the coefficients leave unexplained. *)
Definition consistent (qs ds : list point) (data residue coefs : list R) : Prop :=
  length coefs = length qs /\ residue = minus data (predicted cart_position qs coefs ds).

Definition windows_of (n m : nat) (ws : list (list nat * list nat)) : Prop := forall w, In w ws -> window_of n (fst w) /\ window_of m (snd w).

(** A shuffle: for every length an order of the positions. *)
Definition an_order (order : nat -> list nat) : Prop := forall n, Permutation (order n) (seq 0 n).

(** Sources below the data points, or below their block averages [bs]. *)
Definition below (nd : list R -> list R -> res (list R)) (self : eqs) (bs : list point) (self' : eqs) : Prop :=
  exists D, depth_ self' = Some (Some D) /\ points_ self' = Some (flat (lowered D bs)) /\
    (forall x, depth self = DepthNumber x -> D = x) /\
    (forall s, depth self = DepthString s -> exists distances, nd (map fst3 bs) (map snd3 bs) = Ok distances /\ D = 9 / 2 * average distances).
