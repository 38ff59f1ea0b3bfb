(** Specification vocabulary for layers. *)
From Verif Require Import Base NumPy DistanceModel PointGravitySpec TesseroidModel PrismModel PrismSpec LayerModel.
Local Open Scope string_scope. Local Open Scope list_scope. Local Open Scope R_scope.

(** [n] evenly spaced numbers from [x0] with step [s]. *)
Definition even_axis (x0 s : R) (n : nat) : list R := map (fun i => x0 + INR i * s) (range 0 n).

(** Shape of a rectangular array, and its element (k, j). *)
Definition shaped {A} (g : list (list A)) (n m : nat) : Prop := length g = n /\ forall row, In row g -> length row = m.
Definition elt (g : list (list num)) (k j : nat) : num := nth j (nth k g []) NaN.
Definition xat (x : list R) (j : nat) : R := nth j x 0.
Definition node (l : layer) (k j : nat) : Prop := (k < length (Ly l))%nat /\ (j < length (Lx l))%nat.
Definition wf_layer (l : layer) : Prop :=
  shaped (Ltop l) (length (Ly l)) (length (Lx l)) /\ shaped (Lbottom l) (length (Ly l)) (length (Lx l)) /\
  forall name v, In (name, v) (Lvars l) -> shaped v (length (Ly l)) (length (Lx l)).

(** The step of an axis is the difference of its first two coordinates; consecutive coordinates are a
    step apart up to numpy's tolerance. *)
Definition first_step (x : list R) : R := xat x 1 - xat x 0.
Definition regular (x : list R) : Prop :=
  (2 <= length x)%nat /\ forall j, (S j < length x)%nat ->
    Rabs (first_step x - (xat x (S j) - xat x j)) <= 1 / 10 ^ 8 + 1 / 10 ^ 5 * Rabs (xat x (S j) - xat x j).

(** The cell of node (k, j): centred on the node, one step wide. *)
Definition cell_at (l : layer) (k j : nat) : cell :=
  Cell (xat (Lx l) j - first_step (Lx l) / 2) (xat (Lx l) j + first_step (Lx l) / 2)
       (xat (Ly l) k - first_step (Ly l) / 2) (xat (Ly l) k + first_step (Ly l) / 2) (elt (Lbottom l) k j) (elt (Ltop l) k j).
(** All nodes, northing (latitude) slowest. *)
Definition nodes (l : layer) : list (nat * nat) := flat_map (fun k => map (fun j => (k, j)) (range 0 (length (Lx l)))) (range 0 (length (Ly l))).

(** The prisms of a layer that contribute to its gravity, with their densities: finite bottom, top and
    density, nonzero density, thickness at least the threshold. *)
Definition threshold_of (t : option R) : R := match t with None => 0 | Some x => x end.
Definition layer_prisms (l : layer) (dens : list (list num)) (threshold : R) : list (prism * R) :=
  flat_map (fun kj =>
    match elt (Lbottom l) (fst kj) (snd kj), elt (Ltop l) (fst kj) (snd kj), elt dens (fst kj) (snd kj) with
    | Fin b, Fin t, Fin d =>
        if Rlt_dec (t - b) threshold then [] else if Req_EM_T d 0 then []
        else let c := cell_at l (fst kj) (snd kj) in [(Prism (cell_w c) (cell_e c) (cell_s c) (cell_n c) b t, d)]
    | _, _, _ => []
    end) (nodes l).
(** Likewise for tesseroids; without a threshold no cell is discarded for its thickness. *)
Definition thick_enough (threshold : option R) (thickness : R) : bool :=
  match threshold with None => true | Some th => if Rlt_dec thickness th then false else true end.
Definition layer_tesseroids (l : layer) (dens : list (list num)) (threshold : option R) : list (tess * R) :=
  flat_map (fun kj =>
    match elt (Lbottom l) (fst kj) (snd kj), elt (Ltop l) (fst kj) (snd kj), elt dens (fst kj) (snd kj) with
    | Fin b, Fin t, Fin d =>
        if thick_enough threshold (t - b)
        then let c := cell_at l (fst kj) (snd kj) in [(Tess (cell_w c) (cell_e c) (cell_s c) (cell_n c) b t, d)] else []
    | _, _, _ => []
    end) (nodes l).

(** A value can be stored in an array of some type. *)
Definition storable (d : dtype) (x : R) : Prop := d = Float \/ exists z, x = IZR z.
Definition reference_rows (l : layer) (r : reference_arg) : array2 :=
  match r with RefArray a => a | RefScalar x => Array2 Float (repeat (repeat x (length (Lx l))) (length (Ly l))) end.

(** Cells of width [s] centred on the longitudes overlap: some meridian is strictly inside two of them
    (or twice in one), whole turns being the same meridian. *)
Definition overlapping (longitude : list R) (s : R) : Prop :=
  exists j j' z lon, (j < length longitude)%nat /\ (j' < length longitude)%nat /\ (j <> j' \/ z <> 0%Z) /\
    Rabs (lon - xat longitude j) < Rabs s / 2 /\ Rabs (lon + 360 * IZR z - xat longitude j') < Rabs s / 2.

(** Points inside the horizontal extent of a cell. *)
Definition in_closed (c : cell) (x y : R) : Prop := cell_w c <= x <= cell_e c /\ cell_s c <= y <= cell_n c.
Definition in_open (c : cell) (x y : R) : Prop := cell_w c < x < cell_e c /\ cell_s c < y < cell_n c.
(** A layer over evenly spaced ascending axes. *)
Definition even_layer (l : layer) (x0 sx : R) (m : nat) (y0 sy : R) (n : nat) : Prop :=
  Lx l = even_axis x0 sx m /\ Ly l = even_axis y0 sy n /\ 0 < sx /\ 0 < sy /\ (2 <= m)%nat /\ (2 <= n)%nat.
