(** Specification vocabulary for the Euler methods. *)
From Coquelicot Require Import Coquelicot.
From Verif Require Import Base EulerModel.
Local Open Scope string_scope. Local Open Scope list_scope. Local Open Scope R_scope.

(** Euler's homogeneity equation at one data point, for a source at [s] with base level [b]. *)
Definition homogeneity (si : R) (s : position) (b : R) (d : position * v4) : R :=
  (p_e (fst d) - p_e s) * c1 (snd d) + (p_n (fst d) - p_n s) * c2 (snd d) + (p_u (fst d) - p_u s) * c3 (snd d) - si * (b - c0 (snd d)).
Definition squared_misfit (si : R) (s : position) (b : R) (l : list (position * v4)) : R := sum_over l (fun d => homogeneity si s b d ^ 2).
(** The derivatives and the constant one are linearly independent over the data points. *)
Definition independent (l : list (position * v4)) : Prop :=
  forall a b c d, Forall (fun x => a * c1 (snd x) + b * c2 (snd x) + c * c3 (snd x) + d = 0) l -> a = 0 /\ b = 0 /\ c = 0 /\ d = 0.
(** Arrays of one data set. *)
Definition same_size (n : nat) (arrays : list (list R)) : Prop := Forall (fun a => length a = n) arrays.
(** A field and its derivatives sampled at positions. *)
Definition sampled (F : R -> R -> R -> R) (p : position) : position * v4 :=
  (p, V4 (F (p_e p) (p_n p) (p_u p)) (Derive (fun e => F e (p_n p) (p_u p)) (p_e p)) (Derive (fun n => F (p_e p) n (p_u p)) (p_n p)) (Derive (fun u => F (p_e p) (p_n p) u) (p_u p))).
(** Weighted sum of squares [r^T W r]. *)
Definition weighted (w r : v4) : R := c0 w * c0 r ^ 2 + c1 w * c1 r ^ 2 + c2 w * c2 r ^ 2 + c3 w * c3 r ^ 2.
(** Structural index of the fields of a point mass: the rate of decay. *)
Definition mass_indices : list (string * R) :=
  [("potential", 1); ("g_e", 2); ("g_n", 2); ("g_z", 2); ("g_ee", 3); ("g_nn", 3); ("g_zz", 3); ("g_en", 3); ("g_ez", 3); ("g_nz", 3); ("g_ne", 3); ("g_ze", 3); ("g_zn", 3)].
(** The arrays passed for a list of data points. *)
Definition coordinate_arrays (l : list (position * v4)) : list (list R) :=
  [map (fun d => p_e (fst d)) l; map (fun d => p_n (fst d)) l; map (fun d => p_u (fst d)) l].
Definition data_arrays (l : list (position * v4)) : list (list R) :=
  [map (fun d => c0 (snd d)) l; map (fun d => c1 (snd d)) l; map (fun d => c2 (snd d)) l; map (fun d => c3 (snd d)) l].
(** Measured misfit of a solution of a single-index fit. *)
Definition misfit_is (s : solution) (m : R) : Prop := s_misfit s = Some m.
(** Same attributes, the misfit aside. *)
Definition same_attributes (s t : solution) : Prop :=
  s_index s = s_index t /\ s_location s = s_location t /\ s_base_level s = s_base_level t /\ s_covariance s = s_covariance t /\ s_warned s = s_warned t.
Definition positive (w : v4) : Prop := 0 < c0 w /\ 0 < c1 w /\ 0 < c2 w /\ 0 < c3 w.
(** Linearised Euler equation at one data point for a step of parameters and data. *)
Definition linearised (si : R) (parameters : v4) (r : row) (dp dd : v4) : R :=
  (p_e (w_pos r) - c0 parameters) * c1 (w_pred r) + (p_n (w_pos r) - c1 parameters) * c2 (w_pred r) + (p_u (w_pos r) - c2 parameters) * c3 (w_pred r) + si * (c0 (w_pred r) - c3 parameters)
  - c0 dp * c1 (w_pred r) - c1 dp * c2 (w_pred r) - c2 dp * c3 (w_pred r) - si * c3 dp
  + (p_e (w_pos r) - c0 parameters) * c1 dd + (p_n (w_pos r) - c1 parameters) * c2 dd + (p_u (w_pos r) - c2 parameters) * c3 dd + si * c0 dd.

(** ** The iterations of the inversion *)
(** A state: the parameters (location and base level) and the data with their predictions. *)
Definition state : Type := v4 * list row.
(** From one state to the next: the linearised equations are satisfied, and no other step that satisfies them
    has smaller weighted squares of residuals. *)
Definition best_move (si : R) (w : v4) (s s' : state) : Prop :=
  Forall2 (fun r r' => w_pos r' = w_pos r /\ w_obs r' = w_obs r /\
             linearised si (fst s) r (sub4 (fst s') (fst s)) (sub4 (w_pred r') (w_pred r)) = 0) (snd s) (snd s') /\
  forall (dp : v4) (dd : row -> v4), Forall (fun r => linearised si (fst s) r dp (dd r) = 0) (snd s) ->
    sum_over (snd s') (fun r => weighted w (sub4 (w_obs r) (w_pred r))) <= sum_over (snd s) (fun r => weighted w (sub4 (sub4 (w_obs r) (w_pred r)) (dd r))).
(** The merit of a state, with the squared weights of the code. *)
Definition state_merit (si balance : R) (w : v4) (s : state) : R :=
  sqrt (sum_over (snd s) (fun r => weighted (mul4 w w) (sub4 (w_obs r) (w_pred r)))) +
  balance * sqrt (sum_over (snd s) (fun r => homogeneity si (Pos (c0 (fst s)) (c1 (fst s)) (c2 (fst s))) (c3 (fst s)) (w_pos r, w_pred r) ^ 2)).
Definition settled (tol before after : R) : Prop := before <> 0 /\ Rabs (before - after) < tol * Rabs before.
(** At most [n] moves from [s], arrived at from [before]; the last two states and whether the iterations ran out. *)
Inductive run (si tol balance : R) (w : v4) : nat -> state -> state -> state -> state -> bool -> Prop :=
| run_out before s : run si tol balance w 0 before s before s true
| run_stop n before s s' : best_move si w s s' -> settled tol (state_merit si balance w s) (state_merit si balance w s') ->
    run si tol balance w (S n) before s s s' false
| run_on n before s s' p q b : best_move si w s s' -> ~ settled tol (state_merit si balance w s) (state_merit si balance w s') ->
    run si tol balance w n s s' p q b -> run si tol balance w (S n) before s p q b.
(** Normal matrix of the parameters in a state, applied to a vector. *)
Definition normal_matrix (si : R) (w : v4) (s : state) (v : v4) : v4 :=
  vsum (snd s) (fun r =>
    let a := V4 (c1 (w_pred r)) (c2 (w_pred r)) (c3 (w_pred r)) si in
    let q := si ^ 2 / c0 w + (p_e (w_pos r) - c0 (fst s)) ^ 2 / c1 w + (p_n (w_pos r) - c1 (fst s)) ^ 2 / c2 w + (p_u (w_pos r) - c2 (fst s)) ^ 2 / c3 w in
    scale4 (dot4 a v / q) a).
