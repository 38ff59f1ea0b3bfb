(** Model of /repo/src/harmonica/_euler_methods.py: Euler deconvolution and Euler inversion.

    Floats are reals.  Arrays arrive ravelled.  External code by its documented behaviour: scipy.linalg.inv is
    the inverse by cofactors and fails for a zero determinant; the sparse diagonal matrices of the inversion are
    written point by point; verde's check_fit_input and n_1d_arrays check equal sizes and take the first arrays. *)
From Verif Require Import Base NumPy.
Local Open Scope string_scope. Local Open Scope list_scope. Local Open Scope R_scope.

(** ** Vectors and matrices of size four *)
(** Source: a row of the Jacobian or the four parameters, _euler_methods.py:145-149 and 387. *)
Record v4 := V4 { c0 : R; c1 : R; c2 : R; c3 : R }.
(** Source: _euler_methods.py:163 and 465-468. *)
Definition dot4 (a b : v4) : R := c0 a * c0 b + c1 a * c1 b + c2 a * c2 b + c3 a * c3 b.
(** Source: _euler_methods.py:417-418. *)
Definition add4 (a b : v4) : v4 := V4 (c0 a + c0 b) (c1 a + c1 b) (c2 a + c2 b) (c3 a + c3 b).
(** Source: _euler_methods.py:404. *)
Definition sub4 (a b : v4) : v4 := V4 (c0 a - c0 b) (c1 a - c1 b) (c2 a - c2 b) (c3 a - c3 b).
(** Source: _euler_methods.py:467-468. *)
Definition scale4 (k : R) (a : v4) : v4 := V4 (k * c0 a) (k * c1 a) (k * c2 a) (k * c3 a).
(** Source: elementwise product, _euler_methods.py:406 and 456. *)
Definition mul4 (a b : v4) : v4 := V4 (c0 a * c0 b) (c1 a * c1 b) (c2 a * c2 b) (c3 a * c3 b).
(** Source: [M.T @ v], _euler_methods.py:162. *)
Definition vsum {A} (l : list A) (f : A -> v4) : v4 :=
  V4 (sum_over l (fun x => c0 (f x))) (sum_over l (fun x => c1 (f x))) (sum_over l (fun x => c2 (f x))) (sum_over l (fun x => c3 (f x))).
(** Source: 4 x 4 arrays, _euler_methods.py:156 and 466. *)
Record m4 := M4 { r0 : v4; r1 : v4; r2 : v4; r3 : v4 }.
(** Source: _euler_methods.py:162 and 467. *)
Definition mulv (m : m4) (v : v4) : v4 := V4 (dot4 (r0 m) v) (dot4 (r1 m) v) (dot4 (r2 m) v) (dot4 (r3 m) v).
(** Source: _euler_methods.py:165 and 441. *)
Definition mscale (k : R) (m : m4) : m4 := M4 (scale4 k (r0 m)) (scale4 k (r1 m)) (scale4 k (r2 m)) (scale4 k (r3 m)).
(** [sum_i k_i a_i a_i^T]; source: [J.T @ D @ J], _euler_methods.py:156 and 463-466. *)
Definition gram {A} (l : list A) (k : A -> R) (a : A -> v4) : m4 :=
  M4 (vsum l (fun x => scale4 (k x * c0 (a x)) (a x))) (vsum l (fun x => scale4 (k x * c1 (a x)) (a x)))
     (vsum l (fun x => scale4 (k x * c2 (a x)) (a x))) (vsum l (fun x => scale4 (k x * c3 (a x)) (a x))).
(** Source: minors for the inverse, _euler_methods.py:161. *)
Definition det3 (a b c d e f g h i : R) : R := a * (e * i - f * h) - b * (d * i - f * g) + c * (d * h - e * g).
(** Source: determinant for the inverse, _euler_methods.py:161. *)
Definition det4 (m : m4) : R :=
  let '(M4 (V4 a b c d) (V4 e f g h) (V4 i j k l) (V4 p q r s)) := m in
  a * det3 f g h j k l q r s - b * det3 e g h i k l p r s + c * det3 e f h i j l p q s - d * det3 e f g i j k p q r.
(** Source: adjugate for the inverse, _euler_methods.py:161. *)
Definition adj4 (m : m4) : m4 :=
  let '(M4 (V4 a b c d) (V4 e f g h) (V4 i j k l) (V4 p q r s)) := m in
  M4 (V4 (det3 f g h j k l q r s) (- det3 b c d j k l q r s) (det3 b c d f g h q r s) (- det3 b c d f g h j k l))
     (V4 (- det3 e g h i k l p r s) (det3 a c d i k l p r s) (- det3 a c d e g h p r s) (det3 a c d e g h i k l))
     (V4 (det3 e f h i j l p q s) (- det3 a b d i j l p q s) (det3 a b d e f h p q s) (- det3 a b d e f h i j l))
     (V4 (- det3 e f g i j k p q r) (det3 a b c i j k p q r) (- det3 a b c e f g p q r) (det3 a b c e f g i j k)).
(** scipy.linalg.inv; source: _euler_methods.py:161 and 466. *)
Definition inv4 (m : m4) : res m4 := if Reqb (det4 m) 0 then Raise LinAlgError else Ok (mscale (/ det4 m) (adj4 m)).

(** ** Data *)
(** Source: one position of the coordinate arrays, _euler_methods.py:142. *)
Record position := Pos { p_e : R; p_n : R; p_u : R }.
(** One data point: position, observed and predicted (field, easting, northing and upward derivative). Source: _euler_methods.py:385-386. *)
Record row := Row { w_pos : position; w_obs : v4; w_pred : v4 }.
(** Source: _euler_methods.py:141-142. *)
Fixpoint rows (e n u f de dn du : list R) : list (position * v4) :=
  match e, n, u, f, de, dn, du with
  | e :: e', n :: n', u :: u', f :: f', de :: de', dn :: dn', du :: du' => (Pos e n u, V4 f de dn du) :: rows e' n' u' f' de' dn' du'
  | _, _, _, _, _, _, _ => []
  end.
(** verde.base.check_fit_input and n_1d_arrays, as used in _euler_methods.py:140-142 and 355-357. *)
Definition check_input (coordinates data : list (list R)) : res (list (position * v4)) :=
  match coordinates with
  | [] => Raise ValueError
  | c :: _ =>
    if negb (forallb (fun a => Nat.eqb (length a) (length c)) (coordinates ++ data)) then Raise ValueError else
    match coordinates, data with
    | e :: n :: u :: _, f :: de :: dn :: du :: _ => Ok (rows e n u f de dn du)
    | _, _ => Raise ValueError
    end
  end.

(** ** Euler deconvolution *)
(** [covariance] is [None] for not-a-number (four points leave no degrees of freedom). Source: fitted attributes, _euler_methods.py:165-167. *)
Record deconvolution := Deconvolution { d_location : position; d_base_level : R; d_covariance : option m4 }.
(** _euler_methods.py:102-106 *)
Definition EulerDeconvolution (structural_index : R) : res R :=
  if Reqb structural_index 0 then Raise ValueError else Ok structural_index.
(** _euler_methods.py:145-149, one row *)
Definition deconv_jacobian (si : R) (d : position * v4) : v4 := V4 (c1 (snd d)) (c2 (snd d)) (c3 (snd d)) si.
(** _euler_methods.py:150-155, one row *)
Definition pseudo_data (si : R) (d : position * v4) : R :=
  p_e (fst d) * c1 (snd d) + p_n (fst d) * c2 (snd d) + p_u (fst d) * c3 (snd d) + si * c0 (snd d).
(** _euler_methods.py:143-168 on checked data *)
Definition deconv_fit (si : R) (l : list (position * v4)) : res deconvolution :=
  let hessian := gram l (fun _ => 1) (deconv_jacobian si) in
  do hessian_inv <- inv4 hessian;
  let estimate := mulv hessian_inv (vsum l (fun d => scale4 (pseudo_data si d) (deconv_jacobian si d))) in
  let residuals := sum_over l (fun d => (pseudo_data si d - dot4 (deconv_jacobian si d) estimate) ^ 2) in
  let covariance := if Nat.eqb (length l) 4 then None else Some (mscale (residuals / (INR (length l) - 4)) hessian_inv) in
  Ok (Deconvolution (Pos (c0 estimate) (c1 estimate) (c2 estimate)) (c3 estimate) covariance).
(** _euler_methods.py:108-168 *)
Definition EulerDeconvolution_fit (structural_index : R) (coordinates data : list (list R)) : res deconvolution :=
  do si <- EulerDeconvolution structural_index;
  do l <- check_input coordinates data;
  deconv_fit si l.

(** ** Euler inversion *)
(** Source: the argument [structural_index], _euler_methods.py:298 and 358. *)
Inductive index_arg := Single (si : R) | Several (l : list R).
(** Source: _euler_methods.py:306-309. *)
Record inversion := Inversion { i_index : index_arg; i_max_iterations : nat; i_tol : R; i_balance : R }.
(** _euler_methods.py:295-309 *)
Definition EulerInversion (si : index_arg) (max_iterations : nat) (tol balance : R) : res inversion :=
  match si with
  | Single r => if Reqb r 0 then Raise ValueError else Ok (Inversion si max_iterations tol balance)
  | Several _ => Ok (Inversion si max_iterations tol balance)
  end.

(** _euler_methods.py:502-516, one row; [parameters] are easting, northing, upward, base level. *)
Definition eulers_equation (si : R) (p : position) (d parameters : v4) : R :=
  (p_e p - c0 parameters) * c1 d + (p_n p - c1 parameters) * c2 d + (p_u p - c2 parameters) * c3 d + si * (c0 d - c3 parameters).
(** _euler_methods.py:471-485, one row *)
Definition parameter_jacobian (si : R) (d : v4) : v4 := V4 (- c1 d) (- c2 d) (- c3 d) (- si).
(** _euler_methods.py:487-500, one row *)
Definition data_jacobian (si : R) (p : position) (parameters : v4) : v4 := V4 si (p_e p - c0 parameters) (p_n p - c1 parameters) (p_u p - c2 parameters).
(** Source: _euler_methods.py:404, 421 and 458. *)
Definition residual (r : row) : v4 := sub4 (w_obs r) (w_pred r).
(** The diagonal of Q (_euler_methods.py:459-462), one row. *)
Definition q_of (si : R) (w_inv parameters : v4) (r : row) : R := let b := data_jacobian si (w_pos r) parameters in dot4 (mul4 b b) w_inv.

(** _euler_methods.py:445-469 [_newton_step]: step of the parameters, new predicted data ([data_predicted +=
    data_step]) and cofactor.  A zero on the diagonal of Q gives infinities that scipy.linalg.inv refuses. *)
Definition newton_step (si : R) (w_inv parameters : v4) (l : list row) : res (v4 * list row * m4) :=
  if existsb (fun r => Reqb (q_of si w_inv parameters r) 0) l then Raise ValueError else
  let a := fun r => parameter_jacobian si (w_pred r) in
  let b := fun r => data_jacobian si (w_pos r) parameters in
  let q := q_of si w_inv parameters in
  let euler := fun r => eulers_equation si (w_pos r) (w_pred r) parameters in
  let br := fun r => dot4 (b r) (residual r) in
  do cofactor <- inv4 (gram l (fun r => / q r) a);
  let step := scale4 (-1) (mulv cofactor (vsum l (fun r => scale4 (/ q r * (euler r + br r)) (a r)))) in
  let data_step := fun r => sub4 (residual r) (scale4 (/ q r * (br r + euler r + dot4 (a r) step)) (mul4 w_inv (b r))) in
  Ok (step, map (fun r => Row (w_pos r) (w_obs r) (add4 (w_pred r) (data_step r))) l, cofactor).

(** _euler_methods.py:403-407 and 420-424 *)
Definition euler_misfit (si : R) (parameters : v4) (l : list row) : R :=
  sqrt (sum_over l (fun r => eulers_equation si (w_pos r) (w_pred r) parameters ^ 2)).
(** Source: _euler_methods.py:406 and 423. *)
Definition data_misfit (weights : v4) (l : list row) : R :=
  sqrt (sum_over l (fun r => let d := mul4 (residual r) weights in dot4 d d)).
(** Source: _euler_methods.py:407 and 424. *)
Definition merit (si balance : R) (weights parameters : v4) (l : list row) : R :=
  data_misfit weights l + balance * euler_misfit si parameters l.

(** _euler_methods.py:408-436, [n] iterations left; a zero merit function gives not-a-number or infinity, for
    which the comparison is false.  Returns the parameters, the predicted data, the cofactor of the last
    iteration ([None]: unbound) and whether the warning is issued. *)
Fixpoint iterate (si tol balance : R) (weights w_inv : v4) (n : nat) (parameters : v4) (l : list row) (cofactor : option m4) (m : R) : res (v4 * list row * option m4 * bool) :=
  match n with
  | O => Ok (parameters, l, cofactor, true)
  | S n' =>
    do (step, l', cof) <- newton_step si w_inv parameters l;
    let parameters' := add4 parameters step in
    let m' := merit si balance weights parameters' l' in
    if (negb (Reqb m 0) && Rltb (Rabs ((m - m') / m)) tol)%bool then Ok (parameters', l', Some cof, false)
    else iterate si tol balance weights w_inv n' parameters' l' (Some cof) m'
  end.

(** Source: fitted attributes, _euler_methods.py:438-442 and 376. *)
Record solution := Solution { s_index : R; s_location : position; s_base_level : R; s_covariance : m4; s_misfit : option R; s_warned : bool }.

(** _euler_methods.py:379-443 [_fit] on checked data *)
Definition inversion_fit (i : inversion) (si : R) (l : list (position * v4)) (weights : list R) : res solution :=
  do si <- EulerDeconvolution si;
  do deconv <- deconv_fit si l;
  let parameters := V4 (p_e (d_location deconv)) (p_n (d_location deconv)) (p_u (d_location deconv)) (d_base_level deconv) in
  match weights with
  | a :: b :: c :: d :: others =>
    if existsb (fun w => Reqb w 0) weights then Raise ZeroDivisionError else
    let w := V4 a b c d in
    let w_inv := V4 (1 / a) (1 / b) (1 / c) (1 / d) in
    let start := map (fun x => Row (fst x) (snd x) (scale4 (9 / 10) (snd x))) l in
    if (negb (Nat.eqb (length others) 0) && negb (Nat.eqb (i_max_iterations i) 0))%bool then Raise ValueError else
    do (p, l', cof, warned) <- iterate si (i_tol i) (i_balance i) w w_inv (i_max_iterations i) parameters start None (merit si (i_balance i) w parameters start);
    match cof with
    | None => Raise UnboundLocalError
    | Some cof =>
      let chi := sum_over l' (fun r => dot4 (residual r) (residual r)) / (4 * INR (length l) - 4) in
      Ok (Solution si (Pos (c0 p) (c1 p) (c2 p)) (c3 p) (mscale chi cof) (Some (data_misfit w l')) warned)
    end
  | _ => Raise IndexError
  end.

(** numpy.argmin; source: _euler_methods.py:369. *)
Fixpoint argmin (best : solution) (l : list solution) : solution :=
  match l with
  | [] => best
  | s :: l' => argmin (match s_misfit s, s_misfit best with Some a, Some b => if Rltb a b then s else best | _, _ => best end) l'
  end.
(** _euler_methods.py:311-377 [fit]; when several structural indices are given the attribute [data_misfit_] is
    not set. *)
Definition EulerInversion_fit (i : inversion) (coordinates data : list (list R)) (weights : list R) : res solution :=
  do l <- check_input coordinates data;
  match i_index i with
  | Single si => inversion_fit i si l weights
  | Several sis =>
    do candidates <- for_ sis (fun si acc =>
      do one <- EulerInversion (Single si) (i_max_iterations i) (i_tol i) (i_balance i);
      do s <- inversion_fit one si l weights; Ok (acc ++ [s])) [];
    match candidates with
    | [] => Raise ValueError
    | c :: cs => let best := argmin c cs in Ok (Solution (s_index best) (s_location best) (s_base_level best) (s_covariance best) None (s_warned best))
    end
  end.
