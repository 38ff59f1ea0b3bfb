(** Model of the class Ellipsoid of /repo/src/harmonica/_forward/ellipsoids/ellipsoids.py: constructor,
    properties and setters, lines 71-192 and 219-232.

    Python values are reduced to what the code can tell apart.  Infinite values are not modelled.
    A statement that fails stops the method at that point; what it did before stays done. *)
From Verif Require Import Base NumPy EllipsoidModel.
Local Open Scope R_scope.

(** Source: the Python values a user can assign, ellipsoids.py:71-97. *)
Inductive pyvalue :=
| PNone
| PReal (x : num)                                  (* numbers.Real: int, float, bool, numpy scalars *)
| PArray (shape : list nat) (data : list num)      (* numpy.ndarray *)
| PSequence (as_array : res (list nat * list num)) (* list, tuple, str; with the result of np.asarray on it *)
| PObject.                                           (* anything else *)

(** [x <= 0]: false for NaN; source: ellipsoids.py:219-232. *)
Definition fle0 (x : num) : bool := nleb x (Fin 0).

(** The truth value of [value <= 0]: TypeError for values that do not compare with a number; an array compares
    element by element and has a truth value only when it has one element (numpy; empty arrays: ValueError as of numpy 2.2). Source: ellipsoids.py:219-232. *)
Definition le0 (value : pyvalue) : res bool :=
  match value with
  | PReal x => Ok (fle0 x)
  | PArray _ [x] => Ok (fle0 x)
  | PArray _ _ => Raise ValueError
  | PNone | PSequence _ | PObject => Raise TypeError
  end.

(** Source: the attributes of ellipsoids.py:71-97. *)
Record object := Object {
  o_a : pyvalue; o_b : pyvalue; o_c : pyvalue;
  o_yaw : pyvalue; o_pitch : pyvalue; o_roll : pyvalue; o_center : pyvalue;
  o_density : pyvalue; o_susceptibility : pyvalue; o_remanent : pyvalue }.

(** Source: the stored attribute [_a], ellipsoids.py:104-127. *)
Definition set_a (v : pyvalue) (o : object) : object := Object v (o_b o) (o_c o) (o_yaw o) (o_pitch o) (o_roll o) (o_center o) (o_density o) (o_susceptibility o) (o_remanent o).
(** Source: the stored attribute [_b], ellipsoids.py:104-127. *)
Definition set_b (v : pyvalue) (o : object) : object := Object (o_a o) v (o_c o) (o_yaw o) (o_pitch o) (o_roll o) (o_center o) (o_density o) (o_susceptibility o) (o_remanent o).
(** Source: the stored attribute [_c], ellipsoids.py:104-127. *)
Definition set_c (v : pyvalue) (o : object) : object := Object (o_a o) (o_b o) v (o_yaw o) (o_pitch o) (o_roll o) (o_center o) (o_density o) (o_susceptibility o) (o_remanent o).
(** Source: plain attribute, ellipsoids.py:71-97. *)
Definition set_yaw (v : pyvalue) (o : object) : object := Object (o_a o) (o_b o) (o_c o) v (o_pitch o) (o_roll o) (o_center o) (o_density o) (o_susceptibility o) (o_remanent o).
(** Source: plain attribute, ellipsoids.py:71-97. *)
Definition set_pitch (v : pyvalue) (o : object) : object := Object (o_a o) (o_b o) (o_c o) (o_yaw o) v (o_roll o) (o_center o) (o_density o) (o_susceptibility o) (o_remanent o).
(** Source: plain attribute, ellipsoids.py:71-97. *)
Definition set_roll (v : pyvalue) (o : object) : object := Object (o_a o) (o_b o) (o_c o) (o_yaw o) (o_pitch o) v (o_center o) (o_density o) (o_susceptibility o) (o_remanent o).
(** Source: plain attribute, ellipsoids.py:71-97. *)
Definition set_center (v : pyvalue) (o : object) : object := Object (o_a o) (o_b o) (o_c o) (o_yaw o) (o_pitch o) (o_roll o) v (o_density o) (o_susceptibility o) (o_remanent o).
(** Source: the stored attribute [_density], ellipsoids.py:134-144. *)
Definition set_density (v : pyvalue) (o : object) : object := Object (o_a o) (o_b o) (o_c o) (o_yaw o) (o_pitch o) (o_roll o) (o_center o) v (o_susceptibility o) (o_remanent o).
(** Source: the stored attribute [_susceptibility], ellipsoids.py:151-168. *)
Definition set_susceptibility (v : pyvalue) (o : object) : object := Object (o_a o) (o_b o) (o_c o) (o_yaw o) (o_pitch o) (o_roll o) (o_center o) (o_density o) v (o_remanent o).
(** Source: the stored attribute [_remanent_mag], ellipsoids.py:175-192. *)
Definition set_remanent (v : pyvalue) (o : object) : object := Object (o_a o) (o_b o) (o_c o) (o_yaw o) (o_pitch o) (o_roll o) (o_center o) (o_density o) (o_susceptibility o) v.

(** A method: from the state of the object to the new state and how it ended. Source: ellipsoids.py:71-192. *)
Definition method := object -> object * res unit.
(** Language primitive: a check that may raise before anything is stored (ellipsoids.py:219-232). *)
Definition check (r : res unit) : method := fun o => (o, r).
(** Language primitive: an assignment to an attribute of [self] (ellipsoids.py:104-192). *)
Definition store (f : object -> object) : method := fun o => (f o, Ok tt).
(** Language primitive: two statements in sequence; the second is not run when the first raises. *)
Definition andthen (m n : method) : method := fun o => let '(o', r) := m o in match r with Ok _ => n o' | Raise e => (o', Raise e) end.

(** 219-232 [_check_positive_semiaxis] *)
Definition check_positive_semiaxis (value : pyvalue) : res unit := do nonpositive <- le0 value; if nonpositive then Raise ValueError else Ok tt.

(** 104-127 setters of the semi-axes *)
Definition assign_a (value : pyvalue) : method := andthen (check (check_positive_semiaxis value)) (store (set_a value)).
(** Source: ellipsoids.py:104-127. *)
Definition assign_b (value : pyvalue) : method := andthen (check (check_positive_semiaxis value)) (store (set_b value)).
(** Source: ellipsoids.py:104-127. *)
Definition assign_c (value : pyvalue) : method := andthen (check (check_positive_semiaxis value)) (store (set_c value)).

(** 134-144 setter of the density; [float(value)] of a real number is the number. *)
Definition is_real (v : pyvalue) : bool := match v with PReal _ => true | _ => false end.
(** Source: language: [value is None], ellipsoids.py:134-192. *)
Definition is_none (v : pyvalue) : bool := match v with PNone => true | _ => false end.
(** Source: ellipsoids.py:134-144. *)
Definition assign_density (value : pyvalue) : method :=
  andthen (check (if (negb (is_real value) && negb (is_none value))%bool then Raise TypeError else Ok tt)) (store (set_density value)).

(** 151-168 setter of the susceptibility *)
Definition shape_is (l m : list nat) : bool := if list_eq_dec Nat.eq_dec l m then true else false.
(** Source: ellipsoids.py:151-168. *)
Definition assign_susceptibility (value : pyvalue) : method :=
  andthen (check match value with
    | PArray sh _ => if negb (shape_is sh [3%nat; 3%nat]) then Raise ValueError else Ok tt
    | _ => if (negb (is_real value) && negb (is_none value))%bool then Raise TypeError else Ok tt
    end) (store (set_susceptibility value)).

(** 175-192 setter of the remanent magnetization *)
Definition asarray (value : pyvalue) : res pyvalue :=
  match value with PSequence r => do (sh, d) <- r; Ok (PArray sh d) | v => Ok v end.
(** Source: ellipsoids.py:175-192. *)
Definition assign_remanent (value : pyvalue) : method := fun o =>
  match asarray value with
  | Raise e => (o, Raise e)
  | Ok value =>
      andthen (check match value with
        | PArray sh _ => if negb (shape_is sh [3%nat]) then Raise ValueError else Ok tt
        | _ => if negb (is_none value) then Raise TypeError else Ok tt
        end) (store (set_remanent value)) o
  end.

(** The attributes a user can assign; yaw, pitch, roll and center are plain attributes. Source: ellipsoids.py:71-192. *)
Inductive attribute := A_a | A_b | A_c | A_yaw | A_pitch | A_roll | A_center | A_density | A_susceptibility | A_remanent.
(** Source: [self.name = value], ellipsoids.py:71-192. *)
Definition assign (k : attribute) (v : pyvalue) : method :=
  match k with
  | A_a => assign_a v | A_b => assign_b v | A_c => assign_c v
  | A_yaw => store (set_yaw v) | A_pitch => store (set_pitch v) | A_roll => store (set_roll v) | A_center => store (set_center v)
  | A_density => assign_density v | A_susceptibility => assign_susceptibility v | A_remanent => assign_remanent v
  end.
(** Source: [self.name]; the properties of ellipsoids.py:99-192 return what is stored. *)
Definition read (k : attribute) (o : object) : pyvalue :=
  match k with
  | A_a => o_a o | A_b => o_b o | A_c => o_c o | A_yaw => o_yaw o | A_pitch => o_pitch o | A_roll => o_roll o | A_center => o_center o
  | A_density => o_density o | A_susceptibility => o_susceptibility o | A_remanent => o_remanent o
  end.

(** 71-97 [__init__]; the attributes of the object under construction start as [PObject].  A constructor that fails yields no object. *)
Definition blank : object := Object PObject PObject PObject PObject PObject PObject PObject PObject PObject PObject.
(** Source: ellipsoids.py:71-97. *)
Definition init_method (a b c yaw pitch roll center density susceptibility remanent : pyvalue) : method :=
  andthen (check (check_positive_semiaxis a))
 (andthen (check (check_positive_semiaxis b))
 (andthen (check (check_positive_semiaxis c))
 (andthen (store (fun o => set_c c (set_b b (set_a a o))))
 (andthen (store (fun o => set_roll roll (set_pitch pitch (set_yaw yaw o))))
 (andthen (store (set_center center))
 (andthen (assign_density density)
 (andthen (assign_susceptibility susceptibility)
          (assign_remanent remanent)))))))).
(** Source: ellipsoids.py:71-97. *)
Definition init (a b c yaw pitch roll center density susceptibility remanent : pyvalue) : res object :=
  let '(o, r) := init_method a b c yaw pitch roll center density susceptibility remanent blank in
  match r with Ok _ => Ok o | Raise e => Raise e end.

(** A history: assignments to the object, where exceptions are caught by the caller. Source: uses of ellipsoids.py:71-192 by a program. *)
Definition history (l : list (attribute * pyvalue)) (o : object) : object := fold_left (fun o kv => fst (assign (fst kv) (snd kv) o)) l o.

(** The numbers held by an object, when all of them are finite: what gravity and magnetic modelling read. Source: the number behind a value, as read in gravity.py:88-125. *)
Definition finite (v : pyvalue) : option R := match v with PReal (Fin r) => Some r | _ => None end.
(** Source: the numbers behind an array, as read in gravity.py:88-125. *)
Fixpoint finites (l : list num) : option (list R) :=
  match l with
  | [] => Some []
  | Fin r :: l' => match finites l' with Some l'' => Some (r :: l'') | None => None end
  | NaN :: _ => None
  end.
(** Source: the attribute [center] as read in gravity.py:97-100. *)
Definition center_of (v : pyvalue) : option vec3 :=
  match v with
  | PSequence (Ok (_, d)) | PArray _ d => match finites d with Some [x; y; z] => Some (V3 x y z) | _ => None end
  | _ => None
  end.
(** Source: the attribute [density] as read in gravity.py:88-125. *)
Definition density_of (v : pyvalue) : option (option R) := match v with PNone => Some None | PReal (Fin r) => Some (Some r) | _ => None end.
(** Source: the attribute [susceptibility] as read in magnetic.py:294-326. *)
Definition susceptibility_of (v : pyvalue) : option (option susceptibility_t) :=
  match v with
  | PNone => Some None
  | PReal (Fin r) => Some (Some (Isotropic r))
  | PArray _ d => match finites d with
                  | Some [a; b; c; d; e; f; g; h; i] => Some (Some (Tensor (M3 (V3 a b c) (V3 d e f) (V3 g h i))))
                  | _ => None
                  end
  | _ => None
  end.
(** Source: the attribute [remanent_mag] as read in magnetic.py:329-348. *)
Definition remanent_of (v : pyvalue) : option (option vec3) :=
  match v with
  | PNone => Some None
  | PArray _ d => match finites d with Some [x; y; z] => Some (Some (V3 x y z)) | _ => None end
  | _ => None
  end.
(** Source: gravity.py:88-125, magnetic.py:117-216. *)
Definition to_ellipsoid (o : object) : option ellipsoid :=
  match finite (o_a o), finite (o_b o), finite (o_c o), finite (o_yaw o), finite (o_pitch o), finite (o_roll o), center_of (o_center o),
        density_of (o_density o), susceptibility_of (o_susceptibility o), remanent_of (o_remanent o) with
  | Some a, Some b, Some c, Some yaw, Some pitch, Some roll, Some center, Some d, Some s, Some r => Some (Ell a b c yaw pitch roll center d s r)
  | _, _, _, _, _, _, _, _, _, _ => None
  end.
