(** Model of the class IGRF14 of /repo/src/harmonica/_spherical_harmonics/igrf.py: attributes, the cached
    coefficients and the shapes of the arrays.

    The coefficient file is an argument: [file] is what load_igrf makes of it.  datetime.fromisoformat is
    external; dates are values of datetime, with or without a time zone.  [grid] is given the axes that
    bordado makes; the Dataset around its result is not modelled. *)
From Verif Require Import Base NumPy LegendreModel IgrfModel.
Local Open Scope R_scope.

(** A datetime: naive, or aware of its offset to UTC (in seconds). Source: igrf.py:288-291. *)
Inductive datetime := Naive (d : date) | Aware (d : date) (offset : R).

(** igrf.py 80-143 for either kind of date: the range of years is checked first, then the naive first of January is
    subtracted from the date, which is a TypeError for an aware one. *)
Definition interpolate (when : datetime) (max_degree : nat) (c : coefficients) : res (table * table) :=
  match when with
  | Naive d => interpolate_coefficients d max_degree c
  | Aware d _ =>
    match c_years c with
    | [] => Raise IndexError
    | first :: _ =>
      if (Z.ltb (d_year d) first || Z.leb (List.last (c_years c) 0%Z + 5) (d_year d))%bool then Raise ValueError
      else match nth_error (c_years c) (Z.to_nat ((d_year d - first) / 5)) with
           | None => Raise IndexError
           | Some year => do _ <- january_first year; Raise TypeError
           end
    end
  end.

(** Attributes of an object; [cache] is [_coefficients]. Source: igrf.py:288-295. *)
Record igrf := IGRF { i_date : datetime; i_min : nat; i_max : nat; cache : option (table * table) }.
(** 281-295 [__init__] *)
Definition new (when : datetime) (min_degree max_degree : nat) : igrf := IGRF when min_degree max_degree None.

Section Object.
Variable file : res coefficients.
Variable junk : nat -> nat -> R.
Variable geodetic_to_spherical : R -> R -> R * R.

(** 297-303 [coefficients] *)
Definition coefficients_of (self : igrf) : igrf * res (table * table) :=
  match cache self with
  | Some gh => (self, Ok gh)
  | None =>
    match (do c <- file; interpolate (i_date self) (i_max self) c) with
    | Ok gh => (IGRF (i_date self) (i_min self) (i_max self) (Some gh), Ok gh)
    | Raise e => (self, Raise e)
    end
  end.

(** Two one-dimensional arrays combined element by element by numpy. Source: igrf.py:354-359 and 552-557. *)
Definition broadcast_1d {A B C} (f : A -> B -> C) (l : list A) (m : list B) : res (list C) :=
  if Nat.eqb (length l) (length m) then Ok (map (fun t => f (fst t) (snd t)) (combine l m))
  else match l, m with
       | [x], _ => Ok (map (f x) m)
       | _, [y] => Ok (map (fun x => f x y) l)
       | _, _ => Raise ValueError
       end.

(** What [predict] returns: three arrays, or three floats when there is one longitude. Source: igrf.py:377-385. *)
Inductive vector := Arrays (be bn bu : arr) | Floats (be bn bu : R).

(** Source: [c.reshape(cast.shape)], igrf.py:378. *)
Definition reshape (l : list R) (shape : list nat) : res arr :=
  if Nat.eqb (length l) (prod_shape shape) then Ok (Arr shape l) else Raise ValueError.
(** [float(c)]: TypeError unless there is exactly one element; source: igrf.py:384. *)
Definition to_float (a : arr) : res R := match data a with [x] => Ok x | _ => Raise TypeError end.

(** 325-385 [predict]: the compiled loop runs over the longitudes and reads the other two arrays at the same
    positions. *)
Definition predict_method (coordinates : arr * arr * arr) (self : igrf) : igrf * res vector :=
  let '(c0, c1, c2) := coordinates in
  match broadcast3 c0 c1 c2 with
  | Raise e => (self, Raise e)
  | Ok cast_shape =>
    match broadcast_1d geodetic_to_spherical (ravel c1) (ravel c2) with
    | Raise e => (self, Raise e)
    | Ok spherical =>
      let (self, gh) := coefficients_of self in
      (self,
       do (g, h) <- gh;
       do b <- each (fun i =>
         do lon <- aget (ravel c0) i;
         do sph <- aget spherical i;
         field_at junk (radians lon) (radians (90 - fst sph)) (reference_radius / snd sph) g h (i_min self) (i_max self) (0, 0, 0))
         (range 0 (length (ravel c0)));
       do angles <- broadcast_1d (fun lat sph => (lat, fst sph)) (ravel c1) spherical;
       do rotated <- broadcast_1d (fun angle v => vector_spherical_to_geodetic (fst angle) (snd angle) v) angles b;
       do be <- reshape (map (fun v => fst (fst v)) b) cast_shape;
       do bn <- reshape (map (fun v => snd (fst v)) rotated) cast_shape;
       do bu <- reshape (map (fun v => snd v) rotated) cast_shape;
       if Nat.eqb (length (ravel c0)) 1 then
         do x <- to_float be; do y <- to_float bn; do z <- to_float bu; Ok (Floats x y z)
       else Ok (Arrays be bn bu))
    end
  end.

(** 387-530 [grid] on the axes of the grid *)
Definition grid_method (longitude latitude : list R) (height : nat -> nat -> R) (self : igrf)
  : igrf * res (list (list (R * R * R))) :=
  let (self, gh) := coefficients_of self in
  (self, do (g, h) <- gh; grid junk geodetic_to_spherical longitude latitude height g h (i_min self) (i_max self)).

(** What a program does with an object; exceptions are caught by the caller. Source: uses of the methods and attributes of igrf.py:281-530. *)
Inductive action :=
| Predict (coordinates : arr * arr * arr)
| MakeGrid (longitude latitude : list R) (height : nat -> nat -> R)
| GetCoefficients
| SetDate (d : datetime) | SetMin (n : nat) | SetMax (n : nat).
(** Source: effect of one use on the object, igrf.py:281-530. *)
Definition act (a : action) (self : igrf) : igrf :=
  match a with
  | Predict c => fst (predict_method c self)
  | MakeGrid lon lat height => fst (grid_method lon lat height self)
  | GetCoefficients => fst (coefficients_of self)
  | SetDate d => IGRF d (i_min self) (i_max self) (cache self)
  | SetMin n => IGRF (i_date self) n (i_max self) (cache self)
  | SetMax n => IGRF (i_date self) (i_min self) n (cache self)
  end.
(** Source: a sequence of uses, igrf.py:281-530. *)
Definition history (l : list action) (self : igrf) : igrf := fold_left (fun o a => act a o) l self.
End Object.
