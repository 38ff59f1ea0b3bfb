(** Model of /repo/src/harmonica/_io/oasis_montaj_grd.py: reading Geosoft grid files.

    A file is a list of bytes (integers from 0 to 255).  The machine is little endian, as all the platforms the
    package supports; [array.array] types have their usual sizes.  Floats are decoded from their IEEE 754
    representation to reals, infinities and NaN; arithmetic on them is exact (rounding and signed zeros are not
    modelled).  zlib.decompress is an argument.  Opening and closing files is not modelled. *)
From Coq Require Import ZArith.
From Verif Require Import Base NumPy DistanceModel.
Local Open Scope string_scope. Local Open Scope list_scope. Local Open Scope R_scope.

(** ** Binary formats *)
(** Source: oasis_montaj_grd.py:143-222. *)
Definition bytes := list Z.
(** Source: elements of the arrays of oasis_montaj_grd.py:143-222. *)
Inductive fl := FNaN | FInf (negative : bool) | FFin (r : R).
(** Little endian unsigned and two's complement integers of [length l] bytes. Source: inside array.array, oasis_montaj_grd.py:143-222. *)
Fixpoint le (l : bytes) : Z := match l with [] => 0 | b :: l' => (b + 256 * le l')%Z end.
(** Source: inside array.array, oasis_montaj_grd.py:143-222. *)
Definition two_complement (l : bytes) : Z :=
  let u := le l in let n := (8 * Z.of_nat (length l))%Z in if (u <? 2 ^ (n - 1))%Z then u else (u - 2 ^ n)%Z.
(** IEEE 754 binary floats with [e] exponent bits and [m] mantissa bits. *)
Definition ieee (e m : Z) (l : bytes) : fl :=
  let u := le l in
  let negative := (2 ^ (e + m) <=? u)%Z in
  let exponent := ((u / 2 ^ m) mod 2 ^ e)%Z in
  let mantissa := (u mod 2 ^ m)%Z in
  let bias := (2 ^ (e - 1) - 1)%Z in
  let sign := if negative then -1 else 1 in
  if (exponent =? 2 ^ e - 1)%Z then (if (mantissa =? 0)%Z then FInf negative else FNaN)
  else if (exponent =? 0)%Z then FFin (sign * IZR mantissa * powerRZ 2 (1 - bias - m))
  else FFin (sign * IZR (2 ^ m + mantissa) * powerRZ 2 (exponent - bias - m)).
(** The array.array type codes that are used. Source: oasis_montaj_grd.py:245-284. *)
Inductive code := Cb | CB | Ch | CH | Ci | CI | Cq | Cf | Cd.
(** Source: sizes of these types, oasis_montaj_grd.py:245-284. *)
Definition itemsize (c : code) : nat := match c with Cb | CB => 1 | Ch | CH => 2 | Ci | CI | Cf => 4 | Cq | Cd => 8 end.
(** Source: one element of array.array, oasis_montaj_grd.py:143-222. *)
Definition item (c : code) (l : bytes) : fl :=
  match c with
  | Cb | Ch | Ci | Cq => FFin (IZR (two_complement l))
  | CB | CH | CI => FFin (IZR (le l))
  | Cf => ieee 8 23 l
  | Cd => ieee 11 52 l
  end.
(** Source: the elements of array.array, oasis_montaj_grd.py:143-222. *)
Fixpoint chunks (fuel size : nat) (l : bytes) : list bytes :=
  match fuel with O => [] | S fuel => match l with [] => [] | _ => firstn size l :: chunks fuel size (skipn size l) end end.
(** [array.array(code, l)]: ValueError when the length is not a multiple of the size. Source: oasis_montaj_grd.py:143-222. *)
Definition array_items {A} (size : nat) (decode : bytes -> A) (l : bytes) : res (list A) :=
  if Nat.eqb (length l mod size) 0 then Ok (map decode (chunks (length l) size l)) else Raise ValueError.
(** Source: [array.array("i", ...)], oasis_montaj_grd.py:143-222. *)
Definition array_int (l : bytes) : res (list Z) := array_items 4 two_complement l.
(** Source: [array.array("q", ...)], oasis_montaj_grd.py:299-347. *)
Definition array_long (l : bytes) : res (list Z) := array_items 8 two_complement l.
(** Source: [array.array(data_type, ...)], oasis_montaj_grd.py:37-140. *)
Definition array_fl (c : code) (l : bytes) : res (list fl) := array_items (itemsize c) (item c) l.

(** [l[a:b]] with Python's rules for negative and large bounds. Source: slices of oasis_montaj_grd.py:143-222. *)
Definition bound (n k : Z) : Z := Z.min n (if (k <? 0)%Z then Z.max 0 (k + n) else k).
(** Source: oasis_montaj_grd.py:143-222 and 299-347. *)
Definition pyslice (l : bytes) (a b : Z) : bytes :=
  let n := Z.of_nat (length l) in
  let a := bound n a in let b := bound n b in
  firstn (Z.to_nat (b - a)) (skipn (Z.to_nat a) l).

(** ** Header *)
(** Source: the dictionary returned in oasis_montaj_grd.py:143-222. *)
Record header := Header {
  n_bytes_per_element : Z; sign_flag : Z; shape_e : Z; shape_v : Z; ordering : Z;
  spacing_e : fl; spacing_v : fl; x_origin : fl; y_origin : fl; rotation : fl;
  base_value : fl; data_factor : fl;
  map_projection : Z; units_x : Z; units_y : Z; units_z : Z; n_valid_points : Z;
  grid_min : fl; grid_max : fl; grid_median : fl; grid_mean : fl; grid_variance : fl; process_flag : Z }.
(** oasis_montaj_grd.py:143-222 [_read_header]; unpacking a wrong number of items is a ValueError. *)
Definition _read_header (b : bytes) : res header :=
  do storage <- array_int (pyslice b 0 20);
  match storage with
  | [ES; SF; NE; NV; KX] =>
    do geographic <- array_fl Cd (pyslice b 20 60);
    match geographic with
    | [DE; DV; X0; Y0; ROT] =>
      do scaling <- array_fl Cd (pyslice b 60 76);
      match scaling with
      | [ZBASE; ZMULT] =>
        do parameters <- array_int (pyslice b 140 160);
        match parameters with
        | [PROJ; UNITX; UNITY; UNITZ; NVPTS] =>
          do statistics <- array_fl Cf (pyslice b 160 176);
          match statistics with
          | [IZMIN; IZMAX; IZMED; IZMEA] =>
            do variance <- array_fl Cd (pyslice b 176 184);
            match variance with
            | [ZVAR] =>
              do process <- array_int (pyslice b 184 188);
              match process with
              | [PRCS] => Ok (Header ES SF NE NV KX DE DV X0 Y0 ROT ZBASE ZMULT PROJ UNITX UNITY UNITZ NVPTS IZMIN IZMAX IZMED IZMEA ZVAR PRCS)
              | _ => Raise ValueError
              end
            | _ => Raise ValueError
            end
          | _ => Raise ValueError
          end
        | _ => Raise ValueError
        end
      | _ => Raise ValueError
      end
    | _ => Raise ValueError
    end
  | _ => Raise ValueError
  end.

(** oasis_montaj_grd.py:225-233 *)
Definition _check_ordering (k : Z) : res unit := if ((k =? -1) || (k =? 1))%Z%bool then Ok tt else Raise NotImplementedError.
(** oasis_montaj_grd.py:236-242 *)
Definition _check_sign_flag (s : Z) : res unit := if (s =? 3)%Z then Raise NotImplementedError else Ok tt.
(** oasis_montaj_grd.py:23 and 245-284; [data_type] stays unassigned for some combinations. *)
Definition VALID_ELEMENT_SIZES : list Z := [1; 2; 4; 8; 1024 + 1; 1024 + 2; 1024 + 4; 1024 + 8]%Z.
(** Source: oasis_montaj_grd.py:245-284. *)
Definition _get_data_type (n_bytes sign : Z) : res code :=
  if negb (existsb (Z.eqb n_bytes) VALID_ELEMENT_SIZES) then Raise NotImplementedError else
  let n_bytes := (if 1024 <? n_bytes then n_bytes - 1024 else n_bytes)%Z in
  if (n_bytes =? 1)%Z then (if (sign =? 0)%Z then Ok CB else if (sign =? 1)%Z then Ok Cb else Raise UnboundLocalError)
  else if (n_bytes =? 2)%Z then (if (sign =? 0)%Z then Ok CH else if (sign =? 1)%Z then Ok Ch else Raise UnboundLocalError)
  else if (n_bytes =? 4)%Z then (if (sign =? 0)%Z then Ok CI else if (sign =? 1)%Z then Ok Ci else if (sign =? 2)%Z then Ok Cf else Raise UnboundLocalError)
  else if (n_bytes =? 8)%Z then Ok Cd
  else Raise UnboundLocalError.

(** oasis_montaj_grd.py:25-34; -1e32 is the double nearest to it. *)
Definition dummy_float : R := -100000000000000005366162204393472.
(** Source: oasis_montaj_grd.py:25-34. *)
Definition DUMMIES (c : code) : R :=
  match c with Cb => -127 | CB => 255 | Ch => -32767 | CH => 65535 | Ci => -2147483647 | CI => 4294967295 | Cf | Cd | Cq => dummy_float end.
(** Source: [<=] of oasis_montaj_grd.py:287-296. *)
Definition fleb (x : fl) (r : R) : bool := match x with FNaN => false | FInf negative => negative | FFin a => Rleb a r end.
(** Source: [==] of oasis_montaj_grd.py:287-296. *)
Definition feqb (x : fl) (r : R) : bool := match x with FFin a => Reqb a r | _ => false end.
(** oasis_montaj_grd.py:287-296 *)
Definition _remove_dummies (grid : list fl) (c : code) : list fl :=
  match c with
  | Cf | Cd => map (fun x => if fleb x (DUMMIES c) then FNaN else x) grid
  | _ => map (fun x => if feqb x (DUMMIES c) then FNaN else x) grid
  end.

(** Arithmetic with infinities; a zero divisor counts as positive. Source: oasis_montaj_grd.py:37-140. *)
Definition fdiv (x y : fl) : fl :=
  match x, y with
  | FNaN, _ | _, FNaN => FNaN
  | FInf _, FInf _ => FNaN
  | FInf s, FFin b => FInf (if Rltb b 0 then negb s else s)
  | FFin _, FInf _ => FFin 0
  | FFin a, FFin b => if Reqb b 0 then (if Reqb a 0 then FNaN else FInf (Rltb a 0)) else FFin (a / b)
  end.
(** Source: oasis_montaj_grd.py:37-140. *)
Definition fadd (x y : fl) : fl :=
  match x, y with
  | FNaN, _ | _, FNaN => FNaN
  | FInf s, FInf t => if Bool.eqb s t then FInf s else FNaN
  | FInf s, FFin _ | FFin _, FInf s => FInf s
  | FFin a, FFin b => FFin (a + b)
  end.

(** ** Compressed grids *)
Section Zlib.
Variable decompress : bytes -> res bytes.
(** oasis_montaj_grd.py:299-347 *)
Definition _decompress_grid (grid_compressed : bytes) : res bytes :=
  do n <- array_int (pyslice grid_compressed 8 12);
  match n with
  | [n_blocks] =>
    do v <- array_int (pyslice grid_compressed 12 16);
    match v with
    | [_] =>
      do block_offsets <- array_long (pyslice grid_compressed 16 (16 + n_blocks * 8));
      do compressed_block_sizes <- array_int (pyslice grid_compressed (16 + n_blocks * 8) (16 + n_blocks * 8 + n_blocks * 4));
      for_ (range 0 (Z.to_nat n_blocks)) (fun i grid =>
        match nth_error block_offsets i, nth_error compressed_block_sizes i with
        | Some offset, Some size =>
          let start_offset := (offset - 512 + 16)%Z in
          let end_offset := (size + offset - 512)%Z in
          do grid_sub <- decompress (pyslice grid_compressed start_offset end_offset);
          Ok (grid ++ grid_sub)
        | _, _ => Raise IndexError
        end) []
    | _ => Raise ValueError
    end
  | _ => Raise ValueError
  end.

(** ** Coordinates *)
(** numpy.linspace: [n] points from [a] to [b]. Source: oasis_montaj_grd.py:350-428. *)
Definition linspace (a b : R) (n : nat) : list R :=
  map (fun i => if Nat.eqb n 1 then a else a + INR i * ((b - a) / INR (n - 1))) (range 0 n).
(** oasis_montaj_grd.py:350-380 *)
Definition _build_coordinates (west south : R) (shape : nat * nat) (spacing : R * R) : list R * list R :=
  (linspace west (west + snd spacing * (INR (snd shape) - 1)) (snd shape), linspace south (south + fst spacing * (INR (fst shape) - 1)) (fst shape)).
(** oasis_montaj_grd.py:383-428 *)
Definition _build_rotated_coordinates (west south : R) (shape : nat * nat) (spacing : R * R) (rotation_deg : R) : list (list R) * list (list R) :=
  let x := linspace 0 (snd spacing * (INR (snd shape) - 1)) (snd shape) in
  let y := linspace 0 (fst spacing * (INR (fst shape) - 1)) (fst shape) in
  let rotation_rad := radians rotation_deg in
  (map (fun y => map (fun x => west + x * cos rotation_rad - y * sin rotation_rad) x) y,
   map (fun y => map (fun x => south + x * sin rotation_rad + y * cos rotation_rad) x) y).

(** ** Grids *)
(** Source: oasis_montaj_grd.py:37-140. *)
Inductive coords := Aligned (easting northing : list R) | Rotated (easting northing : list (list R)).
(** Coordinates are not modelled when the header holds infinities or NaN there ([None]). Source: the xarray.DataArray of oasis_montaj_grd.py:37-140. *)
Record grid := Grid { values : list (list fl); coordinates : option coords; attrs : header }.
(** Source: header fields that are finite, oasis_montaj_grd.py:37-140. *)
Definition reals (l : list fl) : option (list R) :=
  fold_right (fun x acc => match x, acc with FFin r, Some l => Some (r :: l) | _, _ => None end) (Some []) l.
(** Source: the shape of oasis_montaj_grd.py:37-140. *)
Definition nat_shape (shape : Z * Z) : nat * nat := (Z.to_nat (fst shape), Z.to_nat (snd shape)).
(** Source: the coordinates of oasis_montaj_grd.py:37-140. *)
Definition build (h : header) (shape : nat * nat) (spacing : fl * fl) : option coords :=
  match reals [x_origin h; y_origin h; fst spacing; snd spacing; rotation h] with
  | Some [west; south; s0; s1; rot] =>
    if Reqb rot 0 then let (e, n) := _build_coordinates west south shape (s0, s1) in Some (Aligned e n)
    else let (e, n) := _build_rotated_coordinates west south shape (s0, s1) rot in Some (Rotated e n)
  | _ => None
  end.
(** oasis_montaj_grd.py:37-140; [reshape] with a negative size is a ValueError too. *)
Definition load_oasis_montaj_grid (file : bytes) : res grid :=
  do h <- _read_header (firstn 512 file);
  do _ <- _check_ordering (ordering h);
  do _ <- _check_sign_flag (sign_flag h);
  do data_type <- _get_data_type (n_bytes_per_element h) (sign_flag h);
  let content := skipn 512 file in
  do content <- (if (1024 <? n_bytes_per_element h)%Z then _decompress_grid content else Ok content);
  do g <- array_fl data_type content;
  let g := _remove_dummies g data_type in
  let g := map (fun x => fadd (fdiv x (data_factor h)) (base_value h)) g in
  let row_major := (ordering h =? 1)%Z in
  let shape := if row_major then (shape_v h, shape_e h) else (shape_e h, shape_v h) in
  let spacing := if row_major then (spacing_v h, spacing_e h) else (spacing_e h, spacing_v h) in
  if negb (fst shape * snd shape =? Z.of_nat (length g))%Z then Raise ValueError else
  if ((fst shape <? 0) || (snd shape <? 0))%Z%bool then Raise ValueError else
  let (n0, n1) := nat_shape shape in
  let at_ := fun i j => nth (if row_major then i * n1 + j else j * n0 + i)%nat g FNaN in
  Ok (Grid (map (fun i => map (at_ i) (range 0 n1)) (range 0 n0)) (build h (n0, n1) spacing) h).
End Zlib.
