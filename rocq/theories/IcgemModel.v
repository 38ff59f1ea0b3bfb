(** Model of /repo/src/harmonica/_io/icgem_gdf.py: reading ICGEM grids.

    A file is the list of its lines.  Header parsing is modelled on the characters (ASCII).  numpy.loadtxt (called
    with the lines after the header), int() and float() are arguments; data are finite reals.  Opening files is not
    modelled, nor are keyword arguments of loadtxt other than [usecols] (non-negative). *)
From Coq Require Import ZArith Ascii String.
From Verif Require Import Base PointGravityModel.
Local Open Scope string_scope. Local Open Scope list_scope. Local Open Scope R_scope.

(** ** Python strings *)
(** Characters that str.split() and str.strip() treat as white space. Source: icgem_gdf.py:109-121. *)
Definition white (c : ascii) : bool :=
  let n := nat_of_ascii c in ((Nat.leb 9 n && Nat.leb n 13) || (Nat.leb 28 n && Nat.leb n 32))%bool.
(** str.split(): [w] is the word being read. Source: icgem_gdf.py:115, 118 and 121. *)
Fixpoint split_from (s : string) (w : string) : list string :=
  match s with
  | EmptyString => if String.eqb w "" then [] else [w]
  | String c s' => if white c then (if String.eqb w "" then split_from s' "" else w :: split_from s' "")
                   else split_from s' (w ++ String c "")%string
  end.
(** Source: str.split(), icgem_gdf.py:115, 118, 121 and 152. *)
Definition split (s : string) : list string := split_from s "".
(** Source: str.lstrip(), icgem_gdf.py:109. *)
Fixpoint lstrip (s : string) : string :=
  match s with EmptyString => EmptyString | String c s' => if white c then lstrip s' else s end.
(** [line.strip()[:11] == "end_of_head"]: removing white space on the right does not matter. *)
Definition is_end (line : string) : bool := prefix "end_of_head" (lstrip line).
(** Source: icgem_gdf.py:116. *)
Definition join (l : list string) : string := String.concat " " l.
(** [s.replace("[", "").replace("]", "")]; source: icgem_gdf.py:166. *)
Fixpoint drop_brackets (s : string) : string :=
  match s with
  | EmptyString => EmptyString
  | String c s' => if (Ascii.eqb c "[" || Ascii.eqb c "]")%bool then drop_brackets s' else String c (drop_brackets s')
  end.

(** ** Dictionaries *)
(** Source: [metadata[key] = value], icgem_gdf.py:116 and 152. *)
Fixpoint dict_set {A} (k : string) (v : A) (d : list (string * A)) : list (string * A) :=
  match d with
  | [] => [(k, v)]
  | (k', v') :: d' => if String.eqb k k' then (k, v) :: d' else (k', v') :: dict_set k v d'
  end.

(** ** Header *)
(** The entries "attributes" and "attributes_units", which hold lists, are kept apart from the other metadata. Source: icgem_gdf.py:105-121. *)
Record meta := Meta { fields : list (string * string); attributes : option (list string); attributes_units : option (list string) }.
(** icgem_gdf.py:106-122: the loop over the lines; returns the metadata and the lines left in the file. *)
Fixpoint read_header (lines : list string) (m : meta) (metadata_line : bool) (units_line : bool) : meta * list string :=
  match lines with
  | [] => (m, [])
  | line :: lines =>
    if is_end line then (m, lines)
    else match split line with
    | [] => read_header lines m false units_line
    | w :: ws =>
      if metadata_line then read_header lines (Meta (dict_set w (join ws) (fields m)) (attributes m) (attributes_units m)) metadata_line units_line
      else if negb units_line then read_header lines (Meta (fields m) (Some (w :: ws)) (attributes_units m)) metadata_line true
      else read_header lines (Meta (fields m) (attributes m) (Some (w :: ws))) metadata_line units_line
    end
  end.

(** Source: icgem_gdf.py:138-146. *)
Definition needed_args : list string :=
  ["latitude_parallels"; "longitude_parallels"; "number_of_gridpoints"; "latlimit_south"; "latlimit_north"; "longlimit_west"; "longlimit_east"].
(** Source: [.split()[0]], icgem_gdf.py:61 and 152. *)
Definition first_word (s : string) : res string := match split s with w :: _ => Ok w | [] => Raise IndexError end.
(** Source: [metadata[key]], icgem_gdf.py:46, 71-74 and 174-175. *)
Definition field (m : meta) (k : string) : res string := match lookup k (fields m) with Some v => Ok v | None => Raise KeyError end.

Section External.
Variable py_int : string -> res Z.
Variable py_float : string -> res R.
Variable loadtxt : list string -> option (list nat) -> res (list (list R)).

(** icgem_gdf.py:136-178 [_check_gdf_integrity]: returns the updated metadata. *)
Definition check_args (m : meta) : res meta :=
  for_ needed_args (fun arg m =>
    match lookup arg (fields m) with
    | None => Raise OSError
    | Some v => do w <- first_word v; Ok (Meta (dict_set arg w (fields m)) (attributes m) (attributes_units m))
    end) m.
(** Source: icgem_gdf.py:136-178. *)
Definition _check_gdf_integrity (m : meta) : res meta :=
  do m <- check_args m;
  match attributes m with
  | None => Raise OSError
  | Some names =>
    match attributes_units m with
    | None => Raise OSError
    | Some units =>
      if negb (Nat.eqb (List.length names) (List.length units)) then Raise OSError else
      let m := Meta (fields m) (Some names) (Some (map drop_brackets units)) in
      if negb (mem "latitude" names) then Raise OSError else
      if negb (mem "longitude" names) then Raise OSError else
      do n0 <- (do s <- field m "latitude_parallels"; py_int s);
      do n1 <- (do s <- field m "longitude_parallels"; py_int s);
      do size <- (do s <- field m "number_of_gridpoints"; py_int s);
      if negb (n0 * n1 =? size)%Z then Raise OSError else Ok m
    end
  end.

(** [[l[i] for i in idx]]; source: icgem_gdf.py:127. *)
Fixpoint pick {A} (l : list A) (idx : list nat) : res (list A) :=
  match idx with
  | [] => Ok []
  | i :: idx => match nth_error l i with None => Raise IndexError | Some x => do r <- pick l idx; Ok (x :: r) end
  end.
(** icgem_gdf.py:91-133 [_read_gdf_file] *)
Definition _read_gdf_file (lines : list string) (usecols : option (list nat)) : res (list (list R) * meta) :=
  let (m, rest) := read_header lines (Meta [] None None) true false in
  do rawdata <- loadtxt rest usecols;
  do m <- _check_gdf_integrity m;
  match attributes m with
  | None => Raise KeyError
  | Some names =>
    do names <- match usecols with Some idx => pick names idx | None => Ok names end;
    if negb (Nat.eqb (List.length names) (List.length rawdata)) then Raise OSError
    else Ok (rawdata, Meta (fields m) (Some names) (attributes_units m))
  end.

(** ** Grids *)
(** [a.reshape(n0, n1)]; ValueError when the sizes differ (negative sizes are treated so too). Source: icgem_gdf.py:49-54. *)
Definition reshape (a : list R) (n0 n1 : Z) : res (list (list R)) :=
  if ((n0 <? 0) || (n1 <? 0) || negb (Z.of_nat (List.length a) =? n0 * n1))%Z%bool then Raise ValueError
  else Ok (map (fun i => map (fun j => nth (i * Z.to_nat n1 + j) a 0) (range 0 (Z.to_nat n1))) (range 0 (Z.to_nat n0))).
(** Source: [a[0, :]], icgem_gdf.py:49. *)
Definition first_row (a : list (list R)) : res (list R) := match a with r :: _ => Ok r | [] => Raise IndexError end.
(** Source: the first column, icgem_gdf.py:50. *)
Fixpoint heads (a : list (list R)) : list R := match a with [] => [] | r :: a => nth 0 r 0 :: heads a end.
(** [a[:, 0]]: IndexError when there are no columns. Source: icgem_gdf.py:50. *)
Definition first_col (a : list (list R)) (n1 : Z) : res (list R) := if (n1 <? 1)%Z then Raise IndexError else Ok (heads a).
(** Source: icgem_gdf.py:77 and 79. *)
Definition lmin (l : list R) : res R := match l with [] => Raise ValueError | x :: l => Ok (fold_left Rmin l x) end.
(** Source: icgem_gdf.py:78 and 80. *)
Definition lmax (l : list R) : res R := match l with [] => Raise ValueError | x :: l => Ok (fold_left Rmax l x) end.
(** numpy.isclose with its default tolerances. Source: inside np.allclose, icgem_gdf.py:82. *)
Definition isclose (a b : R) : bool := Rleb (Rabs (a - b)) (1 / 100000000 + 1 / 100000 * Rabs b).
(** Source: the xarray.Dataset of icgem_gdf.py:68. *)
Record dataset := Dataset { latitude : list R; longitude : list R; variables : list (string * list (list R)); attrs : meta }.
(** Source: [dict(zip(names, rawdata, strict=True))], icgem_gdf.py:47; the lengths were compared in 128. *)
Fixpoint dict_zip (names : list string) (cols : list (list R)) (d : list (string * list R)) : list (string * list R) :=
  match names, cols with
  | n :: names, c :: cols => dict_zip names cols (dict_set n c d)
  | _, _ => d
  end.
(** Source: [data[name]], icgem_gdf.py:49-50. *)
Definition column (d : list (string * list R)) (k : string) : res (list R) := match lookup k d with Some v => Ok v | None => Raise KeyError end.
(** icgem_gdf.py:18-88 [load_icgem_gdf]; the lists of attributes are not joined with blanks here. *)
Definition load_icgem_gdf (lines : list string) (usecols : option (list nat)) : res dataset :=
  do rm <- _read_gdf_file lines usecols;
  let (rawdata, m) := (rm : list (list R) * meta) in
  do n0 <- (do s <- field m "latitude_parallels"; py_int s);
  do n1 <- (do s <- field m "longitude_parallels"; py_int s);
  match attributes m with
  | None => Raise KeyError
  | Some names =>
    let data := dict_zip names rawdata [] in
    do lon <- (do c <- column data "longitude"; do a <- reshape c n0 n1; first_row a);
    do lat <- (do c <- column data "latitude"; do a <- reshape c n0 n1; do l <- first_col a n1; Ok (rev l));
    do vars <- for_ data (fun nv vars =>
      if mem (fst nv) ["latitude"; "longitude"] then Ok vars
      else do a <- reshape (snd nv) n0 n1; Ok (dict_set (fst nv) (rev a) vars)) [];
    do vars <- match lookup "height_over_ell" (fields m) with
               | None => Ok vars
               | Some v => do w <- first_word v; do h <- py_float w;
                           Ok (dict_set "height_over_ell" (repeat (repeat h (Z.to_nat n1)) (Z.to_nat n0)) vars)
               end;
    do south <- (do s <- field m "latlimit_south"; py_float s);
    do north <- (do s <- field m "latlimit_north"; py_float s);
    do west <- (do s <- field m "longlimit_west"; py_float s);
    do east <- (do s <- field m "longlimit_east"; py_float s);
    do a0 <- lmin lat; do a1 <- lmax lat; do a2 <- lmin lon; do a3 <- lmax lon;
    if (isclose south a0 && isclose north a1 && isclose west a2 && isclose east a3)%bool
    then Ok (Dataset lat lon vars m) else Raise OSError
  end.
End External.
