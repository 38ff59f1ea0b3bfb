(** What the Oasis Montaj theorems (C50-C53) talk about: the documented layout of a grid file, written as an
    encoder, independently of the reader. *)
From Coq Require Import ZArith.
From Verif Require Import Base OasisModel.
Local Open Scope string_scope. Local Open Scope list_scope. Local Open Scope R_scope.

Definition is_byte (b : Z) : Prop := (0 <= b < 256)%Z.
(** The [n] little endian bytes of the residue of [z] modulo 256^n. *)
Fixpoint enc (n : nat) (z : Z) : bytes := match n with O => [] | S n => (z mod 256)%Z :: enc n (z / 256)%Z end.
Definition int32 (z : Z) : Prop := (- 2 ^ 31 <= z < 2 ^ 31)%Z.
Definition int64 (z : Z) : Prop := (- 2 ^ 63 <= z < 2 ^ 63)%Z.
(** A finite nonzero normal double or float: sign, exponent field and mantissa field. *)
Record triple := Triple { t_neg : bool; t_exp : Z; t_man : Z }.
Definition triple_ok (e m : Z) (t : triple) : Prop := (0 < t_exp t < 2 ^ e - 1)%Z /\ (0 <= t_man t < 2 ^ m)%Z.
Definition triple_bits (e m : Z) (t : triple) : Z :=
  ((if t_neg t then 2 ^ (e + m) else 0) + t_exp t * 2 ^ m + t_man t)%Z.
(** (-1)^s (1 + man/2^m) 2^(exp - bias) *)
Definition triple_value (e m : Z) (t : triple) : R :=
  (if t_neg t then -1 else 1) * (1 + IZR (t_man t) / powerRZ 2 m) * powerRZ 2 (t_exp t - (2 ^ (e - 1) - 1)).

(** The header as a file holds it: integers, and for each float its raw bytes.  Offsets: ES 0, SF 4, NE 8, NV 12,
    KX 16; DE 20, DV 28, X0 36, Y0 44, ROT 52; ZBASE 60, ZMULT 68; label 76-124 and map number 124-140 (ignored);
    PROJ 140, UNITX, UNITY, UNITZ, NVPTS; minimum 160, maximum, median, mean; variance 176; PRCS 184; then 324
    unused bytes. *)
Record raw := Raw {
  r_ES : Z; r_SF : Z; r_NE : Z; r_NV : Z; r_KX : Z;
  r_DE : bytes; r_DV : bytes; r_X0 : bytes; r_Y0 : bytes; r_ROT : bytes; r_ZBASE : bytes; r_ZMULT : bytes;
  r_label : bytes;
  r_PROJ : Z; r_UNITX : Z; r_UNITY : Z; r_UNITZ : Z; r_NVPTS : Z;
  r_min : bytes; r_max : bytes; r_med : bytes; r_mean : bytes; r_var : bytes; r_PRCS : Z; r_user : bytes }.
Definition file_header (r : raw) : bytes :=
  enc 4 (r_ES r) ++ enc 4 (r_SF r) ++ enc 4 (r_NE r) ++ enc 4 (r_NV r) ++ enc 4 (r_KX r)
  ++ r_DE r ++ r_DV r ++ r_X0 r ++ r_Y0 r ++ r_ROT r ++ r_ZBASE r ++ r_ZMULT r
  ++ r_label r
  ++ enc 4 (r_PROJ r) ++ enc 4 (r_UNITX r) ++ enc 4 (r_UNITY r) ++ enc 4 (r_UNITZ r) ++ enc 4 (r_NVPTS r)
  ++ r_min r ++ r_max r ++ r_med r ++ r_mean r ++ r_var r ++ enc 4 (r_PRCS r) ++ r_user r.
Definition raw_ok (r : raw) : Prop :=
  Forall int32 [r_ES r; r_SF r; r_NE r; r_NV r; r_KX r; r_PROJ r; r_UNITX r; r_UNITY r; r_UNITZ r; r_NVPTS r; r_PRCS r]
  /\ Forall (fun l => length l = 8%nat) [r_DE r; r_DV r; r_X0 r; r_Y0 r; r_ROT r; r_ZBASE r; r_ZMULT r; r_var r]
  /\ Forall (fun l => length l = 4%nat) [r_min r; r_max r; r_med r; r_mean r]
  /\ length (r_label r) = 64%nat /\ length (r_user r) = 324%nat.
Definition float64 (l : bytes) : fl := ieee 11 52 l.
Definition float32 (l : bytes) : fl := ieee 8 23 l.
Definition meaning (r : raw) : header :=
  Header (r_ES r) (r_SF r) (r_NE r) (r_NV r) (r_KX r) (float64 (r_DE r)) (float64 (r_DV r)) (float64 (r_X0 r)) (float64 (r_Y0 r))
    (float64 (r_ROT r)) (float64 (r_ZBASE r)) (float64 (r_ZMULT r)) (r_PROJ r) (r_UNITX r) (r_UNITY r) (r_UNITZ r) (r_NVPTS r)
    (float32 (r_min r)) (float32 (r_max r)) (float32 (r_med r)) (float32 (r_mean r)) (float64 (r_var r)) (r_PRCS r).

(** The element types of the format. *)
Inductive format := Unsigned (bytes : nat) | Signed (bytes : nat) | Float | Double.
Definition format_of (size sign : Z) : option format :=
  match size, sign with
  | 1, 0 => Some (Unsigned 1) | 1, 1 => Some (Signed 1)
  | 2, 0 => Some (Unsigned 2) | 2, 1 => Some (Signed 2)
  | 4, 0 => Some (Unsigned 4) | 4, 1 => Some (Signed 4) | 4, 2 => Some Float
  | 8, 2 => Some Double
  | _, _ => None
  end%Z.
Definition fsize (f : format) : nat := match f with Unsigned n | Signed n => n | Float => 4 | Double => 8 end.
(** Elements of a file, as bytes, and what they stand for ([None]: no data). *)
Inductive elem := Eint (z : Z) | Eraw (l : bytes).
Definition elem_bytes (f : format) (e : elem) : bytes := match e with Eint z => enc (fsize f) z | Eraw l => l end.
Definition elem_ok (f : format) (e : elem) : Prop :=
  match f, e with
  | Unsigned n, Eint z => (0 <= z < 2 ^ (8 * Z.of_nat n))%Z
  | Signed n, Eint z => (- 2 ^ (8 * Z.of_nat n - 1) <= z < 2 ^ (8 * Z.of_nat n - 1))%Z
  | Float, Eraw l => length l = 4%nat
  | Double, Eraw l => length l = 8%nat
  | _, _ => False
  end.
(** A number or minus infinity not above the limit; not a number is neither above nor below. *)
Definition below (x : fl) (r : R) : bool := match x with FNaN => false | FInf negative => negative | FFin a => if Rle_dec a r then true else false end.
(** Dummies: the largest unsigned value, minus the largest signed value, and floats not above -1e32. *)
Definition elem_value (f : format) (e : elem) : option fl :=
  match f, e with
  | Unsigned n, Eint z => if (z =? 2 ^ (8 * Z.of_nat n) - 1)%Z then None else Some (FFin (IZR z))
  | Signed n, Eint z => if (z =? - (2 ^ (8 * Z.of_nat n - 1) - 1))%Z then None else Some (FFin (IZR z))
  | Float, Eraw l => if below (float32 l) (-100000000000000005366162204393472) then None else Some (float32 l)
  | Double, Eraw l => if below (float64 l) (-100000000000000005366162204393472) then None else Some (float64 l)
  | _, _ => None
  end.
(** value/factor + base, for a finite factor that is not zero and a finite base *)
Definition rescaled (factor base : R) (x : option fl) : fl :=
  match x with
  | Some (FFin r) => FFin (r / factor + base)
  | Some (FInf s) => FInf (if Rltb factor 0 then negb s else s)
  | _ => FNaN
  end.

(** Blocks of a compressed grid: file offset, 16 ignored bytes, and the compressed bytes. *)
Record block := Block { b_offset : Z; b_extra : bytes; b_packed : bytes }.
Definition block_size (b : block) : Z := Z.of_nat (length (b_extra b) + length (b_packed b)).
(** [l] holds [part] at position [p]. *)
Definition holds_at (l : bytes) (p : nat) (part : bytes) : Prop := firstn (length part) (skipn p l) = part.
Definition directory (signature : bytes) (vectors : Z) (blocks : list block) : bytes :=
  signature ++ enc 4 (Z.of_nat (length blocks)) ++ enc 4 vectors
  ++ concat (map (fun b => enc 8 (b_offset b)) blocks) ++ concat (map (fun b => enc 4 (block_size b)) blocks).
Definition block_ok (content : bytes) (b : block) : Prop :=
  length (b_extra b) = 16%nat /\ (512 <= b_offset b < 2 ^ 63)%Z /\ (block_size b < 2 ^ 31)%Z
  /\ (Z.to_nat (b_offset b) - 512 + length (b_extra b) + length (b_packed b) <= length content)%nat
  /\ holds_at content (Z.to_nat (b_offset b) - 512) (b_extra b ++ b_packed b).
(** Blocks laid out one after the other behind the directory. *)
Fixpoint layout (position : Z) (packed : list (bytes * bytes)) : list block :=
  match packed with
  | [] => []
  | (extra, p) :: rest => Block position extra p :: layout (position + Z.of_nat (length extra + length p)) rest
  end.
Definition written (signature : bytes) (vectors : Z) (packed : list (bytes * bytes)) : bytes :=
  let blocks := layout (512 + 16 + 12 * Z.of_nat (length packed)) packed in
  directory signature vectors blocks ++ concat (map (fun b => b_extra b ++ b_packed b) blocks).

Definition dist2 (a b : R * R) : R := (fst a - fst b) ^ 2 + (snd a - snd b) ^ 2.

(** Position (easting, northing) of the node in row [i] and column [j]. *)
Definition node (c : coords) (i j : nat) : R * R :=
  match c with
  | Aligned e n => (nth j e 0, nth i n 0)
  | Rotated e n => (nth j (nth i e []) 0, nth j (nth i n []) 0)
  end.
(** Element [e] of vector [v]: vectors run along x when KX = 1 and along y when KX = -1; the grid is rotated
    counterclockwise by [rot] degrees about its origin. *)
Definition documented_position (KX : Z) (X0 Y0 DE DV rot : R) (v e : nat) : R * R :=
  let x := if (KX =? 1)%Z then INR e * DE else INR v * DV in
  let y := if (KX =? 1)%Z then INR v * DV else INR e * DE in
  (X0 + (x * cos (rot * PI / 180) - y * sin (rot * PI / 180)), Y0 + (x * sin (rot * PI / 180) + y * cos (rot * PI / 180))).
