(** C50-C53: reading Oasis Montaj grids. *)
From Coq Require Import ZArith Lia Lra.
From Verif Require Import Base OasisModel OasisSpec OasisProofs.
Local Open Scope string_scope. Local Open Scope list_scope. Local Open Scope R_scope.

(** ** C50: headers *)
(** Every field of a header written as documented is read back, whatever the other bytes. *)
Theorem C50_header_fields (r : raw) (rest : bytes) : raw_ok r ->
  _read_header (firstn 512 (file_header r ++ rest)) = Ok (meaning r).
Proof.
  intros H; rewrite firstn_app, (file_header_length r H), Nat.sub_diag, firstn_O, app_nil_r, firstn_all2 by (rewrite (file_header_length r H); lia).
  now apply read_header_ok.
Qed.
Print Assumptions C50_header_fields.
(** The floats in it are the IEEE 754 ones. *)
Theorem C50_floats :
  (forall t, triple_ok 11 52 t -> float64 (enc 8 (triple_bits 11 52 t)) = FFin (triple_value 11 52 t)) /\
  (forall t, triple_ok 8 23 t -> float32 (enc 4 (triple_bits 8 23 t)) = FFin (triple_value 8 23 t)).
Proof. split; [exact float64_triple|exact float32_triple]. Qed.
Print Assumptions C50_floats.
(** So are the subnormal numbers (no implicit leading bit, smallest exponent), the infinities and NaN. *)
Theorem C50_special_floats : forall negative,
  let sign := if negative : bool then -1 else 1 in
  (forall f, (0 <= f < 2 ^ 52)%Z ->
    float64 (enc 8 (triple_bits 11 52 (Triple negative 0 f))) = FFin (sign * (IZR f / powerRZ 2 52) * powerRZ 2 (-1022)) /\
    float64 (enc 8 (triple_bits 11 52 (Triple negative 2047 f))) = if (f =? 0)%Z then FInf negative else FNaN) /\
  (forall f, (0 <= f < 2 ^ 23)%Z ->
    float32 (enc 4 (triple_bits 8 23 (Triple negative 0 f))) = FFin (sign * (IZR f / powerRZ 2 23) * powerRZ 2 (-126)) /\
    float32 (enc 4 (triple_bits 8 23 (Triple negative 255 f))) = if (f =? 0)%Z then FInf negative else FNaN).
Proof.
  intros negative sign. split; intros f Hf.
  - exact (ieee_special 11 52 8 negative f ltac:(lia) ltac:(lia) ltac:(reflexivity) Hf).
  - exact (ieee_special 8 23 4 negative f ltac:(lia) ltac:(lia) ltac:(reflexivity) Hf).
Qed.
Print Assumptions C50_special_floats.
(** Truncated headers, unknown orderings, colour grids and unknown element sizes are refused. *)
Theorem C50_rejections decompress (r : raw) (content : bytes) : raw_ok r ->
  (r_KX r <> 1 /\ r_KX r <> -1 -> load_oasis_montaj_grid decompress (file_header r ++ content) = Raise NotImplementedError)%Z /\
  (r_SF r = 3 -> load_oasis_montaj_grid decompress (file_header r ++ content) = Raise NotImplementedError)%Z /\
  (~ In (r_ES r) [1; 2; 4; 8; 1025; 1026; 1028; 1032] -> load_oasis_montaj_grid decompress (file_header r ++ content) = Raise NotImplementedError)%Z /\
  (forall short, (length short < 188)%nat -> load_oasis_montaj_grid decompress short = Raise ValueError).
Proof.
  intros H; destruct (load_errors decompress r content H) as (A & B & C); refine (conj A (conj B (conj C _))).
  intros short Hs; unfold load_oasis_montaj_grid; rewrite firstn_all2 by lia; now rewrite read_header_short.
Qed.
Print Assumptions C50_rejections.

(** A header of a 2 x 3 grid of signed 16-bit integers stored along y. *)
Definition one : bytes := enc 8 (triple_bits 11 52 (Triple false 1023 0)).
Definition two : bytes := enc 8 (triple_bits 11 52 (Triple false 1024 0)).
Definition zero : bytes := repeat 0%Z 8.
Definition sample (ES SF NE NV KX : Z) : raw :=
  Raw ES SF NE NV KX one two zero one zero one two (repeat 65%Z 64) 0 1 1 1 6 (repeat 0%Z 4) (repeat 0%Z 4) (repeat 0%Z 4) (repeat 0%Z 4) zero 0 (repeat 0%Z 324).
Lemma sample_ok ES SF NE NV KX : int32 ES -> int32 SF -> int32 NE -> int32 NV -> int32 KX -> raw_ok (sample ES SF NE NV KX).
Proof.
  intros; unfold raw_ok; refine (conj _ (conj _ (conj _ (conj _ _)))); try reflexivity.
  - unfold sample; cbn [r_ES r_SF r_NE r_NV r_KX r_PROJ r_UNITX r_UNITY r_UNITZ r_NVPTS r_PRCS]; repeat apply Forall_cons; try apply Forall_nil; try assumption; unfold int32; lia.
  - repeat constructor; reflexivity.
  - repeat constructor; reflexivity.
Qed.
Lemma float64_one : float64 one = FFin 1.
Proof. unfold one; rewrite float64_triple by (split; cbn [t_exp t_man]; lia); f_equal; unfold triple_value; cbn [t_neg t_exp t_man]; change (1023 - (2 ^ (11 - 1) - 1))%Z with 0%Z; change (powerRZ 2 0) with 1; field. apply powerRZ_NOR; lra. Qed.
Lemma float64_two : float64 two = FFin 2.
Proof. unfold two; rewrite float64_triple by (split; cbn [t_exp t_man]; lia); f_equal; unfold triple_value; cbn [t_neg t_exp t_man]; change (1024 - (2 ^ (11 - 1) - 1))%Z with 1%Z; rewrite powerRZ_1; field. apply powerRZ_NOR; lra. Qed.
Example C50_example : raw_ok (sample 2 1 3 2 (-1)) /\ raw_ok (sample 2 1 3 2 7) /\ raw_ok (sample 2 3 3 2 1) /\ raw_ok (sample 6 1 3 2 1).
Proof. refine (conj _ (conj _ (conj _ _))); apply sample_ok; unfold int32; lia. Qed.
Example C50_floats_example : triple_ok 11 52 (Triple true 1129 1047515495755287) /\ triple_ok 8 23 (Triple true 233 1951150).
Proof. split; split; cbn [t_exp t_man]; lia. Qed.

(** Violations.  With 8 bytes per element the sign flag is not looked at: a file of 64-bit integers, or with a flag
    that the format does not have, is read as doubles. *)
Theorem C50_sign_flag_refuted :
  exists r content, raw_ok r /\ format_of (r_ES r) (r_SF r) = None /\
    forall decompress, exists g, load_oasis_montaj_grid decompress (file_header r ++ content) = Ok g /\ values g <> [].
Proof.
  exists (sample 8 7 1 1 1), (concat [one]).
  assert (Hr : raw_ok (sample 8 7 1 1 1)) by (apply sample_ok; unfold int32; lia).
  split; [exact Hr|]; split; [reflexivity|]; intros decompress.
  unfold load_oasis_montaj_grid.
  rewrite firstn_app, (file_header_length _ Hr), Nat.sub_diag, firstn_O, app_nil_r, firstn_all2 by (rewrite (file_header_length _ Hr); lia).
  rewrite (read_header_ok _ Hr); cbn [bind].
  rewrite skipn_app, (file_header_length _ Hr), Nat.sub_diag, skipn_O, skipn_all2 by (rewrite (file_header_length _ Hr); lia); cbn [app].
  change (ordering (meaning (sample 8 7 1 1 1))) with 1%Z; change (sign_flag (meaning (sample 8 7 1 1 1))) with 7%Z;
  change (n_bytes_per_element (meaning (sample 8 7 1 1 1))) with 8%Z.
  change (_check_ordering 1) with (Ok tt); change (_check_sign_flag 7) with (Ok tt); change (_get_data_type 8 7) with (Ok Cd); cbn [bind].
  change (1024 <? 8)%Z with false; cbn match; cbn [bind].
  unfold array_fl; rewrite array_items_concat; [|cbn; lia|repeat constructor]; cbn [bind].
  cbn -[float64 ieee fdiv fadd build]; eexists; split; [reflexivity|]; cbn [values]; discriminate.
Qed.
Print Assumptions C50_sign_flag_refuted.
(** With fewer bytes an unknown sign flag ends in an UnboundLocalError instead of the documented refusal. *)
Theorem C50_unbound_data_type_refuted :
  exists r, raw_ok r /\ format_of (r_ES r) (r_SF r) = None /\
    forall decompress content, load_oasis_montaj_grid decompress (file_header r ++ content) = Raise UnboundLocalError.
Proof.
  exists (sample 2 2 1 1 1).
  assert (Hr : raw_ok (sample 2 2 1 1 1)) by (apply sample_ok; unfold int32; lia).
  split; [exact Hr|]; split; [reflexivity|]; intros decompress content.
  unfold load_oasis_montaj_grid.
  rewrite firstn_app, (file_header_length _ Hr), Nat.sub_diag, firstn_O, app_nil_r, firstn_all2 by (rewrite (file_header_length _ Hr); lia).
  rewrite (read_header_ok _ Hr); reflexivity.
Qed.
Print Assumptions C50_unbound_data_type_refuted.

(** ** C51: values and nodes *)
(** Uncompressed files: element [e] of vector [v] is at the documented node, dummies are NaN, and other values are
    value/factor + base. *)
Theorem C51_elements_at_nodes decompress r f es factor base :
  raw_ok r -> format_of (r_ES r) (r_SF r) = Some f -> (r_KX r = 1 \/ r_KX r = -1)%Z ->
  (0 <= r_NE r)%Z -> (0 <= r_NV r)%Z -> Z.of_nat (length es) = (r_NE r * r_NV r)%Z -> Forall (elem_ok f) es ->
  float64 (r_ZMULT r) = FFin factor -> factor <> 0 -> float64 (r_ZBASE r) = FFin base ->
  exists g, load_oasis_montaj_grid decompress (file_header r ++ concat (map (elem_bytes f) es)) = Ok g /\ attrs g = meaning r /\
    length (values g) = Z.to_nat (if (r_KX r =? 1)%Z then r_NV r else r_NE r) /\
    Forall (fun row => length row = Z.to_nat (if (r_KX r =? 1)%Z then r_NE r else r_NV r)) (values g) /\
    forall v e, (v < Z.to_nat (r_NV r))%nat -> (e < Z.to_nat (r_NE r))%nat ->
      let i := if (r_KX r =? 1)%Z then v else e in
      let j := if (r_KX r =? 1)%Z then e else v in
      nth j (nth i (values g) []) FNaN = rescaled factor base (elem_value f (nth (v * Z.to_nat (r_NE r) + e) es (Eint 0))) /\
      (forall X0 Y0 DE DV rot, float64 (r_X0 r) = FFin X0 -> float64 (r_Y0 r) = FFin Y0 -> float64 (r_DE r) = FFin DE ->
         float64 (r_DV r) = FFin DV -> float64 (r_ROT r) = FFin rot ->
         exists c, coordinates g = Some c /\ node c i j = documented_position (r_KX r) X0 Y0 DE DV rot v e).
Proof. intros Hr Hf; intros; eapply (load_ok decompress r f es _ false); try eassumption; reflexivity. Qed.
Print Assumptions C51_elements_at_nodes.
(** The floats nearest to -1e32, that mark missing data, are dummies in both precisions. *)
Theorem C51_float_dummies :
  elem_value Float (Eraw (enc 4 4103980462)) = None /\ elem_value Double (Eraw (enc 8 14308983531651821079)) = None.
Proof.
  cbn [elem_value]; destruct float32_dummy as (x & -> & Hx); rewrite float64_dummy; cbn [below].
  split; [destruct (Rle_dec x (-100000000000000005366162204393472)); [reflexivity|contradiction]|].
  destruct (Rle_dec (-100000000000000005366162204393472) (-100000000000000005366162204393472)); [reflexivity|lra].
Qed.
Print Assumptions C51_float_dummies.
(** Files with the wrong number of elements are refused. *)
Theorem C51_wrong_size decompress r f es : raw_ok r -> format_of (r_ES r) (r_SF r) = Some f -> Forall (elem_ok f) es ->
  (r_KX r = 1 \/ r_KX r = -1)%Z -> Z.of_nat (length es) <> (r_NE r * r_NV r)%Z ->
  load_oasis_montaj_grid decompress (file_header r ++ concat (map (elem_bytes f) es)) = Raise ValueError.
Proof. apply load_size. Qed.
Print Assumptions C51_wrong_size.
Definition sample_elements : list elem := [Eint 5; Eint (-32767); Eint (-32768); Eint 7; Eint 0; Eint (-1)].
Example C51_example : let r := sample 2 1 3 2 (-1) in
  raw_ok r /\ format_of (r_ES r) (r_SF r) = Some (Signed 2) /\ Z.of_nat (length sample_elements) = (r_NE r * r_NV r)%Z /\
  Forall (elem_ok (Signed 2)) sample_elements /\ float64 (r_ZMULT r) = FFin 2 /\ float64 (r_ZBASE r) = FFin 1 /\
  elem_value (Signed 2) (Eint (-32767)) = None /\ elem_value (Signed 2) (Eint (-32768)) = Some (FFin (-32768)) /\
  float64 (r_X0 r) = FFin 0 /\ float64 (r_Y0 r) = FFin 1 /\ float64 (r_DE r) = FFin 1 /\ float64 (r_DV r) = FFin 2 /\ float64 (r_ROT r) = FFin 0.
Proof.
  intros r; split; [apply sample_ok; unfold int32; lia|].
  split; [reflexivity|]; split; [reflexivity|]; split; [unfold sample_elements; repeat constructor; cbn; lia|].
  repeat match goal with |- _ /\ _ => split end; try reflexivity; first [exact float64_one | exact float64_two | exact float64_zero].
Qed.

(** ** C52: compressed grids *)
(** Slices of the file at the offsets it states: between two positions inside it; negative positions count from
    the end; positions before the beginning or after the end stand for the beginning and the end. *)
Theorem C52_slices l a b : let n := Z.of_nat (length l) in
  ((0 <= a <= b)%Z -> (b <= n)%Z -> length (pyslice l a b) = Z.to_nat (b - a) /\
     forall i, (Z.of_nat i < b - a)%Z -> nth_error (pyslice l a b) i = nth_error l (Z.to_nat a + i)) /\
  ((- n <= a < 0)%Z -> pyslice l a b = pyslice l (a + n) b) /\ ((- n <= b < 0)%Z -> pyslice l a b = pyslice l a (b + n)) /\
  ((a < - n)%Z -> pyslice l a b = pyslice l 0 b) /\ ((b < - n)%Z -> pyslice l a b = pyslice l a 0) /\
  ((n < b)%Z -> pyslice l a b = pyslice l a n) /\ ((n <= a)%Z -> pyslice l a b = []) /\ ((0 <= b <= a)%Z -> pyslice l a b = []).
Proof.
  cbv zeta. set (n := Z.of_nat (length l)). assert (N0 : (0 <= n)%Z) by (unfold n; lia).
  assert (Pb : forall k, bound n k = Z.min n (if (k <? 0)%Z then Z.max 0 (k + n) else k)) by reflexivity.
  assert (Q : forall a' b', bound n a = bound n a' -> bound n b = bound n b' -> pyslice l a b = pyslice l a' b') by (intros a' b' E1 E2; unfold pyslice; fold n; now rewrite E1, E2).
  assert (Z0 : (bound n b <= bound n a)%Z -> pyslice l a b = []).
  { intros H. unfold pyslice. fold n. replace (Z.to_nat (bound n b - bound n a)) with O by lia. reflexivity. }
  repeat split; intros; try (apply Q; try reflexivity; rewrite !Pb; destruct (Z.ltb_spec a 0); destruct (Z.ltb_spec b 0); try destruct (Z.ltb_spec (a + n) 0); try destruct (Z.ltb_spec (b + n) 0); try destruct (Z.ltb_spec n 0); try destruct (Z.ltb_spec 0 0); lia).
  - unfold pyslice. fold n. rewrite !Pb. destruct (Z.ltb_spec a 0); [lia|]. destruct (Z.ltb_spec b 0); [lia|]. rewrite !Z.min_r by lia. rewrite firstn_length, skipn_length. unfold n in *. lia.
  - unfold pyslice. fold n. rewrite !Pb. destruct (Z.ltb_spec a 0); [lia|]. destruct (Z.ltb_spec b 0); [lia|]. rewrite !Z.min_r by lia.
    rewrite <- (firstn_skipn (Z.to_nat (b - a)) (skipn (Z.to_nat a) l)) at 1. 
    assert (L : length (firstn (Z.to_nat (b - a)) (skipn (Z.to_nat a) l)) = Z.to_nat (b - a)) by (rewrite firstn_length, skipn_length; unfold n in *; lia).
    transitivity (nth_error (firstn (Z.to_nat (b - a)) (skipn (Z.to_nat a) l) ++ skipn (Z.to_nat (b - a)) (skipn (Z.to_nat a) l)) i).
    + rewrite firstn_skipn. symmetry. rewrite <- (firstn_skipn (Z.to_nat (b - a)) (skipn (Z.to_nat a) l)) at 1. rewrite nth_error_app1 by lia. reflexivity.
    + rewrite firstn_skipn. assert (La : (Z.to_nat a <= length l)%nat) by (unfold n in *; lia).
      rewrite <- (firstn_skipn (Z.to_nat a) l) at 2. assert (Lf : length (firstn (Z.to_nat a) l) = Z.to_nat a) by (rewrite firstn_length; lia). rewrite nth_error_app2 by lia. f_equal. lia.
  - apply Z0. rewrite !Pb. destruct (Z.ltb_spec a 0); destruct (Z.ltb_spec b 0); lia.
  - apply Z0. rewrite !Pb. destruct (Z.ltb_spec a 0); destruct (Z.ltb_spec b 0); lia.
Qed.
Print Assumptions C52_slices.
(** Blocks anywhere in the file, in any number and with any sizes, give the concatenation of their contents. *)
Theorem C52_blocks decompress signature vectors blocks rest plains :
  let content := directory signature vectors blocks ++ rest in
  length signature = 8%nat -> int32 vectors -> int32 (Z.of_nat (length blocks)) -> Forall (block_ok content) blocks ->
  Forall2 (fun b p => decompress (b_packed b) = Ok p) blocks plains ->
  _decompress_grid decompress content = Ok (concat plains).
Proof. intros content; intros; apply (decompress_ok decompress signature vectors blocks rest); try assumption; reflexivity. Qed.
Print Assumptions C52_blocks.
(** Reading undoes writing: a grid cut in blocks that are compressed and laid out one after the other. *)
Theorem C52_round_trip (compress : bytes -> bytes) decompress signature vectors extras plains :
  (forall p, decompress (compress p) = Ok p) ->
  length signature = 8%nat -> int32 vectors -> Forall (fun e => length e = 16%nat) extras -> length extras = length plains ->
  let file := written signature vectors (combine extras (map compress plains)) in
  (512 + Z.of_nat (length file) < 2 ^ 31)%Z ->
  _decompress_grid decompress file = Ok (concat plains).
Proof.
  intros Hz Hs Hv He Hl file Hb; apply decompress_written; try assumption.
  - clear - He Hl; revert plains Hl; induction He as [|e es H He IH]; intros [|p ps] Hl; try discriminate; cbn [combine map]; constructor; [exact H|apply IH; now inversion Hl].
  - clear - Hz He Hl; revert plains Hl; induction He as [|e es H He IH]; intros [|p ps] Hl; try discriminate; cbn [combine map]; constructor; [apply Hz|apply IH; now inversion Hl].
Qed.
Print Assumptions C52_round_trip.
(** A compressed file is loaded as the same file uncompressed. *)
Theorem C52_compressed_file decompress r f es content factor base :
  raw_ok r -> format_of (r_ES r - 1024) (r_SF r) = Some f -> (r_KX r = 1 \/ r_KX r = -1)%Z ->
  (0 <= r_NE r)%Z -> (0 <= r_NV r)%Z -> Z.of_nat (length es) = (r_NE r * r_NV r)%Z -> Forall (elem_ok f) es ->
  _decompress_grid decompress content = Ok (concat (map (elem_bytes f) es)) ->
  float64 (r_ZMULT r) = FFin factor -> factor <> 0 -> float64 (r_ZBASE r) = FFin base ->
  exists g, load_oasis_montaj_grid decompress (file_header r ++ content) = Ok g /\
    forall v e, (v < Z.to_nat (r_NV r))%nat -> (e < Z.to_nat (r_NE r))%nat ->
      let i := if (r_KX r =? 1)%Z then v else e in
      let j := if (r_KX r =? 1)%Z then e else v in
      nth j (nth i (values g) []) FNaN = rescaled factor base (elem_value f (nth (v * Z.to_nat (r_NE r) + e) es (Eint 0))).
Proof.
  intros Hr Hf HK H1 H2 H3 H4 H5 H6 H7 H8; destruct (load_ok decompress r f es content true factor base Hr Hf HK H1 H2 H3 H4 H5 H6 H7 H8) as (g & Hg & _ & _ & _ & Hv).
  exists g; split; [exact Hg|]; intros v e Hvv Hee; exact (proj1 (Hv v e Hvv Hee)).
Qed.
Print Assumptions C52_compressed_file.
Example C52_example : let file := written (repeat 1%Z 8) 2 (combine [repeat 9%Z 16; repeat 8%Z 16] (map (fun p => 0%Z :: p) [[1; 2; 3]; [4; 5]]%Z)) in
  (512 + Z.of_nat (length file) < 2 ^ 31)%Z /\ _decompress_grid (fun p => Ok (tl p)) file = Ok [1; 2; 3; 4; 5]%Z.
Proof. split; reflexivity. Qed.

(** ** C53: rotated grids *)
Theorem C53_rotated_coordinates west south n0 n1 s0 s1 rot i j i' j' :
  (i < n0)%nat -> (j < n1)%nat -> (i' < n0)%nat -> (j' < n1)%nat ->
  let en := _build_rotated_coordinates west south (n0, n1) (s0, s1) rot in
  let at_ := node (Rotated (fst en) (snd en)) in
  at_ 0%nat 0%nat = (west, south) /\
  dist2 (at_ i j) (at_ i' j') = dist2 (INR j * s1, INR i * s0) (INR j' * s1, INR i' * s0) /\
  (let de := fst (at_ i j) - west in let dn := snd (at_ i j) - south in
   de * cos (rot * PI / 180) + dn * sin (rot * PI / 180) = INR j * s1 /\
   - de * sin (rot * PI / 180) + dn * cos (rot * PI / 180) = INR i * s0) /\
  (let e0 := _build_coordinates west south (n0, n1) (s0, s1) in
   rot = 0 -> at_ i j = node (Aligned (fst e0) (snd e0)) i j).
Proof.
  intros Hi Hj Hi' Hj' en at_.
  assert (H0 : at_ 0%nat 0%nat = _) by (apply rotated_node; lia).
  assert (H1 : at_ i j = _) by (apply rotated_node; assumption).
  assert (H2 : at_ i' j' = _) by (apply rotated_node; assumption).
  pose proof (cos2_sin2 (rot * PI / 180)) as T.
  rewrite H0, H1, H2.
  refine (conj _ (conj _ (conj _ _))).
  - cbn [INR]; f_equal; ring.
  - unfold dist2; cbn [fst snd]; set (c := cos _) in *; set (s := sin _) in *.
    transitivity (((INR j * s1 - INR j' * s1) ^ 2 + (INR i * s0 - INR i' * s0) ^ 2) * (c * c + s * s)); [ring|rewrite T; ring].
  - cbn [fst snd]; set (c := cos _) in *; set (s := sin _) in *; split;
      [transitivity (INR j * s1 * (c * c + s * s)); [ring|rewrite T; ring]|transitivity (INR i * s0 * (c * c + s * s)); [ring|rewrite T; ring]].
  - intros e0 ->; unfold e0, _build_coordinates; cbn [fst snd node]; rewrite !linspace_nth by assumption.
    replace (0 * PI / 180) with 0 by field; rewrite cos_0, sin_0; f_equal; ring.
Qed.
Print Assumptions C53_rotated_coordinates.
Example C53_example : (1 < 3)%nat /\ (0 < 2)%nat /\ (2 < 3)%nat /\ (1 < 2)%nat.
Proof. lia. Qed.
