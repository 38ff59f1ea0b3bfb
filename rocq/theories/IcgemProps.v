(** C54: reading ICGEM grids. *)
From Coq Require Import ZArith Ascii String Lia Lra.
From Verif Require Import Base PointGravityModel IcgemModel IcgemSpec IcgemProofs.
Local Open Scope string_scope. Local Open Scope list_scope. Local Open Scope R_scope.

Section C54.
Variable py_int : string -> res Z.
Variable py_float : string -> res R.
Variable loadtxt : list string -> option (list nat) -> res (list (list R)).

(** A file of a regular grid, row after row from north to south: every row [k] of numbers ends at its own latitude and
    longitude, in all variables; the latitude increases. *)
Theorem C54_values_at_own_coordinates h lines rest cols n0 n1 lat lon (LAT LON : nat -> R) south north west east :
  header_lines h lines ->
  (forall k, In k needed_args -> exists w, value_of h k w) ->
  List.length (g_units h) = List.length (g_names h) -> List.length cols = List.length (g_names h) -> NoDup (g_names h) ->
  loadtxt rest None = Ok cols -> Forall (fun c => List.length c = (n0 * n1)%nat) cols -> (0 < n0)%nat -> (0 < n1)%nat ->
  lookup "latitude" (combine (g_names h) cols) = Some lat -> lookup "longitude" (combine (g_names h) cols) = Some lon ->
  (forall w, value_of h "latitude_parallels" w -> py_int w = Ok (Z.of_nat n0)) ->
  (forall w, value_of h "longitude_parallels" w -> py_int w = Ok (Z.of_nat n1)) ->
  (forall w, value_of h "number_of_gridpoints" w -> py_int w = Ok (Z.of_nat (n0 * n1))) ->
  (forall w, value_of h "latlimit_south" w -> py_float w = Ok south) -> (forall w, value_of h "latlimit_north" w -> py_float w = Ok north) ->
  (forall w, value_of h "longlimit_west" w -> py_float w = Ok west) -> (forall w, value_of h "longlimit_east" w -> py_float w = Ok east) ->
  (forall ws, lookup "height_over_ell" (rev (g_fields h)) = Some ws -> exists w rest' z, ws = w :: rest' /\ py_float w = Ok z) ->
  (forall i j, (i < n0)%nat -> (j < n1)%nat -> nth (i * n1 + j) lat 0 = LAT i /\ nth (i * n1 + j) lon 0 = LON j) ->
  (forall i i', (i < i' < n0)%nat -> LAT i' < LAT i) -> (forall j j', (j < j' < n1)%nat -> LON j < LON j') ->
  south = LAT (n0 - 1)%nat -> north = LAT 0%nat -> west = LON 0%nat -> east = LON (n1 - 1)%nat ->
  exists g, load_icgem_gdf py_int py_float loadtxt (lines ++ rest) None = Ok g /\
    List.length (latitude g) = n0 /\ List.length (longitude g) = n1 /\
    (forall i i', (i < i' < n0)%nat -> nth i (latitude g) 0 < nth i' (latitude g) 0) /\
    forall k, (k < n0 * n1)%nat ->
      let i := (n0 - 1 - k / n1)%nat in let j := (k mod n1)%nat in
      nth i (latitude g) 0 = nth k lat 0 /\ nth j (longitude g) 0 = nth k lon 0 /\
      forall name v, name <> "latitude" -> name <> "longitude" ->
        (name <> "height_over_ell" \/ lookup "height_over_ell" (rev (g_fields h)) = None) ->
        lookup name (combine (g_names h) cols) = Some v ->
        exists M, lookup name (variables g) = Some M /\ List.length M = n0 /\ nth j (nth i M []) 0 = nth k v 0.
Proof.
  intros Hh Hn Hlu Hlc Hnd Htxt Hcols Hn0 Hn1 Hlat Hlon P0 P1 P2 F0 F1 F2 F3 Hhei Hreg Hdec Hinc ES EN EW EE.
  set (la := rev (heads (mat lat n0 n1))); set (lo := map (fun j => nth j lon 0) (range 0 n1)).
  assert (Hla : forall i, (i < n0)%nat -> nth i la 0 = LAT (n0 - 1 - i)%nat).
  { intros i Hi; unfold la; rewrite latitude_nth by assumption; destruct (Hreg (n0 - 1 - i)%nat 0%nat) as [E _]; [lia|lia|]; rewrite <- E; f_equal; lia. }
  assert (Hlo : forall j, (j < n1)%nat -> nth j lo 0 = LON j).
  { intros j Hj; unfold lo; rewrite nth_map_range by assumption; destruct (Hreg 0%nat j) as [_ E]; [lia|lia|]; exact E. }
  assert (Lla : List.length la = n0) by (unfold la; rewrite rev_length, heads_length, mat_length; reflexivity).
  assert (Llo : List.length lo = n1) by (unfold lo; rewrite map_length; apply range_length).
  assert (Near : forall x, near x x).
  { intros x; unfold near; replace (x - x) with 0 by ring; rewrite Rabs_R0; pose proof (Rabs_pos x); lra. }
  assert (In_la : forall x, In x la -> exists i, (i < n0)%nat /\ x = LAT i).
  { intros x Hx; apply In_nth with (d := 0) in Hx; destruct Hx as (i & Hi & <-); rewrite Lla in Hi; exists (n0 - 1 - i)%nat; split; [lia|now apply Hla]. }
  assert (In_lo : forall x, In x lo -> exists j, (j < n1)%nat /\ x = LON j).
  { intros x Hx; apply In_nth with (d := 0) in Hx; destruct Hx as (j & Hj & <-); rewrite Llo in Hj; exists j; split; [assumption|now apply Hlo]. }
  assert (LAT_in : forall i, (i < n0)%nat -> In (LAT i) la).
  { intros i Hi; replace i with (n0 - 1 - (n0 - 1 - i))%nat by lia; rewrite <- Hla by lia; apply nth_In; lia. }
  assert (LON_in : forall j, (j < n1)%nat -> In (LON j) lo).
  { intros j Hj; rewrite <- Hlo by lia; apply nth_In; lia. }
  destruct (load_ok py_int py_float loadtxt h lines rest cols n0 n1 lat lon south north west east) as (g & Eg & G1 & G2 & G3 & _); try assumption.
  { exists south; split; [|apply Near]; rewrite ES; split; [apply LAT_in; lia|]; intros x Hx; destruct (In_la x Hx) as (i & Hi & ->).
    destruct (Nat.eq_dec i (n0 - 1)) as [->|]; [lra|]; left; apply Hdec; lia. }
  { exists north; split; [|apply Near]; rewrite EN; split; [apply LAT_in; lia|]; intros x Hx; destruct (In_la x Hx) as (i & Hi & ->).
    destruct (Nat.eq_dec i 0) as [->|]; [lra|]; left; apply Hdec; lia. }
  { exists west; split; [|apply Near]; rewrite EW; split; [apply LON_in; lia|]; intros x Hx; destruct (In_lo x Hx) as (j & Hj & ->).
    destruct (Nat.eq_dec j 0) as [->|]; [lra|]; left; apply Hinc; lia. }
  { exists east; split; [|apply Near]; rewrite EE; split; [apply LON_in; lia|]; intros x Hx; destruct (In_lo x Hx) as (j & Hj & ->).
    destruct (Nat.eq_dec j (n1 - 1)) as [->|]; [lra|]; left; apply Hinc; lia. }
  fold la in G1; fold lo in G2.
  exists g; split; [exact Eg|]; rewrite G1, G2; split; [exact Lla|]; split; [exact Llo|]; split.
  { intros i i' Hi; rewrite !Hla by lia; apply Hdec; lia. }
  intros k Hk.
  assert (Hkj : (k mod n1 < n1)%nat) by (apply Nat.mod_upper_bound; lia).
  assert (Hki : (k / n1 < n0)%nat) by (apply Nat.div_lt_upper_bound; lia).
  assert (Ek : k = (k / n1 * n1 + k mod n1)%nat) by (rewrite (Nat.div_mod k n1) at 1 by lia; lia).
  destruct (Hreg (k / n1)%nat (k mod n1)%nat Hki Hkj) as [R1 R2]; rewrite <- Ek in R1, R2.
  intros i j; split; [|split].
  - unfold i; rewrite Hla by lia; rewrite R1; f_equal; lia.
  - unfold j; rewrite Hlo by assumption; now rewrite R2.
  - intros name v K1 K2 K3 Ev; exists (rev (mat v n0 n1)); split; [now apply G3|]; split; [now rewrite rev_length, mat_length|].
    unfold i, j; rewrite value_nth by lia; f_equal; rewrite Ek at 3.
    replace (n0 - 1 - (n0 - 1 - k / n1))%nat with (k / n1)%nat by lia; reflexivity.
Qed.

(** Files whose header and data disagree are refused: an accepted file has as many rows of numbers as the header says,
    and the area of its grid is the one in the header. *)
Theorem C54_accepted_files_agree lines usecols g : load_icgem_gdf py_int py_float loadtxt lines usecols = Ok g ->
  exists s0 s1 size n0 n1 sS sN sW sE south north west east,
    lookup "latitude_parallels" (fields (attrs g)) = Some s0 /\ py_int s0 = Ok (Z.of_nat n0) /\
    lookup "longitude_parallels" (fields (attrs g)) = Some s1 /\ py_int s1 = Ok (Z.of_nat n1) /\
    lookup "number_of_gridpoints" (fields (attrs g)) = Some size /\ py_int size = Ok (Z.of_nat (n0 * n1)) /\
    List.length (latitude g) = n0 /\ List.length (longitude g) = n1 /\
    (exists cols, loadtxt (snd (read_header lines (Meta [] None None) true false)) usecols = Ok cols /\
       (usecols = None -> forall names, attributes (fst (read_header lines (Meta [] None None) true false)) = Some names ->
          List.length cols = List.length names /\ (NoDup names -> Forall (fun c => List.length c = (n0 * n1)%nat) cols))) /\
    lookup "latlimit_south" (fields (attrs g)) = Some sS /\ py_float sS = Ok south /\
    lookup "latlimit_north" (fields (attrs g)) = Some sN /\ py_float sN = Ok north /\
    lookup "longlimit_west" (fields (attrs g)) = Some sW /\ py_float sW = Ok west /\
    lookup "longlimit_east" (fields (attrs g)) = Some sE /\ py_float sE = Ok east /\
    (exists m, least (latitude g) m /\ near south m) /\ (exists m, greatest (latitude g) m /\ near north m) /\
    (exists m, least (longitude g) m /\ near west m) /\ (exists m, greatest (longitude g) m /\ near east m).
Proof. apply load_inv. Qed.

(** The header is read back whatever the spacing of its lines. *)
Theorem C54_header h lines data : header_lines h lines ->
  exists d, read_header (lines ++ data) (Meta [] None None) true false = (Meta d (Some (g_names h)) (Some (g_units h)), data) /\
    forall k, lookup k d = option_map (String.concat " ") (lookup k (rev (g_fields h))).
Proof. intros H; eexists; split; [apply read_header_ok; exact H|apply field_dict_lookup]. Qed.
End C54.
Print Assumptions C54_values_at_own_coordinates.
Print Assumptions C54_accepted_files_agree.
Print Assumptions C54_header.

(** ** A file *)
Definition sample : gdf :=
  Gdf [("generating_institute", ["gfz"; "potsdam"]); ("latlimit_north", ["1"; "degree"]); ("latlimit_south", ["0"]); ("longlimit_west", ["0"]); ("longlimit_east", ["1"]);
       ("latitude_parallels", ["2"]); ("longitude_parallels", ["2"]); ("number_of_gridpoints", ["4"]); ("height_over_ell", ["0"; "m"])]
      ["longitude"; "latitude"; "gravity"] ["[deg.]"; "[deg.]"; "[mGal]"].
Definition render (h : gdf) : list string :=
  map (fun kv => join (fst kv :: snd kv)) (g_fields h) ++ [""; join (g_names h); join (g_units h); ("" ++ "end_of_head" ++ " ===")%string].
Definition sample_int (s : string) : res Z := if String.eqb s "2" then Ok 2%Z else if String.eqb s "4" then Ok 4%Z else Raise ValueError.
Definition sample_float (s : string) : res R := if String.eqb s "1" then Ok 1 else if String.eqb s "0" then Ok 0 else Raise ValueError.
Lemma is_word s : no_white s -> s <> "" -> word s. Proof. split; assumption. Qed.
Ltac words := repeat apply Forall_cons; try apply Forall_nil; (apply is_word; [repeat split|discriminate]).
Lemma sample_lines : header_lines sample (render sample).
Proof.
  apply (header_intro sample (map (fun kv => join (fst kv :: snd kv)) (g_fields sample)) "" (join (g_names sample)) (join (g_units sample)) "" " ===").
  - cbn [g_fields sample map]; repeat apply Forall2_cons; try apply Forall2_nil; (split; [apply join_line; cbn [fst snd]; words|reflexivity]).
  - constructor; exact I.
  - apply join_line; words.
  - exists "longitude", ["latitude"; "gravity"]; split; reflexivity.
  - apply join_line; words.
  - exists "[deg.]", ["[deg.]"; "[mGal]"]; split; reflexivity.
  - exact I.
Qed.
Lemma sample_args : forall k, In k needed_args -> exists w, value_of sample k w.
Proof. intros k H; repeat (destruct H as [<-|H]; [eexists; eexists; reflexivity|]); destruct H. Qed.
Definition good : list (list R) := [[0; 1; 0; 1]; [1; 1; 0; 0]; [10; 20; 30; 40]].
Example C54_example :
  header_lines sample (render sample) /\ (forall k, In k needed_args -> exists w, value_of sample k w) /\ NoDup (g_names sample) /\
  lookup "latitude" (combine (g_names sample) good) = Some [1; 1; 0; 0] /\ lookup "longitude" (combine (g_names sample) good) = Some [0; 1; 0; 1] /\
  (forall w, value_of sample "latlimit_north" w -> sample_float w = Ok 1) /\
  (forall i j, (i < 2)%nat -> (j < 2)%nat -> nth (i * 2 + j) [1; 1; 0; 0] 0 = 1 - INR i /\ nth (i * 2 + j) [0; 1; 0; 1] 0 = INR j).
Proof.
  refine (conj sample_lines (conj sample_args (conj _ (conj eq_refl (conj eq_refl (conj _ _)))))).
  - repeat constructor; cbn; intuition discriminate.
  - intros w (rest & E); inversion E; reflexivity.
  - intros [|[|i]] [|[|j]] Hi Hj; try lia; cbn; lra.
Qed.

(** Violations.  Only the first row of longitudes and the first column of latitudes are looked at: a file whose points
    are not on a grid, one of them outside of the area in the header, is accepted, and that value is moved. *)
Theorem C54_scattered_points_refuted :
  exists py_int py_float loadtxt lines cols g,
    load_icgem_gdf py_int py_float loadtxt lines None = Ok g /\ loadtxt [] None = Ok cols /\
    nth 3 (nth 1 cols []) 0 = 5 /\ nth 3 (nth 2 cols []) 0 = 40 /\ (forall x, In x (latitude g) -> x <= 1) /\
    exists M i j, lookup "gravity" (variables g) = Some M /\ (i < 2)%nat /\ (j < 2)%nat /\ nth j (nth i M []) 0 = 40.
Proof.
  set (cols := [[0; 1; 0; 1]; [1; 1; 0; 5]; [10; 20; 30; 40]]).
  exists sample_int, sample_float, (fun _ _ => Ok cols), (render sample ++ []), cols.
  destruct (load_ok sample_int sample_float (fun _ _ => Ok cols) sample (render sample) [] cols 2 2 [1; 1; 0; 5] [0; 1; 0; 1] 0 1 0 1) as (g & Eg & G1 & G2 & G3 & _);
    try exact sample_lines; try exact sample_args; try reflexivity; try lia;
    try (intros w (rest & E); inversion E; reflexivity).
  - repeat constructor; cbn; intuition discriminate.
  - unfold cols; repeat constructor.
  - intros ws E; inversion E; exists "0", ["m"], 0; split; reflexivity.
  - exists 0; split; [split; [cbn; tauto|intros x Hx; cbn in Hx; destruct Hx as [<-|[<-|[]]]; lra]|unfold near; replace (0 - 0) with 0 by ring; rewrite Rabs_R0; lra].
  - exists 1; split; [split; [cbn; tauto|intros x Hx; cbn in Hx; destruct Hx as [<-|[<-|[]]]; lra]|unfold near; replace (1 - 1) with 0 by ring; rewrite Rabs_R0, Rabs_R1; lra].
  - exists 0; split; [split; [cbn; tauto|intros x Hx; cbn in Hx; destruct Hx as [<-|[<-|[]]]; lra]|unfold near; replace (0 - 0) with 0 by ring; rewrite Rabs_R0; lra].
  - exists 1; split; [split; [cbn; tauto|intros x Hx; cbn in Hx; destruct Hx as [<-|[<-|[]]]; lra]|unfold near; replace (1 - 1) with 0 by ring; rewrite Rabs_R0, Rabs_R1; lra].
  - exists g; split; [exact Eg|]; split; [reflexivity|]; split; [reflexivity|]; split; [reflexivity|].
    split; [rewrite G1; intros x Hx; cbn in Hx; destruct Hx as [<-|[<-|[]]]; lra|].
    exists (rev (mat [10; 20; 30; 40] 2 2)), 0%nat, 1%nat; split; [|split; [lia|split; [lia|reflexivity]]].
    apply G3; [discriminate|discriminate|left; discriminate|reflexivity].
Qed.
Print Assumptions C54_scattered_points_refuted.
(** With [usecols] the names of the columns are restricted, but not their units: they no longer match. *)
Theorem C54_usecols_units_refuted :
  exists py_int loadtxt lines cols m names units,
    _read_gdf_file py_int loadtxt lines (Some [2; 0; 1]%nat) = Ok (cols, m) /\
    attributes m = Some names /\ attributes_units m = Some units /\
    nth 0 names "" = "gravity" /\ nth 0 units "" = "deg." /\ In ("gravity", "[mGal]") (combine (g_names sample) (g_units sample)).
Proof.
  set (cols := [[10; 20; 30; 40]; [0; 1; 0; 1]; [1; 1; 0; 0]]).
  exists sample_int, (fun _ _ => Ok cols), (render sample ++ []), cols.
  unfold _read_gdf_file; rewrite (read_header_ok sample (render sample) [] sample_lines); cbn [bind].
  destruct (integrity_ok sample_int (fun _ _ => Ok cols) sample (render sample) sample_lines sample_args eq_refl) with (w0 := "2") (w1 := "2") (ws := "4") (n0 := 2%Z) (n1 := 2%Z) as (d & Ed & _);
    try reflexivity; try (eexists; reflexivity); try (cbn; tauto).
  rewrite Ed; cbn [bind attributes].
  eexists; eexists; eexists; split; [reflexivity|]; cbn [attributes attributes_units].
  split; [reflexivity|]; split; [reflexivity|]; split; [reflexivity|]; split; [reflexivity|]; cbn; tauto.
Qed.
Print Assumptions C54_usecols_units_refuted.
