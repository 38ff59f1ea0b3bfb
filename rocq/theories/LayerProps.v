(** C18-C22, C75: layers of prisms and tesseroids. *)
From Verif Require Import Base BaseFacts NumPy NumPyFacts DistanceModel PointGravityModel PointGravitySpec PointGravityProofs
  TesseroidModel PrismModel PrismSpec PrismProofs PrismFieldProofs LayerModel LayerSpec LayerProofs LayerFieldProofs.
Local Open Scope string_scope. Local Open Scope list_scope. Local Open Scope R_scope.

(** C18. *)
Theorem C18_accepts_exactly_regular_axes x y : check_regular_grid x y = Ok tt <-> regular x /\ regular y.
Proof. exact (check_regular_ok x y). Qed.
Print Assumptions C18_accepts_exactly_regular_axes.
Theorem C18_one_cell_per_node l : regular (Lx l) -> regular (Ly l) -> wf_layer l ->
  exists cells, to_cells l = Ok cells /\ length cells = (length (Ly l) * length (Lx l))%nat /\
    forall k j, node l k j -> get_cell l (k, j) = Ok (nth (k * length (Lx l) + j) cells (Cell 0 0 0 0 NaN NaN)) /\
      nth (k * length (Lx l) + j) cells (Cell 0 0 0 0 NaN NaN) = cell_at l k j.
Proof.
  intros Rx Ry W. rewrite to_cells_ok by assumption. eexists. split; [reflexivity|]. split; [now rewrite map_length, nodes_length|].
  intros k j H. rewrite get_cell_ok by assumption.
  assert (E : nth (k * length (Lx l) + j) (map (fun kj => cell_at l (fst kj) (snd kj)) (nodes l)) (Cell 0 0 0 0 NaN NaN) = cell_at l k j).
  { rewrite (nth_indep _ _ ((fun kj => cell_at l (fst kj) (snd kj)) (0%nat, 0%nat))) by (rewrite map_length, nodes_length; destruct H; nia).
    rewrite (map_nth (fun kj => cell_at l (fst kj) (snd kj))), nodes_nth by assumption. reflexivity. }
  rewrite E. split; reflexivity.
Qed.
Print Assumptions C18_one_cell_per_node.
Theorem C18_no_cell_outside l k j : regular (Lx l) -> regular (Ly l) -> wf_layer l -> ~ node l k j -> get_cell l (k, j) = Raise IndexError.
Proof.
  intros Rx Ry W N. unfold get_cell, np_get. cbn [fst snd]. destruct (nth_error (Lx l) j) as [x|] eqn:Ex; [|reflexivity]. cbn [bind].
  destruct (nth_error (Ly l) k) as [y|] eqn:Ey; [|reflexivity]. contradiction N. split; [apply nth_error_Some; now rewrite Ey|apply nth_error_Some; now rewrite Ex].
Qed.
Print Assumptions C18_no_cell_outside.
Theorem C18_cells_centred_on_nodes l k j : let c := cell_at l k j in
  (cell_w c + cell_e c) / 2 = xat (Lx l) j /\ (cell_s c + cell_n c) / 2 = xat (Ly l) k /\ cell_e c - cell_w c = xat (Lx l) 1 - xat (Lx l) 0 /\ cell_n c - cell_s c = xat (Ly l) 1 - xat (Ly l) 0.
Proof. cbn. unfold first_step. repeat split; field. Qed.
Print Assumptions C18_cells_centred_on_nodes.
Lemma even_cell l x0 sx m y0 sy n k j : even_layer l x0 sx m y0 sy n -> node l k j -> let c := cell_at l k j in
  cell_w c = x0 + (INR j * sx - sx / 2) /\ cell_e c = x0 + (INR j * sx + sx / 2) /\ cell_s c = y0 + (INR k * sy - sy / 2) /\ cell_n c = y0 + (INR k * sy + sy / 2).
Proof.
  intros (Ex & Ey & _ & _ & Hm & Hn) [Hk Hj]. rewrite Ex, Ey, even_length in *. cbn. rewrite Ex, Ey, !even_step, !even_nth by assumption. repeat split; ring.
Qed.
Theorem C18_cells_cover_the_boundaries l x0 sx m y0 sy n : even_layer l x0 sx m y0 sy n ->
  exists w e s nn, boundaries l = Ok (w, e, s, nn) /\
    forall p q, (w <= p <= e /\ s <= q <= nn) <-> exists k j, node l k j /\ in_closed (cell_at l k j) p q.
Proof.
  intros E. pose proof E as (Ex & Ey & Hx & Hy & Hm & Hn). unfold boundaries. rewrite spacing_ok by (rewrite ?Ex, ?Ey; now apply even_regular). cbn [bind fst snd].
  rewrite Ex, Ey, !even_step, !even_min, !even_max by (lia || lra). do 4 eexists. split; [reflexivity|]. intros p q. split.
  - intros [Hp Hq]. destruct (even_cover sx m (p - x0)) as (j & Hj & Bj); [assumption|lia|lra|]. destruct (even_cover sy n (q - y0)) as (k & Hk & Bk); [assumption|lia|lra|].
    assert (N : node l k j) by (split; rewrite ?Ex, ?Ey, even_length; assumption). exists k, j. split; [assumption|].
    destruct (even_cell _ _ _ _ _ _ _ _ _ E N) as (E1 & E2 & E3 & E4). unfold in_closed. rewrite E1, E2, E3, E4. lra.
  - intros (k & j & N & H). destruct (even_cell _ _ _ _ _ _ _ _ _ E N) as (E1 & E2 & E3 & E4). unfold in_closed in H. rewrite E1, E2, E3, E4 in H.
    destruct N as [Hk Hj]. rewrite Ex, Ey, even_length in *. pose proof (INR_bounds _ _ Hj). pose proof (INR_bounds _ _ Hk). nra.
Qed.
Print Assumptions C18_cells_cover_the_boundaries.
Theorem C18_cells_do_not_overlap l x0 sx m y0 sy n k j k' j' p q : even_layer l x0 sx m y0 sy n -> node l k j -> node l k' j' ->
  in_open (cell_at l k j) p q -> in_open (cell_at l k' j') p q -> k = k' /\ j = j'.
Proof.
  intros E N N' H H'. pose proof E as (_ & _ & Hx & Hy & _).
  destruct (even_cell _ _ _ _ _ _ _ _ _ E N) as (E1 & E2 & E3 & E4). destruct (even_cell _ _ _ _ _ _ _ _ _ E N') as (F1 & F2 & F3 & F4).
  unfold in_open in *. rewrite E1, E2, E3, E4 in H. rewrite F1, F2, F3, F4 in H'. split.
  - apply (even_disjoint sy k k' (q - y0)); lra.
  - apply (even_disjoint sx j j' (p - x0)); lra.
Qed.
Print Assumptions C18_cells_do_not_overlap.
Theorem C18_neighbours_share_boundaries l x0 sx m y0 sy n k j : even_layer l x0 sx m y0 sy n -> node l k j ->
  (node l k (S j) -> cell_e (cell_at l k j) = cell_w (cell_at l k (S j))) /\ (node l (S k) j -> cell_n (cell_at l k j) = cell_s (cell_at l (S k) j)).
Proof.
  intros E N. destruct (even_cell _ _ _ _ _ _ _ _ _ E N) as (E1 & E2 & E3 & E4).
  split; intros N'; destruct (even_cell _ _ _ _ _ _ _ _ _ E N') as (F1 & F2 & F3 & F4); rewrite ?E2, ?E4, ?F1, ?F3, S_INR; field.
Qed.
Print Assumptions C18_neighbours_share_boundaries.
(** In general neighbours share boundaries up to numpy's tolerance ... *)
Theorem C18_gap_bounded l k j : regular (Lx l) -> node l k (S j) ->
  Rabs (cell_w (cell_at l k (S j)) - cell_e (cell_at l k j)) <= 1 / 10 ^ 8 + 1 / 10 ^ 5 * Rabs (xat (Lx l) (S j) - xat (Lx l) j).
Proof.
  intros [_ H] [_ Hj]. specialize (H j Hj). cbn. rewrite Rabs_minus_sym in H. eapply Rle_trans; [|exact H]. apply Req_le. f_equal. unfold first_step. field.
Qed.
Print Assumptions C18_gap_bounded.
(** ... and not exactly: an accepted axis can leave a gap, and a descending axis gives cells whose west
    boundary is east of their east boundary. *)
Theorem C18_uneven_axis_leaves_gap_refuted : exists l, prism_layer [0; 1; 2 + 1 / 10 ^ 5] [0; 1] (Array2 Float [[Fin 1; Fin 1; Fin 1]; [Fin 1; Fin 1; Fin 1]]) (RefScalar (Fin 0)) [] = Ok l /\
  node l 0 2 /\ cell_e (cell_at l 0 1) < cell_w (cell_at l 0 2).
Proof.
  unfold prism_layer. cbn [make_grid forallb bind Lx Ly].
  rewrite (proj2 (check_regular_ok [0; 1; 2 + 1 / 10 ^ 5] [0; 1])).
  2: { split; (split; [cbn; lia|]); cbn [length]; intros [|[|[|j]]] Hj; try lia; unfold first_step, xat; cbn [nth]; [| |].
       - replace (1 - 0 - (1 - 0)) with 0 by ring. rewrite Rabs_R0. pose proof (Rabs_pos (1 - 0)). lra.
       - replace (1 - 0 - (2 + 1 / 10 ^ 5 - 1)) with (- (1 / 10 ^ 5)) by ring. rewrite Rabs_Ropp, !Rabs_pos_eq by lra. lra.
       - replace (1 - 0 - (1 - 0)) with 0 by ring. rewrite Rabs_R0. pose proof (Rabs_pos (1 - 0)). lra. }
  cbn [bind]. rewrite update_ok.
  - eexists. split; [reflexivity|]. split; [split; cbn; lia|]. cbn. unfold xat, first_step, xat. cbn [nth]. lra.
  - split; apply has_shape_spec; reflexivity.
Qed.
Print Assumptions C18_uneven_axis_leaves_gap_refuted.
Theorem C18_descending_axis_inverts_cells_refuted : exists l, prism_layer (even_axis 1 (-1) 2) (even_axis 0 1 2) (Array2 Float [[Fin 1; Fin 1]; [Fin 1; Fin 1]]) (RefScalar (Fin 0)) [] = Ok l /\
  forall k j, node l k j -> cell_e (cell_at l k j) < cell_w (cell_at l k j).
Proof.
  unfold prism_layer. cbn [make_grid forallb bind Lx Ly]. rewrite (proj2 (check_regular_ok _ _)) by (split; apply even_regular; lia). cbn [bind]. rewrite update_ok.
  - eexists. split; [reflexivity|]. intros k j [Hk Hj]. cbn [Lx Ly] in *. unfold cell_at. cbn [cell_e cell_w Lx]. rewrite even_step by lia. lra.
  - split; apply has_shape_spec; reflexivity.
Qed.
Print Assumptions C18_descending_axis_inverts_cells_refuted.
Example C18_example : let l := Layer (even_axis 10 2 3) (even_axis (-4) 5 2) [] [] [] in even_layer l 10 2 3 (-4) 5 2 /\ node l 1 2 /\ in_open (cell_at l 1 2) 14 0 /\ regular (Lx l).
Proof.
  split; [repeat split; try reflexivity; try lra; lia|]. split; [split; cbn; lia|]. split.
  - unfold in_open, cell_at. cbn [cell_w cell_e cell_s cell_n Lx Ly]. rewrite !even_step, !even_nth by lia. cbn. lra.
  - apply even_regular. lia.
Qed.

(** C19. *)
Theorem C19_top_and_bottom x y surface reference props l : prism_layer x y surface reference props = Ok l ->
  let r := reference_rows (Layer x y [] [] props) reference in
  forall k j s v, node l k j -> elt (rows surface) k j = Fin s -> elt (rows r) k j = Fin v -> storable (kind surface) v -> storable (kind r) s ->
    elt (Ltop l) k j = Fin (Rmax s v) /\ elt (Lbottom l) k j = Fin (Rmin s v).
Proof.
  intros H r k j s v N Es Ev S1 S2. apply prism_layer_built in H. destruct H as (_ & _ & _ & _ & _ & _ & _ & _ & H). destruct (H k j N) as [-> ->]. fold r.
  rewrite Es, Ev. split; [now apply top_cell_max|now apply bottom_cell_min].
Qed.
Print Assumptions C19_top_and_bottom.
Theorem C19_scalar_reference x y surface v props l : prism_layer x y surface (RefScalar (Fin v)) props = Ok l -> storable (kind surface) v ->
  forall k j s, node l k j -> elt (rows surface) k j = Fin s -> elt (Ltop l) k j = Fin (Rmax s v) /\ elt (Lbottom l) k j = Fin (Rmin s v).
Proof.
  intros H S k j s N Es. apply (C19_top_and_bottom x y surface (RefScalar (Fin v)) props l H); try assumption; [|now left].
  pose proof (prism_layer_built _ _ _ _ _ _ H) as (_ & _ & _ & Ex & Ey & _). destruct N as [Hk Hj]. rewrite Ex, Ey in *. unfold elt. cbn [reference_rows rows Lx Ly].
  rewrite (nth_indep _ [] (repeat (Fin v) (length x))) by (rewrite repeat_length; assumption). rewrite (nth_repeat (repeat (Fin v) (length x))).
  rewrite (nth_indep _ NaN (Fin v)) by (rewrite repeat_length; assumption). apply nth_repeat.
Qed.
Print Assumptions C19_scalar_reference.
Theorem C19_nan_stays x y surface reference props l : prism_layer x y surface reference props = Ok l ->
  let r := reference_rows (Layer x y [] [] props) reference in
  forall k j, node l k j -> elt (rows surface) k j = NaN \/ elt (rows r) k j = NaN -> elt (Ltop l) k j = elt (rows surface) k j /\ elt (Lbottom l) k j = elt (rows r) k j.
Proof.
  intros H r k j N D. apply prism_layer_built in H. destruct H as (_ & _ & _ & _ & _ & _ & _ & _ & H). destruct (H k j N) as [-> ->]. fold r. apply cells_nan. destruct D as [-> | ->]; auto.
Qed.
Print Assumptions C19_nan_stays.
Theorem C19_shapes_checked l surface reference :
  (shaped (rows surface) (length (Ly l)) (length (Lx l)) /\ shaped (rows (reference_rows l reference)) (length (Ly l)) (length (Lx l)) -> exists l', update_top_bottom l surface reference = Ok l') /\
  (~ (shaped (rows surface) (length (Ly l)) (length (Lx l)) /\ shaped (rows (reference_rows l reference)) (length (Ly l)) (length (Lx l))) -> update_top_bottom l surface reference = Raise ValueError).
Proof. split; intros H; [rewrite (update_ok _ _ _ H); eexists; reflexivity|exact (update_bad _ _ _ H)]. Qed.
Print Assumptions C19_shapes_checked.
Theorem C19_update_keeps_the_rest l surface reference l' : update_top_bottom l surface reference = Ok l' -> Lx l' = Lx l /\ Ly l' = Ly l /\ Lvars l' = Lvars l.
Proof.
  unfold update_top_bottom. destruct (negb _); [discriminate|]. destruct reference as [v|a]; cbn [bind]; [|destruct (negb _); cbn [bind]; [discriminate|]]; intros [= <-]; repeat split; reflexivity.
Qed.
Print Assumptions C19_update_keeps_the_rest.
(** An integer surface cannot hold a fractional reference: surface -1, reference -1/2 gives top 0, which is
    neither of them. *)
Theorem C19_integer_surface_refuted : exists l, prism_layer (even_axis 0 1 2) (even_axis 0 1 2) (Array2 Int [[Fin (-1); Fin (-1)]; [Fin (-1); Fin (-1)]]) (RefScalar (Fin (- / 2))) [] = Ok l /\
  elt (Ltop l) 0 0 = Fin 0 /\ Rmax (-1) (- / 2) = - / 2.
Proof.
  unfold prism_layer. cbn [make_grid forallb bind Lx Ly]. rewrite (proj2 (check_regular_ok _ _)) by (split; apply even_regular; lia). cbn [bind]. rewrite update_ok.
  - eexists. split; [reflexivity|]. split; [|apply Rmax_right; lra].
    cbv zeta. cbn [Ltop]. rewrite (map2_elt _ _ _ 2 2); [|apply has_shape_spec; reflexivity|apply has_shape_spec; reflexivity|lia|lia].
    unfold elt. cbn [nth rows reference_rows Lx Ly length even_axis range seq map Nat.sub repeat kind]. unfold top_cell, nltb. destruct (Rltb_spec (-1) (- / 2)); [|lra].
    cbn [cast]. f_equal. unfold trunc. destruct (Rleb_spec 0 (- / 2)); [lra|]. replace (Int_part (- - / 2)) with 0%Z; [cbn; ring|].
    unfold Int_part. rewrite <- (tech_up (- - / 2) 1); [reflexivity|lra|lra].
  - split; apply has_shape_spec; reflexivity.
Qed.
Print Assumptions C19_integer_surface_refuted.
Example C19_example : exists l, prism_layer (even_axis 0 1 2) (even_axis 0 1 2) (Array2 Float [[Fin 2; Fin (-3)]; [NaN; Fin 0]]) (RefScalar (Fin 0)) [] = Ok l.
Proof.
  unfold prism_layer. cbn [make_grid forallb bind Lx Ly]. rewrite (proj2 (check_regular_ok _ _)) by (split; apply even_regular; lia). cbn [bind].
  rewrite update_ok by (split; apply has_shape_spec; reflexivity). eexists. reflexivity.
Qed.

(** C20. *)
Theorem C20_rejects_exactly_full_turns x0 s n : (2 <= n)%nat -> 0 < s ->
  (check_overlap (even_axis x0 s n) = Raise ValueError <-> 360 <= INR n * s) /\ (check_overlap (even_axis x0 s n) = Ok tt <-> INR n * s < 360).
Proof.
  intros Hn Hs. rewrite check_overlap_even by assumption. destruct (Rle_dec 360 (INR n * s)); (split; split; intros H; try reflexivity; try discriminate H; lra).
Qed.
Print Assumptions C20_rejects_exactly_full_turns.
Theorem C20_accepted_layers_do_not_overlap x0 s n y surface reference props l : (2 <= n)%nat -> 0 < s ->
  tesseroid_layer (even_axis x0 s n) y surface reference props = Ok l -> ~ overlapping (even_axis x0 s n) s.
Proof.
  intros Hn Hs H. apply tesseroid_layer_is_prism_layer in H. destruct H as [_ H]. apply C20_rejects_exactly_full_turns in H; [|assumption|assumption]. rewrite overlapping_even by (assumption || lia). lra.
Qed.
Print Assumptions C20_accepted_layers_do_not_overlap.
Theorem C20_overlap_is_more_than_a_turn x0 s n : (1 <= n)%nat -> 0 < s -> overlapping (even_axis x0 s n) s <-> 360 < INR n * s.
Proof. exact (overlapping_even x0 s n). Qed.
Print Assumptions C20_overlap_is_more_than_a_turn.
(** The exact full globe does not overlap but is rejected; descending longitudes overlap but are accepted. *)
Theorem C20_full_globe_rejected_refuted : exists x0 s n, (2 <= n)%nat /\ 0 < s /\ ~ overlapping (even_axis x0 s n) s /\ check_overlap (even_axis x0 s n) = Raise ValueError.
Proof.
  exists 45, 90, 4%nat. split; [lia|]. split; [lra|]. split; [rewrite overlapping_even by (lia || lra); cbn; lra|]. rewrite check_overlap_even by (lia || lra). cbn. destruct (Rle_dec _ _); [reflexivity|lra].
Qed.
Print Assumptions C20_full_globe_rejected_refuted.
Theorem C20_descending_overlap_accepted_refuted : exists longitude s, regular longitude /\ step longitude = Ok s /\ overlapping longitude s /\ check_overlap longitude = Ok tt.
Proof.
  exists (even_axis 360 (-90) 5), (-90). split; [apply even_regular; lia|]. split; [rewrite step_ok, even_step by (rewrite ?even_length; lia); reflexivity|]. split.
  - exists 0%nat, 4%nat, (-1)%Z, 360. rewrite even_length, !even_nth by lia. split; [lia|]. split; [lia|]. split; [right; discriminate|]. cbn [INR].
    replace (Rabs (-90)) with 90 by (rewrite Rabs_left; lra). split.
    + replace (360 - (360 + 0 * -90)) with 0 by ring. rewrite Rabs_R0. lra.
    + replace (360 + 360 * -1 - (360 + (1 + 1 + 1 + 1) * -90)) with 0 by ring. rewrite Rabs_R0. lra.
  - unfold check_overlap. rewrite step_ok, even_step by (rewrite ?even_length; lia). cbn [bind]. unfold list_min, list_max, even_axis, range. cbn [Nat.sub seq map tl hd fold_left INR].
    repeat (match goal with |- context[Rmax ?a ?b] => rewrite (Rmax_left a b) by lra | |- context[Rmin ?a ?b] => rewrite (Rmin_right a b) by lra end).
    destruct (Rleb_spec (360 - -90) (360 + 0 * -90 - (360 + (1 + 1 + 1 + 1) * -90))); [lra|reflexivity].
Qed.
Print Assumptions C20_descending_overlap_accepted_refuted.
Example C20_example : overlapping (even_axis 0 100 4) 100 /\ ~ overlapping (even_axis 0 1 359) 1.
Proof. rewrite !overlapping_even by (lia || lra). split; [cbn; lra|]. rewrite INR_IZR_INZ. change (Z.of_nat 359) with 359%Z. lra. Qed.

(** C21. *)
Theorem C21_sum_over_the_cells choclo l sh ps field component factor name dens th :
  regular (Lx l) -> regular (Ly l) -> wf_layer l -> lookup name (Lvars l) = Some dens -> shaped dens (length (Ly l)) (length (Lx l)) ->
  prod_shape sh = length ps -> In (field, (component, factor)) prism_fields ->
  exists warned, prism_layer_gravity choclo l (coords_of sh ps) field name th
    = Ok (Arr sh (map (fun p => sum_over (layer_prisms l dens (threshold_of th)) (fun pd => factor * one_prism choclo component p pd)) ps), warned)
  /\ (warned = true <-> exists k j, node l k j /\ elt dens k j = NaN).
Proof.
  intros Rx Ry W Ld Wd H F. eexists. split; [now apply layer_gravity_value|]. rewrite (nan_density_spec _ _ _ Wd). unfold node. split; intros (k & j & K); exists k, j; tauto.
Qed.
Print Assumptions C21_sum_over_the_cells.
Theorem C21_equals_prism_gravity choclo l sh ps field component factor name dens th disable :
  regular (Lx l) -> regular (Ly l) -> wf_layer l -> lookup name (Lvars l) = Some dens -> shaped dens (length (Ly l)) (length (Lx l)) ->
  prod_shape sh = length ps -> In (field, (component, factor)) prism_fields -> 0 <= threshold_of th -> 0 < first_step (Lx l) -> 0 < first_step (Ly l) ->
  linear_kernel (choclo component) -> zero_without_volume (choclo component) ->
  let pds := layer_prisms l dens (threshold_of th) in
  exists r w w', prism_layer_gravity choclo l (coords_of sh ps) field name th = Ok (r, w) /\
    prism_gravity choclo (coords_of sh ps) (map fst pds) (arr1 (map snd pds)) field disable = Ok (r, w').
Proof. exact (layer_gravity_as_prisms choclo l sh ps field component factor name dens th disable). Qed.
Print Assumptions C21_equals_prism_gravity.
Theorem C21_uses_exactly_these_prisms l dens th pr d : In (pr, d) (layer_prisms l dens th) <->
  exists k j b t, node l k j /\ elt (Lbottom l) k j = Fin b /\ elt (Ltop l) k j = Fin t /\ elt dens k j = Fin d /\ d <> 0 /\ th <= t - b /\
    pr = Prism (xat (Lx l) j - first_step (Lx l) / 2) (xat (Lx l) j + first_step (Lx l) / 2) (xat (Ly l) k - first_step (Ly l) / 2) (xat (Ly l) k + first_step (Ly l) / 2) b t.
Proof.
  split.
  - intros H. apply layer_prisms_in in H. destruct H as (k & j & N & H). unfold node_term in H.
    destruct (elt (Lbottom l) k j) as [|b] eqn:Eb; [destruct H|]. destruct (elt (Ltop l) k j) as [|t] eqn:Et; [destruct H|]. destruct (elt dens k j) as [|d'] eqn:Ed; [destruct H|].
    destruct (Rlt_dec (t - b) th); [destruct H|]. destruct (Req_EM_T d' 0); [destruct H|]. destruct H as [[= <- <-]|[]]. exists k, j, b, t. repeat split; try assumption; try apply N; lra.
  - intros (k & j & b & t & N & Eb & Et & Ed & Hd & Ht & ->). rewrite layer_prisms_terms. apply in_flat_map. exists (k, j). split; [now apply nodes_in|]. cbn [fst snd].
    unfold node_term. rewrite Eb, Et, Ed. destruct (Rlt_dec (t - b) th); [lra|]. destruct (Req_EM_T d 0); [contradiction|]. now left.
Qed.
Print Assumptions C21_uses_exactly_these_prisms.
Theorem C21_missing_density choclo l sh ps field component factor name th :
  regular (Lx l) -> regular (Ly l) -> lookup name (Lvars l) = None -> In (field, (component, factor)) prism_fields ->
  prism_layer_gravity choclo l (coords_of sh ps) field name th = Raise KeyError.
Proof. exact (layer_gravity_no_density choclo l sh ps field component factor name th). Qed.
Print Assumptions C21_missing_density.
(** With easting in descending order all prisms are inverted and kernels of the documented form (alternating
    sum over vertices) change sign: a positive density gives a negative potential. *)
Definition descending_layer : layer := Layer (even_axis 1 (-1) 2) (even_axis 0 1 2) [[Fin 1; Fin 1]; [Fin 1; Fin 1]] [[Fin 0; Fin 0]; [Fin 0; Fin 0]] [("density", [[Fin 1; Fin 1]; [Fin 1; Fin 1]])].
Theorem C21_descending_easting_refuted : exists choclo f p, choclo = (fun _ : string => vertex_kernel f) /\
  (forall pr d, valid_prism pr -> 0 <= d -> 0 <= vertex_kernel f (fst3 p) (snd3 p) (thd3 p) pr d) /\
  exists v, prism_layer_gravity choclo descending_layer (coords_of [] [p]) "potential" "density" None = Ok (Arr [] [v], false) /\ v < 0.
Proof.
  exists (fun _ => vertex_kernel (fun x y z => x * y * z)), (fun x y z => x * y * z), (0, 0, 0). split; [reflexivity|]. assert (0 < newton_G) by (unfold newton_G; lra). split.
  - intros [w e s n b t] d (H1 & H2 & H3) Hd. unfold vertex_kernel. cbn in *.
    match goal with |- 0 <= newton_G * d * ?x => replace x with ((e - w) * (n - s) * (t - b)) by ring end.
    apply Rmult_le_pos; [nra|]. apply Rmult_le_pos; [nra|lra].
  - rewrite (layer_gravity_value _ descending_layer [] [(0, 0, 0)] "potential" "gravity_pot" 1 "density" [[Fin 1; Fin 1]; [Fin 1; Fin 1]] None);
      [|apply even_regular; lia|apply even_regular; lia| |reflexivity|apply has_shape_spec; reflexivity|reflexivity|left; reflexivity].
    2: { split; [|split]; [apply has_shape_spec; reflexivity|apply has_shape_spec; reflexivity|]. intros name v [[= <- <-]|[]]. apply has_shape_spec. reflexivity. }
    cbn [map]. eexists. split; [reflexivity|].
    unfold layer_prisms, nodes, descending_layer. cbn [Lx Ly]. rewrite !even_length. unfold range. cbn [Nat.sub seq flat_map map app fst snd Lbottom Ltop elt nth threshold_of].
    unfold elt. cbn [nth]. destruct (Rlt_dec (1 - 0) 0); [lra|]. destruct (Req_EM_T 1 0); [lra|]. cbn [app]. unfold sum_over, cell_at. cbn [map sumR cell_w cell_e cell_s cell_n Lx Ly].
    rewrite !even_step, !even_nth by lia. unfold one_prism, vertex_kernel, fst3, snd3, thd3. cbn [fst snd p_west p_east p_south p_north p_bottom p_top INR]. nra.
Qed.
Print Assumptions C21_descending_easting_refuted.
Example C21_example : In (Prism (-(1/2)) (1/2) (-(1/2)) (1/2) 0 2, 3)
  (layer_prisms (Layer (even_axis 0 1 2) (even_axis 0 1 2) [[Fin 2; NaN]; [Fin 1; Fin 1]] [[Fin 0; Fin 0]; [Fin 1; NaN]] []) [[Fin 3; Fin 4]; [NaN; Fin 0]] 0).
Proof.
  apply C21_uses_exactly_these_prisms. exists 0%nat, 0%nat, 0, 2. cbn [Lx Ly Lbottom Ltop]. rewrite !even_step, !even_nth by lia. cbn [INR].
  split; [split; cbn; lia|]. split; [reflexivity|]. split; [reflexivity|]. split; [reflexivity|]. split; [apply Rgt_not_eq; lra|]. split; [lra|]. f_equal; lra.
Qed.

(** C22. *)
Theorem C22_evaluates_tesseroid_gravity l c field name dens th radial disable :
  regular (Lx l) -> regular (Ly l) -> wf_layer l -> lookup name (Lvars l) = Some dens -> shaped dens (length (Ly l)) (length (Lx l)) ->
  let tds := layer_tesseroids l dens th in
  exists warned, tesseroid_layer_gravity l c field name th radial disable
    = (do r <- tesseroid_gravity c (map fst tds) (arr1 (map snd tds)) field radial disable; Ok (r, warned))
  /\ (warned = true <-> exists k j b t, node l k j /\ elt (Lbottom l) k j = Fin b /\ elt (Ltop l) k j = Fin t /\ elt dens k j = NaN).
Proof. intros Rx Ry W Ld Wd tds. eexists. split; [now apply tesseroid_layer_ok|]. apply nan_density_cell_spec. Qed.
Print Assumptions C22_evaluates_tesseroid_gravity.
Theorem C22_uses_exactly_these_tesseroids l dens th t d : In (t, d) (layer_tesseroids l dens th) <->
  exists k j, node l k j /\ elt (Lbottom l) k j = Fin (bottom t) /\ elt (Ltop l) k j = Fin (top t) /\ elt dens k j = Fin d /\ (forall x, th = Some x -> x <= top t - bottom t) /\
    west t = xat (Lx l) j - first_step (Lx l) / 2 /\ east t = xat (Lx l) j + first_step (Lx l) / 2 /\ south t = xat (Ly l) k - first_step (Ly l) / 2 /\ north t = xat (Ly l) k + first_step (Ly l) / 2.
Proof.
  unfold layer_tesseroids. rewrite in_flat_map. split.
  - intros ([k j] & N & H). apply nodes_in in N. cbn [fst snd] in H.
    destruct (elt (Lbottom l) k j) as [|b] eqn:Eb; [destruct H|]. destruct (elt (Ltop l) k j) as [|tt] eqn:Et; [destruct H|]. destruct (elt dens k j) as [|d'] eqn:Ed; [destruct H|].
    destruct (thick_enough th (tt - b)) eqn:Eth; [|destruct H]. destruct H as [[= <- <-]|[]]. exists k, j. cbn [bottom top west east south north cell_at cell_w cell_e cell_s cell_n].
    repeat split; try assumption; try apply N. intros x ->. cbn [thick_enough] in Eth. destruct (Rlt_dec _ _); [discriminate|lra].
  - intros (k & j & N & Eb & Et & Ed & Hth & E1 & E2 & E3 & E4). exists (k, j). split; [now apply nodes_in|]. cbn [fst snd]. rewrite Eb, Et, Ed.
    replace (thick_enough th (top t - bottom t)) with true.
    + left. destruct t as [w e s n b tt]. cbn in *. subst. reflexivity.
    + destruct th as [x|]; [|reflexivity]. cbn. specialize (Hth x eq_refl). destruct (Rlt_dec _ _); [lra|reflexivity].
Qed.
Print Assumptions C22_uses_exactly_these_tesseroids.
Theorem C22_missing_density l c field name th radial disable : regular (Lx l) -> regular (Ly l) -> wf_layer l -> lookup name (Lvars l) = None ->
  tesseroid_layer_gravity l c field name th radial disable = Raise KeyError.
Proof. exact (tesseroid_layer_no_density l c field name th radial disable). Qed.
Print Assumptions C22_missing_density.
Example C22_example : let l := Layer (even_axis 0 1 2) (even_axis 0 1 2) [[Fin 2; NaN]; [Fin 1; Fin 1]] [[Fin 0; Fin 0]; [Fin 1; NaN]] [("density", [[Fin 3; Fin 4]; [NaN; Fin 0]])] in
  wf_layer l /\ map snd (layer_tesseroids l [[Fin 3; Fin 4]; [NaN; Fin 0]] None) = [3].
Proof.
  split; [|reflexivity]. split; [|split]; [apply has_shape_spec; reflexivity|apply has_shape_spec; reflexivity|]. intros name v [[= <- <-]|[]]. apply has_shape_spec. reflexivity.
Qed.

(** C75. *)
Theorem C75_pyvista_cells_and_properties l drop (g : nat * nat -> bool) :
  regular (Lx l) -> regular (Ly l) -> wf_layer l ->
  (forall kj, In kj (nodes l) -> g kj = true <-> drop = false \/ exists b t, elt (Lbottom l) (fst kj) (snd kj) = Fin b /\ elt (Ltop l) (fst kj) (snd kj) = Fin t /\ b <> t) ->
  to_pyvista l drop = Ok (map (fun kj => cell_at l (fst kj) (snd kj)) (filter g (nodes l)),
                          map (fun nv => (fst nv, map (fun kj => elt (snd nv) (fst kj) (snd kj)) (filter g (nodes l)))) (Lvars l)).
Proof. exact (to_pyvista_ok l drop g). Qed.
Print Assumptions C75_pyvista_cells_and_properties.
Example C75_example : let l := Layer (even_axis 0 1 2) (even_axis 0 1 2) [[Fin 2; NaN]; [Fin 1; Fin 1]] [[Fin 0; Fin 0]; [Fin 1; NaN]] [] in
  forall kj, In kj (nodes l) -> (fun kj => match kj with (0%nat, 0%nat) => true | _ => false end) kj = true <->
    true = false \/ exists b t, elt (Lbottom l) (fst kj) (snd kj) = Fin b /\ elt (Ltop l) (fst kj) (snd kj) = Fin t /\ b <> t.
Proof.
  intros l [k j] H. apply nodes_in in H. destruct H as [Hk Hj]. cbn in Hk, Hj. cbn [fst snd]. unfold l, elt. cbn [Lbottom Ltop].
  destruct k as [|[|k]]; [| |lia]; (destruct j as [|[|j]]; [| |lia]); cbn [nth]; split; intros K; try discriminate K; try reflexivity.
  - right. exists 0, 2. repeat split. apply Rlt_not_eq. lra.
  - destruct K as [K|(b & t & _ & K & _)]; discriminate K.
  - destruct K as [K|(b & t & K1 & K2 & K3)]; [discriminate K|]. congruence.
  - destruct K as [K|(b & t & K & _)]; discriminate K.
Qed.
