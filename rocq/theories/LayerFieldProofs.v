From Coq Require Import Permutation.
From Verif Require Import Base BaseFacts NumPy NumPyFacts DistanceModel PointGravityModel PointGravitySpec PointGravityProofs
  TesseroidModel TesseroidProofs PrismModel PrismSpec PrismProofs MagneticProofs PrismFieldProofs LayerModel LayerSpec LayerProofs.
Local Open Scope string_scope. Local Open Scope list_scope. Local Open Scope R_scope.

(** ** The overlap check *)
Lemma check_overlap_even x0 s n : (2 <= n)%nat -> 0 < s ->
  check_overlap (even_axis x0 s n) = if Rle_dec 360 (INR n * s) then Raise ValueError else Ok tt.
Proof.
  intros Hn Hs. unfold check_overlap. rewrite step_ok by (rewrite even_length; lia). cbn [bind]. rewrite even_step by lia. rewrite even_min, even_max by (lia || lra).
  destruct (Rleb_spec (360 - s) (x0 + (INR n - 1) * s - x0)); destruct (Rle_dec 360 (INR n * s)); try reflexivity; exfalso; nra.
Qed.
Lemma floor_below s n : 0 < s -> 360 < INR n * s -> exists q, (q < n)%nat /\ INR q * s <= 360 < (INR q + 1) * s.
Proof.
  intros Hs. induction n as [|n IH]; intros H; [cbn in H; lra|]. rewrite S_INR in H. destruct (Rle_lt_dec (INR n * s) 360) as [H1|H1].
  - exists n. split; [lia|lra].
  - destruct IH as (q & Hq & K); [lra|]. exists q. split; [lia|assumption].
Qed.
Lemma overlapping_even x0 s n : (1 <= n)%nat -> 0 < s -> overlapping (even_axis x0 s n) s <-> 360 < INR n * s.
Proof.
  intros Hn Hs. split.
  - intros (j & j' & z & lon & Hj & Hj' & Hd & H1 & H2). rewrite even_length in *. rewrite (Rabs_pos_eq s) in * by lra. rewrite even_nth in * by assumption.
    apply Rabs_def2 in H1. apply Rabs_def2 in H2. pose proof (INR_bounds j n Hj) as Bj. pose proof (INR_bounds j' n Hj') as Bj'.
    destruct (Z.lt_trichotomy z 0) as [Hz|[Hz|Hz]].
    + assert (IZR z <= -1) by (apply IZR_le; lia). nra.
    + subst z. destruct Hd as [Hd|Hd]; [|congruence]. exfalso. apply Hd. apply (even_disjoint s j j' (lon - x0)); [assumption|lra|].
      replace (360 * IZR 0) with 0 in H2 by (cbn; ring). lra.
    + assert (1 <= IZR z) by (apply IZR_le; lia). nra.
  - intros H. destruct (floor_below s n Hs H) as (q & Hq & H1 & H2). set (r := 360 - INR q * s). assert (0 <= r < s) by (unfold r; lra).
    exists 0%nat, q, 1%Z, (x0 - r / 2). rewrite even_length, (Rabs_pos_eq s) by lra. rewrite !even_nth by lia. cbn [INR].
    split; [lia|]. split; [assumption|]. split; [right; discriminate|]. split.
    + replace (x0 - r / 2 - (x0 + 0 * s)) with (- (r / 2)) by ring. rewrite Rabs_Ropp, Rabs_pos_eq; lra.
    + replace (x0 - r / 2 + 360 * 1 - (x0 + INR q * s)) with (r / 2) by (unfold r; field). rewrite Rabs_pos_eq; lra.
Qed.

(** ** Loops that add to one element *)
Lemma upd_same (l : list R) i : upd l i (nth i l 0) = l.
Proof. revert i. induction l as [|x l IH]; intros [|i]; cbn; try reflexivity. now rewrite IH. Qed.
Lemma upd_upd {A} (l : list A) i x y : upd (upd l i x) i y = upd l i y.
Proof. revert i. induction l as [|z l IH]; intros [|i]; cbn; try reflexivity. now rewrite IH. Qed.
Lemma for_add {I} (l : list I) body i (c : I -> R) :
  (forall x result, In x l -> (i < length result)%nat -> body x result = Ok (upd result i (nth i result 0 + c x))) ->
  forall result, (i < length result)%nat -> for_ l body result = Ok (upd result i (nth i result 0 + sum_over l c)).
Proof.
  induction l as [|x l IH]; intros H result Hi; cbn [for_].
  - unfold sum_over. cbn. rewrite Rplus_0_r, upd_same. reflexivity.
  - rewrite H by (simpl; auto). cbn [bind]. rewrite IH; [|intros; apply H; simpl; auto|now rewrite length_upd].
    rewrite upd_upd, nth_upd_eq by assumption. rewrite sum_over_cons. do 2 f_equal. ring.
Qed.
Lemma for_each (body : nat -> list R -> res (list R)) (c : nat -> R) n :
  (forall i result, (i < n)%nat -> length result = n -> body i result = Ok (upd result i (nth i result 0 + c i))) ->
  for_ (range 0 n) body (repeat 0 n) = Ok (map c (range 0 n)).
Proof.
  intros H. unfold range. rewrite Nat.sub_0_r.
  enough (K : forall k a pre, length pre = a -> (a + k = n)%nat -> for_ (seq a k) body (pre ++ repeat 0 k) = Ok (pre ++ map c (seq a k))) by (apply (K n 0%nat []); reflexivity || lia).
  induction k as [|k IH]; intros a pre L E; cbn [seq for_ repeat map]; [reflexivity|].
  rewrite H; [|lia|rewrite app_length; cbn [length]; rewrite repeat_length; lia]. cbn [bind].
  replace (upd (pre ++ 0 :: repeat 0 k) a (nth a (pre ++ 0 :: repeat 0 k) 0 + c a)) with ((pre ++ [c a]) ++ repeat 0 k).
  - rewrite IH; [rewrite <- app_assoc; reflexivity|rewrite app_length; cbn; lia|lia].
  - rewrite app_nth2, L, Nat.sub_diag by lia. cbn [nth]. rewrite Rplus_0_l. rewrite upd_app_right, L, Nat.sub_diag by lia. cbn [upd]. now rewrite <- app_assoc.
Qed.

(** ** Gravity of a layer of prisms *)
Definition node_term (l : layer) (dens : list (list num)) threshold (k j : nat) : list (prism * R) :=
  match elt (Lbottom l) k j, elt (Ltop l) k j, elt dens k j with
  | Fin b, Fin t, Fin d =>
      if Rlt_dec (t - b) threshold then [] else if Req_EM_T d 0 then []
      else let c := cell_at l k j in [(Prism (cell_w c) (cell_e c) (cell_s c) (cell_n c) b t, d)]
  | _, _, _ => []
  end.
Lemma get2_elt g n m k j : shaped g n m -> (k < n)%nat -> (j < m)%nat -> get2 g k j = Ok (elt g k j).
Proof.
  intros [L H] Hk Hj. unfold get2, elt. rewrite (aget_ok g k []) by lia. cbn [bind]. apply aget_ok. rewrite H; [assumption|]. apply nth_In. lia.
Qed.
Lemma in_combine_range {A} (l : list A) d i x : In (i, x) (combine (range 0 (length l)) l) -> (i < length l)%nat /\ x = nth i l d.
Proof.
  intros H. pose proof (in_combine_l _ _ _ _ H) as Hi. apply range_in in Hi. split; [lia|].
  apply (In_nth _ _ (0%nat, d)) in H. destruct H as (q & Hq & E). rewrite combine_nth in E by (unfold range; rewrite seq_length; lia).
  injection E as E1 E2. rewrite combine_length in Hq. unfold range in *. rewrite seq_length in Hq. rewrite seq_nth in E1 by lia. cbn in E1. subst q. now symmetry.
Qed.
Lemma sum_combine_range {A} (l : list A) (f : nat -> R) : sum_over (combine (range 0 (length l)) l) (fun ix => f (fst ix)) = sum_over (range 0 (length l)) f.
Proof.
  rewrite <- (sum_over_map fst _ f). f_equal. f_equal. unfold range. rewrite Nat.sub_0_r. clear f. generalize 0%nat.
  induction l as [|x l IH]; intros a; [reflexivity|]. cbn. f_equal. apply IH.
Qed.
Lemma sum_swap {A B} (l1 : list A) (l2 : list B) f : sum_over l1 (fun a => sum_over l2 (fun b => f a b)) = sum_over l2 (fun b => sum_over l1 (fun a => f a b)).
Proof.
  induction l1 as [|a l1 IH].
  - symmetry. apply sum_over_zero. reflexivity.
  - rewrite sum_over_cons, IH. rewrite <- sum_over_plus. apply sum_over_ext. intros b _. now rewrite sum_over_cons.
Qed.
Lemma sum_flat_map {A B} (g : A -> list B) l f : sum_over (flat_map g l) f = sum_over l (fun a => sum_over (g a) f).
Proof. induction l as [|a l IH]; [reflexivity|]. cbn [flat_map]. now rewrite sum_over_app, sum_over_cons, IH. Qed.

Lemma layer_prisms_terms l dens th : layer_prisms l dens th = flat_map (fun kj => node_term l dens th (fst kj) (snd kj)) (nodes l).
Proof. reflexivity. Qed.
Lemma sum_layer_prisms l dens th f : sum_over (layer_prisms l dens th) f
  = sum_over (range 0 (length (Lx l))) (fun j => sum_over (range 0 (length (Ly l))) (fun k => sum_over (node_term l dens th k j) f)).
Proof.
  rewrite layer_prisms_terms, sum_flat_map. unfold nodes. rewrite sum_flat_map. rewrite sum_swap. apply sum_over_ext. intros k _. now rewrite sum_over_map.
Qed.

Lemma layer_body_ok (k0 : prism_kernel R) p l dens th k j i result : (i < length result)%nat ->
  layer_body k0 (Ok (fst3 p)) (Ok (snd3 p)) (Ok (thd3 p)) (xat (Lx l) j - first_step (Lx l) / 2) (xat (Lx l) j + first_step (Lx l) / 2) (xat (Ly l) k) (first_step (Ly l) / 2) th
    (elt dens k j) (elt (Lbottom l) k j) (elt (Ltop l) k j) i result
  = Ok (upd result i (nth i result 0 + sum_over (node_term l dens th k j) (fun pd => k0 (fst3 p) (snd3 p) (thd3 p) (fst pd) (snd pd)))).
Proof.
  intros Hi. assert (Z : Ok result = Ok (upd result i (nth i result 0 + sum_over [] (fun pd : prism * R => k0 (fst3 p) (snd3 p) (thd3 p) (fst pd) (snd pd)))))
    by (unfold sum_over; cbn; rewrite Rplus_0_r, upd_same; reflexivity).
  unfold layer_body, node_term, is_zero_or_nan. destruct (elt dens k j) as [|d].
  { cbn [neqb isnan orb]. destruct (elt (Lbottom l) k j), (elt (Ltop l) k j); exact Z. }
  cbn [neqb isnan]. rewrite orb_false_r. destruct (Reqb_spec d 0) as [->|Hd].
  { destruct (elt (Lbottom l) k j); [exact Z|]. destruct (elt (Ltop l) k j); [exact Z|]. destruct (Rlt_dec _ _); [exact Z|]. destruct (Req_EM_T 0 0); [exact Z|congruence]. }
  destruct (elt (Ltop l) k j) as [|t], (elt (Lbottom l) k j) as [|b]; cbn [nop nltb isnan orb]; try exact Z.
  destruct (Rltb_spec (t - b) th) as [H|H]; destruct (Rlt_dec (t - b) th); try contradiction; [exact Z|].
  destruct (Req_EM_T d 0); [contradiction|]. cbn [bind]. rewrite (aget_ok result i 0) by assumption. cbn [bind]. rewrite aset_ok by assumption.
  unfold sum_over. cbn. rewrite Rplus_0_r. reflexivity.
Qed.

Lemma forward_layer_ok (k0 : prism_kernel R) ps l dens th : regular (Lx l) -> regular (Ly l) -> wf_layer l -> shaped dens (length (Ly l)) (length (Lx l)) ->
  forward_gravity_prism_layer (map fst3 ps, map snd3 ps, map thd3 ps) (Lx l) (Ly l) (Lbottom l) (Ltop l) dens k0 (repeat 0 (length ps)) th
  = Ok (map (fun p => sum_over (layer_prisms l dens th) (fun pd => k0 (fst3 p) (snd3 p) (thd3 p) (fst pd) (snd pd))) ps).
Proof.
  intros [Lx2 _] [Ly2 _] (Wt & Wb & _) Wd. unfold forward_gravity_prism_layer.
  rewrite !(aget_ok (Lx l) _ 0), !(aget_ok (Ly l) _ 0) by lia. cbn [bind]. rewrite map_length.
  erewrite for_each.
  2: { intros i result Hi Lr.
       apply (for_add _ _ i (fun jc => sum_over (range 0 (length (Ly l))) (fun k => sum_over (node_term l dens th k (fst jc))
          (fun pd => k0 (fst3 (nth i ps p0)) (snd3 (nth i ps p0)) (thd3 (nth i ps p0)) (fst pd) (snd pd))))); [|lia].
       intros [j x] r1 Hj H1. apply (in_combine_range _ 0) in Hj. destruct Hj as [Hj ->]. cbn [fst snd].
       rewrite <- (sum_combine_range (Ly l)).
       apply (for_add _ _ i (fun kc => sum_over (node_term l dens th (fst kc) j) (fun pd => k0 (fst3 (nth i ps p0)) (snd3 (nth i ps p0)) (thd3 (nth i ps p0)) (fst pd) (snd pd)))); [|assumption].
       intros [k y] r2 Hk H2. apply (in_combine_range _ 0) in Hk. destruct Hk as [Hk ->]. cbn [fst snd].
       rewrite (get2_elt _ _ _ _ _ Wd Hk Hj), (get2_elt _ _ _ _ _ Wb Hk Hj), (get2_elt _ _ _ _ _ Wt Hk Hj). cbn [bind].
       destruct (get_point ps i Hi) as (-> & -> & ->). now apply layer_body_ok. }
  f_equal. rewrite (list_as_range ps p0) at 2. rewrite map_map. apply map_ext. intros i. rewrite sum_layer_prisms.
  rewrite (sum_combine_range (Lx l) (fun j => sum_over (range 0 (length (Ly l))) (fun k => sum_over (node_term l dens th k j) _))). reflexivity.
Qed.

Lemma layer_gravity_value choclo l sh ps field component factor name dens th :
  regular (Lx l) -> regular (Ly l) -> wf_layer l -> lookup name (Lvars l) = Some dens -> shaped dens (length (Ly l)) (length (Lx l)) ->
  prod_shape sh = length ps -> In (field, (component, factor)) prism_fields ->
  prism_layer_gravity choclo l (coords_of sh ps) field name th
  = Ok (Arr sh (map (fun p => sum_over (layer_prisms l dens (threshold_of th)) (fun pd => factor * one_prism choclo component p pd)) ps), existsb (existsb isnan) dens).
Proof.
  intros Rx Ry W Ld Wd H F. destruct (field_meaning _ _ _ F) as (F1 & F2). unfold prism_layer_gravity, coords_of. rewrite F1.
  rewrite (proj2 (check_regular_ok _ _)) by auto. cbn [bind]. rewrite broadcast3_same by reflexivity. cbn [shape bind ravel data]. rewrite Ld, H.
  rewrite forward_layer_ok by assumption. cbn [bind]. rewrite prism_units_map, map_map. do 3 f_equal. apply map_ext. intros p. rewrite <- sum_over_scal. rewrite F2. reflexivity.
Qed.

(** ** Missing density; agreement with prism_gravity *)
Lemma layer_gravity_no_density choclo l sh ps field component factor name th :
  regular (Lx l) -> regular (Ly l) -> lookup name (Lvars l) = None -> In (field, (component, factor)) prism_fields ->
  prism_layer_gravity choclo l (coords_of sh ps) field name th = Raise KeyError.
Proof.
  intros Rx Ry Ld F. destruct (field_meaning _ _ _ F) as (F1 & _). unfold prism_layer_gravity, coords_of. rewrite F1.
  rewrite (proj2 (check_regular_ok _ _)) by auto. cbn [bind]. rewrite broadcast3_same by reflexivity. cbn [bind]. now rewrite Ld.
Qed.
Lemma layer_prisms_in l dens th pd : In pd (layer_prisms l dens th) -> exists k j, node l k j /\ In pd (node_term l dens th k j).
Proof.
  rewrite layer_prisms_terms. rewrite in_flat_map. intros ([k j] & H1 & H2). exists k, j. split; [now apply nodes_in|assumption].
Qed.
Lemma layer_prisms_valid l dens th : 0 <= th -> 0 < first_step (Lx l) -> 0 < first_step (Ly l) -> Forall valid_prism (map fst (layer_prisms l dens th)).
Proof.
  intros H0 Hx Hy. apply Forall_forall. intros p H. apply in_map_iff in H. destruct H as (pd & <- & H). apply layer_prisms_in in H. destruct H as (k & j & _ & H).
  unfold node_term in H. destruct (elt (Lbottom l) k j) as [|b]; [destruct H|]. destruct (elt (Ltop l) k j) as [|t]; [destruct H|]. destruct (elt dens k j) as [|d]; [destruct H|].
  destruct (Rlt_dec (t - b) th); [destruct H|]. destruct (Req_EM_T d 0); [destruct H|]. destruct H as [<-|[]]. unfold valid_prism. cbn. lra.
Qed.
Lemma layer_gravity_as_prisms choclo l sh ps field component factor name dens th disable :
  regular (Lx l) -> regular (Ly l) -> wf_layer l -> lookup name (Lvars l) = Some dens -> shaped dens (length (Ly l)) (length (Lx l)) ->
  prod_shape sh = length ps -> In (field, (component, factor)) prism_fields -> 0 <= threshold_of th -> 0 < first_step (Lx l) -> 0 < first_step (Ly l) ->
  linear_kernel (choclo component) -> zero_without_volume (choclo component) ->
  let pds := layer_prisms l dens (threshold_of th) in
  exists r w w', prism_layer_gravity choclo l (coords_of sh ps) field name th = Ok (r, w) /\
    prism_gravity choclo (coords_of sh ps) (map fst pds) (arr1 (map snd pds)) field disable = Ok (r, w').
Proof.
  intros Rx Ry W Ld Wd H F T Hx Hy K1 K2 pds. rewrite (layer_gravity_value choclo l sh ps field component factor name dens th) by assumption.
  destruct (gravity_over_all choclo sh ps pds field component factor disable H F) as (w & E); [right; now apply layer_prisms_valid|assumption|assumption|].
  do 3 eexists. split; [reflexivity|]. exact E.
Qed.
Lemma nan_density_spec dens n m : shaped dens n m -> existsb (existsb isnan) dens = true <-> exists k j, (k < n)%nat /\ (j < m)%nat /\ elt dens k j = NaN.
Proof.
  intros [L H]. rewrite existsb_exists. split.
  - intros (row & Hr & E). apply existsb_exists in E. destruct E as (x & Hx & E). destruct x; [|discriminate].
    pose proof (H row Hr) as Lr. apply (In_nth _ _ []) in Hr. destruct Hr as (k & Hk & Ek). apply (In_nth _ _ NaN) in Hx. destruct Hx as (j & Hj & Ej).
    exists k, j. unfold elt. rewrite Ek, Ej. repeat split; lia.
  - intros (k & j & Hk & Hj & E). assert (Hin : In (nth k dens []) dens) by (apply nth_In; lia). exists (nth k dens []). split; [assumption|].
    apply existsb_exists. exists NaN. split; [|reflexivity]. unfold elt in E. rewrite <- E. apply nth_In. rewrite H; assumption.
Qed.

(** ** Tesseroids *)
Definition tess_node (l : layer) (dens : list (list num)) (threshold : option R) (kj : nat * nat) : list (tess * R) :=
  match elt (Lbottom l) (fst kj) (snd kj), elt (Ltop l) (fst kj) (snd kj), elt dens (fst kj) (snd kj) with
  | Fin b, Fin t, Fin d =>
      if thick_enough threshold (t - b)
      then let c := cell_at l (fst kj) (snd kj) in [(Tess (cell_w c) (cell_e c) (cell_s c) (cell_n c) b t, d)] else []
  | _, _, _ => []
  end.
Definition all_finite (l : layer) (dens : list (list num)) (kj : nat * nat) : bool :=
  (negb (isnan (elt (Ltop l) (fst kj) (snd kj))) && negb (isnan (elt (Lbottom l) (fst kj) (snd kj))) && negb (isnan (elt dens (fst kj) (snd kj))))%bool.
Definition nan_density_cell (l : layer) (dens : list (list num)) : bool :=
  existsb (fun kj => (negb (isnan (elt (Ltop l) (fst kj) (snd kj))) && negb (isnan (elt (Lbottom l) (fst kj) (snd kj))) && isnan (elt dens (fst kj) (snd kj)))%bool) (nodes l).

Lemma filter_filter {A} (f g : A -> bool) l : filter f (filter g l) = filter (fun x => andb (g x) (f x)) l.
Proof. induction l as [|x l IH]; [reflexivity|]. cbn. destruct (g x); cbn; [destruct (f x); now rewrite IH|exact IH]. Qed.
Lemma keep_mask_map2 {A B} (f : A -> B) (g : A -> bool) (l : list A) x m : x = map f l -> m = map g l -> keep_mask x m = Ok (map f (filter g l)).
Proof. intros -> ->. apply keep_mask_map. Qed.

Lemma nonans_mask_ok l dens : wf_layer l -> shaped dens (length (Ly l)) (length (Lx l)) ->
  nonans_mask l dens = Ok (map (all_finite l dens) (nodes l), nan_density_cell l dens).
Proof.
  intros (Wt & Wb & _) Wd. unfold nonans_mask. rewrite (ravel2_elt _ _ _ Wt), (ravel2_elt _ _ _ Wb), (ravel2_elt _ _ _ Wd). fold (nodes l). rewrite !map_map.
  rewrite np_and_map. cbn [bind]. rewrite keep_mask_map. cbn [bind]. rewrite np_and_map. cbn [bind]. do 2 f_equal.
  unfold nan_density_cell. induction (nodes l) as [|kj ks IH]; [reflexivity|]. cbn [filter existsb].
  destruct (negb (isnan (elt (Ltop l) (fst kj) (snd kj))) && negb (isnan (elt (Lbottom l) (fst kj) (snd kj))))%bool; cbn [map forallb andb orb]; [|exact IH].
  rewrite negb_andb, negb_involutive, IH. reflexivity.
Qed.

Lemma map_res_cells l dens ks : map_res finite_cell (map (fun kj => cell_at l (fst kj) (snd kj)) (filter (all_finite l dens) ks))
  = Ok (map fst (flat_map (tess_node l dens None) ks))
  /\ map_res finite_num (map (fun kj => elt dens (fst kj) (snd kj)) (filter (all_finite l dens) ks)) = Ok (map snd (flat_map (tess_node l dens None) ks)).
Proof.
  induction ks as [|kj ks [IH1 IH2]]; [split; reflexivity|]. cbn [filter flat_map].
  destruct (elt (Ltop l) (fst kj) (snd kj)) as [|t] eqn:Et, (elt (Lbottom l) (fst kj) (snd kj)) as [|b] eqn:Eb, (elt dens (fst kj) (snd kj)) as [|d] eqn:Ed.
  8: { replace (all_finite l dens kj) with true by (unfold all_finite; rewrite ?Et, ?Eb, ?Ed; reflexivity).
       replace (tess_node l dens None kj) with [(Tess (cell_w (cell_at l (fst kj) (snd kj))) (cell_e (cell_at l (fst kj) (snd kj))) (cell_s (cell_at l (fst kj) (snd kj))) (cell_n (cell_at l (fst kj) (snd kj))) b t, d)]
         by (unfold tess_node; rewrite ?Eb, ?Et, ?Ed; reflexivity).
       cbn [map map_res app fst snd]. rewrite Ed, IH1, IH2. unfold finite_cell at 1. cbn [cell_at cell_b cell_t]. rewrite Eb, Et. split; reflexivity. }
  all: replace (all_finite l dens kj) with false by (unfold all_finite; rewrite ?Et, ?Eb, ?Ed; reflexivity);
       replace (tess_node l dens None kj) with (@nil (tess * R)) by (unfold tess_node; rewrite ?Eb, ?Et, ?Ed; reflexivity); split; assumption.
Qed.
Lemma discard_thin_ok l dens th ks :
  discard_thin_tesseroids (map fst (flat_map (tess_node l dens None) ks)) (map snd (flat_map (tess_node l dens None) ks)) th
  = Ok (map fst (flat_map (tess_node l dens (Some th)) ks), map snd (flat_map (tess_node l dens (Some th)) ks)).
Proof.
  unfold discard_thin_tesseroids. rewrite !map_map. rewrite !keep_mask_map. cbn [bind].
  assert (E : filter (fun td : tess * R => negb (Rltb (top (fst td) - bottom (fst td)) th)) (flat_map (tess_node l dens None) ks) = flat_map (tess_node l dens (Some th)) ks).
  { induction ks as [|kj ks IH]; [reflexivity|]. cbn [flat_map]. rewrite filter_app, IH. f_equal. unfold tess_node.
    destruct (elt (Lbottom l) (fst kj) (snd kj)) as [|b]; [reflexivity|]. destruct (elt (Ltop l) (fst kj) (snd kj)) as [|t]; [reflexivity|]. destruct (elt dens (fst kj) (snd kj)) as [|d]; [reflexivity|].
    cbn [thick_enough filter fst top bottom]. destruct (Rltb_spec (t - b) th), (Rlt_dec (t - b) th); try contradiction; reflexivity. }
  rewrite E. reflexivity.
Qed.
Lemma tesseroid_layer_ok l c field name dens th radial disable :
  regular (Lx l) -> regular (Ly l) -> wf_layer l -> lookup name (Lvars l) = Some dens -> shaped dens (length (Ly l)) (length (Lx l)) ->
  let tds := layer_tesseroids l dens th in
  tesseroid_layer_gravity l c field name th radial disable
  = (do r <- tesseroid_gravity c (map fst tds) (arr1 (map snd tds)) field radial disable; Ok (r, nan_density_cell l dens)).
Proof.
  intros Rx Ry W Ld Wd tds. unfold tesseroid_layer_gravity. rewrite to_cells_ok by assumption. cbn [bind]. rewrite Ld. rewrite nonans_mask_ok by assumption. cbn [bind fst snd].
  rewrite keep_mask_map. cbn [bind]. rewrite (ravel2_elt _ _ _ Wd). fold (nodes l). rewrite keep_mask_map. cbn [bind].
  destruct (map_res_cells l dens (nodes l)) as [-> ->]. cbn [bind].
  change tds with (flat_map (tess_node l dens th) (nodes l)). destruct th as [th|]; [rewrite discard_thin_ok|]; reflexivity.
Qed.
Lemma nan_density_cell_spec l dens : nan_density_cell l dens = true <-> exists k j b t, node l k j /\ elt (Lbottom l) k j = Fin b /\ elt (Ltop l) k j = Fin t /\ elt dens k j = NaN.
Proof.
  unfold nan_density_cell. rewrite existsb_exists. split.
  - intros ([k j] & H & E). cbn [fst snd] in E. destruct (elt (Ltop l) k j) as [|t] eqn:Et, (elt (Lbottom l) k j) as [|b] eqn:Eb, (elt dens k j) eqn:Ed; try discriminate.
    exists k, j, b, t. apply nodes_in in H. auto.
  - intros (k & j & b & t & H & Eb & Et & Ed). exists (k, j). split; [now apply nodes_in|]. cbn [fst snd]. now rewrite Eb, Et, Ed.
Qed.
Lemma tesseroid_layer_no_density l c field name th radial disable : regular (Lx l) -> regular (Ly l) -> wf_layer l -> lookup name (Lvars l) = None ->
  tesseroid_layer_gravity l c field name th radial disable = Raise KeyError.
Proof. intros Rx Ry W Ld. unfold tesseroid_layer_gravity. rewrite to_cells_ok by assumption. cbn [bind]. now rewrite Ld. Qed.

(** ** to_pyvista *)
Lemma map_res_ok {A B} (f : A -> res B) g l : (forall x, In x l -> f x = Ok (g x)) -> map_res f l = Ok (map g l).
Proof. induction l as [|x l IH]; intros H; [reflexivity|]. cbn. rewrite H by (simpl; auto). cbn [bind]. rewrite IH by (intros; apply H; simpl; auto). reflexivity. Qed.
Lemma to_pyvista_ok l drop (g : nat * nat -> bool) :
  regular (Lx l) -> regular (Ly l) -> wf_layer l ->
  (forall kj, In kj (nodes l) -> g kj = true <-> drop = false \/ exists b t, elt (Lbottom l) (fst kj) (snd kj) = Fin b /\ elt (Ltop l) (fst kj) (snd kj) = Fin t /\ b <> t) ->
  to_pyvista l drop = Ok (map (fun kj => cell_at l (fst kj) (snd kj)) (filter g (nodes l)),
                          map (fun nv => (fst nv, map (fun kj => elt (snd nv) (fst kj) (snd kj)) (filter g (nodes l)))) (Lvars l)).
Proof.
  intros Rx Ry W G. unfold to_pyvista. rewrite to_cells_ok by assumption. cbn [bind].
  assert (M : map negb (if drop then map null_cell (map (fun kj => cell_at l (fst kj) (snd kj)) (nodes l)) else map (fun _ => false) (map (fun kj => cell_at l (fst kj) (snd kj)) (nodes l))) = map g (nodes l)).
  { destruct drop; rewrite !map_map; apply map_ext_in; intros kj Hk; specialize (G kj Hk).
    - apply eq_true_iff_eq. rewrite G. unfold null_cell, cell_at. cbn [cell_t cell_b]. split.
      + intros H. right. destruct (elt (Ltop l) (fst kj) (snd kj)) as [|t]; [discriminate|]. destruct (elt (Lbottom l) (fst kj) (snd kj)) as [|b]; [discriminate|].
        exists b, t. split; [reflexivity|]. split; [reflexivity|]. intros ->. cbn in H. destruct (Reqb_spec t t); [discriminate|congruence].
      + intros [H|(b & t & -> & -> & H)]; [discriminate|]. cbn. destruct (Reqb_spec t b); [congruence|reflexivity].
    - symmetry. apply G. now left. }
  rewrite M, keep_mask_map. cbn [bind].
  rewrite (map_res_ok _ (fun nv => (fst nv, map (fun kj => elt (snd nv) (fst kj) (snd kj)) (filter g (nodes l))))); [reflexivity|].
  intros [name v] Hv. cbn [fst snd]. destruct W as (_ & _ & W). rewrite (ravel2_elt _ _ _ (W _ _ Hv)). fold (nodes l). rewrite keep_mask_map. reflexivity.
Qed.

(** ** Constructors *)
Lemma make_grid_ok x y props l : make_grid x y props = Ok l <-> l = Layer x y [] [] props /\ forall name v, In (name, v) props -> shaped v (length y) (length x).
Proof.
  unfold make_grid. destruct (forallb _ props) eqn:E; rewrite ?forallb_forall in E; split.
  - intros [= <-]. split; [reflexivity|]. intros name v H. apply has_shape_spec. exact (E _ H).
  - intros [-> _]. reflexivity.
  - discriminate.
  - intros [_ H]. exfalso. apply not_true_iff_false in E. apply E. apply forallb_forall. intros [name v] Hv. apply has_shape_spec. exact (H _ _ Hv).
Qed.
Lemma prism_layer_built x y surface reference props l : prism_layer x y surface reference props = Ok l ->
  regular x /\ regular y /\ wf_layer l /\ Lx l = x /\ Ly l = y /\ Lvars l = props /\
  let r := reference_rows (Layer x y [] [] props) reference in
  shaped (rows surface) (length y) (length x) /\ shaped (rows r) (length y) (length x) /\
  forall k j, node l k j -> elt (Ltop l) k j = top_cell (kind surface) (elt (rows surface) k j) (elt (rows r) k j)
                         /\ elt (Lbottom l) k j = bottom_cell (kind r) (elt (rows surface) k j) (elt (rows r) k j).
Proof.
  unfold prism_layer. destruct (make_grid x y props) as [g|] eqn:G; [|discriminate]. cbn [bind]. apply make_grid_ok in G. destruct G as [-> Wv]. cbn [Lx Ly].
  destruct (check_regular_grid x y) as [[]|] eqn:C; [|discriminate]. cbn [bind]. apply check_regular_ok in C. destruct C as [Rx Ry]. intros U.
  destruct (has_shape (rows surface) (length y) (length x)) eqn:S1; [|unfold update_top_bottom in U; cbn [Lx Ly] in U; rewrite S1 in U; discriminate].
  apply has_shape_spec in S1.
  assert (S2 : shaped (rows (reference_rows (Layer x y [] [] props) reference)) (length y) (length x)).
  { destruct reference as [v|a]; cbn [reference_rows Lx Ly rows]; [apply shaped_repeat|]. apply has_shape_spec. unfold update_top_bottom in U. cbn [Lx Ly] in U.
    destruct (negb (has_shape (rows surface) _ _)); [discriminate|]. destruct (has_shape (rows a) (length y) (length x)); [reflexivity|discriminate]. }
  rewrite update_ok in U by (split; assumption). injection U as <-. cbn [Lx Ly Lvars Ltop Lbottom].
  split; [assumption|]. split; [assumption|]. split.
  { split; [|split]; cbn [Ltop Lbottom Lx Ly Lvars]; [now apply map2_shaped|now apply map2_shaped|assumption]. }
  split; [reflexivity|]. split; [reflexivity|]. split; [reflexivity|]. split; [assumption|]. split; [assumption|].
  intros k j [Hk Hj]. cbn [Lx Ly] in *. split; (eapply map2_elt; [eassumption|eassumption|assumption|assumption]).
Qed.
Lemma tesseroid_layer_is_prism_layer x y surface reference props l : tesseroid_layer x y surface reference props = Ok l <->
  prism_layer x y surface reference props = Ok l /\ check_overlap x = Ok tt.
Proof.
  unfold tesseroid_layer, prism_layer. destruct (make_grid x y props) as [g|] eqn:G; cbn [bind]; [|split; [discriminate|intros [? _]; discriminate]].
  apply make_grid_ok in G. destruct G as [-> _]. cbn [Lx Ly]. destruct (check_regular_grid x y); cbn [bind]; [|split; [discriminate|intros [? _]; discriminate]].
  destruct (check_overlap x) as [[]|]; cbn [bind]; split; try tauto; [discriminate|intros [_ ?]; discriminate].
Qed.
