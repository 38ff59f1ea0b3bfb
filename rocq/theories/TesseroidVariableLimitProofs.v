(** Lemmas for claim C106. *)
From Coq Require Import Permutation Psatz.
From Coquelicot Require Import Coquelicot.
From Verif Require Import Base BaseFacts NumPy NumPyFacts DistanceModel DistanceSpec DistanceProofs PointGravityModel PointGravitySpec PointGravityProofs
  TesseroidModel TesseroidSpec TesseroidCheckProofs TesseroidAdaptProofs TesseroidProofs TesseroidFieldProofs
  TesseroidDensityModel TesseroidDensitySpec TesseroidDensityProofs TesseroidDensityFieldProofs TesseroidFitSpec TesseroidFitProofs TesseroidFitProps
  MassBoundsProofs MassBoundsProps TesseroidLimitSpec TesseroidLimitIntProofs TesseroidLimitProofs TesseroidLimitProps TesseroidVariableLimitSpec.
Local Open Scope string_scope. Local Open Scope list_scope. Local Open Scope R_scope.
Local Opaque MAX_DISCRETIZATIONS STACK_SIZE.

(** ** Quadrature of any function over the pieces of a tesseroid *)
Definition pieces_of (field : string) (radial : bool) (p : point) (x : tess) : list tess :=
  match discretise p x (distance_size_ratio field) STACK_SIZE MAX_DISCRETIZATIONS radial with Ok out => out | Raise _ => [] end.
Definition cuttable (field : string) (radial : bool) (p : point) (x : tess) : Prop :=
  exists out, discretise p x (distance_size_ratio field) STACK_SIZE MAX_DISCRETIZATIONS radial = Ok out.

Lemma discretise_not_flat p t ratio cs cm radial out : (0 < cs)%nat -> box t -> discretise p t ratio cs cm radial = Ok out -> fat t.
Proof.
  intros Hc (B1 & B2 & B3) H. unfold discretise in H. destruct (cs + 2 * cm)%nat eqn:E; [lia|]. cbn [abs_loop] in H.
  unfold abs_step, tesseroid_dimensions, ndiv in H. cbv beta iota zeta in H.
  assert (A1 : acos 1 = 0) by apply acos_1.
  destruct (Reqb_spec (top t * acos (sin ((radians (north t) + radians (south t)) / 2) ^ 2 + cos ((radians (north t) + radians (south t)) / 2) ^ 2 * cos (radians (east t) - radians (west t)))) 0) as [E1|N1]; [discriminate|]. cbn [bind] in H.
  destruct (Reqb_spec (top t * acos (sin (radians (north t)) * sin (radians (south t)) + cos (radians (north t)) * cos (radians (south t)))) 0) as [E2|N2]; [discriminate|]. cbn [bind] in H.
  destruct (Reqb_spec (top t - bottom t) 0) as [E3|N3]; [discriminate|]. clear H.
  assert (west t <> east t). { intros Q. apply N1. rewrite Q, Rminus_eq_0, cos_0, Rmult_1_r. set (z := (radians (north t) + radians (south t)) / 2). pose proof (sin2_cos2 z) as S. unfold Rsqr in S. replace (sin z ^ 2 + cos z ^ 2) with 1 by (rewrite <- S; ring). rewrite A1. ring. }
  assert (south t <> north t). { intros Q. apply N2. rewrite Q. pose proof (sin2_cos2 (radians (north t))) as S. unfold Rsqr in S. rewrite S, A1. ring. }
  unfold fat. lra.
Qed.

Lemma quad_near field radial p f t K S rho : box t -> latitudes t -> 0 <= K -> 0 <= S ->
  (forall q, in_closed t q -> Rabs (f q) <= K) -> (forall q q', in_closed t q -> in_closed t q' -> Rabs (f q - f q') <= S * eucl (sph_position q) (sph_position q')) ->
  cuttable field radial p t -> resolved p (distance_size_ratio field) radial t rho ->
  Rabs (sum_over (pieces_of field radial p t) (fun x => sum_over (glq_sources x 1) (fun s => snd s * f (fst s))) - solid_integral f t) <= volume t * (2 * S * rho + half_lat t ^ 4 / 150 * K).
Proof.
  intros B L K0 S0 Hb Hl [out O] Hr. unfold pieces_of. rewrite O. pose proof (discretise_not_flat _ _ _ _ _ _ _ STACK_SIZE_pos B O) as Ft.
  destruct (integrand_lip f t K S B L K0 S0 Hb Hl) as (Lp & HLp & HF).
  destruct (discretise_solid f p t _ _ _ _ out Lp B HLp HF O) as [HS HP]. rewrite <- HS.
  rewrite <- (tiles_volume _ _ (discretise_tiles _ _ _ _ _ _ _ B O)).
  assert (EV : forall k, sum_over out volume * k = sum_over out (fun x => volume x * k)) by (intros k; rewrite (Rmult_comm _ k), <- sum_over_scal; apply sum_over_ext; intros; ring).
  rewrite EV. apply sum_abs_le. intros x Hx. rewrite Forall_forall in HP. specialize (HP x Hx). pose proof HP as (Bx & Px). pose proof (latitudes_part x t L HP) as Lx.
  pose proof (discretise_fat p t _ _ _ _ out Ft O) as FF. rewrite Forall_forall in FF. specialize (FF x Hx).
  pose proof (discretise_criterion p t _ _ _ _ out ltac:(unfold well, fat, latitudes in *; lra) O) as CC. rewrite Forall_forall in CC. specialize (CC x Hx).
  assert (HR : forall q, in_closed x q -> eucl (sph_position (centre x)) (sph_position q) <= rho) by (intros q Hq; apply (Hr x q HP); [exact CC|exact Hq]).
  assert (R0 : 0 <= rho) by (eapply Rle_trans; [apply eucl_nonneg|apply HR, centre_in, Bx]).
  set (c := f (centre x)). set (e := S * rho). assert (He : 0 <= e) by (apply Rmult_le_pos; assumption).
  assert (Hc : Rabs c <= K) by (apply Hb, Px, centre_in, Bx).
  assert (Hg : forall q, in_closed x q -> Rabs (f q - c) <= e).
  { intros q Hq. eapply Rle_trans; [apply Hl; apply Px; [exact Hq|now apply centre_in]|]. apply Rmult_le_compat_l; [assumption|]. rewrite eucl_sym. now apply HR. }
  pose proof (glq_near f x c e K FF Lx He Hc Hg) as G1.
  pose proof (solid_near f x c e K S Bx Lx K0 S0 (fun q Hq => Hb q (Px q Hq)) (fun q q' Hq Hq' => Hl q q' (Px q Hq) (Px q' Hq')) Hg) as G2.
  set (T := sum_over (glq_sources x 1) (fun s => snd s * f (fst s))) in *.
  pose proof (half_lat_part x t HP) as Hh. pose proof (pow_incr (half_lat x) (half_lat t) 4 Hh) as H4. pose proof (volume_nonneg x Bx Lx) as V0.
  apply Rle_trans with (volume x * (e + half_lat x ^ 4 / 150 * K) + e * volume x).
  - replace (T - solid_integral f x) with ((T - c * volume x) + - (solid_integral f x - c * volume x)) by ring.
    eapply Rle_trans; [apply Rabs_triang|]. rewrite Rabs_Ropp. apply Rplus_le_compat; assumption.
  - rewrite (Rmult_comm e), <- Rmult_plus_distr_l. apply Rmult_le_compat_l; [assumption|]. replace (2 * S * rho) with (2 * e) by (unfold e; ring).
    assert (half_lat x ^ 4 / 150 * K <= half_lat t ^ 4 / 150 * K) by (apply Rmult_le_compat_r; lra). lra.
Qed.

(** ** Layers *)
Lemma layer_part t b h : box t -> bottom t <= b -> b <= h -> h <= top t -> part_of (layer_of t (b, h)) t.
Proof. intros (B1 & B2 & B3) H1 H2 H3. split; [unfold box, layer_of; cbn; lra|]. intros [[x y] z]. cbn. lra. Qed.
Lemma pile_solid F t L : 0 <= L -> box t -> lip3 F t L -> forall l b h, pile b h l -> bottom t <= b -> h <= top t ->
  sum_over (map (layer_of t) l) (box_integral F) = box_integral F (layer_of t (b, h)).
Proof.
  intros HL B HF l b h P. induction P as [b h H|b m h l H P IH]; intros H1 H2; cbn [map].
  - rewrite sum_over_cons. unfold sum_over. cbn. ring.
  - destruct (pile_bounds _ _ _ P) as [Hm _]. rewrite sum_over_cons, IH by lra. pose proof (layer_part t b h B ltac:(lra) ltac:(lra) ltac:(lra)) as (Bl & Pl).
    pose proof (outer_ex F (layer_of t (b, h)) L Bl HL (lip3_part _ _ _ _ Pl HF)) as O. unfold box_integral. 
    change (RInt (middle F (layer_of t (b, h))) b m + RInt (middle F (layer_of t (b, h))) m h = RInt (middle F (layer_of t (b, h))) b h).
    change (ex_RInt (middle F (layer_of t (b, h))) b h) in O.
    apply (RInt_Chasles (V := R_CompleteNormedModule)); [exact (ex_RInt_Chasles_1 (V := R_CompleteNormedModule) _ b m h ltac:(lra) O)|exact (ex_RInt_Chasles_2 (V := R_CompleteNormedModule) _ b m h ltac:(lra) O)].
Qed.

Section WithSearch.
Variable minimize : (R -> R) -> R -> R -> R * R.
Hypothesis HB : bounded_search minimize.
Notation disc := (fun fuel rho t => density_based_discretization_1 minimize fuel t rho).

Lemma layers_facts fuel t rho out : box t -> disc fuel rho t = Ok out -> Forall (fun x => part_of x t) out /\
  forall F L, 0 <= L -> lip3 F t L -> sum_over out (box_integral F) = box_integral F t.
Proof.
  intros B E. destruct (Rlt_dec (bottom t) (top t)) as [H|H].
  - destruct (disc_1 minimize HB fuel t rho out H E) as [(l & P & Q) _]. split.
    + eapply Permutation_Forall; [apply Permutation_sym; exact Q|]. destruct (pile_bounds _ _ _ P) as [_ PB]. apply Forall_forall. intros x Hx. apply in_map_iff in Hx. destruct Hx as ((b & h) & <- & I). rewrite Forall_forall in PB. specialize (PB _ I). cbn [fst snd] in PB. apply layer_part; auto; lra.
    + intros F L HL HF. rewrite (sum_over_perm out _ _ Q). rewrite (pile_solid F t L HL B HF l _ _ P); try lra. destruct t; reflexivity.
  - assert (Hb : bottom t = top t) by (unfold box in B; lra). unfold density_based_discretization_1 in E.
    destruct (minmax_ok minimize HB rho (bottom t) (top t)) as (lo & hi & M & L1 & L2); [lra|]. rewrite M in E. cbn [bind] in E.
    replace lo with (bottom t) in E by lra. replace hi with (bottom t) in E by lra. rewrite isclose_refl in E. injection E as <-.
    split; [apply Forall_cons; [split; auto|apply Forall_nil]|]. intros F L _ _. rewrite sum_over_cons. unfold sum_over. cbn. ring.
Qed.

(** ** The value of the call *)
Definition var_value (field : string) (radial : bool) (p : point) (rho : R -> R) (xs : list tess) : R :=
  sum_over xs (fun x => sum_over (pieces_of field radial p x) (fun y => sum_over (glq_sources y 1) (fun s => snd s * (rho (thd3 (fst s)) * newton_field "spherical" field p (fst s, 1))))).

Lemma contribution_var_pieces field radial p rho x : In field ["potential"; "g_z"] ->
  (forall v, contribution_var p (distance_size_ratio field) radial rho (kernel_of field) x = Ok v -> conv field v = var_value field radial p rho [x]) /\
  ((exists v, contribution_var p (distance_size_ratio field) radial rho (kernel_of field) x = Ok v) <-> cuttable field radial p x).
Proof.
  intros Hf. unfold contribution_var, cuttable, var_value, pieces_of. rewrite sum_over_cons. change (sum_over [] _) with 0. rewrite Rplus_0_r.
  destruct (discretise _ _ _ _ _ _) as [out|e]; cbn [bind]; split.
  - intros v [= <-]. rewrite conv_sum. apply sum_over_ext. intros y _. rewrite conv_sum. unfold glq_sources_of. rewrite sum_over_map. apply sum_over_ext. intros [[[a b] c] m] _.
    rewrite field_kernel by assumption. rewrite newton_spherical_mass. cbn [fst snd thd3]. ring.
  - split; eauto.
  - discriminate.
  - split; intros [v H]; discriminate.
Qed.
Lemma point_total_pieces field radial rho xs p : In field ["potential"; "g_z"] ->
  (forall v, point_total_var (distance_size_ratio field) radial rho (kernel_of field) xs p = Ok v -> conv field v = var_value field radial p rho xs) /\
  ((exists v, point_total_var (distance_size_ratio field) radial rho (kernel_of field) xs p = Ok v) <-> Forall (cuttable field radial p) xs).
Proof.
  intros Hf. unfold point_total_var. induction xs as [|x xs IH]; cbn [mapM bind].
  - split; [intros v [= <-]; apply conv_zero|]. split; [intros _; apply Forall_nil|eauto].
  - destruct (contribution_var_pieces field radial p rho x Hf) as [C1 C2]. destruct (contribution_var p _ radial rho _ x) as [w|e]; cbn [bind].
    + destruct IH as [I1 I2]. destruct (mapM _ xs) as [ws|e]; cbn [bind] in *.
      * split.
        -- intros v [= <-]. cbn [sumR]. rewrite conv_add, (C1 w eq_refl), (I1 _ eq_refl). unfold var_value. rewrite !sum_over_cons. change (sum_over [] _) with 0. ring.
        -- split; [intros _; apply Forall_cons; [apply C2|apply I2]; eauto|eauto].
      * split; [discriminate|]. split; [intros [v H]; discriminate|]. intros F. inversion F; subst. destruct I2 as [_ I2]. destruct (I2 H2) as [v H]. discriminate.
    + split; [discriminate|]. split; [intros [v H]; discriminate|]. intros F. inversion F; subst. destruct C2 as [_ C2]. destruct (C2 H1) as [v H]. discriminate.
Qed.

Lemma variable_gravity_value fuel sh ps ts rho field radial a : prod_shape sh = length ps -> In field ["potential"; "g_z"] ->
  tesseroid_gravity_variable minimize fuel (coords_of sh ps) ts rho field radial false = Ok a <->
  exists ts' ls, checks false ps ts = Ok ts' /\ Forall2 (fun t l => disc fuel rho t = Ok l) ts' ls /\ (concat ls = [] -> ps = []) /\
    (forall p, In p ps -> Forall (cuttable field radial p) (concat ls)) /\ a = Arr sh (map (fun p => var_value field radial p rho (concat ls)) ps).
Proof.
  intros Hsh Hf. unfold tesseroid_gravity_variable, coords_of.
  assert (Mm : mem field ["potential"; "g_z"] = true) by (destruct Hf as [<-|[<-|[]]]; reflexivity).
  rewrite Mm. cbn [negb]. rewrite broadcast3_same by reflexivity. cbn [bind]. unfold ravel; cbn [data shape]. rewrite triples_coords. fold (checks false ps ts). rewrite Hsh. fold (kernel_of field).
  change (do ts0 <- check_tesseroids_R ts; do _ <- check_points_outside_tesseroids ps ts0; Ok ts0) with (checks false ps ts).
  destruct (checks false ps ts) as [ts'|] eqn:C; cbn [bind]; [|split; [discriminate|intros (? & ? & K & _); discriminate]].
  rewrite disc_mapM. destruct (mapM _ ts') as [ls|] eqn:D; cbn [bind].
  2:{ split; [discriminate|]. intros (ts2 & ls & [= <-] & K & _). apply mapM_ok in K. rewrite D in K. discriminate. }
  assert (Cv : forall r : list R, (if String.eqb field "g_z" then map (Rmult (10 ^ 5)) (if String.eqb field "g_z" then map (Rmult (-1)) r else r) else (if String.eqb field "g_z" then map (Rmult (-1)) r else r)) = map (conv field) r).
  { intros r. destruct Hf as [<-|[<-|[]]]; cbn [String.eqb Ascii.eqb Bool.eqb]; [unfold conv; cbn; now rewrite map_id|]. rewrite map_map. apply map_ext. intros x. unfold conv. cbn. reflexivity. }
  assert (X : (do result <- match concat ls with
       | [] => match map fst3 ps with [] => jit_tesseroid_gravity_variable_density (map fst3 ps, map snd3 ps, map thd3 ps) (concat ls) rho (repeat 0 (length ps)) (distance_size_ratio field) radial (kernel_of field) | _ :: _ => Raise ValueError end
       | _ :: _ => jit_tesseroid_gravity_variable_density (map fst3 ps, map snd3 ps, map thd3 ps) (concat ls) rho (repeat 0 (length ps)) (distance_size_ratio field) radial (kernel_of field) end;
      Ok (Arr sh (if String.eqb field "g_z" then map (Rmult (10 ^ 5)) (if String.eqb field "g_z" then map (Rmult (-1)) result else result) else (if String.eqb field "g_z" then map (Rmult (-1)) result else result)))) = Ok a <->
      (concat ls = [] -> ps = []) /\ (forall p, In p ps -> Forall (cuttable field radial p) (concat ls)) /\ a = Arr sh (map (fun p => var_value field radial p rho (concat ls)) ps)).
  { assert (Y : (do result <- mapM (point_total_var (distance_size_ratio field) radial rho (kernel_of field) (concat ls)) ps; Ok (Arr sh (map (conv field) result))) = Ok a <->
      (forall p, In p ps -> Forall (cuttable field radial p) (concat ls)) /\ a = Arr sh (map (fun p => var_value field radial p rho (concat ls)) ps)).
    { split.
      - destruct (mapM _ ps) as [r|] eqn:M; cbn [bind]; [|discriminate]. intros [= <-]. apply mapM_ok in M. split.
        + intros p Hp. apply (point_total_pieces field radial rho (concat ls) p Hf). clear -M Hp. induction M; [destruct Hp|]. destruct Hp as [<-|Hp]; eauto.
        + f_equal. clear -M Hf. induction M; simpl; [reflexivity|]. rewrite IHM. f_equal. now apply point_total_pieces.
      - intros [HD ->]. assert (M : exists r, mapM (point_total_var (distance_size_ratio field) radial rho (kernel_of field) (concat ls)) ps = Ok r).
        { clear -HD Hf. induction ps as [|p ps IH]; simpl; [eauto|]. destruct (proj2 (point_total_pieces field radial rho (concat ls) p Hf)) as [_ K].
          destruct K as [v K]; [apply HD; now left|]. rewrite K. cbn [bind]. destruct IH as [r IH]; [intros; apply HD; now right|]. rewrite IH. cbn [bind]. eauto. }
        destruct M as [r M]. rewrite M. cbn [bind]. f_equal. f_equal. apply mapM_ok in M. clear -M Hf. induction M; simpl; [reflexivity|]. rewrite IHM. f_equal. now apply point_total_pieces. }
    destruct (concat ls) as [|y ys] eqn:Q.
    - destruct ps as [|p0 ps]; [|cbn [map bind]; split; [discriminate|intros (K & _); discriminate (K eq_refl)]].
      cbn [mapM bind map] in Y |- *. change (jit_tesseroid_gravity_variable_density _ _ _ _ _ _ _) with (@Ok (list R) []). cbn [bind]. rewrite Cv. cbn [map] in *. rewrite Y. intuition.
    - rewrite jit_var_ok. destruct (mapM _ ps) as [r|]; cbn [bind] in Y |- *; [rewrite Cv|]; rewrite Y; intuition discriminate. }
  cbv zeta. etransitivity; [exact X|]. clear X. split.
  - intros (K1 & K2 & K3). exists ts', ls. split; [reflexivity|]. split; [now apply mapM_ok|]. auto.
  - intros (ts2 & ls2 & [= <-] & K & K1 & K2 & K3). apply mapM_ok in K. rewrite D in K. injection K as <-. auto.
Qed.
End WithSearch.
