(** Proofs about mirroring spherical sources and observation points. *)
From Coq Require Import Permutation Psatz.
From Verif Require Import Base BaseFacts NumPy NumPyFacts DistanceModel DistanceSpec PointGravityModel PointGravitySpec PointGravityProofs
  TesseroidModel TesseroidSpec TesseroidCheckProofs TesseroidAdaptProofs TesseroidProofs TesseroidFieldProofs
  TesseroidDensityModel TesseroidDensitySpec TesseroidDensityProofs TesseroidDensityFieldProofs TesseroidTurnSpec TesseroidTurnProofs TesseroidMirrorSpec.
Local Open Scope string_scope. Local Open Scope list_scope. Local Open Scope R_scope.
Local Opaque MAX_DISCRETIZATIONS STACK_SIZE.

Lemma radians_opp x : radians (- x) = - radians x. Proof. unfold radians. field. Qed.
Lemma cos_minus_opp x y : cos (- x - - y) = cos (x - y). Proof. rewrite <- cos_neg. f_equal. ring. Qed.

Section Mirror.
Variables ew ns : bool.
Local Notation mp := (mirror_point ew ns).
Local Notation mt := (mirror_tess ew ns).

(** ** Kernels *)
Lemma core_mirror p q :
  distance_spherical_core (radians (fst3 (mp p))) (cos (radians (snd3 (mp p)))) (sin (radians (snd3 (mp p)))) (thd3 (mp p))
    (radians (fst3 (mp q))) (cos (radians (snd3 (mp q)))) (sin (radians (snd3 (mp q)))) (thd3 (mp q))
  = distance_spherical_core (radians (fst3 p)) (cos (radians (snd3 p))) (sin (radians (snd3 p))) (thd3 p)
    (radians (fst3 q)) (cos (radians (snd3 q))) (sin (radians (snd3 q))) (thd3 q).
Proof.
  unfold distance_spherical_core, mirror_point, fst3, snd3, thd3. cbn [fst snd].
  destruct ew, ns; rewrite ?radians_opp, ?cos_minus_opp, ?cos_neg, ?sin_neg, ?Rmult_opp_opp; reflexivity.
Qed.

Definition mirror_source (s : source) : source := (mp (fst s), snd s).

Lemma kernel_mirror kernel p s : kernel = potential_spherical \/ kernel = gravity_u_spherical ->
  sph_kernel_of kernel (mp p) (mirror_source s) = sph_kernel_of kernel p s.
Proof.
  intros Hk. unfold sph_kernel_of, mirror_source. cbn [fst snd]. f_equal.
  destruct Hk as [-> | ->]; unfold potential_spherical, gravity_u_spherical; now rewrite core_mirror.
Qed.

Lemma distance_mirror p t : distance_tesseroid_point (mp p) (mt t) = distance_tesseroid_point p t.
Proof.
  unfold distance_tesseroid_point.
  assert (E : ((west (mt t) + east (mt t)) / 2, (south (mt t) + north (mt t)) / 2, (bottom (mt t) + top (mt t)) / 2)
    = mp ((west t + east t) / 2, (south t + north t) / 2, (bottom t + top t) / 2)).
  { unfold mirror_point, mirror_tess, fst3, snd3, thd3. cbn. destruct ew, ns; repeat (apply (f_equal2 pair)); try reflexivity; field. }
  rewrite E. pose proof (core_mirror p ((west t + east t) / 2, (south t + north t) / 2, (bottom t + top t) / 2)) as C.
  destruct p as [[x y] z]. unfold distance_spherical. unfold mirror_point, fst3, snd3, thd3 in *. cbn [fst snd] in *. now rewrite C.
Qed.

Lemma dims_mirror t : tesseroid_dimensions (mt t) = tesseroid_dimensions t.
Proof.
  unfold tesseroid_dimensions, mirror_tess. cbn [west east south north bottom top].
  assert (A : forall x y, cos ((- x + - y) / 2) = cos ((y + x) / 2)) by (intros; rewrite <- cos_neg; f_equal; field).
  assert (B : forall x y, sin ((- x + - y) / 2) ^ 2 = sin ((y + x) / 2) ^ 2).
  { intros. replace ((- x + - y) / 2) with (- ((y + x) / 2)) by field. rewrite sin_neg. ring. }
  assert (C : forall x y, - x - - y = y - x) by (intros; ring).
  destruct ew, ns; rewrite ?radians_opp, ?A, ?B, ?C, ?sin_neg, ?cos_neg, ?Rmult_opp_opp; try reflexivity;
    rewrite (Rmult_comm (sin (radians (south t)))), (Rmult_comm (cos (radians (south t)))); reflexivity.
Qed.

(** ** Pieces *)
Lemma row_mirror t n m q i j k : (n = 1 \/ n = 2)%nat -> (m = 1 \/ m = 2)%nat -> (i < n)%nat -> (j < m)%nat ->
  mt (split_row t n m q i j k) = split_row (mt t) n m q (if ew then n - 1 - i else i)%nat (if ns then m - 1 - j else j)%nat k.
Proof.
  intros Hn Hm Hi Hj. unfold split_row, mirror_tess. cbn [west east south north bottom top].
  assert (A : forall x y l c, (l = 1 \/ l = 2)%nat -> (c < l)%nat ->
    - (x + (y - x) / INR l * INR (c + 1)) = - y + (- x - - y) / INR l * INR (l - 1 - c) /\
    - (x + (y - x) / INR l * INR c) = - y + (- x - - y) / INR l * INR (l - 1 - c + 1)).
  { intros x y l c [-> | ->] Hc.
    - assert (c = 0)%nat as -> by lia. cbn. split; field.
    - assert (c = 0 \/ c = 1)%nat as [-> | ->] by lia; cbn; split; field. }
  destruct (A (west t) (east t) n i Hn Hi) as [A1 A2]. destruct (A (south t) (north t) m j Hm Hj) as [A3 A4].
  destruct ew, ns; now rewrite ?A1, ?A2, ?A3, ?A4.
Qed.

Lemma pieces_mirror t n m q : (n = 1 \/ n = 2)%nat -> (m = 1 \/ m = 2)%nat -> (q = 1 \/ q = 2)%nat ->
  Permutation (map mt (pieces t n m q)) (pieces (mt t) n m q).
Proof.
  intros Hn Hm Hq. pose proof (row_mirror t n m q) as Rw.
  destruct Hn as [-> | ->], Hm as [-> | ->], Hq as [-> | ->]; unfold pieces, range; cbn [Nat.sub seq flat_map map app];
    rewrite !Rw by lia; clear Rw; destruct ew, ns; cbn [Nat.sub];
    try apply Permutation_refl.
  all: match goal with |- Permutation ?l ?r => idtac end.
  all: repeat match goal with |- context[split_row ?a ?b ?c ?d ?e ?f ?g] => generalize (split_row a b c d e f g); intros ? end.
  all: try apply perm_swap.
  all: try (match goal with |- Permutation [?a; ?b; ?c; ?d] _ => idtac end).
  all: repeat first [ apply Permutation_refl | apply Permutation_cons; [reflexivity|]
    | apply Permutation_cons_app with (l1 := [_]); cbn [app] | apply Permutation_cons_app with (l1 := [_; _]); cbn [app] | apply Permutation_cons_app with (l1 := [_; _; _]); cbn [app]
    | apply Permutation_cons_app with (l1 := [_; _; _; _]); cbn [app] | apply Permutation_cons_app with (l1 := [_; _; _; _; _]); cbn [app] | apply Permutation_cons_app with (l1 := [_; _; _; _; _; _]); cbn [app]
    | apply Permutation_cons_app with (l1 := [_; _; _; _; _; _; _]); cbn [app] ].
Qed.

(** ** The order of the cuts does not matter *)
Definition counts (p : point) (ratio : R) (radial : bool) (t : tess) : res (nat * nat * nat) :=
  let '(l_lon, l_lat, l_rad) := tesseroid_dimensions t in
  let distance := distance_tesseroid_point p t in
  do q_lon <- ndiv distance l_lon;
  do q_lat <- ndiv distance l_lat;
  do q_rad <- ndiv distance l_rad;
  Ok ((if Rltb q_lon ratio then 2 else 1)%nat, (if Rltb q_lat ratio then 2 else 1)%nat, (if (Rltb q_rad ratio && radial)%bool then 2 else 1)%nat).

Inductive cuts (p : point) (ratio : R) (radial : bool) : list tess -> list tess -> Prop :=
| cuts_nil : cuts p ratio radial [] []
| cuts_leaf t a b c l o : counts p ratio radial t = Ok (a, b, c) -> Nat.ltb 1 (a * b * c) = false -> cuts p ratio radial l o -> cuts p ratio radial (t :: l) (t :: o)
| cuts_node t a b c l o : counts p ratio radial t = Ok (a, b, c) -> Nat.ltb 1 (a * b * c) = true -> cuts p ratio radial (rev (pieces t a b c) ++ l) o -> cuts p ratio radial (t :: l) o.

Lemma step_counts p ratio radial cs cm t rest out so : abs_step p ratio radial cs cm t rest out = Ok so ->
  exists a b c, counts p ratio radial t = Ok (a, b, c) /\
    so = if Nat.ltb 1 (a * b * c) then (rev (pieces t a b c) ++ rest, out) else (rest, out ++ [t]).
Proof.
  unfold abs_step, counts. destruct (tesseroid_dimensions t) as [[l1 l2] l3].
  destruct (ndiv _ l1) as [q1|]; cbn [bind]; [|discriminate]. destruct (ndiv _ l2) as [q2|]; cbn [bind]; [|discriminate]. destruct (ndiv _ l3) as [q3|]; cbn [bind]; [|discriminate].
  intros H. do 3 eexists. split; [reflexivity|]. destruct (Nat.ltb 1 _); [destruct (Nat.ltb cs _)|destruct (Nat.ltb cm _)]; congruence.
Qed.

Lemma loop_cuts p ratio radial cs cm : forall fuel stk out r, abs_loop fuel p ratio radial cs cm stk out = Ok r ->
  exists o, cuts p ratio radial stk o /\ r = out ++ o.
Proof.
  induction fuel as [|fuel IH]; intros [|t stk] out r; cbn [abs_loop]; try discriminate;
    try (intros [= <-]; exists []; split; [constructor|now rewrite app_nil_r]).
  destruct (abs_step p ratio radial cs cm t stk out) as [so|] eqn:E; cbn [bind]; [|discriminate].
  apply step_counts in E. destruct E as (a & b & c & C & ->). destruct (Nat.ltb 1 (a * b * c)) eqn:L; cbn [fst snd]; intros H; apply IH in H; destruct H as (o & H & ->).
  - exists o. split; [|reflexivity]. eapply cuts_node; eassumption.
  - exists (t :: o). split; [|now rewrite <- app_assoc]. eapply cuts_leaf; eassumption.
Qed.

Lemma cuts_det p ratio radial l o : cuts p ratio radial l o -> forall o', cuts p ratio radial l o' -> o' = o.
Proof.
  induction 1 as [|t a b c l o C L H IH|t a b c l o C L H IH]; intros o' H'; inversion H'; subst; auto.
  - f_equal. auto.
  - rewrite C in H2. injection H2 as <- <- <-. congruence.
  - rewrite C in H2. injection H2 as <- <- <-. congruence.
  - rewrite C in H2. injection H2 as <- <- <-. auto.
Qed.

Lemma cuts_app p ratio radial l1 o1 : cuts p ratio radial l1 o1 -> forall l2 o2, cuts p ratio radial l2 o2 -> cuts p ratio radial (l1 ++ l2) (o1 ++ o2).
Proof.
  induction 1 as [|t a b c l o C L H IH|t a b c l o C L H IH]; intros l2 o2 H2; [exact H2| |].
  - eapply cuts_leaf; eauto.
  - eapply cuts_node; eauto. specialize (IH l2 o2 H2). now rewrite <- app_assoc in IH.
Qed.

Lemma cuts_app_inv p ratio radial l o : cuts p ratio radial l o -> forall l1 l2, l = l1 ++ l2 ->
  exists o1 o2, o = o1 ++ o2 /\ cuts p ratio radial l1 o1 /\ cuts p ratio radial l2 o2.
Proof.
  induction 1 as [|t a b c l o C L H IH|t a b c l o C L H IH]; intros [|x l1] l2 E; cbn in E; subst.
  - exists [], []. repeat constructor.
  - discriminate.
  - exists [], (t :: o). repeat split; [constructor|eapply cuts_leaf; eassumption].
  - injection E as <- ->. destruct (IH l1 l2 eq_refl) as (o1 & o2 & -> & H1 & H2). exists (t :: o1), o2. repeat split; auto. eapply cuts_leaf; eassumption.
  - exists [], o. repeat split; [constructor|eapply cuts_node; eassumption].
  - injection E as <- ->. rewrite app_assoc in H, IH. destruct (IH _ l2 eq_refl) as (o1 & o2 & -> & H1 & H2). exists o1, o2. repeat split; auto. eapply cuts_node; eassumption.
Qed.

Lemma cuts_perm p ratio radial l l' : Permutation l l' -> forall o, cuts p ratio radial l o -> exists o', cuts p ratio radial l' o' /\ Permutation o o'.
Proof.
  induction 1 as [|x l l' HP IH|x y l|l l' l'' H1 IH1 H2 IH2]; intros o H.
  - eauto.
  - destruct (cuts_app_inv _ _ _ _ _ H [x] l eq_refl) as (o1 & o2 & -> & A & B). destruct (IH o2 B) as (o' & C & D).
    exists (o1 ++ o'). split; [now apply (cuts_app p ratio radial [x] o1 A)|now apply Permutation_app_head].
  - destruct (cuts_app_inv _ _ _ _ _ H [y] (x :: l) eq_refl) as (o1 & o2 & -> & A & B).
    destruct (cuts_app_inv _ _ _ _ _ B [x] l eq_refl) as (o3 & o4 & -> & C & D).
    exists (o3 ++ o1 ++ o4). split; [apply (cuts_app p ratio radial [x] o3 C), (cuts_app p ratio radial [y] o1 A), D|].
    rewrite !app_assoc. apply Permutation_app_tail, Permutation_app_comm.
  - destruct (IH1 o H) as (o1 & A & B). destruct (IH2 o1 A) as (o2 & C & D). exists o2. split; [exact C|]. now transitivity o1.
Qed.

Lemma counts_mirror p ratio radial t : counts (mp p) ratio radial (mt t) = counts p ratio radial t.
Proof. unfold counts. now rewrite dims_mirror, distance_mirror. Qed.

Lemma counts_12 p ratio radial t a b c : counts p ratio radial t = Ok (a, b, c) -> (a = 1 \/ a = 2)%nat /\ (b = 1 \/ b = 2)%nat /\ (c = 1 \/ c = 2)%nat.
Proof.
  unfold counts. destruct (tesseroid_dimensions t) as [[l1 l2] l3].
  destruct (ndiv _ l1) as [q1|]; cbn [bind]; [|discriminate]. destruct (ndiv _ l2) as [q2|]; cbn [bind]; [|discriminate]. destruct (ndiv _ l3) as [q3|]; cbn [bind]; [|discriminate].
  intros [= <- <- <-]. repeat split; match goal with |- context[if ?b then _ else _] => destruct b end; auto.
Qed.

Lemma cuts_mirror p ratio radial l o : cuts p ratio radial l o -> exists o', cuts (mp p) ratio radial (map mt l) o' /\ Permutation (map mt o) o'.
Proof.
  induction 1 as [|t a b c l o C L H IH|t a b c l o C L H IH].
  - exists []. split; constructor.
  - destruct IH as (o' & A & B). exists (mt t :: o'). split; [|now constructor]. cbn [map]. eapply cuts_leaf; eauto. now rewrite counts_mirror.
  - destruct IH as (o' & A & B). destruct (counts_12 _ _ _ _ _ _ _ C) as (Ha & Hb & Hc).
    destruct (cuts_perm (mp p) ratio radial (map mt (rev (pieces t a b c) ++ l)) (rev (pieces (mt t) a b c) ++ map mt l)) with (o := o') as (o2 & D & F); [|exact A|].
    { rewrite map_app, map_rev. apply Permutation_app_tail. rewrite <- !Permutation_rev. now apply pieces_mirror. }
    exists o2. split; [|now transitivity o']. cbn [map]. eapply cuts_node; eauto. now rewrite counts_mirror.
Qed.

Lemma discretise_mirror p t ratio cs cm radial o o' : discretise p t ratio cs cm radial = Ok o -> discretise (mp p) (mt t) ratio cs cm radial = Ok o' ->
  Permutation (map mt o) o'.
Proof.
  unfold discretise. intros H H'. apply loop_cuts in H, H'. destruct H as (o1 & H & ->), H' as (o2 & H' & ->). cbn [app].
  destruct (cuts_mirror _ _ _ _ _ H) as (o3 & A & B). cbn [map] in A. now rewrite (cuts_det _ _ _ _ _ A _ H').
Qed.

(** ** Quadrature *)
Lemma glq_mirror t d : Permutation (map mirror_source (glq_sources t d)) (glq_sources (mt t) d).
Proof.
  assert (S3 : 0 < sqrt 3) by (apply sqrt_lt_R0; lra).
  assert (E : forall x y z, mirror_source (glq_source t d x y z) = glq_source (mt t) d (if ew then - x else x) (if ns then - y else y) z).
  { intros x y z. unfold mirror_source, glq_source, mirror_point, mirror_tess, fst3, snd3, thd3. cbn [fst snd west east south north bottom top].
    assert (A : forall w e v, - ((w + e) / 2 + v * ((e - w) / 2) / sqrt 3) = (- e + - w) / 2 + - v * ((- w - - e) / 2) / sqrt 3) by (intros; field; lra).
    assert (D : forall w e, - w - - e = e - w) by (intros; ring).
    destruct ew, ns; rewrite <- ?A, ?D, ?radians_opp, ?cos_neg; reflexivity. }
  unfold glq_sources. cbn [flat_map map app]. rewrite !E. clear E.
  assert (O1 : Ropp (IZR 1) = IZR (-1)) by lra. assert (O2 : Ropp (IZR (-1)) = IZR 1) by lra.
  destruct ew, ns; rewrite ?O1, ?O2; try apply Permutation_refl;
  repeat match goal with |- context[glq_source ?a ?b ?c ?d ?e] => generalize (glq_source a b c d e); intros ? end;
  repeat first [ apply Permutation_refl | apply Permutation_cons; [reflexivity|]
    | apply Permutation_cons_app with (l1 := [_]); cbn [app] | apply Permutation_cons_app with (l1 := [_; _]); cbn [app] | apply Permutation_cons_app with (l1 := [_; _; _]); cbn [app]
    | apply Permutation_cons_app with (l1 := [_; _; _; _]); cbn [app] | apply Permutation_cons_app with (l1 := [_; _; _; _; _]); cbn [app] | apply Permutation_cons_app with (l1 := [_; _; _; _; _; _]); cbn [app]
    | apply Permutation_cons_app with (l1 := [_; _; _; _; _; _; _]); cbn [app] ].
Qed.

Lemma glq_of_mirror t rho : Permutation (map mirror_source (glq_sources_of t rho)) (glq_sources_of (mt t) rho).
Proof.
  unfold glq_sources_of. rewrite map_map.
  transitivity (map (fun s => (fst s, rho (snd (fst s)) * snd s)) (map mirror_source (glq_sources t 1))); [|apply Permutation_map, glq_mirror].
  rewrite map_map. generalize (glq_sources t 1). intros l. replace (map (fun x => mirror_source (fst x, rho (snd (fst x)) * snd x)) l) with (map (fun x : source => (fst (mirror_source x), rho (snd (fst (mirror_source x))) * snd (mirror_source x))) l); [apply Permutation_refl|].
  apply map_ext. intros [[[x y] z] m]. reflexivity.
Qed.

Lemma sum_over_perm {A} (f : A -> R) l l' : Permutation l l' -> sum_over l' f = sum_over l f.
Proof. induction 1; rewrite ?sum_over_cons in *; [reflexivity| | |congruence]; lra. Qed.

Lemma sources_mirror kernel p ss ss' : kernel = potential_spherical \/ kernel = gravity_u_spherical -> Permutation (map mirror_source ss) ss' ->
  sum_over ss' (sph_kernel_of kernel (mp p)) = sum_over ss (sph_kernel_of kernel p).
Proof.
  intros Hk HP. rewrite (sum_over_perm _ _ _ HP), sum_over_map. apply sum_over_ext. intros s _. now apply kernel_mirror.
Qed.

(** ** Outcomes *)
Lemma mt_mt t : mt (mt t) = t.
Proof. destruct t. unfold mirror_tess. cbn. destruct ew, ns; now rewrite ?Ropp_involutive. Qed.
Lemma mp_mp p : mp (mp p) = p.
Proof. destruct p as [[x y] z]. unfold mirror_point, fst3, snd3, thd3. cbn. destruct ew, ns; now rewrite ?Ropp_involutive. Qed.

Lemma loop_no_zero p ratio radial cs cm : forall fuel stk out o, cuts p ratio radial stk o -> abs_loop fuel p ratio radial cs cm stk out <> Raise ZeroDivisionError.
Proof.
  induction fuel as [|fuel IH]; intros [|t stk] out o H; cbn [abs_loop]; try discriminate.
  assert (C : exists a b c o', counts p ratio radial t = Ok (a, b, c) /\ if Nat.ltb 1 (a * b * c) then cuts p ratio radial (rev (pieces t a b c) ++ stk) o' else cuts p ratio radial stk o').
  { inversion H; subst; do 4 eexists; (split; [eassumption|]); match goal with E : Nat.ltb _ _ = _ |- _ => rewrite E end; eassumption. }
  destruct C as (a & b & c & o' & C & K).
  destruct (abs_step p ratio radial cs cm t stk out) as [so|e] eqn:E; cbn [bind].
  - apply step_counts in E. destruct E as (a' & b' & c' & C' & ->). rewrite C in C'. injection C' as <- <- <-.
    destruct (Nat.ltb 1 (a * b * c)); cbn [fst snd]; eapply IH; eassumption.
  - intros [= ->]. revert E C. unfold abs_step, counts. destruct (tesseroid_dimensions t) as [[l1 l2] l3].
    destruct (ndiv _ l1) as [q1|]; cbn [bind]; [|intros _ F; discriminate F]. destruct (ndiv _ l2) as [q2|]; cbn [bind]; [|intros _ F; discriminate F]. destruct (ndiv _ l3) as [q3|]; cbn [bind]; [|intros _ F; discriminate F].
    cbv zeta. clear K. intros E _. revert E. destruct (Nat.ltb 1 _); [destruct (Nat.ltb cs _)|destruct (Nat.ltb cm _)]; intros F; discriminate F.
Qed.

Lemma discretise_outcomes p t ratio cs cm radial : (0 < cs)%nat ->
  (exists o o', discretise p t ratio cs cm radial = Ok o /\ discretise (mp p) (mt t) ratio cs cm radial = Ok o') \/
  (exists e, discretise p t ratio cs cm radial = Raise e /\ discretise (mp p) (mt t) ratio cs cm radial = Raise e) \/
  discretise p t ratio cs cm radial = Raise OverflowError \/ discretise (mp p) (mt t) ratio cs cm radial = Raise OverflowError.
Proof.
  intros Hs. destruct (discretise_total p t ratio cs cm radial Hs) as [[o E] | [E | E]]; auto; destruct (discretise_total (mp p) (mt t) ratio cs cm radial Hs) as [[o' E'] | [E' | E']]; auto.
  - left. eauto.
  - exfalso. unfold discretise in E, E'. apply loop_cuts in E. destruct E as (o1 & H & _). destruct (cuts_mirror _ _ _ _ _ H) as (o2 & H2 & _). exact (loop_no_zero _ _ _ _ _ _ _ _ _ H2 E').
  - exfalso. unfold discretise in E, E'. apply loop_cuts in E'. destruct E' as (o1 & H & _). destruct (cuts_mirror _ _ _ _ _ H) as (o2 & H2 & _).
    cbn [map] in H2. rewrite mt_mt, mp_mp in H2. exact (loop_no_zero _ _ _ _ _ _ _ _ _ H2 E).
  - right. left. eauto.
Qed.

Lemma contribution_mirror field p ratio radial t d :
  same_or_overflow (contribution p ratio radial (kernel_of field) (t, d)) (contribution (mp p) ratio radial (kernel_of field) (mt t, d)).
Proof.
  unfold contribution. cbn [fst snd].
  destruct (discretise_outcomes p t ratio STACK_SIZE MAX_DISCRETIZATIONS radial STACK_SIZE_pos) as [(o & o' & E & E') | [(e & E & E') | [E | E]]].
  - left. rewrite E, E'. cbn [bind]. f_equal. rewrite (sum_over_perm _ _ _ (discretise_mirror _ _ _ _ _ _ _ _ E E')), sum_over_map. symmetry. apply sum_over_ext. intros u _.
    apply sources_mirror; [apply kernel_of_cases|apply glq_mirror].
  - left. now rewrite E, E'.
  - right. left. now rewrite E.
  - right. right. now rewrite E.
Qed.

Lemma contribution_var_mirror field p ratio radial rho t :
  same_or_overflow (contribution_var p ratio radial rho (kernel_of field) t) (contribution_var (mp p) ratio radial rho (kernel_of field) (mt t)).
Proof.
  unfold contribution_var.
  destruct (discretise_outcomes p t ratio STACK_SIZE MAX_DISCRETIZATIONS radial STACK_SIZE_pos) as [(o & o' & E & E') | [(e & E & E') | [E | E]]].
  - left. rewrite E, E'. cbn [bind]. f_equal. rewrite (sum_over_perm _ _ _ (discretise_mirror _ _ _ _ _ _ _ _ E E')), sum_over_map. symmetry. apply sum_over_ext. intros u _.
    apply sources_mirror; [apply kernel_of_cases|apply glq_of_mirror].
  - left. now rewrite E, E'.
  - right. left. now rewrite E.
  - right. right. now rewrite E.
Qed.

Lemma soo_bind {A B} (x y : res A) (f : A -> res B) : same_or_overflow x y -> same_or_overflow (bind x f) (bind y f).
Proof. intros [-> | [-> | ->]]; [left|right; left|right; right]; reflexivity. Qed.

Lemma mapM_soo {A B} (h : A -> A) (f g : A -> res B) l : (forall x, same_or_overflow (f x) (g (h x))) -> same_or_overflow (mapM f l) (mapM g (map h l)).
Proof.
  intros H. induction l as [|x l IH]; cbn [mapM map]; [now left|].
  destruct (H x) as [E | [E | E]]; [rewrite <- E|right; left; now rewrite E|right; right; now rewrite E].
  destruct (f x) as [v|]; cbn [bind]; [|now left]. now apply soo_bind.
Qed.

Lemma is_null_mirror t d : is_null (mt t) d = is_null t d.
Proof.
  unfold is_null, mirror_tess. cbn [west east south north bottom top].
  assert (A : forall x y, Reqb (- y) (- x) = Reqb x y) by (intros x y; destruct (Reqb_spec (- y) (- x)), (Reqb_spec x y); auto; lra).
  destruct ew, ns; rewrite ?A; reflexivity.
Qed.

Definition mirror_td (td : tess * R) : tess * R := (mt (fst td), snd td).
Lemma kept_mirror ts ds : kept (combine (map mt ts) ds) = map mirror_td (kept (combine ts ds)).
Proof.
  unfold kept. revert ds. induction ts as [|t ts IH]; intros [|d ds]; try reflexivity. cbn [map combine filter fst snd]. rewrite is_null_mirror, IH.
  destruct (is_null t d); reflexivity.
Qed.

Lemma total_mirror field radial ratio tds p :
  same_or_overflow (point_total ratio radial (kernel_of field) tds p) (point_total ratio radial (kernel_of field) (map mirror_td tds) (mp p)).
Proof.
  unfold point_total. rewrite !point_total_acc. apply soo_bind, mapM_soo. intros [t d]. apply contribution_mirror.
Qed.

Lemma constant_mirror field radial ps ts ds :
  same_or_overflow (mapM (point_total (distance_size_ratio field) radial (kernel_of field) (kept (combine ts ds))) ps)
        (mapM (point_total (distance_size_ratio field) radial (kernel_of field) (kept (combine (map mt ts) ds))) (map mp ps)).
Proof. rewrite kept_mirror. apply mapM_soo. intros p. apply total_mirror. Qed.

(** ** Densities given as functions *)
Section Variable_density.
Variable minimize : (R -> R) -> R -> R -> R * R.

Lemma loop_mirror w e s n nd size : forall fuel pending out,
  density_loop minimize fuel (if ew then - e else w) (if ew then - w else e) (if ns then - n else s) (if ns then - s else n) nd size (map mt pending) (map mt out)
  = do l <- density_loop minimize fuel w e s n nd size pending out; Ok (map mt l).
Proof.
  induction fuel as [|fuel IH]; intros [|t pending] out; cbn [density_loop map bind]; try reflexivity.
  change (bottom (mt t)) with (bottom t). change (top (mt t)) with (top t).
  destruct (maximum_absolute_diff minimize nd (bottom t) (top t)) as [rs md]. destruct (Rltb DELTA_RATIO _).
  - rewrite <- IH, map_app. reflexivity.
  - rewrite <- IH, map_app. reflexivity.
Qed.

Lemma disc_1_mirror fuel t rho : density_based_discretization_1 minimize fuel (mt t) rho = do l <- density_based_discretization_1 minimize fuel t rho; Ok (map mt l).
Proof.
  unfold density_based_discretization_1. change (bottom (mt t)) with (bottom t). change (top (mt t)) with (top t).
  destruct (density_minmax minimize rho (bottom t) (top t)) as [[lo hi]|]; cbn [bind]; [|reflexivity]. destruct (np_isclose lo hi); [reflexivity|].
  exact (loop_mirror (west t) (east t) (south t) (north t) _ _ fuel [t] []).
Qed.

Lemma disc_mirror fuel ts rho : density_based_discretization minimize fuel (map mt ts) rho = do l <- density_based_discretization minimize fuel ts rho; Ok (map mt l).
Proof.
  unfold density_based_discretization.
  enough (K : forall acc, for_ (map mt ts) (fun t acc => do l <- density_based_discretization_1 minimize fuel t rho; Ok (acc ++ l)) (map mt acc)
    = do l <- for_ ts (fun t acc => do l <- density_based_discretization_1 minimize fuel t rho; Ok (acc ++ l)) acc; Ok (map mt l)) by exact (K []).
  induction ts as [|t ts IH]; intros acc; cbn [map for_ bind]; [reflexivity|]. rewrite disc_1_mirror.
  destruct (density_based_discretization_1 minimize fuel t rho) as [l|]; cbn [bind]; [|reflexivity]. rewrite <- map_app. apply IH.
Qed.

Definition tail fuel ts rho field radial (ps : list point) : res (list R) :=
  do tesseroids <- density_based_discretization minimize fuel ts rho;
  match tesseroids, map fst3 ps with
  | [], _ :: _ => Raise ValueError
  | _, _ => jit_tesseroid_gravity_variable_density (map fst3 ps, map snd3 ps, map thd3 ps) tesseroids rho (repeat 0 (length ps)) (distance_size_ratio field) radial (kernel_of field)
  end.

Lemma variable_mirror fuel ts rho field radial ps : same_or_overflow (tail fuel ts rho field radial ps) (tail fuel (map mt ts) rho field radial (map mp ps)).
Proof.
  unfold tail. rewrite disc_mirror. destruct (density_based_discretization minimize fuel ts rho) as [l|]; cbn [bind]; [|now left].
  rewrite !jit_var_ok.
  assert (K : same_or_overflow (mapM (point_total_var (distance_size_ratio field) radial rho (kernel_of field) l) ps)
    (mapM (point_total_var (distance_size_ratio field) radial rho (kernel_of field) (map mt l)) (map mp ps))).
  { apply mapM_soo. intros p. unfold point_total_var. apply soo_bind, mapM_soo. intros t. apply contribution_var_mirror. }
  destruct l; [|exact K]. destruct ps; [exact K|now left].
Qed.
End Variable_density.

(** ** Checks *)
Lemma moved_image a t u t' u' : image_tess ew ns a t u -> moved t t' -> moved u u' -> width_ok t' -> width_ok u' -> image_tess_together ew ns a t' u'.
Proof.
  intros ((j & k & E1 & E2 & D) & H1 & H2 & H3 & H4) M N W V. unfold image_tess_together, shifted_tess.
  assert (X : (exists m, west t' = west t + 360 * IZR m) /\ (exists m, east t' = east t + 360 * IZR m) /\ south t' = south t /\ north t' = north t /\ bottom t' = bottom t /\ top t' = top t).
  { destruct M as [[L ->]|(L & K1 & R1 & K2 & R2 & S1 & S2 & S3 & S4)]; [|repeat split; auto; lra]. repeat split; auto; try (exists 0%Z; ring). }
  assert (Y : (exists m, west u' = west u + 360 * IZR m) /\ (exists m, east u' = east u + 360 * IZR m) /\ south u' = south u /\ north u' = north u /\ bottom u' = bottom u /\ top u' = top u).
  { destruct N as [[L ->]|(L & K1 & R1 & K2 & R2 & S1 & S2 & S3 & S4)]; [|repeat split; auto; lra]. repeat split; auto; try (exists 0%Z; ring). }
  destruct X as ([m1 X1] & [m2 X2] & X3 & X4 & X5 & X6). destruct Y as ([n1 Y1] & [n2 Y2] & Y3 & Y4 & Y5 & Y6).
  unfold mirror_tess in *. cbn [west east south north bottom top] in *.
  split; [|rewrite Y3, Y4, Y5, Y6, X3, X4, X5, X6; auto].
  unfold width_ok in *.
  assert (Wd : east u' - west u' = east t' - west t').
  { assert (Z : exists z, east u' - west u' = east t' - west t' + 360 * IZR z).
    { destruct ew.
      - exists (k + n2 + m1 - (j + n1 + m2))%Z. rewrite minus_IZR, !plus_IZR. lra.
      - exists (k + n2 - m2 - (j + n1 - m1))%Z. rewrite !minus_IZR, !plus_IZR. lra. }
    destruct Z as [z Z]. destruct D as [-> | D].
    - destruct M as [[L ->]|(L & _ & R1 & _ & R2 & _)], N as [[L' ->]|(L' & _ & R1' & _ & R2' & _)]; try (destruct ew; lra).
      apply (turn_small _ _ _ Z). lra.
    - apply (turn_small _ _ _ Z).
      assert (A1 : east t' - west t' <> 0) by (intros E; apply (D (m1 - m2)%Z); rewrite minus_IZR; destruct ew; lra).
      assert (A2 : east t' - west t' <> 360) by (intros E; apply (D (1 + m1 - m2)%Z); rewrite minus_IZR, plus_IZR; destruct ew; lra).
      lra. }
  destruct ew.
  - exists (j + n1 + m2)%Z. rewrite !plus_IZR. split; lra.
  - exists (j + n1 - m1)%Z. rewrite minus_IZR, !plus_IZR. split; lra.
Qed.

Lemma inside_mirror p t : inside p t <-> inside (mp p) (mt t).
Proof.
  destruct p as [[x y] z]. unfold inside, mirror_point, mirror_tess, fst3, snd3, thd3. cbn [fst snd west east south north bottom top].
  split; intros ([k Hk] & H1 & H2); (split; [|split; [destruct ns; lra|lra]]); destruct ew; try (exists k; lra); exists (- k)%Z; rewrite opp_IZR; lra.
Qed.

Lemma check_points_image a ps qs ts us : Forall (fun t => -180 <= west t /\ east t <= 360) ts -> Forall (fun t => -180 <= west t /\ east t <= 360) us ->
  Forall2 (image_point ew ns a) ps qs -> Forall2 (image_tess_together ew ns a) ts us ->
  check_points_outside_tesseroids qs us = check_points_outside_tesseroids ps ts.
Proof.
  intros B1 B2 P T. destruct (check_points_spec ps ts B1) as [S1 S2], (check_points_spec qs us B2) as [R1 R2].
  unfold check_points_outside_tesseroids in *. destruct (conflicting ps ts) as [|c0 cs] eqn:E.
  - apply R2. intros q u Hq Hu I. destruct (Forall2_In_r _ _ _ _ P Hq) as (p & Hp & Rp). destruct (Forall2_In_r _ _ _ _ T Hu) as (t & Ht & Rt).
    apply (proj1 S2 eq_refl p t Hp Ht). apply inside_mirror. now apply (inside_shifted a (mp p) q (mt t) u).
  - apply R1. destruct (proj1 S1 eq_refl) as (p & t & Hp & Ht & I). destruct (Forall2_In_l _ _ _ _ P Hp) as (q & Hq & Rq). destruct (Forall2_In_l _ _ _ _ T Ht) as (u & Hu & Ru).
    exists q, u. repeat split; auto. apply (inside_shifted a (mp p) q (mt t) u); auto. exact (proj1 (inside_mirror p t) I).
Qed.

Lemma checks_image a ps qs ts us ts' us' : Forall2 (image_point ew ns a) ps qs -> Forall2 (image_tess ew ns a) ts us ->
  check_tesseroids_R ts = Ok ts' -> check_tesseroids_R us = Ok us' ->
  Forall2 (image_tess_together ew ns a) ts' us' /\ check_points_outside_tesseroids qs us' = check_points_outside_tesseroids ps ts'.
Proof.
  intros P T C D. apply check_tesseroids_ok in C, D. destruct C as (C1 & C2 & C3), D as (D1 & D2 & D3).
  assert (S : Forall2 (image_tess_together ew ns a) ts' us').
  { clear -T C2 C3 D2 D3. revert ts' us' C2 C3 D2 D3. induction T as [|t u ts us H T IH]; intros ts' us' C2 C3 D2 D3; inversion C2; inversion D2; subst; [constructor|].
    inversion C3; inversion D3; subst. constructor; [eapply moved_image; eassumption|]. now apply IH. }
  split; [exact S|]. apply (check_points_image a); [exact (Forall2_moved_bounds ts ts' C1 C2)|exact (Forall2_moved_bounds us us' D1 D2)|exact P|exact S].
Qed.

Lemma Forall2_map_l {A B C} (Rel : C -> B -> Prop) (f : A -> C) l l' : Forall2 (fun x y => Rel (f x) y) l l' -> Forall2 Rel (map f l) l'.
Proof. induction 1; constructor; auto. Qed.

Lemma constant_image a sh ps qs ts us ds field radial : prod_shape sh = length ps -> length ds = length ts -> In field ["potential"; "g_z"] ->
  Forall2 (image_point ew ns a) ps qs -> Forall2 (image_tess_together ew ns a) ts us ->
  same_or_overflow (mapM (point_total (distance_size_ratio field) radial (kernel_of field) (kept (combine ts ds))) ps)
    (mapM (point_total (distance_size_ratio field) radial (kernel_of field) (kept (combine us ds))) qs).
Proof.
  intros Hsh Hd Hf P T.
  rewrite (gravity_of_shifted a sh (map mp ps) qs (map mt ts) us ds field radial); auto; try (rewrite map_length; assumption); try (apply Forall2_map_l; assumption).
  apply constant_mirror.
Qed.

Lemma gravity_image_unchecked a sh ps qs ts us ds field radial : prod_shape sh = length ps -> length ds = length ts ->
  Forall2 (image_point ew ns a) ps qs -> Forall2 (image_tess_together ew ns a) ts us ->
  same_or_overflow (tesseroid_gravity (coords_of sh ps) ts (arr1 ds) field radial true) (tesseroid_gravity (coords_of sh qs) us (arr1 ds) field radial true).
Proof.
  intros Hsh Hd P T. destruct (field_dec field) as [Hf|Hf]; [|rewrite !gravity_bad_field by assumption; now left].
  rewrite !tesseroid_gravity_eq; auto; try (rewrite <- (Forall2_length _ _ _ P); assumption); try (rewrite <- (Forall2_length _ _ _ T); assumption).
  cbn [checks bind]. apply soo_bind. now apply (constant_image a sh).
Qed.

Lemma gravity_image_checked a sh ps qs ts us ds field radial : prod_shape sh = length ps -> length ds = length ts ->
  Forall2 (image_point ew ns a) ps qs -> Forall2 (image_tess ew ns a) ts us -> is_ok (check_tesseroids_R ts) -> is_ok (check_tesseroids_R us) ->
  same_or_overflow (tesseroid_gravity (coords_of sh ps) ts (arr1 ds) field radial false) (tesseroid_gravity (coords_of sh qs) us (arr1 ds) field radial false).
Proof.
  intros Hsh Hd P T [ts' C] [us' D]. destruct (field_dec field) as [Hf|Hf]; [|rewrite !gravity_bad_field by assumption; now left].
  rewrite !tesseroid_gravity_eq; auto; try (rewrite <- (Forall2_length _ _ _ P); assumption); try (rewrite <- (Forall2_length _ _ _ T); assumption).
  cbn [checks]. rewrite C, D. cbn [bind]. destruct (checks_image a ps qs ts us ts' us' P T C D) as [S ->].
  destruct (check_points_outside_tesseroids ps ts'); cbn [bind]; [|now left].
  assert (L : length ds = length ts'). { apply check_tesseroids_ok in C. destruct C as (_ & M & _). rewrite <- (Forall2_length _ _ _ M). exact Hd. }
  apply soo_bind. now apply (constant_image a sh).
Qed.

Lemma variable_image minimize a fuel ps qs ts us rho field radial : Forall2 (image_point ew ns a) ps qs -> Forall2 (image_tess_together ew ns a) ts us ->
  same_or_overflow (tail minimize fuel ts rho field radial ps) (tail minimize fuel us rho field radial qs).
Proof.
  intros P T. pose proof (variable_tail minimize a fuel (map mp ps) qs (map mt ts) us rho field radial) as V.
  fold (tail minimize fuel us rho field radial qs) in V. fold (tail minimize fuel (map mt ts) rho field radial (map mp ps)) in V.
  rewrite V by (apply Forall2_map_l; assumption). apply variable_mirror.
Qed.

Lemma variable_image_unchecked minimize a fuel sh ps qs ts us rho field radial : prod_shape sh = length ps ->
  Forall2 (image_point ew ns a) ps qs -> Forall2 (image_tess_together ew ns a) ts us ->
  same_or_overflow (tesseroid_gravity_variable minimize fuel (coords_of sh ps) ts rho field radial true) (tesseroid_gravity_variable minimize fuel (coords_of sh qs) us rho field radial true).
Proof.
  intros Hsh P T. destruct (field_dec field) as [Hf|Hf]; [|rewrite !variable_bad_field by assumption; now left].
  rewrite !variable_eq; auto; try (rewrite <- (Forall2_length _ _ _ P); assumption). cbn [checks bind]. apply soo_bind. exact (variable_image minimize a fuel ps qs ts us rho field radial P T).
Qed.

Lemma variable_image_checked minimize a fuel sh ps qs ts us rho field radial : prod_shape sh = length ps ->
  Forall2 (image_point ew ns a) ps qs -> Forall2 (image_tess ew ns a) ts us -> is_ok (check_tesseroids_R ts) -> is_ok (check_tesseroids_R us) ->
  same_or_overflow (tesseroid_gravity_variable minimize fuel (coords_of sh ps) ts rho field radial false) (tesseroid_gravity_variable minimize fuel (coords_of sh qs) us rho field radial false).
Proof.
  intros Hsh P T [ts' C] [us' D]. destruct (field_dec field) as [Hf|Hf]; [|rewrite !variable_bad_field by assumption; now left].
  rewrite !variable_eq; auto; try (rewrite <- (Forall2_length _ _ _ P); assumption).
  cbn [checks]. rewrite C, D. cbn [bind]. destruct (checks_image a ps qs ts us ts' us' P T C D) as [S ->].
  destruct (check_points_outside_tesseroids ps ts'); cbn [bind]; [|now left]. apply soo_bind. exact (variable_image minimize a fuel ps qs ts' us' rho field radial P S).
Qed.

(** ** Point sources *)
Lemma point_image a sh ps qs ss ss' field : prod_shape sh = length ps ->
  Forall2 (image_point ew ns a) ps qs -> Forall2 (fun s s' => image_point ew ns a (fst s) (fst s') /\ snd s' = snd s) ss ss' ->
  point_gravity (coords_of sh qs) (points_of ss') (masses_of ss') field "spherical" = point_gravity (coords_of sh ps) (points_of ss) (masses_of ss) field "spherical".
Proof.
  intros Hsh P S.
  rewrite (point_turned a sh (map mp ps) qs (map mirror_source ss) ss' field); [|now rewrite map_length|now apply Forall2_map_l|now apply Forall2_map_l].
  unfold point_gravity, coords_of, points_of, coords_of, masses_of, arr1, ravel. rewrite !broadcast3_same by reflexivity. cbn [shape data].
  rewrite !map_length, !Nat.eqb_refl. cbn [negb].
  change (check_coordinate_system "spherical" ["cartesian"; "spherical"]) with (@Ok unit tt). cbn [bind].
  change (String.eqb "spherical" "cartesian") with false. cbv iota. rewrite Hsh.
  destruct (get_kernel_spherical field) as [k|] eqn:E; cbn [bind]; [|reflexivity].
  replace (length ps) with (length (map mp ps)) at 1 by apply map_length.
  rewrite !point_mass_spherical_ok. cbn [bind].
  assert (Hk : k = potential_spherical \/ k = gravity_u_spherical).
  { revert E. unfold get_kernel_spherical, spherical_kernels. cbn [lookup].
    repeat (destruct (String.eqb _ _); [intros E; try discriminate; injection E as <-; auto|]). discriminate. }
  assert (X : map (fun p => sum_over (map mirror_source ss) (sph_kernel_of k p)) (map mp ps) = map (fun p => sum_over ss (sph_kernel_of k p)) ps); [|exact (f_equal (fun r => Ok (Arr sh (convert_units field r))) X)].
  rewrite map_map. apply map_ext. intros p. rewrite sum_over_map. apply sum_over_ext. intros s _. now apply kernel_mirror.
Qed.
End Mirror.
