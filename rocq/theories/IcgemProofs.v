(** Proofs about the ICGEM reader. *)
From Coq Require Import ZArith Ascii String Lia Lra.
From Verif Require Import Base BaseFacts PointGravityModel IcgemModel IcgemSpec.
Local Open Scope string_scope. Local Open Scope list_scope. Local Open Scope R_scope.

Lemma app_empty_r (s : string) : (s ++ "")%string = s.
Proof. induction s as [|c s IH]; cbn; [reflexivity|now rewrite IH]. Qed.
Lemma app_assoc_s (a b c : string) : ((a ++ b) ++ c)%string = (a ++ b ++ c)%string.
Proof. induction a as [|x a IH]; cbn; [reflexivity|now rewrite IH]. Qed.

(** ** Splitting *)
Lemma white_blank c : white c = blank c.
Proof. destruct c as [[] [] [] [] [] [] [] []]; reflexivity. Qed.
Lemma split_gap g s : all_white g -> split_from (g ++ s) "" = split_from s "".
Proof. induction g as [|c g IH]; intros H; [reflexivity|]; destruct H as [Hc H]; cbn; rewrite white_blank, Hc; apply IH, H. Qed.
Lemma split_word w s acc : no_white w -> split_from (w ++ s) acc = split_from s (acc ++ w).
Proof.
  revert acc; induction w as [|c w IH]; intros acc H; [now rewrite app_empty_r|].
  destruct H as [Hc H]; cbn; rewrite white_blank, Hc, IH by assumption; now rewrite app_assoc_s.
Qed.
Lemma split_break s w : breaks s -> w <> "" -> split_from s w = w :: split_from s "".
Proof.
  intros Hb Hw; destruct (String.eqb_spec w "") as [|N]; [contradiction|].
  destruct s as [|c s]; cbn [split_from].
  - destruct (String.eqb_spec w ""); [contradiction|reflexivity].
  - change (blank c = true) in Hb; rewrite white_blank, Hb; destruct (String.eqb_spec w ""); [contradiction|reflexivity].
Qed.
Lemma split_line ws s : line_of ws s -> split s = ws.
Proof.
  unfold split; induction 1 as [g Hg|g w ws s Hg Hw Hb Hs IH].
  - rewrite <- (app_empty_r g), split_gap by assumption; reflexivity.
  - rewrite split_gap, split_word by (try assumption; apply Hw); cbn [append].
    rewrite split_break, IH; [reflexivity|assumption|apply Hw].
Qed.
Lemma lstrip_gap g s : all_white g -> lstrip (g ++ s) = lstrip s.
Proof. induction g as [|c g IH]; intros H; [reflexivity|]; destruct H as [Hc H]; cbn; rewrite white_blank, Hc; apply IH, H. Qed.
Lemma lstrip_word w s : word w -> lstrip (w ++ s) = (w ++ s)%string.
Proof. intros [Hn Hw]; destruct w as [|c w]; [congruence|]; destruct Hw as [Hc _]; cbn; now rewrite white_blank, Hc. Qed.
Lemma prefix_break p w s : no_white p -> breaks s -> prefix p w = false -> prefix p (w ++ s) = false.
Proof.
  revert w; induction p as [|c p IH]; intros w Hp Hs H; [destruct w; discriminate|].
  destruct Hp as [Hc Hp].
  destruct w as [|d w].
  - cbn [append]; destruct s as [|d s]; [reflexivity|]; change (blank d = true) in Hs; cbn.
    destruct (ascii_dec c d) as [->|]; [congruence|reflexivity].
  - cbn in H |- *; destruct (ascii_dec c d); [apply IH; assumption|reflexivity].
Qed.
Lemma prefix_app p s : prefix p (p ++ s) = true.
Proof. induction p as [|c p IH]; cbn; [destruct s; reflexivity|]; destruct (ascii_dec c c); [exact IH|congruence]. Qed.
Lemma line_not_end w ws s : line_of (w :: ws) s -> not_end w -> is_end s = false.
Proof.
  intros H Hn; inversion H as [|g w' ws' s' Hg Hw Hb Hs]; subst; unfold is_end.
  rewrite lstrip_gap, lstrip_word by assumption; apply prefix_break; [repeat split|assumption|exact Hn].
Qed.
Lemma blank_not_end s : line_of [] s -> is_end s = false.
Proof. intros H; inversion H as [g Hg|]; subst; unfold is_end; rewrite <- (app_empty_r s), lstrip_gap by assumption; reflexivity. Qed.
Lemma end_is_end g tail : all_white g -> is_end (g ++ "end_of_head" ++ tail)%string = true.
Proof.
  intros Hg; unfold is_end; rewrite lstrip_gap by assumption.
  change ("end_of_head" ++ tail)%string with (("end_of_head") ++ tail)%string.
  rewrite lstrip_word by (split; [discriminate|repeat split]); apply prefix_app.
Qed.
(** Words joined with blanks are split again. *)
Lemma join_line ws : Forall word ws -> line_of ws (join ws).
Proof.
  unfold join; induction ws as [|w ws IH]; intros H; [constructor; exact I|].
  inversion H as [|? ? Hw Hws]; subst; specialize (IH Hws).
  destruct ws as [|w' ws].
  - cbn [String.concat]; pose proof (line_word "" w [] "" I Hw I (line_end "" I)) as L; cbn [append] in L; rewrite app_empty_r in L; exact L.
  - change (String.concat " " (w :: w' :: ws)) with (w ++ " " ++ String.concat " " (w' :: ws))%string.
    apply (line_word ""); [exact I|assumption|reflexivity|].
    remember (String.concat " " (w' :: ws)) as line eqn:El; clear El.
    inversion IH as [|g w'' ws'' s'' Hg Hw'' Hb Hs E1 E2]; subst.
    change (" " ++ g ++ w' ++ s'')%string with ((" " ++ g) ++ w' ++ s'')%string.
    constructor; try assumption; split; [reflexivity|exact Hg].
Qed.
Lemma line_words ws s : line_of ws s -> Forall word ws.
Proof. induction 1; constructor; assumption. Qed.

(** ** Dictionaries *)
Lemma lookup_dict_set {A} k k' (v : A) d : lookup k (dict_set k' v d) = if String.eqb k k' then Some v else lookup k d.
Proof.
  induction d as [|[k0 v0] d IH]; cbn [dict_set lookup].
  - reflexivity.
  - destruct (String.eqb_spec k' k0) as [->|N]; cbn [lookup].
    + destruct (String.eqb_spec k k0); reflexivity.
    + rewrite IH; destruct (String.eqb_spec k k0) as [->|]; [|reflexivity].
      destruct (String.eqb_spec k0 k'); [congruence|reflexivity].
Qed.
Lemma lookup_app {A} k (a b : list (string * A)) : lookup k (a ++ b) = match lookup k a with Some v => Some v | None => lookup k b end.
Proof. induction a as [|[k0 v0] a IH]; cbn; [reflexivity|]; destruct (String.eqb k k0); [reflexivity|exact IH]. Qed.
(** Assigning one after the other: the last value counts. *)
Lemma lookup_fold {A} k (kvs : list (string * A)) d :
  lookup k (fold_left (fun d kv => dict_set (fst kv) (snd kv) d) kvs d) = match lookup k (rev kvs) with Some v => Some v | None => lookup k d end.
Proof.
  revert d; induction kvs as [|[k0 v0] kvs IH]; intros d; cbn [fold_left rev]; [reflexivity|].
  rewrite IH, lookup_dict_set, lookup_app; cbn [lookup fst snd].
  destruct (lookup k (rev kvs)); [reflexivity|]; destruct (String.eqb k k0); reflexivity.
Qed.

(** ** Header *)
Definition field_dict (h : gdf) : list (string * string) :=
  fold_left (fun d kv => dict_set (fst kv) (snd kv) d) (map (fun kv => (fst kv, join (snd kv))) (g_fields h)) [].
Lemma read_fields kvs hs d rest a u : Forall2 (fun kv line => line_of (fst kv :: snd kv) line /\ not_end (fst kv)) kvs hs ->
  read_header (hs ++ rest) (Meta d a u) true false =
  read_header rest (Meta (fold_left (fun d kv => dict_set (fst kv) (snd kv) d) (map (fun kv => (fst kv, join (snd kv))) kvs) d) a u) true false.
Proof.
  intros H; revert d; induction H as [|[k vs] line kvs hs [Hl Hn] H IH]; intros d; [reflexivity|].
  cbn [fst snd] in *; cbn [app read_header]; rewrite (line_not_end _ _ _ Hl Hn), (split_line _ _ Hl).
  cbn [fields attributes attributes_units]; rewrite IH; reflexivity.
Qed.
Lemma read_header_ok h lines data : header_lines h lines ->
  read_header (lines ++ data) (Meta [] None None) true false = (Meta (field_dict h) (Some (g_names h)) (Some (g_units h)), data).
Proof.
  intros [hs blank l1 l2 g tail Hf Hb H1 (w1 & ws1 & E1 & N1) H2 (w2 & ws2 & E2 & N2) Hg].
  rewrite <- app_assoc, (read_fields (g_fields h)) by assumption; fold (field_dict h).
  cbn [app read_header]; rewrite (blank_not_end _ Hb), (split_line _ _ Hb).
  rewrite E1 in *; rewrite E2 in *.
  rewrite (line_not_end _ _ _ H1 N1), (split_line _ _ H1); cbn [negb fields attributes attributes_units].
  rewrite (line_not_end _ _ _ H2 N2), (split_line _ _ H2); cbn [negb fields attributes attributes_units].
  rewrite end_is_end by assumption; reflexivity.
Qed.
Lemma field_dict_lookup h k : lookup k (field_dict h) = option_map join (lookup k (rev (g_fields h))).
Proof.
  unfold field_dict; rewrite lookup_fold, <- map_rev; cbn [lookup].
  assert (G : forall l : list (string * list string), lookup k (map (fun kv => (fst kv, join (snd kv))) l) = option_map join (lookup k l)).
  { induction l as [|[k0 v0] l IH]; cbn; [reflexivity|]; destruct (String.eqb k k0); [reflexivity|exact IH]. }
  rewrite G; destruct (lookup k (rev (g_fields h))); reflexivity.
Qed.
Lemma header_words h lines k ws : header_lines h lines -> lookup k (rev (g_fields h)) = Some ws -> Forall word ws.
Proof.
  intros [hs blank l1 l2 g tail Hf _ _ _ _ _ _] H.
  assert (Hin : In (k, ws) (g_fields h)).
  { apply in_rev; revert H; generalize (rev (g_fields h)); induction l as [|[k0 v0] l IH]; cbn; [discriminate|].
    destruct (String.eqb_spec k k0) as [->|]; [intros E; inversion E; now left|intros E; right; now apply IH]. }
  clear H; induction Hf as [|kv line kvs hs' [Hl _] Hf IH]; [destruct Hin|].
  destruct Hin as [-> |Hin]; [|now apply IH].
  pose proof (line_words _ _ Hl) as W; now inversion W.
Qed.
Lemma first_word_ok w ws : Forall word (w :: ws) -> first_word (join (w :: ws)) = Ok w.
Proof. intros H; unfold first_word; now rewrite (split_line _ _ (join_line _ H)). Qed.

Section External.
Variable py_int : string -> res Z.
Variable py_float : string -> res R.
Variable loadtxt : list string -> option (list nat) -> res (list (list R)).

Definition has (d : list (string * string)) (h : gdf) (k : string) : Prop := forall w, value_of h k w -> lookup k d = Some w.
(** Going through the needed arguments keeps the other fields. *)
Lemma check_args_ok h lines d names units : header_lines h lines ->
  (forall k, lookup k d = option_map join (lookup k (rev (g_fields h)))) ->
  (forall k, In k needed_args -> exists w, value_of h k w) ->
  exists d', check_args (Meta d names units) = Ok (Meta d' names units) /\
    (forall k, In k needed_args -> has d' h k) /\
    (forall k, ~ In k needed_args -> lookup k d' = lookup k d).
Proof.
  intros Hh Hd Hn; unfold check_args.
  assert (G : forall args, NoDup args -> (forall k, In k args -> exists w, value_of h k w) -> forall d,
    (forall k, In k args -> lookup k d = option_map join (lookup k (rev (g_fields h)))) ->
    exists d', for_ args (fun arg m => match lookup arg (fields m) with
      | None => Raise OSError | Some v => do w <- first_word v; Ok (Meta (dict_set arg w (fields m)) (attributes m) (attributes_units m)) end) (Meta d names units)
      = Ok (Meta d' names units) /\ (forall k, In k args -> has d' h k) /\ (forall k, ~ In k args -> lookup k d' = lookup k d)).
  { clear d Hd Hn; induction args as [|a args IH]; intros Hnd Hv d Hd; cbn [for_].
    - exists d; split; [reflexivity|]; split; [intros k []|reflexivity].
    - inversion Hnd as [|? ? Ha Hnd']; subst.
      destruct (Hv a (or_introl eq_refl)) as (w & rest & Hl).
      assert (W : Forall word (w :: rest)) by (eapply header_words; eassumption).
      cbn [fields attributes attributes_units]; rewrite (Hd a (or_introl eq_refl)), Hl; cbn [option_map].
      rewrite first_word_ok by assumption; cbn [bind].
      destruct (IH Hnd' (fun k Hk => Hv k (or_intror Hk)) (dict_set a w d)) as (d' & E & H1 & H2).
      { intros k Hk; rewrite lookup_dict_set; destruct (String.eqb_spec k a) as [->|]; [contradiction|apply Hd; now right]. }
      exists d'; split; [exact E|]; split.
      + intros k [<-|Hk]; [|now apply H1].
        intros w' (rest' & Hl'); rewrite Hl in Hl'; inversion Hl'; subst.
        rewrite H2 by assumption; rewrite lookup_dict_set, String.eqb_refl; reflexivity.
      + intros k Hk; rewrite H2 by (intros C; apply Hk; now right).
        rewrite lookup_dict_set; destruct (String.eqb_spec k a) as [->|]; [exfalso; apply Hk; now left|reflexivity]. }
  apply G; [|exact Hn|intros; apply Hd].
  repeat constructor; cbn; intuition discriminate.
Qed.
Lemma mem_spec k l : mem k l = true <-> In k l.
Proof.
  unfold mem; rewrite existsb_exists; split.
  - intros (x & Hx & E); apply String.eqb_eq in E; now subst.
  - intros H; exists k; split; [exact H|apply String.eqb_refl].
Qed.
Lemma integrity_ok h lines : header_lines h lines ->
  (forall k, In k needed_args -> exists w, value_of h k w) -> List.length (g_names h) = List.length (g_units h) ->
  In "latitude" (g_names h) -> In "longitude" (g_names h) ->
  forall w0 w1 ws n0 n1, value_of h "latitude_parallels" w0 -> value_of h "longitude_parallels" w1 -> value_of h "number_of_gridpoints" ws ->
  py_int w0 = Ok n0 -> py_int w1 = Ok n1 -> py_int ws = Ok (n0 * n1)%Z ->
  exists d', _check_gdf_integrity py_int (Meta (field_dict h) (Some (g_names h)) (Some (g_units h)))
     = Ok (Meta d' (Some (g_names h)) (Some (map drop_brackets (g_units h)))) /\
    (forall k, In k needed_args -> has d' h k) /\ (forall k, ~ In k needed_args -> lookup k d' = option_map join (lookup k (rev (g_fields h)))).
Proof.
  intros Hh Hn Hlen Hla Hlo w0 w1 ws n0 n1 V0 V1 V2 I0 I1 I2.
  destruct (check_args_ok h lines (field_dict h) (Some (g_names h)) (Some (g_units h)) Hh (field_dict_lookup h) Hn) as (d' & E & H1 & H2).
  exists d'; split; [|split; [exact H1|intros k Hk; rewrite H2 by assumption; apply field_dict_lookup]].
  unfold _check_gdf_integrity; rewrite E; cbn [bind attributes attributes_units fields].
  rewrite Hlen, Nat.eqb_refl; cbn [negb].
  apply mem_spec in Hla, Hlo; rewrite Hla, Hlo; cbn [negb].
  unfold field; cbn [fields].
  rewrite (H1 "latitude_parallels" (or_introl eq_refl) _ V0), (H1 "longitude_parallels" (or_intror (or_introl eq_refl)) _ V1),
    (H1 "number_of_gridpoints" (or_intror (or_intror (or_introl eq_refl))) _ V2); cbn [bind].
  rewrite I0, I1, I2; cbn [bind]; rewrite Z.eqb_refl; reflexivity.
Qed.

(** ** Grids *)
Lemma nth_map_range {A} (f : nat -> A) n i d : (i < n)%nat -> nth i (map f (range 0 n)) d = f i.
Proof.
  intros H; rewrite (nth_indep _ d (f 0%nat)) by (rewrite map_length; unfold range; rewrite seq_length; lia).
  rewrite map_nth; unfold range; rewrite seq_nth by lia; reflexivity.
Qed.
Lemma range_length n : List.length (range 0 n) = n.
Proof. unfold range; rewrite seq_length; apply Nat.sub_0_r. Qed.
Definition mat (a : list R) (n0 n1 : nat) : list (list R) := map (fun i => map (fun j => nth (i * n1 + j) a 0) (range 0 n1)) (range 0 n0).
Lemma reshape_ok a n0 n1 : List.length a = (n0 * n1)%nat -> reshape a (Z.of_nat n0) (Z.of_nat n1) = Ok (mat a n0 n1).
Proof.
  intros H; unfold reshape.
  replace ((Z.of_nat n0 <? 0) || (Z.of_nat n1 <? 0) || negb (Z.of_nat (List.length a) =? Z.of_nat n0 * Z.of_nat n1))%Z%bool with false.
  - rewrite !Nat2Z.id; reflexivity.
  - symmetry; rewrite H, Nat2Z.inj_mul, Z.eqb_refl; cbn [negb]; rewrite Bool.orb_false_r.
    apply Bool.orb_false_iff; split; apply Z.ltb_ge; lia.
Qed.
Lemma mat_length a n0 n1 : List.length (mat a n0 n1) = n0.
Proof. unfold mat; rewrite map_length; apply range_length. Qed.
Lemma mat_nth a n0 n1 i : (i < n0)%nat -> nth i (mat a n0 n1) [] = map (fun j => nth (i * n1 + j) a 0) (range 0 n1).
Proof. intros H; unfold mat; now rewrite nth_map_range. Qed.
Lemma heads_length a : List.length (heads a) = List.length a.
Proof. induction a; cbn; congruence. Qed.
Lemma heads_nth a i : nth i (heads a) 0 = nth 0 (nth i a []) 0.
Proof. revert i; induction a as [|r a IH]; intros [|i]; cbn; try reflexivity; apply IH. Qed.

Lemma dict_zip_lookup k names cols d : NoDup names -> List.length names = List.length cols ->
  lookup k (dict_zip names cols d) = match lookup k (combine names cols) with Some v => Some v | None => lookup k d end.
Proof.
  revert cols d; induction names as [|n names IH]; intros [|c cols] d Hnd Hl; try discriminate; [reflexivity|].
  inversion Hnd as [|? ? Hn Hnd']; subst; cbn [dict_zip combine lookup].
  rewrite IH by (try assumption; now inversion Hl).
  rewrite lookup_dict_set; destruct (String.eqb_spec k n) as [->|N]; [|reflexivity].
  destruct (lookup n (combine names cols)) eqn:E; [|reflexivity].
  exfalso; apply Hn; clear - E; revert cols E; induction names as [|m names IH]; intros [|c cols] E; try discriminate.
  cbn in E; destruct (String.eqb_spec n m) as [->|]; [now left|right; eapply IH; exact E].
Qed.
Lemma dict_set_keys {A} k (v : A) d x : In x (map fst (dict_set k v d)) <-> x = k \/ In x (map fst d).
Proof.
  induction d as [|[k0 v0] d IH]; cbn [dict_set map fst In]; [intuition auto|].
  destruct (String.eqb_spec k k0) as [->|N]; cbn [map fst In]; [intuition auto|rewrite IH; intuition auto].
Qed.
Lemma dict_set_nodup {A} k (v : A) d : NoDup (map fst d) -> NoDup (map fst (dict_set k v d)).
Proof.
  induction d as [|[k0 v0] d IH]; cbn [dict_set map fst]; intros H; [repeat constructor; intros []|].
  inversion H as [|? ? H1 H2]; subst; destruct (String.eqb_spec k k0) as [->|N]; cbn [map fst]; constructor; try assumption; [|now apply IH].
  rewrite dict_set_keys; intros [->|C]; [congruence|contradiction].
Qed.
Lemma dict_zip_nodup names cols d : NoDup (map fst d) -> NoDup (map fst (dict_zip names cols d)).
Proof. revert cols d; induction names as [|n names IH]; intros [|c cols] d H; cbn [dict_zip]; try assumption; apply IH, dict_set_nodup, H. Qed.
Lemma lookup_In {A} k (v : A) d : lookup k d = Some v -> In (k, v) d.
Proof. induction d as [|[k0 v0] d IH]; cbn; [discriminate|]; destruct (String.eqb_spec k k0) as [->|]; [intros E; inversion E; now left|intros E; right; now apply IH]. Qed.
Lemma In_lookup {A} k (v : A) d : NoDup (map fst d) -> In (k, v) d -> lookup k d = Some v.
Proof.
  induction d as [|[k0 v0] d IH]; cbn; [intros _ []|]; intros H; inversion H as [|? ? H1 H2]; subst.
  intros [E|E]; [inversion E; subst; now rewrite String.eqb_refl|].
  destruct (String.eqb_spec k k0) as [->|]; [|now apply IH].
  exfalso; apply H1; change k0 with (fst (k0, v)); now apply in_map.
Qed.
Lemma dict_zip_In k v names cols d : In (k, v) (dict_zip names cols d) -> In v cols \/ In (k, v) d.
Proof.
  revert cols d; induction names as [|n names IH]; intros [|c cols] d H; cbn [dict_zip] in H; try (now right).
  destruct (IH _ _ H) as [C|C]; [left; now right|].
  clear - C; induction d as [|[k0 v0] d IH]; cbn [dict_set] in C.
  - destruct C as [E|[]]; inversion E; left; now left.
  - destruct (String.eqb n k0); [destruct C as [E|C]; [inversion E; left; now left|right; now right]|].
    destruct C as [E|C]; [right; now left|]; destruct (IH C) as [X|X]; [now left|right; now right].
Qed.
(** The data variables. *)
Lemma vars_ok data n0 n1 : NoDup (map fst data) -> (forall k v, In (k, v) data -> List.length v = (n0 * n1)%nat) ->
  exists vars, for_ data (fun nv vars => if mem (fst nv) ["latitude"; "longitude"] then Ok vars
      else do a <- reshape (snd nv) (Z.of_nat n0) (Z.of_nat n1); Ok (dict_set (fst nv) (rev a) vars)) [] = Ok vars /\
    forall k, lookup k vars = if mem k ["latitude"; "longitude"] then None else option_map (fun v => rev (mat v n0 n1)) (lookup k data).
Proof.
  intros Hnd Hlen.
  assert (G : forall data acc, NoDup (map fst data) -> (forall k v, In (k, v) data -> List.length v = (n0 * n1)%nat) ->
    exists vars, for_ data (fun nv vars => if mem (fst nv) ["latitude"; "longitude"] then Ok vars
      else do a <- reshape (snd nv) (Z.of_nat n0) (Z.of_nat n1); Ok (dict_set (fst nv) (rev a) vars)) acc = Ok vars /\
    forall k, lookup k vars = if mem k ["latitude"; "longitude"] then lookup k acc
       else match lookup k data with Some v => Some (rev (mat v n0 n1)) | None => lookup k acc end).
  { clear; induction data as [|[k0 v0] data IH]; intros acc Hnd Hlen; cbn [for_].
    - exists acc; split; [reflexivity|]; intros k; cbn [lookup]; destruct (mem k _); reflexivity.
    - inversion Hnd as [|? ? H1 H2]; subst; cbn [fst snd].
      destruct (mem k0 ["latitude"; "longitude"]) eqn:E; cbn [bind].
      + destruct (IH acc H2 (fun k v H => Hlen k v (or_intror H))) as (vars & F & L); exists vars; split; [exact F|].
        intros k; rewrite L; cbn [lookup]; destruct (String.eqb_spec k k0) as [->|]; [|reflexivity]; rewrite E; reflexivity.
      + rewrite reshape_ok by (apply (Hlen k0); now left); cbn [bind].
        destruct (IH (dict_set k0 (rev (mat v0 n0 n1)) acc) H2 (fun k v H => Hlen k v (or_intror H))) as (vars & F & L); exists vars; split; [exact F|].
        intros k; rewrite L; cbn [lookup]; rewrite lookup_dict_set.
        destruct (String.eqb_spec k k0) as [->|N]; [|reflexivity].
        rewrite E; destruct (lookup k0 data) eqn:C; [|reflexivity].
        exfalso; apply H1; apply lookup_In in C; change k0 with (fst (k0, l)); now apply in_map. }
  destruct (G data [] Hnd Hlen) as (vars & F & L); exists vars; split; [exact F|].
  intros k; rewrite L; cbn [lookup]; destruct (mem k _); [reflexivity|]; destruct (lookup k data); reflexivity.
Qed.

Lemma fold_min l x : (fold_left Rmin l x = x \/ In (fold_left Rmin l x) l) /\ fold_left Rmin l x <= x /\ forall y, In y l -> fold_left Rmin l x <= y.
Proof.
  revert x; induction l as [|z l IH]; intros x; cbn [fold_left].
  - split; [now left|split; [lra|intros y []]].
  - destruct (IH (Rmin x z)) as (A & B & C).
    pose proof (Rmin_l x z); pose proof (Rmin_r x z).
    split; [|split; [lra|intros y [<-|Hy]; [lra|apply C, Hy]]].
    destruct A as [A|A]; [|right; now right].
    rewrite A; unfold Rmin; destruct (Rle_dec x z); [now left|right; now left].
Qed.
Lemma fold_max l x : (fold_left Rmax l x = x \/ In (fold_left Rmax l x) l) /\ x <= fold_left Rmax l x /\ forall y, In y l -> y <= fold_left Rmax l x.
Proof.
  revert x; induction l as [|z l IH]; intros x; cbn [fold_left].
  - split; [now left|split; [lra|intros y []]].
  - destruct (IH (Rmax x z)) as (A & B & C).
    pose proof (Rmax_l x z); pose proof (Rmax_r x z).
    split; [|split; [lra|intros y [<-|Hy]; [lra|apply C, Hy]]].
    destruct A as [A|A]; [|right; now right].
    rewrite A; unfold Rmax; destruct (Rle_dec x z); [right; now left|now left].
Qed.
Lemma lmin_least l m : lmin l = Ok m <-> least l m.
Proof.
  split.
  - destruct l as [|x l]; [discriminate|]; cbn [lmin]; intros E; inversion E; subst; destruct (fold_min l x) as (A & B & C).
    split; [destruct A as [A|A]; [left; symmetry; exact A|right; exact A]|intros y [<-|Hy]; [exact B|apply C, Hy]].
  - intros [Hi Hm]; destruct l as [|x l]; [destruct Hi|]; cbn [lmin]; f_equal; destruct (fold_min l x) as (A & B & C).
    apply Rle_antisym; [destruct Hi as [<-|Hi]; [exact B|apply C, Hi]|].
    destruct A as [-> |A]; [apply Hm; now left|apply Hm; now right].
Qed.
Lemma lmax_greatest l m : lmax l = Ok m <-> greatest l m.
Proof.
  split.
  - destruct l as [|x l]; [discriminate|]; cbn [lmax]; intros E; inversion E; subst; destruct (fold_max l x) as (A & B & C).
    split; [destruct A as [A|A]; [left; symmetry; exact A|right; exact A]|intros y [<-|Hy]; [exact B|apply C, Hy]].
  - intros [Hi Hm]; destruct l as [|x l]; [destruct Hi|]; cbn [lmax]; f_equal; destruct (fold_max l x) as (A & B & C).
    apply Rle_antisym; [destruct A as [-> |A]; [apply Hm; now left|apply Hm; now right]|].
    destruct Hi as [<-|Hi]; [exact B|apply C, Hi].
Qed.
Lemma isclose_near a b : isclose a b = true <-> near a b.
Proof. unfold isclose, near; apply Rleb_true. Qed.

(** ** Loading *)
Lemma nodup_dict names cols : NoDup names -> List.length names = List.length cols -> forall k, lookup k (dict_zip names cols []) = lookup k (combine names cols).
Proof. intros; rewrite dict_zip_lookup by assumption; destruct (lookup k (combine names cols)); reflexivity. Qed.
Lemma load_ok h lines rest cols n0 n1 lat lon south north west east : header_lines h lines ->
  (forall k, In k needed_args -> exists w, value_of h k w) ->
  List.length (g_units h) = List.length (g_names h) -> List.length cols = List.length (g_names h) -> NoDup (g_names h) ->
  loadtxt rest None = Ok cols -> Forall (fun c => List.length c = (n0 * n1)%nat) cols -> (0 < n0)%nat -> (0 < n1)%nat ->
  lookup "latitude" (combine (g_names h) cols) = Some lat -> lookup "longitude" (combine (g_names h) cols) = Some lon ->
  (forall w, value_of h "latitude_parallels" w -> py_int w = Ok (Z.of_nat n0)) ->
  (forall w, value_of h "longitude_parallels" w -> py_int w = Ok (Z.of_nat n1)) ->
  (forall w, value_of h "number_of_gridpoints" w -> py_int w = Ok (Z.of_nat (n0 * n1))) ->
  (forall w, value_of h "latlimit_south" w -> py_float w = Ok south) -> (forall w, value_of h "latlimit_north" w -> py_float w = Ok north) ->
  (forall w, value_of h "longlimit_west" w -> py_float w = Ok west) -> (forall w, value_of h "longlimit_east" w -> py_float w = Ok east) ->
  (forall ws, lookup "height_over_ell" (rev (g_fields h)) = Some ws -> exists w rest' z, ws = w :: rest' /\ py_float w = Ok z) ->
  let la := rev (heads (mat lat n0 n1)) in
  let lo := map (fun j => nth j lon 0) (range 0 n1) in
  (exists m, least la m /\ near south m) -> (exists m, greatest la m /\ near north m) ->
  (exists m, least lo m /\ near west m) -> (exists m, greatest lo m /\ near east m) ->
  exists g, load_icgem_gdf py_int py_float loadtxt (lines ++ rest) None = Ok g /\
    latitude g = la /\ longitude g = lo /\
    (forall k v, k <> "latitude" -> k <> "longitude" -> (k <> "height_over_ell" \/ lookup "height_over_ell" (rev (g_fields h)) = None) ->
       lookup k (combine (g_names h) cols) = Some v -> lookup k (variables g) = Some (rev (mat v n0 n1))) /\
    (forall w z, value_of h "height_over_ell" w -> py_float w = Ok z -> lookup "height_over_ell" (variables g) = Some (repeat (repeat z n1) n0)).
Proof.
  intros Hh Hn Hlu Hlc Hnd Htxt Hcols Hn0 Hn1 Hlat Hlon P0 P1 P2 F0 F1 F2 F3 Hhei la lo A0 A1 A2 A3.
  assert (Iarg : forall k, mem k needed_args = true -> In k needed_args) by (intros k; apply mem_spec).
  destruct (Hn "latitude_parallels" (Iarg "latitude_parallels" eq_refl)) as (w0 & V0).
  destruct (Hn "longitude_parallels" (Iarg "longitude_parallels" eq_refl)) as (w1 & V1).
  destruct (Hn "number_of_gridpoints" (Iarg "number_of_gridpoints" eq_refl)) as (w2 & V2).
  destruct (Hn "latlimit_south" (Iarg "latlimit_south" eq_refl)) as (w3 & V3).
  destruct (Hn "latlimit_north" (Iarg "latlimit_north" eq_refl)) as (w4 & V4).
  destruct (Hn "longlimit_west" (Iarg "longlimit_west" eq_refl)) as (w5 & V5).
  destruct (Hn "longlimit_east" (Iarg "longlimit_east" eq_refl)) as (w6 & V6).
  assert (Nam : forall k v, lookup k (combine (g_names h) cols) = Some v -> In k (g_names h) /\ In v cols).
  { intros k v E; apply lookup_In in E; split; [eapply in_combine_l|eapply in_combine_r]; exact E. }
  assert (P2' : py_int w2 = Ok (Z.of_nat n0 * Z.of_nat n1)%Z) by (rewrite (P2 _ V2); f_equal; lia).
  destruct (integrity_ok h lines Hh Hn (eq_sym Hlu) (proj1 (Nam _ _ Hlat)) (proj1 (Nam _ _ Hlon)) w0 w1 w2 _ _ V0 V1 V2 (P0 _ V0) (P1 _ V1) P2') as (d & Ed & D1 & D2).
  unfold load_icgem_gdf, _read_gdf_file.
  rewrite (read_header_ok h lines rest Hh), Htxt; cbn [bind]; rewrite Ed; cbn [bind attributes attributes_units fields].
  rewrite Hlc, Nat.eqb_refl; cbn [negb bind].
  unfold field; cbn [fields].
  rewrite (D1 _ (Iarg "latitude_parallels" eq_refl) _ V0), (D1 _ (Iarg "longitude_parallels" eq_refl) _ V1),
    (D1 _ (Iarg "latlimit_south" eq_refl) _ V3), (D1 _ (Iarg "latlimit_north" eq_refl) _ V4),
    (D1 _ (Iarg "longlimit_west" eq_refl) _ V5), (D1 _ (Iarg "longlimit_east" eq_refl) _ V6); cbn [bind].
  rewrite (P0 _ V0), (P1 _ V1), (F0 _ V3), (F1 _ V4), (F2 _ V5), (F3 _ V6); cbn [bind attributes].
  set (data := dict_zip (g_names h) cols []).
  assert (Hdata : forall k, lookup k data = lookup k (combine (g_names h) cols)) by (apply nodup_dict; [assumption|congruence]).
  unfold column; rewrite !Hdata, Hlat, Hlon; cbn [bind].
  assert (Lc : forall k v, lookup k (combine (g_names h) cols) = Some v -> List.length v = (n0 * n1)%nat).
  { intros k v E; destruct (Nam _ _ E) as [_ I]; rewrite Forall_forall in Hcols; now apply Hcols. }
  rewrite !reshape_ok by (eapply Lc; eassumption); cbn [bind].
  assert (Er : first_row (mat lon n0 n1) = Ok lo).
  { unfold mat, lo; destruct n0 as [|n0]; [lia|]; unfold range; rewrite !Nat.sub_0_r; cbn [seq map first_row]; reflexivity. }
  rewrite Er; cbn [bind].
  unfold first_col; destruct (Z.ltb_spec (Z.of_nat n1) 1); [lia|]; cbn [bind]; fold la.
  destruct (vars_ok data n0 n1) as (vars & Ev & Lv).
  { apply dict_zip_nodup; constructor. }
  { intros k v I; apply dict_zip_In in I; destruct I as [I|[]]; rewrite Forall_forall in Hcols; now apply Hcols. }
  rewrite Ev; cbn [bind].
  assert (B0 : exists m, lmin la = Ok m /\ isclose south m = true) by (destruct A0 as (m & L & N); exists m; split; [now apply lmin_least|now apply isclose_near]).
  assert (B1 : exists m, lmax la = Ok m /\ isclose north m = true) by (destruct A1 as (m & L & N); exists m; split; [now apply lmax_greatest|now apply isclose_near]).
  assert (B2 : exists m, lmin lo = Ok m /\ isclose west m = true) by (destruct A2 as (m & L & N); exists m; split; [now apply lmin_least|now apply isclose_near]).
  assert (B3 : exists m, lmax lo = Ok m /\ isclose east m = true) by (destruct A3 as (m & L & N); exists m; split; [now apply lmax_greatest|now apply isclose_near]).
  destruct B0 as (m0 & -> & C0), B1 as (m1 & -> & C1), B2 as (m2 & -> & C2), B3 as (m3 & -> & C3).
  rewrite D2 by (cbn; intuition discriminate).
  destruct (lookup "height_over_ell" (rev (g_fields h))) as [ws|] eqn:Eh; cbn [option_map].
  - destruct (Hhei ws eq_refl) as (w & rest' & z & -> & Hz).
    rewrite first_word_ok by (eapply header_words; eassumption); cbn [bind]; rewrite Hz; cbn [bind].
    rewrite C0, C1, C2, C3; cbn [andb]; eexists; split; [reflexivity|]; cbn [latitude longitude variables].
    split; [reflexivity|]; split; [reflexivity|]; split.
    + intros k v K1 K2 [K3|K3] Ek; [|discriminate].
      rewrite lookup_dict_set; destruct (String.eqb_spec k "height_over_ell"); [contradiction|].
      rewrite Lv, Hdata, Ek; cbn [option_map].
      destruct (mem k ["latitude"; "longitude"]) eqn:Em; [|reflexivity].
      apply mem_spec in Em; destruct Em as [E|[E|[]]]; congruence.
    + intros w' z' (r' & Hr) Hz'; rewrite Eh in Hr; inversion Hr; subst; rewrite Hz in Hz'; inversion Hz'; subst.
      rewrite lookup_dict_set, String.eqb_refl, !Nat2Z.id; reflexivity.
  - cbn [bind]; rewrite C0, C1, C2, C3; cbn [andb]; eexists; split; [reflexivity|]; cbn [latitude longitude variables].
    split; [reflexivity|]; split; [reflexivity|]; split.
    + intros k v K1 K2 _ Ek; rewrite Lv, Hdata, Ek; cbn [option_map].
      destruct (mem k ["latitude"; "longitude"]) eqn:Em; [|reflexivity].
      apply mem_spec in Em; destruct Em as [E|[E|[]]]; congruence.
    + intros w' z' (r' & Hr); rewrite Eh in Hr; discriminate.
Qed.
Lemma rev_nth_mat {A} (l : list A) n i d : List.length l = n -> (i < n)%nat -> nth i (rev l) d = nth (n - 1 - i) l d.
Proof. intros <- H; rewrite rev_nth by assumption; f_equal; lia. Qed.
Lemma latitude_nth lat n0 n1 i : (i < n0)%nat -> (0 < n1)%nat -> nth i (rev (heads (mat lat n0 n1))) 0 = nth ((n0 - 1 - i) * n1) lat 0.
Proof.
  intros Hi Hn; rewrite (rev_nth_mat _ n0) by (rewrite ?heads_length, ?mat_length; auto).
  rewrite heads_nth, mat_nth, nth_map_range by lia; f_equal; lia.
Qed.
Lemma value_nth v n0 n1 i j : (i < n0)%nat -> (j < n1)%nat -> nth j (nth i (rev (mat v n0 n1)) []) 0 = nth ((n0 - 1 - i) * n1 + j) v 0.
Proof.
  intros Hi Hj; rewrite (rev_nth_mat _ n0) by (rewrite ?mat_length; auto).
  rewrite mat_nth, nth_map_range by lia; reflexivity.
Qed.

(** What an accepted file satisfies. *)
Lemma bind_ok {A B} (x : res A) (f : A -> res B) r : bind x f = Ok r -> exists a, x = Ok a /\ f a = Ok r.
Proof. destruct x as [a|e]; cbn [bind]; [eauto|discriminate]. Qed.
Lemma reshape_inv a n0 n1 m : reshape a n0 n1 = Ok m -> exists p q, n0 = Z.of_nat p /\ n1 = Z.of_nat q /\ m = mat a p q /\ List.length a = (p * q)%nat.
Proof.
  unfold reshape; destruct (Z.ltb_spec n0 0) as [|H0]; [discriminate|]; destruct (Z.ltb_spec n1 0) as [|H1]; [discriminate|]; cbn [orb].
  destruct (Z.eqb_spec (Z.of_nat (List.length a)) (n0 * n1)) as [E|]; [|discriminate]; cbn [negb]; intros H; inversion H.
  exists (Z.to_nat n0), (Z.to_nat n1); repeat split; lia.
Qed.
Ltac binds H := repeat match type of H with
  | bind _ _ = Ok _ => let x := fresh "x" in let E := fresh "E" in apply bind_ok in H; destruct H as (x & E & H)
  end.
Lemma load_inv lines usecols g : load_icgem_gdf py_int py_float loadtxt lines usecols = Ok g ->
  exists s0 s1 size n0 n1 sS sN sW sE south north west east,
    lookup "latitude_parallels" (fields (attrs g)) = Some s0 /\ py_int s0 = Ok (Z.of_nat n0) /\
    lookup "longitude_parallels" (fields (attrs g)) = Some s1 /\ py_int s1 = Ok (Z.of_nat n1) /\
    lookup "number_of_gridpoints" (fields (attrs g)) = Some size /\ py_int size = Ok (Z.of_nat (n0 * n1)) /\
    List.length (latitude g) = n0 /\ List.length (longitude g) = n1 /\
    (exists cols, loadtxt (snd (read_header lines (Meta [] None None) true false)) usecols = Ok cols /\
       (usecols = None -> forall names, attributes (fst (read_header lines (Meta [] None None) true false)) = Some names ->
          List.length cols = List.length names /\ (NoDup names -> Forall (fun c => List.length c = (n0 * n1)%nat) cols))) /\
    lookup "latlimit_south" (fields (attrs g)) = Some sS /\ py_float sS = Ok south /\
    lookup "latlimit_north" (fields (attrs g)) = Some sN /\ py_float sN = Ok north /\
    lookup "longlimit_west" (fields (attrs g)) = Some sW /\ py_float sW = Ok west /\
    lookup "longlimit_east" (fields (attrs g)) = Some sE /\ py_float sE = Ok east /\
    (exists m, least (latitude g) m /\ near south m) /\ (exists m, greatest (latitude g) m /\ near north m) /\
    (exists m, least (longitude g) m /\ near west m) /\ (exists m, greatest (longitude g) m /\ near east m).
Proof.
  unfold load_icgem_gdf; intros H; apply bind_ok in H; destruct H as ([raw m] & Er & H).
  unfold _read_gdf_file in Er; destruct (read_header lines _ _ _) as [m0 rest] eqn:Eh; cbn [fst snd].
  apply bind_ok in Er; destruct Er as (cols & Ec & Er).
  apply bind_ok in Er; destruct Er as (m1 & Em & Er).
  destruct (attributes m1) as [names|] eqn:Ea; [|discriminate].
  apply bind_ok in Er; destruct Er as (names' & En & Er).
  destruct (Nat.eqb_spec (List.length names') (List.length cols)) as [El|]; [|discriminate]; cbn [negb] in Er; inversion Er; subst raw m; clear Er.
  cbn [fields attributes attributes_units] in H.
  unfold field in H; cbn [fields] in H.
  destruct (lookup "latitude_parallels" (fields m1)) as [s0|] eqn:L0; [|discriminate]; cbn [bind] in H.
  apply bind_ok in H; destruct H as (z0 & I0 & H).
  destruct (lookup "longitude_parallels" (fields m1)) as [s1|] eqn:L1; [|discriminate]; cbn [bind] in H.
  apply bind_ok in H; destruct H as (z1 & I1 & H).
  apply bind_ok in H; destruct H as (lon & Elon & H).
  apply bind_ok in Elon; destruct Elon as (c1 & Ec1 & Elon); apply bind_ok in Elon; destruct Elon as (a1 & Ea1 & Elon).
  apply reshape_inv in Ea1; destruct Ea1 as (n0 & n1 & -> & -> & -> & Hlen1).
  apply bind_ok in H; destruct H as (lat & Elat & H).
  apply bind_ok in Elat; destruct Elat as (c2 & Ec2 & Elat); apply bind_ok in Elat; destruct Elat as (a2 & Ea2 & Elat).
  apply reshape_inv in Ea2; destruct Ea2 as (n0' & n1' & E0' & E1' & -> & Hlen2).
  apply Nat2Z.inj in E0', E1'; subst n0' n1'.
  apply bind_ok in Elat; destruct Elat as (lc & Elc & Elat); inversion Elat; subst lat; clear Elat.
  unfold first_col in Elc; destruct (Z.ltb_spec (Z.of_nat n1) 1); [discriminate|]; inversion Elc; subst lc; clear Elc.
  apply bind_ok in H; destruct H as (vars & Ev & H).
  apply bind_ok in H; destruct H as (vars' & Ev' & H).
  destruct (lookup "latlimit_south" (fields m1)) as [sS|] eqn:LS; [|discriminate]; cbn [bind] in H.
  apply bind_ok in H; destruct H as (south & IS & H).
  destruct (lookup "latlimit_north" (fields m1)) as [sN|] eqn:LN; [|discriminate]; cbn [bind] in H.
  apply bind_ok in H; destruct H as (north & IN' & H).
  destruct (lookup "longlimit_west" (fields m1)) as [sW|] eqn:LW; [|discriminate]; cbn [bind] in H.
  apply bind_ok in H; destruct H as (west & IW & H).
  destruct (lookup "longlimit_east" (fields m1)) as [sE|] eqn:LE; [|discriminate]; cbn [bind] in H.
  apply bind_ok in H; destruct H as (east & IE & H).
  apply bind_ok in H; destruct H as (q0 & Q0 & H). apply bind_ok in H; destruct H as (q1 & Q1 & H).
  apply bind_ok in H; destruct H as (q2 & Q2 & H). apply bind_ok in H; destruct H as (q3 & Q3 & H).
  destruct (isclose south q0) eqn:C0; [|discriminate]; destruct (isclose north q1) eqn:C1; [|discriminate];
  destruct (isclose west q2) eqn:C2; [|discriminate]; destruct (isclose east q3) eqn:C3; [|discriminate].
  cbn [andb] in H; inversion H; subst g; clear H; cbn [attrs fields latitude longitude].
  apply isclose_near in C0, C1, C2, C3; apply lmin_least in Q0, Q2; apply lmax_greatest in Q1, Q3.
  (* the integrity check *)
  unfold _check_gdf_integrity in Em; apply bind_ok in Em; destruct Em as (m2 & Em2 & Em).
  destruct (attributes m2) as [nm|] eqn:Enm; [|discriminate]; destruct (attributes_units m2) as [un|]; [|discriminate].
  destruct (Nat.eqb (List.length nm) (List.length un)); [|discriminate]; cbn [negb] in Em.
  destruct (mem "latitude" nm); [|discriminate]; destruct (mem "longitude" nm); [|discriminate]; cbn [negb] in Em.
  unfold field in Em; cbn [fields] in Em.
  destruct (lookup "latitude_parallels" (fields m2)) as [t0|] eqn:T0; [|discriminate]; cbn [bind] in Em.
  apply bind_ok in Em; destruct Em as (y0 & J0 & Em).
  destruct (lookup "longitude_parallels" (fields m2)) as [t1|] eqn:T1; [|discriminate]; cbn [bind] in Em.
  apply bind_ok in Em; destruct Em as (y1 & J1 & Em).
  destruct (lookup "number_of_gridpoints" (fields m2)) as [t2|] eqn:T2; [|discriminate]; cbn [bind] in Em.
  apply bind_ok in Em; destruct Em as (y2 & J2 & Em).
  destruct (Z.eqb_spec (y0 * y1) y2) as [Ey|]; [|discriminate]; cbn [negb] in Em; inversion Em; subst m1; clear Em; cbn [fields attributes] in *.
  rewrite T0 in L0; rewrite T1 in L1; inversion L0; inversion L1; subst t0 t1; clear L0 L1.
  rewrite I0 in J0; rewrite I1 in J1; inversion J0; inversion J1; subst y0 y1; clear J0 J1.
  inversion Ea; subst nm; clear Ea.
  assert (Hn0 : (0 < n0)%nat) by (destruct n0; [discriminate Elon|lia]).
  exists s0, s1, t2, n0, n1, sS, sN, sW, sE, south, north, west, east.
  refine (conj T0 (conj I0 (conj T1 (conj I1 (conj T2 (conj _ (conj _ (conj _ (conj _ (conj LS (conj IS (conj LN (conj IN' (conj LW (conj IW (conj LE (conj IE (conj _ (conj _ (conj _ _)))))))))))))))))))).
  - rewrite J2; f_equal; lia.
  - rewrite rev_length, heads_length, mat_length; reflexivity.
  - destruct n0 as [|n0]; [lia|]; unfold mat in Elon; unfold range in Elon; rewrite !Nat.sub_0_r in Elon; cbn [seq map first_row] in Elon; inversion Elon; rewrite map_length, seq_length; lia.
  - exists cols; split; [exact Ec|]; intros -> names0 Ham; inversion En; subst names'; clear En.
    assert (Enn : Some names0 = Some names).
    { rewrite <- Ham, <- Enm; clear - Em2; unfold check_args in Em2; revert m0 Em2; generalize needed_args; induction l as [|a l IH]; intros m0 E; cbn [for_] in E; [now inversion E|].
      apply bind_ok in E; destruct E as (m3 & E3 & E).
      destruct (lookup a (fields m0)); [|discriminate]; apply bind_ok in E3; destruct E3 as (w & _ & E3); inversion E3; subst m3.
      rewrite <- (IH _ E); reflexivity. }
    inversion Enn; subst names0; split; [congruence|]; intros Hnd.
    apply Forall_forall; intros c Hc.
    assert (Hk : exists k, In (k, c) (combine names cols)).
    { clear - El Hc; revert cols El Hc; induction names as [|n names IH]; intros [|c' cols] El Hc; try discriminate; [destruct Hc|].
      destruct Hc as [->|Hc]; [exists n; now left|]; destruct (IH cols ltac:(now inversion El) Hc) as (k & Hk); exists k; now right. }
    destruct Hk as (k & Hk).
    assert (Hcomb : NoDup (map fst (combine names cols))).
    { clear - Hnd El; revert cols El; induction names as [|n names IH]; intros [|c cols] El; try discriminate; cbn [combine map fst]; [constructor|].
      inversion Hnd; subst; constructor; [|apply IH; [assumption|now inversion El]].
      intros C; apply in_map_iff in C; destruct C as ([n' c'] & E & C); cbn in E; subst; apply in_combine_l in C; contradiction. }
    pose proof (nodup_dict names cols Hnd El k) as Hd; rewrite (In_lookup k c _ Hcomb Hk) in Hd.
    unfold column in Ec1, Ec2.
    destruct (mem k ["latitude"; "longitude"]) eqn:Emk.
    + apply mem_spec in Emk; destruct Emk as [<-|[<-|[]]].
      * rewrite Hd in Ec2; inversion Ec2; subst; exact Hlen2.
      * rewrite Hd in Ec1; inversion Ec1; subst; exact Hlen1.
    + apply lookup_In in Hd; clear - Ev Hd Emk; revert Ev Hd; generalize (dict_zip names cols []); generalize (@nil (string * list (list R))); intros acc d; revert acc.
      induction d as [|[k0 v0] d IH]; intros acc Ev Hd; [destruct Hd|]; cbn [for_] in Ev; apply bind_ok in Ev; destruct Ev as (acc' & Ea & Ev); cbn [fst snd] in Ea.
      destruct Hd as [E|Hd]; [|now apply (IH acc')].
      inversion E; subst k0 v0; rewrite Emk in Ea; apply bind_ok in Ea; destruct Ea as (a & Er & _).
      apply reshape_inv in Er; destruct Er as (p & q & E1 & E2 & _ & El); apply Nat2Z.inj in E1, E2; subst; exact El.
  - exists q0; split; [exact Q0|exact C0].
  - exists q1; split; [exact Q1|exact C1].
  - exists q2; split; [exact Q2|exact C2].
  - exists q3; split; [exact Q3|exact C3].
Qed.
End External.
