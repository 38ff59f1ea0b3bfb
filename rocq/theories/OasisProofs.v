(** Proofs about the Oasis Montaj reader. *)
From Coq Require Import ZArith Lia Lra.
From Verif Require Import Base BaseFacts DistanceModel OasisModel OasisSpec.
Local Open Scope string_scope. Local Open Scope list_scope. Local Open Scope R_scope.

(** ** Integers *)
Lemma enc_length n z : length (enc n z) = n.
Proof. revert z; induction n as [|n IH]; intros z; cbn [enc length]; [reflexivity|now rewrite IH]. Qed.
Lemma enc_bytes n z : Forall is_byte (enc n z).
Proof. revert z; induction n as [|n IH]; intros z; cbn [enc]; constructor; [unfold is_byte; apply Z.mod_pos_bound; lia|apply IH]. Qed.
Lemma pow256 n : (256 ^ Z.of_nat (S n) = 256 * 256 ^ Z.of_nat n)%Z.
Proof. rewrite Nat2Z.inj_succ, Z.pow_succ_r by lia; reflexivity. Qed.
Lemma pow256_pow2 n : (256 ^ Z.of_nat n = 2 ^ (8 * Z.of_nat n))%Z.
Proof. rewrite Z.pow_mul_r by lia; reflexivity. Qed.
Lemma le_enc n z : le (enc n z) = (z mod 256 ^ Z.of_nat n)%Z.
Proof.
  revert z; induction n as [|n IH]; intros z.
  - cbn [enc le]; change (256 ^ Z.of_nat 0)%Z with 1%Z; now rewrite Z.mod_1_r.
  - cbn [enc le]; rewrite IH, pow256.
    rewrite Z.rem_mul_r by (try lia; apply Z.pow_pos_nonneg; lia); reflexivity.
Qed.
Lemma two_complement_enc n z : (0 < n)%nat -> (- 2 ^ (8 * Z.of_nat n - 1) <= z < 2 ^ (8 * Z.of_nat n - 1))%Z -> two_complement (enc n z) = z.
Proof.
  intros Hn Hz; unfold two_complement; rewrite le_enc, enc_length, pow256_pow2.
  set (N := (8 * Z.of_nat n)%Z) in *.
  assert (HN : (2 ^ N = 2 * 2 ^ (N - 1))%Z) by (rewrite <- Z.pow_succ_r by lia; f_equal; lia).
  destruct (Z_lt_ge_dec z 0) as [Hs|Hs].
  - assert (E : (z mod 2 ^ N = z + 2 ^ N)%Z) by (symmetry; apply Z.mod_unique with (-1)%Z; lia).
    rewrite E; destruct (Z.ltb_spec (z + 2 ^ N) (2 ^ (N - 1))); lia.
  - rewrite Z.mod_small by lia; destruct (Z.ltb_spec z (2 ^ (N - 1))); lia.
Qed.
Lemma le_enc_small n z : (0 <= z < 2 ^ (8 * Z.of_nat n))%Z -> le (enc n z) = z.
Proof. intros H; rewrite le_enc, pow256_pow2; now apply Z.mod_small. Qed.
Lemma int32_enc z : int32 z -> two_complement (enc 4 z) = z.
Proof. intros H; apply two_complement_enc; [lia|exact H]. Qed.
Lemma int64_enc z : int64 z -> two_complement (enc 8 z) = z.
Proof. intros H; apply two_complement_enc; [lia|exact H]. Qed.

(** ** Floats *)
Lemma powerRZ_Z2 k : (0 <= k)%Z -> IZR (2 ^ k) = powerRZ 2 k.
Proof.
  intros Hk; rewrite <- (Z2Nat.id k) by lia.
  rewrite <- pow_powerRZ, <- pow_IZR; reflexivity.
Qed.
Lemma ieee_fields e m n s x f : (0 < e)%Z -> (0 < m)%Z -> (8 * Z.of_nat n = 1 + e + m)%Z -> (0 <= x < 2 ^ e)%Z -> (0 <= f < 2 ^ m)%Z ->
  ieee e m (enc n (triple_bits e m (Triple s x f))) =
  if (x =? 2 ^ e - 1)%Z then (if (f =? 0)%Z then FInf s else FNaN)
  else if (x =? 0)%Z then FFin ((if s then -1 else 1) * IZR f * powerRZ 2 (1 - (2 ^ (e - 1) - 1) - m))
  else FFin ((if s then -1 else 1) * IZR (2 ^ m + f) * powerRZ 2 (x - (2 ^ (e - 1) - 1) - m)).
Proof.
  intros He Hm Hn Hx Hf.
  assert (Hm2 : (0 < 2 ^ m)%Z) by (apply Z.pow_pos_nonneg; lia).
  assert (He2 : (0 < 2 ^ e)%Z) by (apply Z.pow_pos_nonneg; lia).
  assert (Hem : (2 ^ (e + m) = 2 ^ e * 2 ^ m)%Z) by (apply Z.pow_add_r; lia).
  assert (Hb : (0 <= x * 2 ^ m + f < 2 ^ (e + m))%Z) by (rewrite Hem; nia).
  unfold ieee; rewrite le_enc_small.
  2:{ rewrite Hn; unfold triple_bits; cbn [t_neg t_exp t_man].
      assert (H2 : (2 ^ (1 + e + m) = 2 * 2 ^ (e + m))%Z) by (rewrite <- Z.add_assoc, Z.pow_add_r by lia; reflexivity).
      rewrite H2; destruct s; lia. }
  unfold triple_bits; cbn [t_neg t_exp t_man].
  assert (Hsgn : (2 ^ (e + m) <=? (if s then 2 ^ (e + m) else 0) + x * 2 ^ m + f)%Z = s).
  { destruct s; [apply Z.leb_le; lia|apply Z.leb_gt; lia]. }
  assert (Hdiv : (((if s then 2 ^ (e + m) else 0) + x * 2 ^ m + f) / 2 ^ m = (if s then 2 ^ e else 0) + x)%Z).
  { symmetry; apply Z.div_unique with f; [lia|]; rewrite Hem; destruct s; ring. }
  assert (Hmod : (((if s then 2 ^ (e + m) else 0) + x * 2 ^ m + f) mod 2 ^ m = f)%Z).
  { symmetry; apply Z.mod_unique with ((if s then 2 ^ e else 0) + x)%Z; [lia|]; rewrite Hem; destruct s; ring. }
  assert (Hexp : (((if s then 2 ^ e else 0) + x) mod 2 ^ e = x)%Z).
  { destruct s; [|rewrite Z.add_0_l; apply Z.mod_small; lia].
    symmetry; apply Z.mod_unique with 1%Z; lia. }
  rewrite Hsgn, Hdiv, Hmod, Hexp. reflexivity.
Qed.
Lemma ieee_triple e m n t : (0 < e)%Z -> (0 < m)%Z -> (8 * Z.of_nat n = 1 + e + m)%Z -> triple_ok e m t ->
  ieee e m (enc n (triple_bits e m t)) = FFin (triple_value e m t).
Proof.
  intros He Hm Hn [Hx Hf]; destruct t as [s x f]; cbn [t_neg t_exp t_man] in *.
  rewrite ieee_fields by lia.
  destruct (Z.eqb_spec x (2 ^ e - 1)); [lia|].
  destruct (Z.eqb_spec x 0); [lia|].
  unfold triple_value; cbn [t_neg t_exp t_man].
  f_equal; rewrite plus_IZR, (powerRZ_Z2 m) by lia.
  replace (x - (2 ^ (e - 1) - 1) - m)%Z with (- m + (x - (2 ^ (e - 1) - 1)))%Z by lia.
  rewrite (powerRZ_add 2 (- m)) by lra.
  assert (Hp : powerRZ 2 m <> 0) by (apply powerRZ_NOR; lra).
  rewrite powerRZ_neg'.
  set (P := powerRZ 2 m) in *; set (Q := powerRZ 2 (x - _)); destruct s; field; exact Hp.
Qed.
(** Subnormal numbers, infinities and NaN. *)
Lemma ieee_special e m n s f : (0 < e)%Z -> (0 < m)%Z -> (8 * Z.of_nat n = 1 + e + m)%Z -> (0 <= f < 2 ^ m)%Z ->
  ieee e m (enc n (triple_bits e m (Triple s 0 f))) = FFin ((if s then -1 else 1) * (IZR f / powerRZ 2 m) * powerRZ 2 (2 - 2 ^ (e - 1))) /\
  ieee e m (enc n (triple_bits e m (Triple s (2 ^ e - 1) f))) = (if (f =? 0)%Z then FInf s else FNaN).
Proof.
  intros He Hm Hn Hf.
  assert (He2 : (2 <= 2 ^ e)%Z) by (change 2%Z with (2 ^ 1)%Z at 1; apply Z.pow_le_mono_r; lia).
  split; rewrite ieee_fields by lia.
  - destruct (Z.eqb_spec 0 (2 ^ e - 1)); [lia|]. rewrite Z.eqb_refl. f_equal.
    replace (1 - (2 ^ (e - 1) - 1) - m)%Z with (- m + (2 - 2 ^ (e - 1)))%Z by lia.
    rewrite (powerRZ_add 2 (- m)) by lra.
    assert (Hp : powerRZ 2 m <> 0) by (apply powerRZ_NOR; lra).
    rewrite powerRZ_neg'. set (P := powerRZ 2 m) in *. set (Q := powerRZ 2 (2 - _)). destruct s; field; exact Hp.
  - now rewrite Z.eqb_refl.
Qed.
Lemma float64_triple t : triple_ok 11 52 t -> float64 (enc 8 (triple_bits 11 52 t)) = FFin (triple_value 11 52 t).
Proof. intros H; apply ieee_triple; try lia; exact H. Qed.
Lemma float32_triple t : triple_ok 8 23 t -> float32 (enc 4 (triple_bits 8 23 t)) = FFin (triple_value 8 23 t).
Proof. intros H; apply ieee_triple; try lia; exact H. Qed.

(** ** Arrays of items *)
Lemma chunks_concat size parts fuel : (0 < size)%nat -> Forall (fun p => length p = size) parts -> (length (concat parts) <= fuel)%nat ->
  chunks fuel size (concat parts) = parts.
Proof.
  intros Hs; revert fuel; induction parts as [|p parts IH]; intros fuel Hf Hl.
  - destruct fuel; reflexivity.
  - inversion Hf as [|? ? Hp Hps]; subst; cbn [concat] in *; rewrite app_length in Hl.
    destruct p as [|x p]; [cbn in Hs; lia|].
    destruct fuel as [|fuel]; [cbn in Hl; lia|].
    cbn [chunks app].
    change (x :: p ++ concat parts) with ((x :: p) ++ concat parts).
    rewrite firstn_app, firstn_all, Nat.sub_diag, firstn_O, app_nil_r.
    rewrite skipn_app, skipn_all, Nat.sub_diag, skipn_O; cbn [app].
    f_equal; apply IH; [exact Hps|cbn [length] in Hl; lia].
Qed.
Lemma concat_length_const size (parts : list bytes) : Forall (fun p => length p = size) parts -> length (concat parts) = (length parts * size)%nat.
Proof. induction parts as [|p parts IH]; intros H; [reflexivity|]; inversion H; subst; cbn [concat length]; rewrite app_length, IH by assumption; lia. Qed.
Lemma array_items_concat {A} size (decode : bytes -> A) parts : (0 < size)%nat -> Forall (fun p => length p = size) parts ->
  array_items size decode (concat parts) = Ok (map decode parts).
Proof.
  intros Hs Hf; unfold array_items; rewrite (concat_length_const size) by assumption.
  rewrite Nat.mod_mul by lia; cbn [Nat.eqb].
  rewrite <- (concat_length_const size parts) by assumption.
  rewrite chunks_concat by (try assumption; lia); reflexivity.
Qed.
Lemma array_items_length {A} size (decode : bytes -> A) l r : (0 < size)%nat -> array_items size decode l = Ok r -> (length l = size * length r)%nat.
Proof.
  intros Hs; unfold array_items; destruct (Nat.eqb_spec (length l mod size) 0) as [E|]; [|discriminate].
  intros H; inversion H; subst; rewrite map_length; clear H.
  apply Nat.mod_divides in E; [|lia]; destruct E as [k Hk]; rewrite Hk; f_equal.
  assert (G : forall fuel l k, (length l <= fuel)%nat -> length l = (size * k)%nat -> length (chunks fuel size l) = k).
  { clear - Hs; induction fuel as [|fuel IH]; intros l k Hl E; cbn [chunks].
    - cbn [length]; destruct k; [reflexivity|nia].
    - destruct l as [|x l]; [cbn [length] in *; destruct k; [reflexivity|nia]|].
      destruct k as [|k]; [cbn in E; lia|].
      cbn [length]; f_equal; apply IH; rewrite skipn_length; cbn [length] in *; nia. }
  rewrite <- Hk; symmetry; apply G; [lia|assumption].
Qed.

(** ** Slices *)
Lemma pyslice_mid (p q r : bytes) a b : a = Z.of_nat (length p) -> b = Z.of_nat (length p + length q) -> pyslice (p ++ q ++ r) a b = q.
Proof.
  intros -> ->; unfold pyslice, bound.
  assert (E1 : (Z.of_nat (length p) <? 0)%Z = false) by (apply Z.ltb_ge; lia).
  assert (E2 : (Z.of_nat (length p + length q) <? 0)%Z = false) by (apply Z.ltb_ge; lia).
  rewrite E1, E2, !app_length.
  rewrite !Z.min_r by lia.
  rewrite Nat2Z.id; replace (Z.to_nat (Z.of_nat (length p + length q) - Z.of_nat (length p))) with (length q) by lia.
  rewrite skipn_app, skipn_all, Nat.sub_diag, skipn_O; cbn [app].
  rewrite firstn_app, firstn_all, Nat.sub_diag, firstn_O, app_nil_r; reflexivity.
Qed.
Lemma pyslice_nat (l : bytes) a b : (a <= b)%nat -> (b <= length l)%nat -> pyslice l (Z.of_nat a) (Z.of_nat b) = firstn (b - a) (skipn a l).
Proof.
  intros Hab Hb; unfold pyslice, bound.
  assert (E1 : (Z.of_nat a <? 0)%Z = false) by (apply Z.ltb_ge; lia).
  assert (E2 : (Z.of_nat b <? 0)%Z = false) by (apply Z.ltb_ge; lia).
  rewrite E1, E2, !Z.min_r by lia; rewrite Nat2Z.id; do 2 f_equal; lia.
Qed.

Lemma pyslice_length (l : bytes) a b : (0 <= a <= b)%Z -> length (pyslice l a b) = (Nat.min (length l) (Z.to_nat b) - Nat.min (length l) (Z.to_nat a))%nat.
Proof.
  intros H; unfold pyslice, bound.
  assert (E1 : (a <? 0)%Z = false) by (apply Z.ltb_ge; lia).
  assert (E2 : (b <? 0)%Z = false) by (apply Z.ltb_ge; lia).
  rewrite E1, E2, firstn_length, skipn_length; lia.
Qed.

(** ** Header *)
Lemma file_header_length r : raw_ok r -> length (file_header r) = 512%nat.
Proof.
  intros (_ & H8 & H4 & Hl & Hu); unfold file_header; rewrite !app_length, !enc_length, Hl, Hu.
  repeat match goal with H : Forall _ (_ :: _) |- _ => inversion H; subst; clear H end.
  repeat match goal with H : length _ = _ |- _ => rewrite H; clear H end; reflexivity.
Qed.
Ltac inv_all := repeat match goal with H : Forall _ (_ :: _) |- _ => inversion H; subst; clear H end.
Ltac len := rewrite ?app_length, ?enc_length; repeat match goal with H : length _ = _ |- _ => rewrite H end; reflexivity.
Lemma read_header_ok r : raw_ok r -> _read_header (file_header r) = Ok (meaning r).
Proof.
  intros (Hi & H8 & H4 & Hl & Hu); inv_all.
  assert (D : file_header r =
    concat [enc 4 (r_ES r); enc 4 (r_SF r); enc 4 (r_NE r); enc 4 (r_NV r); enc 4 (r_KX r)]
    ++ concat [r_DE r; r_DV r; r_X0 r; r_Y0 r; r_ROT r] ++ concat [r_ZBASE r; r_ZMULT r] ++ r_label r
    ++ concat [enc 4 (r_PROJ r); enc 4 (r_UNITX r); enc 4 (r_UNITY r); enc 4 (r_UNITZ r); enc 4 (r_NVPTS r)]
    ++ concat [r_min r; r_max r; r_med r; r_mean r] ++ concat [r_var r] ++ concat [enc 4 (r_PRCS r)] ++ r_user r).
  { unfold file_header; cbn [concat]; rewrite ?app_nil_r, <- ?app_assoc; reflexivity. }
  set (p1 := concat [enc 4 (r_ES r); enc 4 (r_SF r); enc 4 (r_NE r); enc 4 (r_NV r); enc 4 (r_KX r)]) in *.
  set (p2 := concat [r_DE r; r_DV r; r_X0 r; r_Y0 r; r_ROT r]) in *.
  set (p3 := concat [r_ZBASE r; r_ZMULT r]) in *.
  set (p5 := concat [enc 4 (r_PROJ r); enc 4 (r_UNITX r); enc 4 (r_UNITY r); enc 4 (r_UNITZ r); enc 4 (r_NVPTS r)]) in *.
  set (p6 := concat [r_min r; r_max r; r_med r; r_mean r]) in *.
  set (p7 := concat [r_var r]) in *. set (p8 := concat [enc 4 (r_PRCS r)]) in *.
  assert (L1 : length p1 = 20%nat) by (unfold p1; cbn [concat]; rewrite ?app_nil_r; len).
  assert (L2 : length p2 = 40%nat) by (unfold p2; cbn [concat]; rewrite ?app_nil_r; len).
  assert (L3 : length p3 = 16%nat) by (unfold p3; cbn [concat]; rewrite ?app_nil_r; len).
  assert (L5 : length p5 = 20%nat) by (unfold p5; cbn [concat]; rewrite ?app_nil_r; len).
  assert (L6 : length p6 = 16%nat) by (unfold p6; cbn [concat]; rewrite ?app_nil_r; len).
  assert (L7 : length p7 = 8%nat) by (unfold p7; cbn [concat]; rewrite ?app_nil_r; len).
  assert (L8 : length p8 = 4%nat) by (unfold p8; cbn [concat]; rewrite ?app_nil_r; len).
  assert (S1 : pyslice (file_header r) 0 20 = p1).
  { rewrite D; apply (pyslice_mid []); [reflexivity|cbn [length]; rewrite L1; reflexivity]. }
  assert (S2 : pyslice (file_header r) 20 60 = p2).
  { rewrite D; apply (pyslice_mid p1); [now rewrite L1|now rewrite L1, L2]. }
  assert (S3 : pyslice (file_header r) 60 76 = p3).
  { rewrite D, (app_assoc p1); apply (pyslice_mid (p1 ++ p2)); rewrite ?app_length; [now rewrite L1, L2|now rewrite L1, L2, L3]. }
  assert (S5 : pyslice (file_header r) 140 160 = p5).
  { rewrite D, (app_assoc p1), (app_assoc _ p3), (app_assoc _ (r_label r)); apply (pyslice_mid (((p1 ++ p2) ++ p3) ++ r_label r));
    rewrite ?app_length; rewrite L1, L2, L3, Hl, ?L5; reflexivity. }
  assert (S6 : pyslice (file_header r) 160 176 = p6).
  { rewrite D, (app_assoc p1), (app_assoc _ p3), (app_assoc _ (r_label r)), (app_assoc _ p5); apply (pyslice_mid ((((p1 ++ p2) ++ p3) ++ r_label r) ++ p5));
    rewrite ?app_length; rewrite L1, L2, L3, Hl, ?L5, ?L6; reflexivity. }
  assert (S7 : pyslice (file_header r) 176 184 = p7).
  { rewrite D, (app_assoc p1), (app_assoc _ p3), (app_assoc _ (r_label r)), (app_assoc _ p5), (app_assoc _ p6);
    apply (pyslice_mid (((((p1 ++ p2) ++ p3) ++ r_label r) ++ p5) ++ p6));
    rewrite ?app_length; rewrite L1, L2, L3, Hl, ?L5, ?L6, ?L7; reflexivity. }
  assert (S8 : pyslice (file_header r) 184 188 = p8).
  { rewrite D, (app_assoc p1), (app_assoc _ p3), (app_assoc _ (r_label r)), (app_assoc _ p5), (app_assoc _ p6), (app_assoc _ p7);
    apply (pyslice_mid ((((((p1 ++ p2) ++ p3) ++ r_label r) ++ p5) ++ p6) ++ p7));
    rewrite ?app_length; rewrite L1, L2, L3, Hl, ?L5, ?L6, ?L7, ?L8; reflexivity. }
  unfold _read_header; rewrite S1, S2, S3, S5, S6, S7, S8.
  unfold array_int, array_fl.
  unfold p1 at 1; rewrite array_items_concat; [|lia|repeat constructor; apply enc_length]; cbn [map bind].
  unfold p2 at 1; rewrite array_items_concat; [|cbn; lia|repeat constructor; assumption]; cbn [map bind].
  unfold p3 at 1; rewrite array_items_concat; [|cbn; lia|repeat constructor; assumption]; cbn [map bind].
  unfold p5 at 1; rewrite array_items_concat; [|lia|repeat constructor; apply enc_length]; cbn [map bind].
  unfold p6 at 1; rewrite array_items_concat; [|cbn; lia|repeat constructor; assumption]; cbn [map bind].
  unfold p7 at 1; rewrite array_items_concat; [|cbn; lia|repeat constructor; assumption]; cbn [map bind].
  unfold p8 at 1; rewrite array_items_concat; [|lia|repeat constructor; apply enc_length]; cbn [map bind].
  rewrite !int32_enc by assumption; reflexivity.
Qed.
(** Short files are refused. *)
Lemma read_header_short b : (length b < 188)%nat -> _read_header b = Raise ValueError.
Proof.
  intros Hb; unfold _read_header, array_int, array_fl.
  assert (G : forall A size (decode : bytes -> A) a c n, (0 < size)%nat -> (0 < n)%nat -> (0 <= a <= c)%Z -> (c - a = Z.of_nat (size * n))%Z ->
    (length b < Z.to_nat c)%nat ->
    array_items size decode (pyslice b a c) = Raise ValueError \/ exists r, array_items size decode (pyslice b a c) = Ok r /\ (length r < n)%nat).
  { intros A size decode a c n Hs H0 Hac Hn Hc.
    destruct (array_items size decode (pyslice b a c)) as [r|e] eqn:E.
    - right; exists r; split; [reflexivity|].
      apply array_items_length in E; [|assumption]; rewrite pyslice_length in E by assumption.
      assert (size * length r < size * n)%nat by lia; nia.
    - left; unfold array_items in E; destruct (Nat.eqb _ _) in E; [discriminate|]; inversion E; reflexivity. }
  assert (F : forall A size (decode : bytes -> A) a c, array_items size decode (pyslice b a c) = Raise ValueError \/ exists r, array_items size decode (pyslice b a c) = Ok r).
  { intros A size decode a c; destruct (array_items size decode (pyslice b a c)) as [r|e] eqn:E; [eauto|].
    left; unfold array_items in E; destruct (Nat.eqb _ _) in E; [discriminate|]; inversion E; reflexivity. }
  repeat match goal with
  | |- context [bind (array_items ?s ?d (pyslice b ?a ?c)) _] =>
      lazymatch c with
      | 188%Z => destruct (G _ s d a c 1%nat) as [->|(? & -> & ?)]; [lia|lia|lia|reflexivity|change (Z.to_nat 188) with 188%nat; assumption|reflexivity|]
      | _ => destruct (F _ s d a c) as [->|(? & ->)]; [reflexivity|]
      end; cbn [bind]
  | |- context [match ?l with [] => _ | _ => _ end] => is_var l; destruct l; try reflexivity
  end; cbn [length] in *; lia.
Qed.

(** ** Element types *)
Lemma fleb_below x r : fleb x r = below x r.
Proof. destruct x; reflexivity. Qed.
Lemma data_type_ok size sign f compressed : format_of size sign = Some f ->
  exists c, _get_data_type (if compressed : bool then size + 1024 else size)%Z sign = Ok c /\ itemsize c = fsize f /\
    (forall e, elem_ok f e -> length (elem_bytes f e) = fsize f) /\
    (forall e, elem_ok f e ->
       _remove_dummies [item c (elem_bytes f e)] c = [match elem_value f e with Some x => x | None => FNaN end]).
Proof.
  intros Hf.
  assert (D : (size = 1 /\ sign = 0 /\ f = Unsigned 1 \/ size = 1 /\ sign = 1 /\ f = Signed 1 \/ size = 2 /\ sign = 0 /\ f = Unsigned 2 \/ size = 2 /\ sign = 1 /\ f = Signed 2
    \/ size = 4 /\ sign = 0 /\ f = Unsigned 4 \/ size = 4 /\ sign = 1 /\ f = Signed 4 \/ size = 4 /\ sign = 2 /\ f = Float \/ size = 8 /\ sign = 2 /\ f = Double)%Z).
  { unfold format_of in Hf.
    repeat match type of Hf with context [match ?x with _ => _ end] => is_var x; destruct x; try discriminate end;
      inversion Hf; subst; tauto. }
  assert (U : forall n e, elem_ok (Unsigned n) e -> exists z, e = Eint z /\ le (enc n z) = z /\ (0 <= z < 2 ^ (8 * Z.of_nat n))%Z).
  { intros n [z|l] H; [|destruct H]; exists z; split; [reflexivity|]; split; [now apply le_enc_small|exact H]. }
  assert (G : forall n e, (0 < n)%nat -> elem_ok (Signed n) e -> exists z, e = Eint z /\ two_complement (enc n z) = z).
  { intros n [z|l] Hn H; [|destruct H]; exists z; split; [reflexivity|]; now apply two_complement_enc. }
  assert (Q : forall z k, Reqb (IZR z) (IZR k) = (z =? k)%Z).
  { intros z k; destruct (Z.eqb_spec z k) as [->|N].
    - destruct (Reqb_spec (IZR k) (IZR k)); [reflexivity|congruence].
    - destruct (Reqb_spec (IZR z) (IZR k)) as [E|]; [apply eq_IZR in E; congruence|reflexivity]. }
  decompose [or] D; clear D Hf; match goal with H : _ /\ _ |- _ => destruct H as (-> & -> & ->) end;
  [exists CB|exists Cb|exists CH|exists Ch|exists CI|exists Ci|exists Cf|exists Cd];
  (split; [destruct compressed; reflexivity|]); (split; [reflexivity|]);
  (split; [intros [z|l] He; cbn [elem_bytes]; [apply enc_length|cbn in He; tauto] || (destruct e; cbn in *; tauto)|]).
  all: intros e He.
  1,3,5: destruct (U _ _ He) as (z & -> & Hz & _); cbn [elem_bytes item fsize elem_value _remove_dummies map feqb DUMMIES]; rewrite Hz, Q;
    match goal with |- context [(z =? 2 ^ ?a - 1)%Z] => let v := eval vm_compute in (2 ^ a - 1)%Z in change (2 ^ a - 1)%Z with v; destruct (z =? v)%Z end; reflexivity.
  1,2,3: destruct (G _ _ (Nat.lt_0_succ _) He) as (z & -> & Hz); cbn [elem_bytes item fsize elem_value _remove_dummies map feqb DUMMIES]; rewrite Hz, Q;
    match goal with |- context [(z =? - (2 ^ ?a - 1))%Z] => let v := eval vm_compute in (- (2 ^ a - 1))%Z in change (- (2 ^ a - 1))%Z with v; destruct (z =? v)%Z end; reflexivity.
  all: destruct e as [z|l]; [destruct He|]; cbn [elem_bytes item fsize elem_value _remove_dummies map DUMMIES]; unfold float32, float64, dummy_float; rewrite fleb_below; destruct (below _ _); reflexivity.
Qed.

(** ** Grids *)
Lemma nth_map_range {A} (f : nat -> A) n i d : (i < n)%nat -> nth i (map f (range 0 n)) d = f i.
Proof.
  intros H; rewrite (nth_indep _ d (f 0%nat)) by (rewrite map_length; unfold range; rewrite seq_length; lia).
  rewrite map_nth; unfold range; rewrite seq_nth by lia; reflexivity.
Qed.
Lemma linspace_nth a d n i : (i < n)%nat -> nth i (linspace a (a + d * (INR n - 1)) n) 0 = a + INR i * d.
Proof.
  intros H; unfold linspace; rewrite nth_map_range by assumption.
  destruct (Nat.eqb_spec n 1) as [->|N].
  - replace i with 0%nat by lia; cbn [INR]; ring.
  - rewrite minus_INR by lia; change (INR 1) with 1.
    assert (INR n - 1 <> 0) by (pose proof (lt_INR 1 n ltac:(lia)) as L; change (INR 1) with 1 in L; lra).
    field; assumption.
Qed.
Lemma linspace_length a b n : length (linspace a b n) = n.
Proof. unfold linspace, range; rewrite map_length, seq_length; apply Nat.sub_0_r. Qed.
Lemma linspace0_nth d n i : (i < n)%nat -> nth i (linspace 0 (d * (INR n - 1)) n) 0 = INR i * d.
Proof. intros H; pose proof (linspace_nth 0 d n i H) as L; rewrite !Rplus_0_l in L; exact L. Qed.

Lemma build_node h n0 n1 s0 s1 west south a b rot i j :
  x_origin h = FFin west -> y_origin h = FFin south -> s0 = FFin a -> s1 = FFin b -> rotation h = FFin rot ->
  (i < n0)%nat -> (j < n1)%nat ->
  exists c, build h (n0, n1) (s0, s1) = Some c /\
    node c i j = (west + (INR j * b * cos (rot * PI / 180) - INR i * a * sin (rot * PI / 180)),
                  south + (INR j * b * sin (rot * PI / 180) + INR i * a * cos (rot * PI / 180))).
Proof.
  intros Ex Ey -> -> Er Hi Hj; unfold build; rewrite Ex, Ey, Er; cbn [reals fold_right fst snd].
  destruct (Reqb_spec rot 0) as [->|N].
  - unfold _build_coordinates; cbn [fst snd]; eexists; split; [reflexivity|]; cbn [node].
    rewrite !linspace_nth by assumption.
    replace (0 * PI / 180) with 0 by field; rewrite cos_0, sin_0; f_equal; ring.
  - unfold _build_rotated_coordinates; cbn [fst snd]; eexists; split; [reflexivity|]; cbn [node].
    unfold radians.
    set (ys := linspace 0 (a * _) n0); set (xs := linspace 0 (b * _) n1).
    assert (Hy : forall (g : R -> list R), nth i (map g ys) [] = g (INR i * a)).
    { intros g; rewrite (nth_indep _ [] (g 0)) by (rewrite map_length; unfold ys; rewrite linspace_length; assumption).
      rewrite map_nth; unfold ys; now rewrite linspace0_nth. }
    assert (Hx : forall (g : R -> R), nth j (map g xs) 0 = g (INR j * b)).
    { intros g; rewrite (nth_indep _ 0 (g 0)) by (rewrite map_length; unfold xs; rewrite linspace_length; assumption).
      rewrite map_nth; unfold xs; now rewrite linspace0_nth. }
    rewrite !Hy, !Hx.
    f_equal; ring.
Qed.

Lemma remove_dummies_map c l : _remove_dummies l c = flat_map (fun x => _remove_dummies [x] c) l.
Proof. destruct c; cbn [_remove_dummies map]; induction l as [|x l IH]; cbn [map flat_map app]; f_equal; exact IH. Qed.
Lemma rescaled_ok factor base x : factor <> 0 ->
  fadd (fdiv (match x with Some y => y | None => FNaN end) (FFin factor)) (FFin base) = rescaled factor base x.
Proof.
  intros Hf; destruct x as [[|s|r]|]; cbn [fdiv fadd rescaled]; try reflexivity.
  destruct (Reqb_spec factor 0); [contradiction|reflexivity].
Qed.

Section Load.
Variable decompress : bytes -> res bytes.
Lemma load_ok r f es content compressed factor base :
  raw_ok r -> format_of (if compressed : bool then r_ES r - 1024 else r_ES r)%Z (r_SF r) = Some f -> (r_KX r = 1 \/ r_KX r = -1)%Z ->
  (0 <= r_NE r)%Z -> (0 <= r_NV r)%Z -> Z.of_nat (length es) = (r_NE r * r_NV r)%Z -> Forall (elem_ok f) es ->
  (if compressed then _decompress_grid decompress content else Ok content) = Ok (concat (map (elem_bytes f) es)) ->
  float64 (r_ZMULT r) = FFin factor -> factor <> 0 -> float64 (r_ZBASE r) = FFin base ->
  exists g, load_oasis_montaj_grid decompress (file_header r ++ content) = Ok g /\ attrs g = meaning r /\
    length (values g) = Z.to_nat (if (r_KX r =? 1)%Z then r_NV r else r_NE r) /\
    Forall (fun row => length row = Z.to_nat (if (r_KX r =? 1)%Z then r_NE r else r_NV r)) (values g) /\
    forall v e, (v < Z.to_nat (r_NV r))%nat -> (e < Z.to_nat (r_NE r))%nat ->
      let i := if (r_KX r =? 1)%Z then v else e in
      let j := if (r_KX r =? 1)%Z then e else v in
      nth j (nth i (values g) []) FNaN = rescaled factor base (elem_value f (nth (v * Z.to_nat (r_NE r) + e) es (Eint 0))) /\
      (forall X0 Y0 DE DV rot, float64 (r_X0 r) = FFin X0 -> float64 (r_Y0 r) = FFin Y0 -> float64 (r_DE r) = FFin DE ->
         float64 (r_DV r) = FFin DV -> float64 (r_ROT r) = FFin rot ->
         exists c, coordinates g = Some c /\ node c i j = documented_position (r_KX r) X0 Y0 DE DV rot v e).
Proof.
  intros Hr Hf HK HNE HNV Hlen Hes Hcont Hfac Hfac0 Hbase.
  pose proof (file_header_length r Hr) as HL.
  unfold load_oasis_montaj_grid.
  rewrite firstn_app, HL, Nat.sub_diag, firstn_O, app_nil_r, firstn_all2 by lia.
  rewrite skipn_app, HL, Nat.sub_diag, skipn_O, skipn_all2 by lia; cbn [app].
  rewrite (read_header_ok r Hr); cbn [bind].
  change (ordering (meaning r)) with (r_KX r); change (sign_flag (meaning r)) with (r_SF r);
  change (n_bytes_per_element (meaning r)) with (r_ES r).
  assert (E1 : _check_ordering (r_KX r) = Ok tt) by (destruct HK as [-> | ->]; reflexivity).
  rewrite E1; cbn [bind].
  assert (E2 : _check_sign_flag (r_SF r) = Ok tt).
  { unfold _check_sign_flag; destruct (Z.eqb_spec (r_SF r) 3) as [E|]; [|reflexivity].
    rewrite E in Hf; unfold format_of in Hf; repeat match type of Hf with context [match ?x with _ => _ end] => destruct x; try discriminate end. }
  rewrite E2; cbn [bind].
  destruct (data_type_ok _ _ f compressed Hf) as (c & Ec & Hc1 & Hc2 & Hc3).
  replace (if compressed then (if compressed then r_ES r - 1024 else r_ES r) + 1024 else (if compressed then r_ES r - 1024 else r_ES r))%Z with (r_ES r) in Ec by (destruct compressed; lia).
  rewrite Ec; cbn [bind].
  assert (E3 : (1024 <? r_ES r)%Z = compressed).
  { clear - Hf; assert (S : forall s, format_of s (r_SF r) = Some f -> (0 < s < 1024)%Z).
    { intros s; unfold format_of; repeat match goal with |- context [match ?x with _ => _ end] => destruct x; try discriminate end; lia. }
    apply S in Hf; destruct compressed; [apply Z.ltb_lt; lia|apply Z.ltb_ge; lia]. }
  rewrite E3; match goal with |- context [if compressed then ?a else ?b] => replace (if compressed then a else b) with (Ok (concat (map (elem_bytes f) es))) by (symmetry; exact Hcont) end; cbn [bind].
  unfold array_fl; rewrite array_items_concat; cbn [bind].
  2:{ rewrite Hc1; destruct f as [[|n]|[|n]| |]; cbn [fsize]; try lia;
      unfold format_of in Hf; repeat match type of Hf with context [match ?x with _ => _ end] => destruct x; try discriminate end. }
  2:{ rewrite Forall_map, Hc1; revert Hes; apply Forall_impl; exact Hc2. }
  assert (E4 : map (fun x => fadd (fdiv x (data_factor (meaning r))) (base_value (meaning r))) (_remove_dummies (map (item c) (map (elem_bytes f) es)) c)
     = map (fun e => rescaled factor base (elem_value f e)) es).
  { change (data_factor (meaning r)) with (float64 (r_ZMULT r)); change (base_value (meaning r)) with (float64 (r_ZBASE r)); rewrite Hfac, Hbase.
    rewrite remove_dummies_map; clear - Hes Hc3 Hfac0; induction Hes as [|e es He Hes IH]; [reflexivity|].
    cbn [map flat_map]; rewrite map_app, IH, (Hc3 e He); cbn [map app]; f_equal; now apply rescaled_ok. }
  rewrite E4; clear E4.
  change (shape_v (meaning r)) with (r_NV r); change (shape_e (meaning r)) with (r_NE r).
  change (spacing_v (meaning r)) with (float64 (r_DV r)); change (spacing_e (meaning r)) with (float64 (r_DE r)).
  rewrite map_length, Hlen.
  set (out := map _ es).
  assert (N : (Z.to_nat (r_NE r) * Z.to_nat (r_NV r))%nat = length es) by lia.
  assert (O : forall v e, (v < Z.to_nat (r_NV r))%nat -> (e < Z.to_nat (r_NE r))%nat ->
    nth (v * Z.to_nat (r_NE r) + e) out FNaN = rescaled factor base (elem_value f (nth (v * Z.to_nat (r_NE r) + e) es (Eint 0)))).
  { intros v e Hv He; unfold out.
    assert (P : (v * Z.to_nat (r_NE r) + e < length es)%nat) by (rewrite <- N; nia).
    rewrite (nth_indep _ FNaN (rescaled factor base (elem_value f (Eint 0)))) by (rewrite map_length; exact P).
    now rewrite (map_nth (fun e => rescaled factor base (elem_value f e))). }
  destruct HK as [HK|HK]; rewrite HK.
  - change (1 =? 1)%Z with true; cbn match; cbn [fst snd nat_shape].
    replace (r_NV r * r_NE r =? r_NE r * r_NV r)%Z with true by (symmetry; apply Z.eqb_eq; lia); cbn [negb].
    replace ((r_NV r <? 0) || (r_NE r <? 0))%Z%bool with false by (symmetry; apply Bool.orb_false_iff; split; apply Z.ltb_ge; lia).
    eexists; split; [reflexivity|]; cbn [attrs values coordinates].
    split; [reflexivity|]; split; [unfold range; rewrite map_length, seq_length; apply Nat.sub_0_r|].
    split; [apply Forall_map, Forall_forall; intros; unfold range; rewrite map_length, seq_length; apply Nat.sub_0_r|].
    intros v e Hv He; split; [rewrite !nth_map_range by assumption; apply O; assumption|].
    intros X0 Y0 DE DV rot HX HY HDE HDV HR.
    destruct (build_node (meaning r) (Z.to_nat (r_NV r)) (Z.to_nat (r_NE r)) (float64 (r_DV r)) (float64 (r_DE r)) X0 Y0 DV DE rot v e) as (cc & Hb & Hn); try assumption.
    exists cc; split; [exact Hb|]; rewrite Hn; unfold documented_position; change (1 =? 1)%Z with true; reflexivity.
  - change (-1 =? 1)%Z with false; cbn match; cbn [fst snd nat_shape].
    rewrite Z.eqb_refl; cbn [negb].
    replace ((r_NE r <? 0) || (r_NV r <? 0))%Z%bool with false by (symmetry; apply Bool.orb_false_iff; split; apply Z.ltb_ge; lia).
    eexists; split; [reflexivity|]; cbn [attrs values coordinates].
    split; [reflexivity|]; split; [unfold range; rewrite map_length, seq_length; apply Nat.sub_0_r|].
    split; [apply Forall_map, Forall_forall; intros; unfold range; rewrite map_length, seq_length; apply Nat.sub_0_r|].
    intros v e Hv He; split; [rewrite !nth_map_range by assumption; apply O; assumption|].
    intros X0 Y0 DE DV rot HX HY HDE HDV HR.
    destruct (build_node (meaning r) (Z.to_nat (r_NE r)) (Z.to_nat (r_NV r)) (float64 (r_DE r)) (float64 (r_DV r)) X0 Y0 DE DV rot e v) as (cc & Hb & Hn); try assumption.
    exists cc; split; [exact Hb|]; rewrite Hn; unfold documented_position; change (-1 =? 1)%Z with false; reflexivity.
Qed.
End Load.

(** ** Compressed grids *)
Lemma skipn_add {A} a b (l : list A) : skipn a (skipn b l) = skipn (b + a) l.
Proof. revert l; induction b as [|b IH]; intros l; [reflexivity|]; destruct l; cbn [skipn plus]; [apply skipn_nil|apply IH]. Qed.
Lemma concat_map_enc n (g : block -> Z) blocks : length (concat (map (fun b => enc n (g b)) blocks)) = (n * length blocks)%nat.
Proof. induction blocks as [|b bs IH]; cbn [map concat length]; [lia|]; rewrite app_length, enc_length, IH; lia. Qed.
Lemma for_blocks (body : nat -> bytes -> res bytes) (plains : list bytes) k n acc :
  n = (length plains + k)%nat ->
  (forall i p g, nth_error plains i = Some p -> body (k + i)%nat g = Ok (g ++ p)) ->
  for_ (seq k (length plains)) body acc = Ok (acc ++ concat plains).
Proof.
  intros _; revert k acc; induction plains as [|p plains IH]; intros k acc H; cbn [length seq for_ concat].
  - now rewrite app_nil_r.
  - pose proof (H 0%nat p acc eq_refl) as H0; rewrite Nat.add_0_r in H0; rewrite H0; cbn [bind].
    rewrite IH, app_assoc; [reflexivity|].
    intros i q g Hi; specialize (H (S i) q g Hi); now rewrite Nat.add_succ_r in H.
Qed.
Section Decompress.
Variable decompress : bytes -> res bytes.
Lemma decompress_ok signature vectors blocks rest content plains :
  content = directory signature vectors blocks ++ rest -> length signature = 8%nat -> int32 vectors ->
  int32 (Z.of_nat (length blocks)) -> Forall (block_ok content) blocks ->
  Forall2 (fun b p => decompress (b_packed b) = Ok p) blocks plains ->
  _decompress_grid decompress content = Ok (concat plains).
Proof.
  intros Hc Hs Hv Hn Hb H2.
  set (n := length blocks) in *.
  set (offs := concat (map (fun b => enc 8 (b_offset b)) blocks)) in *.
  set (sizes := concat (map (fun b => enc 4 (block_size b)) blocks)) in *.
  assert (Lo : length offs = (8 * n)%nat) by apply concat_map_enc.
  assert (Ls : length sizes = (4 * n)%nat) by apply concat_map_enc.
  assert (D : content = signature ++ enc 4 (Z.of_nat n) ++ enc 4 vectors ++ offs ++ sizes ++ rest).
  { rewrite Hc; unfold directory; fold n offs sizes; rewrite <- !app_assoc; reflexivity. }
  unfold _decompress_grid.
  assert (S1 : pyslice content 8 12 = enc 4 (Z.of_nat n)).
  { rewrite D; apply pyslice_mid; rewrite ?enc_length, Hs; reflexivity. }
  assert (S2 : pyslice content 12 16 = enc 4 vectors).
  { rewrite D, app_assoc; apply pyslice_mid; rewrite app_length, ?enc_length, Hs; reflexivity. }
  assert (S3 : pyslice content 16 (16 + Z.of_nat n * 8) = offs).
  { rewrite D, !(app_assoc signature), (app_assoc _ (enc 4 vectors)); apply pyslice_mid; rewrite !app_length, !enc_length, Hs, ?Lo; lia. }
  assert (S4 : pyslice content (16 + Z.of_nat n * 8) (16 + Z.of_nat n * 8 + Z.of_nat n * 4) = sizes).
  { rewrite D, !(app_assoc signature), (app_assoc _ (enc 4 vectors)), (app_assoc _ offs); apply pyslice_mid; rewrite !app_length, !enc_length, Hs, ?Lo, ?Ls; lia. }
  rewrite S1; unfold array_int at 1.
  replace (enc 4 (Z.of_nat n)) with (concat [enc 4 (Z.of_nat n)]) by (cbn [concat]; apply app_nil_r).
  rewrite array_items_concat; [|lia|repeat constructor; apply enc_length]; cbn [map bind].
  rewrite int32_enc by assumption.
  rewrite S2; unfold array_int at 1.
  replace (enc 4 vectors) with (concat [enc 4 vectors]) by (cbn [concat]; apply app_nil_r).
  rewrite array_items_concat; [|lia|repeat constructor; apply enc_length]; cbn [map bind].
  rewrite S3, S4; unfold array_long, array_int, offs, sizes.
  rewrite array_items_concat; [|lia|apply Forall_map, Forall_forall; intros; apply enc_length]; cbn [bind].
  rewrite array_items_concat; [|lia|apply Forall_map, Forall_forall; intros; apply enc_length]; cbn [bind].
  rewrite !map_map, Nat2Z.id; unfold range; rewrite Nat.sub_0_r.
  assert (Lp : length plains = n) by (unfold n; clear - H2; induction H2; cbn [length]; congruence).
  rewrite <- Lp; rewrite (for_blocks _ plains 0 n []); [reflexivity|lia|].
  intros i p g Hp; cbn [plus].
  assert (Hbi : exists b, nth_error blocks i = Some b /\ decompress (b_packed b) = Ok p).
  { clear - H2 Hp; revert i Hp; induction H2 as [|b q bs qs Hq H2 IH]; intros [|i] Hp; try discriminate.
    - inversion Hp; subst; exists b; split; [reflexivity|exact Hq].
    - apply IH; exact Hp. }
  destruct Hbi as (b & Hbi & Hdec).
  rewrite !nth_error_map, Hbi; cbn [option_map].
  assert (Hok : block_ok content b) by (eapply Forall_forall; [exact Hb|]; eapply nth_error_In; exact Hbi).
  destruct Hok as (Hx & Ho & Hz & Hfit & Hh).
  assert (Hz0 : (0 <= block_size b)%Z) by (unfold block_size; lia).
  rewrite int64_enc by (unfold int64; lia); rewrite int32_enc by (unfold int32; lia).
  assert (Sl : pyslice content (b_offset b - 512 + 16) (block_size b + b_offset b - 512) = b_packed b).
  { replace (b_offset b - 512 + 16)%Z with (Z.of_nat (Z.to_nat (b_offset b) - 512 + 16)) by lia.
    replace (block_size b + b_offset b - 512)%Z with (Z.of_nat (Z.to_nat (b_offset b) - 512 + 16 + length (b_packed b))) by (unfold block_size; lia).
    rewrite pyslice_nat by lia.
    unfold holds_at in Hh; rewrite app_length, Hx in Hh.
    replace (Z.to_nat (b_offset b) - 512 + 16 + length (b_packed b) - (Z.to_nat (b_offset b) - 512 + 16))%nat with (length (b_packed b)) by lia.
    replace (skipn (Z.to_nat (b_offset b) - 512 + 16) content) with (skipn 16 (skipn (Z.to_nat (b_offset b) - 512) content)) by (rewrite skipn_add; reflexivity).
    set (w := skipn (Z.to_nat (b_offset b) - 512) content) in *.
    assert (F : firstn (length (b_packed b)) (skipn 16 w) = skipn 16 (firstn (16 + length (b_packed b)) w)).
    { rewrite skipn_firstn_comm; f_equal; lia. }
    rewrite F, Hh, skipn_app, Hx, Nat.sub_diag, skipn_O, skipn_all2 by lia; reflexivity. }
  rewrite Sl, Hdec; reflexivity.
Qed.

Lemma layout_length pos packed : length (layout pos packed) = length packed.
Proof. revert pos; induction packed as [|[e p] packed IH]; intros pos; cbn [layout length]; [reflexivity|now rewrite IH]. Qed.
Lemma written_blocks pos (packed : list (bytes * bytes)) (pre : bytes) : Forall (fun ep : bytes * bytes => length (fst ep) = 16%nat) packed -> (512 <= pos)%Z ->
  Z.of_nat (length pre) = (pos - 512)%Z ->
  (pos + Z.of_nat (length (concat (map (fun ep : bytes * bytes => fst ep ++ snd ep) packed))) < 2 ^ 31)%Z ->
  Forall (block_ok (pre ++ concat (map (fun b => b_extra b ++ b_packed b) (layout pos packed)))) (layout pos packed)
  /\ Forall2 (fun b ep => b_packed b = snd ep) (layout pos packed) packed.
Proof.
  revert pos pre; induction packed as [|[e p] packed IH]; intros pos pre Hf Hpos Hpre Hbig; cbn [layout map concat].
  - split; constructor.
  - inversion Hf as [|? ? He Hf']; subst; cbn [fst] in He.
    cbn [map concat fst snd] in Hbig; rewrite !app_length in Hbig.
    set (rest := layout (pos + Z.of_nat (length e + length p)) packed).
    destruct (IH (pos + Z.of_nat (length e + length p))%Z (pre ++ e ++ p)) as [IH1 IH2]; [assumption|lia|rewrite !app_length; lia|lia|].
    fold rest in IH1, IH2.
    cbn [b_extra b_packed].
    split; constructor; [|rewrite <- app_assoc in IH1; exact IH1|reflexivity|exact IH2].
    unfold block_ok, block_size, holds_at; cbn [b_offset b_extra b_packed].
    split; [exact He|]; split; [lia|]; split; [lia|].
    assert (Ep : (Z.to_nat pos - 512)%nat = length pre) by lia.
    rewrite Ep; split; [rewrite !app_length; lia|].
    rewrite skipn_app, skipn_all, Nat.sub_diag, skipn_O; cbn [app].
    rewrite firstn_app, Nat.sub_diag, firstn_O, app_nil_r, firstn_all; reflexivity.
Qed.
Lemma decompress_written signature vectors (packed : list (bytes * bytes)) plains :
  length signature = 8%nat -> int32 vectors -> Forall (fun ep : bytes * bytes => length (fst ep) = 16%nat) packed ->
  (512 + Z.of_nat (length (written signature vectors packed)) < 2 ^ 31)%Z ->
  Forall2 (fun (ep : bytes * bytes) p => decompress (snd ep) = Ok p) packed plains ->
  _decompress_grid decompress (written signature vectors packed) = Ok (concat plains).
Proof.
  intros Hs Hv Hf Hbig H2; unfold written in *.
  set (pos := (512 + 16 + 12 * Z.of_nat (length packed))%Z) in *.
  set (blocks := layout pos packed) in *.
  assert (Ld : length (directory signature vectors blocks) = (16 + 12 * length packed)%nat).
  { unfold directory; rewrite !app_length, !enc_length, !concat_map_enc, Hs; unfold blocks; rewrite layout_length; lia. }
  assert (Lc : length (concat (map (fun b => b_extra b ++ b_packed b) blocks)) = length (concat (map (fun ep : bytes * bytes => fst ep ++ snd ep) packed))).
  { unfold blocks; clear; generalize pos; induction packed as [|[e p] packed IH]; intros q; [reflexivity|]; cbn [layout map concat b_extra b_packed fst snd]; rewrite !(app_length (e ++ p)), IH; reflexivity. }
  rewrite app_length, Ld, Lc in Hbig.
  destruct (written_blocks pos packed (directory signature vectors blocks)) as [B1 B2]; [assumption|unfold pos; lia|rewrite Ld; unfold pos; lia|unfold pos; lia|].
  fold blocks in B1, B2.
  eapply decompress_ok; [reflexivity|assumption|assumption|unfold blocks; rewrite layout_length; unfold int32; lia|exact B1|].
  clear - B2 H2; revert plains H2; induction B2 as [|b ep bs eps E B2 IH]; intros plains H2; inversion H2; subst; constructor; [rewrite E; assumption|apply IH; assumption].
Qed.
End Decompress.

(** ** Rejections *)
Lemma load_errors decompress r content :
  raw_ok r ->
  (r_KX r <> 1 /\ r_KX r <> -1 -> load_oasis_montaj_grid decompress (file_header r ++ content) = Raise NotImplementedError)%Z /\
  (r_SF r = 3 -> load_oasis_montaj_grid decompress (file_header r ++ content) = Raise NotImplementedError)%Z /\
  (~ In (r_ES r) [1; 2; 4; 8; 1025; 1026; 1028; 1032] -> load_oasis_montaj_grid decompress (file_header r ++ content) = Raise NotImplementedError)%Z.
Proof.
  intros Hr.
  pose proof (file_header_length r Hr) as HL.
  unfold load_oasis_montaj_grid.
  rewrite firstn_app, HL, Nat.sub_diag, firstn_O, app_nil_r, firstn_all2 by lia.
  rewrite (read_header_ok r Hr); cbn [bind].
  change (ordering (meaning r)) with (r_KX r); change (sign_flag (meaning r)) with (r_SF r);
  change (n_bytes_per_element (meaning r)) with (r_ES r).
  assert (EO : _check_ordering (r_KX r) = Ok tt \/ _check_ordering (r_KX r) = Raise NotImplementedError) by (unfold _check_ordering; destruct (_ || _)%bool; auto).
  assert (EF : _check_sign_flag (r_SF r) = Ok tt \/ _check_sign_flag (r_SF r) = Raise NotImplementedError) by (unfold _check_sign_flag; destruct (Z.eqb _ _); auto).
  split; [|split].
  - intros [H1 H2]; unfold _check_ordering; replace (_ || _)%bool with false; [reflexivity|].
    symmetry; apply Bool.orb_false_iff; split; apply Z.eqb_neq; assumption.
  - intros ->; destruct EO as [-> | ->]; reflexivity.
  - intros H; destruct EO as [-> | ->]; [|reflexivity]; destruct EF as [-> | ->]; [|reflexivity]; cbn [bind].
    unfold _get_data_type; replace (existsb _ _) with false; [reflexivity|].
    symmetry; apply Bool.not_true_iff_false; intros E; apply existsb_exists in E; destruct E as (x & Hx & Ex).
    apply Z.eqb_eq in Ex; rewrite Ex in H; apply H; exact Hx.
Qed.
(** Files with too few or too many elements are refused. *)
Lemma load_size decompress r f es : raw_ok r -> format_of (r_ES r) (r_SF r) = Some f -> Forall (elem_ok f) es ->
  (r_KX r = 1 \/ r_KX r = -1)%Z -> Z.of_nat (length es) <> (r_NE r * r_NV r)%Z ->
  load_oasis_montaj_grid decompress (file_header r ++ concat (map (elem_bytes f) es)) = Raise ValueError.
Proof.
  intros Hr Hf Hes HK Hlen.
  pose proof (file_header_length r Hr) as HL.
  unfold load_oasis_montaj_grid.
  rewrite firstn_app, HL, Nat.sub_diag, firstn_O, app_nil_r, firstn_all2 by lia.
  rewrite skipn_app, HL, Nat.sub_diag, skipn_O, skipn_all2 by lia; cbn [app].
  rewrite (read_header_ok r Hr); cbn [bind].
  change (ordering (meaning r)) with (r_KX r); change (sign_flag (meaning r)) with (r_SF r);
  change (n_bytes_per_element (meaning r)) with (r_ES r).
  assert (E1 : _check_ordering (r_KX r) = Ok tt) by (destruct HK as [-> | ->]; reflexivity).
  rewrite E1; cbn [bind].
  assert (E2 : _check_sign_flag (r_SF r) = Ok tt).
  { unfold _check_sign_flag; destruct (Z.eqb_spec (r_SF r) 3) as [E|]; [|reflexivity].
    rewrite E in Hf; unfold format_of in Hf; repeat match type of Hf with context [match ?x with _ => _ end] => destruct x; try discriminate end. }
  rewrite E2; cbn [bind].
  destruct (data_type_ok _ _ f false Hf) as (c & Ec & Hc1 & Hc2 & Hc3).
  rewrite Ec; cbn [bind].
  assert (E3 : (1024 <? r_ES r)%Z = false).
  { clear - Hf; assert (S : forall s, format_of s (r_SF r) = Some f -> (0 < s < 1024)%Z).
    { intros s; unfold format_of; repeat match goal with |- context [match ?x with _ => _ end] => destruct x; try discriminate end; lia. }
    apply S in Hf; apply Z.ltb_ge; lia. }
  rewrite E3; cbn [bind].
  unfold array_fl; rewrite array_items_concat; cbn [bind].
  2:{ rewrite Hc1; destruct f as [[|n]|[|n]| |]; cbn [fsize]; try lia;
      unfold format_of in Hf; repeat match type of Hf with context [match ?x with _ => _ end] => destruct x; try discriminate end. }
  2:{ rewrite Forall_map, Hc1; revert Hes; apply Forall_impl; exact Hc2. }
  match goal with |- context [negb ?b] => replace b with false; [reflexivity|] end.
  symmetry; apply Z.eqb_neq.
  change (shape_v (meaning r)) with (r_NV r); change (shape_e (meaning r)) with (r_NE r).
  replace (length (map _ _)) with (length es).
  - destruct (r_KX r =? 1)%Z; cbn [fst snd]; lia.
  - rewrite map_length; destruct c; unfold _remove_dummies; now rewrite !map_length.
Qed.

(** ** Rotated coordinates *)
Lemma rotated_node west south n0 n1 s0 s1 rot i j : (i < n0)%nat -> (j < n1)%nat ->
  let en := _build_rotated_coordinates west south (n0, n1) (s0, s1) rot in
  node (Rotated (fst en) (snd en)) i j =
    (west + INR j * s1 * cos (rot * PI / 180) - INR i * s0 * sin (rot * PI / 180),
     south + INR j * s1 * sin (rot * PI / 180) + INR i * s0 * cos (rot * PI / 180)).
Proof.
  intros Hi Hj en; unfold en, _build_rotated_coordinates; cbn [fst snd node]; unfold radians.
  set (ys := linspace 0 (s0 * _) n0); set (xs := linspace 0 (s1 * _) n1).
  assert (Hy : forall (g : R -> list R), nth i (map g ys) [] = g (INR i * s0)).
  { intros g; rewrite (nth_indep _ [] (g 0)) by (rewrite map_length; unfold ys; rewrite linspace_length; assumption).
    rewrite map_nth; unfold ys; now rewrite linspace0_nth. }
  assert (Hx : forall (g : R -> R), nth j (map g xs) 0 = g (INR j * s1)).
  { intros g; rewrite (nth_indep _ 0 (g 0)) by (rewrite map_length; unfold xs; rewrite linspace_length; assumption).
    rewrite map_nth; unfold xs; now rewrite linspace0_nth. }
  rewrite !Hy, !Hx; reflexivity.
Qed.
Lemma cos2_sin2 a : cos a * cos a + sin a * sin a = 1.
Proof. pose proof (sin2_cos2 a) as H; unfold Rsqr in H; lra. Qed.

(** ** Special floats *)
Lemma float64_zero : float64 (repeat 0%Z 8) = FFin 0.
Proof.
  unfold float64, ieee.
  change (le (repeat 0%Z 8)) with 0%Z.
  change (2 ^ (11 + 52) <=? 0)%Z with false. change ((0 / 2 ^ 52) mod 2 ^ 11)%Z with 0%Z. change (0 mod 2 ^ 52)%Z with 0%Z.
  change (0 =? 2 ^ 11 - 1)%Z with false. change (0 =? 0)%Z with true. cbn match. f_equal; ring.
Qed.
Lemma float32_dummy : exists x, float32 (enc 4 4103980462) = FFin x /\ x <= -100000000000000005366162204393472.
Proof.
  change 4103980462%Z with (triple_bits 8 23 (Triple true 233 1951150)).
  rewrite float32_triple by (split; cbn [t_exp t_man]; lia).
  eexists; split; [reflexivity|].
  unfold triple_value; cbn [t_neg t_exp t_man].
  change (233 - (2 ^ (8 - 1) - 1))%Z with 106%Z.
  rewrite <- !powerRZ_Z2 by lia.
  change (2 ^ 23)%Z with 8388608%Z; change (2 ^ 106)%Z with 81129638414606681695789005144064%Z; lra.
Qed.
Lemma float64_dummy : float64 (enc 8 14308983531651821079) = FFin (-100000000000000005366162204393472).
Proof.
  change 14308983531651821079%Z with (triple_bits 11 52 (Triple true 1129 1047515495755287)).
  rewrite float64_triple by (split; cbn [t_exp t_man]; lia).
  f_equal; unfold triple_value; cbn [t_neg t_exp t_man].
  change (1129 - (2 ^ (11 - 1) - 1))%Z with 106%Z.
  rewrite <- !powerRZ_Z2 by lia.
  change (2 ^ 52)%Z with 4503599627370496%Z; change (2 ^ 106)%Z with 81129638414606681695789005144064%Z; lra.
Qed.
