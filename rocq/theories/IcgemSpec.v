(** What the ICGEM theorems (C54) talk about: the layout of a file. *)
From Coq Require Import ZArith Ascii String.
From Verif Require Import Base PointGravityModel IcgemModel.
Local Open Scope string_scope. Local Open Scope list_scope. Local Open Scope R_scope.

(** White space of ASCII: tabulator, line feed, vertical tabulator, form feed, carriage return, the four
    information separators and the blank. *)
Definition blank (c : ascii) : bool := existsb (Nat.eqb (nat_of_ascii c)) [9; 10; 11; 12; 13; 28; 29; 30; 31; 32]%nat.
Fixpoint all_white (s : string) : Prop := match s with EmptyString => True | String c s => blank c = true /\ all_white s end.
Fixpoint no_white (s : string) : Prop := match s with EmptyString => True | String c s => blank c = false /\ no_white s end.
Definition word (s : string) : Prop := s <> "" /\ no_white s.
Definition breaks (s : string) : Prop := match s with EmptyString => True | String c _ => blank c = true end.
(** [line_of ws s]: the line [s] holds the words [ws], with any white space between and around them. *)
Inductive line_of : list string -> string -> Prop :=
| line_end g : all_white g -> line_of [] g
| line_word g w ws s : all_white g -> word w -> breaks s -> line_of ws s -> line_of (w :: ws) (g ++ w ++ s).
(** A header: lines of a key and its values, a blank line, the names and the units of the columns, the end mark. *)
Record gdf := Gdf { g_fields : list (string * list string); g_names : list string; g_units : list string }.
Definition not_end (w : string) : Prop := prefix "end_of_head" w = false.
Inductive header_lines (h : gdf) : list string -> Prop :=
| header_intro hs blank l1 l2 g tail :
    Forall2 (fun kv line => line_of (fst kv :: snd kv) line /\ not_end (fst kv)) (g_fields h) hs ->
    line_of [] blank ->
    line_of (g_names h) l1 -> (exists w ws, g_names h = w :: ws /\ not_end w) ->
    line_of (g_units h) l2 -> (exists w ws, g_units h = w :: ws /\ not_end w) ->
    all_white g ->
    header_lines h (hs ++ [blank; l1; l2; (g ++ "end_of_head" ++ tail)%string]).
(** The first word of the value of a key; a repeated key has the last value. *)
Definition value_of (h : gdf) (k w : string) : Prop := exists rest, lookup k (rev (g_fields h)) = Some (w :: rest).
Definition least (l : list R) (m : R) : Prop := In m l /\ forall x, In x l -> m <= x.
Definition greatest (l : list R) (m : R) : Prop := In m l /\ forall x, In x l -> x <= m.
(** |a - b| <= 1e-8 + 1e-5 |b| *)
Definition near (a b : R) : Prop := Rabs (a - b) <= 1 / 100000000 + 1 / 100000 * Rabs b.
