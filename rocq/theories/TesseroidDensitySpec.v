(** Specification vocabulary for densities that are functions of the radius. *)
From Verif Require Import Base DistanceModel TesseroidModel TesseroidSpec.

(** What is assumed of scipy's bounded minimiser: it evaluates the function at an interior abscissa and
    reports that abscissa and that value (nothing about optimality). *)
Definition bounded_search (minimize : (R -> R) -> R -> R -> R * R) : Prop :=
  forall f b t, (b < t -> b < fst (minimize f b t) < t) /\ (b = t -> fst (minimize f b t) = b) /\
                (b <= t -> snd (minimize f b t) = f (fst (minimize f b t))).

(** A pile of layers without gaps from [b] up to [t]. *)
Inductive pile : R -> R -> list (R * R) -> Prop :=
| pile_one b t : b < t -> pile b t [(b, t)]
| pile_cons b m t l : b < m -> pile m t l -> pile b t ((b, m) :: l).

Definition layer_of (t : tess) (bt : R * R) : tess := Tess (west t) (east t) (south t) (north t) (fst bt) (snd bt).

(** Difference at radius [r] between [f] and the straight line through its values at [b] and [t]. *)
Definition off_line (f : R -> R) (b t r : R) : R := f r - (f b * (t - r) + f t * (r - b)) / (t - b).

(** The eight point masses of a tesseroid when the density depends on the radius. *)
Definition glq_sources_of (t : tess) (rho : R -> R) : list (point * R) :=
  map (fun s => (fst s, rho (snd (fst s)) * snd s)) (glq_sources t 1).

(** An ideal search: it finds the minimum of every continuous function that is zero at both ends of the
    interval and not positive in it. *)
Definition finds_minima (minimize : (R -> R) -> R -> R -> R * R) : Prop :=
  forall f b t, b < t -> (forall x, b <= x <= t -> continuity_pt f x /\ f x <= 0) -> f b = 0 -> f t = 0 ->
  forall r, b <= r <= t -> f (fst (minimize f b t)) <= f r.
