(** Model of /repo/src/harmonica/_spherical_harmonics/legendre.py.

    Floats are reals.  The 2-D arrays [p] and [dp] that the caller passes and the functions fill in
    place are [table]s: a number of rows, a number of columns and the stored numbers.  numba does
    not check indices, so an access outside the shape is [OutOfBounds].  Negative indices do not
    occur: every subtraction below is of a smaller number whenever the access is executed. *)
From Verif Require Import Base.

(** Source: the arguments [p] and [dp] of legendre.py:27, 74, 128, 193, 255 and 323. *)
Record table := Table { rows : nat; cols : nat; ent : nat -> nat -> R }.

(** Source: bounds of such an array; numba does not check them. *)
Definition in_shape (t : table) (i j : nat) : bool := (Nat.ltb i (rows t) && Nat.ltb j (cols t))%bool.

(** [p[i, j]]; source: e.g. legendre.py:66. *)
Definition tget (t : table) (i j : nat) : res R :=
  if in_shape t i j then Ok (ent t i j) else Raise OutOfBounds.

(** [p[i, j] = v]; source: e.g. legendre.py:61. *)
Definition tset (t : table) (i j : nat) (v : R) : res table :=
  if in_shape t i j
  then Ok (Table (rows t) (cols t)
             (fun a b => if (Nat.eqb a i && Nat.eqb b j)%bool then v else ent t a b))
  else Raise OutOfBounds.

(** legendre.py 60, 163 and 288: [u = np.sqrt((1 - x) * (1 + x))] *)
Definition sin_of (x : R) : R := sqrt ((1 - x) * (1 + x)).

(** legendre.py 165, 236, 290, 363: [sqrt = np.sqrt(np.arange(2 * (max_degree + 1)))], as the access
    [sqrt[k]]. *)
Definition sqrt_at (max_degree k : nat) : res R :=
  if Nat.ltb k (2 * (max_degree + 1)) then Ok (sqrt (INR k)) else Raise OutOfBounds.

(** legendre.py 16-23 ([_rescale]).  1e280 is the exact number 10^280. *)
Definition big : R := 10 ^ 280.
(** Source: 1e-280, legendre.py:166-169 and 291-294. *)
Definition small : R := / big.

(** Source: legendre.py:16-23. *)
Definition _rescale (u : R) (max_degree : nat) (p : table) : res table :=
  do (p, _) <- for_ (range 0 (max_degree + 1)) (fun m '(p, rescale) =>
    let rescale := if Nat.ltb 0 m then rescale * u else rescale in
    do p <- for_ (range m (max_degree + 1)) (fun n p =>
      do v <- tget p n m; tset p n m (v * rescale)) p;
    Ok (p, rescale)) (p, big);
  Ok p.

(** legendre.py 27-70 ([associated_legendre]). *)
Definition associated_legendre (x : R) (max_degree : nat) (p : table) : res table :=
  let u := sin_of x in
  do p <- tset p 0 0 1;
  for_ (range 1 (max_degree + 1)) (fun n p =>
    do p <- for_ (range 0 (n - 1)) (fun m p =>
      let a_nm := (2 * INR n - 1) / (INR n - INR m) in
      let b_nm := - (INR n + INR m - 1) / (INR n - INR m) in
      do p1 <- tget p (n - 1) m; do p2 <- tget p (n - 2) m;
      tset p n m (a_nm * x * p1 + b_nm * p2)) p;
    let c_nm := 2 * INR n - 1 in
    do q <- tget p (n - 1) (n - 1); do p <- tset p n (n - 1) (c_nm * x * q);
    do q <- tget p (n - 1) (n - 1); tset p n n (c_nm * u * q)) p.

(** legendre.py 74-124 ([associated_legendre_derivative]). *)
Definition associated_legendre_derivative (max_degree : nat) (p dp : table) : res table :=
  do dp <- tset dp 0 0 0;
  for_ (range 1 (max_degree + 1)) (fun n dp =>
    do v <- tget p n 1; do dp <- tset dp n 0 (-1 * v);
    do dp <- for_ (range 1 n) (fun m dp =>
      let b_nm := 0.5 * (INR n + INR m) * (INR n - INR m + 1) in
      let c_nm := - 0.5 in
      do v1 <- tget p n (m - 1); do v2 <- tget p n (m + 1);
      tset dp n m (b_nm * v1 + c_nm * v2)) dp;
    do v <- tget p n (n - 1); tset dp n n (INR n * v)) dp.

(** legendre.py 128-189 ([associated_legendre_schmidt]). *)
Definition associated_legendre_schmidt (x : R) (max_degree : nat) (p : table) : res table :=
  let u := sin_of x in
  let sq := sqrt_at max_degree in
  do p <- tset p 0 0 (1 * small);
  do p <- tset p 1 0 (x * small);
  do v <- tget p 0 0; do p <- tset p 1 1 v;
  do p <- for_ (range 2 (max_degree + 1)) (fun n p =>
    do sn <- sq n; do sn1 <- sq (n - 1)%nat;
    let a_n0 := (2 * INR n - 1) / (sn ^ 2) in
    let b_n0 := - ((sn1 / sn) ^ 2) in
    do p1 <- tget p (n - 1) 0; do p2 <- tget p (n - 2) 0;
    tset p n 0 (a_n0 * x * p1 + b_n0 * p2)) p;
  do p <- for_ (range 2 (max_degree + 1)) (fun n p =>
    do p <- for_ (range 1 (n - 1)) (fun m p =>
      do s1 <- sq (n + m)%nat; do s2 <- sq (n - m)%nat;
      do s3 <- sq (n + m - 1)%nat; do s4 <- sq (n - m - 1)%nat;
      let a_nm := (2 * INR n - 1) / (s1 * s2) in
      let b_nm := - s3 * s4 / (s1 * s2) in
      do p1 <- tget p (n - 1) m; do p2 <- tget p (n - 2) m;
      tset p n m (a_nm * x * p1 + b_nm * p2)) p;
    do c_nm <- sq (2 * n - 1)%nat;
    do q <- tget p (n - 1) (n - 1); do p <- tset p n (n - 1) (c_nm * x * q);
    do s5 <- sq (2 * n)%nat;
    let d_nm := c_nm / s5 in
    do q <- tget p (n - 1) (n - 1); tset p n n (d_nm * q)) p;
  _rescale u max_degree p.

(** legendre.py 193-251 ([associated_legendre_schmidt_derivative]). *)
Definition associated_legendre_schmidt_derivative (max_degree : nat) (p dp : table) : res table :=
  let sq := sqrt_at max_degree in
  do dp <- tset dp 0 0 0;
  do v <- tget p 1 1; do dp <- tset dp 1 0 (- v);
  do v <- tget p 1 0; do dp <- tset dp 1 1 v;
  for_ (range 2 (max_degree + 1)) (fun n dp =>
    do sn <- sq n; do sn1 <- sq (n + 1)%nat; do s2 <- sq 2%nat;
    let a_nm := - sn * sn1 / s2 in
    do v <- tget p n 1; do dp <- tset dp n 0 (a_nm * v);
    let b_nm := 0.5 * sn * sn1 * s2 in
    do sn2 <- sq (n + 2)%nat; do snm <- sq (n - 1)%nat;
    let c_nm := - 0.5 * sn2 * snm in
    do v0 <- tget p n 0; do v2 <- tget p n 2; do dp <- tset dp n 1 (b_nm * v0 + c_nm * v2);
    do dp <- for_ (range 2 n) (fun m dp =>
      do t1 <- sq (n + m)%nat; do t2 <- sq (n - m + 1)%nat;
      do t3 <- sq (n + m + 1)%nat; do t4 <- sq (n - m)%nat;
      let b_nm := 0.5 * t1 * t2 in
      let c_nm := - 0.5 * t3 * t4 in
      do v1 <- tget p n (m - 1); do v2 <- tget p n (m + 1);
      tset dp n m (b_nm * v1 + c_nm * v2)) dp;
    let d_nm := 0.5 * s2 * sn in
    do v <- tget p n (n - 1); tset dp n n (d_nm * v)) dp.

(** legendre.py 323-378 ([associated_legendre_full_derivative]). *)
Definition associated_legendre_full_derivative (max_degree : nat) (p dp : table) : res table :=
  let sq := sqrt_at max_degree in
  do dp <- tset dp 0 0 0;
  do v <- tget p 1 1; do dp <- tset dp 1 0 (- v);
  do v <- tget p 1 0; do dp <- tset dp 1 1 v;
  for_ (range 2 (max_degree + 1)) (fun n dp =>
    do sn <- sq n; do sn1 <- sq (n + 1)%nat; do s2 <- sq 2%nat;
    let a_nm := - sn * sn1 / s2 in
    do v <- tget p n 1; do dp <- tset dp n 0 (a_nm * v);
    let b_n1 := 0.5 * s2 * sn1 * sn in
    do sn2 <- sq (n + 2)%nat; do snm <- sq (n - 1)%nat;
    let c_n1 := - 0.5 * sn2 * snm in
    do v0 <- tget p n 0; do v2 <- tget p n 2; do dp <- tset dp n 1 (b_n1 * v0 + c_n1 * v2);
    do dp <- for_ (range 2 n) (fun m dp =>
      do t1 <- sq (n + m)%nat; do t2 <- sq (n - m + 1)%nat;
      do t3 <- sq (n + m + 1)%nat; do t4 <- sq (n - m)%nat;
      let b_nm := 0.5 * t1 * t2 in
      let c_nm := - 0.5 * t3 * t4 in
      do v1 <- tget p n (m - 1); do v2 <- tget p n (m + 1);
      tset dp n m (b_nm * v1 + c_nm * v2)) dp;
    let d_nm := 0.5 * s2 * sn in
    do v <- tget p n (n - 1); tset dp n n (d_nm * v)) dp.

(** legendre.py 255-319 ([associated_legendre_full]). *)
Definition associated_legendre_full (x : R) (max_degree : nat) (p : table) : res table :=
  let u := sin_of x in
  let sq := sqrt_at max_degree in
  do p <- tset p 0 0 (1 * small);
  do r3 <- sq 3%nat;
  do p <- tset p 1 0 (x * r3 * small);
  do v <- tget p 0 0; do p <- tset p 1 1 (v * r3);
  do p <- for_ (range 2 (max_degree + 1)) (fun n p =>
    do s1 <- sq (2 * n - 1)%nat; do s2 <- sq (2 * n + 1)%nat; do s3 <- sq (2 * n - 3)%nat;
    let a_n0 := s1 * s2 / INR n in
    let b_n0 := - (INR n - 1) * s2 / (INR n * s3) in
    do p1 <- tget p (n - 1) 0; do p2 <- tget p (n - 2) 0;
    tset p n 0 (a_n0 * x * p1 + b_n0 * p2)) p;
  do p <- for_ (range 2 (max_degree + 1)) (fun n p =>
    do p <- for_ (range 1 (n - 1)) (fun m p =>
      do r1 <- sq (2 * n + 1)%nat; do r2 <- sq (2 * n - 1)%nat; do r3 <- sq (2 * n - 3)%nat;
      do s1 <- sq (n + m)%nat; do s2 <- sq (n - m)%nat;
      do s3 <- sq (n + m - 1)%nat; do s4 <- sq (n - m - 1)%nat;
      let a_nm := r1 * r2 / (s1 * s2) in
      let b_nm := - (s3 * s4 * r1) / (s1 * s2 * r3) in
      do p1 <- tget p (n - 1) m; do p2 <- tget p (n - 2) m;
      tset p n m (a_nm * x * p1 + b_nm * p2)) p;
    do c_nm <- sq (2 * n + 1)%nat;
    do q <- tget p (n - 1) (n - 1); do p <- tset p n (n - 1) (c_nm * x * q);
    do s5 <- sq (2 * n)%nat;
    let d_nm := c_nm / s5 in
    do q <- tget p (n - 1) (n - 1); tset p n n (d_nm * q)) p;
  _rescale u max_degree p.
