(** Model of sporco/interp.py bilinear_demosaic (24-92) for an image of H rows and W columns.  Exact arithmetic.  The one-dimensional
    interpolating spline is external: RectBivariateSpline(x, y, z, s=0) with its default degrees kx = ky = 3 is the tensor product of
    interpolating cubic splines (DmsSpec.spline), needs at least 4 samples along each axis (an exception otherwise), and moves evaluation points
    outside of the rectangle of the samples to its border. *)
Require Import Reals List Arith Bool Lra Lia.
Local Open Scope R_scope.

Section Dms.
(** [spl n f t]: spline of the n values f 0, ..., f (n-1) at the nodes 0, ..., n-1, evaluated at t.  The samples of a colour have distance 2, so
    that the node coordinate of row i is (i - first) / 2. *)
Variable spl : nat -> (nat -> R) -> R -> R.
(** griddata(method='linear') on the green samples: the four green neighbours of another interior pixel are on a circle around it, so that the
    Delaunay triangulation has one of the two diagonals of their square, and the value is the mean of two opposite neighbours.  Which one is up to
    the library: [tri i j] is true for the left and right neighbours. *)
Variable tri : nat -> nat -> bool.
Variables (H W : nat) (img : nat -> nat -> R).

Definition clampR (hi t : R) : R := Rmax 0 (Rmin t hi).
Definition coord (n first i : nat) : R := clampR (INR (n - 1)) ((INR i - INR first) / 2).
Definition spl2 (n m : nat) (z : nat -> nat -> R) (s t : R) : R := spl n (fun a => spl m (fun b => z a b) t) s.

(** Red channel, 52-56. *)
Definition red (i j : nat) : R :=
  let n := (H / 2)%nat in let m := (W / 2)%nat in
  spl2 n m (fun a b => img (2 * a + 1)%nat (2 * b + 1)%nat) (coord n 1 i) (coord m 1 j).
(** Blue channel, 84-88. *)
Definition blue (i j : nat) : R :=
  let n := ((H + 1) / 2)%nat in let m := ((W + 1) / 2)%nat in
  spl2 n m (fun a b => img (2 * a)%nat (2 * b)%nat) (coord n 0 i) (coord m 0 j).

(** Green channel, 63-70: None is NaN (outside of the convex hull of the samples, that is at a corner without a sample). *)
Definition is_green (i j : nat) : bool := Nat.odd (i + j).
Definition mid (x y : R) : R := (x + y) / 2.
Definition griddata (i j : nat) : option R :=
  if is_green i j then Some (img i j)
  else
    let rim := (i =? 0) || (i =? H - 1) in let side := (j =? 0) || (j =? W - 1) in
    if rim && side then None
    else if rim then Some (mid (img i (j - 1)%nat) (img i (j + 1)%nat))
    else if side then Some (mid (img (i - 1)%nat j) (img (i + 1)%nat j))
    else if tri i j then Some (mid (img i (j - 1)%nat) (img i (j + 1)%nat))
    else Some (mid (img (i - 1)%nat j) (img (i + 1)%nat j)).
(** if np.isnan(sg[i, j]): sg[i, j] = (sg[a, b] + sg[c, d]) / 2.0. *)
Definition patch (i j a b c d : nat) (sg : nat -> nat -> option R) : nat -> nat -> option R :=
  match sg i j with
  | Some _ => sg
  | None => fun p q => if (p =? i) && (q =? j) then match sg a b, sg c d with Some x, Some y => Some (mid x y) | _, _ => None end else sg p q
  end.
(** 71-78. *)
Definition green : nat -> nat -> option R :=
  patch (H - 1) (W - 1) (H - 2) (W - 1) (H - 1) (W - 2)
    (patch (H - 1) 0 (H - 2) 0 (H - 1) 1
      (patch 0 (W - 1) 0 (W - 2) 1 (W - 1)
        (patch 0 0 0 1 1 0 griddata))).

(** 92; the outer None is an exception: fewer than 4 red samples along an axis (the blue ones are at least as many). *)
Definition demosaic : option ((nat -> nat -> R) * (nat -> nat -> option R) * (nat -> nat -> R)) :=
  if (4 <=? H / 2) && (4 <=? W / 2) then
    if (4 <=? (H + 1) / 2) && (4 <=? (W + 1) / 2) then Some (red, green, blue) else None
  else None.
End Dms.
