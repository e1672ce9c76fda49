(** Model of sporco/fft.py: fftconv (376-417), fl2norm2 (421-445) and rfl2norm2 (449-484), with the transforms of numpy /
    pyfftw (fftn, ifftn, rfftn, irfftn with a shape argument) written out as finite sums. Exact complex arithmetic.
    An array of any dimension is a function of an index, and an index gives a coordinate for each axis. *)
Require Import List Arith ZArith Reals Bool.
Require Import Verif.RVec Verif.Cplx.
Import ListNotations.
Local Open Scope R_scope.

Definition index : Type := nat -> nat.
Definition upd (idx : index) (ax j : nat) : index := fun k => if Nat.eqb k ax then j else idx k.
Definition mem (ax : nat) (axes : list nat) : bool := existsb (Nat.eqb ax) axes.

(** One-dimensional transforms of length n. *)
Definition dft (n : nat) (x : nat -> C) (k : nat) : C :=
  csumn n (fun j => cmul (x j) (ru n (- (Z.of_nat j * Z.of_nat k)))).
Definition idft (n : nat) (h : nat -> C) (j : nat) : C :=
  cscal (/ INR n) (csumn n (fun k => cmul (h k) (ru n (Z.of_nat j * Z.of_nat k)))).
(** The inverse transform of a half spectrum h[0 .. n/2] (irfft, c2r): the imaginary parts of h[0] and, for even n, of
    h[n/2] are ignored and the other samples count twice. *)
Definition irfft (n : nat) (h : nat -> C) (j : nat) : R :=
  / INR n * (re (h O)
    + 2 * sumn ((n + 1) / 2 - 1) (fun k => re (cmul (h (S k)) (ru n (Z.of_nat j * Z.of_nat (S k)))))
    + (if Nat.even n then re (h (n / 2)%nat) * re (ru n (Z.of_nat j * Z.of_nat (n / 2))) else 0)).

(** Transforms along an axis and along several axes, the last axis first. [s] gives the length along each axis. *)
Definition dft_ax (s : nat -> nat) (ax : nat) (x : index -> C) : index -> C :=
  fun idx => dft (s ax) (fun j => x (upd idx ax j)) (idx ax).
Definition idft_ax (s : nat -> nat) (ax : nat) (x : index -> C) : index -> C :=
  fun idx => idft (s ax) (fun j => x (upd idx ax j)) (idx ax).
Definition fftn (s : nat -> nat) (axes : list nat) (x : index -> C) : index -> C := fold_right (dft_ax s) x axes.
Definition ifftn (s : nat -> nat) (axes : list nat) (x : index -> C) : index -> C := fold_right (idft_ax s) x axes.

(** rfftn: a real transform on the last of the axes, of which the samples 0 .. n/2 are kept, and complex transforms on the
    others. irfftn: complex inverse transforms on the others, then the half spectrum inverse on the last. *)
Definition rfftn (s : nat -> nat) (axes : list nat) (x : index -> R) : index -> C :=
  fftn s (removelast axes) (dft_ax s (last axes O) (fun i => ofR (x i))).
Definition irfftn (s : nat -> nat) (axes : list nat) (h : index -> C) : index -> R :=
  let l := last axes O in
  fun idx => irfft (s l) (fun k => ifftn s (removelast axes) h (upd idx l k)) (idx l).

(** Zero padding along [axes] of an array with lengths [sa] (the shape argument of the transforms). *)
Definition inside (sa : nat -> nat) (axes : list nat) (idx : index) : bool := forallb (fun ax => Nat.ltb (idx ax) (sa ax)) axes.
Definition padR (sa : nat -> nat) (axes : list nat) (x : index -> R) : index -> R := fun idx => if inside sa axes idx then x idx else 0.
Definition padC (sa : nat -> nat) (axes : list nat) (x : index -> C) : index -> C := fun idx => if inside sa axes idx then x idx else c0.

(** Broadcasting in af * bf: an axis of length one which is not transformed is repeated. *)
Definition bc (sa : nat -> nat) (axes : list nat) (idx : index) : index :=
  fun ax => if (negb (mem ax axes) && Nat.eqb (sa ax) 1)%bool then O else idx ax.

(** np.roll(ab, -origin, axis=axes): the sample at idx is taken from idx + origin. *)
Definition roll_idx (s : nat -> nat) (l : list (nat * Z)) (idx : index) : index :=
  fold_right (fun p i => upd i (fst p) (Z.to_nat ((Z.of_nat (i (fst p)) + snd p) mod Z.of_nat (s (fst p))))) idx l.

(** fftconv (403-417): dims is the maximum of the two lengths (411). [origin] is None or one entry per axis. *)
Definition dims (sa sb : nat -> nat) : nat -> nat := fun ax => Nat.max (sa ax) (sb ax).
Definition fftconv_c (sa sb : nat -> nat) (axes : list nat) (origin : option (list Z)) (a b : index -> C) : index -> C :=
  let s := dims sa sb in
  let af := fftn s axes (padC sa axes a) in
  let bf := fftn s axes (padC sb axes b) in
  let ab := ifftn s axes (fun i => cmul (af (bc sa axes i)) (bf (bc sb axes i))) in
  match origin with
  | None => ab
  | Some o => fun idx => ab (roll_idx s (combine axes o) idx)
  end.
Definition fftconv_r (sa sb : nat -> nat) (axes : list nat) (origin : option (list Z)) (a b : index -> R) : index -> R :=
  let s := dims sa sb in
  let af := rfftn s axes (padR sa axes a) in
  let bf := rfftn s axes (padR sb axes b) in
  let ab := irfftn s axes (fun i => cmul (af (bc sa axes i)) (bf (bc sb axes i))) in
  match origin with
  | None => ab
  | Some o => fun idx => ab (roll_idx s (combine axes o) idx)
  end.

(** Sum over all values of the coordinates on [axes]. *)
Fixpoint rsum (s : nat -> nat) (axes : list nat) (f : index -> R) (idx : index) : R :=
  match axes with
  | [] => f idx
  | ax :: r => sumn (s ax) (fun j => rsum s r f (upd idx ax j))
  end.
Fixpoint prodn (s : nat -> nat) (axes : list nat) : R := match axes with [] => 1 | ax :: r => INR (s ax) * prodn s r end.

Definition idx0 : index := fun _ => O.

(** fl2norm2 (444-445): arrays with [d] axes. *)
Definition fl2norm2 (d : nat) (s : nat -> nat) (axes : list nat) (xf : index -> C) : R :=
  rsum s (seq 0 d) (fun i => cabs2 (xf i)) idx0 / prodn s axes.

(** rfl2norm2 (475-484): [s] is the shape of the signal, and the half spectrum xf has N/2+1 samples on the last of the
    axes. [rest] are the other axes of the array. nrm0, nrm1 and nrm2 are squared norms here; the slice [-1:] is the
    sample N/2. *)
Definition rfl2norm2 (d : nat) (s : nat -> nat) (axes : list nat) (xf : index -> C) : R :=
  let l := last axes O in
  let N := s l in
  let rest := filter (fun ax => negb (Nat.eqb ax l)) (seq 0 d) in
  let at_ k := rsum s rest (fun i => cabs2 (xf i)) (upd idx0 l k) in
  let idx1 := ((N + 1) / 2)%nat in
  let n0 := at_ O in
  let n1 := sumn (idx1 - 1) (fun k => at_ (S k)) in
  let n2 := if Nat.even N then at_ (N / 2 + 1 - 1)%nat else 0 in
  / prodn s axes * (n0 + 2 * n1 + n2).
