(** Model of sporco/linalg.py: block_circulant (204-228), pca (914-945), nkp (949-986), kpsvd (990-1033).
    np.linalg.svd is an argument: it takes the numbers of rows and columns and the matrix, and returns U, S, Vt of the thin
    decomposition. Arrays hold real numbers; the conversion of values assigned to an array with the type of A[0] is an argument. *)
Require Import List Arith ZArith Reals Bool.
Require Import Verif.RVec Verif.NdIndex Verif.ArrayModel.
Import ListNotations.
Local Open Scope R_scope.

Definition mat := nat -> nat -> R.

(** ** nkp and kpsvd *)
Section Kron.
Variable svd : nat -> nat -> mat -> mat * (nat -> R) * mat.
(** np.pad, reached only with pad=True (array.py 327-331), hence never from here. *)
Variable pad : sarr R -> list nat -> sarr R.

(** ndarray.transpose: all axes reversed. *)
Definition transpose (x : sarr R) : arr R := mkarr (rev (sshape x)) (fun idx => sget x (rev idx)).
(** Rows and columns of a two-dimensional array. *)
Definition as_mat (x : arr R) : mat := fun i j => get x [i; j].
(** v.reshape((n0, n1), order='F') *)
Definition reshape_F (n0 : nat) (v : nat -> R) : mat := fun k l => v (k + l * n0)%nat.

(** The check and the rearranged matrix (976-982, 1023-1029). The shape of A is a pair because A.shape[1] is used; None is
    ValueError, raised here or in subsample_array. *)
Definition atilde (A : sarr R) (bshape cshape : nat * nat) : option mat :=
  let '(b0, b1) := bshape in let '(c0, c1) := cshape in
  if negb (Nat.eqb (nth 0 (sshape A) 0%nat) (b0 * c0)) || negb (Nat.eqb (nth 1 (sshape A) 0%nat) (b1 * c1)) then None
  else match subsample_array R pad A [c0; c1] false with
       | None => None
       | Some y => Some (as_mat (reshape (transpose y) [(b0 * b1)%nat; (c0 * c1)%nat]))
       end.

(** nkp (976-986) *)
Definition nkp (A : sarr R) (bshape cshape : nat * nat) : option (mat * mat) :=
  match atilde A bshape cshape with
  | None => None
  | Some At =>
      let '(U, Sv, Vt) := svd (fst bshape * snd bshape)%nat (fst cshape * snd cshape)%nat At in
      let B := fun k l => sqrt (Sv O) * reshape_F (fst bshape) (fun r => U r O) k l in
      let C := fun k l => sqrt (Sv O) * reshape_F (fst cshape) (fun r => Vt O r) k l in
      Some (B, C)
  end.

(** kpsvd (1023-1033); B and C have the index of the term last. *)
Definition kpsvd (A : sarr R) (bshape cshape : nat * nat) : option ((nat -> R) * (nat -> nat -> nat -> R) * (nat -> nat -> nat -> R)) :=
  match atilde A bshape cshape with
  | None => None
  | Some At =>
      let '(U, Sv, Vt) := svd (fst bshape * snd bshape)%nat (fst cshape * snd cshape)%nat At in
      Some (Sv, (fun k l i => reshape_F (fst bshape) (fun r => U r i) k l), fun k l i => reshape_F (fst cshape) (fun r => Vt i r) k l)
  end.

(** pca (938-945) of an M x N matrix; the mean is None without centering. *)
Definition pca (M N : nat) (U : mat) (centre : bool) : mat * (nat -> R) * option (nat -> R) :=
  let '(U', C) := if centre
    then let C := fun i => sumn N (fun j => U i j) / INR N in ((fun i j => U i j - C i), Some C)
    else (U, None) in
  let '(B, Sv, _) := svd M N U' in
  (B, (fun k => Sv k ^ 2), C).
End Kron.

(** ** block_circulant *)
Section Circ.
(** Conversion to the type of A[0], the type of the array of zeros (223). *)
Variable cast : R -> R.

(** A block: its shape and its elements. *)
Record block := mkblock { brows : nat; bcols : nat; bget : mat }.

(** B[r0:r0+r, c0:c0+c] = X (227): None is the ValueError for shapes that cannot be broadcast. *)
Definition assign_block (B : mat) (r0 c0 r c : nat) (X : block) : option mat :=
  if (Nat.eqb (brows X) r || Nat.eqb (brows X) 1) && (Nat.eqb (bcols X) c || Nat.eqb (bcols X) 1) then
    Some (fun i j =>
      if Nat.leb r0 i && Nat.ltb i (r0 + r) && (Nat.leb c0 j && Nat.ltb j (c0 + c))
      then cast (bget X (if Nat.eqb (brows X) 1 then 0 else i - r0)%nat (if Nat.eqb (bcols X) 1 then 0 else j - c0)%nat)
      else B i j)
  else None.

(** block_circulant (222-228): None is an exception (IndexError for an empty tuple, ValueError for blocks that do not fit). *)
Definition block_circulant (A : list block) : option mat :=
  match A with
  | [] => None
  | A0 :: _ =>
      let r := brows A0 in let c := bcols A0 in let n := length A in
      fold_left (fun acc k =>
        fold_left (fun acc l =>
          match acc with
          | None => None
          | Some B => let kl := Nat.modulo (k + l) n in assign_block B (r * kl) (c * k) r c (nth l A A0)
          end) (seq 0 n) acc) (seq 0 n) (Some (fun _ _ => 0))
  end.
End Circ.
