(** Model of sporco/util.py tiledict (285-352). The dictionary is an array indexed by row, column, channel and filter (a single channel for
    dictionaries of three axes); the reshape of a two-axis dictionary (302-304) produces such an array. *)
Require Import List Arith Reals Bool.
Require Import Verif.RVec.
Import ListNotations.
Local Open Scope nat_scope.

Record dict := mkdict { d_rows : nat; d_cols : nat; d_chn : nat; d_num : nat; d_val : nat -> nat -> nat -> nat -> R }.

(** 324-325, on the list of all entries: None = division of 0 by 0 (a constant dictionary) or minimum of an empty array. *)
Definition lmin (a : R) (l : list R) : R := fold_right Rmin a l.
Definition lmax (a : R) (l : list R) : R := fold_right Rmax a l.
Definition normalise (v : list R) : option (list R) :=
  match v with
  | [] => None
  | a :: l =>
    let m := lmin a l in
    match map (fun x => x - m)%R (a :: l) with
    | [] => None
    | b :: l' => let M := lmax b l' in if Req_EM_T M 0 then None else Some (map (fun x => x / M)%R (b :: l'))
    end
  end.

(** 315-318: the sizes of the filters: all equal, or from a list of blocks (rows, columns, number of filters). *)
Definition sizes (D : dict) (sz : option (list (nat * nat * nat))) : list (nat * nat) :=
  match sz with
  | None => repeat (d_rows D, d_cols D) (d_num D)
  | Some bs => flat_map (fun b => repeat (fst b) (snd b)) bs
  end.
(** 321. *)
Definition maxsz (l : list (nat * nat)) : nat * nat := (fold_right Nat.max 0 (map fst l), fold_right Nat.max 0 (map snd l)).
(** 329-330: floor of the square root and ceiling of the quotient; None = ZeroDivisionError for an empty dictionary. *)
Definition grid (N : nat) : option (nat * nat) :=
  let Vr := Nat.sqrt N in if Nat.eqb Vr 0 then None else Some (Vr, (N + Vr - 1) / Vr).

(** 336-337: the grid cells in the order of the nested loops. *)
Definition cells (Vr Vc : nat) : list (nat * nat) := flat_map (fun l => map (fun m => (l, m)) (seq 0 Vc)) (seq 0 Vr).
(** 340-345. *)
Definition write (mx : nat * nat) (sz : list (nat * nat)) (D : dict) (k l m : nat) (im : nat -> nat -> nat -> R) : nat -> nat -> nat -> R :=
  let r := fst mx * l + l in let c := snd mx * m + m in
  let (h, w) := nth k sz (0, 0) in
  fun i j ch => if (Nat.leb r i && Nat.ltb i (r + h) && Nat.leb c j && Nat.ltb j (c + w))%bool then d_val D (i - r) (j - c) ch k else im i j ch.
(** 335-350: k counts the filters, the loops are left when all have been drawn. *)
Fixpoint tile_loop (mx : nat * nat) (sz : list (nat * nat)) (D : dict) (cs : list (nat * nat)) (k : nat) (im : nat -> nat -> nat -> R) : nat -> nat -> nat -> R :=
  match cs with
  | [] => im
  | (l, m) :: cs' =>
    let im' := write mx sz D k l m im in
    if Nat.leb (d_num D) (S k) then im' else tile_loop mx sz D cs' (S k) im'
  end.
(** The image (325-334 after the normalisation): rows, columns, pixels. *)
Definition tiledict (D : dict) (sz : option (list (nat * nat * nat))) : option (nat * nat * (nat -> nat -> nat -> R)) :=
  let l := sizes D sz in let mx := maxsz l in
  match grid (d_num D) with
  | None => None
  | Some (Vr, Vc) =>
    Some (Vr * fst mx + Vr - 1, Vc * snd mx + Vc - 1, tile_loop mx l D (cells Vr Vc) 0 (fun _ _ _ => 1%R))
  end.
