(** Model of the generic ADMM solver classes of sporco/admm/admm.py: the iteration of ADMM.solve (334-346) with
    relax_AX (441-458), ustep (434-437) and the residuals (722-775), and the specialised versions in ADMMEqual (877-983),
    ADMMTwoBlockCnstrnt (1165-1438), ADMMConsensus (1585-1707) and WeightedADMMConsensus (1794-1873). Exact arithmetic;
    arrays flattened to vectors, an array with a final block axis (consensus) being a function of the block number. The
    penalty parameter is fixed (update_rho is modelled in RhoModel). *)
Require Import Reals List Arith.
Require Import Verif.RVec.
Local Open Scope R_scope.

Notation vec := (nat -> R).

Section generic.
(** cnst_A, cnst_AT, cnst_B, cnst_c of the derived class. *)
Variables (A AT B : vec -> vec) (c : vec) (rlx rho : R).

(** 446-458. *)
Definition relax_AX (X Y : vec) : vec :=
  if Req_EM_T rlx 1 then A X else fun i => rlx * A X i - (1 - rlx) * (B Y i - c i).
(** 734, 746. *)
Definition rsdl_r (AX Y : vec) : vec := fun i => AX i + B Y i - c i.
Definition rsdl_s (Yprev Y : vec) : vec := fun i => rho * AT (B (fun j => Y j - Yprev j)) i.
(** 437. *)
Definition ustep (AX Y U : vec) : vec := fun i => U i + rsdl_r AX Y i.
(** 760-763, 775: [m] is the number of constraints, and [n] the size of X. *)
Definition rsdl_rn (m : nat) (AX Y : vec) : R := Rmax (Rmax (nrm m AX) (nrm m (B Y))) (nrm m c).
Definition rsdl_sn (n : nat) (U : vec) : R := rho * nrm n (AT U).

(** The body of the main loop, 334-346, for given xstep and ystep. *)
Record state := mkState { sX : vec; sY : vec; sU : vec; sYprev : vec }.
Definition iteration (xstep : vec -> vec -> vec) (ystep : vec -> vec -> vec) (st : state) : state :=
  let X := xstep (sY st) (sU st) in
  let AX := relax_AX X (sY st) in
  let Y := ystep AX (sU st) in
  mkState X Y (ustep AX Y (sU st)) (sY st).
Fixpoint iterate (xstep ystep : vec -> vec -> vec) (k : nat) (st : state) : state :=
  match k with O => st | S k' => iteration xstep ystep (iterate xstep ystep k' st) end.
End generic.

(** ** ADMMEqual (880-983) *)
Definition eq_relax_AX (rlx : R) (X Y : vec) : vec := if Req_EM_T rlx 1 then X else fun i => rlx * X i + (1 - rlx) * Y i.
Definition eq_A (X : vec) : vec := X.
Definition eq_AT (Y : vec) : vec := Y.
Definition eq_B (Y : vec) : vec := fun i => - Y i.
Definition eq_c : vec := fun _ => 0.
Definition eq_rsdl_r (AX Y : vec) : vec := fun i => AX i - Y i.
Definition eq_rsdl_s (rho : R) (Yprev Y : vec) : vec := fun i => rho * (Yprev i - Y i).
Definition eq_rsdl_rn (n : nat) (AX Y : vec) : R := Rmax (nrm n AX) (nrm n Y).
Definition eq_rsdl_sn (rho : R) (n : nat) (U : vec) : R := rho * nrm n U.

(** ** ADMMTwoBlockCnstrnt: [b] is blkidx, the size of the first block. *)
Definition block_sep0 (Y : vec) : vec := Y.
Definition block_sep1 (b : nat) (Y : vec) : vec := fun i => Y (b + i)%nat.
Definition block_cat (b : nat) (Y0 Y1 : vec) : vec := fun i => if Nat.ltb i b then Y0 i else Y1 (i - b)%nat.
Section two.
Variables (b : nat) (A0 A0T A1 A1T : vec -> vec) (c0 c1 : vec) (rlx rho : R).
Definition tb_A (X : vec) : vec := block_cat b (A0 X) (A1 X).
Definition tb_AT (Y : vec) : vec := fun i => A0T (block_sep0 Y) i + A1T (block_sep1 b Y) i.
Definition tb_B (Y : vec) : vec := fun i => - Y i.
Definition tb_relax_AX (X Y : vec) : vec :=
  if Req_EM_T rlx 1 then tb_A X
  else fun i => rlx * tb_A X i + (1 - rlx) * block_cat b (fun j => block_sep0 Y j + c0 j) (fun j => block_sep1 b Y j + c1 j) i.
Definition tb_rsdl_r (AX Y : vec) : vec :=
  fun i => AX i - block_cat b (fun j => block_sep0 Y j + c0 j) (fun j => block_sep1 b Y j + c1 j) i.
Definition tb_rsdl_s (Yprev Y : vec) : vec := fun i => rho * tb_AT (fun j => Yprev j - Y j) i.
(** [m1]: size of the second block. *)
Definition tb_rsdl_rn (m1 : nat) (AX Y : vec) : R :=
  Rmax (Rmax (nrm (b + m1) AX) (nrm (b + m1) Y)) (sqrt (nrm b c0 * nrm b c0 + nrm m1 c1 * nrm m1 c1)).
Definition tb_rsdl_sn (n : nat) (U : vec) : R := rho * nrm n (tb_AT U).
(** The overriding methods of bpdn.MinL1InL2Ball (1170-1180) and cbpdn.ConvTwoBlockCnstrnt (1814-1824). *)
Definition tb_rsdl_s' (U : vec) : vec := fun i => rho * tb_AT U i.
Definition tb_rsdl_sn' (m1 : nat) (U : vec) : R := rho * nrm (b + m1) U.
End two.

(** ** ADMMConsensus: X, AX and U are indexed by the block, [nb] blocks of size [n]. *)
Definition mvec := (nat -> vec)%type.
Definition mnrm (nb n : nat) (X : mvec) : R := sqrt (sumn nb (fun j => nrm2 n (X j))).
Section cons.
Variables (nb n : nat) (rlx rho : R).
Definition cn_relax_AX (X : mvec) (Y : vec) : mvec := if Req_EM_T rlx 1 then X else fun j i => rlx * X j i + (1 - rlx) * Y i.
Definition cn_rsdl_r (AX : mvec) (Y : vec) : mvec := fun j i => AX j i - Y i.
Definition cn_ustep (AX : mvec) (Y : vec) (U : mvec) : mvec := fun j i => U j i + cn_rsdl_r AX Y j i.
Definition cn_rsdl_s (Yprev Y : vec) : vec := fun i => sqrt (INR nb) * rho * (Yprev i - Y i).
Definition cn_rsdl_rn (AX : mvec) (Y : vec) : R := Rmax (mnrm nb n AX) (sqrt (INR nb) * nrm n Y).
Definition cn_rsdl_sn (U : mvec) : R := rho * mnrm nb n U.
(** 1589-1591: [prox_g] is a method of the derived class. *)
Definition cn_ystep (prox_g : vec -> R -> vec) (AX U : mvec) : vec :=
  prox_g (fun i => sumn nb (fun j => AX j i + U j i) / INR nb) (INR nb * rho).

(** ** WeightedADMMConsensus (1798-1873) *)
Variable alpha : vec.
Definition wc_ystep (prox_g : vec -> R -> vec) (AX U : mvec) : vec :=
  prox_g (fun i => sumn nb (fun j => alpha j * (AX j i + U j i)) / sumn nb alpha) (sumn nb alpha * rho).
Definition wc_ustep (AX : mvec) (Y : vec) (U : mvec) : mvec := fun j i => U j i + (AX j i - Y i).
Definition wc_rsdl_r (AX : mvec) (Y : vec) : mvec := fun j i => sqrt (alpha j) * (AX j i - Y i).
Definition wc_rsdl_s (Yprev Y : vec) : vec := fun i => rho * sqrt (sumn nb (fun j => alpha j ^ 2)) * (Yprev i - Y i).
Definition wc_rsdl_rn (AX : mvec) (Y : vec) : R :=
  Rmax (mnrm nb n (fun j i => sqrt (alpha j) * AX j i)) (sqrt (sumn nb (fun j => alpha j ^ 2)) * nrm n Y).
Definition wc_rsdl_sn (U : mvec) : R := rho * mnrm nb n U.
End cons.
