(** Specifications for online dictionary learning. *)
Require Import Reals List Arith.
Require Import Verif.RVec Verif.Cplx.
Local Open Scope R_scope.

(** Data fidelity of [nC] channels and [nK] signals at one frequency, with coefficients [z k m], filters [d c m] and signals [s c k]. *)
Definition fidelity (nC nK nM : nat) (z : nat -> nat -> Cplx.C) (s d : nat -> nat -> Cplx.C) : R :=
  / 2 * sumn nC (fun c => sumn nK (fun k => cabs2 (csub (csumn nM (fun m => cmul (z k m) (d c m))) (s c k)))).
(** [g] is its gradient at [d]: the remainder is the quadratic term. *)
Definition is_gradient (nC nK nM : nat) (z s d g : nat -> nat -> Cplx.C) : Prop := forall h,
  fidelity nC nK nM z s (fun c m => cadd (d c m) (h c m)) = fidelity nC nK nM z s d
    + sumn nC (fun c => sumn nM (fun m => re (cmul (conj (g c m)) (h c m))))
    + fidelity nC nK nM z (fun _ _ => c0) h.
(** The same with a single dictionary for all channels, each with its own coefficients [z c k m]. *)
Definition fidelity1 (nC nK nM : nat) (z : nat -> nat -> nat -> Cplx.C) (s : nat -> nat -> Cplx.C) (d : nat -> Cplx.C) : R :=
  / 2 * sumn nC (fun c => sumn nK (fun k => cabs2 (csub (csumn nM (fun m => cmul (z c k m) (d m))) (s c k)))).
Definition is_gradient1 (nC nK nM : nat) z s (d g : nat -> Cplx.C) : Prop := forall h,
  fidelity1 nC nK nM z s (fun m => cadd (d m) (h m)) = fidelity1 nC nK nM z s d
    + sumn nM (fun m => re (cmul (conj (g m)) (h m))) + fidelity1 nC nK nM z (fun _ _ => c0) h.
