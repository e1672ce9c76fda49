(** Online convolutional dictionary learning: /repo/sporco/dictlrn/onlinecdl.py. *)
Require Import Reals List Arith ZArith Bool.
Require Import Verif.RVec Verif.Cplx Verif.CnvrepModel.
Import ListNotations.

(** ** The gradient at one DFT frequency *)
(** A frequency of an array with channel, signal and filter axes. *)
Record arr := mkA { nc : nat; nk : nat; nm : nat; val : nat -> nat -> nat -> Cplx.C }.
(** numpy broadcasting of one axis: common length, and index into the operand. *)
Definition bdim (a b : nat) : option nat :=
  if a =? b then Some a else if a =? 1 then Some b else if b =? 1 then Some a else None.
Definition bix (n i : nat) : nat := if n =? 1 then 0 else i.
Definition at3 (x : arr) (c k m : nat) : Cplx.C := val x (bix (nc x) c) (bix (nk x) k) (bix (nm x) m).
Definition zip (f : Cplx.C -> Cplx.C -> Cplx.C) (x y : arr) : option arr :=
  match bdim (nc x) (nc y), bdim (nk x) (nk y), bdim (nm x) (nm y) with
  | Some c, Some k, Some m => Some (mkA c k m (fun i j l => f (at3 x i j l) (at3 y i j l)))
  | _, _, _ => None
  end.
Definition conj3 (x : arr) : arr := mkA (nc x) (nk x) (nm x) (fun c k m => conj (val x c k m)).
(** linalg.inner (linalg.py 64-88) along the filter axis and along the signal axis; np.sum along the channel axis. *)
Definition sumM (x : arr) : arr := mkA (nc x) (nk x) 1 (fun c k _ => csumn (nm x) (fun m => val x c k m)).
Definition sumK (x : arr) : arr := mkA (nc x) 1 (nm x) (fun c _ m => csumn (nk x) (fun k => val x c k m)).
Definition sumC (x : arr) : arr := mkA 1 (nk x) (nm x) (fun _ k m => csumn (nc x) (fun c => val x c k m)).
Definition innerM (x y : arr) : option arr := option_map sumM (zip cmul x y).
Definition innerK (x y : arr) : option arr := option_map sumK (zip cmul x y).
Definition obind {A B} (x : option A) (g : A -> option B) : option B := match x with Some a => g a | None => None end.

(** setcoef (300-306): [cr] is self.cri, [(zc, zk)] the axes of the array self.Z allocated before. None: shapes do not fit. *)
Definition reshape1 (z : arr) (n : nat) : option arr :=
  if (nc z * nk z =? n)%nat then Some (mkA 1 n (nm z) (fun _ k m => val z (k / nk z) (k mod nk z) m)) else None.
Definition fits (n a : nat) : bool := (a =? n) || (a =? 1).
Definition setcoef (cr : cri) (zc zk : nat) (z : arr) : option arr :=
  if (CnvrepModel.Cd cr =? 1) && (1 <? CnvrepModel.C cr) then reshape1 z (CnvrepModel.Cx cr * CnvrepModel.K cr)
  else if fits zc (nc z) && fits zk (nk z) && (nm z =? CnvrepModel.M cr)
       then Some (mkA zc zk (nm z) (fun c k m => at3 z c k m)) else None.

(** dstep (316-322) *)
Definition grad (cr : cri) (df zf sf : arr) : option arr :=
  obind (obind (innerM zf df) (fun p => zip csub p sf)) (fun ryf =>
  obind (innerK (conj3 zf) ryf) (fun g =>
  Some (if (1 <? CnvrepModel.C cr) && (CnvrepModel.Cd cr =? 1) then sumC g else g))).

(** One call at this frequency: coefficients [z] and signals [sf] as the sparse coding solver lays them out. *)
Definition call_grad (cr : cri) (zc zk : nat) (df z sf : arr) : option arr :=
  obind (setcoef cr zc zk z) (fun zf => grad cr df zf sf).

(** init_vars (248-263): layout and axes of self.Z after the call, from those before. *)
Fixpoint list_eqb (a b : list nat) : bool :=
  match a, b with [] , [] => true | x :: a, y :: b => (x =? y) && list_eqb a b | _, _ => false end.
Definition init_vars (old : option (cri * nat * nat)) (dsz : dsize) (Ssh : list nat) (dK : option Z) (dN : nat) : result (cri * nat * nat) :=
  let fresh := bind (cdu_index dsz Ssh dK dN) (fun cr => Ok (cr, CnvrepModel.Cx cr, CnvrepModel.K cr)) in
  match old with
  | Some (cr, zc, zk) => if list_eqb (firstn dN Ssh) (CnvrepModel.Nv cr) then Ok (cr, zc, zk) else fresh
  | None => fresh
  end.
(** The axes of the coefficient and signal arrays of ConvBPDN(self.D.squeeze(), S, ...) (281-286): shpX and shpS of its indexing object.
    [Dsh] is the shape of self.D. *)
Definition squeeze (s : list nat) : list nat := filter (fun n => negb (n =? 1)) s.
Definition xstep_layout (Dsh Ssh : list nat) (dK : option Z) (dN : nat) : result (nat * nat * nat * nat) :=
  bind (csc_index (squeeze Dsh) Ssh dK dN) (fun cr =>
  Ok (CnvrepModel.Cx cr, CnvrepModel.K cr, CnvrepModel.C cr, CnvrepModel.K cr)).

(** The signals in the masked solver (567): S reshaped to self.cri.shpS. *)
Definition mask_signal_axes (cr : cri) : nat * nat := (CnvrepModel.C cr, CnvrepModel.K cr).

(** ** The solver *)
Local Open Scope R_scope.
Section Solver.
Variables (A Gr Sig Rec : Type).    (* dictionaries, gradients, signals, records of the sparse coding *)
Variables (eta_a eta_b : R).
Variable pcn : A -> A.              (* self.Pcn *)
Variable gradient : A -> Sig -> option Gr.      (* lines 223-224, 316-322; none: an exception *)
Variable descend : A -> Gr -> R -> option A.    (* lines 328-329, the array G; none: an exception *)
Variable code : A -> Sig -> Rec.
(** D, Dprv, eta, j, and the records (Iter, sparse coding, Eta). *)
Record onl := mkOnl { o_D : A; o_Dprv : A; o_eta : R; o_j : nat; o_it : list (nat * Rec * R) }.
(** __init__ (176-204) *)
Definition onl_init (D0 : A) : onl := mkOnl (pcn D0) (pcn D0) (eta_a / eta_b) 0 [].
(** solve (223-234), dstep (325-333), iteration_stats (382-402). An exception leaves the object as it is then. *)
Definition onl_solve (s : onl) (x : Sig) : onl :=
  match gradient (o_D s) x with
  | None => s
  | Some g =>
    let eta := eta_a / (INR (o_j s) + eta_b) in
    match descend (o_D s) g eta with
    | None => mkOnl (o_D s) (o_Dprv s) eta (o_j s) (o_it s)
    | Some G => mkOnl (pcn G) (o_D s) eta (S (o_j s)) (o_it s ++ [(o_j s, code (o_D s) x, eta)])
    end
  end.
Definition onl_run (D0 : A) (l : list Sig) : onl := fold_left onl_solve l (onl_init D0).
End Solver.
