(** Model of sporco/admm/parcbpdn.py: the shared arrays, the functions run by the worker processes (132-347), the partition of
    the filters into groups (694-697) and the solve method (728-835).

    Arrays hold real numbers.  The axes of an array other than the filter axis are flattened into a pixel index below [P].
    The solution of the linear system in the DFT domain (par_xstep 145-160) is an argument: [xs i yu0 yu1 f p] is the
    coefficient map of filter [f] and [dxs i yu0 yu1 p] the product of the filters of group [i] with their maps, for the
    arrays yu0 = Y0 - U0 of the group and yu1 = Y1 - U1/alpha of its filters (see C21 for the system solved).
    An assignment to (a slice of) an array computes each element and then stores each element, as separate actions. *)
Require Import Reals List Arith Bool.
Require Import Verif.RVec Verif.ProxModel Verif.InterModel.
Import ListNotations.
Local Open Scope R_scope.

(** numpy.array_split(range(M), n) for n > 0: the first M mod n parts have one more element. *)
Fixpoint split_at (k : nat) (sizes : list nat) : list (list nat) :=
  match sizes with [] => [] | s :: t => seq k s :: split_at (k + s) t end.
Definition array_split (M n : nat) : list (list nat) :=
  split_at 0 (repeat (M / n + 1)%nat (M mod n) ++ repeat (M / n)%nat (n - M mod n)).

(** numpy.min; None: ValueError for an empty array. *)
Definition np_min (l : list nat) : option nat :=
  match l with [] => None | x :: t => Some (fold_left Nat.min t x) end.
Fixpoint mapM {A B} (f : A -> option B) (l : list A) : option (list B) :=
  match l with
  | [] => Some []
  | x :: t => match f x, mapM f t with Some y, Some r => Some (y :: r) | _, _ => None end
  end.

(** mp_grp (695-697); array_split raises ValueError for n = 0. *)
Definition mp_grp (M n : nat) : option (list nat) :=
  match n with
  | O => None
  | _ => match mapM np_min (array_split M n) with Some l => Some (l ++ [M]) | None => None end
  end.

(** Arrays with a filter axis (X, Xnr, Y1, U1, Y1old), with a group axis (Y0, U0, DX, DXnr, Y0old), and the components of
    the residuals, one per group (337-347). *)
Inductive farr := AX | AXnr | AY1 | AU1 | AY1old.
Inductive garr := AY0 | AU0 | ADX | ADXnr | AY0old.
Inductive rarr := Ry0 | Ry1 | Sy0 | Sy1 | NrmAx | NrmBy | NrmU.
(** Elements: mp_X[f] etc. at pixel p, mp_Y0[i] etc. at pixel p, mp_b at pixel p, mp_ry0[i] etc., and the memory of task
    [i] for the element computed for a location. *)
Inductive loc := F (a : farr) (f p : nat) | G (a : garr) (i p : nat) | B (p : nat) | Res (a : rarr) (i : nat) | Tmp (i : nat) (l : loc).

Definition farr_eqb (a b : farr) : bool :=
  match a, b with AX, AX | AXnr, AXnr | AY1, AY1 | AU1, AU1 | AY1old, AY1old => true | _, _ => false end.
Definition garr_eqb (a b : garr) : bool :=
  match a, b with AY0, AY0 | AU0, AU0 | ADX, ADX | ADXnr, ADXnr | AY0old, AY0old => true | _, _ => false end.
Definition rarr_eqb (a b : rarr) : bool :=
  match a, b with Ry0, Ry0 | Ry1, Ry1 | Sy0, Sy0 | Sy1, Sy1 | NrmAx, NrmAx | NrmBy, NrmBy | NrmU, NrmU => true | _, _ => false end.
Fixpoint loc_eqb (x y : loc) : bool :=
  match x, y with
  | F a f p, F a' f' p' => farr_eqb a a' && Nat.eqb f f' && Nat.eqb p p'
  | G a i p, G a' i' p' => garr_eqb a a' && Nat.eqb i i' && Nat.eqb p p'
  | B p, B p' => Nat.eqb p p'
  | Res a i, Res a' i' => rarr_eqb a a' && Nat.eqb i i'
  | Tmp i l, Tmp i' l' => Nat.eqb i i' && loc_eqb l l'
  | _, _ => false
  end.

Notation pmem := (mem loc R).
Notation pact := (act loc R).
Definition set (l : loc) (v : R) (m : pmem) : pmem := fun l' => if loc_eqb l' l then v else m l'.

(** An assignment by task [i]: [e m l] is the value of the right hand side at the location [l]. *)
Definition assign (i : nat) (dst : list loc) (e : pmem -> loc -> R) : list pact :=
  map (fun l m => set (Tmp i l) (e m l) m) dst ++ map (fun l m => set l (m (Tmp i l)) m) dst.

(** Data and parameters of a problem. *)
Record params := mkParams {
  nfilt : nat; ngrp : nat; npix : nat; grp : nat -> nat;
  lmbda : R; rho : R; alpha : R; rlx : R;
  wl1 : nat -> nat -> R;                (* mp_wl1, broadcast *)
  sw : nat -> R;                        (* mp_S = S W^2 (636) *)
  inv_off : nat -> R;                   (* mp_inv_off_diag (687-693) *)
  nonneg : bool; bnd : nat -> bool;     (* NonNegCoef; the pixels set to zero by NoBndryCross *)
  xs : nat -> (nat -> R) -> (nat -> nat -> R) -> nat -> nat -> R;
  dxs : nat -> (nat -> R) -> (nat -> nat -> R) -> nat -> R
}.

Section Steps.
Variable c : params.
Notation g := (grp c).
Notation P := (npix c).
Notation n := (ngrp c).

(** Slices mp_grp[i]:mp_grp[i+1] of the filter axis, and the rows [i]. *)
Definition fsl (a : farr) (i : nat) : list loc :=
  flat_map (fun f => map (F a f) (seq 0 P)) (seq (g i) (g (S i) - g i)).
Definition gsl (a : garr) (i : nat) : list loc := map (G a i) (seq 0 P).
Definition ing (i f : nat) : bool := (g i <=? f)%nat && (f <? g (S i))%nat.

(** Right hand side of an assignment to a slice. *)
Definition eF (h : pmem -> nat -> nat -> R) : pmem -> loc -> R := fun m l => match l with F _ f p => h m f p | _ => 0 end.
Definition eG (h : pmem -> nat -> R) : pmem -> loc -> R := fun m l => match l with G _ _ p => h m p | _ => 0 end.

(** par_xstep (132-160). *)
Definition yu0 (i : nat) (m : pmem) : nat -> R := fun p => if (p <? P)%nat then m (G AY0 i p) - m (G AU0 i p) else 0.
Definition yu1 (i : nat) (m : pmem) : nat -> nat -> R :=
  fun f p => if ing i f && (p <? P)%nat then m (F AY1 f p) - 1 / alpha c * m (F AU1 f p) else 0.
Definition par_xstep (i : nat) : list pact :=
  assign i (fsl AX i) (eF (fun m => xs c i (yu0 i m) (yu1 i m))) ++
  assign i (gsl ADX i) (eG (fun m => dxs c i (yu0 i m) (yu1 i m))).

(** par_relax_AX (164-178). *)
Definition par_relax_AX (i : nat) : list pact :=
  assign i (fsl AXnr i) (eF (fun m f p => m (F AX f p))) ++
  assign i (gsl ADXnr i) (eG (fun m p => m (G ADX i p))) ++
  if Req_EM_T (rlx c) 1 then []
  else assign i (fsl AX i) (eF (fun m f p => rlx c * m (F AX f p) + (1 - rlx c) * m (F AY1 f p))) ++
       assign i (gsl ADX i) (eG (fun m p => rlx c * m (G ADX i p) + (1 - rlx c) * m (G AY0 i p))).

(** y0astep (182-189), not distributed. *)
Definition y0astep (m : pmem) : pmem := fun l =>
  match l with
  | B p => if (p <? P)%nat then inv_off c p * sumn n (fun i => sw c p + rho c * (m (G ADX i p) + m (G AU0 i p))) else m l
  | _ => m l
  end.

(** par_y0bstep (193-204). *)
Definition par_y0bstep (i : nat) : list pact :=
  assign i (gsl AY0 i) (eG (fun m p => 1 / rho c * sw c p + m (G ADX i p) + m (G AU0 i p) + m (B p))).

(** par_y1step (208-233). *)
Definition y1val (f p : nat) (v : R) : R :=
  let y := prox_l1 (fun _ => v) (fun _ => lmbda c / (alpha c ^ 2 * rho c) * wl1 c f p) O in
  let y := if nonneg c && ltb y 0 then 0 else y in
  if bnd c p then 0 else y.
Definition par_y1step (i : nat) : list pact :=
  assign i (fsl AY1 i) (eF (fun m f p => y1val f p (m (F AX f p) + 1 / alpha c * m (F AU1 f p)))).

(** par_u0step, par_u1step (237-263). *)
Definition par_u0step (i : nat) : list pact :=
  assign i (gsl AU0 i) (eG (fun m p => m (G AU0 i p) + (m (G ADX i p) - m (G AY0 i p)))).
Definition par_u1step (i : nat) : list pact :=
  assign i (fsl AU1 i) (eF (fun m f p => m (F AU1 f p) + alpha c * (m (F AX f p) - m (F AY1 f p)))).

(** par_initial_stepgrp (267-279), par_final_stepgrp (300-314), par_stepgrp (283-296). *)
Definition par_initial_stepgrp (i : nat) : list pact := par_xstep i ++ par_relax_AX i.
Definition par_final_stepgrp (i : nat) : list pact := par_y0bstep i ++ par_y1step i ++ par_u0step i ++ par_u1step i.
Definition par_stepgrp (i : nat) : list pact := par_final_stepgrp i ++ par_initial_stepgrp i.

(** par_compute_residuals (318-347). *)
Definition sumf (i : nat) (h : nat -> nat -> R) : R := sumn (g (S i) - g i) (fun j => sumn P (h (g i + j)%nat)).
Definition resid (i : nat) (a : rarr) (m : pmem) : R :=
  match a with
  | Ry0 => sumn P (fun p => (m (G ADXnr i p) - m (G AY0 i p)) ^ 2)
  | Ry1 => alpha c ^ 2 * sumf i (fun f p => (m (F AXnr f p) - m (F AY1 f p)) ^ 2)
  | Sy0 => sumn P (fun p => (m (G AY0old i p) - m (G AY0 i p)) ^ 2)
  | Sy1 => alpha c ^ 2 * sumf i (fun f p => (m (F AY1old f p) - m (F AY1 f p)) ^ 2)
  | NrmAx => sumn P (fun p => m (G ADXnr i p) ^ 2) + alpha c ^ 2 * sumf i (fun f p => m (F AXnr f p) ^ 2)
  | NrmBy => sumn P (fun p => m (G AY0 i p) ^ 2) + alpha c ^ 2 * sumf i (fun f p => m (F AY1 f p) ^ 2)
  | NrmU => sumn P (fun p => m (G AU0 i p) ^ 2) + sumf i (fun f p => m (F AU1 f p) ^ 2)
  end.
Definition par_compute_residuals (i : nat) : list pact :=
  flat_map (fun a => assign i [Res a i] (fun m _ => resid i a m)) [Ry0; Ry1; Sy0; Sy1; NrmAx; NrmBy; NrmU].

(** The tasks range(n) of a phase. *)
Definition tasks (f : nat -> list pact) : nat -> list pact := fun i => if (i <? n)%nat then f i else [].

(** distribute (853-868): with a pool in some interleaving, otherwise one after the other. *)
Definition distribute (sched : option (list nat)) (f : nat -> list pact) (m : pmem) : pmem :=
  match sched with
  | None => sequential n (tasks f) m
  | Some s => snd (run s (tasks f) m)
  end.

(** mp_Y0old[:] = np.copy(mp_Y0); mp_Y1old[:] = np.copy(mp_Y1) (770-771). *)
Definition save_old (m : pmem) : pmem := fun l =>
  match l with G AY0old i p => m (G AY0 i p) | F AY1old f p => m (F AY1 f p) | _ => m l end.

(** The operator "is" on the iteration numbers (774, 777): in CPython the integers from -5 to 256 are shared objects, and
    a range iterator makes a new object for any other value. *)
Definition is_same (a b : nat) : bool := Nat.eqb a b && (a <=? 256)%nat.

(** Schedules of the three phases of an iteration: initial step, step, residuals. *)
Definition schedules := nat -> nat -> option (list nat).

(** One iteration (769-794) with number [k] of a call with iterations first ... last; [rs]: residuals are computed (784). *)
Definition iteration (sc : schedules) (rs : bool) (first last k : nat) (m : pmem) : pmem :=
  let m := save_old m in
  let m := if is_same k first then distribute (sc k 0%nat) par_initial_stepgrp m else m in
  let m := y0astep m in
  let m := if is_same k last then distribute (sc k 1%nat) par_final_stepgrp m
           else distribute (sc k 1%nat) par_stepgrp m in
  if rs then distribute (sc k 2%nat) par_compute_residuals m else m.

(** The loop of solve (769-819): at most [todo] iterations from [k] on; [stop k m]: callback or stopping tolerance reached after iteration
    [k].  The result is the value of self.k after the loop, incremented (822), and the memory. *)
Fixpoint loop (sc : schedules) (rs : bool) (stop : nat -> pmem -> bool) (first last k todo : nat) (m : pmem) : nat * pmem :=
  match todo with
  | O => (S k, m)
  | S todo' =>
      let m := iteration sc rs first last k m in
      match todo' with
      | O => (S k, m)
      | _ => if stop k m then (S k, m) else loop sc rs stop first last (S k) todo' m
      end
  end.

(** solve with MaxMainIter = [maxit]; self.k is incremented (822) even if there is no iteration. *)
Definition solve (sc : schedules) (rs : bool) (stop : nat -> pmem -> bool) (maxit : nat) (km : nat * pmem) : nat * pmem :=
  let '(k, m) := km in loop sc rs stop k (k + maxit - 1) k maxit m.
End Steps.
