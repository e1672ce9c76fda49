(** Model of sporco/pgm/cbpdn.py, class ConvBPDN, for one spatial axis of length N, one channel, one signal and M filters. A coefficient
    array is a vector of M * N entries, the entry of filter m at sample j at index m * N + j. A transformed array is a function of the filter
    and the frequency; the code stores the frequencies 0 .. N/2 only. *)
Require Import List Arith Reals Bool.
Require Import Verif.RVec Verif.Cplx Verif.FftModel Verif.PgmModel.
Import ListNotations.
Local Open Scope R_scope.
Definition spec := nat -> nat -> C.
(** Arrays have M filters; entries outside are zero. *)
Definition cut (M : nat) (h : spec) : spec := fun m k => if Nat.ltb m M then h m k else c0.
Definition wadd2 (a b : spec) : spec := fun m k => cadd (a m k) (b m k).
Definition wscal2 (r : R) (a : spec) : spec := fun m k => cscal r (a m k).
Section cb.
Variables (N M : nat) (D : nat -> nat -> R) (s : vec).
(** rfftn and irfftn over the spatial axis (pgm.py 797, 800; cbpdn.py 239). D holds the filters zero padded to length N. *)
Definition cb_fwd (x : vec) : spec := cut M (fun m k => dft N (fun j => ofR (x (m * N + j)%nat)) k).
Definition cb_inv (h : spec) : vec := fun p => irfft N (h (p / N)%nat) (p mod N).
(** setdict 252; Sf 226. *)
Definition cb_Df : spec := fun m k => dft N (fun j => ofR (D m j)) k.
Definition cb_Sf (k : nat) : C := dft N (fun j => ofR (s j)) k.
(** eval_Rf 284. *)
Definition cb_Rf (Vf : spec) (k : nat) : C := csub (csumn M (fun m => cmul (cb_Df m k) (Vf m k))) (cb_Sf k).
(** grad_f 269-277. *)
Definition cb_grad (Vf : spec) : spec := cut M (fun m k => cmul (conj (cb_Df m k)) (cb_Rf Vf k)).
(** obfn_dfd 343-344. *)
Definition cb_dfd (Xf : spec) : R := rfl2norm2 1 (fun _ => N) [O] (fun idx => cb_Rf Xf (idx O)) / 2.
(** obfn_f 369-370, used by the line searches: the half spectrum without weights. *)
Definition cb_obfn_f (Xf : spec) : R := / 2 * sqrt (sumn (N / 2 + 1) (fun k => cabs2 (cb_Rf Xf k))) ^ 2.
(** backtrack.py 99-103 with eval_Dxy and eval_linear_approx of PGMDFT (pgm.py 855, 894). *)
Definition cb_quad (L : R) (Xf Yf : spec) : R :=
  let Dxy := fun m k => csub (Xf m k) (Yf m k) in
  cb_obfn_f Yf + sumn M (fun m => sumn (N / 2 + 1) (fun k => re (cmul (conj (Dxy m k)) (cb_grad Yf m k))))
  + L / 2 * sqrt (sumn M (fun m => sumn (N / 2 + 1) (fun k => cabs2 (Dxy m k)))) ^ 2.
(** hessian_f 305. *)
Definition cb_hess (Vf : spec) : spec := cut M (fun m k => cmul (conj (cb_Df m k)) (csumn M (fun m' => cmul (cb_Df m' k) (Vf m' k)))).
(** ConvBPDNMask: grad_f 459-477, obfn_dfd 486-489. *)
Variable Wm : vec.
Definition cbm_grad (Vf : spec) : spec := cut M (fun m k =>
  cmul (conj (cb_Df m k)) (dft N (fun j => ofR (Wm j ^ 2 * irfft N (cb_Rf Vf) j)) k)).
Definition cbm_dfd (Xf : spec) : R := sqrt (sumn N (fun j => (Wm j * irfft N (cb_Rf Xf) j) ^ 2)) ^ 2 / 2.
End cb.
