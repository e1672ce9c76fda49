(** Model of promote16 (sporco/array.py 140-185) and of the nuclear norm functions with it (sporco/prox/_nuclear.py 41, 65-67).  An array is an
    element type with values; vectors have a single column.  Exact arithmetic: conversion between floating point types does not change values,
    conversion to an integer type truncates towards zero.  numpy.linalg.svd rejects float16, keeps float32, and computes in float64 otherwise. *)
Require Import Reals List ZArith.
Require Import Verif.RVec Verif.FiltModel Verif.NucModel.
Import ListNotations.
Local Open Scope R_scope.

Inductive dtype := F16 | F32 | F64 | I64.
Record arr := mkArr { ty : dtype; val : mat }.
Definition conv (d : dtype) (x : R) : R := match d with I64 => IZR (astype_int x) | _ => x end.
(** np.asarray(a, dtype=d) *)
Definition asarray (d : dtype) (a : arr) : arr := mkArr d (fun i j => conv d (val a i j)).

(** promote16(u), lines 175-178. *)
Definition up_dtype (d : dtype) : dtype := match d with F16 => F32 | _ => d end.
Definition promote16 (u : arr) : arr := asarray (up_dtype (ty u)) u.
(** promote16(u, fn), lines 180-185: the returned arrays are converted to the element type of u, whatever it is.  None: fn raises. *)
Definition promote16_fn (u : arr) (fn : arr -> option (list arr)) : option (list arr) := option_map (map (asarray (ty u))) (fn (promote16 u)).

Section Svd.
Variable svd : mat -> mat * (nat -> R) * mat.
Definition np_svd (a : arr) : option (list arr) :=
  let '(U, s, V) := svd (val a) in
  match ty a with
  | F16 => None
  | F32 => Some [mkArr F32 U; mkArr F32 (fun i _ => s i); mkArr F32 V]
  | _ => Some [mkArr F64 U; mkArr F64 (fun i _ => s i); mkArr F64 V]
  end.
(** prox/_nuclear.py 41 *)
Definition norm_nuclear_t (M N : nat) (X : arr) : option R :=
  match np_svd (promote16 X) with Some [_; s; _] => Some (sumn (Nat.min M N) (fun k => val s k O)) | _ => None end.
(** prox/_nuclear.py 65-67 *)
Definition prox_nuclear_t (M N : nat) (V : arr) (alpha : R) : option (mat * (nat -> R)) :=
  match promote16_fn V np_svd with
  | Some [Usvd; s; Vsvd] =>
      let ss := fun k => Rmax 0 (val s k O - alpha) in let k := Nat.min M N in
      Some (mdot k (val Usvd) (mdot k (mdiag ss) (val Vsvd)), ss)
  | _ => None
  end.
End Svd.
