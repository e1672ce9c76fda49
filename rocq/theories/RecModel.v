(** The reconstruct methods of the solver classes.  Real signals: self.fftn and self.ifftn are then rfftn and irfftn
    (admm/cbpdn.py 217-225).  The axes that are not transformed (channels and signals) are covered by the argument [c] of
    CscModel and by one array per filter otherwise. *)
Require Import List Arith Reals Bool String.
Require Import Verif.RVec Verif.Cplx Verif.FftModel Verif.CscModel.
Import ListNotations.
Local Open Scope string_scope.
Local Open Scope list_scope.
Local Open Scope R_scope.

(** What a call does: the array, or the exception raised. *)
Inductive outcome (A : Type) : Type := Returned (a : A) | AttributeError | NameError | ValueError.
Arguments Returned {A} _. Arguments AttributeError {A}. Arguments NameError {A}. Arguments ValueError {A}.

(** The attributes X, Xf and Y of a solver object (for the two block classes Y is block 1: var_y1).  Nothing relates Xf to X: before
    the first x step Xf is the content of a freshly allocated array (admm/cbpdn.py 235, 1582; cbpdntv.py 241, 950; ccmod.py 291, 735). *)
Record cobj : Type := mkCobj { oX : nat -> index -> R; oXf : nat -> index -> C; oY : nat -> index -> R }.

Section Rec.
Variables (s dsh : nat -> nat) (axes : list nat) (M : nat) (D : nat -> nat -> index -> R).

(** GenericConvBPDN.reconstruct (admm/cbpdn.py 373-380). *)
Definition gen_reconstruct (o : cobj) (X : option (nat -> index -> R)) (c : nat) : index -> R :=
  reconstruct s dsh axes M D (match X with None => oY o | Some X => X end) c.
(** ADMMEqual.getmin (admm/admm.py 870-873), which solve returns (admm.py 382). *)
Definition gen_getmin (returnX : bool) (o : cobj) : nat -> index -> R := if returnX then oX o else oY o.

(** pgm ConvBPDN.reconstruct (pgm/cbpdn.py 374-381) and getmin (pgm/pgm.py: self.X). *)
Definition pgm_reconstruct (o : cobj) (X : option (nat -> index -> R)) (c : nat) : index -> R :=
  reconstruct s dsh axes M D (match X with None => oX o | Some X => X end) c.
Definition pgm_getmin (o : cobj) : nat -> index -> R := oX o.

(** ConvTwoBlockCnstrnt.reconstruct (admm/cbpdn.py 1801-1810), and the same text in cbpdntv.py 563-571 and 1347-1355. *)
Definition two_reconstruct (o : cobj) (X : option (nat -> index -> R)) (c : nat) : index -> R :=
  let Xf := match X with None => oXf o | Some X => fun m => rfftn s axes (X m) end in
  irfftn s axes (fun i => csumn M (fun m => cmul (Df s dsh axes D c m i) (Xf m i))).
(** ADMMTwoBlockCnstrnt.getmin (admm/admm.py 1113-1124) for ReturnVar 'X' and 'Y1', the default of these classes being 'Y1'
    (admm/cbpdn.py 1511, 1931). *)
Definition two_getmin (returnX : bool) (o : cobj) : nat -> index -> R := if returnX then oX o else oY o.

End Rec.

(** ** Dictionary update *)
(** The shape of the result of rfftn: the last axis is halved. *)
Definition half_shape (axes : list nat) (sh : nat -> nat) : nat -> nat :=
  fun ax => if Nat.eqb ax (last axes O) then (sh ax / 2 + 1)%nat else sh ax.
(** NumPy's broadcasting of a product along the axes [axes]. *)
Definition compatible (sa sb : nat -> nat) (axes : list nat) : bool :=
  forallb (fun ax => Nat.eqb (sa ax) (sb ax) || Nat.eqb (sa ax) 1 || Nat.eqb (sb ax) 1)%bool axes.
Definition stretch (sh : nat -> nat) (axes : list nat) (i : index) : index :=
  fun ax => if (mem ax axes && Nat.eqb (sh ax) 1)%bool then O else i ax.

(** ConvCnstrMOD.reconstruct: admm/ccmod.py 418-427, pgm/ccmod.py 394-403, admm/ccmodmd.py 544-553.  Zf is the transform of the
    coefficient maps, on the shape Nv = [s]; a dictionary passed as an argument, of shape [dsh] along [axes], is transformed on its
    own shape (the shape argument of rfftn is None). *)
Definition ccm_reconstruct (s dsh : nat -> nat) (axes : list nat) (M : nat) (Zf : nat -> index -> C) (o : cobj)
    (D : option (nat -> index -> R)) : outcome (index -> R) :=
  match D with
  | None => Returned (irfftn s axes (fun i => csumn M (fun m => cmul (Zf m i) (oXf o m i))))
  | Some D =>
      if compatible (half_shape axes s) (half_shape axes dsh) axes
      then Returned (irfftn s axes (fun i => csumn M (fun m =>
             cmul (Zf m (stretch (half_shape axes s) axes i)) (rfftn dsh axes (D m) (stretch (half_shape axes dsh) axes i)))))
      else ValueError
  end.

(** ConvBPDNDictLearn.reconstruct: dictlrn/cbpdndl.py 488-498 and cbpdndlmd.py 511-521.  Both transforms are made on Nv, so the
    dictionary is padded with zeros.  [gd] is getdict(crop=False), of shape [s], and [gc] is getcoef(). *)
Definition dl_reconstruct (s dsh : nat -> nat) (axes : list nat) (M : nat) (gd : nat -> nat -> index -> R) (gc : nat -> index -> R)
    (D : option (nat -> nat -> index -> R)) (X : option (nat -> index -> R)) (c : nat) : index -> R :=
  let X := match X with None => gc | Some X => X end in
  match D with
  | None => reconstruct s s axes M gd X c
  | Some D => reconstruct s dsh axes M D X c
  end.

(** ** Matrices *)
(** numpy.dot of an array with [n] columns and one with [n] rows. *)
Definition mdot (n : nat) (A B : nat -> nat -> R) : nat -> nat -> R := fun i j => sumn n (fun k => A i k * B k j).
(** The attributes of an object that hold matrices: looking up one that has not been assigned raises. *)
Definition attrs : Type := string -> option (nat -> nat -> R).
(** pgm BPDN.reconstruct (pgm/bpdn.py 237-242) and pgm CnstrMOD.reconstruct (pgm/cmod.py 227-232), the same text: the argument is
    given a default and then line 242 (232) is self.D.dot(self.X).  [n] is the number of columns of D. *)
Definition dot_reconstruct (n : nat) (self : attrs) (arg : option (nat -> nat -> R)) : outcome (nat -> nat -> R) :=
  match (match arg with Some X => Some X | None => self "X" end) with
  | None => AttributeError
  | Some X =>
      match self "D" with
      | None => AttributeError
      | Some D => match self "X" with None => AttributeError | Some selfX => Returned (mdot n D selfX) end
      end
  end.
Definition setattr (self : attrs) (nm : string) (v : nat -> nat -> R) : attrs := fun k => if String.eqb k nm then Some v else self k.
(** A BPDN object: lines 153, 165 of pgm/bpdn.py and 259, 269 of pgm/pgm.py. *)
Definition bpdn_object (S D X Y : nat -> nat -> R) : attrs :=
  setattr (setattr (setattr (setattr (fun _ => None) "S" S) "X" X) "Y" Y) "D" D.
(** The attributes assigned on a CnstrMOD object: pgm/cmod.py 142-158, pgm/pgm.py 234-273, 404-441, 488-496 and common.py 171. *)
Definition cmod_assigned : list string :=
  ["S"; "Pcn"; "Y"; "Yprv"; "Z"; "opt"; "dtype"; "L"; "stepsizepolicy"; "momentum"; "X"; "F"; "Q"; "iterBTrack"; "backtrack";
   "itstat"; "k"; "t"; "ZZ"; "objfn"; "Xprv"; "objfn_prev"; "timer"; "W"].

(** Names bound in the module sporco.admm.cbpdn (imports 10-24 and the classes); looking up another one raises. *)
Definition cbpdn_names : list string :=
  ["division"; "absolute_import"; "print_function"; "range"; "copy"; "MethodType"; "np"; "admm"; "cr"; "sl"; "sp"; "u";
   "empty_aligned"; "real_dtype"; "empty_aligned_func"; "fftn_func"; "ifftn_func"; "fl2norm2_func"; "gradient_filters";
   "GenericConvBPDN"; "ConvBPDN"; "ConvBPDNJoint"; "ConvElasticNet"; "ConvBPDNGradReg"; "ConvBPDNProjL1"; "ConvTwoBlockCnstrnt";
   "ConvMinL1InL2Ball"; "ConvBPDNMaskDcpl"; "AddMaskSim"; "ConvL1L1Grd"; "MultiDictConvBPDN"].
(** MultiDictConvBPDN.reconstruct (admm/cbpdn.py 2896-2905): line 2901 looks rfftn up in the module; then the product with the
    channels [chncs b] to [chncs (b+1)] of the stacked dictionary. *)
Definition multi_reconstruct (names : list string) (s dsh : nat -> nat) (axes : list nat) (M : nat) (D : nat -> nat -> index -> R)
    (chncs : nat -> nat) (coef : nat -> index -> R) (b : nat) (X : option (nat -> index -> R)) : outcome (nat -> index -> R) :=
  let X := match X with None => coef | Some X => X end in
  if existsb (String.eqb "rfftn") names then Returned (fun c => reconstruct s dsh axes M D X (chncs b + c)) else NameError.
