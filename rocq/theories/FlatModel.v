(** Model of sporco/prox/_util.py: ndto2d and ndfrom2d. *)
Require Import List Arith ZArith Bool.
Require Import Verif.NdIndex.
Import ListNotations.
Local Open Scope nat_scope.

(** First position of [a] in [l] (its length if absent). *)
Fixpoint pos (a : nat) (l : list nat) : nat := match l with [] => 0 | b :: r => if Nat.eqb a b then 0 else S (pos a r) end.
Fixpoint nodupb (l : list nat) : bool := match l with [] => true | a :: r => negb (existsb (Nat.eqb a) r) && nodupb r end.

(** np.transpose(x, axes): the k-th axis of the result is axis axes[k] of x, so the entry i of the result is the entry j of x with
    j[axes[k]] = i[k]. numpy raises ValueError unless the axes are a permutation. *)
Definition orig (axes idx : list nat) : list nat := map (fun a => nth (pos a axes) idx 0) (seq 0 (length axes)).
Definition transpose {A} (x : arr A) (axes : list nat) : option (arr A) :=
  if Nat.eqb (length axes) (length (shape x)) && forallb (fun a => Nat.ltb a (length (shape x))) axes && nodupb axes then
    Some (mkarr (map (fun a => nth a (shape x) 0) axes) (fun idx => get x (orig axes idx)))
  else None.

(** np.argsort of a list of integers (the order of equal entries does not matter here: the argument is a permutation). *)
Fixpoint ins_pos (key : nat -> nat) (p : nat) (l : list nat) : list nat :=
  match l with [] => [p] | q :: r => if Nat.leb (key p) (key q) then p :: l else q :: ins_pos key p r end.
Definition argsort (l : list nat) : list nat :=
  fold_right (ins_pos (fun p => nth p l 0)) [] (seq 0 (length l)).

(** The outcome of ndto2d. np.prod of an empty tuple is the float 1.0, which reshape refuses: TypeError. A reshape with -1 fails if the
    other dimension is zero: ValueError. *)
Inductive outcome (A : Type) := Ok (a : A) | TypeErr | ValueErr.
Arguments Ok {A}. Arguments TypeErr {A}. Arguments ValueErr {A}.

Section nd.
(** [tuple(set(...))] (line 54): the iteration order of a set of integers is unspecified. *)
Variable setorder : list nat -> list nat.

(** ndto2d 49-66. The axis argument is a tuple; an int becomes a tuple of one (49-50). *)
Definition normaxis (nd : nat) (axis : list Z) : list Z := map (fun k => if (0 <=? k)%Z then k else (Z.of_nat nd + k)%Z) axis.
Definition ndto2d {A} (x : arr A) (axis : list Z) : outcome (arr A * (list nat * list nat)) :=
  let nd := length (shape x) in
  let ax := normaxis nd axis in
  let caxis := setorder (filter (fun a => negb (existsb (Z.eqb (Z.of_nat a)) ax)) (seq 0 nd)) in
  (* an axis still negative makes the list of axes too long, so transpose fails as it does for other invalid axes *)
  if forallb (Z.leb 0) ax then
    let prm := caxis ++ map Z.to_nat ax in
    match transpose x prm with
    | None => ValueErr
    | Some xt =>
      let xts := shape xt in
      let lead := firstn (length caxis) xts in
      match lead with
      | [] => TypeErr
      | _ => if Nat.eqb (prod lead) 0 then ValueErr
             else Ok (reshape xt [prod lead; prod xts / prod lead], (xts, prm))
      end
    end
  else ValueErr.

(** ndfrom2d 90-97. *)
Definition ndfrom2d {A} (xtr : arr A) (rsi : list nat * list nat) : option (arr A) :=
  let (xts, prm) := rsi in transpose (reshape xtr xts) (argsort prm).
End nd.
