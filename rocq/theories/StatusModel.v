(** Model of sporco/common.py solve_status_str (230-294) and of the display of a status line, `print(fmtstr % itdsp)` (admm/admm.py 592-616).
    Text is a list of code points, as len() counts them. Simplified: Python's % operator is modelled for conversions %[-][width][.precision]letter
    (not %%, not the other flags; a leading 0 of the width only changes the padding character); what a conversion letter does with a value is a
    parameter [body]; the class \d of the regular expression is restricted to the ASCII digits. *)
Require Import List Arith Bool Decimal.
Import ListNotations.

Definition text := list nat.
Definition pct : nat := 37. Definition dash : nat := 45. Definition dot : nat := 46. Definition blank : nat := 32.
Definition ch_d : nat := 100. Definition ch_e : nat := 101.

(** Decimal digits. *)
Fixpoint show_uint (u : uint) : text :=
  match u with
  | Nil => []
  | D0 r => 48 :: show_uint r | D1 r => 49 :: show_uint r | D2 r => 50 :: show_uint r | D3 r => 51 :: show_uint r | D4 r => 52 :: show_uint r
  | D5 r => 53 :: show_uint r | D6 r => 54 :: show_uint r | D7 r => 55 :: show_uint r | D8 r => 56 :: show_uint r | D9 r => 57 :: show_uint r
  end.
Definition show (n : nat) : text := show_uint (Nat.to_uint n).
Definition digit (c : nat) : option (uint -> uint) :=
  if c =? 48 then Some D0 else if c =? 49 then Some D1 else if c =? 50 then Some D2 else if c =? 51 then Some D3 else if c =? 52 then Some D4
  else if c =? 53 then Some D5 else if c =? 54 then Some D6 else if c =? 55 then Some D7 else if c =? 56 then Some D8 else if c =? 57 then Some D9 else None.
(** The longest prefix of digits and the rest. *)
Fixpoint take_digits (t : text) : uint * text :=
  match t with
  | [] => (Nil, [])
  | c :: r => match digit c with Some f => let (u, r') := take_digits r in (f u, r') | None => (Nil, t) end
  end.
Definition take_dash (t : text) : bool * text :=
  match t with [] => (false, []) | c :: r => if c =? dash then (true, r) else (false, t) end.

(** 278-286: the match of %-?(\d+) at the start of a format; None = ValueError. *)
Definition match_width (fmt : text) : option nat :=
  match fmt with
  | [] => None
  | c :: r =>
    if c =? pct then match fst (take_digits (snd (take_dash r))) with Nil => None | u => Some (Nat.of_uint u) end else None
  end.
(** 291: '%-*s' pads on the right and never truncates. *)
Definition ljust (w : nat) (t : text) : text := t ++ repeat blank (w - length t).
Definition rjust (w : nat) (t : text) : text := repeat blank (w - length t) ++ t.
(** ('  ').join. *)
Fixpoint join (l : list text) : text :=
  match l with [] => [] | [a] => a | a :: r => a ++ [blank; blank] ++ join r end.
Fixpoint traverse {A B} (f : A -> option B) (l : list A) : option (list B) :=
  match l with [] => Some [] | a :: r => match f a, traverse f r with Some b, Some bs => Some (b :: bs) | _, _ => None end end.

(** 270-273: the format of column idx with label lbl. *)
Definition fldfmt (fmtmap : text -> option text) (fwdth0 fwdthdlt fprec idx : nat) (lbl : text) : text :=
  match fmtmap lbl with
  | Some f => f
  | None => if idx =? 0 then pct :: show fwdth0 ++ [ch_d] else pct :: show (fprec + fwdthdlt) ++ [dot] ++ show fprec ++ [ch_e]
  end.
Fixpoint fldfmts (fmtmap : text -> option text) (fwdth0 fwdthdlt fprec idx : nat) (hdr : list text) : list text :=
  match hdr with [] => [] | l :: r => fldfmt fmtmap fwdth0 fwdthdlt fprec idx l :: fldfmts fmtmap fwdth0 fwdthdlt fprec (S idx) r end.
(** 230-294: header line, format string, length of the separator. *)
Definition solve_status_str (hdrlbl : list text) (fmtmap : text -> option text) (fwdth0 fwdthdlt fprec : nat) : option (text * text * nat) :=
  let fs := fldfmts fmtmap fwdth0 fwdthdlt fprec 0 hdrlbl in
  match traverse match_width fs with
  | None => None
  | Some ws => let hdrstr := join (map (fun p => ljust (snd p) (fst p)) (combine hdrlbl ws)) in Some (hdrstr, join fs, length hdrstr)
  end.

(** Python's % operator. *)
Definition is_letter (c : nat) : bool := (97 <=? c) && (c <=? 122).
Definition spec (r : text) : option (bool * nat * (option uint * nat) * text) :=
  let (lf, r1) := take_dash r in
  let (u, r2) := take_digits r1 in
  let (prec, r3) := match r2 with c :: t => if c =? dot then let (p, t') := take_digits t in (Some p, t') else (None, r2) | [] => (None, []) end in
  match r3 with
  | c :: r4 => if is_letter c then Some (lf, Nat.of_uint u, (prec, c), r4) else None
  | [] => None
  end.
Section printf.
Variable V : Type.
Variable body : option uint * nat -> V -> text.
Fixpoint printf_fuel (fuel : nat) (fmt : text) (vs : list V) : option text :=
  match fuel with
  | 0 => None
  | S fl =>
    match fmt with
    | [] => match vs with [] => Some [] | _ => None end
    | c :: r =>
      if c =? pct then
        match spec r, vs with
        | Some (lf, w, conv, r'), v :: vs' => option_map (fun t => (if lf : bool then ljust w (body conv v) else rjust w (body conv v)) ++ t) (printf_fuel fl r' vs')
        | _, _ => None
        end
      else option_map (cons c) (printf_fuel fl r vs)
    end
  end.
Definition printf (fmt : text) (vs : list V) : option text := printf_fuel (S (length fmt)) fmt vs.
End printf.
Arguments printf {V}. Arguments printf_fuel {V}.
