(** Model of util.netgetdata (sporco/util.py 171-208). *)
Require Import List ZArith.
Import ListNotations.

Section Net.
Variables (content neterr : Type).

(** What the network does at one attempt: [urlopen] and [read] succeed; [urlopen] raises URLError whose reason is a
    socket timeout or something else; or an exception that is not a URLError escapes (such as a socket.timeout raised by
    [rspns.read()], line 199). *)
Inductive outcome :=
| Good (c : content)
| UrlTimeout (e : neterr)
| UrlOther (e : neterr)
| Uncaught (e : neterr).

Inductive result :=
| Content (c : content)        (* line 208 *)
| RaiseValueError              (* the initial value of err, line 195 *)
| RaiseNet (e : neterr).

(** The for/else loop at lines 196-206: [left] attempts remain, [ntry] is the number of the attempt, [err] is the
    exception raised by the else branch.  Also returns the number of attempts made. *)
Fixpoint tryloop (net : nat -> outcome) (left ntry : nat) (err : result) : result * nat :=
  match left with
  | O => (err, ntry)                                              (* else: raise err *)
  | S left' =>
      match net ntry with
      | Good c => (Content c, S ntry)                             (* break *)
      | UrlTimeout e => tryloop net left' (S ntry) (RaiseNet e)   (* err = e *)
      | UrlOther e => (RaiseNet e, S ntry)                        (* raise *)
      | Uncaught e => (RaiseNet e, S ntry)
      end
  end.

(** netgetdata (util.py 171-208); [range(maxtry)] is empty for a non-positive maxtry. *)
Definition netgetdata (net : nat -> outcome) (maxtry : Z) : result * nat :=
  tryloop net (Z.to_nat maxtry) 0 RaiseValueError.
End Net.
Arguments Good {content neterr}. Arguments UrlTimeout {content neterr}.
Arguments UrlOther {content neterr}. Arguments Uncaught {content neterr}.
Arguments Content {content neterr}. Arguments RaiseValueError {content neterr}. Arguments RaiseNet {content neterr}.
Arguments tryloop {content neterr}. Arguments netgetdata {content neterr}.
