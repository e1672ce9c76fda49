(** Property C09 of network fetching (sporco/util.py 171-208). *)
Require Import List ZArith Lia.
Require Import Verif.NetModel Verif.NetProofs.
Import ListNotations.

(** C09: the first attempt that does not time out decides the result, and no further attempt is made. *)
Theorem C09_first_non_timeout_decides :
  forall (content neterr : Type) (net : nat -> outcome content neterr) (maxtry : Z) (n : nat),
    (Z.of_nat n < maxtry)%Z ->
    (forall i, i < n -> exists e, net i = UrlTimeout e) ->
    (forall c, net n = Good c -> netgetdata net maxtry = (Content c, S n)) /\
    (forall e, net n = UrlOther e \/ net n = Uncaught e -> netgetdata net maxtry = (RaiseNet e, S n)).
Proof. intros content neterr net maxtry n H1 H2. exact (netget_first net maxtry n H1 H2). Qed.
Print Assumptions C09_first_non_timeout_decides.

(** C09: if every permitted attempt times out, the last timeout is raised after exactly maxtry attempts. *)
Theorem C09_exhausted :
  forall (content neterr : Type) (net : nat -> outcome content neterr) (maxtry : Z) (n : nat),
    maxtry = Z.of_nat (S n) ->
    (forall i, i <= n -> exists e, net i = UrlTimeout e) ->
    exists e, net n = UrlTimeout e /\ netgetdata net maxtry = (RaiseNet e, S n).
Proof. intros content neterr net maxtry n H1 H2. exact (netget_exhausted net maxtry n H1 H2). Qed.
Print Assumptions C09_exhausted.

(** C09: never more than maxtry attempts, and a value error without any attempt if maxtry is not positive. *)
Theorem C09_attempt_bound :
  forall (content neterr : Type) (net : nat -> outcome content neterr) (maxtry : Z),
    (Z.of_nat (snd (netgetdata net maxtry)) <= Z.max 0 maxtry)%Z /\
    ((maxtry <= 0)%Z -> netgetdata net maxtry = (RaiseValueError, 0)).
Proof.
  intros content neterr net maxtry. split.
  - unfold netgetdata. pose proof (tryloop_bound net (Z.to_nat maxtry) 0 RaiseValueError). lia.
  - intros H. unfold netgetdata. replace (Z.to_nat maxtry) with 0 by lia. reflexivity.
Qed.
Print Assumptions C09_attempt_bound.

Definition ex_net (i : nat) : outcome nat nat :=
  match i with 0 => UrlTimeout 7 | 1 => UrlTimeout 8 | 2 => Good 42 | _ => UrlOther 9 end.

Example C09_example :
  netgetdata ex_net 3 = (Content 42, 3) /\ netgetdata ex_net 2 = (RaiseNet 8, 2) /\
  (forall i, i < 2 -> exists e, ex_net i = UrlTimeout e).
Proof.
  split; [reflexivity|]. split; [reflexivity|].
  intros i Hi. destruct i as [|[|i]]; [exists 7; reflexivity|exists 8; reflexivity|lia].
Qed.

(** A timeout while the content is being read is not a URLError, hence not retried although attempts remain. *)
Theorem C09_read_timeout_retried_refuted :
  exists (net : nat -> outcome nat nat) maxtry e,
    net 0 = Uncaught e /\ net 1 = Good 42 /\ (2 <= maxtry)%Z /\ netgetdata net maxtry = (RaiseNet e, 1).
Proof.
  exists (fun i => match i with 0 => Uncaught 5 | _ => Good 42 end), 3%Z, 5.
  split; [reflexivity|]. split; [reflexivity|]. split; [lia|reflexivity].
Qed.
Print Assumptions C09_read_timeout_retried_refuted.
