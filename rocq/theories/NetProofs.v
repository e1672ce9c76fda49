Require Import List ZArith Lia.
Require Import Verif.NetModel.
Import ListNotations.

Section P.
Context {content neterr : Type}.
Notation outcome := (outcome content neterr).
Implicit Type net : nat -> outcome.

Lemma tryloop_timeouts net left : forall ntry err m,
  m <= left -> (forall i, ntry <= i < ntry + m -> exists e, net i = UrlTimeout e) ->
  exists err', tryloop net left ntry err = tryloop net (left - m) (ntry + m) err' /\
    (m = 0 -> err' = err) /\
    (forall m', m = S m' -> exists e, net (ntry + m') = UrlTimeout e /\ err' = RaiseNet e).
Proof.
  induction left as [|left IH]; intros ntry err m Hm Ht.
  - assert (m = 0) by lia. subst. exists err. split; [f_equal; lia|]. split; [reflexivity|]. intros m' H. discriminate.
  - destruct m as [|m].
    + exists err. split; [f_equal; lia|]. split; [reflexivity|]. intros m' H. discriminate.
    + destruct (Ht ntry) as [e He]; [lia|]. simpl tryloop. rewrite He.
      destruct (IH (S ntry) (RaiseNet e) m) as [err' [E1 [E2 E3]]]; [lia| |].
      * intros i Hi. apply Ht. lia.
      * exists err'. split; [rewrite E1; f_equal; lia|]. split; [discriminate|].
        intros m' Hm'. inversion Hm'. subst. destruct m' as [|m'].
        -- exists e. split; [replace (ntry + 0) with ntry by lia; exact He|apply E2; reflexivity].
        -- destruct (E3 m' eq_refl) as [e' [H1 H2]]. exists e'. split; [|exact H2].
           replace (ntry + S m') with (S ntry + m') by lia. exact H1.
Qed.

Lemma tryloop_bound net left : forall ntry err,
  ntry <= snd (tryloop net left ntry err) <= ntry + left.
Proof.
  induction left as [|left IH]; intros ntry err; simpl; [lia|].
  destruct (net ntry); simpl; try lia. specialize (IH (S ntry) (RaiseNet e)). lia.
Qed.

Lemma netget_first net maxtry n :
  (Z.of_nat n < maxtry)%Z ->
  (forall i, i < n -> exists e, net i = UrlTimeout e) ->
  (forall c, net n = Good c -> netgetdata net maxtry = (Content c, S n)) /\
  (forall e, net n = UrlOther e \/ net n = Uncaught e -> netgetdata net maxtry = (RaiseNet e, S n)).
Proof.
  intros Hn Ht. unfold netgetdata.
  destruct (tryloop_timeouts net (Z.to_nat maxtry) 0 RaiseValueError n) as [err' [E _]]; [lia|intros i Hi; apply Ht; lia|].
  rewrite E. replace (Z.to_nat maxtry - n) with (S (Z.to_nat maxtry - n - 1)) by lia. simpl.
  split.
  - intros c Hc. rewrite Hc. reflexivity.
  - intros e [He|He]; rewrite He; reflexivity.
Qed.

Lemma netget_exhausted net maxtry n :
  maxtry = Z.of_nat (S n) ->
  (forall i, i <= n -> exists e, net i = UrlTimeout e) ->
  exists e, net n = UrlTimeout e /\ netgetdata net maxtry = (RaiseNet e, S n).
Proof.
  intros Hn Ht. unfold netgetdata.
  destruct (tryloop_timeouts net (Z.to_nat maxtry) 0 RaiseValueError (S n)) as [err' [E [_ E3]]];
    [lia|intros i Hi; apply Ht; lia|].
  destruct (E3 n eq_refl) as [e [H1 H2]]. exists e. split; [exact H1|].
  rewrite E. replace (Z.to_nat maxtry - S n) with 0 by lia. subst. reflexivity.
Qed.
End P.
