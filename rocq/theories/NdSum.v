(** Sums over the indices of an array, coordinates and inner products. *)
Require Import List Arith Lia Reals Lra.
Require Import Verif.NdIndex Verif.RVec.
Import ListNotations.
Local Open Scope R_scope.

(** Sum over all indices of an array of shape [s]. *)
Fixpoint ndsum (s : list nat) (f : list nat -> R) : R :=
  match s with [] => f [] | n :: r => sumn n (fun i => ndsum r (fun idx => f (i :: idx))) end.
(** Inner product of two arrays of shape [s]. *)
Definition ndot (s : list nat) (x y : list nat -> R) : R := ndsum s (fun idx => x idx * y idx).

(** Coordinate along an axis, and its replacement. *)
Definition coord (ax : nat) (idx : list nat) : nat := nth ax idx O.
Definition setc (ax j : nat) (idx : list nat) : list nat := firstn ax idx ++ j :: skipn (S ax) idx.

Lemma coord_at p c q : coord (length p) (p ++ c :: q) = c.
Proof. unfold coord. rewrite app_nth2 by lia. rewrite Nat.sub_diag. reflexivity. Qed.
Lemma setc_at p j c q : setc (length p) j (p ++ c :: q) = p ++ j :: q.
Proof.
  unfold setc. rewrite firstn_app, Nat.sub_diag, firstn_all, app_nil_r. f_equal. f_equal.
  rewrite skipn_app. replace (S (length p) - length p)%nat with 1%nat by lia. rewrite skipn_all2 by lia. reflexivity.
Qed.

Lemma ndsum_ext s : forall f g, (forall idx, inb s idx -> f idx = g idx) -> ndsum s f = ndsum s g.
Proof.
  induction s as [|n s IH]; intros f g H; simpl; [apply H; constructor|].
  apply sumn_ext. intros i Hi. apply IH. intros idx Hidx. apply H. constructor; assumption.
Qed.
Lemma ndsum_plus s : forall f g, ndsum s (fun i => f i + g i) = ndsum s f + ndsum s g.
Proof.
  induction s as [|n s IH]; intros f g; simpl; [reflexivity|].
  rewrite <- sumn_plus. apply sumn_ext. intros i Hi. apply (IH (fun idx => f (i :: idx)) (fun idx => g (i :: idx))).
Qed.
Lemma ndsum_scal s : forall c f, ndsum s (fun i => c * f i) = c * ndsum s f.
Proof.
  induction s as [|n s IH]; intros c f; simpl; [reflexivity|].
  rewrite <- sumn_scal. apply sumn_ext. intros i Hi. apply (IH c (fun idx => f (i :: idx))).
Qed.
Lemma ndsum_0 s : forall f, (forall idx, inb s idx -> f idx = 0) -> ndsum s f = 0.
Proof.
  induction s as [|n s IH]; intros f H; simpl; [apply H; constructor|].
  apply sumn_0. intros i Hi. apply IH. intros idx Hidx. apply H. constructor; assumption.
Qed.
Lemma ndsum_nonneg s : forall f, (forall idx, inb s idx -> 0 <= f idx) -> 0 <= ndsum s f.
Proof.
  induction s as [|n s IH]; intros f H; simpl; [apply H; constructor|].
  apply sumn_nonneg. intros i Hi. apply IH. intros idx Hidx. apply H. constructor; assumption.
Qed.
Lemma ndsum_sumn s : forall n (f : nat -> list nat -> R), ndsum s (fun idx => sumn n (fun i => f i idx)) = sumn n (fun i => ndsum s (f i)).
Proof.
  induction s as [|m s IH]; intros n f; simpl; [reflexivity|].
  rewrite sumn_swap. apply sumn_ext. intros i Hi. apply (IH n (fun k idx => f k (i :: idx))).
Qed.
Lemma ndsum_app p : forall q f, ndsum (p ++ q) f = ndsum p (fun i => ndsum q (fun j => f (i ++ j))).
Proof.
  induction p as [|n p IH]; intros q f; simpl; [reflexivity|].
  apply sumn_ext. intros i Hi. apply (IH q (fun idx => f (i :: idx))).
Qed.

(** Two sums agree if they agree along one axis (whose length may differ). *)
Lemma ndsum_axis p n m q f g :
  (forall a b, inb p a -> inb q b -> sumn n (fun i => f (a ++ i :: b)) = sumn m (fun i => g (a ++ i :: b))) ->
  ndsum (p ++ n :: q) f = ndsum (p ++ m :: q) g.
Proof.
  intros H. rewrite !ndsum_app. apply ndsum_ext. intros a Ha. simpl.
  rewrite <- !ndsum_sumn. apply ndsum_ext. intros b Hb. apply H; assumption.
Qed.

(** A sum with one nonzero term. *)
Lemma ndsum_delta s k f : inb s k -> (forall idx, inb s idx -> idx <> k -> f idx = 0) -> ndsum s f = f k.
Proof.
  intros Hk. revert f. induction Hk as [|i n k s Hi Hk IH]; intros f H; simpl; [reflexivity|].
  rewrite (sumn_ext n _ (fun j => if Nat.eqb j i then f (i :: k) else 0)).
  - rewrite (sumn_delta n i (fun _ => f (i :: k))) by exact Hi. reflexivity.
  - intros j Hj. destruct (Nat.eqb_spec j i) as [->|Hne].
    + apply (IH (fun idx => f (i :: idx))). intros idx Hidx Hn. apply H; [constructor; assumption|congruence].
    + apply ndsum_0. intros idx Hidx. apply H; [constructor; assumption|congruence].
Qed.

(** The index [idx] of shape [p ++ n :: q] splits at the axis. *)
Lemma inb_axis p n q idx : inb (p ++ n :: q) idx -> exists a c b, idx = a ++ c :: b /\ inb p a /\ (c < n)%nat /\ inb q b.
Proof.
  intros H. apply inb_app_inv in H. destruct H as (a & r & -> & Ha & Hr). destruct r as [|c b]; [inversion Hr|].
  apply inb_cons in Hr. exists a, c, b. tauto.
Qed.
Lemma shape_axis (s : list nat) ax : (ax < length s)%nat -> exists p q, s = p ++ nth ax s O :: q /\ length p = ax.
Proof. intros H. apply nth_split. exact H. Qed.
Lemma inb_coord s idx ax : inb s idx -> (ax < length s)%nat -> (coord ax idx < nth ax s O)%nat.
Proof.
  intros H. revert ax. induction H as [|i n idx s Hi H IH]; intros [|ax] Hax; unfold coord in *; simpl in *; try lia.
  apply IH. lia.
Qed.
Lemma coord_setc ax j idx : (ax < length idx)%nat -> coord ax (setc ax j idx) = j.
Proof.
  intros H. unfold coord, setc. rewrite app_nth2; rewrite firstn_length; [|lia].
  replace (ax - Nat.min ax (length idx))%nat with O by lia. reflexivity.
Qed.
Lemma coord_setc_ne ax k j idx : k <> ax -> (ax < length idx)%nat -> coord k (setc ax j idx) = coord k idx.
Proof.
  intros Hk H. destruct (nth_split idx O H) as (a & b & E & La). rewrite E. rewrite <- La. rewrite setc_at. unfold coord.
  destruct (Nat.lt_ge_cases k (length a)).
  - rewrite !app_nth1 by lia. reflexivity.
  - rewrite !app_nth2 by lia. destruct (k - length a)%nat eqn:Ek; [lia|]. reflexivity.
Qed.
Lemma inb_setc s idx ax j : inb s idx -> (j < nth ax s O)%nat -> (ax < length s)%nat -> inb s (setc ax j idx).
Proof.
  intros H Hj Hax. destruct (shape_axis s ax Hax) as (p & q & E & Lp). rewrite E in H. apply inb_axis in H.
  destruct H as (a & c & b & -> & Ha & Hc & Hb).
  assert (La : length a = ax) by (rewrite (inb_length _ _ Ha); exact Lp).
  replace (setc ax j (a ++ c :: b)) with (a ++ j :: b) by (rewrite <- La; symmetry; apply setc_at).
  rewrite E. apply inb_app; [rewrite La; congruence|]. split; [exact Ha|]. constructor; [exact Hj|exact Hb].
Qed.
