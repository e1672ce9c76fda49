(** Lemmas for AmsProps: the set of allowed arrays, the y step, impulse filters and elimination of their maps. *)
Require Import List Arith Reals Bool Lia Lra FunctionalExtensionality.
Require Import Verif.RVec Verif.ProxModel Verif.FftModel Verif.FftInv Verif.CscModel Verif.CscSpec Verif.CscProofs Verif.CscProps Verif.CscIterModel Verif.CscIterProofs Verif.CscIterProps.
Require Import Verif.AdmmModel Verif.AdmmSpec Verif.AdmmProofs Verif.AdmmConv Verif.AdmmProps Verif.Compact Verif.AdmmLimit Verif.StepsModel Verif.StepsSpec Verif.StepsProofs Verif.LimitProofs Verif.Lagrange Verif.LimitTwo.
Require Import Verif.CscTwoProps Verif.AmsModel.
Import ListNotations.
Local Open Scope R_scope.
Local Notation vec := (nat -> R).

(** ** Sets given entry by entry *)
Definition pset (N : nat) (nn z : nat -> bool) (y : vec) : Prop := forall i, (i < N)%nat -> (nn i = true -> 0 <= y i) /\ (z i = true -> y i = 0).
Lemma pset_convex N nn z : forall x y t, pset N nn z x -> pset N nn z y -> 0 <= t <= 1 -> pset N nn z (seg x y t).
Proof.
  intros x y t Hx Hy Ht i Hi. destruct (Hx i Hi) as [A B]. destruct (Hy i Hi) as [A' B']. unfold seg. split; intros E.
  - specialize (A E). specialize (A' E). nra.
  - rewrite (B E), (B' E). ring.
Qed.
Lemma pset_closed N nn z : closed N (pset N nn z).
Proof.
  intros y l H C i Hi. split; intros E.
  - destruct (Rle_or_lt 0 (l i)) as [|Hlt]; [assumption|]. exfalso. destruct (C i Hi (- l i)) as [K HK]; [lra|]. specialize (HK K (Nat.le_refl K)). destruct (H K i Hi) as [A _].
    specialize (A E). unfold R_dist in HK. rewrite Rabs_right in HK by lra. lra.
  - apply (UL_sequence (fun k => y k i)); [apply C; exact Hi|]. apply (cv_ext (fun _ => 0)); [|apply cv_const]. intros k. symmetry. apply (H k i Hi). exact E.
Qed.
Definition p_ystep (nn z : nat -> bool) (lam rho : R) (wl1 ax u : vec) : vec := fun i => cs_ystep (fun _ => z i) (nn i) lam rho wl1 ax u i.
Lemma p_y N nn z lam rho wl1 ax u : 0 <= lam -> 0 < rho -> (forall i, (i < N)%nat -> 0 <= wl1 i) ->
  pset N nn z (p_ystep nn z lam rho wl1 ax u) /\
  subgradient N (pset N nn z) (l1reg N lam wl1) (p_ystep nn z lam rho wl1 ax u) (fun i => rho * (ax i + u i - p_ystep nn z lam rho wl1 ax u i)).
Proof.
  intros Hl Hr Hw.
  assert (E : forall i, (i < N)%nat -> masked 1 (fun _ => z i) (nn i) (fun _ => p_ystep nn z lam rho wl1 ax u i) /\
    forall t, (nn i = true -> 0 <= t) -> (z i = true -> t = 0) -> lam * Rabs (wl1 i * p_ystep nn z lam rho wl1 ax u i) +
      rho * (ax i + u i - p_ystep nn z lam rho wl1 ax u i) * (t - p_ystep nn z lam rho wl1 ax u i) <= lam * Rabs (wl1 i * t)).
  { intros i Hi. destruct (cs_y 1 (fun _ => z i) (nn i) lam rho (fun _ => wl1 i) (fun _ => ax i) (fun _ => u i) Hl Hr ltac:(intros; apply Hw; exact Hi)) as [G1 G2]. split; [exact G1|].
    intros t T1 T2. specialize (G2 (fun _ => t) (Logic.conj (fun e j _ => T1 e) (fun j _ e => T2 e))). unfold l1reg, dot in G2. cbn [sumn] in G2.
    unfold p_ystep. unfold cs_ystep, bpdn_ystep, clip, prox_l1 in *. cbv beta in *. lra. }
  split.
  - intros i Hi. destruct (E i Hi) as [[A B] _]. split; intros e; [apply (A e 0%nat); lia|apply (B 0%nat); [lia|exact e]].
  - intros y Hy. unfold l1reg, dot. rewrite <- !sumn_scal, <- sumn_plus. apply sumn_le. intros i Hi. destruct (E i Hi) as [_ G]. apply (G (y i)); apply (Hy i Hi).
Qed.

(** ** Convolution with an impulse *)
Section impulses.
Variables (s : nat -> nat).
Lemma rank0 axes p : (forall ax, In ax axes -> (0 < s ax)%nat) -> forallb (fun ax => Nat.eqb (p ax) 0) axes = Nat.eqb (rank s axes p) 0.
Proof.
  induction axes as [|a r IH]; intros H; [reflexivity|]. cbn [forallb rank]. rewrite IH by (intros; apply H; right; assumption).
  assert (P : (0 < size s r)%nat) by (apply size_pos; intros; apply H; right; assumption).
  destruct (Nat.eqb_spec (p a) 0) as [E|E]; cbn [andb].
  - rewrite E. reflexivity.
  - symmetry. apply Nat.eqb_neq. nia.
Qed.
Lemma total_at0 axes g base : NoDup axes -> (forall ax, In ax axes -> (0 < s ax)%nat) ->
  total s axes (fun k => (if forallb (fun ax => Nat.eqb (k ax) 0) axes then 1 else 0) * g k) base = g (place s axes base 0).
Proof.
  intros ND H. rewrite <- sum_place by exact H. pose proof (size_pos s axes H) as P. rewrite <- (sumn_delta (size s axes) 0 (fun k => g (place s axes base k)) P). apply sumn_ext.
  intros k Hk. rewrite rank0, rank_place by assumption. destruct (Nat.eqb k 0); ring.
Qed.
Lemma place0 axes p ax : NoDup axes -> (forall b, In b axes -> (0 < s b)%nat) -> In ax axes -> place s axes p 0 ax = 0%nat.
Proof.
  intros ND H Ha. assert (Z : rank s axes (place s axes p 0) = 0%nat) by (apply rank_place; [exact ND|exact H|apply size_pos; exact H]).
  assert (F : forallb (fun b => Nat.eqb (place s axes p 0 b) 0) axes = true) by (rewrite rank0, Z by exact H; reflexivity).
  rewrite forallb_forall in F. apply Nat.eqb_eq. apply F. exact Ha.
Qed.
Lemma minus0 axes p q : NoDup axes -> (forall b, In b axes -> (0 < s b)%nat) -> inr s axes p -> minus s axes p (place s axes q 0) = p.
Proof.
  intros ND H Hp. extensionality ax. unfold minus. destruct (existsb (Nat.eqb ax) axes) eqn:E; [|reflexivity]. apply existsb_exists in E. destruct E as (b & Hb & E). apply Nat.eqb_eq in E. subst b.
  rewrite place0 by assumption. specialize (Hp ax Hb). replace (p ax + s ax - 0)%nat with (p ax + 1 * s ax)%nat by lia. rewrite Nat.mod_add by lia. apply Nat.mod_small. exact Hp.
Qed.
Lemma conv_impulse dsh axes c j v p : NoDup axes -> (forall b, In b axes -> (0 < s b)%nat) -> (forall b, In b axes -> (0 < dsh b)%nat) -> inr s axes p ->
  conv s axes (ext dsh axes (impulse axes c j)) v p = if Nat.eqb j c then v p else 0.
Proof.
  intros ND H Hd Hp. unfold conv. rewrite (total_ext s axes _ (fun k => (if forallb (fun ax => Nat.eqb (k ax) 0) axes then 1 else 0) * (if Nat.eqb j c then v (minus s axes p k) else 0)) p ND).
  - rewrite total_at0 by assumption. rewrite minus0 by assumption. reflexivity.
  - intros k Hk. unfold ext, impulse. rewrite (Nat.eqb_sym c j). destruct (forallb (fun ax => Nat.eqb (k ax) 0) axes) eqn:E.
    + replace (forallb (fun ax => Nat.ltb (k ax) (dsh ax)) axes) with true; [destruct (Nat.eqb j c); cbn [andb]; ring|].
      symmetry. apply forallb_forall. intros b Hb. rewrite forallb_forall in E. specialize (E b Hb). apply Nat.eqb_eq in E. apply Nat.ltb_lt. rewrite E. apply Hd. exact Hb.
    + rewrite Bool.andb_false_r. destruct (forallb (fun ax => Nat.ltb (k ax) (dsh ax)) axes); rewrite !Rmult_0_l; reflexivity.
Qed.
Lemma sumn_sel n c f : (c < n)%nat -> sumn n (fun j => if Nat.eqb j c then f j else 0) = f c.
Proof. apply sumn_delta. Qed.
Lemma synth_ext_dict dsh axes M Cd D X c p : NoDup axes -> (forall b, In b axes -> (0 < s b)%nat) -> (forall b, In b axes -> (0 < dsh b)%nat) -> inr s axes p -> (c < Cd)%nat ->
  synth s dsh axes (M + Cd) (ext_dict axes M D) X c p = synth s dsh axes M D X c p + X (M + c)%nat p.
Proof.
  intros ND H Hd Hp Hc. unfold synth. rewrite sumn_split. f_equal.
  - apply sumn_ext. intros m Hm. unfold ext_dict. apply Nat.ltb_lt in Hm. rewrite Hm. reflexivity.
  - rewrite <- (sumn_sel Cd c (fun j => X (M + j)%nat p) Hc). apply sumn_ext. intros j Hj. unfold ext_dict. replace (Nat.ltb (M + j) M) with false by (symmetry; apply Nat.ltb_ge; lia).
    replace (M + j - M)%nat with j by lia. rewrite conv_impulse by assumption. reflexivity.
Qed.
End impulses.
