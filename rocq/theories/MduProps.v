(** C82: the dictionary update with mask decoupling. *)
Require Import List Arith Reals Bool Lia Lra FunctionalExtensionality.
Require Import Verif.RVec Verif.Cplx Verif.FftModel Verif.FftProofs Verif.FftInv Verif.CscModel Verif.CscSpec Verif.CscProofs Verif.CscIterModel Verif.CscIterProofs.
Require Import Verif.PcnModel Verif.PcnSpec Verif.PcnProofs Verif.CcmModel Verif.CcmSpec Verif.CcmProofs Verif.CcmFit Verif.CcmProps Verif.MduModel Verif.MduSpec Verif.MduProofs.
Require Verif.CnvrepModel.
Import ListNotations.
Local Open Scope R_scope.

(** The merged mask applies to channel [c] of signal [k], at position c K + k, the value given for them, for each of the four shapes
    of the mask. *)
Theorem C82_mask C K wC wK w c k : (wC = 1%nat \/ wC = C) -> (wK = 1%nat \/ wK = K) -> (c < C)%nat -> (k < K)%nat ->
  read (mask_merge C K wC wK w) (c * K + k) = w (if Nat.eqb wC 1 then O else c) (if Nat.eqb wK 1 then O else k).
Proof.
  intros HC HK Hc Hk. unfold read, mask_merge, bc.
  assert (D1 : ((c * K + k) / K = c)%nat) by (rewrite Nat.div_add_l by lia; rewrite Nat.div_small by exact Hk; lia).
  assert (D2 : ((c * K + k) mod K = k)%nat) by (rewrite Nat.add_comm, Nat.mod_add by lia; apply Nat.mod_small; exact Hk).
  assert (one : forall n, (n / 1 = n)%nat) by (intros; apply Nat.div_1_r).
  destruct (Nat.eq_dec wC 1) as [E1|N1].
  - subst wC. rewrite Nat.mul_1_l. destruct (Nat.eq_dec wK 1) as [->|N2].
    + cbn. reflexivity.
    + destruct HK as [HK|HK]; [contradiction|]. subst wK. apply Nat.eqb_neq in N2. rewrite N2. cbn [andb Nat.eqb].
      destruct (Nat.ltb_spec 1 K), (Nat.ltb_spec K (C * K)); cbn [andb fst snd]; rewrite ?Nat.mul_1_l.
      * assert (E : Nat.eqb (C * K) 1 = false) by (apply Nat.eqb_neq; nia). rewrite E, D2. reflexivity.
      * rewrite N2, D2. reflexivity.
      * assert (K = 1%nat) by lia. subst. discriminate.
      * rewrite N2, D2. reflexivity.
  - destruct HC as [HC|HC]; [contradiction|]. subst wC. apply Nat.eqb_neq in N1. rewrite N1. destruct (Nat.eq_dec wK 1) as [->|N2].
    + rewrite Nat.mul_1_r. cbn [Nat.eqb]. destruct (Nat.ltb_spec 1 C), (Nat.ltb_spec C (C * K)); cbn [andb]; [destruct (Nat.ltb_spec 1 K)| | |]; cbn [fst snd]; rewrite ?Nat.mul_1_r.
      * assert (E : Nat.eqb (C * K) 1 = false) by (apply Nat.eqb_neq; nia). rewrite E, D1. reflexivity.
      * nia.
      * assert (K = 1%nat) by nia. subst K. assert (k = O) by lia. subst k. rewrite N1, Nat.mul_1_r, Nat.add_0_r, one. reflexivity.
      * apply Nat.eqb_neq in N1. lia.
      * apply Nat.eqb_neq in N1. lia.
    + destruct HK as [HK|HK]; [contradiction|]. subst wK. apply Nat.eqb_neq in N2. rewrite N2.
      assert (L : Nat.ltb (C * K) (C * K) = false) by apply Nat.ltb_irrefl. rewrite L, andb_false_r. cbn [fst snd].
      apply Nat.eqb_neq in N1. assert (E : Nat.eqb (C * K) 1 = false) by (apply Nat.eqb_neq; nia). rewrite E, D1, D2. reflexivity.
Qed.

Lemma rsum_shape (s t : nat -> nat) L f : (forall a, In a L -> s a = t a) -> forall b, rsum s L f b = rsum t L f b.
Proof. induction L as [|a L IH]; intros H b; cbn [rsum]; [reflexivity|]. rewrite (H a (or_introl eq_refl)). apply sumn_ext. intros j _. apply IH. intros c Hc. apply H. right. exact Hc. Qed.
Section positions.
Variables (nv : nat -> nat) (dN Cd K M : nat).
Notation axes := (seq 0 dN).
Notation ons c m := (on_slice nv axes (at_cm dN c m)).
Notation same := (same_dict nv dN Cd M).
Notation sames := (same_sig nv dN Cd K).
Definition kv (k : nat) (q : index) : index := set_at (set_at q (dN + 1) k) (dN + 2) O.
Lemma kv_k k q : kv k q (dN + 1)%nat = k.
Proof. unfold kv, set_at. destruct (Nat.eqb_spec (dN + 1) (dN + 2)); [lia|]. rewrite Nat.eqb_refl. reflexivity. Qed.
Lemma ons_2 c q : ons c 0 q -> q (dN + 2)%nat = O /\ q (dN + 1)%nat = O.
Proof.
  intros [_ H]. split; rewrite H by (rewrite in_seq; lia); unfold at_cm.
  - destruct (Nat.eqb_spec (dN + 2) dN); [lia|]. rewrite Nat.eqb_refl. reflexivity.
  - destruct (Nat.eqb_spec (dN + 1) dN); [lia|]. destruct (Nat.eqb_spec (dN + 1) (dN + 2)); [lia|reflexivity].
Qed.
Lemma off_kv c k q : ons c 0 q -> offKM dN (kv k q) = q.
Proof.
  intros H. destruct (ons_2 c q H) as [H2 H1]. extensionality a. unfold offKM, kv, upd, set_at.
  destruct (Nat.eqb_spec a (dN + 2)) as [->|]; [symmetry; exact H2|]. destruct (Nat.eqb_spec a (dN + 1)) as [->|]; [symmetry; exact H1|reflexivity].
Qed.
Lemma kv_sentry c k q : (c < Cd)%nat -> (k < K)%nat -> ons c 0 q -> sentry nv dN Cd K (kv k q).
Proof.
  intros Hc Hk [H1 H2]. exists c, k. split; [exact Hc|]. split; [exact Hk|]. split.
  - intros a Ha. unfold kv, set_at. destruct (Nat.eqb_spec a (dN + 2)); [lia|]. destruct (Nat.eqb_spec a (dN + 1)); [lia|]. apply H1. apply in_seq. lia.
  - intros a Ha. unfold kv, set_at, at_ck. destruct (Nat.eqb_spec a (dN + 2)) as [->|N].
    + destruct (Nat.eqb_spec (dN + 2) dN); [lia|]. destruct (Nat.eqb_spec (dN + 2) (dN + 1)); [lia|reflexivity].
    + destruct (Nat.eqb_spec a (dN + 1)) as [->|N1]; [destruct (Nat.eqb_spec (dN + 1) dN); [lia|reflexivity]|].
      rewrite H2 by (rewrite in_seq; lia). unfold at_cm. destruct (Nat.eqb_spec a dN); [reflexivity|]. destruct (Nat.eqb_spec a (dN + 2)); [lia|reflexivity].
Qed.
Lemma sentry_kv p : sentry nv dN Cd K p -> exists c k q, (c < Cd)%nat /\ (k < K)%nat /\ ons c 0 q /\ p = kv k q.
Proof.
  intros (c & k & Hc & Hk & H1 & H2). exists c, k, (set_at p (dN + 1) O). split; [exact Hc|]. split; [exact Hk|]. split; [split|].
  - intros a Ha. apply in_seq in Ha. unfold set_at. destruct (Nat.eqb_spec a (dN + 1)); [lia|]. apply H1. lia.
  - intros a Ha. rewrite in_seq in Ha. unfold set_at, at_cm. destruct (Nat.eqb_spec a (dN + 1)) as [->|N].
    + destruct (Nat.eqb_spec (dN + 1) dN); [lia|]. destruct (Nat.eqb_spec (dN + 1) (dN + 2)); [lia|reflexivity].
    + rewrite H2 by lia. unfold at_ck. destruct (Nat.eqb_spec a dN); [reflexivity|]. destruct (Nat.eqb_spec a (dN + 1)); [lia|]. destruct (Nat.eqb a (dN + 2)); reflexivity.
  - extensionality a. unfold kv, set_at. destruct (Nat.eqb_spec a (dN + 2)) as [->|N].
    + rewrite H2 by lia. unfold at_ck. destruct (Nat.eqb_spec (dN + 2) dN); [lia|]. destruct (Nat.eqb_spec (dN + 2) (dN + 1)); [lia|reflexivity].
    + destruct (Nat.eqb_spec a (dN + 1)) as [->|N1]; [|reflexivity]. rewrite H2 by lia. unfold at_ck. destruct (Nat.eqb_spec (dN + 1) dN); [lia|]. rewrite Nat.eqb_refl. reflexivity.
Qed.
Lemma sames_at x y : sames x y <-> forall c k q, (c < Cd)%nat -> (k < K)%nat -> ons c 0 q -> sig dN x k q = sig dN y k q.
Proof.
  split.
  - intros H c k q Hc Hk Hq. exact (H (kv k q) (kv_sentry c k q Hc Hk Hq)).
  - intros H p Hp. destruct (sentry_kv p Hp) as (c & k & q & Hc & Hk & Hq & ->). exact (H c k q Hc Hk Hq).
Qed.
(** The two blocks. *)
Lemma swap2 p : swapKM dN (swapKM dN p) = p.
Proof.
  extensionality a. unfold swapKM. destruct (Nat.eqb_spec a (dN + 1)) as [->|].
  - destruct (Nat.eqb_spec (dN + 2) (dN + 1)); [lia|]. rewrite Nat.eqb_refl. reflexivity.
  - destruct (Nat.eqb_spec a (dN + 2)) as [->|]; [|reflexivity]. rewrite Nat.eqb_refl. reflexivity.
Qed.
Lemma sep0_cat a b p : (p (dN + 1)%nat < K)%nat -> bsep0 dN (bcat dN K a b) p = a p.
Proof.
  intros H. unfold bsep0, bcat. assert (E : swapKM dN p (dN + 2)%nat = p (dN + 1)%nat) by (unfold swapKM; destruct (Nat.eqb_spec (dN + 2) (dN + 1)); [lia|]; rewrite Nat.eqb_refl; reflexivity).
  rewrite E. apply Nat.ltb_lt in H. rewrite H, swap2. reflexivity.
Qed.
Lemma sep1_cat a b p : bsep1 dN K (bcat dN K a b) p = b p.
Proof.
  unfold bsep1, bcat. rewrite upd_same. destruct (Nat.ltb_spec (K + p (dN + 2)%nat) K); [lia|]. f_equal. extensionality x. unfold upd. destruct (Nat.eqb_spec x (dN + 2)) as [->|]; [lia|reflexivity].
Qed.
Lemma sentry_b p : sentry nv dN Cd K p -> bentry nv dN Cd K M (swapKM dN p).
Proof.
  intros (c & k & Hc & Hk & H1 & H2). exists c, k. split; [exact Hc|]. split; [lia|]. split.
  - intros a Ha. unfold swapKM. destruct (Nat.eqb_spec a (dN + 1)); [lia|]. destruct (Nat.eqb_spec a (dN + 2)); [lia|]. apply H1. exact Ha.
  - intros a Ha. unfold swapKM, at_cm. destruct (Nat.eqb_spec a (dN + 1)) as [->|N1].
    + rewrite H2 by lia. unfold at_ck. destruct (Nat.eqb_spec (dN + 2) dN); [lia|]. destruct (Nat.eqb_spec (dN + 2) (dN + 1)); [lia|]. destruct (Nat.eqb_spec (dN + 1) dN); [lia|]. destruct (Nat.eqb_spec (dN + 1) (dN + 2)); [lia|reflexivity].
    + destruct (Nat.eqb_spec a (dN + 2)) as [->|N2].
      * rewrite H2 by lia. unfold at_ck. rewrite Nat.eqb_refl. destruct (Nat.eqb_spec (dN + 1) dN); [lia|]. destruct (Nat.eqb_spec (dN + 2) dN); [lia|reflexivity].
      * rewrite H2 by lia. unfold at_ck. destruct (Nat.eqb_spec a dN); [reflexivity|]. destruct (Nat.eqb_spec a (dN + 1)); [lia|reflexivity].
Qed.
Lemma entry_b p : entry nv dN Cd M p -> bentry nv dN Cd K M (upd p (dN + 2) (K + p (dN + 2)%nat)).
Proof.
  intros (c & m & Hc & Hm & H1 & H2). assert (Em : p (dN + 2)%nat = m).
  { rewrite H2 by lia. unfold at_cm. destruct (Nat.eqb_spec (dN + 2) dN); [lia|]. rewrite Nat.eqb_refl. reflexivity. }
  exists c, (K + m)%nat. split; [exact Hc|]. split; [lia|]. split.
  - intros a Ha. unfold upd. destruct (Nat.eqb_spec a (dN + 2)); [lia|]. apply H1. exact Ha.
  - intros a Ha. unfold upd, at_cm. destruct (Nat.eqb_spec a (dN + 2)) as [->|N]; [destruct (Nat.eqb_spec (dN + 2) dN); [lia|congruence]|]. rewrite H2 by lia. unfold at_cm.
    destruct (Nat.eqb_spec a dN); [reflexivity|]. destruct (Nat.eqb_spec a (dN + 2)); [lia|reflexivity].
Qed.
Lemma b_entry p : bentry nv dN Cd K M p -> (p (dN + 2)%nat < K)%nat /\ sentry nv dN Cd K (swapKM dN p) \/ (K <= p (dN + 2)%nat)%nat /\ entry nv dN Cd M (upd p (dN + 2) (p (dN + 2)%nat - K)).
Proof.
  intros (c & j & Hc & Hj & H1 & H2). assert (Ej : p (dN + 2)%nat = j).
  { rewrite H2 by lia. unfold at_cm. destruct (Nat.eqb_spec (dN + 2) dN); [lia|]. rewrite Nat.eqb_refl. reflexivity. }
  assert (E1 : p (dN + 1)%nat = O). { rewrite H2 by lia. unfold at_cm. destruct (Nat.eqb_spec (dN + 1) dN); [lia|]. destruct (Nat.eqb_spec (dN + 1) (dN + 2)); [lia|reflexivity]. }
  rewrite Ej. destruct (Nat.lt_ge_cases j K) as [L|L]; [left|right]; (split; [exact L|]).
  - exists c, j. split; [exact Hc|]. split; [exact L|]. split.
    + intros a Ha. unfold swapKM. destruct (Nat.eqb_spec a (dN + 1)); [lia|]. destruct (Nat.eqb_spec a (dN + 2)); [lia|]. apply H1. exact Ha.
    + intros a Ha. unfold swapKM, at_ck. destruct (Nat.eqb_spec a (dN + 1)) as [->|N1]; [destruct (Nat.eqb_spec (dN + 1) dN); [lia|exact Ej]|].
      destruct (Nat.eqb_spec a (dN + 2)) as [->|N2]; [destruct (Nat.eqb_spec (dN + 2) dN); [lia|exact E1]|]. rewrite H2 by lia. unfold at_cm. destruct (Nat.eqb_spec a dN); [reflexivity|]. destruct (Nat.eqb_spec a (dN + 2)); [lia|reflexivity].
  - exists c, (j - K)%nat. split; [exact Hc|]. split; [lia|]. split.
    + intros a Ha. unfold upd. destruct (Nat.eqb_spec a (dN + 2)); [lia|]. apply H1. exact Ha.
    + intros a Ha. unfold upd, at_cm. destruct (Nat.eqb_spec a (dN + 2)) as [->|N]; [destruct (Nat.eqb_spec (dN + 2) dN); [lia|reflexivity]|]. rewrite H2 by lia. unfold at_cm.
      destruct (Nat.eqb_spec a dN); [reflexivity|]. destruct (Nat.eqb_spec a (dN + 2)); [lia|reflexivity].
Qed.
Lemma block_split x y : same_block nv dN Cd K M x y <-> sames (bsep0 dN x) (bsep0 dN y) /\ same (bsep1 dN K x) (bsep1 dN K y).
Proof.
  split.
  - intros H. split; intros p Hp; [exact (H _ (sentry_b p Hp))|exact (H _ (entry_b p Hp))].
  - intros [H0 H1] p Hp. destruct (b_entry p Hp) as [[L Hq]|[L Hq]].
    + pose proof (H0 _ Hq) as E. unfold bsep0 in E. rewrite swap2 in E. exact E.
    + pose proof (H1 _ Hq) as E. unfold bsep1 in E. rewrite upd_same in E.
      replace (upd (upd p (dN + 2) (p (dN + 2)%nat - K)) (dN + 2) (K + (p (dN + 2)%nat - K))) with p in E; [exact E|].
      extensionality a. unfold upd. destruct (Nat.eqb_spec a (dN + 2)) as [->|]; [lia|reflexivity].
Qed.
(** A norm is zero exactly when the array is. *)
Lemma anorm_0 sh x : anorm dN sh x = 0 <-> forall p, (forall a, (a < dN + 3)%nat -> (p a < sh a)%nat) -> (forall a, (dN + 3 <= a)%nat -> p a = O) -> x p = 0.
Proof.
  unfold anorm. split.
  - intros H p H1 H2. apply sqrt_eq_0 in H; [|apply PcnProofs.rsum_nonneg; intros; nra].
    apply (rsum_sq_0 sh (seq 0 (dN + 3)) x (fun _ => O) H p); [intros a Ha; apply in_seq in Ha; apply H1; lia|]. intros a Ha. rewrite in_seq in Ha. apply H2. lia.
  - intros H. rewrite (PcnProofs.rsum_0 sh (seq 0 (dN + 3))); [apply sqrt_0|]. intros p H1 H2. rewrite H; [ring| |].
    + intros a Ha. apply H1. apply in_seq. lia.
    + intros a Ha. apply H2. rewrite in_seq. lia.
Qed.
Lemma anorm_nonneg sh x : 0 <= anorm dN sh x. Proof. apply sqrt_pos. Qed.
Lemma shape_b p : bentry nv dN Cd K M p <-> (forall a, (a < dN + 3)%nat -> (p a < bshape nv dN Cd K M a)%nat) /\ forall a, (dN + 3 <= a)%nat -> p a = O.
Proof.
  unfold bshape. split.
  - intros (c & j & Hc & Hj & H1 & H2). split.
    + intros a Ha. destruct (Nat.ltb_spec a dN); [apply H1; assumption|]. rewrite H2 by lia. unfold at_cm. destruct (Nat.eqb_spec a dN); [lia|]. destruct (Nat.eqb_spec a (dN + 2)); lia.
    + intros a Ha. rewrite H2 by lia. unfold at_cm. destruct (Nat.eqb_spec a dN); [lia|]. destruct (Nat.eqb_spec a (dN + 2)); [lia|reflexivity].
  - intros [H1 H2]. exists (p dN), (p (dN + 2)%nat). pose proof (H1 dN ltac:(lia)) as A. pose proof (H1 (dN + 1)%nat ltac:(lia)) as B. pose proof (H1 (dN + 2)%nat ltac:(lia)) as E.
    rewrite Nat.ltb_irrefl, Nat.eqb_refl in A. destruct (Nat.ltb_spec (dN + 1) dN); [lia|]. destruct (Nat.ltb_spec (dN + 2) dN); [lia|].
    destruct (Nat.eqb_spec (dN + 1) dN); [lia|]. destruct (Nat.eqb_spec (dN + 2) dN); [lia|]. destruct (Nat.eqb_spec (dN + 1) (dN + 2)); [lia|]. rewrite Nat.eqb_refl in E.
    split; [exact A|]. split; [exact E|]. split.
    + intros a Ha. specialize (H1 a ltac:(lia)). apply Nat.ltb_lt in Ha. rewrite Ha in H1. exact H1.
    + intros a Ha. unfold at_cm. destruct (Nat.eqb_spec a dN) as [->|]; [reflexivity|]. destruct (Nat.eqb_spec a (dN + 2)) as [->|]; [reflexivity|].
      destruct (Nat.eq_dec a (dN + 1)) as [->|]; [lia|]. apply H2. lia.
Qed.
Lemma shape_d p : entry nv dN Cd M p <-> (forall a, (a < dN + 3)%nat -> (p a < dshape nv dN Cd M a)%nat) /\ forall a, (dN + 3 <= a)%nat -> p a = O.
Proof.
  unfold dshape. split.
  - intros (c & j & Hc & Hj & H1 & H2). split.
    + intros a Ha. destruct (Nat.ltb_spec a dN); [apply H1; assumption|]. rewrite H2 by lia. unfold at_cm. destruct (Nat.eqb_spec a dN); [lia|]. destruct (Nat.eqb_spec a (dN + 2)); lia.
    + intros a Ha. rewrite H2 by lia. unfold at_cm. destruct (Nat.eqb_spec a dN); [lia|]. destruct (Nat.eqb_spec a (dN + 2)); [lia|reflexivity].
  - intros [H1 H2]. exists (p dN), (p (dN + 2)%nat). pose proof (H1 dN ltac:(lia)) as A. pose proof (H1 (dN + 1)%nat ltac:(lia)) as B. pose proof (H1 (dN + 2)%nat ltac:(lia)) as E.
    rewrite Nat.ltb_irrefl, Nat.eqb_refl in A. destruct (Nat.ltb_spec (dN + 1) dN); [lia|]. destruct (Nat.ltb_spec (dN + 2) dN); [lia|].
    destruct (Nat.eqb_spec (dN + 1) dN); [lia|]. destruct (Nat.eqb_spec (dN + 2) dN); [lia|]. destruct (Nat.eqb_spec (dN + 1) (dN + 2)); [lia|]. rewrite Nat.eqb_refl in E.
    split; [exact A|]. split; [exact E|]. split.
    + intros a Ha. specialize (H1 a ltac:(lia)). apply Nat.ltb_lt in Ha. rewrite Ha in H1. exact H1.
    + intros a Ha. unfold at_cm. destruct (Nat.eqb_spec a dN) as [->|]; [reflexivity|]. destruct (Nat.eqb_spec a (dN + 2)) as [->|]; [reflexivity|].
      destruct (Nat.eq_dec a (dN + 1)) as [->|]; [lia|]. apply H2. lia.
Qed.
Lemma shape_s p : sentry nv dN Cd K p <-> (forall a, (a < dN + 3)%nat -> (p a < sshape nv dN Cd K a)%nat) /\ forall a, (dN + 3 <= a)%nat -> p a = O.
Proof.
  unfold sshape. split.
  - intros (c & j & Hc & Hj & H1 & H2). split.
    + intros a Ha. destruct (Nat.ltb_spec a dN); [apply H1; assumption|]. rewrite H2 by lia. unfold at_ck. destruct (Nat.eqb_spec a dN); [lia|]. destruct (Nat.eqb_spec a (dN + 1)); lia.
    + intros a Ha. rewrite H2 by lia. unfold at_ck. destruct (Nat.eqb_spec a dN); [lia|]. destruct (Nat.eqb_spec a (dN + 1)); [lia|reflexivity].
  - intros [H1 H2]. exists (p dN), (p (dN + 1)%nat). pose proof (H1 dN ltac:(lia)) as A. pose proof (H1 (dN + 1)%nat ltac:(lia)) as B. pose proof (H1 (dN + 2)%nat ltac:(lia)) as E.
    rewrite Nat.ltb_irrefl, Nat.eqb_refl in A. destruct (Nat.ltb_spec (dN + 1) dN); [lia|]. destruct (Nat.ltb_spec (dN + 2) dN); [lia|].
    destruct (Nat.eqb_spec (dN + 1) dN); [lia|]. destruct (Nat.eqb_spec (dN + 2) dN); [lia|]. destruct (Nat.eqb_spec (dN + 2) (dN + 1)); [lia|]. rewrite Nat.eqb_refl in B.
    split; [exact A|]. split; [exact B|]. split.
    + intros a Ha. specialize (H1 a ltac:(lia)). apply Nat.ltb_lt in Ha. rewrite Ha in H1. exact H1.
    + intros a Ha. unfold at_ck. destruct (Nat.eqb_spec a dN) as [->|]; [reflexivity|]. destruct (Nat.eqb_spec a (dN + 1)) as [->|]; [reflexivity|].
      destruct (Nat.eq_dec a (dN + 2)) as [->|]; [lia|]. apply H2. lia.
Qed.
Lemma anorm_b x : anorm dN (bshape nv dN Cd K M) x = 0 <-> same_block nv dN Cd K M x (fun _ => 0).
Proof. rewrite anorm_0. split; intros H p; [intros Hp; apply shape_b in Hp; apply H; apply Hp|intros H1 H2; apply H; apply shape_b; split; assumption]. Qed.
Lemma anorm_d x : anorm dN (dshape nv dN Cd M) x = 0 <-> same x (fun _ => 0).
Proof. rewrite anorm_0. split; intros H p; [intros Hp; apply shape_d in Hp; apply H; apply Hp|intros H1 H2; apply H; apply shape_d; split; assumption]. Qed.
Lemma anorm_s x : anorm dN (sshape nv dN Cd K) x = 0 <-> sames x (fun _ => 0).
Proof. rewrite anorm_0. split; intros H p; [intros Hp; apply shape_s in Hp; apply H; apply Hp|intros H1 H2; apply H; apply shape_s; split; assumption]. Qed.
(** The squared norm of an array of signals. *)
Lemma anorm_sq x : anorm dN (sshape nv dN Cd K) x ^ 2 = sumn Cd (fun c => sumn K (fun k => total nv axes (fun q => sig dN x k q * sig dN x k q) (at_cm dN c 0))).
Proof.
  unfold anorm. rewrite pow2_sqrt by (apply PcnProofs.rsum_nonneg; intros; nra). rewrite rsum_fibers. cbn [seq rsum].
  replace (Datatypes.S dN) with (dN + 1)%nat by lia. replace (Datatypes.S (dN + 1)) with (dN + 2)%nat by lia.
  assert (E0 : sshape nv dN Cd K dN = Cd) by (unfold sshape; rewrite Nat.ltb_irrefl, Nat.eqb_refl; reflexivity).
  assert (E1 : sshape nv dN Cd K (dN + 1)%nat = K) by (unfold sshape; destruct (Nat.ltb_spec (dN + 1) dN); [lia|]; destruct (Nat.eqb_spec (dN + 1) dN); [lia|]; rewrite Nat.eqb_refl; reflexivity).
  assert (E2 : sshape nv dN Cd K (dN + 2)%nat = 1%nat) by (unfold sshape; destruct (Nat.ltb_spec (dN + 2) dN); [lia|]; destruct (Nat.eqb_spec (dN + 2) dN); [lia|]; destruct (Nat.eqb_spec (dN + 2) (dN + 1)); [lia|reflexivity]).
  rewrite E0, E1, E2. apply sumn_ext. intros c _. apply sumn_ext. intros k _. cbn [sumn]. rewrite Rplus_0_l.
  etransitivity; [apply (rsum_shape (sshape nv dN Cd K) nv)|].
  { intros a Ha. apply in_seq in Ha. unfold sshape. destruct (Nat.ltb_spec a dN); [reflexivity|lia]. }
  rewrite <- total_rsum. etransitivity; [|symmetry; apply (total_move nv axes (kv k) (fun p => x p * x p))].
  - f_equal. extensionality a. unfold kv, set_at, upd, at_cm. destruct (Nat.eqb_spec a (dN + 2)); [reflexivity|]. destruct (Nat.eqb_spec a (dN + 1)); [reflexivity|]. reflexivity.
  - intros a j p Ha. apply in_seq in Ha. unfold kv. rewrite (set_comm p a (dN + 1)), (set_comm _ a (dN + 2)) by lia. reflexivity.
Qed.
End positions.

Section main.
Variables (nv : nat -> nat) (dN dC Cd K M : nat) (dsz : CnvrepModel.dsize) (zm : bool) (Z S : index -> R) (wsh : nat -> nat) (W : index -> R).
Hypothesis OK : ccm_ok nv dN dC Cd K dsz zm.
Notation axes := (seq 0 dN).
Notation ons c m := (on_slice nv axes (at_cm dN c m)).
Notation same := (same_dict nv dN Cd M).
Notation sames := (same_sig nv dN Cd K).
Notation sameb := (same_block nv dN Cd K M).
Notation cP := (cPcn nv dN dC Cd M dsz zm).
Notation sdot := (sdot nv dN Cd M).
Notation pdot := (pdot nv dN Cd).
Notation mfit := (mfit nv dN Cd K M Z S wsh W).
Notation msk := (mask dN wsh W).
Notation recon := (recon nv dN M Z).
Notation critical := (critical_for nv dN Cd M dsz zm).
Let HN := proj1 OK.
Let Hs := proj1 (proj2 OK).
Let HK := proj1 (proj2 (proj2 OK)).
Lemma mfit_mf d : mfit d = mf nv dN Cd M K (coef dN Z) msk (sig dN S) d. Proof. reflexivity. Qed.
Lemma msk_at k q : Wv wsh W (kv dN k q) = msk k q. Proof. reflexivity. Qed.

(** The gradient of the masked fit. *)
Definition slope (d z : index -> R) : R := pdot K (fun k p => msk k p * msk k p * (recon d k p - sig dN S k p)) (recon z).
Lemma core b d u : 0 < b -> (forall z, - (b * sdot u z) = slope d z) -> (critical mfit b d <-> same (cP (fun p => d p + u p)) d).
Proof.
  intros Hb Hu.
  assert (E : (fun p : index => d p + u p) = (fun p => d p - / b * (- b * u p + 0 * u p))) by (extensionality p; field; lra). rewrite E.
  apply (crit_gen nv dN dC Cd K M dsz zm OK mfit b d (fun p => - b * u p + 0 * u p) Hb).
  - intros X. rewrite sdot_lin_l. pose proof (mf_at nv dN Cd M K (coef dN Z) msk (sig dN S) d X) as G. rewrite !mfit_mf.
    pose proof (Hu (fun p => X p - d p)) as H. unfold slope, MduSpec.recon, spat in H. cbv beta in H, G.
    set (P := MduProofs.pdot _ _ _ _ _ _) in *. clearbody P. lra.
  - intros z l1 l2 H1 H2. rewrite (mf_slope nv dN Cd M K (coef dN Z) msk (sig dN S) d z l1 H1), (mf_slope nv dN Cd M K (coef dN Z) msk (sig dN S) d z l2 H2). reflexivity.
Qed.
Lemma slope_ext d e z : same d e -> slope d z = slope e z.
Proof.
  intros E. apply pdot_ext; [|reflexivity]. intros c k p Hc Hk Hp. f_equal. f_equal. apply (sy_same nv dN Cd M HN Hs K (coef dN Z) HK d e c k p Hc E Hp).
Qed.
Lemma crit_same b d e : 0 < b -> same d e -> critical mfit b d -> critical mfit b e.
Proof.
  intros Hb E (L & U & lam & Hl & Hc). pose proof (same_refl nv dN Cd M) as Rf. split; [apply (lin_same nv dN Cd M dsz zm d); assumption|]. split.
  - intros m Hm. rewrite <- (fdot_ext nv dN Cd M d d e e m Hm E E). apply U. exact Hm.
  - exists lam. split; [exact Hl|]. intros x Lx. specialize (Hc x Lx).
    assert (EF : mfit e = mfit d).
    { apply sumn_ext. intros c Hcd. f_equal. apply sumn_ext. intros k Hk. unfold sqn. apply CscIterProofs.total_ext; [apply ND0|]. intros p Hp.
      unfold MduSpec.recon, spat. rewrite (sy_same nv dN Cd M HN Hs K (coef dN Z) HK d e c k p Hcd E Hp). reflexivity. }
    rewrite EF. eapply Rle_trans; [|exact Hc]. apply Req_le. f_equal. apply sumn_ext. intros m Hm.
    rewrite <- (fdot_ext nv dN Cd M d d e e m Hm E E), <- (fdot_ext nv dN Cd M d x e x m Hm E (Rf x)). reflexivity.
Qed.

(** ** ConvCnstrMODMaskDcpl_IterSM *)
Notation xf Y U := (mdu_xf nv dN K M Z S Y U).
Notation ax Y U := (mdu_axnr nv dN K M Z S Y U).
Notation s0 := (bsep0 dN).
Notation s1 := (bsep1 dN K).
Lemma mdu_solves Y U : solves_eq nv dN M K (coef dN Z) (sig dN (mdu_sig dN S Y U)) 1 (fun p => s1 Y p - s1 U p) (xf Y U).
Proof. apply (ism_solves nv dN dC Cd K M dsz zm Z (mdu_sig dN S Y U) OK 1 (s1 Y) (s1 U) Rlt_0_1). Qed.
Lemma sig_ltK k (q : index) : (k < K)%nat -> (kv dN k q (dN + 1)%nat < K)%nat. Proof. intros H. rewrite kv_k. exact H. Qed.
Lemma mA0_recon Y U c k q : (c < Cd)%nat -> ons c 0 q -> mA0 nv dN M Z (xf Y U) (kv dN k q) = recon (mdu_x nv dN K M Z S Y U) k q.
Proof.
  intros Hc Hq. unfold mA0. rewrite (kv_k dN), (off_kv nv dN c) by exact Hq.
  exact (sy_spec nv dN Cd M HN Hs K (coef dN Z) HK _ _ (xf Y U) c k q Hc (mdu_solves Y U) Hq).
Qed.

(** The x-step minimises the augmented Lagrangian. *)
Theorem C82_xstep Y U X : let x := mdu_x nv dN K M Z S Y U in let T := mdu_sig dN S Y U in
  fit nv dN Cd K M Z T x + / 2 * sq_dist nv dN Cd M x (fun p => s1 Y p - s1 U p) + / 2 * sq_dist nv dN Cd M X x <=
  fit nv dN Cd K M Z T X + / 2 * sq_dist nv dN Cd M X (fun p => s1 Y p - s1 U p).
Proof.
  intros x T. pose proof (C80_xstep_ism nv dN dC Cd K M dsz zm Z T OK 1 (s1 Y) (s1 U) X Rlt_0_1) as H. cbv zeta in H. unfold Rdiv in H. rewrite Rmult_1_l in H. exact H.
Qed.
(** The recorded data fidelity is the masked fit of the x-step's dictionary. *)
Theorem C82_dfid Y U : mdu_dfid nv dN Cd K M Z S wsh W Y U = mfit (mdu_x nv dN K M Z S Y U).
Proof.
  unfold mdu_dfid. rewrite anorm_sq. unfold Rdiv. rewrite Rmult_comm. unfold MduSpec.mfit. rewrite <- sumn_scal. apply sumn_ext. intros c Hc. f_equal. apply sumn_ext. intros k Hk.
  unfold sqn. apply CscIterProofs.total_ext; [apply ND0|]. intros p Hp. unfold sig. change (set_at (set_at p (dN + 1) k) (dN + 2) 0) with (kv dN k p).
  rewrite msk_at, (mA0_recon Y U c k p Hc Hp). reflexivity.
Qed.

(** What an iteration leaves behind: the dual variable of the first block is the mask squared times the block over rho, and the second
    block is the projection of its sum with its dual variable. *)
Lemma W_pos p rho : 0 < rho -> 0 < Wv wsh W p ^ 2 + rho. Proof. intros H. pose proof (pow2_ge_0 (Wv wsh W p)). lra. Qed.
Lemma after_0 rho rlx Y U : 0 < rho -> sames (fun p => rho * s0 (mdu_u nv dN dC Cd K M dsz zm Z S wsh W rho rlx Y U) p) (fun p => Wv wsh W p ^ 2 * s0 (mdu_y nv dN dC Cd K M dsz zm Z S wsh W rho rlx Y U) p).
Proof.
  intros Hr. apply sames_at. intros c k q Hc Hk Hq. unfold sig. change (set_at (set_at q (dN + 1) k) (dN + 2) 0) with (kv dN k q).
  pose proof (sig_ltK k q Hk) as L. set (p := kv dN k q) in *. pose proof (W_pos p rho Hr) as Wp.
  assert (EY : s0 (mdu_y nv dN dC Cd K M dsz zm Z S wsh W rho rlx Y U) p = rho * (s0 (mdu_ax nv dN K M Z S rlx Y U) p + s0 U p - S p) / (Wv wsh W p ^ 2 + rho)).
  { unfold mdu_y. cbv zeta. rewrite sep0_cat by exact L. reflexivity. }
  assert (EU : s0 (mdu_u nv dN dC Cd K M dsz zm Z S wsh W rho rlx Y U) p = s0 U p + (s0 (mdu_ax nv dN K M Z S rlx Y U) p - (s0 (mdu_y nv dN dC Cd K M dsz zm Z S wsh W rho rlx Y U) p + S p))).
  { unfold mdu_u, mdu_rsdl. unfold bsep0 at 1. cbv beta. change (bcat dN K ?a ?b (swapKM dN p)) with (s0 (bcat dN K a b) p). rewrite sep0_cat by exact L. reflexivity. }
  rewrite EU, EY. field. lra.
Qed.
Lemma after_1 rho rlx Y U : same (cP (fun p => s1 (mdu_y nv dN dC Cd K M dsz zm Z S wsh W rho rlx Y U) p + s1 (mdu_u nv dN dC Cd K M dsz zm Z S wsh W rho rlx Y U) p)) (s1 (mdu_y nv dN dC Cd K M dsz zm Z S wsh W rho rlx Y U)).
Proof.
  apply same_trans with (cP (s1 (fun p => mdu_ax nv dN K M Z S rlx Y U p + U p))).
  - apply (cP_ext nv dN dC Cd K M dsz zm OK). intros p _. unfold mdu_u, mdu_rsdl. unfold bsep1 at 2. cbv beta. change (bcat dN K ?a ?b (upd p (dN + 2) (K + p (dN + 2)%nat))) with (s1 (bcat dN K a b) p).
    rewrite sep1_cat. unfold bsep1. ring.
  - intros p _. symmetry. unfold mdu_y. cbv zeta. apply sep1_cat.
Qed.
(** Residuals as arrays. *)
Lemma res_split Y U Y' : sameb (mdu_rsdl dN K S (ax Y U) Y') (fun _ => 0) <->
  (forall c k q, (c < Cd)%nat -> (k < K)%nat -> ons c 0 q -> recon (mdu_x nv dN K M Z S Y U) k q = sig dN (s0 Y') k q + sig dN S k q) /\ same (mdu_x nv dN K M Z S Y U) (s1 Y').
Proof.
  rewrite block_split. rewrite sames_at.
  assert (E0 : forall c k q, (c < Cd)%nat -> (k < K)%nat -> ons c 0 q -> sig dN (s0 (mdu_rsdl dN K S (ax Y U) Y')) k q = recon (mdu_x nv dN K M Z S Y U) k q - (sig dN (s0 Y') k q + sig dN S k q)).
  { intros c k q Hc Hk Hq. unfold sig. change (set_at (set_at q (dN + 1) k) (dN + 2) 0) with (kv dN k q). pose proof (sig_ltK k q Hk) as L.
    unfold mdu_rsdl, mdu_axnr. unfold bsep0 at 1. cbv beta. change (bcat dN K ?a ?b (swapKM dN (kv dN k q))) with (s0 (bcat dN K a b) (kv dN k q)). rewrite !sep0_cat by exact L.
    rewrite (mA0_recon Y U c k q Hc Hq). reflexivity. }
  assert (E1 : forall p, s1 (mdu_rsdl dN K S (ax Y U) Y') p = mdu_x nv dN K M Z S Y U p - (s1 Y' p + 0)).
  { intros p. unfold mdu_rsdl, mdu_axnr. unfold bsep1 at 1. cbv beta. change (bcat dN K ?a ?b (upd p (dN + 2) (K + p (dN + 2)%nat))) with (s1 (bcat dN K a b) p). rewrite !sep1_cat. reflexivity. }
  split; intros [H0 H1]; split.
  - intros c k q Hc Hk Hq. specialize (H0 c k q Hc Hk Hq). rewrite (E0 c k q Hc Hk Hq) in H0. unfold sig at 3 in H0. unfold bsep0 at 2 in H0. lra.
  - intros p Hp. specialize (H1 p Hp). rewrite E1 in H1. unfold bsep1 at 2 in H1. lra.
  - intros c k q Hc Hk Hq. rewrite (E0 c k q Hc Hk Hq), (H0 c k q Hc Hk Hq). unfold sig at 5. unfold bsep0. ring.
  - intros p Hp. rewrite E1, (H1 p Hp). unfold bsep1. ring.
Qed.
Lemma adj_at V z : sdot (mA0T nv dN K Z V) z = pdot K (sig dN V) (recon z).
Proof. exact (adj_sy nv dN Cd M HN Hs K (coef dN Z) HK (sig dN V) z). Qed.
Lemma adj_zero u v : (forall z, - sdot u z = sdot v z) <-> same (fun p => v p + u p) (fun _ => 0).
Proof.
  assert (E : forall z, sdot (fun p => v p + u p) z = sdot v z + sdot u z).
  { intros z. transitivity (sdot (fun p => 1 * v p + 1 * u p) z); [f_equal; extensionality p; ring|]. rewrite sdot_lin_l. ring. }
  split.
  - intros H. apply (sdot_zero nv dN Cd M). rewrite E, <- H. ring.
  - intros H z. pose proof (eq_trans (eq_sym (E z)) (sdot_ext nv dN Cd M (fun p => v p + u p) (fun _ => 0) z z H (same_refl nv dN Cd M z))) as E1.
    assert (E0 : sdot (fun _ => 0) z = 0). { transitivity (sdot (fun p => 0 * v p + 0 * u p) z); [f_equal; extensionality p; ring|]. rewrite sdot_lin_l. ring. }
    pose proof (eq_trans E1 E0) as E2. lra.
Qed.

(** If the residuals of an iteration are zero then its dictionary satisfies the first order condition of the masked problem. *)
Lemma crit_of_res rho Y' U' x : 0 < rho -> sames (fun p => rho * s0 U' p) (fun p => Wv wsh W p ^ 2 * s0 Y' p) -> same (cP (fun p => s1 Y' p + s1 U' p)) (s1 Y') ->
  (forall c k q, (c < Cd)%nat -> (k < K)%nat -> ons c 0 q -> recon x k q = sig dN (s0 Y') k q + sig dN S k q) -> same x (s1 Y') ->
  (forall z, - sdot (s1 U') z = pdot K (sig dN (s0 U')) (recon z)) -> critical mfit rho (s1 Y').
Proof.
  intros Hr H0 H1 H2 Hx Hz. apply (core rho (s1 Y') (s1 U') Hr); [|exact H1]. intros z. rewrite sames_at in H0.
  transitivity (rho * - sdot (s1 U') z); [ring|]. rewrite Hz.
  transitivity (pdot K (fun k p => rho * sig dN (s0 U') k p + 0 * sig dN (s0 U') k p) (recon z)); [rewrite pdot_lin; ring|].
  apply pdot_ext; [|reflexivity]. intros c k p Hc Hk Hp. specialize (H0 c k p Hc Hk Hp). specialize (H2 c k p Hc Hk Hp).
  assert (E : recon (s1 Y') k p = recon x k p) by (symmetry; apply (sy_same nv dN Cd M HN Hs K (coef dN Z) HK x (s1 Y') c k p Hc Hx Hp)).
  rewrite E, H2. unfold sig at 1 in H0. unfold sig at 1 in H0. change (set_at (set_at p (dN + 1) k) (dN + 2) 0) with (kv dN k p) in H0. rewrite msk_at in H0.
  change (s0 U' (kv dN k p)) with (sig dN (s0 U') k p) in H0. change (s0 Y' (kv dN k p)) with (sig dN (s0 Y') k p) in H0.
  transitivity (rho * sig dN (s0 U') k p); [ring|]. rewrite H0. ring.
Qed.
Theorem C82_residual rho rlx Y U : 0 < rho ->
  mdu_r nv dN dC Cd K M dsz zm Z S wsh W rho rlx Y U = 0 -> mdu_s nv dN dC Cd K M dsz zm Z S wsh W rho rlx Y U = 0 ->
  critical mfit rho (s1 (mdu_y nv dN dC Cd K M dsz zm Z S wsh W rho rlx Y U)).
Proof.
  intros Hr R0 S0. set (Y' := mdu_y _ _ _ _ _ _ _ _ _ _ _ _ _ _ _ _) in *. set (U' := mdu_u nv dN dC Cd K M dsz zm Z S wsh W rho rlx Y U).
  unfold mdu_r in R0. fold Y' in R0. apply anorm_b in R0. apply res_split in R0. destruct R0 as [R1 R2].
  unfold mdu_s in S0. cbv zeta in S0. fold U' in S0. apply Rmult_integral in S0. destruct S0 as [S0|S0]; [lra|]. apply anorm_d in S0.
  apply (crit_of_res rho Y' U' (mdu_x nv dN K M Z S Y U) Hr); [apply after_0; exact Hr|apply after_1|exact R1|exact R2|].
  intros z. rewrite <- adj_at. revert z. apply adj_zero. exact S0.
Qed.
(** A state is left unchanged by an iteration for some value of the other variables exactly when its dictionary satisfies the first
    order condition; its residuals are then zero. *)
Lemma fixed_parts rho rlx Y U : rlx <> 0 -> sameb (mdu_y nv dN dC Cd K M dsz zm Z S wsh W rho rlx Y U) Y -> sameb (mdu_u nv dN dC Cd K M dsz zm Z S wsh W rho rlx Y U) U ->
  sameb (mdu_rsdl dN K S (ax Y U) Y) (fun _ => 0).
Proof.
  intros Hx EY EU p Hp. specialize (EU p Hp). unfold mdu_u, mdu_rsdl, mdu_ax in EU.
  pose proof (proj1 (block_split nv dN Cd K M _ _) EY) as [Y0 Y1]. unfold mdu_rsdl.
  assert (E : bcat dN K (fun q => s0 (mdu_y nv dN dC Cd K M dsz zm Z S wsh W rho rlx Y U) q + S q) (fun q => s1 (mdu_y nv dN dC Cd K M dsz zm Z S wsh W rho rlx Y U) q + 0) p = bcat dN K (fun q => s0 Y q + S q) (fun q => s1 Y q + 0) p).
  { unfold bcat. destruct (b_entry nv dN Cd K M p Hp) as [[L Hq]|[L Hq]].
    - apply Nat.ltb_lt in L. rewrite L, (Y0 _ Hq). reflexivity.
    - apply Nat.ltb_ge in L. rewrite L, (Y1 _ Hq). reflexivity. }
  assert (E' : bcat dN K (fun q => s0 Y q + S q) (s1 Y) p = bcat dN K (fun q => s0 Y q + S q) (fun q => s1 Y q + 0) p).
  { unfold bcat. destruct (Nat.ltb _ _); [reflexivity|ring]. }
  rewrite E, E' in EU. apply (Rmult_eq_reg_l rlx); [|exact Hx]. lra.
Qed.
Theorem C82_ism rho rlx d : 0 < rho -> rlx <> 0 ->
  ((exists Y U, same (s1 Y) d /\ sameb (mdu_y nv dN dC Cd K M dsz zm Z S wsh W rho rlx Y U) Y /\ sameb (mdu_u nv dN dC Cd K M dsz zm Z S wsh W rho rlx Y U) U) <-> critical mfit rho d).
Proof.
  intros Hr Hx. split.
  - intros (Y & U & Ed & EY & EU). pose proof (fixed_parts rho rlx Y U Hx EY EU) as R. apply res_split in R. destruct R as [R1 R2].
    pose proof (proj1 (block_split nv dN Cd K M _ _) EY) as [Y0 Y1]. pose proof (proj1 (block_split nv dN Cd K M _ _) EU) as [U0 U1].
    apply (crit_same rho (s1 Y) d Hr Ed). apply (crit_of_res rho Y U (mdu_x nv dN K M Z S Y U) Hr).
    + intros p Hp. pose proof (after_0 rho rlx Y U Hr p Hp) as A. cbv beta in A. rewrite (Y0 p Hp), (U0 p Hp) in A. exact A.
    + apply same_trans with (s1 (mdu_y nv dN dC Cd K M dsz zm Z S wsh W rho rlx Y U)); [|exact Y1]. eapply same_trans; [|apply after_1]. apply (cP_ext nv dN dC Cd K M dsz zm OK).
      intros p Hp. rewrite (Y1 p Hp), (U1 p Hp). reflexivity.
    + exact R1.
    + exact R2.
    + intros z. pose proof (proj1 (fixed_ch nv dN Cd M HN Hs K (coef dN Z) HK (sig dN (mdu_sig dN S Y U)) (s1 U) (s1 Y) (xf Y U) (mdu_solves Y U)) R2 z) as F. etransitivity; [exact F|].
      apply pdot_ext; [|reflexivity]. intros c k p Hc Hk Hp.
      pose proof (sy_same nv dN Cd M HN Hs K (coef dN Z) HK (mdu_x nv dN K M Z S Y U) (s1 Y) c k p Hc R2 Hp) as E. rewrite <- E.
      pose proof (R1 c k p Hc Hk Hp) as E2. unfold MduSpec.recon, spat in E2. rewrite E2. unfold sig, mdu_sig. ring.
  - intros Hc. set (y0 := fun p : index => recon d (p (dN + 1)%nat) (offKM dN p) - S p). set (u0 := fun p => Wv wsh W p ^ 2 * y0 p / rho).
    set (u1 := fun p => - mA0T nv dN K Z u0 p). set (Y := bcat dN K y0 d). set (U := bcat dN K u0 u1). exists Y, U.
    assert (Sy0 : forall c k q, ons c 0 q -> sig dN y0 k q = recon d k q - sig dN S k q).
    { intros c k q Hq. unfold sig at 1. change (set_at (set_at q (dN + 1) k) (dN + 2) 0) with (kv dN k q). unfold y0. rewrite (kv_k dN), (off_kv nv dN c) by exact Hq. reflexivity. }
    assert (Ey0 : forall k q, (k < K)%nat -> sig dN (s0 Y) k q = sig dN y0 k q) by (intros k q Hk; exact (sep0_cat dN K _ _ (kv dN k q) (sig_ltK k q Hk))).
    assert (Eu0 : forall k q, (k < K)%nat -> sig dN (s0 U) k q = sig dN u0 k q) by (intros k q Hk; exact (sep0_cat dN K _ _ (kv dN k q) (sig_ltK k q Hk))).
    assert (Ey1 : s1 Y = d) by (extensionality p; apply sep1_cat). assert (Eu1 : s1 U = u1) by (extensionality p; apply sep1_cat).
    assert (Adj : forall z, - sdot u1 z = pdot K (sig dN u0) (recon z)).
    { intros z. rewrite <- adj_at. revert z. apply adj_zero. intros p _. unfold u1. ring. }
    assert (Ex : same (mdu_x nv dN K M Z S Y U) d).
    { rewrite <- Ey1. apply (fixed_ch nv dN Cd M HN Hs K (coef dN Z) HK (sig dN (mdu_sig dN S Y U)) (s1 U) (s1 Y) (xf Y U) (mdu_solves Y U)). intros z. rewrite Eu1, Ey1, Adj.
      apply pdot_ext; [|reflexivity]. intros c k p Hcd Hk Hp. transitivity (recon d k p - (sig dN (s0 Y) k p - sig dN (s0 U) k p + sig dN S k p)); [|reflexivity].
      rewrite (Ey0 k p Hk), (Eu0 k p Hk), (Sy0 c k p Hp). ring. }
    assert (R : sameb (mdu_rsdl dN K S (ax Y U) Y) (fun _ => 0)).
    { apply res_split. rewrite Ey1. split; [|exact Ex]. intros c k q Hcd Hk Hq. rewrite (Ey0 k q Hk), (Sy0 c k q Hq).
      transitivity (recon d k q); [|ring]. apply (sy_same nv dN Cd M HN Hs K (coef dN Z) HK _ d c k q Hcd Ex Hq). }
    assert (EA : sameb (mdu_ax nv dN K M Z S rlx Y U) (bcat dN K (fun q => s0 Y q + S q) (s1 Y))).
    { intros p Hp. specialize (R p Hp). unfold mdu_rsdl in R. unfold mdu_ax.
      assert (E' : bcat dN K (fun q => s0 Y q + S q) (s1 Y) p = bcat dN K (fun q => s0 Y q + S q) (fun q => s1 Y q + 0) p) by (unfold bcat; destruct (Nat.ltb _ _); [reflexivity|ring]).
      rewrite E'. replace (ax Y U p) with (bcat dN K (fun q => s0 Y q + S q) (fun q => s1 Y q + 0) p) by lra. ring. }
    apply block_split in EA. destruct EA as [EA0 EA1].
    assert (EY : sameb (mdu_y nv dN dC Cd K M dsz zm Z S wsh W rho rlx Y U) Y).
    { apply block_split. split.
      - intros p Hp. destruct (sentry_kv nv dN Cd K p Hp) as (c & k & q & Hcd & Hk & Hq & Ep). assert (L : (p (dN + 1)%nat < K)%nat) by (rewrite Ep; apply sig_ltK; exact Hk).
        unfold mdu_y. cbv zeta. rewrite sep0_cat by exact L. pose proof (EA0 p Hp) as A. rewrite sep0_cat in A by exact L.
        change (s0 (fun p0 => mdu_ax nv dN K M Z S rlx Y U p0 + U p0) p) with (s0 (mdu_ax nv dN K M Z S rlx Y U) p + s0 U p). rewrite A.
        unfold Y, U. rewrite !sep0_cat by exact L. unfold u0. pose proof (W_pos p rho Hr). field. split; lra.
      - apply same_trans with d; [|rewrite Ey1; apply same_refl]. apply same_trans with (cP (fun p => d p + u1 p)).
        + eapply same_trans; [intros p _; unfold mdu_y; cbv zeta; apply sep1_cat|]. apply (cP_ext nv dN dC Cd K M dsz zm OK). intros p Hp.
          change (s1 (fun p0 => mdu_ax nv dN K M Z S rlx Y U p0 + U p0) p) with (s1 (mdu_ax nv dN K M Z S rlx Y U) p + s1 U p). rewrite (EA1 p Hp), sep1_cat, Ey1, Eu1. reflexivity.
        + apply (core rho d u1 Hr); [|exact Hc]. intros z. transitivity (rho * - sdot u1 z); [ring|]. rewrite Adj.
          transitivity (pdot K (fun k p => rho * sig dN u0 k p + 0 * sig dN u0 k p) (recon z)); [rewrite pdot_lin; ring|]. apply pdot_ext; [|reflexivity]. intros c k p Hcd Hk Hp.
          rewrite <- (Sy0 c k p Hp). unfold u0. unfold sig. change (set_at (set_at p (dN + 1) k) (dN + 2) 0) with (kv dN k p). rewrite msk_at. field. lra. }
    split; [rewrite Ey1; apply same_refl|]. split; [exact EY|]. pose proof (proj1 (block_split nv dN Cd K M _ _) EY) as [Y0 Y1]. apply block_split. split.
    + intros p Hp. destruct (sentry_kv nv dN Cd K p Hp) as (c & k & q & Hcd & Hk & Hq & Ep). assert (L : (p (dN + 1)%nat < K)%nat) by (rewrite Ep; apply sig_ltK; exact Hk).
      pose proof (EA0 p Hp) as A. rewrite sep0_cat in A by exact L. transitivity (s0 U p + (s0 (mdu_ax nv dN K M Z S rlx Y U) p - s0 (bcat dN K (fun q => s0 (mdu_y nv dN dC Cd K M dsz zm Z S wsh W rho rlx Y U) q + S q) (fun q => s1 (mdu_y nv dN dC Cd K M dsz zm Z S wsh W rho rlx Y U) q + 0)) p)); [reflexivity|].
      rewrite sep0_cat by exact L. rewrite A, (Y0 p Hp). ring.
    + intros p Hp. pose proof (EA1 p Hp) as A. rewrite sep1_cat in A. transitivity (s1 U p + (s1 (mdu_ax nv dN K M Z S rlx Y U) p - s1 (bcat dN K (fun q => s0 (mdu_y nv dN dC Cd K M dsz zm Z S wsh W rho rlx Y U) q + S q) (fun q => s1 (mdu_y nv dN dC Cd K M dsz zm Z S wsh W rho rlx Y U) q + 0)) p)); [reflexivity|].
      rewrite sep1_cat, A, (Y1 p Hp). ring.
Qed.
(** At such a state both residuals are zero, so that it meets every stopping tolerance. *)
Theorem C82_fixed_residual rho rlx Y U : 0 < rho -> rlx <> 0 ->
  sameb (mdu_y nv dN dC Cd K M dsz zm Z S wsh W rho rlx Y U) Y -> sameb (mdu_u nv dN dC Cd K M dsz zm Z S wsh W rho rlx Y U) U ->
  mdu_r nv dN dC Cd K M dsz zm Z S wsh W rho rlx Y U = 0 /\ mdu_s nv dN dC Cd K M dsz zm Z S wsh W rho rlx Y U = 0.
Proof.
  intros Hr Hx EY EU. pose proof (fixed_parts rho rlx Y U Hx EY EU) as R. pose proof (proj1 (res_split Y U Y) R) as [R1 R2].
  pose proof (proj1 (block_split nv dN Cd K M _ _) EY) as [Y0 Y1]. pose proof (proj1 (block_split nv dN Cd K M _ _) EU) as [U0 U1]. split.
  - apply anorm_b. apply res_split. split.
    + intros c k q Hc Hk Hq. rewrite (R1 c k q Hc Hk Hq). f_equal. symmetry. exact (proj1 (sames_at nv dN Cd K _ _) Y0 c k q Hc Hk Hq).
    + apply same_trans with (s1 Y); [exact R2|]. apply same_sym. exact Y1.
  - unfold mdu_s. cbv zeta. apply Rmult_eq_0_compat_l. apply anorm_d. apply adj_zero. intros z. rewrite adj_at.
    transitivity (- sdot (s1 U) z); [f_equal; apply sdot_ext; [exact U1|apply same_refl]|].
    pose proof (proj1 (fixed_ch nv dN Cd M HN Hs K (coef dN Z) HK (sig dN (mdu_sig dN S Y U)) (s1 U) (s1 Y) (xf Y U) (mdu_solves Y U)) R2 z) as F. etransitivity; [exact F|].
    apply pdot_ext; [|reflexivity]. intros c k p Hc Hk Hp. rewrite (proj1 (sames_at nv dN Cd K _ _) U0 c k p Hc Hk Hp).
    pose proof (sy_same nv dN Cd M HN Hs K (coef dN Z) HK (mdu_x nv dN K M Z S Y U) (s1 Y) c k p Hc R2 Hp) as E. rewrite <- E.
    pose proof (R1 c k p Hc Hk Hp) as E2. unfold MduSpec.recon, spat in E2. rewrite E2. unfold sig, mdu_sig. ring.
Qed.

(** ** ConvCnstrMODMaskDcpl_Consensus *)
Notation cx k Y U Y1 U1 := (mcns_x nv dN M Z S k Y (U k) Y1 U1).
Notation cy rlx Y U Y1 U1 := (mcns_y nv dN dC Cd K M dsz zm Z S rlx Y U Y1 U1).
Notation cu rlx Y U Y1 U1 := (mcns_u nv dN dC Cd K M dsz zm Z S rlx Y U Y1 U1).
Notation cy1 rho rlx Y U Y1 U1 := (mcns_y1 nv dN M Z S wsh W rho rlx Y U Y1 U1).
Notation cu1 rho rlx Y U Y1 U1 := (mcns_u1 nv dN M Z S wsh W rho rlx Y U Y1 U1).
Notation cf k := (fun _ : nat => coef dN Z k).
Definition csig (Y1 U1 : index -> R) : index -> R := fun p => Y1 p - U1 p + S p.
Lemma mcns_solves k Y Uk Y1 U1 : solves_eq nv dN M 1 (cf k) (fun _ => sig dN (csig Y1 U1) k) 1 (fun p => Y p - Uk p) (mcns_xf nv dN M Z S k Y Uk Y1 U1).
Proof.
  intros i m Hm. unfold mcns_xf. etransitivity; [apply (dbi_sys M (fun _ => 1) (fun _ _ => Rlt_0_1) (fun m => Zf nv dN Z k m i) 1); [reflexivity|exact Hm]|].
  cbv beta. unfold rhs. rewrite csumn_S, csumn_O.
  assert (E : CscModel.Sf nv axes (fun _ => sig dN (csig Y1 U1) k) 0 i = cadd (Sfk nv dN S k i) (rfftn nv (axN dN) (Sk dN (fun p => Y1 p - U1 p) k) i)).
  { unfold CscModel.Sf, Sfk. transitivity (rfftn nv axes (fun p => 1 * sig dN S k p + 1 * Sk dN (fun p => Y1 p - U1 p) k p) i).
    - apply (f_equal (fun h => rfftn nv axes h i)). extensionality p. unfold sig, csig, Sk. change (upd (upd p (dN + 1) k) (dN + 2) 0) with (set_at (set_at p (dN + 1) k) (dN + 2) 0). ring.
    - rewrite rfftn_lin by exact (ax_ne nv dN HN Hs K HK). assert (E0 : forall a b : C, cadd (cmul (ofR 1) a) (cmul (ofR 1) b) = cadd a b) by (intros a b; change (ofR 1) with c1; ring). rewrite E0. reflexivity. }
  rewrite E. assert (E2 : forall a b : C, cadd a b = cadd (cadd c0 a) b) by (intros; ring). apply E2.
Qed.
Lemma cax1_recon Y U Y1 U1 c k q : (c < Cd)%nat -> ons c 0 q -> mcns_ax1nr nv dN M Z S Y U Y1 U1 (kv dN k q) = recon (cx k Y U Y1 U1) k q.
Proof.
  intros Hc Hq. unfold mcns_ax1nr. cbv zeta. rewrite (kv_k dN), (off_kv nv dN c) by exact Hq.
  exact (sy_spec nv dN Cd M HN Hs 1 (cf k) Nat.lt_0_1 _ _ (mcns_xf nv dN M Z S k Y (U k) Y1 U1) c k q Hc (mcns_solves k Y (U k) Y1 U1) Hq).
Qed.
Lemma pdot_split u v : pdot K u v = sumn K (fun k => pdot 1 (fun _ => u k) (fun _ => v k)).
Proof. unfold MduProofs.pdot. rewrite sumn_swap. apply sumn_ext. intros k _. apply sumn_ext. intros c _. cbn [sumn]. ring. Qed.
Lemma sdot_sum u z n : sdot (fun p => sumn n (fun k => u k p)) z = sumn n (fun k => sdot (u k) z).
Proof.
  induction n as [|n IH]; cbn [sumn].
  - transitivity (sdot (fun p => 0 * z p + 0 * z p) z); [f_equal; extensionality p; ring|rewrite sdot_lin_l; ring].
  - rewrite <- IH. transitivity (sdot (fun p => 1 * sumn n (fun k => u k p) + 1 * u n p) z); [f_equal; extensionality p; ring|rewrite sdot_lin_l; ring].
Qed.
(** The x-step of a block, and what an iteration leaves behind. *)
Theorem C82_xstep_cns k Y U Y1 U1 X : let x := cx k Y U Y1 U1 in let T := csig Y1 U1 in
  fit1 nv dN Cd M Z T k x + / 2 * sq_dist nv dN Cd M x (fun p => Y p - U k p) + / 2 * sq_dist nv dN Cd M X x <=
  fit1 nv dN Cd M Z T k X + / 2 * sq_dist nv dN Cd M X (fun p => Y p - U k p).
Proof.
  intros x T. rewrite !(fit1_gf nv dN Cd M Z T).
  pose proof (fit_strong nv dN Cd M HN Hs 1 (cf k) (fun _ => sig dN T k) Nat.lt_0_1 1 (fun p => Y p - U k p) _ X Rlt_0_1 (mcns_solves k Y (U k) Y1 U1)) as H. unfold Rdiv in H. rewrite !Rmult_1_l in H. exact H.
Qed.
Lemma cafter_1 rho rlx Y U Y1 U1 p : 0 < rho -> rho * cu1 rho rlx Y U Y1 U1 p = Wv wsh W p ^ 2 * cy1 rho rlx Y U Y1 U1 p.
Proof. intros Hr. unfold mcns_u1, mcns_y1. pose proof (W_pos p rho Hr). field. lra. Qed.
Definition meanu (V : nat -> index -> R) : index -> R := fun p => sumn K (fun k => V k p) / INR K.
Lemma cafter_0 rlx Y U Y1 U1 : same (cP (fun p => cy rlx Y U Y1 U1 p + meanu (cu rlx Y U Y1 U1) p)) (cy rlx Y U Y1 U1).
Proof.
  set (y := cy rlx Y U Y1 U1). change (same (cP (fun p => y p + meanu (cu rlx Y U Y1 U1) p)) (cP (fun p => sumn K (fun k => mcns_ax nv dN M Z S rlx Y U Y1 U1 k p + U k p) / INR K))).
  apply (cP_ext nv dN dC Cd K M dsz zm OK). intros p _. subst y. unfold meanu, mcns_u. assert (PK : 0 < INR K) by (apply lt_0_INR; exact HK).
  rewrite (sumn_ext K (fun k => U k p + _) (fun k => (mcns_ax nv dN M Z S rlx Y U Y1 U1 k p + U k p) + -1 * cy rlx Y U Y1 U1 p)) by (intros; ring). rewrite sumn_plus, sumn_const. field. lra.
Qed.
(** The first order condition from the dual variables. *)
Lemma ccrit rho d u y1 u1 : 0 < rho -> (forall p, sentry nv dN Cd K p -> rho * u1 p = Wv wsh W p ^ 2 * y1 p) ->
  (forall c k q, (c < Cd)%nat -> (k < K)%nat -> ons c 0 q -> recon d k q = sig dN y1 k q + sig dN S k q) ->
  (forall k z, (k < K)%nat -> - sdot (u k) z = pdot 1 (fun _ => sig dN u1 k) (fun _ => recon z k)) ->
  (critical mfit (INR K * rho) d <-> same (cP (fun p => d p + meanu u p)) d).
Proof.
  intros Hr H1 H2 H3. assert (PK : 0 < INR K) by (apply lt_0_INR; exact HK). apply core; [nra|]. intros z.
  assert (E : sdot (meanu u) z = / INR K * sumn K (fun k => sdot (u k) z)).
  { rewrite <- sdot_sum. transitivity (sdot (fun p => / INR K * sumn K (fun k => u k p) + 0 * z p) z); [f_equal; extensionality p; unfold meanu; field; lra|]. rewrite sdot_lin_l. ring. }
  rewrite E. transitivity (rho * sumn K (fun k => - sdot (u k) z)).
  { rewrite (sumn_ext K (fun k => - sdot (u k) z) (fun k => -1 * sdot (u k) z)) by (intros; ring). rewrite sumn_scal. field. lra. }
  rewrite (sumn_ext K _ (fun k => pdot 1 (fun _ => sig dN u1 k) (fun _ => recon z k)) (fun k Hk => H3 k z Hk)).
  transitivity (rho * pdot K (sig dN u1) (recon z)); [rewrite pdot_split; reflexivity|].
  transitivity (pdot K (fun k p => rho * sig dN u1 k p + 0 * sig dN u1 k p) (recon z)); [rewrite pdot_lin; ring|].
  apply pdot_ext; [|reflexivity]. intros c k p Hc Hk Hp. rewrite (H2 c k p Hc Hk Hp).
  pose proof (H1 _ (kv_sentry nv dN Cd K c k p Hc Hk Hp)) as H0. rewrite msk_at in H0. change (u1 (kv dN k p)) with (sig dN u1 k p) in H0. change (y1 (kv dN k p)) with (sig dN y1 k p) in H0.
  transitivity (rho * sig dN u1 k p); [ring|]. rewrite H0. ring.
Qed.
Lemma cadj k V z : sdot (fun p => irfftn nv (axN dN) (fun i => cmul (conj (Zf nv dN Z k (p (dN + 2)%nat) i)) (rfftn nv (axN dN) (Sk dN V k) i)) (offKM dN p)) z = pdot 1 (fun _ => sig dN V k) (fun _ => recon z k).
Proof.
  etransitivity; [|exact (adj_sy nv dN Cd M HN Hs 1 (cf k) Nat.lt_0_1 (fun _ => sig dN V k) z)]. f_equal. extensionality p. unfold of_spec, adjf. f_equal. extensionality i. rewrite csumn_S, csumn_O.
  change (Sk dN V k) with (sig dN V k). assert (E : forall a : C, a = cadd c0 a) by (intros; ring). apply E.
Qed.
Lemma sumsq0 (f : nat -> R) b n : (forall k, 0 <= f k) -> sqrt (sumn n (fun k => f k ^ 2) + b ^ 2) = 0 -> (forall k, (k < n)%nat -> f k = 0) /\ b = 0.
Proof.
  intros Hf H. assert (N : 0 <= sumn n (fun k => f k ^ 2)) by (apply sumn_nonneg; intros; apply pow2_ge_0). pose proof (pow2_ge_0 b) as Nb.
  apply sqrt_eq_0 in H; [|lra]. assert (E1 : sumn n (fun k => f k ^ 2) = 0) by lra. assert (E2 : b ^ 2 = 0) by lra. split.
  - intros k Hk. pose proof (sumn_nonneg_0 n (fun k => f k ^ 2) (fun k _ => pow2_ge_0 (f k)) E1 k Hk) as E. cbv beta in E. nra.
  - nra.
Qed.
Theorem C82_residual_cns rho rlx Y U Y1 U1 : 0 < rho ->
  mcns_r nv dN dC Cd K M dsz zm Z S wsh W rho rlx Y U Y1 U1 = 0 -> mcns_s nv dN dC Cd K M dsz zm Z S wsh W rho rlx Y U Y1 U1 = 0 -> critical mfit (INR K * rho) (cy rlx Y U Y1 U1).
Proof.
  intros Hr R0 S0. set (d := cy rlx Y U Y1 U1) in *. unfold mcns_r in R0. fold d in R0. apply sumsq0 in R0; [|intros; apply anorm_nonneg]. destruct R0 as [R0 R1].
  unfold mcns_s in S0. apply Rmult_integral in S0. destruct S0 as [S0|S0]; [lra|].
  assert (S0' : forall k, (k < K)%nat -> anorm dN (dshape nv dN Cd M) (fun p => cu rlx Y U Y1 U1 k p + irfftn nv (axN dN) (fun i => cmul (conj (Zf nv dN Z k (p (dN + 2)%nat) i)) (rfftn nv (axN dN) (Sk dN (cu1 rho rlx Y U Y1 U1) k) i)) (offKM dN p)) = 0).
  { refine (proj1 (sumsq0 (fun k => anorm dN (dshape nv dN Cd M) (fun p => cu rlx Y U Y1 U1 k p + irfftn nv (axN dN) (fun i => cmul (conj (Zf nv dN Z k (p (dN + 2)%nat) i)) (rfftn nv (axN dN) (Sk dN (cu1 rho rlx Y U Y1 U1) k) i)) (offKM dN p))) 0 K _ _)); [intros; apply anorm_nonneg|].
    replace (0 ^ 2) with 0 by ring. rewrite Rplus_0_r. exact S0. }
  apply (ccrit rho d (cu rlx Y U Y1 U1) (cy1 rho rlx Y U Y1 U1) (cu1 rho rlx Y U Y1 U1) Hr); [intros p _; apply cafter_1; exact Hr| | |apply cafter_0].
  - intros c k q Hc Hk Hq. apply anorm_s in R1. pose proof (R1 _ (kv_sentry nv dN Cd K c k q Hc Hk Hq)) as E. cbv beta in E. rewrite (cax1_recon Y U Y1 U1 c k q Hc Hq) in E.
    change (cy1 rho rlx Y U Y1 U1 (kv dN k q)) with (sig dN (cy1 rho rlx Y U Y1 U1) k q) in E. change (S (kv dN k q)) with (sig dN S k q) in E.
    assert (Ex : same (cx k Y U Y1 U1) d). { intros p Hp. pose proof (proj1 (anorm_d nv dN Cd M _) (R0 k Hk) p Hp) as Q. cbv beta in Q. lra. }
    transitivity (recon (cx k Y U Y1 U1) k q); [symmetry; apply (sy_same nv dN Cd M HN Hs K (coef dN Z) HK _ d c k q Hc Ex Hq)|lra].
  - intros k z Hk. rewrite <- cadj. revert z. apply adj_zero. intros p Hp. pose proof (proj1 (anorm_d nv dN Cd M _) (S0' k Hk) p Hp) as Q. cbv beta in Q. rewrite Rplus_comm. exact Q.
Qed.
Theorem C82_cns rho rlx d : 0 < rho -> rlx <> 0 ->
  ((exists Y U Y1 U1, same Y d /\ same (cy rlx Y U Y1 U1) Y /\ (forall k, (k < K)%nat -> same (cu rlx Y U Y1 U1 k) (U k)) /\
      sames (cy1 rho rlx Y U Y1 U1) Y1 /\ sames (cu1 rho rlx Y U Y1 U1) U1) <-> critical mfit (INR K * rho) d).
Proof.
  intros Hr Hx. assert (PK : 0 < INR K) by (apply lt_0_INR; exact HK). assert (Hb : 0 < INR K * rho) by nra. split.
  - intros (Y & U & Y1 & U1 & Ed & EY & EU & EY1 & EU1). apply (crit_same (INR K * rho) Y d Hb Ed).
    assert (Ex : forall k, (k < K)%nat -> same (cx k Y U Y1 U1) Y).
    { intros k Hk p Hp. specialize (EU k Hk p Hp). unfold mcns_u in EU. rewrite (EY p Hp) in EU. unfold mcns_ax in EU. apply (Rmult_eq_reg_l rlx); [lra|exact Hx]. }
    assert (H2 : forall c k q, (c < Cd)%nat -> (k < K)%nat -> ons c 0 q -> recon Y k q = sig dN Y1 k q + sig dN S k q).
    { intros c k q Hc Hk Hq. pose proof (kv_sentry nv dN Cd K c k q Hc Hk Hq) as Hp. pose proof (EU1 _ Hp) as E. unfold mcns_u1 in E. rewrite (EY1 _ Hp) in E. unfold mcns_ax1 in E.
      rewrite (cax1_recon Y U Y1 U1 c k q Hc Hq) in E. change (Y1 (kv dN k q)) with (sig dN Y1 k q) in E. change (S (kv dN k q)) with (sig dN S k q) in E.
      transitivity (recon (cx k Y U Y1 U1) k q); [symmetry; apply (sy_same nv dN Cd M HN Hs K (coef dN Z) HK _ Y c k q Hc (Ex k Hk) Hq)|]. apply (Rmult_eq_reg_l rlx); [lra|exact Hx]. }
    apply (ccrit rho Y U Y1 U1 Hr).
    + intros p Hp. rewrite <- (EY1 p Hp), <- (EU1 p Hp) at 1. apply cafter_1. exact Hr.
    + exact H2.
    + intros k z Hk. pose proof (proj1 (fixed_ch nv dN Cd M HN Hs 1 (cf k) Nat.lt_0_1 (fun _ => sig dN (csig Y1 U1) k) (U k) Y _ (mcns_solves k Y (U k) Y1 U1)) (Ex k Hk) z) as F.
      etransitivity; [exact F|]. apply pdot_ext; [|reflexivity]. intros c k' p Hc _ Hp. pose proof (H2 c k p Hc Hk Hp) as E2. transitivity (recon Y k p - sig dN (csig Y1 U1) k p); [reflexivity|]. rewrite E2. unfold sig, csig. ring.
    + eapply same_trans; [|exact EY]. eapply same_trans; [|apply cafter_0]. apply (cP_ext nv dN dC Cd K M dsz zm OK). intros p Hp. rewrite (EY p Hp). f_equal. unfold meanu. f_equal. apply sumn_ext. intros k Hk. symmetry. apply EU; assumption.
  - intros Hc. set (y1 := fun p : index => recon d (p (dN + 1)%nat) (offKM dN p) - S p). set (u1 := fun p => Wv wsh W p ^ 2 * y1 p / rho).
    set (U := fun k p => - irfftn nv (axN dN) (fun i => cmul (conj (Zf nv dN Z k (p (dN + 2)%nat) i)) (rfftn nv (axN dN) (Sk dN u1 k) i)) (offKM dN p)). exists d, U, y1, u1.
    assert (Sy : forall c k q, ons c 0 q -> sig dN y1 k q = recon d k q - sig dN S k q).
    { intros c k q Hq. unfold sig at 1. change (set_at (set_at q (dN + 1) k) (dN + 2) 0) with (kv dN k q). unfold y1. rewrite (kv_k dN), (off_kv nv dN c) by exact Hq. reflexivity. }
    assert (Adj : forall k z, - sdot (U k) z = pdot 1 (fun _ => sig dN u1 k) (fun _ => recon z k)).
    { intros k z. rewrite <- cadj. revert z. apply adj_zero. intros p _. unfold U. ring. }
    assert (Ex : forall k, (k < K)%nat -> same (cx k d U y1 u1) d).
    { intros k Hk. apply (fixed_ch nv dN Cd M HN Hs 1 (cf k) Nat.lt_0_1 (fun _ => sig dN (csig y1 u1) k) (U k) d _ (mcns_solves k d (U k) y1 u1)). intros z. rewrite Adj.
      apply pdot_ext; [|reflexivity]. intros c k' p Hcd _ Hp. transitivity (recon d k p - (sig dN y1 k p - sig dN u1 k p + sig dN S k p)); [|reflexivity]. rewrite (Sy c k p Hp). ring. }
    assert (E1 : forall p, sentry nv dN Cd K p -> mcns_ax1 nv dN M Z S rlx d U y1 u1 p = y1 p + S p).
    { intros p Hp. destruct (sentry_kv nv dN Cd K p Hp) as (c & k & q & Hcd & Hk & Hq & ->). unfold mcns_ax1. rewrite (cax1_recon d U y1 u1 c k q Hcd Hq).
      assert (E : recon (cx k d U y1 u1) k q = y1 (kv dN k q) + S (kv dN k q)).
      { transitivity (recon d k q); [apply (sy_same nv dN Cd M HN Hs K (coef dN Z) HK _ d c k q Hcd (Ex k Hk) Hq)|]. change (recon d k q = sig dN y1 k q + sig dN S k q). rewrite (Sy c k q Hq). ring. }
      rewrite E. ring. }
    assert (EY1 : sames (cy1 rho rlx d U y1 u1) y1).
    { intros p Hp. unfold mcns_y1. rewrite (E1 p Hp). unfold u1. pose proof (W_pos p rho Hr). field. split; lra. }
    assert (EY : same (cy rlx d U y1 u1) d).
    { apply same_trans with (cP (fun p => d p + meanu U p)).
      - unfold mcns_y. apply (cP_ext nv dN dC Cd K M dsz zm OK). intros p Hp. unfold meanu. rewrite (sumn_ext K (fun k => mcns_ax nv dN M Z S rlx d U y1 u1 k p + U k p) (fun k => d p + U k p)).
        + rewrite sumn_plus, sumn_const. field. lra.
        + intros k Hk. unfold mcns_ax. rewrite (Ex k Hk p Hp). ring.
      - apply (ccrit rho d U y1 u1 Hr); [| | |exact Hc].
        + intros p _. unfold u1. field. lra.
        + intros c k q Hcd Hk Hq. rewrite (Sy c k q Hq). ring.
        + intros k z _. apply Adj. }
    split; [apply same_refl|]. split; [exact EY|]. split; [|split; [exact EY1|]].
    + intros k Hk p Hp. unfold mcns_u, mcns_ax. rewrite (EY p Hp), (Ex k Hk p Hp). ring.
    + intros p Hp. unfold mcns_u1. rewrite (EY1 p Hp), (E1 p Hp). ring.
Qed.
Theorem C82_fixed_residual_cns rho rlx Y U Y1 U1 : 0 < rho -> rlx <> 0 ->
  same (cy rlx Y U Y1 U1) Y -> (forall k, (k < K)%nat -> same (cu rlx Y U Y1 U1 k) (U k)) -> sames (cy1 rho rlx Y U Y1 U1) Y1 -> sames (cu1 rho rlx Y U Y1 U1) U1 ->
  mcns_r nv dN dC Cd K M dsz zm Z S wsh W rho rlx Y U Y1 U1 = 0 /\ mcns_s nv dN dC Cd K M dsz zm Z S wsh W rho rlx Y U Y1 U1 = 0.
Proof.
  intros Hr Hx EY EU EY1 EU1.
  assert (Ex : forall k, (k < K)%nat -> same (cx k Y U Y1 U1) Y).
  { intros k Hk p Hp. specialize (EU k Hk p Hp). unfold mcns_u in EU. rewrite (EY p Hp) in EU. unfold mcns_ax in EU. apply (Rmult_eq_reg_l rlx); [lra|exact Hx]. }
  assert (H1 : forall p, sentry nv dN Cd K p -> mcns_ax1nr nv dN M Z S Y U Y1 U1 p = Y1 p + S p).
  { intros p Hp. pose proof (EU1 p Hp) as E. unfold mcns_u1 in E. rewrite (EY1 p Hp) in E. unfold mcns_ax1 in E. apply (Rmult_eq_reg_l rlx); [lra|exact Hx]. }
  assert (H2 : forall c k q, (c < Cd)%nat -> (k < K)%nat -> ons c 0 q -> recon Y k q = sig dN Y1 k q + sig dN S k q).
  { intros c k q Hc Hk Hq. pose proof (H1 _ (kv_sentry nv dN Cd K c k q Hc Hk Hq)) as E. rewrite (cax1_recon Y U Y1 U1 c k q Hc Hq) in E.
    transitivity (recon (cx k Y U Y1 U1) k q); [symmetry; apply (sy_same nv dN Cd M HN Hs K (coef dN Z) HK _ Y c k q Hc (Ex k Hk) Hq)|exact E]. }
  split.
  - unfold mcns_r. rewrite (sumn_0 K); [|intros k Hk; rewrite (proj2 (anorm_d nv dN Cd M _)); [ring|intros p Hp; cbv beta; rewrite (EY p Hp), (Ex k Hk p Hp); ring]].
    rewrite (proj2 (anorm_s nv dN Cd K _)); [replace (0 + 0 ^ 2) with 0 by ring; apply sqrt_0|]. intros p Hp. cbv beta. rewrite (H1 p Hp), (EY1 p Hp). ring.
  - unfold mcns_s. rewrite (sumn_0 K); [rewrite sqrt_0; ring|]. intros k Hk.
    assert (A : same (fun p => irfftn nv (axN dN) (fun i => cmul (conj (Zf nv dN Z k (p (dN + 2)%nat) i)) (rfftn nv (axN dN) (Sk dN (cu1 rho rlx Y U Y1 U1) k) i)) (offKM dN p) + cu rlx Y U Y1 U1 k p) (fun _ => 0)).
    { apply adj_zero. intros z. rewrite cadj. transitivity (- sdot (U k) z); [f_equal; apply sdot_ext; [apply EU; exact Hk|apply same_refl]|].
      pose proof (proj1 (fixed_ch nv dN Cd M HN Hs 1 (cf k) Nat.lt_0_1 (fun _ => sig dN (csig Y1 U1) k) (U k) Y _ (mcns_solves k Y (U k) Y1 U1)) (Ex k Hk) z) as F.
      etransitivity; [exact F|]. apply pdot_ext; [|reflexivity]. intros c k' p Hc _ Hp. pose proof (H2 c k p Hc Hk Hp) as E2.
      transitivity (recon Y k p - sig dN (csig Y1 U1) k p); [reflexivity|]. rewrite E2. pose proof (EU1 _ (kv_sentry nv dN Cd K c k p Hc Hk Hp)) as E3. change (sig dN (cu1 rho rlx Y U Y1 U1) k p = sig dN U1 k p) in E3. rewrite E3. unfold sig, csig. ring. }
    rewrite (proj2 (anorm_d nv dN Cd M _)); [ring|]. intros p Hp. cbv beta. rewrite Rplus_comm. exact (A p Hp).
Qed.
(** ** The solutions of the problem are among the stationary dictionaries *)
Notation lin_ok := (lin_ok nv dN Cd M dsz zm).
Notation fdot := (fdot nv dN Cd).
Notation nf := (nf nv dN Cd M dsz zm dC).
Let HdC := proj1 (proj2 (proj2 (proj2 OK))).
Let HF := proj1 (proj2 (proj2 (proj2 (proj2 OK)))).
Let HV := proj2 (proj2 (proj2 (proj2 (proj2 OK)))).
Definition mgrad (d : index -> R) : index -> R := of_spec nv dN (adjf nv dN K (coef dN Z) (fun k p => msk k p * msk k p * (recon d k p - sig dN S k p))).
Lemma mgrad_slope d z : sdot (mgrad d) z = slope d z.
Proof. apply (adj_sy nv dN Cd M HN Hs K (coef dN Z) HK). Qed.
Definition menergy (z : index -> R) : R := / 2 * pdot K (fun k p => msk k p * recon z k p) (fun k p => msk k p * recon z k p).
Lemma mfit_exact d x : mfit x = mfit d + sdot (mgrad d) (fun p => x p - d p) + menergy (fun p => x p - d p).
Proof.
  rewrite mgrad_slope. pose proof (mf_exp nv dN Cd M K (coef dN Z) msk (sig dN S) d (fun p => x p - d p) 1) as E. rewrite !mfit_mf.
  assert (Ex : (fun p : index => d p + 1 * (x p - d p)) = x) by (extensionality p; ring). unfold slope, menergy, MduSpec.recon, spat.
  etransitivity; [|etransitivity; [exact E|]]; [apply f_equal; symmetry; exact Ex|]. rewrite !Rmult_1_l. reflexivity.
Qed.
Lemma menergy_bound : exists L0, 0 < L0 /\ forall z, menergy z <= L0 / 2 * sumn M (fun m => fdot z z m).
Proof.
  destruct (C80_curvature nv dN dC Cd K M dsz zm Z OK) as (L & HL & HE).
  set (B := 1 + pdot K msk msk). assert (B1 : 1 <= B) by (unfold B; pose proof (pdot_nonneg nv dN Cd K msk); lra).
  exists (B * L). split; [nra|]. intros z. specialize (HE z). apply Rle_trans with (B * energy nv dN Cd K M Z z); [|nra].
  unfold menergy, energy, MduProofs.pdot. rewrite <- !sumn_scal. apply sumn_le. intros c Hc.
  unfold datafit. assert (EB : forall a : R, B * (/ 2 * a) = / 2 * (B * a)) by (intros; ring). rewrite EB. apply Rmult_le_compat_l; [lra|]. rewrite <- sumn_scal. apply sumn_le. intros k Hk.
  assert (Bk : forall p, ons c 0 p -> msk k p * msk k p <= B).
  { intros p Hp. apply Rle_trans with (total nv axes (fun p => msk k p * msk k p) (at_cm dN c 0)); [apply (total_ge nv axes (fun p => msk k p * msk k p)); [intros; nra|exact Hp]|].
    unfold B, MduProofs.pdot.
    pose proof (sumn_ge_term Cd (fun c => sumn K (fun k => total nv axes (fun p => msk k p * msk k p) (at_cm dN c 0))) c) as G1.
    pose proof (sumn_ge_term K (fun k => total nv axes (fun p => msk k p * msk k p) (at_cm dN c 0)) k) as G2. cbv beta in G1, G2.
    assert (T0 : forall k c, 0 <= total nv axes (fun p => msk k p * msk k p) (at_cm dN c 0)) by (intros; apply total_nonneg; intros; nra).
    specialize (G1 (fun c _ => sumn_nonneg K _ (fun k _ => T0 k c)) Hc). specialize (G2 (fun k _ => T0 k c) Hk). lra. }
  unfold sqn, spat. rewrite <- (Rplus_0_r (B * _)), <- (Rmult_0_l (total nv axes (fun _ => 0) (at_cm dN c 0))), <- total_lin. apply (total_mono nv dN). intros p Hp. specialize (Bk p Hp). unfold MduSpec.recon, spat.
  set (r := synth _ _ _ _ _ _ _ _). set (m := msk k p) in *. clearbody r m. pose proof (Rle_0_sqr r) as Q. unfold Rsqr in Q. nra.
Qed.
Lemma nearest_gen (G : index -> R) L d w m : 0 < L -> lin_ok d -> (m < M)%nat -> fdot d d m = 1 ->
  w = (fun p => d p - / L * G p) -> fdot G (fun p => cP w p - d p) m + L / 2 * fdot (fun p => cP w p - d p) (fun p => cP w p - d p) m <= 0.
Proof.
  intros HL Ld Hm Hd Ew. set (x := cP w). assert (Lx : lin_ok x) by (apply cP_lin; assumption). pose proof (cP_unit nv dN Cd M dsz zm dC HdC HF HV w m Hm) as Ux. fold x in Ux.
  pose proof (nf_pos nv dN Cd M dsz zm dC w m) as Pn. set (n := nf w m) in *.
  pose proof (cP_dot nv dN Cd M dsz zm dC HdC HF HV w x m Hm Lx) as Dx. pose proof (cP_dot nv dN Cd M dsz zm dC HdC HF HV w d m Hm Ld) as Dd. fold n x in Dx, Dd.
  assert (EwL : forall z, fdot w z m = fdot d z m - / L * fdot G z m) by (intros z; rewrite Ew; apply fdot_axpy).
  rewrite EwL in Dx, Dd.
  assert (Gx : fdot G x m = L * (fdot d x m - n * fdot x x m)).
  { apply (f_equal (Rmult L)) in Dx. rewrite Rmult_minus_distr_l, <- (Rmult_assoc L (/ L)), Rinv_r, Rmult_1_l in Dx by lra. lra. }
  assert (Gd : fdot G d m = L * (1 - n * fdot x d m)).
  { apply (f_equal (Rmult L)) in Dd. rewrite Rmult_minus_distr_l, <- (Rmult_assoc L (/ L)), Rinv_r, Rmult_1_l, Hd in Dd by lra. lra. }
  assert (Q : fdot (fun p => x p - d p) (fun p => x p - d p) m = fdot x x m - 2 * fdot x d m + 1).
  { rewrite fdot_sub_r. rewrite !(fdot_sym nv dN Cd (fun p => x p - d p)), !fdot_sub_r, Hd, (fdot_sym nv dN Cd d x). ring. }
  rewrite Q, fdot_sub_r, Gx, Gd, (fdot_sym nv dN Cd d x).
  pose proof (fdot_cauchy nv dN Cd x d m) as C. rewrite Hd, Rmult_1_r in C. set (a := fdot x d m) in *. set (q := fdot x x m) in *.
  destruct Ux as [E|E]; rewrite E in *.
  - assert (a <= 1) by nra. replace (L * (a - n * 1) - L * (1 - n * a) + L / 2 * (1 - 2 * a + 1)) with (- (L * n * (1 - a))) by field. assert (0 <= L * n * (1 - a)); [|lra]. apply Rmult_le_pos; [nra|lra].
  - assert (a = 0) by nra. rewrite H. nra.
Qed.
Lemma alg F A E D L0 b : 0 <= D -> F <= F + A + E -> E <= L0 / 2 * D -> A + b / 2 * D <= 0 -> L0 + 1 <= b -> D = 0.
Proof. intros. nra. Qed.
Theorem C82_minimiser d : lin_ok d -> (forall m, (m < M)%nat -> fdot d d m = 1) ->
  (forall x, lin_ok x -> (forall m, (m < M)%nat -> fdot x x m = 1) -> mfit d <= mfit x) -> exists b0, 0 < b0 /\ forall b, b0 <= b -> critical mfit b d.
Proof.
  intros Ld Hd Hmin. destruct menergy_bound as (L0 & HL0 & HE).
  assert (N0 : 0 <= sumn M (fun m => Rabs (fdot (mgrad d) d m))) by (apply sumn_nonneg; intros; apply Rabs_pos).
  exists (L0 + 1 + sumn M (fun m => Rabs (fdot (mgrad d) d m))). split; [lra|]. intros b Hb. assert (Pb : 0 < b) by lra.
  apply (core b d (fun p => - / b * mgrad d p + 0 * d p) Pb).
  { intros z. rewrite sdot_lin_l, mgrad_slope. field. lra. }
  assert (Ew : (fun p : index => d p + (- / b * mgrad d p + 0 * d p)) = (fun p => d p - / b * mgrad d p)) by (extensionality p; ring). rewrite Ew. clear Ew.
  set (w := fun p => d p - / b * mgrad d p). set (x := cP w).
  assert (Lx : lin_ok x) by (apply cP_lin; assumption).
  assert (Ux : forall m, (m < M)%nat -> fdot x x m = 1).
  { intros m Hm. destruct (cP_unit nv dN Cd M dsz zm dC HdC HF HV w m Hm) as [U|U]; [exact U|]. exfalso.
    pose proof (cP_dot nv dN Cd M dsz zm dC HdC HF HV w d m Hm Ld) as D. pose proof (fdot_cauchy nv dN Cd (cP w) d m) as C. rewrite U, Rmult_0_l in C.
    assert (Z0 : fdot (cP w) d m = 0) by nra. rewrite Z0, Rmult_0_r in D. unfold w in D. rewrite fdot_axpy, (Hd m Hm) in D.
    pose proof (sumn_ge_term M (fun m => Rabs (fdot (mgrad d) d m)) m ltac:(intros; apply Rabs_pos) Hm) as B. cbv beta in B. pose proof (Rle_abs (fdot (mgrad d) d m)) as B1.
    apply (f_equal (Rmult b)) in D. rewrite Rmult_minus_distr_l, <- (Rmult_assoc b (/ b)), Rinv_r in D by lra. lra. }
  pose proof (Hmin x Lx Ux) as G1. rewrite (mfit_exact d x) in G1. pose proof (HE (fun p => x p - d p)) as HE1.
  assert (N : sdot (mgrad d) (fun p => x p - d p) + b / 2 * sdot (fun p => x p - d p) (fun p => x p - d p) <= 0).
  { unfold CcmFit.sdot. rewrite <- sumn_scal, <- sumn_plus. apply Rle_trans with (sumn M (fun _ => 0)); [|rewrite sumn_0 by reflexivity; lra].
    apply sumn_le. intros m Hm. exact (nearest_gen (mgrad d) b d w m Pb Ld Hm (Hd m Hm) eq_refl). }
  change (sumn M (fun m => fdot (fun p => x p - d p) (fun p => x p - d p) m)) with (sdot (fun p => x p - d p) (fun p => x p - d p)) in HE1.
  assert (Sq : sdot (fun p => x p - d p) (fun p => x p - d p) = 0).
  { pose proof (sdot_nonneg nv dN Cd M (fun p => x p - d p)) as P. 
    apply (alg (mfit d) (sdot (mgrad d) (fun p => x p - d p)) (menergy (fun p => x p - d p)) _ L0 b); [exact P|exact G1|exact HE1|exact N|lra]. }
  intros p Hp. pose proof (sdot_zero nv dN Cd M _ Sq p Hp) as Q. apply Rminus_diag_uniq. exact Q.
Qed.
End main.
(** A stationary dictionary need not be a solution.  One sample, one filter of length one, coefficient and signal equal to one, mask
    equal to two: d = -1 is stationary for every parameter above eight, d = 1 is the solution. *)
Theorem C82_stationary_refuted :
  let nv := fun _ : nat => 1%nat in let dsz := CnvrepModel.Flat [1; 1]%nat in let one := fun _ : index => 1 in let W := fun _ : index => 2 in
  ccm_ok nv 1 0 1 1 dsz false /\ (forall b, 8 < b -> critical_for nv 1 1 1 dsz false (mfit nv 1 1 1 1 one one nv W) b (fun _ => -1)) /\
  lin_ok nv 1 1 1 dsz false one /\ unit_norms nv 1 1 1 one /\
  mfit nv 1 1 1 1 one one nv W one = 0 /\ mfit nv 1 1 1 1 one one nv W (fun _ => -1) = 8.
Proof.
  pose proof C80_stationary_refuted as H. cbv zeta in H |- *. set (nv := fun _ : nat => 1%nat) in *. destruct H as (H1 & _ & H3 & H4 & _).
  assert (EF : forall x, mfit nv 1 1 1 1 (fun _ => 1) (fun _ => 1) nv (fun _ => 2) x = 2 * ((x (fun _ => O) - 1) * (x (fun _ => O) - 1))).
  { intros x. unfold mfit, MduSpec.recon, mask, sqn, synth, conv, spat, nv, filt, coef, sig, ext. cbn [sumn seq total forallb]. cbn -[set_at minus at_cm].
    set (y := x _). assert (E : y = x (fun _ => O)).
    { unfold y. f_equal. extensionality a. unfold set_at, minus, at_cm. cbn [existsb]. destruct (Nat.eqb_spec a 3); [reflexivity|]. destruct (Nat.eqb_spec a 2); [reflexivity|].
      destruct (Nat.eqb_spec a 0) as [->|]; [reflexivity|]. cbn [orb]. destruct (Nat.eqb_spec a 1); [reflexivity|]. destruct (Nat.eqb a (1 + 2)); reflexivity. }
    rewrite <- E. clearbody y. unfold set_at. cbn. field. }
  assert (ED : forall x y, fdot nv 1 1 x y 0 = x (fun _ => O) * y (fun _ => O)).
  { intros x y. unfold fdot, spat, nv. cbn [sumn seq total]. assert (E : set_at (at_cm 1 0 0) 0 0 = (fun _ => O)).
    { extensionality a. unfold set_at, at_cm. destruct (Nat.eqb_spec a 0); [reflexivity|]. destruct (Nat.eqb a 1); [reflexivity|]. destruct (Nat.eqb a (1 + 2)); reflexivity. }
    rewrite E. ring. }
  split; [exact H1|]. split; [|split; [exact H3|split; [exact H4|split; rewrite EF; ring]]].
  intros b Hb. split; [|split].
  - split; [|discriminate]. intros p Hp Hn. exfalso. apply Hn. rewrite (one_slice nv p eq_refl Hp). intros a Ha. assert (a = O) by lia. subst. simpl. lia.
  - intros m Hm. assert (m = O) by lia. subst. rewrite ED. left. ring.
  - exists (fun _ => 8). split; [intros; lra|]. intros x _. cbn [sumn]. rewrite !EF, !ED. cbv beta. pose proof (Rle_0_sqr (x (fun _ => O) + 1)) as Q. unfold Rsqr in Q. nra.
Qed.
(** Two spatial axes, two channels, three filters of two sizes, zero mean, two signals, and a mask of shape 4 x 4 x 1 x 2 which differs
    between the signals and vanishes at some positions. *)
Example C82_instance : let wsh := fun a => match a with 0%nat | 1%nat => 4%nat | 3%nat => 2%nat | _ => 1%nat end in
  let W := fun p : index => if Nat.eqb (p 0%nat) (p 3%nat) then 0 else 3 in
  ccm_ok (fun _ => 4%nat) 2 1 2 2 (CnvrepModel.Blocks [CnvrepModel.Blk [2; 2; 2; 1]%nat; CnvrepModel.Blk [1; 3; 2; 2]%nat]) true /\
  mask 2 wsh W 0 (fun _ => 1%nat) = 3 /\ mask 2 wsh W 1 (fun _ => 1%nat) = 0 /\ sentry (fun _ => 4%nat) 2 2 2 (at_ck 2 1 1).
Proof.
  cbv zeta. split; [apply C80_instance|]. split; [reflexivity|]. split; [reflexivity|]. exists 1%nat, 1%nat. split; [lia|]. split; [lia|]. split; [|reflexivity].
  intros a Ha. unfold at_ck. destruct (Nat.eqb_spec a 2); [lia|]. destruct (Nat.eqb_spec a (2 + 1)); lia.
Qed.
Example C82_mask_instance : read (mask_merge 3 2 3 1 (fun c k => INR (10 * c + k))) (2 * 2 + 1) = 20.
Proof. rewrite C82_mask by lia. simpl. lra. Qed.
Print Assumptions C82_mask.
Print Assumptions C82_xstep.
Print Assumptions C82_dfid.
Print Assumptions C82_residual.
Print Assumptions C82_ism.
Print Assumptions C82_fixed_residual.
Print Assumptions C82_xstep_cns.
Print Assumptions C82_residual_cns.
Print Assumptions C82_cns.
Print Assumptions C82_fixed_residual_cns.
Print Assumptions C82_minimiser.
Print Assumptions C82_stationary_refuted.
