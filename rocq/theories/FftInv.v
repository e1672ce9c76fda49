(** Further facts about the transforms of FftModel: the other inversion, symmetry, and the convolution theorem read forwards. *)
Require Import List Arith ZArith Reals Bool Lia Lra Ring FunctionalExtensionality.
Require Import Verif.RVec Verif.Cplx Verif.FftModel Verif.FftProofs.
Import ListNotations.
Local Open Scope R_scope.

Definition inr (s : nat -> nat) (axes : list nat) (i : index) : Prop := forall ax, In ax axes -> (i ax < s ax)%nat.

Lemma dft_idft n h k : (k < n)%nat -> dft n (idft n h) k = h k.
Proof.
  intros Hk. assert (Hn : (0 < n)%nat) by lia. unfold dft, idft.
  transitivity (cscal (/ INR n) (csumn n (fun j => csumn n (fun i => cmul (h i) (ru n (Z.of_nat j * (Z.of_nat i - Z.of_nat k))))))).
  - rewrite cscal_csumn. apply csumn_ext. intros j Hj. rewrite !cscal_mul.
    transitivity (cmul (ofR (/ INR n)) (cmul (csumn n (fun k0 => cmul (h k0) (ru n (Z.of_nat j * Z.of_nat k0)))) (ru n (- (Z.of_nat j * Z.of_nat k))))); [ring|].
    f_equal. rewrite <- csumn_scal_r. apply csumn_ext. intros i Hi.
    replace (Z.of_nat j * (Z.of_nat i - Z.of_nat k))%Z with (Z.of_nat j * Z.of_nat i + - (Z.of_nat j * Z.of_nat k))%Z by ring.
    rewrite ru_add. ring.
  - rewrite csumn_swap. rewrite (csumn_ext n _ (fun i => if Nat.eqb i k then cmul (h i) (ofR (INR n)) else c0)).
    + rewrite csumn_delta by exact Hk. transitivity (cscal (/ INR n) (cmul (ofR (INR n)) (h k))); [f_equal; ring|apply cscal_INR; exact Hn].
    + intros i Hi. rewrite csumn_scal, ru_orth by assumption. destruct (Nat.eqb i k); ring.
Qed.

(** ** Dependence on the values in range only *)
Lemma fftn_ext_in s axes x y : forall idx,
  (forall i, inr s axes i -> (forall ax, ~ In ax axes -> i ax = idx ax) -> x i = y i) -> fftn s axes x idx = fftn s axes y idx.
Proof.
  induction axes as [|a r IH]; intros idx H; simpl.
  - apply H; [intros ? []|reflexivity].
  - apply dft_ext. intros j Hj. apply IH. intros i Hi Ho. apply H.
    + intros ax [<-|Ha]; [|apply Hi; exact Ha]. destruct (in_dec Nat.eq_dec a r) as [I|N]; [apply Hi; exact I|]. rewrite Ho, upd_same by exact N. exact Hj.
    + intros ax N. rewrite Ho by (intros I; apply N; right; exact I). apply upd_other. intros ->. apply N. left. reflexivity.
Qed.
Lemma ifftn_ext_in s axes x y : forall idx,
  (forall i, inr s axes i -> (forall ax, ~ In ax axes -> i ax = idx ax) -> x i = y i) -> ifftn s axes x idx = ifftn s axes y idx.
Proof.
  induction axes as [|a r IH]; intros idx H; simpl.
  - apply H; [intros ? []|reflexivity].
  - apply idft_ext. intros j Hj. apply IH. intros i Hi Ho. apply H.
    + intros ax [<-|Ha]; [|apply Hi; exact Ha]. destruct (in_dec Nat.eq_dec a r) as [I|N]; [apply Hi; exact I|]. rewrite Ho, upd_same by exact N. exact Hj.
    + intros ax N. rewrite Ho by (intros I; apply N; right; exact I). apply upd_other. intros ->. apply N. left. reflexivity.
Qed.
Lemma ifftn_upd s r h ax j : ~ In ax r -> forall idx, ifftn s r h (upd idx ax j) = ifftn s r (fun i => h (upd i ax j)) idx.
Proof.
  induction r as [|b r IH]; intros N idx; simpl; [reflexivity|]. unfold idft_ax.
  assert (Nb : b <> ax) by (intros ->; apply N; left; reflexivity).
  rewrite upd_other by exact Nb. apply idft_ext. intros i _. rewrite upd_comm by congruence. apply IH. intros I. apply N. right. exact I.
Qed.
Lemma idft_ax_comm s a b x : a <> b -> idft_ax s a (idft_ax s b x) = idft_ax s b (idft_ax s a x).
Proof.
  intros H. extensionality idx. unfold idft_ax, idft. rewrite !cscal_mul.
  transitivity (cmul (cmul (ofR (/ INR (s a))) (ofR (/ INR (s b)))) (csumn (s a) (fun j => csumn (s b) (fun i => cmul (x (upd (upd idx a j) b i)) (cmul (ru (s b) (Z.of_nat (idx b) * Z.of_nat i)) (ru (s a) (Z.of_nat (idx a) * Z.of_nat j))))))).
  { rewrite <- !csumn_scal. apply csumn_ext. intros j _. rewrite cscal_mul.
    transitivity (cmul (cmul (ofR (/ INR (s a))) (ofR (/ INR (s b)))) (cmul (csumn (s b) (fun k => cmul (x (upd (upd idx a j) b k)) (ru (s b) (Z.of_nat (upd idx a j b) * Z.of_nat k)))) (ru (s a) (Z.of_nat (idx a) * Z.of_nat j)))); [ring|].
    f_equal. rewrite <- csumn_scal_r. apply csumn_ext. intros i _. rewrite upd_other by congruence. ring. }
  rewrite csumn_swap. rewrite <- !csumn_scal. apply csumn_ext. intros i _. rewrite cscal_mul.
  transitivity (cmul (cmul (ofR (/ INR (s a))) (ofR (/ INR (s b)))) (cmul (csumn (s a) (fun k => cmul (x (upd (upd idx b i) a k)) (ru (s a) (Z.of_nat (upd idx b i a) * Z.of_nat k)))) (ru (s b) (Z.of_nat (idx b) * Z.of_nat i)))); [|ring].
  f_equal. rewrite <- csumn_scal_r. apply csumn_ext. intros j _.
  rewrite upd_other by congruence. rewrite (upd_comm idx a b) by exact H. ring.
Qed.
Lemma ifftn_idft_ax s r ax x : ~ In ax r -> idft_ax s ax (ifftn s r x) = ifftn s r (idft_ax s ax x).
Proof.
  induction r as [|b r IH]; intros H; simpl; [reflexivity|].
  rewrite idft_ax_comm by (intros ->; apply H; left; reflexivity). rewrite IH by (intros I; apply H; right; exact I). reflexivity.
Qed.
Lemma fftn_snoc s r l x : fftn s (r ++ [l]) x = fftn s r (dft_ax s l x).
Proof. unfold fftn. rewrite fold_right_app. reflexivity. Qed.
Lemma ifftn_snoc s r l x : ifftn s (r ++ [l]) x = ifftn s r (idft_ax s l x).
Proof. unfold ifftn. rewrite fold_right_app. reflexivity. Qed.
Lemma rfftn_fftn s r l x : rfftn s (r ++ [l]) x = fftn s (r ++ [l]) (fun i => ofR (x i)).
Proof. unfold rfftn. rewrite last_last, removelast_last, fftn_snoc. reflexivity. Qed.

Lemma fftn_ifftn s axes : NoDup axes -> forall h idx, inr s axes idx -> fftn s axes (ifftn s axes h) idx = h idx.
Proof.
  induction axes as [|ax r IH]; intros ND h idx Hi; [reflexivity|]. inversion ND as [|? ? N1 N2]; subst.
  change (ifftn s (ax :: r) h) with (idft_ax s ax (ifftn s r h)). rewrite ifftn_idft_ax by exact N1.
  change (fftn s (ax :: r) ?g) with (dft_ax s ax (fftn s r g)). unfold dft_ax.
  rewrite (dft_ext _ _ (idft (s ax) (fun j => h (upd idx ax j)))).
  - rewrite dft_idft by (apply Hi; left; reflexivity). rewrite upd_self. reflexivity.
  - intros k Hk. rewrite IH; [|exact N2|].
    + unfold idft_ax. rewrite upd_same. apply idft_ext. intros j _. rewrite upd_upd. reflexivity.
    + intros b Hb. rewrite upd_other by (intros ->; contradiction). apply Hi. right. exact Hb.
Qed.

(** ** Symmetry *)
Definition nneg (n k : nat) : nat := ((n - k) mod n)%nat.
Definition neg (s : nat -> nat) (axes : list nat) (i : index) : index := fun ax => if mem ax axes then nneg (s ax) (i ax) else i ax.
Lemma nneg_lt n k : (0 < n)%nat -> (nneg n k < n)%nat.
Proof. intros. apply Nat.mod_upper_bound. lia. Qed.
Lemma nneg_0 n : (0 < n)%nat -> nneg n 0 = O.
Proof. intros. unfold nneg. rewrite Nat.sub_0_r. apply Nat.mod_same. lia. Qed.
Lemma nneg_pos n k : (0 < k < n)%nat -> nneg n k = (n - k)%nat.
Proof. intros. unfold nneg. apply Nat.mod_small. lia. Qed.
Lemma nneg_nneg n k : (k < n)%nat -> nneg n (nneg n k) = k.
Proof.
  intros H. destruct k as [|k]; [rewrite nneg_0 by lia; apply nneg_0; lia|]. rewrite (nneg_pos n (S k)) by lia. rewrite nneg_pos by lia. lia.
Qed.
Lemma csumn_neg n f : (0 < n)%nat -> csumn n f = csumn n (fun k => f (nneg n k)).
Proof.
  intros Hn. destruct n as [|n]; [lia|]. rewrite !csumn_first, nneg_0 by lia. f_equal.
  transitivity (csumn n (fun i => f (S (n - 1 - i)))).
  - unfold csumn. f_equal; apply (sumn_rev n (fun i => _ (f (S i)))).
  - apply csumn_ext. intros k Hk. f_equal. rewrite nneg_pos by lia. lia.
Qed.
Lemma ru_neg n j k : (k < n)%nat -> ru n (Z.of_nat j * Z.of_nat (nneg n k)) = ru n (- (Z.of_nat j * Z.of_nat k)).
Proof.
  intros Hk. destruct k as [|k].
  - rewrite nneg_0 by lia. f_equal. lia.
  - rewrite nneg_pos by lia. apply ru_mod; [lia|].
    replace (Z.of_nat j * Z.of_nat (n - S k))%Z with (- (Z.of_nat j * Z.of_nat (S k)) + Z.of_nat j * Z.of_nat n)%Z by (rewrite Nat2Z.inj_sub by lia; ring).
    apply Z.mod_add. lia.
Qed.
Lemma conj_idft n h j : (0 < n)%nat -> conj (idft n h j) = idft n (fun k => conj (h (nneg n k))) j.
Proof.
  intros Hn. unfold idft. rewrite !cscal_mul, conj_mul, conj_ofR. f_equal. rewrite csumn_conj, (csumn_neg n) by exact Hn.
  apply csumn_ext. intros k Hk. rewrite conj_mul, ru_conj. f_equal.
  rewrite <- ru_conj, ru_neg by exact Hk. rewrite ru_conj, Z.opp_involutive. reflexivity.
Qed.
Lemma conj_dft n x k : (k < n)%nat -> conj (dft n x k) = dft n (fun j => conj (x j)) (nneg n k).
Proof.
  intros Hk. unfold dft. rewrite csumn_conj. apply csumn_ext. intros j Hj. rewrite conj_mul. f_equal.
  rewrite <- (ru_conj n (Z.of_nat j * Z.of_nat (nneg n k))), ru_neg by exact Hk. reflexivity.
Qed.
Lemma mem_not ax r : ~ In ax r -> mem ax r = false.
Proof. intros H. destruct (mem ax r) eqn:E; [apply mem_in in E; contradiction|reflexivity]. Qed.
Lemma neg_cons_upd s ax r i j : ~ In ax r -> neg s (ax :: r) (upd i ax j) = neg s r (upd i ax (nneg (s ax) j)).
Proof.
  intros N. extensionality b. unfold neg. change (mem b (ax :: r)) with (Nat.eqb b ax || mem b r)%bool.
  destruct (Nat.eqb_spec b ax) as [->|Nb]; simpl.
  - rewrite (mem_not ax r N), !upd_same. reflexivity.
  - rewrite !upd_other by exact Nb. reflexivity.
Qed.
Lemma upd_neg_cons s ax r i j : ~ In ax r -> upd (neg s (ax :: r) i) ax j = neg s r (upd i ax j).
Proof.
  intros N. extensionality b. unfold neg, upd. change (mem b (ax :: r)) with (Nat.eqb b ax || mem b r)%bool.
  destruct (Nat.eqb_spec b ax) as [->|Nb]; simpl; [rewrite (mem_not ax r N)|]; reflexivity.
Qed.
Lemma conj_ifftn s r : NoDup r -> (forall ax, In ax r -> (0 < s ax)%nat) -> forall h idx,
  conj (ifftn s r h idx) = ifftn s r (fun i => conj (h (neg s r i))) idx.
Proof.
  induction r as [|ax r IH]; intros ND Hs h idx.
  - reflexivity.
  - inversion ND as [|? ? N1 N2]; subst.
    change (ifftn s (ax :: r) ?g) with (idft_ax s ax (ifftn s r g)). unfold idft_ax. rewrite conj_idft by (apply Hs; left; reflexivity).
    apply idft_ext. intros k Hk. rewrite IH by (try assumption; intros; apply Hs; right; assumption).
    rewrite !ifftn_upd by exact N1. apply (f_equal (fun g => ifftn s r g idx)). extensionality i. rewrite neg_cons_upd by exact N1. reflexivity.
Qed.
Lemma conj_fftn s axes : NoDup axes -> forall y idx, inr s axes idx ->
  conj (fftn s axes y idx) = fftn s axes (fun i => conj (y i)) (neg s axes idx).
Proof.
  induction axes as [|ax r IH]; intros ND y idx Hi; [reflexivity|]. inversion ND as [|? ? N1 N2]; subst.
  change (fftn s (ax :: r) ?g) with (dft_ax s ax (fftn s r g)). unfold dft_ax. rewrite conj_dft by (apply Hi; left; reflexivity).
  replace (neg s (ax :: r) idx ax) with (nneg (s ax) (idx ax)).
  - apply dft_ext. intros j Hj. rewrite upd_neg_cons by exact N1. apply IH; [exact N2|].
    intros b Hb. rewrite upd_other by (intros ->; contradiction). apply Hi. right. exact Hb.
  - unfold neg. simpl. rewrite Nat.eqb_refl. reflexivity.
Qed.
Lemma neg_inr s axes i : inr s axes i -> inr s axes (neg s axes i).
Proof.
  intros H ax Ha. pose proof (H ax Ha). unfold neg. apply mem_in in Ha. rewrite Ha. apply nneg_lt. lia.
Qed.
Definition hermitian_nd (s : nat -> nat) (axes : list nat) (h : index -> C) : Prop := forall i, inr s axes i -> h (neg s axes i) = conj (h i).
Lemma rfftn_hermitian s r l x : NoDup (r ++ [l]) -> hermitian_nd s (r ++ [l]) (rfftn s (r ++ [l]) x).
Proof.
  intros ND i Hi. rewrite rfftn_fftn, conj_fftn by assumption. apply (f_equal (fun g => fftn s (r ++ [l]) g (neg s (r ++ [l]) i))).
  extensionality k. rewrite conj_ofR. reflexivity.
Qed.

(** The half spectrum inverse of a symmetric spectrum is the full inverse. *)
Lemma irfftn_ifftn s r l h idx : NoDup (r ++ [l]) -> (forall ax, In ax (r ++ [l]) -> (0 < s ax)%nat) -> hermitian_nd s (r ++ [l]) h ->
  ofR (irfftn s (r ++ [l]) h idx) = ifftn s (r ++ [l]) h idx.
Proof.
  intros ND Hs Hh. unfold irfftn. rewrite last_last, removelast_last.
  assert (N1 : ~ In l r) by (apply NoDup_remove_2 in ND; rewrite app_nil_r in ND; exact ND).
  assert (N2 : NoDup r) by (apply NoDup_remove_1 in ND; rewrite app_nil_r in ND; exact ND).
  assert (Hl : (0 < s l)%nat) by (apply Hs; apply in_or_app; right; left; reflexivity).
  assert (Hr : forall ax, In ax r -> (0 < s ax)%nat) by (intros; apply Hs; apply in_or_app; left; assumption).
  set (g := fun k => ifftn s r h (upd idx l k)).
  assert (G : forall k, (k < s l)%nat -> g (nneg (s l) k) = conj (g k)).
  { intros k Hk. unfold g. rewrite conj_ifftn by assumption. rewrite !ifftn_upd by exact N1. apply ifftn_ext_in. intros i Hi _.
    set (j := neg s r (upd i l k)).
    assert (Hj : inr s (r ++ [l]) j).
    { intros ax Ha. unfold j, neg. apply in_app_or in Ha. destruct (mem ax r) eqn:E.
      - apply nneg_lt. apply Hr. apply mem_in. exact E.
      - destruct Ha as [Ha|[<-|[]]]; [apply mem_in in Ha; congruence|]. rewrite upd_same. exact Hk. }
    rewrite <- (Hh j Hj). f_equal. extensionality ax. unfold neg, j, mem. rewrite existsb_app. simpl. rewrite orb_false_r.
    fold (mem ax r). unfold neg. destruct (Nat.eqb_spec ax l) as [->|Na].
    - rewrite upd_same, orb_true_r, (mem_not l r N1), upd_same. reflexivity.
    - rewrite !upd_other by exact Na. rewrite orb_false_r. destruct (mem ax r) eqn:E; [|reflexivity].
      rewrite nneg_nneg; [reflexivity|]. apply Hi. apply mem_in. exact E. }
  rewrite ifftn_snoc, <- ifftn_idft_ax by exact N1. unfold idft_ax. fold g. symmetry. apply irfft_idft; [exact Hl| |].
  - intros k Hk. rewrite <- (nneg_pos (s l) k) by lia. apply G. lia.
  - pose proof (G O Hl) as G0. rewrite nneg_0 in G0 by exact Hl. apply (f_equal im) in G0. unfold conj, im in *. simpl in G0. lra.
Qed.
(** ... so that transforming it gives the spectrum back. *)
Lemma rfftn_irfftn s r l h idx : NoDup (r ++ [l]) -> (forall ax, In ax (r ++ [l]) -> (0 < s ax)%nat) -> hermitian_nd s (r ++ [l]) h ->
  inr s (r ++ [l]) idx -> rfftn s (r ++ [l]) (irfftn s (r ++ [l]) h) idx = h idx.
Proof.
  intros ND Hs Hh Hi. rewrite rfftn_fftn. transitivity (fftn s (r ++ [l]) (ifftn s (r ++ [l]) h) idx); [|apply fftn_ifftn; assumption]. apply (f_equal (fun g => fftn s (r ++ [l]) g idx)).
  extensionality i. apply irfftn_ifftn; assumption.
Qed.

(** The transform of a circular convolution. *)
Lemma rfftn_conv s r l u v idx : NoDup (r ++ [l]) -> inr s (r ++ [l]) idx ->
  rfftn s (r ++ [l]) (fun p => rsum s (r ++ [l]) (fun m => u m * v (cdiff s (r ++ [l]) p m)) p) idx =
  cmul (rfftn s (r ++ [l]) u idx) (rfftn s (r ++ [l]) v idx).
Proof.
  intros ND Hi. rewrite !rfftn_fftn.
  rewrite <- (fftn_ifftn s (r ++ [l]) ND (fun i => cmul (fftn s (r ++ [l]) (fun k => ofR (u k)) i) (fftn s (r ++ [l]) (fun k => ofR (v k)) i)) idx Hi).
  apply fftn_ext_in. intros i H1 _. rewrite conv_thm by assumption.
  transitivity (asum s (r ++ [l]) (fun m => ofR (u m * v (cdiff s (r ++ [l]) i m))) i).
  - unfold asum. assert (Z : rsum s (r ++ [l]) (fun _ => im (ofR 0)) i = 0).
    { transitivity (rsum s (r ++ [l]) (fun _ => 0 * 0) i); [apply rsum_ext; intros; change (im (ofR 0)) with 0; ring|]. rewrite (rsum_scal s _ 0 (fun _ => 0)). ring. }
    unfold ofR at 1. f_equal. symmetry. exact Z.
  - apply asum_ext. intros m. ceq; ring.
Qed.
(** Parseval for real arrays, over all the frequencies. *)
Lemma parseval_real s r l x idx : NoDup (r ++ [l]) -> (forall ax, In ax (r ++ [l]) -> (0 < s ax)%nat) ->
  rsum s (r ++ [l]) (fun i => cabs2 (rfftn s (r ++ [l]) x i)) idx = prodn s (r ++ [l]) * rsum s (r ++ [l]) (fun i => x i * x i) idx.
Proof.
  intros ND Hs. rewrite rfftn_fftn, parseval_axes by (try assumption; intros; split; auto). f_equal. apply rsum_ext. intros i.
  unfold cabs2, ofR, re, im. simpl. ring.
Qed.
(** Linearity. *)
Lemma fftn_csumn s axes N (f : nat -> index -> C) : forall idx, fftn s axes (fun i => csumn N (fun j => f j i)) idx = csumn N (fun j => fftn s axes (f j) idx).
Proof.
  induction axes as [|a r IH]; intros idx; simpl; [reflexivity|]. unfold dft_ax, dft.
  rewrite (csumn_ext (s a) _ (fun j => csumn N (fun k => cmul (fftn s r (f k) (upd idx a j)) (ru (s a) (- (Z.of_nat j * Z.of_nat (idx a))))))).
  - apply csumn_swap.
  - intros j _. rewrite IH, csumn_scal_r. reflexivity.
Qed.
Lemma fftn_sub s axes f g : forall idx, fftn s axes (fun i => csub (f i) (g i)) idx = csub (fftn s axes f idx) (fftn s axes g idx).
Proof.
  induction axes as [|a r IH]; intros idx; simpl; [reflexivity|]. unfold dft_ax, dft.
  assert (Q : forall n (u v : nat -> C), csub (csumn n u) (csumn n v) = csumn n (fun i => csub (u i) (v i))).
  { intros n u v. induction n as [|n I]; [rewrite !csumn_O; ring|rewrite !csumn_S, <- I; ring]. }
  rewrite Q. apply csumn_ext. intros j _. rewrite IH. ring.
Qed.
Lemma rfftn_sumn s r l N (f : nat -> index -> R) idx : rfftn s (r ++ [l]) (fun i => sumn N (fun j => f j i)) idx = csumn N (fun j => rfftn s (r ++ [l]) (f j) idx).
Proof.
  rewrite rfftn_fftn. rewrite (csumn_ext N _ (fun j => fftn s (r ++ [l]) (fun i => ofR (f j i)) idx)) by (intros; rewrite rfftn_fftn; reflexivity).
  rewrite <- fftn_csumn. apply (f_equal (fun g => fftn s (r ++ [l]) g idx)). extensionality i. rewrite csumn_ofR. reflexivity.
Qed.
Lemma rfftn_sub s r l f g idx : rfftn s (r ++ [l]) (fun i => f i - g i) idx = csub (rfftn s (r ++ [l]) f idx) (rfftn s (r ++ [l]) g idx).
Proof.
  rewrite !rfftn_fftn, <- fftn_sub. apply (f_equal (fun h => fftn s (r ++ [l]) h idx)). extensionality i. ceq; ring.
Qed.
